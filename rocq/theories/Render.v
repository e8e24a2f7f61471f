(** * Render: model of TypedloadException.__str__ (/repo/typedload/exceptions.py 104-146) *)

From Verif Require Export Loader.

(** The strings Python computes for messages, types and values.  Assumed to
    be total: a custom __str__ which raises is not modelled. *)
Record printer : Type := mkPrinter {
  p_msg : msg -> string;
  p_ty : ty -> string;        (* str(type) *)
  p_val : value -> string     (* str(v) *)
}.

(** decimal notation *)
Definition nl : string := String (Ascii.ascii_of_nat 10) EmptyString.
Definition digit (n : nat) : string :=
  String (Ascii.ascii_of_nat (48 + n mod 10)) EmptyString.
Fixpoint dec_aux (fuel n : nat) : string :=
  match fuel with
  | 0 => EmptyString
  | S fuel' => if Nat.ltb n 10 then digit n
               else String.append (dec_aux fuel' (n / 10)) (digit n)
  end.
Definition dec (n : nat) : string := dec_aux (S n) n.
Fixpoint zdec_aux (fuel : nat) (p : Z) : string :=
  match fuel with
  | 0 => EmptyString
  | S fuel' => if Z.ltb p 10 then digit (Z.to_nat p)
               else String.append (zdec_aux fuel' (p / 10)) (digit (Z.to_nat (p mod 10)))
  end.
Definition zdec (z : Z) : string :=
  if Z.ltb z 0 then String.append "-" (zdec_aux (S (Z.to_nat (Z.log2 (- z)))) (- z))
  else zdec_aux (S (Z.to_nat (Z.log2 z))) z.

Section Render.
  Variable P : printer.

  (** exceptions.py 111-114: one component; integers, which include booleans,
      are written as [n] *)
  Definition path_item (a : option ann) : string :=
    match a with
    | None => "None"
    | Some (AnField k) => k
    | Some (AnIndex i) => ("[" ++ dec i ++ "]")%string
    | Some (AnForward n) => n
    | Some (AnKey v) | Some (AnValue v) =>
        match v with
        | VInt z => ("[" ++ zdec z ++ "]")%string
        | VBool b => ("[" ++ zdec (if b then 1 else 0) ++ "]")%string
        | VStr s => s
        | _ => p_val P v
        end
    | Some (AnUnion t) => p_ty P t
    end.

  (** exceptions.py 104-119 *)
  Definition path (tr : list titem) : string :=
    let items := map (fun i => path_item (snd i)) tr in
    match items with
    | [x] => if String.eqb x "None" then "." else x
    | x :: ((_ :: _) as rest) =>
        if String.eqb x "None" then String.concat "." ("" :: rest)
        else String.concat "." items
    | [] => ""
    end.

  Fixpoint spaces (n : nat) : string :=
    match n with 0 => "" | S n' => ("  " ++ spaces n')%string end.

  (** exceptions.py 134-139: there is one argument, the description *)
  Definition firstline (m : msg) (indent : nat) : string := (spaces indent ++ p_msg P m)%string.

  (** exceptions.py 121-132; [tr] is self.trace.  The parameter [trace] is
      not used by the code.  A sub exception which is not a
      TypedloadException has no _firstline. *)
  Fixpoint subexceptions (indent : nat) (e : exn) {struct e} : pyres string :=
    match e with
    | XRaw _ => PExc RAttr
    | XTL _ _ tr _ _ subs =>
        (fix go (l : list exn) (acc : string) : pyres string :=
           match l with
           | [] => POk acc
           | x :: l' =>
               match x with
               | XRaw _ => PExc RAttr
               | XTL _ m tr' _ _ subs' =>
                   let acc1 := (acc ++ firstline m (S indent) ++ nl)%string in
                   let acc2 := (acc1 ++ spaces indent ++ "  Path: " ++ path (tr ++ tl tr') ++ nl)%string in
                   match subs' with
                   | [] => go l' acc2
                   | _ :: _ => match subexceptions (S indent) x with
                               | POk s => go l' (acc2 ++ s)%string
                               | PExc r => PExc r
                               end
                   end
               end
           end) subs (spaces indent ++ "Exceptions:" ++ nl)%string
    end.

  (** str.rstrip() *)
  Definition is_space (c : Ascii.ascii) : bool :=
    existsb (Ascii.eqb c) (map Ascii.ascii_of_nat [9; 10; 11; 12; 13; 28; 29; 30; 31; 32; 133; 160]).
  Fixpoint rstrip (s : string) : string :=
    match s with
    | EmptyString => EmptyString
    | String c s' =>
        match rstrip s' with
        | EmptyString => if is_space c then EmptyString else String c EmptyString
        | r => String c r
        end
    end.

  (** exceptions.py 141-146 *)
  Definition str_exn (e : exn) : pyres string :=
    match e with
    | XRaw _ => PExc RAttr
    | XTL _ m tr _ _ subs =>
        let head := (firstline m 0 ++ nl ++ "Path: " ++ path tr)%string in
        match subs with
        | [] => POk head
        | _ :: _ => match subexceptions 0 e with
                    | POk s => POk (head ++ nl ++ rstrip s)%string
                    | PExc r => PExc r
                    end
        end
    end.
End Render.
