(** * Messages: the texts of the errors of the loader

    Model of /repo/typedload/helpers.py 32-36 (tname) and of the texts given to the
    exceptions in /repo/typedload/dataloader.py. *)

From Verif Require Export Loader Render.

(** What Python computes: repr(v), the attribute __qualname__ of a type (classes have
    it, most of the objects of the typing module do not), str(t), and the order in which
    the items of a set of strings are printed *)
Record printing : Type := mkPrinting {
  q_repr : value -> string;
  q_qualname : ty -> option string;
  q_str : ty -> string;
  q_order : list string -> list string
}.

(** helpers.py 32-36 *)
Definition tname (p : printing) (t : ty) : string :=
  match q_qualname p t with Some s => s | None => q_str p t end.

(** str(s) of a set of strings *)
Definition set_text (p : printing) (l : list string) : string :=
  ("{" ++ String.concat ", " (map (fun s => q_repr p (VStr s)) (q_order p l)) ++ "}")%string.

(** dataloader.py 786-790: the end of the text for an Enum *)
Definition enum_text (w : world) (cfg : config) (p : printing) (v : value) (t : ty) : string :=
  match t with
  | TClass c =>
      match ci_enum (class_of w c) with
      | Some ms =>
          if Nat.leb (List.length ms) 10 && forallb (fun m => mem_cid (type_of (snd m)) (basictypes cfg)) ms
          then (nl ++ "Value " ++ q_repr p v ++ " not between: " ++ String.concat ", " (map (fun m => q_repr p (snd m)) ms))%string
          else ""
      | None => ""
      end
  | _ => ""
  end.

(** The description of an exception, e.args[0]; None: it is the text of an exception
    raised by Python, or of another exception (MNested).  The lines of dataloader.py are
    in the definition of [msg] (Loader.v). *)
Definition description (w : world) (cfg : config) (p : printing) (e : exn) : option string :=
  let n t := tname p t in
  match e with
  | XRaw _ => None
  | XTL _ m _ v _ _ =>
      match m with
      | MCannotDeal t => Some ("Cannot deal with value of type " ++ n t)%string
      | MFrefDisabled => Some "ForwardRef resolving is disabled for the loader"%string
      | MFrefUnknown s => Some ("ForwardRef '" ++ s ++ "' unknown")%string
      | MNotLiteral t => Some ("Not one of the allowed values in " ++ n t)%string
      | MPy _ => None
      | MGot x t => Some ("Got " ++ q_repr p x ++ " of type " ++ n (TClass (type_of x)) ++ ", expected " ++ n t)%string
      | MCannotKey k t => Some ("Cannot deal with value of type " ++ n k ++ " (key of " ++ n t ++ ")")%string
      | MCannotVal x t => Some ("Cannot deal with value of type " ++ n x ++ " (value of " ++ n t ++ ")")%string
      | MTooLong t => Some ("Value is too long for type " ++ n t)%string
      | MTooShort t => Some ("Value is too short for type " ++ n t)%string
      | MDictTuple => Some "Unable to load dictionary as a tuple"%string
      | MDictIter => Some "Unable to load dictionary as an iterable"%string
      | MNotSubclass => Some "Exception is not a subclass of TypedloadException. Make sure all handlers only raise TypedloadException"%string
      | MExtraField k => Some ("Extra field: " ++ k)%string
      | MMissing fs t =>
          Some ("Value does not contain fields: " ++ set_text p fs ++ " which are necessary for type " ++ n t)%string
      | MExtra ks t =>
          Some ("Dictionary has unrecognized fields: "
                  ++ String.concat ", " (q_order p (flat_map (fun k => match k with VStr s => [s] | _ => [] end) ks))
                  ++ " and cannot be loaded into " ++ n t)%string
      | MCtor _ => None
      | MUnion c t => Some ("Value of " ++ n (TClass c) ++ " could not be loaded into " ++ n t)%string
      | MConflict c t k => Some ("Value of " ++ n (TClass c) ++ " could be loaded into " ++ n t ++ " " ++ dec k ++ " times")%string
      | MEnum c t =>
          Some ("Value of " ++ n (TClass c) ++ " could not be loaded into " ++ n t
                  ++ match v with Some x => enum_text w cfg p x t | None => "" end)%string
      | MNotNone => Some "Not None"%string
      | MNested _ => None
      | MCustom s => Some s
      end
  end.
