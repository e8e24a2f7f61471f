(** * Dumper: model of /repo/typedload/datadumper.py

    Same conventions as [Loader].  The dumper does not wrap exceptions: the
    only typedload exception it raises is the TypedloadValueError of
    [Dumper.index]; every other exception is raw. *)

From Verif Require Export Loader.

(** What a custom dump handler can do: return, raise, or call [dumper.dump]
    and continue with the outcome. *)
Inductive dprog : Type :=
| DPRet (v : value)
| DPRaise (e : exn)
| DPDump (v : value) (t : ty) (k : value + exn -> dprog).

(** The second components of the handlers list (datadumper.py 142-154).
    [DEnum], [DDict], [DStr] are the lambdas of lines 147, 148, 153. *)
Inductive dhandler : Type :=
| DIdent | DNamedTuple | DDataclass | DIter | DEnum | DDict | DAttrs
| DDatetime | DTimedelta | DPattern | DStr
| DCustom (f : value -> ty -> dprog).

(** The settings of a Dumper (datadumper.py 112-154) *)
Record dconfig : Type := mkDConfig {
  d_basic : list cid;
  d_hide : bool;          (* hidedefault *)
  d_iso : bool;           (* isodates *)
  d_rce : bool;           (* raiseconditionerrors *)
  d_mk : string;          (* mangle_key *)
  d_handlers : list ((value -> pyres bool) * dhandler)
}.

(** what _dataclasscache holds (datadumper.py 157, 272): fields, defaults,
    type hints *)
Record dcinfo : Type := mkDcinfo {
  dc_fields : list string;
  dc_defaults : list (string * value);
  dc_hints : list (string * ty)
}.

(** the caches (datadumper.py 156-157) *)
Record dstate : Type := mkDState {
  ds_cache : list (cid * dhandler);
  ds_dc : list (cid * dcinfo)
}.
Definition dfresh : dstate := mkDState [] [].

Notation DM := (MS dstate).

Section DHandlers.
  Variable w : world.

  Definition is_date_or_time (v : value) : bool := isinstance w v CDate || isinstance w v CTime.
  Definition has_dc (v : value) : bool :=
    match ci_dc (class_of w (type_of v)) with Some _ => true | None => false end.
  Definition has_attrs (v : value) : bool :=
    match ci_attrs (class_of w (type_of v)) with Some _ => true | None => false end.

  (** datadumper.py 142-154: the default handlers *)
  Definition default_dhandlers (basic strcons : list cid)
    : list ((value -> pyres bool) * dhandler) :=
    let c (f : value -> bool) : value -> pyres bool := fun v => POk (f v) in
    [ (c (fun v => mem_cid (type_of v) basic), DIdent);
      (c (fun v => match v with VNT _ _ => true | _ => false end), DNamedTuple);
      (c has_dc, DDataclass);
      (c (fun v => match v with VList _ | VTuple _ | VSet _ | VFrozen _ | VNT _ _ => true | _ => false end), DIter);
      (c (fun v => match v with VEnum _ _ _ => true | _ => false end), DEnum);
      (c (fun v => match v with VDict _ => true | _ => false end), DDict);
      (c has_attrs, DAttrs);
      (c is_date_or_time, DDatetime);
      (c (fun v => isinstance w v CTimedelta), DTimedelta);
      (c (fun v => isinstance w v CPattern), DPattern);
      (c (fun v => mem_cid (type_of v) strcons), DStr) ].
End DHandlers.

Section Dump.
  Variable w : world.
  Variable cfg : dconfig.

  (** datadumper.py 178: the exception raised when no condition matches.  The
      message is ['Unable to dump %s' % value], and a tuple there is the list of
      the arguments of the format, so that the formatting itself raises TypeError
      unless the tuple has exactly one item. *)
  Definition cannot_dump (v : value) : exn :=
    let tl := XTL KValue (MCustom "Unable to dump") [] (Some v) (Some (TClass (type_of v))) [] in
    match v with
    | VTuple [_] | VNT _ [_] => tl
    | VTuple _ | VNT _ _ => XRaw RType
    | _ => tl
    end.

  (** datadumper.py 162-178: Dumper.index; [inl]: position, [inr]: what is
      raised *)
  Fixpoint dindex_from (hs : list ((value -> pyres bool) * dhandler)) (v : value) (i : nat) : nat + exn :=
    match hs with
    | [] => inr (cannot_dump v)
    | (c, _) :: hs' =>
        match c v with
        | PExc r => if d_rce cfg then inr (XRaw r) else dindex_from hs' v (S i)
        | POk true => inl i
        | POk false => dindex_from hs' v (S i)
        end
    end.
  Definition dindex (v : value) : nat + exn := dindex_from (d_handlers cfg) v 0.

  (** [self.handlers[self.index(value)][1]] (191-192) *)
  Definition dfind (v : value) : dhandler + exn :=
    match dindex v with
    | inr e => inr e
    | inl i => match nth_error (d_handlers cfg) i with
               | Some (_, h) => inl h
               | None => inr (XRaw RIndex)
               end
    end.

  (** the recursive calls: running a handler on a value and an annotation *)
  Variable dcall : dhandler -> value -> ty -> DM value.

  (** 180-205: Dumper.dump.  Handlers of two parameters (194-201) are not
      distinguished from handlers ignoring the third. *)
  Definition dump_with (v : value) (t : ty) : DM value :=
    h <- (fun s =>
            match cid_get (type_of v) (ds_cache s) with
            | Some h => (Ok h, s)
            | None =>
                match dfind v with
                | inl h => (Ok h, mkDState ((type_of v, h) :: ds_cache s) (ds_dc s))
                | inr e => (Exc e, s)
                end
            end) ;;
    dcall h v t.

  (** external name of a field: metadata.get(mangle_key, name) (219, 277) *)
  Definition ext_name (f : field) : string :=
    match str_get (d_mk cfg) (f_meta f) with Some n => n | None => f_name f end.

  Definition getattr (v : value) (n : string) : pyres value :=
    match v with
    | VObj _ fs | VNT _ fs => match str_get n fs with Some x => POk x | None => PExc RAttr end
    | _ => PExc RAttr
    end.

  (** 214-218: is an attrs attribute hidden?  A default which is a plain
      value is compared; a factory is called without arguments, which fails
      if it takes self. *)
  Definition attr_hidden (f : field) (x : value) : pyres bool :=
    if d_hide cfg then
      match f_default f with
      | DNo => POk false
      | DValue d | DFactory d => POk (py_eqb x d)
      | DFactorySelf _ => PExc RType
      end
    else POk false.

  (** 208-221 *)
  Fixpoint attr_loop (v : value) (fs : list field) (acc : list (value * value)) : DM value :=
    match fs with
    | [] => ret (VDict acc)
    | f :: fs' =>
        x <- lift (getattr v (f_name f)) ;;
        if negb (f_repr f) then attr_loop v fs' acc
        else
          hid <- lift (attr_hidden f x) ;;
          if hid : bool then attr_loop v fs' acc
          else y <- dump_with x TAny ;;
               attr_loop v fs' (dict_set (VStr (ext_name f)) y acc)
    end.
  Definition attrdump (v : value) : DM value :=
    match ci_attrs (class_of w (type_of v)) with
    | Some fs => attr_loop v fs []
    | None => raise (XRaw RAttr)
    end.

  (** 224-242.  The payload of a date / time / datetime is the tuple of its
      components; for time and datetime the last component is tzinfo. *)
  Definition datetimedump (v : value) : DM value :=
    if d_iso cfg then ret (VStr (w_iso w v))
    else
      match v with
      | VInst _ (VTuple l) =>
          if isinstance w v CDate && negb (isinstance w v CDatetime) then ret (VList l)
          else match last l VNone with
               | VNone => ret (VList (removelast l))
               | _ => raise (XRaw RNotImpl)
               end
      | _ => raise (XRaw RAttr)
      end.

  (** 245-246 *)
  Definition timedeltadump (v : value) : DM value := ret (w_seconds w v).

  (** 249-250 *)
  Definition patterndump (v : value) : DM value :=
    match v with VInst _ p => ret p | _ => raise (XRaw RAttr) end.

  (** 253-259 *)
  Fixpoint nt_loop (defaults : list (string * option value)) (fs : list (string * value))
           (acc : list (value * value)) : DM value :=
    match fs with
    | [] => ret (VDict acc)
    | (k, x) :: fs' =>
        if d_hide cfg && match str_get k defaults with
                         | Some (Some d) => py_eqb d x
                         | _ => false
                         end
        then nt_loop defaults fs' acc
        else y <- dump_with x TAny ;; nt_loop defaults fs' (dict_set (VStr k) y acc)
    end.
  Definition namedtupledump (v : value) : DM value :=
    match v with
    | VNT c fs => nt_loop (match ci_nt (class_of w c) with Some l => l | None => [] end) fs []
    | _ => raise (XRaw RAttr)
    end.

  (** 267-271: what is computed for a dataclass and then cached.  A dataclass
      field has either a default or a factory of no arguments. *)
  Definition dc_info (c : cid) (fs : list field) : pyres dcinfo :=
    let defaults :=
      flat_map (fun f => match f_default f with
                         | DValue d | DFactory d => [(f_name f, d)]
                         | _ => []
                         end) fs in
    match ci_ihints (class_of w c) with
    | PExc r => PExc r
    | POk hints => POk (mkDcinfo (set_iter w (map f_name fs)) defaults hints)
    end.

  (** 276-280 *)
  Fixpoint dc_loop (v : value) (fs : list field) (info : dcinfo) (names : list string)
           (acc : list (value * value)) : DM value :=
    match names with
    | [] => ret (VDict acc)
    | k :: names' =>
        match find (fun f => String.eqb (f_name f) k) fs with
        | None => raise (XRaw RKey)
        | Some f =>
            x <- lift (getattr v k) ;;
            if d_hide cfg && match str_get k (dc_defaults info) with
                             | Some d => py_eqb d x
                             | None => false
                             end
            then dc_loop v fs info names' acc
            else y <- dump_with x (match str_get k (dc_hints info) with Some h => h | None => TAny end) ;;
                 dc_loop v fs info names' (dict_set (VStr (ext_name f)) y acc)
        end
    end.

  (** 262-280.  [fields] is a set, iterated in any order.  Simplification:
      with hidedefault off getattr is not evaluated by the
      filter but is evaluated to dump, so an unset attribute raises in both
      cases. *)
  Definition dataclassdump (v : value) : DM value :=
    let c := type_of v in
    match ci_dc (class_of w c) with
    | None => raise (XRaw RAttr)
    | Some fs =>
        info <- (fun s =>
                   match cid_get c (ds_dc s) with
                   | Some i => (Ok i, s)
                   | None =>
                       match dc_info c fs with
                       | POk i => (Ok i, mkDState (ds_cache s) ((c, i) :: ds_dc s))
                       | PExc r => (Exc (XRaw r), s)
                       end
                   end) ;;
        dc_loop v fs info (dc_fields info) []
    end.

  (** 283-289: the type of the items, according to the annotation *)
  Definition item_type (t : ty) : ty :=
    match t with
    | TGen _ _ (Some [x]) => x
    | TGen _ _ (Some [x; TEllipsis]) => x
    | _ => TAny
    end.

  (** 291: the default handler for the basic types is still the first one *)
  Definition ident_first : bool :=
    match d_handlers cfg with (_, DIdent) :: _ => true | _ => false end.

  Fixpoint dump_list (l : list value) (acc : list value) : DM value :=
    match l with
    | [] => ret (VList acc)
    | x :: l' => y <- dump_with x TAny ;; dump_list l' (acc ++ [y])
    end.

  (** 282-300 *)
  Definition iteratordump (v : value) (t : ty) : DM value :=
    match iter v with
    | None => raise (XRaw RType)
    | Some l =>
        if in_classes (d_basic cfg) (item_type t) && ident_first then ret (VList l)
        else dump_list l []
    end.

  (** 148: the lambda for dictionaries *)
  Fixpoint dict_loop (d : list (value * value)) (acc : list (value * value)) : DM value :=
    match d with
    | [] => ret (VDict acc)
    | (k, x) :: d' =>
        k' <- dump_with k TAny ;;
        x' <- dump_with x TAny ;;
        if hashable w k' then dict_loop d' (dict_set k' x' acc)
        else raise (XRaw RType)
    end.

  Fixpoint run_dprog (p : dprog) : DM value :=
    match p with
    | DPRet v => ret v
    | DPRaise e => raise e
    | DPDump v t k => o <- attempt (dump_with v t) ;; run_dprog (k o)
    end.

  (** calling the function of a handler *)
  Definition dbody (h : dhandler) (v : value) (t : ty) : DM value :=
    match h with
    | DIdent => ret v                                  (* 303-304 *)
    | DNamedTuple => namedtupledump v
    | DDataclass => dataclassdump v
    | DIter => iteratordump v t
    | DEnum => match v with                            (* 147 *)
               | VEnum _ _ x => dump_with x TAny
               | _ => raise (XRaw RAttr)
               end
    | DDict => match v with
               | VDict d => dict_loop d []
               | _ => raise (XRaw RAttr)
               end
    | DAttrs => attrdump v
    | DDatetime => datetimedump v
    | DTimedelta => timedeltadump v
    | DPattern => patterndump v
    | DStr => ret (VStr (w_str w v))                   (* 153 *)
    | DCustom f => run_dprog (f v t)
    end.
End Dump.

Fixpoint drun (w : world) (cfg : dconfig) (n : nat) (h : dhandler) (v : value) (t : ty) {struct n} : DM value :=
  match n with
  | 0 => fun s => (OOF, s)
  | S n' => dbody w cfg (drun w cfg n') h v t
  end.

(** Dumper.dump(value, annotated_type) with recursion budget [n] *)
Definition dump_ann (w : world) (cfg : dconfig) (n : nat) (v : value) (t : ty) : DM value :=
  dump_with cfg (drun w cfg n) v t.
(** Dumper.dump(value) *)
Definition dump (w : world) (cfg : dconfig) (n : nat) (v : value) : DM value :=
  dump_ann w cfg n v TAny.

(** A Dumper with the default handlers *)
Definition dstd (w : world) (basic strcons : list cid) (hide iso rce : bool) (mk : string) : dconfig :=
  mkDConfig basic hide iso rce mk (default_dhandlers w basic strcons).
(** datadumper.py 129-140 *)
Definition default_dstrcons : list cid :=
  map CUser ["Path"; "PosixPath"; "WindowsPath"; "IPv4Address"; "IPv6Address";
             "IPv4Network"; "IPv6Network"; "IPv4Interface"; "IPv6Interface"; "UUID"].
(** Dumper() *)
Definition default_dconfig (w : world) : dconfig :=
  dstd w default_basic default_dstrcons true false true "name".
