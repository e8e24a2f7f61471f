(** * Py: the fragment of Python's data model that typedload observes.

    Nothing in this file is typedload code: it is the part of the Python 3.11
    runtime that the code in /repo/typedload relies on (objects, classes,
    annotations, equality, hashing, dictionaries, exceptions).
    Simplifications are listed at each definition and in DESIGN.md. *)

From Coq Require Export List Ascii String ZArith Bool Arith Lia Permutation.
Export ListNotations.
Open Scope string_scope.
Open Scope list_scope.

(** ** Classes *)

(** Class objects.  The built-in ones typedload names explicitly, plus any
    other class, identified by a unique string ([CUser]).  pathlib.Path,
    ipaddress.*, uuid.UUID (dataloader.py 188-197) are [CUser]. *)
Inductive cid : Type :=
| CNone | CBool | CInt | CFloat | CStr | CBytes
| CList | CTuple | CSet | CFrozen | CDict | CNamespace
| CDate | CTime | CDatetime | CTimedelta | CPattern
| CUser (n : string).

(** Floats: finite floats are m*2^e (not normalised); -0.0 is identified
    with 0.0. *)
Inductive pyfloat : Type :=
| FFin (m e : Z)
| FInf (neg : bool)
| FNan.

(** ** Objects

    Containers hold their items in iteration order.  Not modelled: identity
    of objects, mutation of the input by the caller, cyclic objects,
    generators (values can be iterated more than once), subclasses of the
    built-in containers, strings with code points above 255. *)
Inductive value : Type :=
| VNone
| VBool (b : bool)
| VInt (z : Z)
| VFloat (f : pyfloat)
| VStr (s : string)
| VBytes (s : string)
| VList (l : list value)
| VTuple (l : list value)
| VSet (l : list value)
| VFrozen (l : list value)
| VDict (d : list (value * value))
| VNamespace (d : list (string * value))       (* argparse.Namespace *)
| VNT (c : cid) (fs : list (string * value))   (* NamedTuple instance *)
| VObj (c : cid) (fs : list (string * value))  (* dataclass / attrs instance *)
| VEnum (c : cid) (m : string) (v : value)     (* enum member c.m, with its .value *)
| VInst (c : cid) (payload : value).           (* instance of any other class:
     Path, IPv4Address, UUID (payload: canonical string), date / time /
     datetime (payload: tuple of the components, tzinfo last), timedelta,
     re.Pattern (payload: the pattern, str or bytes) *)

(** ** Annotations (what is passed as [type_])

    [TGen native o args] is a parametrised generic, [args] being [__args__];
    [native] tells [list[int]] / [int | str] from [List[int]] / [Union[int, str]].
    [args = None] is the bare [typing.List], which has [__origin__] but no
    [__args__].  [TObj] is any other object found in an annotation (for
    instance the [None] of an untyped attrs field).
    Simplification: types are compared structurally, while in CPython
    [Union[A, B] == Union[B, A]]; the one table of the Loader where that matters
    uses [same_type] (Loader.v). *)
Inductive origin : Type :=
| OList | OSet | OFrozen | OTuple | ODict | OUnion | OPattern | ONotRequired
| OOther (s : string).

Inductive ty : Type :=
| TClass (c : cid)
| TGen (native : bool) (o : origin) (args : option (list ty))
| TLiteral (vals : list value)
| TEllipsis
| TForward (s : string)
| TAny
| TNewType (name : string) (super : ty)
| TObj (s : string).

(** ** Induction principles for the nested types *)

Section value_ind.
  Variable P : value -> Prop.
  Hypothesis HNone : P VNone.
  Hypothesis HBool : forall b, P (VBool b).
  Hypothesis HInt : forall z, P (VInt z).
  Hypothesis HFloat : forall f, P (VFloat f).
  Hypothesis HStr : forall s, P (VStr s).
  Hypothesis HBytes : forall s, P (VBytes s).
  Hypothesis HList : forall l, Forall P l -> P (VList l).
  Hypothesis HTuple : forall l, Forall P l -> P (VTuple l).
  Hypothesis HSet : forall l, Forall P l -> P (VSet l).
  Hypothesis HFrozen : forall l, Forall P l -> P (VFrozen l).
  Hypothesis HDict : forall d, Forall (fun kv => P (fst kv) /\ P (snd kv)) d -> P (VDict d).
  Hypothesis HNs : forall d, Forall (fun kv => P (snd kv)) d -> P (VNamespace d).
  Hypothesis HNT : forall c d, Forall (fun kv => P (snd kv)) d -> P (VNT c d).
  Hypothesis HObj : forall c d, Forall (fun kv => P (snd kv)) d -> P (VObj c d).
  Hypothesis HEnum : forall c m v, P v -> P (VEnum c m v).
  Hypothesis HInst : forall c v, P v -> P (VInst c v).

  Fixpoint value_ind' (v : value) : P v :=
    let fix go (l : list value) : Forall P l :=
      match l with
      | [] => Forall_nil _
      | x :: l' => Forall_cons x (value_ind' x) (go l')
      end in
    let fix go2 (l : list (value * value)) : Forall (fun kv => P (fst kv) /\ P (snd kv)) l :=
      match l with
      | [] => Forall_nil _
      | (k, x) :: l' => Forall_cons (k, x) (conj (value_ind' k) (value_ind' x)) (go2 l')
      end in
    let fix gos (l : list (string * value)) : Forall (fun kv => P (snd kv)) l :=
      match l with
      | [] => Forall_nil _
      | (k, x) :: l' => Forall_cons (k, x) (value_ind' x) (gos l')
      end in
    match v with
    | VNone => HNone | VBool b => HBool b | VInt z => HInt z | VFloat f => HFloat f
    | VStr s => HStr s | VBytes s => HBytes s
    | VList l => HList l (go l) | VTuple l => HTuple l (go l)
    | VSet l => HSet l (go l) | VFrozen l => HFrozen l (go l)
    | VDict d => HDict d (go2 d) | VNamespace d => HNs d (gos d)
    | VNT c d => HNT c d (gos d) | VObj c d => HObj c d (gos d)
    | VEnum c m x => HEnum c m x (value_ind' x)
    | VInst c x => HInst c x (value_ind' x)
    end.
End value_ind.

Section ty_ind.
  Variable P : ty -> Prop.
  Hypothesis HClass : forall c, P (TClass c).
  Hypothesis HGenN : forall n o, P (TGen n o None).
  Hypothesis HGen : forall n o l, Forall P l -> P (TGen n o (Some l)).
  Hypothesis HLit : forall l, P (TLiteral l).
  Hypothesis HEll : P TEllipsis.
  Hypothesis HFwd : forall s, P (TForward s).
  Hypothesis HAny : P TAny.
  Hypothesis HNew : forall n t, P t -> P (TNewType n t).
  Hypothesis HObj : forall s, P (TObj s).

  Fixpoint ty_ind' (t : ty) : P t :=
    let fix go (l : list ty) : Forall P l :=
      match l with
      | [] => Forall_nil _
      | x :: l' => Forall_cons x (ty_ind' x) (go l')
      end in
    match t with
    | TClass c => HClass c
    | TGen n o None => HGenN n o
    | TGen n o (Some l) => HGen n o l (go l)
    | TLiteral l => HLit l
    | TEllipsis => HEll
    | TForward s => HFwd s
    | TAny => HAny
    | TNewType n t => HNew n t (ty_ind' t)
    | TObj s => HObj s
    end.
End ty_ind.

(** ** Decidable structural equality *)

Definition cid_eq_dec : forall a b : cid, {a = b} + {a <> b}.
Proof. decide equality; apply string_dec. Defined.
Definition pyfloat_eq_dec : forall a b : pyfloat, {a = b} + {a <> b}.
Proof. decide equality; try apply Z.eq_dec; apply bool_dec. Defined.
Definition origin_eq_dec : forall a b : origin, {a = b} + {a <> b}.
Proof. decide equality; apply string_dec. Defined.

Definition value_eq_dec : forall a b : value, {a = b} + {a <> b}.
Proof.
  fix IH 1. intros a b.
  assert (HL : forall x y : list value, {x = y} + {x <> y}).
  { fix HL 1. intros [|x xs] [|y ys]; [left; reflexivity|right; discriminate|right; discriminate|].
    destruct (IH x y) as [E|N]; [|right; congruence].
    destruct (HL xs ys) as [E2|N2]; [left; congruence|right; congruence]. }
  assert (HD : forall x y : list (value * value), {x = y} + {x <> y}).
  { fix HD 1. intros [|[k x] xs] [|[k' y] ys]; [left; reflexivity|right; discriminate|right; discriminate|].
    destruct (IH k k') as [E0|N]; [|right; congruence].
    destruct (IH x y) as [E|N]; [|right; congruence].
    destruct (HD xs ys) as [E2|N2]; [left; congruence|right; congruence]. }
  assert (HS : forall x y : list (string * value), {x = y} + {x <> y}).
  { fix HS 1. intros [|[k x] xs] [|[k' y] ys]; [left; reflexivity|right; discriminate|right; discriminate|].
    destruct (string_dec k k') as [E0|N]; [|right; congruence].
    destruct (IH x y) as [E|N]; [|right; congruence].
    destruct (HS xs ys) as [E2|N2]; [left; congruence|right; congruence]. }
  destruct a, b; try (right; discriminate);
    try (left; reflexivity);
    try (destruct (bool_dec b b0); [left; congruence | right; congruence]);
    try (destruct (Z.eq_dec z z0); [left; congruence | right; congruence]);
    try (destruct (pyfloat_eq_dec f f0); [left; congruence | right; congruence]);
    try (destruct (string_dec s s0); [left; congruence | right; congruence]);
    try (destruct (HL l l0); [left; congruence | right; congruence]);
    try (destruct (HD d d0); [left; congruence | right; congruence]);
    try (destruct (HS d d0); [left; congruence | right; congruence]);
    try (destruct (cid_eq_dec c c0); [|right; congruence];
         destruct (HS fs fs0); [left; congruence | right; congruence]);
    try (destruct (cid_eq_dec c c0); [|right; congruence];
         destruct (string_dec m m0); [|right; congruence];
         destruct (IH a b); [left; congruence | right; congruence]);
    try (destruct (cid_eq_dec c c0); [|right; congruence];
         destruct (IH a b); [left; congruence | right; congruence]).
Defined.

Definition ty_eq_dec : forall a b : ty, {a = b} + {a <> b}.
Proof.
  fix IH 1. intros a b.
  assert (HL : forall x y : list ty, {x = y} + {x <> y}).
  { fix HL 1. intros [|x xs] [|y ys]; [left; reflexivity|right; discriminate|right; discriminate|].
    destruct (IH x y) as [E|N]; [|right; congruence].
    destruct (HL xs ys) as [E2|N2]; [left; congruence|right; congruence]. }
  destruct a as [c|n o args|l| |s| |n t|s], b as [c'|n' o' args'|l'| |s'| |n' t'|s'];
    try (right; discriminate); try (left; reflexivity).
  - destruct (cid_eq_dec c c'); [left|right]; congruence.
  - destruct (bool_dec n n'); [|right; congruence].
    destruct (origin_eq_dec o o'); [|right; congruence].
    destruct args as [xs|], args' as [ys|]; try (right; discriminate); [|left; congruence].
    destruct (HL xs ys); [left|right]; congruence.
  - destruct (list_eq_dec value_eq_dec l l'); [left|right]; congruence.
  - destruct (string_dec s s'); [left|right]; congruence.
  - destruct (string_dec n n'); [|right; congruence].
    destruct (IH t t'); [left|right]; congruence.
  - destruct (string_dec s s'); [left|right]; congruence.
Defined.

Definition cid_eqb (a b : cid) : bool := if cid_eq_dec a b then true else false.
Definition ty_eqb (a b : ty) : bool := if ty_eq_dec a b then true else false.

Lemma cid_eqb_eq a b : cid_eqb a b = true <-> a = b.
Proof. unfold cid_eqb; destruct (cid_eq_dec a b); intuition congruence. Qed.
Lemma ty_eqb_eq a b : ty_eqb a b = true <-> a = b.
Proof. unfold ty_eqb; destruct (ty_eq_dec a b); intuition congruence. Qed.
Lemma ty_eqb_refl a : ty_eqb a a = true.
Proof. apply ty_eqb_eq; reflexivity. Qed.
Lemma cid_eqb_refl a : cid_eqb a a = true.
Proof. apply cid_eqb_eq; reflexivity. Qed.

(** membership tests, the [x in collection] of Python on types, classes, names *)
Definition mem_ty (t : ty) (l : list ty) : bool := existsb (ty_eqb t) l.
Definition mem_cid (c : cid) (l : list cid) : bool := existsb (cid_eqb c) l.
Definition mem_str (s : string) (l : list string) : bool := existsb (String.eqb s) l.

(** dictionaries keyed by types / names (the loader's caches, [frefs], hints):
    first entry wins on lookup *)
Fixpoint ty_get {A} (t : ty) (l : list (ty * A)) : option A :=
  match l with
  | [] => None
  | (t', a) :: l' => if ty_eqb t t' then Some a else ty_get t l'
  end.
(** the same members, in any order *)
Definition same_members (a b : list ty) : bool :=
  forallb (fun x => mem_ty x b) a && forallb (fun x => mem_ty x a) b.
(** [==] on types, as far as the dictionary of discriminators can tell: two
    unions with the same members are equal whatever their order and however
    they are written (typing._UnionGenericAlias.__eq__ and types.UnionType
    compare the sets of their members).  Simplification: the members themselves
    are compared structurally.  Python also identifies List[Union[A, B]] and
    List[Union[B, A]], but a union with a member that is not a class has no
    discriminator in either order. *)
Definition same_type (t t' : ty) : bool :=
  match t, t' with
  | TGen _ OUnion (Some a), TGen _ OUnion (Some b) => same_members a b
  | _, _ => ty_eqb t t'
  end.
Fixpoint same_get {A} (t : ty) (l : list (ty * A)) : option A :=
  match l with
  | [] => None
  | (t', a) :: l' => if same_type t t' then Some a else same_get t l'
  end.
Fixpoint str_get {A} (s : string) (l : list (string * A)) : option A :=
  match l with
  | [] => None
  | (s', a) :: l' => if String.eqb s s' then Some a else str_get s l'
  end.
Fixpoint cid_get {A} (c : cid) (l : list (cid * A)) : option A :=
  match l with
  | [] => None
  | (c', a) :: l' => if cid_eqb c c' then Some a else cid_get c l'
  end.
(** [d[s] = a]: an existing key keeps its position *)
Fixpoint str_set {A} (s : string) (a : A) (l : list (string * A)) : list (string * A) :=
  match l with
  | [] => [(s, a)]
  | (s', a') :: l' => if String.eqb s s' then (s', a) :: l' else (s', a') :: str_set s a l'
  end.

(** ** Python equality ([==]) *)

Definition float_eqb (a b : pyfloat) : bool :=
  match a, b with
  | FFin m e, FFin m' e' =>
      let k := Z.min e e' in
      Z.eqb (m * 2 ^ (e - k)) (m' * 2 ^ (e' - k))
  | FInf a, FInf b => Bool.eqb a b
  | _, _ => false
  end.

(** numbers compare across bool, int and float *)
Definition as_float (v : value) : option pyfloat :=
  match v with
  | VBool b => Some (FFin (if b then 1 else 0) 0)
  | VInt z => Some (FFin z 0)
  | VFloat f => Some f
  | _ => None
  end.

(** [a == b].  NamedTuple instances compare as tuples; dataclass and attrs
    instances compare field by field when they are of the same class.
    Simplifications: the identity shortcut of container comparison (visible
    only with NaN) is not modelled, nor are enums mixing in a data type
    (IntEnum), nor classes with a custom [__eq__]. *)
Fixpoint py_eqb (a b : value) {struct a} : bool :=
  let fix eql (xs ys : list value) : bool :=
    match xs, ys with
    | [], [] => true
    | x :: xs', y :: ys' => py_eqb x y && eql xs' ys'
    | _, _ => false
    end in
  let fix eqf (xs : list (string * value)) (ys : list value) : bool :=
    match xs, ys with
    | [], [] => true
    | (_, x) :: xs', y :: ys' => py_eqb x y && eqf xs' ys'
    | _, _ => false
    end in
  let fix eqs (xs ys : list (string * value)) : bool :=
    match xs, ys with
    | [], [] => true
    | (k, x) :: xs', (k', y) :: ys' => String.eqb k k' && (py_eqb x y && eqs xs' ys')
    | _, _ => false
    end in
  let fix sub (xs ys : list value) : bool :=
    match xs with
    | [] => true
    | x :: xs' => existsb (py_eqb x) ys && sub xs' ys
    end in
  let fix subd (xs ys : list (value * value)) : bool :=
    match xs with
    | [] => true
    | (k, x) :: xs' => existsb (fun kv => py_eqb k (fst kv) && py_eqb x (snd kv)) ys && subd xs' ys
    end in
  let fix subs (xs ys : list (string * value)) : bool :=
    match xs with
    | [] => true
    | (k, x) :: xs' => existsb (fun kv => String.eqb k (fst kv) && py_eqb x (snd kv)) ys && subs xs' ys
    end in
  match a, b with
  | VNone, VNone => true
  | VBool _, (VBool _ | VInt _ | VFloat _)
  | VInt _, (VBool _ | VInt _ | VFloat _)
  | VFloat _, (VBool _ | VInt _ | VFloat _) =>
      match as_float a, as_float b with
      | Some x, Some y => float_eqb x y
      | _, _ => false
      end
  | VStr x, VStr y => String.eqb x y
  | VBytes x, VBytes y => String.eqb x y
  | VList x, VList y => eql x y
  | VTuple x, VTuple y => eql x y
  | VTuple x, VNT _ y => eql x (map snd y)
  | VNT _ x, VTuple y => eqf x y
  | VNT _ x, VNT _ y => eqf x (map snd y)
  | (VSet x | VFrozen x), (VSet y | VFrozen y) =>
      Nat.eqb (List.length x) (List.length y) && sub x y
  | VDict x, VDict y => Nat.eqb (List.length x) (List.length y) && subd x y
  | VNamespace x, VNamespace y => Nat.eqb (List.length x) (List.length y) && subs x y
  | VObj c x, VObj c' y => cid_eqb c c' && eqs x y
  | VEnum c m _, VEnum c' m' _ => cid_eqb c c' && String.eqb m m'
  | VInst c x, VInst c' y => cid_eqb c c' && py_eqb x y
  | _, _ => false
  end.

(** [v in collection] for a tuple or list of values *)
Definition py_in (v : value) (l : list value) : bool := existsb (py_eqb v) l.

(** dict semantics: [d.get(k)] and [d[k] = x]; an equal key keeps its place
    and its original key object *)
Fixpoint dict_get (k : value) (d : list (value * value)) : option value :=
  match d with
  | [] => None
  | (k', x) :: d' => if py_eqb k k' then Some x else dict_get k d'
  end.
Fixpoint dict_set (k x : value) (d : list (value * value)) : list (value * value) :=
  match d with
  | [] => [(k, x)]
  | (k', x') :: d' => if py_eqb k k' then (k', x) :: d' else (k', x') :: dict_set k x d'
  end.
(** [s.add(x)] *)
Definition set_add (x : value) (l : list value) : list value :=
  if py_in x l then l else l ++ [x].

(** ** Classes of objects *)

(** [type(v)] *)
Definition type_of (v : value) : cid :=
  match v with
  | VNone => CNone | VBool _ => CBool | VInt _ => CInt | VFloat _ => CFloat
  | VStr _ => CStr | VBytes _ => CBytes | VList _ => CList | VTuple _ => CTuple
  | VSet _ => CSet | VFrozen _ => CFrozen | VDict _ => CDict | VNamespace _ => CNamespace
  | VNT c _ => c | VObj c _ => c | VEnum c _ _ => c | VInst c _ => c
  end.

(** ** Exceptions which do not come from typedload *)
Inductive rawkind : Type :=
| RValue | RType | RAttr | RIndex | RKey | RName | RStopIter | RReError
| ROverflow | RNotImpl | RAssert | ROther (s : string).

Inductive pyres (A : Type) : Type :=
| POk (a : A)
| PExc (r : rawkind).
Arguments POk {A} a.
Arguments PExc {A} r.

(** ** Class table

    What reflection on a class gives: [__annotations__], [get_type_hints],
    enum members, [_fields]/[_field_defaults], [__dataclass_fields__],
    [__attrs_attrs__], [__required_keys__], and how calling it behaves. *)

Inductive dflt : Type :=
| DNo                                            (* no default *)
| DValue (v : value)                             (* default=v *)
| DFactory (v : value)                           (* factory which returns (a new) v *)
| DFactorySelf (f : list (string * value) -> value).  (* attr.Factory(takes_self=True) *)

(** A dataclass field or attrs attribute.  [f_meta]: the metadata mapping,
    restricted to string values; [f_conv]: for attrs, the type hints of the
    converter function, if there is a converter. *)
Record field : Type := mkField {
  f_name : string;
  f_type : ty;
  f_default : dflt;
  f_init : bool;
  f_repr : bool;
  f_meta : list (string * string);
  f_conv : option (list (string * ty))
}.

Record classinfo : Type := mkClass {
  ci_bases : list cid;                            (* proper superclasses *)
  ci_ann : list (string * ty);                    (* __annotations__ *)
  ci_hints : pyres (list (string * ty));          (* typing.get_type_hints(cls) *)
  (* typing.get_type_hints(instance): the names are resolved without the
     globals of the module, so it can raise where the one above does not *)
  ci_ihints : pyres (list (string * ty));
  ci_enum : option (list (string * value));       (* enum members in order *)
  ci_nt : option (list (string * option value));  (* NamedTuple fields and defaults *)
  ci_dc : option (list field);                    (* __dataclass_fields__ *)
  ci_attrs : option (list field);                 (* __attrs_attrs__ *)
  ci_td : option (list string);                   (* TypedDict: __required_keys__ *)
  ci_hash : bool;                                 (* instances are hashable *)
  (* what runs after the fields are bound: __post_init__, attrs converters,
     validators; it can change the fields or raise *)
  ci_post : list (string * value) -> pyres (list (string * value))
}.

(** The Python runtime seen by typedload: the class table and the library
    functions typedload calls.  They are arbitrary functions: hypotheses
    about them are stated where a theorem needs them. *)
Record world : Type := mkWorld {
  w_class : string -> classinfo;               (* user classes *)
  w_call : ty -> value -> pyres value;         (* type_(value) *)
  w_fromiso : cid -> string -> pyres value;    (* date.fromisoformat etc. *)
  w_callargs : cid -> list value -> pyres value; (* type_( *value) for date/time/datetime *)
  w_timedelta : value -> pyres value;          (* timedelta(0, value) *)
  w_compile : value -> pyres value;            (* re.compile *)
  w_name : ty -> option string;                (* type_.__name__ if present *)
  w_pick : list string -> nat;                 (* which element set.pop() returns *)
  w_setorder : list string -> list string;     (* the order of set(l), see [set_iter] *)
  w_str : value -> string;                     (* str(v) of a strconstructed object *)
  w_iso : value -> string;                     (* v.isoformat() *)
  w_seconds : value -> value                   (* timedelta.total_seconds() *)
}.

(** Iterating over set(l), for a list of distinct strings [l]: the items of
    [l], in an order which is not specified ([w_setorder]; it depends on the
    hash seed of the process).  A world whose [w_setorder] is not a reordering
    of [l] keeps the order of [l]. *)
Definition reordering (l l' : list string) : bool :=
  forallb (fun k => Nat.eqb (count_occ string_dec l k) (count_occ string_dec l' k)) (l ++ l').
Definition set_iter (w : world) (l : list string) : list string :=
  let l' := w_setorder w l in if reordering l l' then l' else l.
Lemma set_iter_perm w l : Permutation (set_iter w l) l.
Proof.
  unfold set_iter. destruct (reordering l (w_setorder w l)) eqn:E; [|reflexivity].
  apply (Permutation_count_occ string_dec). intro x. symmetry. unfold reordering in E. rewrite forallb_forall in E.
  destruct (in_dec string_dec x (l ++ w_setorder w l)) as [I|N]; [apply Nat.eqb_eq, E; exact I|].
  assert (N1 : ~ In x l) by (intro I; apply N, in_or_app; auto).
  assert (N2 : ~ In x (w_setorder w l)) by (intro I; apply N, in_or_app; auto).
  rewrite (proj1 (count_occ_not_In string_dec l x) N1), (proj1 (count_occ_not_In string_dec _ x) N2). reflexivity.
Qed.

Definition no_class : classinfo :=
  mkClass [] [] (POk []) (POk []) None None None None None true (fun fs => POk fs).

Section Classes.
  Variable w : world.

  Definition class_of (c : cid) : classinfo :=
    match c with CUser n => w_class w n | _ => no_class end.

  (** superclasses, the class itself included *)
  Definition mro (c : cid) : list cid :=
    match c with
    | CBool => [CBool; CInt]
    | CDatetime => [CDatetime; CDate]
    | CUser n => CUser n :: ci_bases (w_class w n)
    | _ => [c]
    end.
  Definition isinstance (v : value) (c : cid) : bool := mem_cid c (mro (type_of v)).

  (** hash(v) does not raise *)
  Fixpoint hashable (v : value) : bool :=
    match v with
    | VList _ | VSet _ | VDict _ | VNamespace _ => false
    | VTuple l => forallb hashable l
    | VNT _ fs => forallb (fun kv => hashable (snd kv)) fs
    | VObj c _ => ci_hash (class_of c)
    | _ => true
    end.

  (** [iter(v)]: the items iterating over v gives; None: TypeError, not iterable *)
  Fixpoint chars (s : string) : list value :=
    match s with
    | EmptyString => []
    | String c s' => VStr (String c EmptyString) :: chars s'
    end.
  Fixpoint bytes_of (s : string) : list value :=
    match s with
    | EmptyString => []
    | String c s' => VInt (Z.of_nat (Ascii.nat_of_ascii c)) :: bytes_of s'
    end.
  Definition iter (v : value) : option (list value) :=
    match v with
    | VList l | VTuple l | VSet l | VFrozen l => Some l
    | VStr s => Some (chars s)
    | VBytes s => Some (bytes_of s)
    | VDict d => Some (map fst d)
    | VNT _ fs => Some (map snd fs)
    | _ => None
    end.

  (** ** Calling a class with keyword arguments: [type_( **params)] *)

  (** a default for a field, given the fields bound so far *)
  Definition default_of (d : dflt) (sofar : list (string * value)) : option value :=
    match d with
    | DNo => None
    | DValue v | DFactory v => Some v
    | DFactorySelf f => Some (f sofar)
    end.

  (** attrs strips the leading underscores from the name of the __init__ argument *)
  Fixpoint strip_underscore (s : string) : string :=
    match s with
    | String "_"%char s' => strip_underscore s'
    | _ => s
    end.

  (** NamedTuple: every field from the arguments or the defaults *)
  Fixpoint bind_nt (fs : list (string * option value)) (params : list (string * value))
    : option (list (string * value)) :=
    match fs with
    | [] => Some []
    | (k, d) :: fs' =>
        match str_get k params, d with
        | Some v, _ | None, Some v =>
            option_map (cons (k, v)) (bind_nt fs' params)
        | None, None => None
        end
    end.

  (** dataclass / attrs: init fields from the arguments or the defaults, other
      fields from the defaults when they have one (else left unset) *)
  Fixpoint bind_fields (argname : string -> string) (fs : list field)
           (params : list (string * value)) (sofar : list (string * value))
    : option (list (string * value)) :=
    match fs with
    | [] => Some sofar
    | f :: fs' =>
        if f_init f then
          match str_get (argname (f_name f)) params with
          | Some v => bind_fields argname fs' params (sofar ++ [(f_name f, v)])
          | None =>
              match default_of (f_default f) sofar with
              | Some v => bind_fields argname fs' params (sofar ++ [(f_name f, v)])
              | None => None
              end
          end
        else
          match default_of (f_default f) sofar with
          | Some v => bind_fields argname fs' params (sofar ++ [(f_name f, v)])
          | None => bind_fields argname fs' params sofar
          end
    end.

  Definition unexpected (allowed : list string) (params : list (string * value)) : bool :=
    existsb (fun kv => negb (mem_str (fst kv) allowed)) params.

  Definition construct_fields (argname : string -> string) (c : cid) (fs : list field)
             (params : list (string * value)) : pyres value :=
    if unexpected (map (fun f => argname (f_name f)) (filter f_init fs)) params
    then PExc RType
    else match bind_fields argname fs params [] with
         | None => PExc RType
         | Some vals =>
             match ci_post (class_of c) vals with
             | POk vals' => POk (VObj c vals')
             | PExc r => PExc r
             end
         end.

  Definition construct (t : ty) (params : list (string * value)) : pyres value :=
    match t with
    | TClass c =>
        let ci := class_of c in
        match ci_nt ci, ci_dc ci, ci_attrs ci, ci_td ci with
        | Some fs, _, _, _ =>
            if unexpected (map fst fs) params then PExc RType
            else match bind_nt fs params with
                 | Some vals => POk (VNT c vals)
                 | None => PExc RType
                 end
        | None, Some fs, _, _ => construct_fields (fun s => s) c fs params
        | None, None, Some fs, _ => construct_fields strip_underscore c fs params
        | None, None, None, Some _ => POk (VDict (map (fun kv => (VStr (fst kv), snd kv)) params))
        | None, None, None, None => PExc RType
        end
    | _ => PExc RType
    end.

  (** Calling an Enum class with a value: [E(v)].  A member of E is returned
      as it is; otherwise the first member whose value equals v; otherwise
      ValueError.  Custom [_missing_] is not modelled. *)
  Definition enum_call (c : cid) (members : list (string * value)) (v : value) : pyres value :=
    if cid_eqb (type_of v) c then POk v
    else match find (fun m => py_eqb v (snd m)) members with
         | Some (name, x) => POk (VEnum c name x)
         | None => PExc RValue
         end.
End Classes.
