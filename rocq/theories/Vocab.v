(** * Vocab: the words of the theorem statements (Properties*.v)

    Definitions only.  They are about what a caller of the API observes
    (outcomes of calls on a loader with any history), about Python objects,
    annotations and the class table; only those about the caches (steady,
    resolves) look inside the state of the loader. *)

From Verif Require Import Loader Dumper Spec.

(** ** Loaders with the default handlers; calls and their outcomes *)

(** the default handlers; every other setting is free *)
Definition is_std (w : world) (basic strcons : list cid) (cfg : config) : Prop :=
  handlers cfg = default_handlers w basic strcons /\ basictypes cfg = basic.

(** the settings which can be changed at any time: basiccast, failonextra,
    dictequivalence, uniondebugconflict *)
Definition adjusted (cfg cfg' : config) : Prop :=
  handlers cfg' = handlers cfg /\ basictypes cfg' = basictypes cfg /\
  raiseconditionerrors cfg' = raiseconditionerrors cfg /\
  mangle_key cfg' = mangle_key cfg /\ pep563 cfg' = pep563 cfg.

(** [s] is the state of a Loader with these settings after any sequence of
    calls of load, and of changes of the settings above *)
Inductive used (w : world) : config -> lstate -> Prop :=
| used_new cfg frefs stripped : used w cfg (fresh frefs stripped)
| used_again cfg n v t s : used w cfg s -> used w cfg (snd (load w cfg n v t s))
| used_set cfg cfg' s : used w cfg s -> adjusted cfg cfg' -> used w cfg' s.

(** calling load(v, t) in the state [s] finishes, and [r] is what it returns or
    raises; the recursion budget of the model disappears (see C41) *)
Definition loads (w : world) (cfg : config) (s : lstate) (v : value) (t : ty) (r : res value) : Prop :=
  r <> OOF /\ exists n, fst (load w cfg n v t s) = r.

(** the same, [s'] being the state in which load leaves the loader *)
Definition ends (w : world) (cfg : config) (s : lstate) (v : value) (t : ty) (r : res value) (s' : lstate) : Prop :=
  r <> OOF /\ exists n, load w cfg n v t s = (r, s').

(** [s'] is the state after any sequence of loads which started in [s] *)
Inductive later (w : world) (cfg : config) (s : lstate) : lstate -> Prop :=
| later_same : later w cfg s s
| later_load cfg' n v t s' : later w cfg s s' -> adjusted cfg cfg' -> later w cfg s (snd (load w cfg' n v t s')).

(** [r] is an exception of the class [k] *)
Definition raises (k : tlkind) (r : res value) : Prop :=
  exists m tr v t subs, r = Exc (XTL k m tr v t subs).

(** [r] is a TypedloadException of any class *)
Definition raises_tl (r : res value) : Prop :=
  exists k m tr v t subs, r = Exc (XTL k m tr v t subs).

Definition accepts (w : world) (cfg : config) (s : lstate) (v : value) (t : ty) : Prop :=
  exists r, loads w cfg s v t (Ok r).

Definition rejects (w : world) (cfg : config) (s : lstate) (v : value) (t : ty) : Prop :=
  exists e, loads w cfg s v t (Exc e).

(** some handler of the loader is for the type [t] *)
Definition supported (cfg : config) (t : ty) : Prop := exists i, loader_index cfg t = POk i.

(** load finishes *)
Definition finishes (w : world) (cfg : config) (s : lstate) (v : value) (t : ty) : Prop :=
  exists r, loads w cfg s v t r.

(** loading finishes, with a value or with an exception of typedload *)
Definition settles (w : world) (cfg : config) (s : lstate) (v : value) (t : ty) : Prop :=
  exists r, loads w cfg s v t r /\ ((exists y, r = Ok y) \/ raises_tl r).

(** the same outcome, except for what the exceptions tell about the data *)
Definition same_class (e1 e2 : exn) : Prop :=
  match e1, e2 with
  | XTL k1 _ _ _ _ _, XTL k2 _ _ _ _ _ => k1 = k2
  | XRaw r1, XRaw r2 => r1 = r2
  | _, _ => False
  end.

Definition same_outcome {A} (r1 r2 : res A) : Prop :=
  match r1, r2 with
  | Ok a, Ok b => a = b
  | Exc e1, Exc e2 => same_class e1 e2
  | OOF, OOF => True
  | _, _ => False
  end.

(** load(v1, t) and load(v2, t) have the same outcome *)
Definition load_alike (w : world) (cfg : config) (s : lstate) (v1 v2 : value) (t : ty) : Prop :=
  (forall r1, loads w cfg s v1 t r1 -> exists r2, loads w cfg s v2 t r2 /\ same_outcome r1 r2) /\
  (forall r2, loads w cfg s v2 t r2 -> exists r1, loads w cfg s v1 t r1 /\ same_outcome r1 r2).

(** the same for a Dumper; hidedefault, isodates and mangle_key can be changed
    at any time *)
Definition dadjusted (cfg cfg' : dconfig) : Prop :=
  d_handlers cfg' = d_handlers cfg /\ d_basic cfg' = d_basic cfg /\ d_rce cfg' = d_rce cfg.
Inductive dused (w : world) : dconfig -> dstate -> Prop :=
| dused_new cfg : dused w cfg dfresh
| dused_again cfg n v t s : dused w cfg s -> dused w cfg (snd (dump_ann w cfg n v t s))
| dused_set cfg cfg' s : dused w cfg s -> dadjusted cfg cfg' -> dused w cfg' s.

Definition dumps (w : world) (cfg : dconfig) (s : dstate) (v : value) (r : res value) : Prop :=
  r <> OOF /\ exists n, fst (dump w cfg n v s) = r.


(** ** Choice of the handler *)

(** the least position whose condition holds, none before raising (or their
    errors being ignored) *)
Definition least_match (rce : bool) (hs : list (cond * handler)) (t : ty) (i : nat) : Prop :=
  (exists c h, nth_error hs i = Some (c, h) /\ c t = POk true) /\
  forall k c h, k < i -> nth_error hs k = Some (c, h) ->
    c t = POk false \/ (rce = false /\ exists r, c t = PExc r).

(** conditions which raise count as not matching *)
Definition quiet (hs : list (cond * handler)) : list (cond * handler) :=
  map (fun ch => (fun t => match fst ch t with POk b => POk b | PExc _ => POk false end, snd ch)) hs.

(** settings which differ only in the list of handlers *)
Definition with_handlers (cfg : config) (hs : list (cond * handler)) : config :=
  mkConfig (basictypes cfg) (basiccast cfg) (failonextra cfg) (raiseconditionerrors cfg) (dictequivalence cfg)
           (mangle_key cfg) (uniondebugconflict cfg) (pep563 cfg) hs.

Definition dleast_match (rce : bool) (hs : list ((value -> pyres bool) * dhandler)) (v : value) (i : nat) : Prop :=
  (exists c h, nth_error hs i = Some (c, h) /\ c v = POk true) /\
  forall k c h, k < i -> nth_error hs k = Some (c, h) ->
    c v = POk false \/ (rce = false /\ exists r, c v = PExc r).

(** the handlers whose check accepts the type *)
Definition matching (hs : list (cond * handler)) (t : ty) : list handler :=
  map snd (filter (fun ch => match fst ch t with POk true => true | _ => false end) hs).

(** the handler for each constructor of types which is not a class *)
Definition own_handler (t : ty) : option handler :=
  match t with
  | TGen _ OUnion (Some _) => Some HUnion
  | TGen _ OTuple _ => Some HTuple
  | TGen _ OList _ => Some HList
  | TGen _ ODict _ => Some HDict
  | TGen _ OSet _ => Some HSet
  | TGen _ OFrozen _ => Some HFrozen
  | TGen _ OPattern _ => Some HPattern
  | TLiteral _ => Some HLiteral
  | TForward _ => Some HForward
  | TAny => Some HAny
  | TNewType _ _ => Some HNewType
  | _ => None
  end.

(** the sorts of classes *)
Inductive sort : Type := SBasic | SEnum | SNamedTuple | SDataclass | STypedDict | SStrcons | SAttrs.

Definition of_sort (w : world) (basic strcons : list cid) (c : cid) (k : sort) : Prop :=
  match k with
  | SBasic => In c basic
  | SEnum => ci_enum (class_of w c) <> None
  | SNamedTuple => ci_nt (class_of w c) <> None
  | SDataclass => ci_dc (class_of w c) <> None
  | STypedDict => ci_td (class_of w c) <> None
  | SStrcons => In c strcons
  | SAttrs => ci_attrs (class_of w c) <> None
  end.

Definition sort_handler (k : sort) : handler :=
  match k with
  | SBasic => HBasic | SEnum => HEnum | SNamedTuple => HNamedTuple | SDataclass => HDataclass
  | STypedDict => HTypedDict | SStrcons => HStrcons | SAttrs => HAttrs
  end.

(** classes which have a handler of their own *)
Definition special (c : cid) : option handler :=
  match c with
  | CNone => Some HNone
  | CDate | CTime | CDatetime => Some HDatetime
  | CPattern => Some HPattern
  | CTimedelta => Some HTimedelta
  | _ => None
  end.


(** ** Assumptions on the Python runtime *)

(** Assumptions on the Python runtime: constructors and library functions
    return instances of the class they are called on, and the classes of one
    kind are not of another kind. *)
Record wf_world (w : world) (basic strcons : list cid) : Prop := mkWf {
  wf_call : forall c v r, In c basic \/ In c strcons ->
      w_call w (TClass c) v = POk r -> isinstance w r c = true;
  wf_fromiso : forall c s r, w_fromiso w c s = POk r -> isinstance w r c = true;
  wf_callargs : forall c l r, w_callargs w c l = POk r -> isinstance w r c = true;
  wf_timedelta : forall v r, w_timedelta w v = POk r -> isinstance w r CTimedelta = true;
  wf_compile : forall v r, w_compile w v = POk r -> isinstance w r CPattern = true;
  wf_basic : forall c, In c basic -> kind_of_class w c = None;
  wf_strcons : forall c, In c strcons -> ci_attrs (class_of w c) = None;
  wf_enum : forall c, ci_enum (class_of w c) <> None -> kind_of_class w c = None;
  wf_td : forall c, ci_td (class_of w c) <> None -> ci_attrs (class_of w c) = None;
  (* attrs: the argument of the constructor for a private field is not the
     name of another field *)
  wf_attrs : forall c fs f, ci_attrs (class_of w c) = Some fs -> In f fs -> f_init f = true ->
      In (strip_underscore (f_name f)) (map f_name fs) -> strip_underscore (f_name f) = f_name f;
  (* NotRequired cannot be nested *)
  wf_notrequired : forall c k t, In (k, t) (ci_ann (class_of w c)) -> unwrap (unwrap t) = unwrap t
}.

(** Loading into the type [t] itself, apart from its components, does not raise
    StopIteration: neither the library functions, nor the evaluation of the hints,
    nor __post_init__, converters and validators do, and no converter of an attrs
    class is annotated only with its result (line 853 calls next() on nothing). *)
Record calm (w : world) (t : ty) : Prop := mkCalm {
  cm_post : forall c fs, t = TClass c -> ci_post (class_of w c) fs <> PExc RStopIter;
  cm_hints : forall c, t = TClass c -> ci_hints (class_of w c) <> PExc RStopIter;
  cm_conv : forall c fs f hs, t = TClass c -> ci_attrs (class_of w c) = Some fs -> In f fs -> f_conv f = Some hs ->
      hs = [] \/ exists k x, In (k, x) hs /\ k <> "return";
  cm_iso : forall c s, t = TClass c -> w_fromiso w c s <> PExc RStopIter;
  cm_args : forall c l, t = TClass c -> w_callargs w c l <> PExc RStopIter;
  cm_timedelta : forall v, w_timedelta w v <> PExc RStopIter;
  cm_compile : forall v, w_compile w v <> PExc RStopIter
}.
(** no type met while loading [t] raises StopIteration *)
Definition never_stops (w : world) (pep : bool) (env : string -> option ty) (t : ty) : Prop :=
  forall t', reach w pep env t t' -> calm w t'.


(** ** The state of the loader *)

(** the loader has already handled the type [t] *)
Definition seen (s : lstate) (t : ty) : Prop := ty_get t (st_index s) <> None.

(** a ForwardRef to [n] means the type [t] *)
Definition knows (s : lstate) (n : string) (t : ty) : Prop :=
  exists fr, st_frefs s = Some fr /\ str_get n fr = Some t.

(** [x] is [v] or is inside it at any depth *)
Definition inside : value -> value -> Prop := clos_refl_trans_1n value part.

(** what the names of forward references mean to the loader *)
Definition names_of (s : lstate) (n : string) : option ty :=
  match st_frefs s with Some fr => str_get n fr | None => None end.

(** instances of the basic type [t] are of exactly that class *)
Definition exact_inst (w : world) (Vok : value -> Prop) (t : ty) : Prop :=
  forall x, Vok x -> isinst w x t = true -> TClass (type_of x) = t.

(** loading a key of this type never loads something else *)
Definition simple_key (w : world) (t : ty) : Prop :=
  match t with
  | TClass c => kind_of_class w c = None /\ forall l, ci_hints (class_of w c) = POk l -> l = []
  | TLiteral _ | TAny => True
  | _ => False
  end.

(** Dict[kt, vt] for which it does not matter whether the handler of vt is
    already in the cache (line 396 of dataloader.py) *)
Definition det_dict (w : world) (basic : list cid) (Vok : value -> Prop) (kt vt : ty) : Prop :=
  simple_key w kt /\
  (in_classes basic kt = true -> kt <> TClass CNone /\ exact_inst w Vok kt) /\
  (in_classes basic vt = false \/
   (vt <> TClass CNone /\ exact_inst w Vok vt /\ in_classes basic kt = true)).

(** Dict[kt, vt] whose keys are loaded by the right handler even though line
    396 of dataloader.py assigns the handler of the values to the variable of
    the keys: the values are not of a basic type, or they are not None and the
    keys are of a plain class. *)
Definition dict_ok (w : world) (basic strcons : list cid) (kt vt : ty) : Prop :=
  in_classes basic vt = false \/
  (vt <> TClass CNone /\
   exists c, kt = TClass c /\ kind_of_class w c = None /\
             (In c basic \/ In c strcons \/ ci_enum (class_of w c) <> None)).

(** the values which PEP 586 allows in Literal *)
Definition plain_literal (x : value) : Prop :=
  match x with VNone | VBool _ | VInt _ | VStr _ | VBytes _ | VEnum _ _ _ => True | _ => False end.

(** the class [x] is annotated with [k: Literal[...]], perhaps inside NotRequired *)
Definition has_tag (w : world) (x : ty) (k : string) : Prop :=
  exists c a vals, x = TClass c /\ In (k, a) (ci_ann (class_of w c)) /\ unwrap a = TLiteral vals.
(** the members of a union share at most one such key *)
Definition one_tag (w : world) (args : list ty) : Prop :=
  args <> [] -> forall k k', (forall x, In x args -> has_tag w x k) -> (forall x, In x args -> has_tag w x k') -> k = k'.
(** the class [x] is annotated with [k: Literal[vals]] *)
Definition tag_values (w : world) (x : ty) (k : string) (vals : list value) : Prop :=
  exists c, x = TClass c /\ In (k, TLiteral vals) (ci_ann (class_of w c)).
(** The members of the union [args] are told apart by at most one Literal key:
    no Literal of theirs is NotRequired, at most one key is a Literal in all of
    them, and no two members share a value of that key.  Otherwise which member
    is preferred depends on the order of the members, and Union[A, B] and
    Union[B, A], which are equal to Python, are not the same to the loader: it
    keeps what it found for the order it met first. *)
Record plain_tags (w : world) (args : list ty) : Prop := mkPlainTags {
  pt_required : forall c k tk vals, In (TClass c) args -> In (k, tk) (ci_ann (class_of w c)) ->
      unwrap tk = TLiteral vals -> tk = TLiteral vals;
  pt_one : one_tag w args;
  pt_plain : forall k x vals, (forall x, In x args -> has_tag w x k) -> In x args -> tag_values w x k vals ->
      Forall plain_literal vals;
  pt_clear : forall k x x' vals vals' l l', (forall x, In x args -> has_tag w x k) ->
      In x args -> In x' args -> tag_values w x k vals -> tag_values w x' k vals' ->
      In l vals -> In l' vals' -> py_eqb l l' = true -> x = x'
}.

(** The caches of the loader do not matter for loading [v] into [t]: the
    forward references reached from [t] are known; each Dict[K, V] reached
    from [t] is one whose values were already seen by the loader, or one for
    which line 396 of dataloader.py has no effect; the members of each union
    are told apart by at most one key. *)
Record steady (w : world) (basic : list cid) (cfg : config) (env : string -> option ty)
       (s : lstate) (v : value) (t : ty) : Prop := mkSteady {
  sd_names : forall n, reach w (pep563 cfg) env t (TForward n) -> exists t', env n = Some t' /\ knows s n t';
  sd_dict : forall n kt vt, reach w (pep563 cfg) env t (TGen n ODict (Some [kt; vt])) ->
      seen s vt \/ det_dict w basic (inside v) kt vt;
  sd_union : forall n args, reach w (pep563 cfg) env t (TGen n OUnion (Some args)) -> plain_tags w args
}.

(** The forward references reached from [t] mean what [env] says: the loader
    knows the name, or it is the name of [t] itself, which load registers when
    it meets the type for the first time. *)
Definition resolves (w : world) (cfg : config) (env : string -> option ty) (s : lstate) (t : ty) : Prop :=
  forall n, reach w (pep563 cfg) env t (TForward n) ->
    (exists t', env n = Some t' /\ knows s n t') \/
    (w_name w t = Some n /\ env n = Some t /\ ~ seen s t /\ st_frefs s <> None /\ names_of s n = None).

(** the outcome of load(v, NewType) when load(v, supertype) has the outcome [r] *)
Definition rewrap (v : value) (t : ty) (r : res value) : res value :=
  match r with
  | Exc (XTL k m tr ve te subs) => Exc (XTL k m ((v, t, None) :: tr) ve te subs)
  | Exc (XRaw _) => Exc (XRaw RAssert)
  | _ => r
  end.


(** ** Items of collections *)

Section ItemVocabulary.
  Variable w : world.
  Variable basic : list cid.
  Variable cfg : config.
  Variable s : lstate.

  (** how the item [x] of a collection becomes the item [y]: instances of a
      basic type are kept, everything else is loaded *)
  Definition kept (t : ty) (x : value) : Prop := exists c, t = TClass c /\ In c basic /\ isinstance w x c = true.
  Definition item_loads (t : ty) (x y : value) : Prop :=
    (kept t x /\ y = x) \/ (~ kept t x /\ loads w cfg s x t (Ok y)).
  (** for tuples of fixed size, only values of exactly the basic type are kept *)
  Definition kept_exact (t : ty) (x : value) : Prop := exists c, t = TClass c /\ In c basic /\ type_of x = c.
  Definition tuple_item_loads (t : ty) (x y : value) : Prop :=
    (kept_exact t x /\ y = x) \/ (~ kept_exact t x /\ loads w cfg s x t (Ok y)).
End ItemVocabulary.

(** [zs] has the elements of [ys], up to equality, without duplicates *)
Definition distinct_of (ys zs : list value) : Prop :=
  (forall z, In z zs -> In z ys) /\
  (forall y, In y ys -> In y zs \/ exists z, In z zs /\ py_eqb y z = true) /\
  ForallOrdPairs (fun a b => py_eqb b a = false) zs.

Definition set_of (ys : list value) : list value := fold_left (fun acc y => set_add y acc) ys [].

(** what the function of _iterload builds from the loaded items *)
Definition collect (w : world) (k : coll) (ys : list value) : option value :=
  match k with
  | KoList => Some (VList ys)
  | KoTuple => Some (VTuple ys)
  | KoSet => if forallb (hashable w) ys then Some (VSet (set_of ys)) else None
  | KoFrozen => if forallb (hashable w) ys then Some (VFrozen (set_of ys)) else None
  end.

(** a list, tuple of variable size, set or frozenset *)
Definition coll_type (k : coll) (nt : bool) (et : ty) (rest : list ty) : ty :=
  match k with
  | KoList => TGen nt OList (Some (et :: rest))
  | KoTuple => TGen nt OTuple (Some [et; TEllipsis])
  | KoSet => TGen nt OSet (Some (et :: rest))
  | KoFrozen => TGen nt OFrozen (Some (et :: rest))
  end.

Definition fixed_size (ts : list ty) : Prop := forall t, ts <> [t; TEllipsis].

(** the dictionary made of these items, inserted in this order *)
Definition dict_of (kvs : list (value * value)) : list (value * value) :=
  fold_left (fun acc kv => dict_set (fst kv) (snd kv) acc) kvs [].

(** what is loaded as a dictionary: a dict or, with dictequivalence, the
    attributes of a Namespace *)
Definition dict_items (cfg : config) (v : value) (d : list (value * value)) : Prop :=
  v = VDict d \/
  (dictequivalence cfg = true /\ exists a, v = VNamespace a /\ d = map (fun kv => (VStr (fst kv), snd kv)) a).

(** the keys of a Python dictionary are hashable *)
Definition keys_hashable (w : world) (v : value) : Prop :=
  forall d k x, v = VDict d -> In (k, x) d -> hashable w k = true.

(** the items of the dictionary [d] give, one by one, the items [kvs] *)
Definition items_rel (R1 R2 : value -> value -> Prop) (d kvs : list (value * value)) : Prop :=
  Forall2 (fun kx ky => R1 (fst kx) (fst ky) /\ R2 (snd kx) (snd ky)) d kvs.

(** equality of keys behaves as an equivalence *)
Definition eq_keys (ks : list value) : Prop :=
  (forall a, In a ks -> py_eqb a a = true) /\
  (forall a b, In a ks -> In b ks -> py_eqb a b = true -> py_eqb b a = true) /\
  (forall a b c, In a ks -> In b ks -> In c ks -> py_eqb a b = true -> py_eqb b c = true -> py_eqb a c = true).

(** keys for which == behaves: everything which is not, and does not contain,
    an unhashable object, a NaN, or an object with its own equality *)
Fixpoint plain_key (v : value) : Prop :=
  match v with
  | VNone | VBool _ | VInt _ | VStr _ | VBytes _ | VEnum _ _ _ => True
  | VFloat f => f <> FNan
  | VTuple l => (fix all (l : list value) : Prop := match l with [] => True | x :: l' => plain_key x /\ all l' end) l
  | VInst _ p => plain_key p
  | _ => False
  end.

(** the last item with an equal key *)
Fixpoint last_with (k : value) (kvs : list (value * value)) : option value :=
  match kvs with
  | [] => None
  | (k', x) :: kvs' =>
      match last_with k kvs' with
      | Some y => Some y
      | None => if py_eqb k k' then Some x else None
      end
  end.


(** ** Objects *)

(** the type hints of a converter from which the type of its parameter cannot be
    taken: one or two, and only the one of the result *)
Definition only_return (hints : list (string * ty)) : Prop :=
  (List.length hints = 1 \/ List.length hints = 2) /\ forall k x, In (k, x) hints -> k = "return".

Section ObjectVocabulary.
  Variable w : world.
  Variables basic strcons : list cid.
  Variable cfg : config.
  Notation p := (pep563 cfg).

  (** [c] is a NamedTuple, dataclass, attrs or TypedDict class, and is not
      also something the loader treats in another way *)
  Definition object_class (c : cid) : Prop :=
    ~ In c basic /\ ci_enum (class_of w c) = None /\
    match kind_of_class w c with
    | None => False
    | Some (KAT _) => ~ In c strcons
    | Some _ => True
    end.

  (** the name given to the field in its metadata.  In a dataclass the empty
      name counts as no name (dataloader.py 515), in an attrs class it does not
      (871) *)
  Definition given_name (attrs : bool) (f : field) : option string :=
    match str_get (mangle_key cfg) (f_meta f) with
    | Some EmptyString => if attrs then Some EmptyString else None
    | x => x
    end.
  Definition external (attrs : bool) (f : field) : string :=
    match given_name attrs f with Some n => n | None => f_name f end.

  (** the fields of the class: python name and external name *)
  Definition obj_fields (c : cid) : list (string * string) :=
    match kind_of_class w c with
    | Some (KDC fs) => map (fun f => (f_name f, external false f)) fs
    | Some (KAT fs) => map (fun f => (f_name f, external true f)) fs
    | _ => map (fun kt => (fst kt, fst kt)) (declared w p c)
    end.
  (** at least one field has a name in the metadata *)
  Definition renames (c : cid) : bool :=
    match kind_of_class w c with
    | Some (KDC fs) => existsb (fun f => match given_name false f with Some _ => true | None => false end) fs
    | Some (KAT fs) => existsb (fun f => match given_name true f with Some _ => true | None => false end) fs
    | _ => false
    end.
  (** python names of the fields the data must provide *)
  Definition obj_required (c : cid) : list string :=
    let needed f := f_init f && match f_default f with DNo => true | _ => false end in
    match kind_of_class w c with
    | Some (KNT nt) =>
        filter (fun k => negb (mem_str k (map fst (filter (fun f => match snd f with Some _ => true | None => false end) nt))))
               (map fst (declared w p c))
    | Some (KDC fs) | Some (KAT fs) => map f_name (filter needed fs)
    | Some (KTD req) =>
        if p then filter (fun k => negb (mem_str k (map fst (filter (fun kt => is_notrequired (snd kt))
                                     (declared_types w p c (ci_ann (class_of w c))))))) req
        else req
    | None => []
    end.

  (** external names of those fields *)
  Definition required_names (c : cid) : list string :=
    let needed f := f_init f && match f_default f with DNo => true | _ => false end in
    match kind_of_class w c with
    | Some (KDC fs) => map (external false) (filter needed fs)
    | Some (KAT fs) => map (external true) (filter needed fs)
    | _ => obj_required c
    end.

  (** the annotations of the class can be resolved *)
  Definition resolvable (c : cid) : Prop :=
    match kind_of_class w c with
    | Some (KAT fs) => forall f hs, In f fs -> f_conv f = Some hs -> ~ only_return hs
    | _ => p = true -> exists l, ci_hints (class_of w c) = POk l
    end.
  (** python names are distinct, and so are external names *)
  Definition distinct_names (c : cid) : Prop :=
    NoDup (map fst (obj_fields c)) /\ NoDup (map snd (obj_fields c)).

  (** always true of NamedTuple, dataclass and attrs; a TypedDict requires
      only declared keys *)
  Definition required_are_fields (c : cid) : Prop :=
    forall f, In f (obj_required c) -> In f (map fst (obj_fields c)).

  (** the data from which the object is loaded *)
  Definition obj_data (c : cid) (v : value) (d : list (value * value)) : Prop :=
    v = VDict d \/
    (dictequivalence cfg = true /\ renames c = false /\
     exists a, v = VNamespace a /\ d = map (fun kv => (VStr (fst kv), snd kv)) a).

  (** the keys of a Python dictionary are different from each other *)
  Definition py_dict (d : list (value * value)) : Prop :=
    ForallOrdPairs (fun a b => py_eqb (fst b) (fst a) = false) d.

  (** [v] is a possible Python object, as for the names in it *)
  Definition proper_data (v : value) : Prop :=
    match v with VDict d => py_dict d | VNamespace a => NoDup (map fst a) | _ => True end.

  (** the field with this external name *)
  Definition field_of (c : cid) (k : value) : option string :=
    match k with
    | VStr e => str_get e (map (fun fe => (snd fe, fst fe)) (obj_fields c))
    | _ => None
    end.
  (** the fields for which there is data, with their data *)
  Definition given (c : cid) (d : list (value * value)) : list (string * value) :=
    flat_map (fun kx => match field_of c (fst kx) with Some f => [(f, snd kx)] | None => [] end) d.
End ObjectVocabulary.

(** the field gets what loading its data gives *)
Definition field_loads (w : world) (cfg : config) (s : lstate) (hints : list (string * ty)) (fx fy : string * value) : Prop :=
  fst fx = fst fy /\ exists t, str_get (fst fx) hints = Some t /\ loads w cfg s (snd fx) t (Ok (snd fy)).


(** [fs]: what the constructor of the class [c] bound to the attributes (or
    keys) of [r]; dataclasses and attrs classes may then replace it in
    __post_init__ *)
Definition bound_fields (w : world) (c : cid) (r : value) (fs : list (string * value)) : Prop :=
  match kind_of_class w c with
  | Some (KNT _) => r = VNT c fs
  | Some (KDC _) | Some (KAT _) => exists fs', ci_post (class_of w c) fs = POk fs' /\ r = VObj c fs'
  | Some (KTD _) => r = VDict (map (fun kx => (VStr (fst kx), snd kx)) fs)
  | None => False
  end.


(** ** Unions *)

(** [k] is a field annotated with Literal in every type of [args] *)
Definition literal_field (w : world) (args : list ty) (k : string) : Prop :=
  forall t, In t args -> exists c tk vals, t = TClass c /\ In (k, tk) (ci_ann (class_of w c)) /\ unwrap tk = TLiteral vals.

(** the data under such a field can be the key of a dictionary *)
Definition tags_hashable (w : world) (args : list ty) (v : value) : Prop :=
  forall d k x, v = VDict d -> literal_field w args k -> dict_get (VStr k) d = Some x -> hashable w x = true.

(** the class of [v] is one of the basic types and is in the union *)
Definition own_basic (basic : list cid) (args : list ty) (v : value) : Prop :=
  In (type_of v) basic /\ In (TClass (type_of v)) args.

(** what is kept of the exception of a member *)
Definition refusal (w : world) (cfg : config) (s : lstate) (V : value) (x : ty) (e0 : exn) : Prop :=
  loads w cfg s V x (Exc (push_trace (V, x, None) e0)) \/ ~ supported cfg x.

(** [e] is the exception reported for the member [x] *)
Definition failed (w : world) (cfg : config) (s : lstate) (V : value) (n0 : bool) (args : list ty) (x : ty) (e : exn) : Prop := exists e0, e = push_trace (V, TGen n0 OUnion (Some args), Some (AnUnion x)) e0 /\ refusal w cfg s V x e0.

(** the union as a list: one position accepts, with this result, and no other *)
Definition exactly_one (w : world) (cfg : config) (s : lstate) (V : value) (args : list ty) (r : value) : Prop :=
  exists pre x post, args = pre ++ x :: post /\ loads w cfg s V x (Ok r) /\ forall z, In z (pre ++ post) -> ~ accepts w cfg s V z.

Definition two_or_more (w : world) (cfg : config) (s : lstate) (V : value) (args : list ty) : Prop :=
  exists a x b y c, args = a ++ x :: b ++ y :: c /\ accepts w cfg s V x /\ accepts w cfg s V y.

Definition set_conflict (b : bool) (cfg : config) : config :=
  mkConfig (basictypes cfg) (basiccast cfg) (failonextra cfg) (raiseconditionerrors cfg) (dictequivalence cfg)
           (mangle_key cfg) b (pep563 cfg) (handlers cfg).

(** members of the union which do not contain unions load in the same way
    with the option on and off *)
Definition no_union_inside (w : world) (p : bool) (env : string -> option ty) (args : list ty) : Prop :=
  forall x n us, In x args -> ~ reach w p env x (TGen n OUnion (Some us)).

(** [k] is a field of the object class [c], with this name in the data too,
    annotated with Literal[vals] *)
Definition tag_field (w : world) (cfg : config) (c : cid) (k : string) (vals : list value) : Prop :=
  In (k, k) (obj_fields w cfg c) /\ str_get k (declared w (pep563 cfg) c) = Some (TLiteral vals) /\ Forall plain_literal vals.

(** the data for a union: object classes, with [k] as the tag *)
Record tagged_union (w : world) (basic strcons : list cid) (cfg : config) (k : string) (tags : list (cid * list value)) : Prop := mkTagged {
  tg_object : forall c vals, In (c, vals) tags -> object_class w basic strcons c /\ resolvable w cfg c /\ distinct_names w cfg c;
  tg_field : forall c vals, In (c, vals) tags -> tag_field w cfg c k vals;
  tg_classes : NoDup (map fst tags);
  tg_distinct : forall c1 l1 c2 l2 x y, In (c1, l1) tags -> In (c2, l2) tags -> c1 <> c2 -> In x l1 -> In y l2 -> py_eqb x y = false
}.


(** ** Enums *)

(** [r] is E(v), for the Enum class [c] with these members: [v] itself when it
    is a member, or the first member with a value equal to [v] *)
Definition member_for (c : cid) (members : list (string * value)) (v r : value) : Prop :=
  (type_of v = c /\ r = v) \/
  (type_of v <> c /\ exists pre name x post,
     members = pre ++ (name, x) :: post /\ py_eqb v x = true /\
     (forall n' x', In (n', x') pre -> py_eqb v x' = false) /\ r = VEnum c name x).

Definition no_member_for (c : cid) (members : list (string * value)) (v : value) : Prop :=
  type_of v <> c /\ forall n x, In (n, x) members -> py_eqb v x = false.

(** the type [t], loading [v], gives the member [r] *)
Definition hint_gives (w : world) (cfg : config) (s : lstate) (V : value) (c : cid) (ms : list (string * value)) (t : ty) (r : value) : Prop := exists y, loads w cfg s V t (Ok y) /\ member_for c ms y r.

Definition hint_fails (w : world) (cfg : config) (s : lstate) (V : value) (c : cid) (ms : list (string * value)) (t : ty) : Prop := finishes w cfg s V t /\ forall r, ~ hint_gives w cfg s V c ms t r.


(** ** The places met while loading, and the trace of an exception *)

(** the type of the item [i] of a list, set, frozenset or tuple *)
Definition item_type (t : ty) (i : nat) : option ty :=
  match t with
  | TGen _ (OList | OSet | OFrozen) (Some (et :: _)) => Some et
  | TGen _ OTuple (Some [et; TEllipsis]) => Some et
  | TGen _ OTuple (Some ts) => nth_error ts i
  | _ => None
  end.

Section TraceVocabulary.
  Variable w : world.
  Variable cfg : config.
  Variable env : string -> option ty.
  Notation p := (pep563 cfg).

  (** how a value is shown: as it is or, for objects and dictionaries, as a
      dictionary of the same values *)
  Definition shown (v x : value) : Prop :=
    x = v \/
    exists d d', dict_items cfg v d /\ x = VDict d' /\ forall k y, In (k, y) d' -> exists k0, In (k0, y) d.

  (** [move v t i v' t']: while loading [v] into [t], the item [i] of the trace
      says that [v'] was being loaded into [t'].  Items about a position or a
      field show the container, those about the key or the value of a
      dictionary show the key or value itself. *)
  Inductive move : value -> ty -> titem -> value -> ty -> Prop :=
  | mv_index v t l i x et :
      iter v = Some l -> nth_error l i = Some x -> item_type t i = Some et ->
      move v t (v, t, Some (AnIndex i)) x et
  | mv_field v c d d' e f x ft :
      (* [e] is the name of the field [f] in the data [d]; in [d'], which the
         exception shows, fields have their own names *)
      dict_items cfg v d -> In (VStr e, x) d -> In (f, e) (obj_fields w cfg c) \/ e = f ->
      In (VStr f, x) d' -> shown v (VDict d') -> In (f, ft) (declared w p c) ->
      move v (TClass c) (VDict d', TClass c, Some (AnField f)) x ft
  | mv_key v d n kt vt k x :
      dict_items cfg v d -> In (k, x) d ->
      move v (TGen n ODict (Some [kt; vt])) (k, kt, Some (AnKey k)) k kt
  | mv_value v d n kt vt k x :
      dict_items cfg v d -> In (k, x) d ->
      move v (TGen n ODict (Some [kt; vt])) (x, vt, Some (AnValue x)) x vt
  | mv_forward v n t : env n = Some t -> move v (TForward n) (v, t, Some (AnForward n)) v t
  | mv_newtype v n t : move v (TNewType n t) (v, t, None) v t.

  (** a type tried in place of [t]: the members of a union, the type hints of
      an Enum *)
  Inductive alternative : ty -> ty -> Prop :=
  | alt_union n args t : In t args -> alternative (TGen n OUnion (Some args)) t
  | alt_enum c ms l t :
      ci_enum (class_of w c) = Some ms -> ci_hints (class_of w c) = POk l -> In t (map snd l) ->
      alternative (TClass c) t.

  (** following the items of a trace *)
  Inductive walk : value -> ty -> list titem -> value -> ty -> Prop :=
  | walk_here v t : walk v t [] v t
  | walk_on v t i x t1 tr v' t' : move v t i x t1 -> walk x t1 tr v' t' -> walk v t (i :: tr) v' t'.

  (** loading [v] into [t] can lead to loading [x] into [t'] *)
  Inductive meets : value -> ty -> value -> ty -> Prop :=
  | meets_here v t : meets v t v t
  | meets_move v t i x t1 v' t' : move v t i x t1 -> meets x t1 v' t' -> meets v t v' t'
  | meets_alt v t t1 v' t' : alternative t t1 -> meets v t1 v' t' -> meets v t v' t'.

  (** what an exception raised while loading [v] into [t] reports: the value,
      and the type or (when it is not supported) one of its components;
      nothing for what a constructor raises *)
  Definition reported (v : value) (t : ty) (ve : option value) (te : option ty) : Prop :=
    (ve = None /\ te = None) \/
    exists x t', ve = Some x /\ te = Some t' /\ shown v x /\ (t' = t \/ component w p env t t').

  (** The exception [e], raised while loading [v] into [t], is about the place
      to which its trace leads, and so are the exceptions of the alternatives
      tried there. *)
  Inductive explains : value -> ty -> exn -> Prop :=
  | explain v t k m tr ve te subs v' t' :
      walk v t tr v' t' -> reported v' t' ve te ->
      (subs <> [] -> te = Some t') ->
      Forall (sub_explains v' t') subs ->
      explains v t (XTL k m tr ve te subs)
  with sub_explains : value -> ty -> exn -> Prop :=
  | sub_union v n args t e k m tr ve te subs :
      In t args -> e = XTL k m tr ve te subs -> explains v t e ->
      sub_explains v (TGen n OUnion (Some args)) (push_trace (v, TGen n OUnion (Some args), Some (AnUnion t)) e)
  | sub_enum v c t e k m tr ve te subs :
      alternative (TClass c) t -> e = XTL k m tr ve te subs -> explains v t e ->
      sub_explains v (TClass c) (push_trace (v, t, Some (AnUnion t)) e)
  | sub_unsupported v c t k m :
      alternative (TClass c) t -> sub_explains v (TClass c) (XTL k m [] (Some v) (Some t) [])
  | sub_raw v c t r :
      alternative (TClass c) t -> sub_explains v (TClass c) (XRaw r).
End TraceVocabulary.

(** ** Blame: the same, when all the places on the path satisfy [bad] (below:
    loading the value at that place, on its own, fails in the same way) *)
Section BlameVocabulary.
  Variable w : world.
  Variable cfg : config.
  Variable env : string -> option ty.
  Variable bad : value -> ty -> exn -> Prop.
  Notation move := (move w cfg env).

  (** [walk], all the places on the way and the one at the end being bad;
      [E tr] is the exception with the trace [tr] *)
  Inductive bad_walk (E : list titem -> exn) : value -> ty -> list titem -> value -> ty -> Prop :=
  | bwalk_here v t : bad_walk E v t [] v t
  | bwalk_on v t i x t1 tr v' t' :
      move v t i x t1 -> bad x t1 (E tr) -> bad_walk E x t1 tr v' t' -> bad_walk E v t (i :: tr) v' t'.

  (** [explains], with [bad_walk]; and each alternative of which an exception
      is kept is bad *)
  Inductive blames : value -> ty -> exn -> Prop :=
  | blame v t k m tr ve te subs v' t' :
      bad_walk (fun tr => XTL k m tr ve te subs) v t tr v' t' -> reported w cfg env v' t' ve te ->
      (subs <> [] -> te = Some t') ->
      Forall (sub_blames v' t') subs ->
      blames v t (XTL k m tr ve te subs)
  with sub_blames : value -> ty -> exn -> Prop :=
  | subb_union v n args t e k m tr ve te subs :
      In t args -> bad v t e -> e = XTL k m tr ve te subs -> blames v t e ->
      sub_blames v (TGen n OUnion (Some args)) (push_trace (v, TGen n OUnion (Some args), Some (AnUnion t)) e)
  | subb_enum v c t e k m tr ve te subs :
      alternative w (TClass c) t -> bad v t e -> e = XTL k m tr ve te subs -> blames v t e ->
      sub_blames v (TClass c) (push_trace (v, t, Some (AnUnion t)) e)
  | subb_unsupported v c t k m :
      alternative w (TClass c) t -> bad v t (XTL k m [] (Some v) (Some t) []) ->
      sub_blames v (TClass c) (XTL k m [] (Some v) (Some t) [])
  | subb_raw v c t r :
      (* from the type hint itself, or from building the member of the Enum *)
      alternative w (TClass c) t -> sub_blames v (TClass c) (XRaw r).
End BlameVocabulary.

(** load(v, t) raises the exception [e], at the root; or [t] is a type which is
    not supported at all, and load(v, t) says so *)
Definition reproduces (w : world) (cfg : config) (s : lstate) (v : value) (t : ty) (e : exn) : Prop :=
  (supported cfg t /\ loads w cfg s v t (Exc (push_trace (v, t, None) e))) \/
  (~ supported cfg t /\ rejects w cfg s v t).

(** ** Where load can raise something else than a TypedloadException *)

(** dictionaries have hashable keys, sets have hashable items *)
Definition hashed (w : world) (v : value) : Prop :=
  match v with
  | VDict d => forall k x, In (k, x) d -> hashable w k = true
  | VSet l | VFrozen l => forall x, In x l -> hashable w x = true
  | _ => True
  end.

(** the library makes hashable objects *)
Record hashable_results (w : world) (basic strcons : list cid) : Prop := mkHashable {
  hr_call : forall c v r, In c basic \/ In c strcons -> w_call w (TClass c) v = POk r -> hashable w r = true;
  hr_fromiso : forall c s r, w_fromiso w c s = POk r -> hashable w r = true;
  hr_callargs : forall c l r, w_callargs w c l = POk r -> hashable w r = true;
  hr_timedelta : forall v r, w_timedelta w v = POk r -> hashable w r = true;
  hr_compile : forall v r, w_compile w v = POk r -> hashable w r = true
}.

Inductive hazard (w : world) (cfg : config) (env : string -> option ty) : value -> ty -> Prop :=
(* a bare typing.List, typing.Dict...  *)
| hz_bare v n o args :
    In o [OList; OSet; OFrozen; OTuple] -> args = None \/ (args = Some [] /\ o <> OTuple) ->
    hazard w cfg env v (TGen n o args)
| hz_bare_dict v n args : (forall kt vt, args <> Some [kt; vt]) -> hazard w cfg env v (TGen n ODict args)
(* len() of something which has none *)
| hz_tuple v n ts : iter v = None -> fixed_size ts -> hazard w cfg env v (TGen n OTuple (Some ts))
(* keys of a dictionary which become lists or sets *)
| hz_key v n kt vt n' o a :
    reach w (pep563 cfg) env kt (TGen n' o a) -> o = OList \/ o = OSet ->
    hazard w cfg env v (TGen n ODict (Some [kt; vt]))
(* an unhashable discriminator *)
| hz_tag v n args : ~ tags_hashable w args v -> hazard w cfg env v (TGen n OUnion (Some args))
(* failonextra and keys which are not strings *)
| hz_extra v c d k x :
    kind_of_class w c <> None -> failonextra cfg = true -> dict_items cfg v d -> In (k, x) d -> (forall s, k <> VStr s) ->
    hazard w cfg env v (TClass c)
(* annotations which cannot be resolved *)
| hz_annotations v c r : ci_hints (class_of w c) = PExc r -> pep563 cfg = true \/ ci_enum (class_of w c) <> None -> hazard w cfg env v (TClass c)
| hz_converter v c fs f hs : ci_attrs (class_of w c) = Some fs -> In f fs -> f_conv f = Some hs -> only_return hs -> hazard w cfg env v (TClass c)
| hz_hint v c fs f : pep563 cfg = true -> ci_dc (class_of w c) = Some fs -> In f (map f_name fs) ->
    ~ In f (map fst (declared w (pep563 cfg) c)) -> hazard w cfg env v (TClass c)
(* constructors and library functions which raise something else than
   ValueError and TypeError *)
| hz_post v c fs r : ci_post (class_of w c) fs = PExc r -> r <> RType -> r <> RValue -> hazard w cfg env v (TClass c)
| hz_iso v c x r : In c [CDate; CTime; CDatetime] -> v = VStr x -> w_fromiso w c x = PExc r -> r <> RType -> r <> RValue -> hazard w cfg env v (TClass c)
| hz_args v c l r : In c [CDate; CTime; CDatetime] -> iter v = Some l -> w_callargs w c l = PExc r -> r <> RType -> r <> RValue -> hazard w cfg env v (TClass c)
| hz_timedelta v r : w_timedelta w v = PExc r -> r <> RType -> hazard w cfg env v (TClass CTimedelta)
| hz_pattern v t r : t = TClass CPattern \/ (exists n a, t = TGen n OPattern a) -> w_compile w v = PExc r -> r <> RType -> r <> RReError -> hazard w cfg env v t.


(** ** str(e) *)

(** [x] is [e], or one of its exceptions at any depth *)
Inductive nested : exn -> exn -> Prop :=
| nested_here e : nested e e
| nested_sub k m tr v t subs x y : In x subs -> nested x y -> nested (XTL k m tr v t subs) y.

(** the class [c] is an Enum with annotations *)
Definition annotated_enum (w : world) (c : cid) : Prop :=
  ci_enum (class_of w c) <> None /\ exists x l, ci_hints (class_of w c) = POk (x :: l).

(** decimal notation: the value of a string of digits, the first being the
    most significant *)
Definition digit_value (c : Ascii.ascii) : option nat :=
  let n := Ascii.nat_of_ascii c in
  if Nat.leb 48 n && Nat.leb n 57 then Some (n - 48) else None.
Fixpoint decimal_value (s : string) (acc : nat) : option nat :=
  match s with
  | EmptyString => Some acc
  | String c s' => match digit_value c with Some d => decimal_value s' (10 * acc + d) | None => None end
  end.
(** [s] is the decimal numeral of [n] *)
Definition numeral (s : string) (n : nat) : Prop :=
  decimal_value s 0 = Some n /\ (exists c s', s = String c s' /\ (c = "0"%char -> s' = EmptyString)).

(** and of an integer *)
Definition signed_numeral (s : string) (z : Z) : Prop :=
  exists n, numeral n (Z.abs_nat z) /\ s = if Z.ltb z 0 then String "-"%char n else n.

(** items separated by dots *)
Fixpoint dotted (l : list string) : string :=
  match l with
  | [] => EmptyString
  | [x] => x
  | x :: l' => (x ++ "." ++ dotted l')%string
  end.


(** ** JSON-shaped types *)

(** basic types, None, Any, Literal, List, Dict, Union; also NewType and
    ForwardRef, which stand for another type *)
Definition json_type (basic : list cid) (t : ty) : Prop :=
  match t with
  | TClass c => In c basic \/ c = CNone
  | TAny | TLiteral _ | TNewType _ _ | TForward _ => True
  | TGen _ (OList | ODict | OUnion) (Some _) => True
  | _ => False
  end.

(** what json.loads returns *)
Inductive document : value -> Prop :=
| doc_null : document VNone
| doc_bool b : document (VBool b)
| doc_int z : document (VInt z)
| doc_float f : document (VFloat f)
| doc_str s : document (VStr s)
| doc_list l : (forall x, In x l -> document x) -> document (VList l)
| doc_dict d : (forall k x, In (k, x) d -> (exists s, k = VStr s) /\ document x) -> py_dict d -> document (VDict d).

(** Loading [v] into the JSON-shaped type [t] may meet a List type with an
    iterable which is not a list (a string), or a Dict type with a Namespace *)
Inductive converts (basic : list cid) (env : string -> option ty) : value -> ty -> Prop :=
| cv_list v n args : iter v <> None -> (forall l, v <> VList l) -> (forall d, v <> VDict d) ->
    converts basic env v (TGen n OList args)
| cv_namespace a n args : converts basic env (VNamespace a) (TGen n ODict args)
| cv_item l x n et rest : In x l -> converts basic env x et -> converts basic env (VList l) (TGen n OList (Some (et :: rest)))
| cv_key d k x n kt vt : In (k, x) d -> converts basic env k kt -> converts basic env (VDict d) (TGen n ODict (Some [kt; vt]))
| cv_value d k x n kt vt : In (k, x) d -> converts basic env x vt -> converts basic env (VDict d) (TGen n ODict (Some [kt; vt]))
| cv_union v n args t : ~ own_basic basic args v -> In t args -> converts basic env v t -> converts basic env v (TGen n OUnion (Some args))
| cv_newtype v n t : converts basic env v t -> converts basic env v (TNewType n t)
| cv_forward v n t : env n = Some t -> converts basic env v t -> converts basic env v (TForward n).


(** ** Recursive types *)

(** every type written in the definition of a class: its annotations, as
    written and resolved, the types of its fields, of the parameters of their
    converters, inside NotRequired *)
Definition written (w : world) (c : cid) : list ty :=
  let ci := class_of w c in
  let types := map snd (ci_ann ci) ++
               (match ci_hints ci with POk l => map snd l | PExc _ => [] end) ++
               (match ci_dc ci with Some fs => map f_type fs | None => [] end) ++
               (match ci_attrs ci with
                | Some fs => flat_map (fun f => TAny :: f_type f :: match f_conv f with Some hs => map snd hs | None => [] end) fs
                | None => []
                end) in
  types ++ map unwrap types ++ map unwrap (map unwrap types).

(** the types which appear in the definition of [t]; [names n] are the types
    which a ForwardRef to [n] may stand for *)
Definition mentioned (w : world) (names : string -> list ty) (t : ty) : list ty :=
  match t with
  | TClass c => written w c
  | TGen _ _ (Some args) => args
  | TNewType _ s => [s]
  | TForward n => names n
  | _ => []
  end.
Definition mentions (w : world) (names : string -> list ty) (t t' : ty) : Prop := In t' (mentioned w names t).

(** [t'] is [t] or appears in its definition, directly or not *)
Definition involves (w : world) (names : string -> list ty) : ty -> ty -> Prop :=
  clos_refl_trans_1n ty (mentions w names).

(** [names] has the types which are registered in the loader *)
Definition has_registered (names : string -> list ty) (s : lstate) : Prop :=
  forall n t, knows s n t -> In t (names n).
(** [names] has the types in the definition of [t], which are registered with
    their __name__ when they are loaded *)
Definition has_involved (w : world) (names : string -> list ty) (t : ty) : Prop :=
  forall n t', involves w names t t' -> w_name w t' = Some n -> In t' (names n).

(** the definition of [t] does not lead back to itself: every chain of types,
    each of which appears in the definition of the one before, is finite *)
Definition not_recursive (w : world) (names : string -> list ty) (t : ty) : Prop :=
  Acc (fun t' t => mentions w names t t') t.

(** the types to which the data given for [t] is passed on, as it is or item
    by item: not the types of the fields of objects, nor those of the keys and
    values of a Dict *)
Definition passed_on (w : world) (names : string -> list ty) (t t' : ty) : Prop :=
  match t with
  | TGen _ (OUnion | OList | OSet | OFrozen | OTuple) (Some args) => In t' args
  | TNewType _ s => t' = s
  | TForward n => In t' (names n)
  | TClass c => ci_enum (class_of w c) <> None /\ exists hs, ci_hints (class_of w c) = POk hs /\ In t' (map snd hs)
  | _ => False
  end.

(** whenever the definition of [t] leads back to itself, it does through the
    fields of an object or the keys or values of a Dict *)
Definition object_recursive (w : world) (names : string -> list ty) (t : ty) : Prop :=
  forall t1, involves w names t t1 -> Acc (fun t' t => passed_on w names t t') t1.

(** [R] are the recursive types in the definition of a type: the other ones are
    not recursive.  The recursion does not go through a Dict, the values of an
    Enum, or two members of the same Union; the items of an iterable and the
    fields of an object may all be of recursive types. *)
Definition loops_once (w : world) (names : string -> list ty) (R : list ty) : Prop :=
  forall t, In t R ->
    (forall x, In x (mentioned w names t) -> In x R \/ not_recursive w names x) /\
    match t with
    | TGen _ ODict _ => False
    | TGen _ OUnion (Some args) => NoDup args /\ exists m, forall x, In x args -> In x R -> x = m
    | TClass c => ci_enum (class_of w c) = None
    | _ => True
    end.


(** ** Dumping *)

(** the default handlers of a Dumper; every other setting is free *)
Definition is_dstd (w : world) (basic strcons : list cid) (cfg : dconfig) : Prop :=
  d_handlers cfg = default_dhandlers w basic strcons /\ d_basic cfg = basic.

(** [x] is an item, a key, a value or a field of [v], or the value of the enum
    member [v] *)
Inductive holds : value -> value -> Prop :=
| holds_list l x : In x l -> holds (VList l) x
| holds_tuple l x : In x l -> holds (VTuple l) x
| holds_set l x : In x l -> holds (VSet l) x
| holds_frozen l x : In x l -> holds (VFrozen l) x
| holds_key d k x : In (k, x) d -> holds (VDict d) k
| holds_value d k x : In (k, x) d -> holds (VDict d) x
| holds_nt c fs f x : In (f, x) fs -> holds (VNT c fs) x
| holds_obj c fs f x : In (f, x) fs -> holds (VObj c fs) x
| holds_enum c m x : holds (VEnum c m x) x.

(** [x] is [v] or is held by it at any depth *)
Definition within : value -> value -> Prop := clos_refl_trans_1n value holds.

(** Possible Python objects: the class of an instance of a NamedTuple is a
    NamedTuple class, and so on. *)
Definition python_object (w : world) (v : value) : Prop :=
  match v with
  | VNT c _ => ci_nt (class_of w c) <> None /\ ci_enum (class_of w c) = None
  | VObj c _ => ci_nt (class_of w c) = None /\ ci_enum (class_of w c) = None /\
                (ci_dc (class_of w c) <> None \/ ci_attrs (class_of w c) <> None)
  | VEnum c _ _ => ci_nt (class_of w c) = None /\ ci_enum (class_of w c) <> None
  | VInst c _ => ci_nt (class_of w c) = None /\ ci_enum (class_of w c) = None /\
                 ~ In c [CNone; CBool; CInt; CFloat; CStr; CBytes; CList; CTuple; CSet; CFrozen; CDict; CNamespace]
  | _ => True
  end.
Definition python_value (w : world) (v : value) : Prop := forall x, within v x -> python_object w x.

(** the state of a Dumper with these settings after any sequence of calls of
    dump on Python data, and of changes of hidedefault, isodates, mangle_key *)
Inductive dhistory (w : world) : dconfig -> dstate -> Prop :=
| dhistory_new cfg : dhistory w cfg dfresh
| dhistory_again cfg n v t s : dhistory w cfg s -> python_value w v -> dhistory w cfg (snd (dump_ann w cfg n v t s))
| dhistory_set cfg cfg' s : dhistory w cfg s -> dadjusted cfg cfg' -> dhistory w cfg' s.

(** what dumps write to the state of a Dumper, any number of times: the handler
    of a class (datadumper.py 192) and the fields of a dataclass (272) *)
Inductive dwrites (w : world) (cfg : dconfig) : dstate -> dstate -> Prop :=
| dw_nothing s : dwrites w cfg s s
| dw_then a b c : dwrites w cfg a b -> dwrites w cfg b c -> dwrites w cfg a c
| dw_handler s v h : python_object w v -> dfind cfg v = inl h ->
    dwrites w cfg s (mkDState ((type_of v, h) :: ds_cache s) (ds_dc s))
| dw_fields s c fs i : ci_dc (class_of w c) = Some fs -> dc_info w c fs = POk i ->
    dwrites w cfg s (mkDState (ds_cache s) ((c, i) :: ds_dc s)).

(** nesting of a value *)
Fixpoint depth (v : value) : nat :=
  S (match v with
     | VList l | VTuple l | VSet l | VFrozen l => list_max (map depth l)
     | VDict d => list_max (map (fun kx => Nat.max (depth (fst kx)) (depth (snd kx))) d)
     | VNT _ fs | VObj _ fs => list_max (map (fun kx => depth (snd kx)) fs)
     | VEnum _ _ x => depth x
     | _ => 0
     end).

(** dump(x, annotated_type=t) finishes with the outcome [r] *)
Definition dumps_as (w : world) (cfg : dconfig) (s : dstate) (v : value) (t : ty) (r : res value) : Prop :=
  r <> OOF /\ exists n, fst (dump_ann w cfg n v t s) = r.

(** composed only of values of the basic types, lists, and dictionaries, whose
    keys are of the basic types *)
Inductive json_like (w : world) (basic : list cid) : value -> Prop :=
| json_basic v : In (type_of v) basic -> json_like w basic v
| json_list l : (forall x, In x l -> json_like w basic x) -> json_like w basic (VList l)
| json_dict d :
    (forall k x, In (k, x) d -> In (type_of k) basic /\ hashable w k = true) ->
    (forall k x, In (k, x) d -> json_like w basic x) ->
    py_dict d -> json_like w basic (VDict d).

(** the objects of the standard library: a date has three integers, time and
    datetime also have a timezone, the duration of a timedelta is a float, a
    pattern is a string or bytes *)
Definition library_object (w : world) (v : value) : Prop :=
  match v with
  | VInst c p =>
      ((isinstance w v CDate = true \/ isinstance w v CTime = true) ->
         exists l tz, p = VTuple (map VInt l ++ (if isinstance w v CDate && negb (isinstance w v CDatetime) then [] else [tz]))) /\
      (isinstance w v CTimedelta = true -> exists f, w_seconds w v = VFloat f) /\
      (isinstance w v CPattern = true -> exists s, p = VStr s \/ p = VBytes s)
  | _ => True
  end.

(** the library objects inside [v] are as above; a pattern of bytes is there
    only if bytes is a basic type *)
Definition library_values (w : world) (basic : list cid) (v : value) : Prop :=
  (forall x, within v x -> library_object w x) /\
  (forall c p, within v (VInst c (VBytes p)) -> isinstance w (VInst c (VBytes p)) CPattern = true -> In CBytes basic).

(** the fields of the dataclass objects inside [v] which are annotated with a
    collection of a basic type contain only instances of basic types *)
Definition annotations_hold (w : world) (basic : list cid) (v : value) : Prop :=
  forall c fs hs f t b n o x l y,
  within v (VObj c fs) -> ci_ihints (class_of w c) = POk hs -> str_get f hs = Some t ->
  t = TGen n o (Some [TClass b]) \/ t = TGen n o (Some [TClass b; TEllipsis]) -> In b basic ->
  In (f, x) fs -> x = VList l \/ x = VTuple l \/ x = VSet l \/ x = VFrozen l -> In y l ->
  In (type_of y) basic.

(** a field as the dumper sees it: name, name in the data, annotation,
    default *)
Record dfield : Type := mkDfield { df_name : string; df_ext : string; df_ann : ty; df_default : option value }.
Definition default_value (d : dflt) : option value :=
  match d with DValue x | DFactory x => Some x | _ => None end.
(** the name given in the metadata, even if it is empty *)
Definition dump_name (cfg : dconfig) (f : field) : string :=
  match str_get (d_mk cfg) (f_meta f) with Some n => n | None => f_name f end.

(** the fields of a dataclass in the order of the set of their names, which
    Python does not specify *)
Definition in_set_order (w : world) (fs : list field) : list field :=
  flat_map (fun k => match find (fun f => String.eqb (f_name f) k) fs with Some f => [f] | None => [] end)
           (set_iter w (map f_name fs)).

(** the fields of the object [v] which are dumped (an attrs field with
    repr=False is not), in the order in which they are dumped *)
Definition dump_fields (w : world) (cfg : dconfig) (v : value) : list dfield :=
  match v with
  | VNT c fs =>
      map (fun kx => mkDfield (fst kx) (fst kx) TAny
             (match ci_nt (class_of w c) with
              | Some l => match str_get (fst kx) l with Some d => d | None => None end
              | None => None
              end)) fs
  | VObj c _ =>
      match ci_dc (class_of w c), ci_attrs (class_of w c) with
      | Some fs, _ =>
          map (fun f => mkDfield (f_name f) (dump_name cfg f)
                 (match ci_ihints (class_of w c) with
                  | POk hs => match str_get (f_name f) hs with Some t => t | None => TAny end
                  | PExc _ => TAny
                  end) (default_value (f_default f))) (in_set_order w fs)
      | None, Some fs =>
          map (fun f => mkDfield (f_name f) (dump_name cfg f) TAny (default_value (f_default f))) (filter f_repr fs)
      | None, None => []
      end
  | _ => []
  end.

(** the value of the field is equal to its default (== is evaluated with the
    default on the left, for attrs on the right) *)
Definition at_default (w : world) (v x d : value) : bool :=
  match v with
  | VObj c _ => match ci_dc (class_of w c) with Some _ => py_eqb d x | None => py_eqb x d end
  | _ => py_eqb d x
  end.
(** the field is written *)
Definition dump_shows (w : world) (cfg : dconfig) (v : value) (f : dfield) : bool :=
  negb (d_hide cfg &&
        match df_default f, getattr v (df_name f) with
        | Some d, POk x => at_default w v x d
        | _, _ => false
        end).

(** all the fields have a value; the annotations of a dataclass can be
    resolved; no default of an attrs class depends on the object *)
Definition dump_ready (w : world) (cfg : dconfig) (v : value) : Prop :=
  match v with
  | VObj c _ =>
      match ci_dc (class_of w c), ci_attrs (class_of w c) with
      | Some fs, _ => (exists hs, ci_ihints (class_of w c) = POk hs) /\
                      forall f, In f fs -> exists x, getattr v (f_name f) = POk x
      | None, Some fs =>
          forall f, In f fs -> (exists x, getattr v (f_name f) = POk x) /\
            (d_hide cfg = true -> f_repr f = true -> forall g, f_default f <> DFactorySelf g)
      | None, None => False
      end
  | _ => True
  end.

(** [v] is an object of a class with fields, with distinct names *)
Definition dump_object (w : world) (basic : list cid) (cfg : dconfig) (v : value) : Prop :=
  ~ In (type_of v) basic /\
  match v with VNT _ _ | VObj _ _ => True | _ => False end /\
  NoDup (map df_name (dump_fields w cfg v)) /\ NoDup (map df_ext (dump_fields w cfg v)).

(** a list, tuple, set or frozenset of these items *)
Definition collection_of (v : value) (l : list value) : Prop := v = VList l \/ v = VTuple l \/ v = VSet l \/ v = VFrozen l.

(** a class which is neither a basic type, nor a dataclass, nor an attrs class *)
Definition plain_class (w : world) (basic : list cid) (c : cid) : Prop :=
  ~ In c basic /\ ci_dc (class_of w c) = None /\ ci_attrs (class_of w c) = None.

(** ** Dumpers with any handlers *)

(** [h] is the first handler of which the condition holds for [v] *)
Definition dselects (cfg : dconfig) (v : value) (h : dhandler) : Prop :=
  exists i c, dleast_match (d_rce cfg) (d_handlers cfg) v i /\ nth_error (d_handlers cfg) i = Some (c, h).

(** which handler is selected depends only on the class of the object *)
Definition class_handlers (w : world) (cfg : dconfig) : Prop :=
  forall v v' h, python_object w v -> python_object w v' -> type_of v = type_of v' ->
  dselects cfg v h -> dselects cfg v' h.

(** what the custom handlers pass to dumper.dump are possible Python objects *)
Inductive sane_prog (w : world) : dprog -> Prop :=
| sane_ret v : sane_prog w (DPRet v)
| sane_raise e : sane_prog w (DPRaise e)
| sane_dump v t k : python_value w v -> (forall o, sane_prog w (k o)) -> sane_prog w (DPDump v t k).
Definition sane_handlers (w : world) (cfg : dconfig) : Prop :=
  forall c f v t, In (c, DCustom f) (d_handlers cfg) -> python_value w v -> sane_prog w (f v t).

(** the same settings, other handlers *)
Definition same_dsettings (c1 c2 : dconfig) : Prop :=
  d_basic c1 = d_basic c2 /\ d_hide c1 = d_hide c2 /\ d_iso c1 = d_iso c2 /\ d_mk c1 = d_mk c2.


(** ** Round trips *)

(** The class rebuilds the object [v] from the fields which are dumped: all
    the fields are parameters of the constructor, under their names; what
    __post_init__ does is already done; a field equal to its default is the
    default. *)
Definition rebuilds (w : world) (cfg : dconfig) (v : value) : Prop :=
  match v with
  | VNT c fs => exists nt, ci_nt (class_of w c) = Some nt /\ map fst fs = map fst nt
  | VObj c fs =>
      ci_nt (class_of w c) = None /\
      exists decl, (ci_dc (class_of w c) = Some decl \/
                    (ci_dc (class_of w c) = None /\ ci_attrs (class_of w c) = Some decl /\
                     forall f, In f decl -> f_repr f = true /\ strip_underscore (f_name f) = f_name f)) /\
        (forall f, In f decl -> f_init f = true) /\
        map fst fs = map f_name decl /\ ci_post (class_of w c) fs = POk fs
  | _ => False
  end /\
  forall f d x, In f (dump_fields w cfg v) -> dump_shows w cfg v f = false ->
    df_default f = Some d -> getattr v (df_name f) = POk x -> x = d.

(** dates, times, durations, patterns and objects made from strings: [x] is
    what is written for [v], and the library function makes [v] from it *)
Inductive library_form (w : world) (basic strcons dstrcons : list cid) (iso : bool) : value -> ty -> value -> Prop :=
| lf_iso c p : In c [CDate; CTime; CDatetime] -> iso = true ->
    w_fromiso w c (w_iso w (VInst c p)) = POk (VInst c p) ->
    library_form w basic strcons dstrcons iso (VInst c p) (TClass c) (VStr (w_iso w (VInst c p)))
| lf_date l : iso = false ->
    w_callargs w CDate l = POk (VInst CDate (VTuple l)) ->
    library_form w basic strcons dstrcons iso (VInst CDate (VTuple l)) (TClass CDate) (VList l)
| lf_time c l : c = CTime \/ c = CDatetime -> iso = false ->
    (* no timezone *)
    w_callargs w c l = POk (VInst c (VTuple (l ++ [VNone]))) ->
    library_form w basic strcons dstrcons iso (VInst c (VTuple (l ++ [VNone]))) (TClass c) (VList l)
| lf_timedelta p : w_timedelta w (w_seconds w (VInst CTimedelta p)) = POk (VInst CTimedelta p) ->
    library_form w basic strcons dstrcons iso (VInst CTimedelta p) (TClass CTimedelta) (w_seconds w (VInst CTimedelta p))
| lf_pattern p t : t = TClass CPattern \/ (exists n a, t = TGen n OPattern a) ->
    w_compile w p = POk (VInst CPattern p) ->
    library_form w basic strcons dstrcons iso (VInst CPattern p) t p
| lf_string c p : In c strcons -> In c dstrcons -> special c = None ->
    kind_of_class w c = None -> ci_enum (class_of w c) = None ->
    (forall c', In c' [CDate; CTime; CTimedelta; CPattern] -> isinstance w (VInst c p) c' = false) ->
    w_call w (TClass c) (VStr (w_str w (VInst c p))) = POk (VInst c p) ->
    library_form w basic strcons dstrcons iso (VInst c p) (TClass c) (VStr (w_str w (VInst c p))).

(** [serial v t x]: [x] is the serialised form of the value [v] of type [t],
    and it is not the form of something else of that type.  The loader has
    the settings [cfg] and is in the state [s], the dumper has [dcfg]. *)
Section RoundTrip.
  Variable w : world.
  Variables basic strcons dstrcons : list cid.
  Variable cfg : config.
  Variable dcfg : dconfig.
  Variable s : lstate.
  Variable env : string -> option ty.
  Notation p := (pep563 cfg).

  Inductive serial : value -> ty -> value -> Prop :=
  (* values of the basic types, and JSON data, are written as they are *)
  | sr_none : In CNone basic -> serial VNone (TClass CNone) VNone
  | sr_basic v c : In c basic -> c <> CNone -> type_of v = c -> serial v (TClass c) v
  | sr_any v : json_like w basic v -> serial v TAny v
  | sr_literal v vals : json_like w basic v -> py_in v vals = true -> serial v (TLiteral vals) v
  (* collections are written as lists *)
  | sr_list n t l xs :
      supported cfg t -> List.length l = List.length xs ->
      (forall v x, In (v, x) (combine l xs) -> serial v t x) ->
      serial (VList l) (TGen n OList (Some [t])) (VList xs)
  | sr_vtuple n t l xs :
      supported cfg t -> List.length l = List.length xs ->
      (forall v x, In (v, x) (combine l xs) -> serial v t x) ->
      serial (VTuple l) (TGen n OTuple (Some [t; TEllipsis])) (VList xs)
  | sr_set n t l xs :
      supported cfg t -> List.length l = List.length xs ->
      (forall v x, In (v, x) (combine l xs) -> serial v t x) ->
      (forall v, In v l -> hashable w v = true) -> ForallOrdPairs (fun a b => py_eqb b a = false) l ->
      serial (VSet l) (TGen n OSet (Some [t])) (VList xs)
  | sr_frozen n t l xs :
      supported cfg t -> List.length l = List.length xs ->
      (forall v x, In (v, x) (combine l xs) -> serial v t x) ->
      (forall v, In v l -> hashable w v = true) -> ForallOrdPairs (fun a b => py_eqb b a = false) l ->
      serial (VFrozen l) (TGen n OFrozen (Some [t])) (VList xs)
  | sr_tuple n ts l xs :
      fixed_size ts -> List.length l = List.length ts -> List.length xs = List.length ts ->
      (forall t v x, In (t, (v, x)) (combine ts (combine l xs)) -> serial v t x) ->
      serial (VTuple l) (TGen n OTuple (Some ts)) (VList xs)
  (* dictionaries are written item by item; the keys must stay different *)
  | sr_dict n kt vt d d' :
      supported cfg kt -> supported cfg vt -> List.length d = List.length d' ->
      (forall k v k' x, In ((k, v), (k', x)) (combine d d') -> serial k kt k') ->
      (forall k v k' x, In ((k, v), (k', x)) (combine d d') -> serial v vt x) ->
      py_dict d -> py_dict d' ->
      (forall k, In k (map fst d) -> hashable w k = true) -> (forall k, In k (map fst d') -> hashable w k = true) ->
      serial (VDict d) (TGen n ODict (Some [kt; vt])) (VDict d')
  (* unions: the value of a basic member, or one which no other member takes *)
  | sr_union_basic v n args :
      In (type_of v) basic -> In (TClass (type_of v)) args -> serial v (TGen n OUnion (Some args)) v
  | sr_union v n pre t post x :
      serial v t x ->
      ~ own_basic basic (pre ++ t :: post) x -> tags_hashable w (pre ++ t :: post) x ->
      (forall t', In t' (pre ++ post) -> settles w cfg s x t' /\ ~ accepts w cfg s x t') ->
      serial v (TGen n OUnion (Some (pre ++ t :: post))) x
  | sr_newtype v n t x : serial v t x -> serial v (TNewType n t) x
  | sr_forward v n t x : env n = Some t -> serial v t x -> serial v (TForward n) x
  (* Enum: the value of the member *)
  | sr_enum c ms m x :
      ci_enum (class_of w c) = Some ms -> ~ In c basic -> kind_of_class w c = None ->
      json_like w basic x -> type_of x <> c ->
      member_for c ms x (VEnum c m x) ->
      serial (VEnum c m x) (TClass c) x
  | sr_library v t x :
      library_form w basic strcons dstrcons (d_iso dcfg) v t x ->
      ~ In (type_of v) basic -> kind_of_class w (type_of v) = None -> ci_enum (class_of w (type_of v)) = None ->
      serial v t x
  (* objects: a dictionary of the fields which are shown, with the same
     external names in the loader and in the dumper *)
  | sr_object v c ys :
      type_of v = c ->
      object_class w basic strcons c -> resolvable w cfg c -> distinct_names w cfg c ->
      dump_object w basic dcfg v -> dump_ready w dcfg v -> rebuilds w dcfg v ->
      (forall f e, In (f, e) (obj_fields w cfg c) <-> In (f, e) (map (fun g => (df_name g, df_ext g)) (dump_fields w dcfg v))) ->
      (forall f, In f (dump_fields w dcfg v) -> exists t, str_get (df_name f) (declared w p c) = Some t) ->
      let shown := filter (dump_shows w dcfg v) (dump_fields w dcfg v) in
      List.length shown = List.length ys ->
      (forall f y x t, In (f, y) (combine shown ys) -> getattr v (df_name f) = POk x ->
         str_get (df_name f) (declared w p c) = Some t -> serial x t y) ->
      serial v (TClass c) (VDict (combine (map (fun f => VStr (df_ext f)) shown) ys))
  | sr_typeddict c req d d' :
      kind_of_class w c = Some (KTD req) -> In CStr basic ->
      object_class w basic strcons c -> resolvable w cfg c -> distinct_names w cfg c ->
      map fst d = map fst d' -> py_dict d ->
      (forall e, In e (required_names w cfg c) -> In (VStr e) (map fst d)) ->
      (forall k, In k (map fst d) -> exists f t, k = VStr f /\ str_get f (declared w p c) = Some t) ->
      (forall f v x t, In ((VStr f, v), (VStr f, x)) (combine d d') -> str_get f (declared w p c) = Some t -> serial v t x) ->
      serial (VDict d) (TClass c) (VDict d').
End RoundTrip.
