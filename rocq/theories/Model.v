(** * Model: declarations of data models, for C64

    Conditions on the declarations only (the annotations and the classes reached
    from a type), under which everything that can be loaded is a value of the data
    model in the sense of Schema.v. *)

From Verif Require Import Loader Dumper Spec Vocab Schema Reference.

Section Model.
  Variable w : world.
  Variables basic strcons dstrcons : list cid.
  Variable cfg : config.
  Variable dcfg : dconfig.
  (** what the names of the forward references mean *)
  Variable env : string -> option ty.
  Notation p := (pep563 cfg).
  Notation typed := (typed w basic strcons dstrcons cfg dcfg env).

  (** what the functions of the standard library make, for the annotation [t],
      from JSON data *)
  Inductive made : ty -> value -> Prop :=
  | made_iso c x r : In c [CDate; CTime; CDatetime] -> w_fromiso w c x = POk r -> made (TClass c) r
  | made_args c l r : In c [CDate; CTime; CDatetime] -> (forall x, In x l -> document x) -> w_callargs w c l = POk r -> made (TClass c) r
  | made_timedelta v r : document v -> w_timedelta w v = POk r -> made (TClass CTimedelta) r
  | made_pattern t v r : t = TClass CPattern \/ (exists n a, t = TGen n OPattern a) -> document v -> w_compile w v = POk r -> made t r
  | made_call c v r : In c strcons -> special c = None -> document v -> w_call w (TClass c) v = POk r -> made (TClass c) r.

  (** what is made can be written, and made again from what is written *)
  Definition written_back (t : ty) : Prop :=
    forall r, made t r ->
    python_value w r /\ ~ In (type_of r) basic /\ kind_of_class w (type_of r) = None /\ ci_enum (class_of w (type_of r)) = None /\
    exists x, library_form w basic strcons dstrcons (d_iso dcfg) r t x.

  (** A default of a field with the annotation [t]: a value of [t], or anything
      which is equal to itself when the dumper omits the defaults.  If it does,
      no other value of [t] is equal to the default (0.0 and -0.0). *)
  Definition default_fits (t : ty) (d : value) : Prop :=
    python_value w d /\
    (typed d t \/ (d_hide dcfg = true /\ py_eqb d d = true)) /\
    (d_hide dcfg = true -> forall x, typed x t -> py_eqb d x = true \/ py_eqb x d = true -> x = d).

  (** what is declared about the class [c] *)
  Record model_class (c : cid) : Prop := mkModelClass {
    (** basic types: the constructor makes instances of the class itself, not of a
        subclass *)
    mc_basic : In c basic -> ci_enum (class_of w c) = None /\
      forall v r, document v -> w_call w (TClass c) v = POk r -> type_of r = c /\ python_value w r;
    (** no list or dictionary is an instance of a basic type *)
    mc_instances : In c basic -> forall x, document x -> isinstance w x c = true -> In (type_of x) basic;
    (** Enums: the values of the members are JSON data, and each member is found
        by its value *)
    mc_enum : forall ms, ci_enum (class_of w c) = Some ms -> ~ In c basic ->
      ~ In c [CNone; CBool; CInt; CFloat; CStr; CList; CDict] /\
      kind_of_class w c = None /\
      (forall m x, In (m, x) ms -> python_value w x /\ json_like w basic x /\ type_of x <> c /\ member_for c ms x (VEnum c m x)) /\
      (forall hints n t y, ci_hints (class_of w c) = POk hints -> In (n, t) hints -> typed y t -> type_of y <> c);
    (** dates, times, patterns, paths, addresses... *)
    mc_library : other_class w basic c -> written_back (TClass c);
    (** objects: distinct names, all of them annotated *)
    mc_names : object_class w basic strcons c -> distinct_names w cfg c;
    mc_nt : forall nt, kind_of_class w c = Some (KNT nt) -> object_class w basic strcons c ->
      (forall f, In f (map fst (declared w p c)) <-> In f (map fst nt)) /\ NoDup (map fst nt) /\
      (forall f d t, In (f, Some d) nt -> str_get f (declared w p c) = Some t -> default_fits t d);
    (** dataclasses and attrs classes: all the fields are parameters of the
        constructor, __post_init__, converters and validators change nothing; the
        loader and the dumper use the same names *)
    mc_fields : forall fs, kind_of_class w c = Some (KDC fs) \/ kind_of_class w c = Some (KAT fs) -> object_class w basic strcons c ->
      (forall vs, ci_post (class_of w c) vs = POk vs) /\
      (forall f, In f fs -> f_init f = true /\ (forall g, f_default f <> DFactorySelf g)) /\
      (forall f, In f fs -> exists t, str_get (f_name f) (declared w p c) = Some t /\
         forall d, default_value (f_default f) = Some d -> default_fits t d);
    mc_dc : forall fs, kind_of_class w c = Some (KDC fs) -> object_class w basic strcons c ->
      (forall f, In f fs -> dump_name dcfg f = external cfg false f) /\
      exists hs, ci_ihints (class_of w c) = POk hs /\
        forall f t, str_get f hs = Some t -> t = TAny \/ str_get f (declared w p c) = Some t;
    mc_attrs : forall fs, kind_of_class w c = Some (KAT fs) -> object_class w basic strcons c ->
      forall f, In f fs -> dump_name dcfg f = external cfg true f /\ f_repr f = true /\ strip_underscore (f_name f) = f_name f;
    mc_td : forall req, kind_of_class w c = Some (KTD req) -> object_class w basic strcons c -> required_are_fields w cfg c
  }.

  (** the data of a value of one member cannot be taken for data of another *)
  Definition told_apart (args : list ty) : Prop :=
    forall pre t post v x, args = pre ++ t :: post -> in_classes basic t = false ->
    typed v t -> python_value w v -> dumped w dcfg v x ->
    ~ own_basic basic args x /\ tags_hashable w args x /\
    forall t', In t' (pre ++ post) -> in_classes basic t' = true \/ wrong_data w basic strcons cfg env x t'.
  (** or all the members are classes with a discriminator, which is dumped *)
  Definition told_by_tag (args : list ty) : Prop :=
    exists k tags, args = map (fun cl => TClass (fst cl)) tags /\ discriminated w basic strcons cfg k tags /\
    forall c vals v x, In (c, vals) tags -> typed v (TClass c) -> python_value w v -> dumped w dcfg v x ->
      exists d tag, x = VDict d /\ dict_get (VStr k) d = Some tag /\ In tag vals.

  Definition model_type (t : ty) : Prop :=
    match t with
    | TClass c => model_class c
    | TLiteral vals => Forall plain_literal vals
    | TGen _ (OList | OSet | OFrozen) (Some args) => List.length args = 1
    | TGen _ ODict (Some args) =>
        exists c vt, args = [TClass c; vt] /\ In c basic /\ c <> CNone /\ (forall k, isinstance w (VStr k) c = true -> c = CStr)
    | TGen _ OUnion (Some args) => told_apart args \/ told_by_tag args
    | TGen _ OPattern _ => written_back t
    | _ => True
    end.

  (** all the types reached from [T] are as above *)
  Definition data_model (T : ty) : Prop := forall t, reach w p env T t -> model_type t.

  (** ** Unions for which it can be seen in the declarations *)

  (** what the data of the values of [t] are: lists, dictionaries, or dictionaries
      with the names of the fields of [c] *)
  Inductive form : Type := FoList | FoDict | FoObject (c : cid).
  Inductive has_form : ty -> form -> Prop :=
  | hf_list n o args : In o [OList; OTuple; OSet; OFrozen] -> has_form (TGen n o (Some args)) FoList
  | hf_dict n kt vt : supported cfg kt -> supported cfg vt -> has_form (TGen n ODict (Some [kt; vt])) FoDict
  | hf_object c : field_class w basic strcons cfg c -> has_form (TClass c) (FoObject c)
  | hf_newtype n t a : has_form t a -> has_form (TNewType n t) a
  | hf_forward n t a : env n = Some t -> has_form t a -> has_form (TForward n) a.
  (** data of the form [a] cannot be taken for data of the form [b]: one is a
      dictionary and the other is not, or the second class requires a name which
      the first class does not have *)
  Definition different (a b : form) : Prop :=
    match a, b with
    | FoList, (FoDict | FoObject _) | (FoDict | FoObject _), FoList => True
    | FoObject c, FoObject c' => exists e, In e (required_names w cfg c') /\ ~ In e (map snd (obj_fields w cfg c))
    | _, _ => False
    end.
  (** the members, except those which are basic types, have different forms; no
      field is annotated with Literal in all of them *)
  Definition different_forms (args : list ty) : Prop :=
    (forall k, ~ literal_field w args k) /\
    (forall t, In t args -> in_classes basic t = false -> exists a, has_form t a) /\
    forall pre t post t' a b, args = pre ++ t :: post -> In t' (pre ++ post) ->
      in_classes basic t = false -> in_classes basic t' = false -> has_form t a -> has_form t' b -> different a b.

  (** the field [k] of [c] is always written *)
  Definition always_dumped (c : cid) (k : string) : Prop :=
    match kind_of_class w c with
    | Some (KNT nt) => d_hide dcfg = false \/ forall d, ~ In (k, Some d) nt
    | Some (KDC fs) | Some (KAT fs) => d_hide dcfg = false \/ forall f, In f fs -> f_name f = k -> default_value (f_default f) = None
    | Some (KTD _) => In k (required_names w cfg c)
    | None => False
    end.
  (** classes with a discriminator, which is always written, and has strings as values *)
  Definition tagged_classes (args : list ty) : Prop :=
    exists k tags, args = map (fun cl => TClass (fst cl)) tags /\ discriminated w basic strcons cfg k tags /\
    forall c vals, In (c, vals) tags -> always_dumped c k /\ forall x, In x vals -> exists q, x = VStr q.
End Model.
