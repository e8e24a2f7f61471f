(** * Schema: data models, for the round trips of C55

    Definitions only, about values, annotations and the class table; nothing
    here depends on the state of a loader or of a dumper.

    [typed v t]: the value [v] is what the annotation [t] says, in the sense of
    a data model (a JSON schema, so to speak): a basic type contains exactly
    its own instances, collections and objects contain values of the declared
    types, and a union contains a value of one member, whose data none of the
    members tried before can be confused with. *)

From Verif Require Import Loader Dumper Spec Vocab.

Section Schema.
  Variable w : world.
  Variables basic strcons dstrcons : list cid.
  Variable cfg : config.
  Variable dcfg : dconfig.
  (** what the names of the forward references mean *)
  Variable env : string -> option ty.
  Notation p := (pep563 cfg).

  (** types of which loading finishes whatever the data is, with a value or
      with an exception of typedload *)
  Inductive mild : ty -> Prop :=
  | md_class c : In c basic \/ c = CNone -> mild (TClass c)
  | md_literal vals : mild (TLiteral vals)
  | md_any : mild TAny
  | md_coll k n t : mild t -> mild (coll_type k n t [])
  | md_union n ts : ts <> [] -> (forall t, In t ts -> mild t) -> mild (TGen n OUnion (Some ts)).

  (** the class has fields, and is loaded from a dictionary *)
  Definition field_class (c : cid) : Prop :=
    object_class w basic strcons c /\ resolvable w cfg c /\ distinct_names w cfg c.

  Definition is_mapping (x : value) : bool := match x with VDict _ | VNamespace _ => true | _ => false end.

  (** [x] cannot be the data of a value of type [t], for one of the reasons
      which the loader checks first: it is a dictionary and must not be, or it
      must be and is not; it is none of the literals or of the members; a
      field is missing, is not expected, or is not one of its literals *)
  Inductive wrong_data : value -> ty -> Prop :=
  | wd_dict d n o args : In o [OList; OTuple; OSet; OFrozen] -> wrong_data (VDict d) (TGen n o (Some args))
  | wd_nodict x n kt vt : is_mapping x = false -> supported cfg kt -> supported cfg vt ->
      wrong_data x (TGen n ODict (Some [kt; vt]))
  | wd_noobject x c : is_mapping x = false -> field_class c -> wrong_data x (TClass c)
  | wd_literal x vals : py_in x vals = false -> wrong_data x (TLiteral vals)
  | wd_none x : x <> VNone -> wrong_data x (TClass CNone)
  | wd_enum x c ms : ci_enum (class_of w c) = Some ms -> ~ In c basic -> ci_hints (class_of w c) = POk [] ->
      no_member_for c ms x -> wrong_data x (TClass c)
  | wd_missing d c e : field_class c -> py_dict d ->
      In e (required_names w cfg c) -> ~ In (VStr e) (map fst d) -> wrong_data (VDict d) (TClass c)
  | wd_extra d c k x : field_class c -> py_dict d -> failonextra cfg = true ->
      (forall k' x', In (k', x') d -> exists e, k' = VStr e) ->
      In (VStr k, x) d -> field_of w cfg c (VStr k) = None -> wrong_data (VDict d) (TClass c)
  | wd_tag d c k tag f vals : field_class c -> py_dict d ->
      (forall k' x', In (k', x') d -> exists e, k' = VStr e) ->
      (forall g e, In (g, e) (obj_fields w cfg c) -> exists t, str_get g (declared w p c) = Some t /\ mild t) ->
      In (VStr k, tag) d -> field_of w cfg c (VStr k) = Some f ->
      str_get f (declared w p c) = Some (TLiteral vals) -> py_in tag vals = false ->
      wrong_data (VDict d) (TClass c)
  | wd_newtype x n t : wrong_data x t -> wrong_data x (TNewType n t)
  | wd_forward x n t : env n = Some t -> wrong_data x t -> wrong_data x (TForward n).

  (** [x] is what dumping [v] gives, on some dumper with these settings *)
  Definition dumped (v x : value) : Prop :=
    exists ds, dhistory w dcfg ds /\ dumps w dcfg ds v (Ok x).

  (** the discriminator of a union of classes: [k] is the only field annotated
      with Literal in all of them, with different values in each, and it is
      never omitted from the annotations (NotRequired) *)
  Definition discriminated (k : string) (tags : list (cid * list value)) : Prop :=
    tagged_union w basic strcons cfg k tags /\
    (forall k', literal_field w (map (fun cl => TClass (fst cl)) tags) k' -> k' = k) /\
    (forall c vals, In (c, vals) tags ->
       filter (fun kt => String.eqb (fst kt) k) (ci_ann (class_of w c)) = [(k, TLiteral vals)]).

  (** In collections and dictionaries an instance of a subclass of the basic
      type stays what it is (True in a List[int]) *)
  Definition stays (t : ty) (v : value) : Prop := kept w basic t v /\ In (type_of v) basic.

  Inductive typed : value -> ty -> Prop :=
  | td_none : In CNone basic -> typed VNone (TClass CNone)
  | td_scalar v c : In c basic -> c <> CNone -> type_of v = c -> typed v (TClass c)
  | td_any v : json_like w basic v -> typed v TAny
  | td_literal v vals : In (type_of v) basic -> py_in v vals = true -> typed v (TLiteral vals)
  | td_list n t l : supported cfg t -> (forall v, In v l -> ~ stays t v -> typed v t) -> typed (VList l) (TGen n OList (Some [t]))
  | td_vtuple n t l : supported cfg t -> (forall v, In v l -> ~ stays t v -> typed v t) ->
      typed (VTuple l) (TGen n OTuple (Some [t; TEllipsis]))
  | td_set n t l : supported cfg t -> (forall v, In v l -> ~ stays t v -> typed v t) ->
      (forall v, In v l -> hashable w v = true) -> ForallOrdPairs (fun a b => py_eqb b a = false) l ->
      typed (VSet l) (TGen n OSet (Some [t]))
  | td_frozen n t l : supported cfg t -> (forall v, In v l -> ~ stays t v -> typed v t) ->
      (forall v, In v l -> hashable w v = true) -> ForallOrdPairs (fun a b => py_eqb b a = false) l ->
      typed (VFrozen l) (TGen n OFrozen (Some [t]))
  | td_tuple n ts l : fixed_size ts -> List.length l = List.length ts ->
      (forall t v, In (t, v) (combine ts l) -> typed v t) -> typed (VTuple l) (TGen n OTuple (Some ts))
  (* the keys are of a basic type *)
  | td_dict n c vt d : In c basic -> c <> CNone -> supported cfg vt ->
      (forall k v, In (k, v) d -> type_of k = c /\ hashable w k = true) ->
      (forall k v, In (k, v) d -> ~ stays vt v -> typed v vt) -> py_dict d ->
      typed (VDict d) (TGen n ODict (Some [TClass c; vt]))
  | td_newtype v n t : typed v t -> typed v (TNewType n t)
  | td_forward v n t : env n = Some t -> typed v t -> typed v (TForward n)
  | td_enum c ms m x : ci_enum (class_of w c) = Some ms -> ~ In c basic -> kind_of_class w c = None ->
      json_like w basic x -> type_of x <> c -> member_for c ms x (VEnum c m x) ->
      typed (VEnum c m x) (TClass c)
  | td_library v t x : library_form w basic strcons dstrcons (d_iso dcfg) v t x ->
      ~ In (type_of v) basic -> kind_of_class w (type_of v) = None -> ci_enum (class_of w (type_of v)) = None ->
      typed v t
  (* objects: the loader and the dumper use the same names for the fields and
     the same types; the fields which are dumped have values of these types *)
  | td_object v : field_class (type_of v) ->
      dump_object w basic dcfg v -> dump_ready w dcfg v -> rebuilds w dcfg v ->
      (forall f e, In (f, e) (obj_fields w cfg (type_of v)) <->
                   In (f, e) (map (fun g => (df_name g, df_ext g)) (dump_fields w dcfg v))) ->
      (forall f, In f (dump_fields w dcfg v) -> exists t,
         str_get (df_name f) (declared w p (type_of v)) = Some t /\ (df_ann f = TAny \/ df_ann f = t)) ->
      (forall f t x, In f (dump_fields w dcfg v) -> dump_shows w dcfg v f = true ->
         str_get (df_name f) (declared w p (type_of v)) = Some t -> getattr v (df_name f) = POk x -> typed x t) ->
      typed v (TClass (type_of v))
  | td_typeddict c req d : kind_of_class w c = Some (KTD req) -> In CStr basic -> field_class c -> py_dict d ->
      (forall e, In e (required_names w cfg c) -> In (VStr e) (map fst d)) ->
      (forall k v, In (k, v) d -> exists f t, k = VStr f /\ str_get f (declared w p c) = Some t) ->
      (forall f v t, In (VStr f, v) d -> str_get f (declared w p c) = Some t -> typed v t) ->
      typed (VDict d) (TClass c)
  (* unions: an instance of a basic type which is in the union; *)
  | td_union_basic v n args : In (type_of v) basic -> In (TClass (type_of v)) args ->
      typed v (TGen n OUnion (Some args))
  (* a value of the member [t], when its data cannot be data of the members
     which are not basic types (the basic types are tried last); *)
  | td_union v n pre t post : typed v t -> in_classes basic t = false ->
      (forall x, dumped v x ->
         ~ own_basic basic (pre ++ t :: post) x /\ tags_hashable w (pre ++ t :: post) x /\
         forall t', In t' (pre ++ post) -> in_classes basic t' = true \/ wrong_data x t') ->
      typed v (TGen n OUnion (Some (pre ++ t :: post)))
  (* an object of one of the classes of a discriminated union *)
  | td_tagged v n k tags c vals : discriminated k tags -> In (c, vals) tags -> typed v (TClass c) ->
      (forall x, dumped v x -> exists d tag, x = VDict d /\ dict_get (VStr k) d = Some tag /\ In tag vals) ->
      typed v (TGen n OUnion (Some (map (fun cl => TClass (fst cl)) tags))).
End Schema.
