(** * Reference: what loading means, without loader, caches, order of trials,
      recursion budget, exceptions and traces

    [gives v t r]: the data [v], read as the type [t], is the value [r].  One
    rule for each kind of type.  Where the library leaves a choice (the member
    of a Union, the annotation of an Enum) there is a rule for each of them.

    This file is specification only; C43 and C44 relate it to the Loader. *)

From Verif Require Import Loader Spec.
From Verif Require Export Vocab.

(** calling a class with the data as only argument *)
Definition makes (w : world) (t : ty) (v r : value) : Prop :=
  match t with
  | TClass c => match ci_enum (class_of w c) with
                | Some ms => member_for c ms v r
                | None => w_call w t v = POk r
                end
  | _ => w_call w t v = POk r
  end.

(** the elements of something which is not a dictionary *)
Definition elements (v : value) (l : list value) : Prop :=
  (forall d, v <> VDict d) /\ iter v = Some l.

(** dictionaries have no equal keys; None is the only object of its class *)
Definition python_data (x : value) : Prop := proper_data x /\ (type_of x = CNone -> x = VNone).

Section Reference.
  Variable w : world.
  Variables basic strcons : list cid.
  Variable cfg : config.
  (** the types of the forward references *)
  Variable env : string -> option ty.
  (** the types which the loader did not meet before: they matter only for
      the defect in the last rule *)
  Variable unseen : ty -> Prop.
  Notation p := (pep563 cfg).

  (** an instance of the basic type, which List, Set and Dict do not load *)
  Definition as_is (t : ty) (x y : value) : Prop := y = x /\ kept w basic t x.

  (** a class for which there is no more specific rule *)
  Definition other_class (c : cid) : Prop :=
    ~ In c basic /\ ci_enum (class_of w c) = None /\ ci_nt (class_of w c) = None /\
    ci_dc (class_of w c) = None /\ ci_td (class_of w c) = None.

  Inductive gives : value -> ty -> value -> Prop :=
  | gv_none : gives VNone (TClass CNone) VNone
  (* basic types *)
  | gv_same v c : In c basic -> c <> CNone -> type_of v = c -> gives v (TClass c) v
  | gv_cast v c r :
      In c basic -> c <> CNone -> type_of v <> c -> basiccast cfg = true -> makes w (TClass c) v r ->
      gives v (TClass c) r
  | gv_any v : gives v TAny v
  | gv_literal v vals : py_in v vals = true -> gives v (TLiteral vals) v
  (* List, Set, FrozenSet, Tuple[t, ...]: element by element *)
  | gv_collection k n t rest v l ys r :
      supported cfg t -> elements v l -> List.length l = List.length ys ->
      (forall x y, In (x, y) (combine l ys) -> kept w basic t x -> y = x) ->
      (forall x y, In (x, y) (combine l ys) -> ~ kept w basic t x -> gives x t y) ->
      collect w k ys = Some r ->
      gives v (coll_type k n t rest) r
  (* Tuple[t1, ..., tn] *)
  | gv_tuple n ts v l ys :
      fixed_size ts -> elements v l -> List.length ts <= List.length l ->
      (failonextra cfg = true -> List.length l = List.length ts) ->
      List.length ys = List.length ts ->
      (forall t x y, In (t, (x, y)) (combine ts (combine l ys)) -> gives x t y) ->
      gives v (TGen n OTuple (Some ts)) (VTuple ys)
  (* Dict: item by item; of equal keys the last one counts *)
  | gv_dict n kt vt v d kvs :
      supported cfg kt -> supported cfg vt ->
      dict_items cfg v d -> List.length d = List.length kvs ->
      (forall k x k' y, In ((k, x), (k', y)) (combine d kvs) -> reads k kt k') ->
      (forall k x k' y, In ((k, x), (k', y)) (combine d kvs) -> reads x vt y) ->
      (forall k, In k (map fst kvs) -> hashable w k = true) ->
      gives v (TGen n ODict (Some [kt; vt])) (VDict (dict_of kvs))
  (* NamedTuple, dataclass, attrs, TypedDict *)
  | gv_object v c d ps r :
      object_class w basic strcons c -> resolvable w cfg c ->
      obj_data w cfg c v d ->
      (forall e, In e (required_names w cfg c) -> In (VStr e) (map fst d)) ->
      (failonextra cfg = true -> forall k x, In (k, x) d -> exists f, field_of w cfg c k = Some f) ->
      map fst ps = map fst (given w cfg c d) ->
      (forall f, In f (map fst ps) -> exists t, str_get f (declared w p c) = Some t) ->
      (forall f x y t, In ((f, x), (f, y)) (combine (given w cfg c d) ps) ->
         str_get f (declared w p c) = Some t -> gives x t y) ->
      construct w (TClass c) ps = POk r ->
      gives v (TClass c) r
  (* Enum: by value, or through one of the annotations of the Enum *)
  | gv_enum v c ms r :
      ci_enum (class_of w c) = Some ms -> ~ In c basic -> member_for c ms v r -> gives v (TClass c) r
  | gv_enum_hint v c ms hints n t y r :
      ci_enum (class_of w c) = Some ms -> ~ In c basic -> no_member_for c ms v ->
      ci_hints (class_of w c) = POk hints -> In (n, t) hints ->
      gives v t y -> member_for c ms y r -> gives v (TClass c) r
  (* dates and times: from the ISO format, or from the arguments *)
  | gv_iso c x r : In c [CDate; CTime; CDatetime] -> other_class c ->
      w_fromiso w c x = POk r -> gives (VStr x) (TClass c) r
  | gv_args c v l r : In c [CDate; CTime; CDatetime] -> other_class c ->
      (forall x, v <> VStr x) -> iter v = Some l -> w_callargs w c l = POk r -> gives v (TClass c) r
  | gv_timedelta v r : other_class CTimedelta -> w_timedelta w v = POk r -> gives v (TClass CTimedelta) r
  | gv_pattern v t r :
      (t = TClass CPattern /\ other_class CPattern) \/ (exists n a, t = TGen n OPattern a) ->
      w_compile w v = POk r -> gives v t r
  (* paths, addresses...: what the class makes of the data *)
  | gv_string v c r :
      In c strcons -> other_class c -> special c = None ->
      w_call w (TClass c) v = POk r -> gives v (TClass c) r
  | gv_newtype v n t r : gives v t r -> gives v (TNewType n t) r
  | gv_forward v n t r : env n = Some t -> gives v t r -> gives v (TForward n) r
  (* Union: values of basic types are kept, otherwise some member *)
  | gv_union_own v n args : own_basic basic args v -> gives v (TGen n OUnion (Some args)) v
  | gv_union v n args t r :
      ~ own_basic basic args v -> In t args -> gives v t r -> gives v (TGen n OUnion (Some args)) r
  (* The defect in line 396 of dataloader.py: when the loader meets the basic
     type of the values for the first time, and all the values are instances
     of it, the keys are read by the handler of the values *)
  | gv_dict_396 n kt c v d kvs :
      In c basic -> unseen (TClass c) -> supported cfg kt -> dict_items cfg v d -> List.length d = List.length kvs ->
      (forall k x k' y, In ((k, x), (k', y)) (combine d kvs) ->
         y = x /\ isinstance w x c = true /\
         (as_is kt k k' \/
          (c = CNone /\ k = VNone /\ k' = VNone) \/
          (c <> CNone /\ TClass (type_of k) = kt /\ k' = k) \/
          (c <> CNone /\ TClass (type_of k) <> kt /\ basiccast cfg = true /\ makes w kt k k'))) ->
      (forall k, In k (map fst kvs) -> hashable w k = true) ->
      gives v (TGen n ODict (Some [kt; TClass c])) (VDict (dict_of kvs))
  (* the keys and values of a Dict *)
  with reads : value -> ty -> value -> Prop :=
  | rd_same x t y : as_is t x y -> reads x t y
  | rd_gives x t y : gives x t y -> reads x t y.
End Reference.

Scheme gives_mut := Minimality for gives Sort Prop
  with reads_mut := Minimality for reads Sort Prop.
Combined Scheme gives_reads_ind from gives_mut, reads_mut.

(** ** When the reference leaves nothing to choose *)

(** At the unions, the annotated Enums and the dictionaries met while reading
    [v] as [t] there is nothing to choose. *)
Record no_choice (w : world) (basic strcons : list cid) (cfg : config) (env : string -> option ty)
       (v : value) (t : ty) : Prop := mkNoChoice {
  nc_union : forall n args x t1 t2 r1 r2,
    reach w (pep563 cfg) env t (TGen n OUnion (Some args)) -> inside v x -> ~ own_basic basic args x ->
    In t1 args -> In t2 args -> t1 <> t2 ->
    gives w basic strcons cfg env (fun _ => False) x t1 r1 ->
    gives w basic strcons cfg env (fun _ => False) x t2 r2 -> r1 = r2;
  nc_enum : forall c ms hints x t1 t2 y1 y2 r1 r2,
    reach w (pep563 cfg) env t (TClass c) -> inside v x -> ci_enum (class_of w c) = Some ms ->
    no_member_for c ms x ->
    ci_hints (class_of w c) = POk hints -> In t1 (map snd hints) -> In t2 (map snd hints) -> t1 <> t2 ->
    gives w basic strcons cfg env (fun _ => False) x t1 y1 -> member_for c ms y1 r1 ->
    gives w basic strcons cfg env (fun _ => False) x t2 y2 -> member_for c ms y2 r2 -> r1 = r2;
  nc_dict : forall n kt vt c x,
    reach w (pep563 cfg) env t (TGen n ODict (Some [kt; vt])) -> inside v x -> In c basic ->
    TClass c = kt \/ TClass c = vt -> isinstance w x c = true -> type_of x = c
}.

(** Where there are members or annotations to try, each trial ends with a
    value or a TypedloadException. *)
Record trials_end (w : world) (basic : list cid) (cfg : config) (env : string -> option ty)
       (s : lstate) (v : value) (t : ty) : Prop := mkTrials {
  te_union : forall n args x,
    reach w (pep563 cfg) env t (TGen n OUnion (Some args)) -> inside v x -> ~ own_basic basic args x ->
    tags_hashable w args x /\ forall t', In t' args -> settles w cfg s x t';
  te_enum : forall c ms hints x t',
    reach w (pep563 cfg) env t (TClass c) -> inside v x -> ci_enum (class_of w c) = Some ms ->
    no_member_for c ms x -> ci_hints (class_of w c) = POk hints -> In t' (map snd hints) ->
    finishes w cfg s x t'
}.

(** the classes and the data are as Python makes them *)
Record well_formed (w : world) (basic strcons : list cid) (cfg : config) (env : string -> option ty)
       (v : value) (t : ty) : Prop := mkWf {
  wl_names : forall c, reach w (pep563 cfg) env t (TClass c) -> object_class w basic strcons c -> distinct_names w cfg c;
  wl_data : forall x, inside v x -> python_data x /\ keys_hashable w x;
  (** no StopIteration, which would end the iteration of line 935 *)
  wl_calm : never_stops w (pep563 cfg) env t
}.

(** these settings of two loaders are equal *)
Definition same_reading (cfg cfg' : config) : Prop :=
  pep563 cfg = pep563 cfg' /\ mangle_key cfg = mangle_key cfg'.
(** [cfg'] accepts at least what [cfg] accepts *)
Definition relaxes (cfg cfg' : config) : Prop :=
  same_reading cfg cfg' /\
  (failonextra cfg' = true -> failonextra cfg = true) /\
  (basiccast cfg = true -> basiccast cfg' = true) /\
  (dictequivalence cfg = true -> dictequivalence cfg' = true).
