(** * Says: what an error says is true (C70) *)

From Verif Require Import Loader Render Messages Spec Vocab Inv Std Obs Objects Enums Trace.

(** ** Specification *)
Section Honest.
  Variable w : world.
  Variable basic : list cid.
  Variable cfg : config.
  Variable p : printing.
  (** the loader before the load *)
  Variable s : lstate.
  Notation name := (tname p).

  (** the name which the metadata give to the field [f] of the class [c] *)
  Definition metadata_name (c : cid) (f : string) (n : string) : Prop :=
    exists attrs fs fd, (kind_of_class w c = Some (if attrs : bool then KAT fs else KDC fs)) /\
      In fd fs /\ f_name fd = f /\ given_name cfg attrs fd = Some n.

  (** An exception of the class [k], with the attributes value = [v] and type_ = [t],
      may have this text: what the text says holds of [v] and [t] *)
  Inductive honest : tlkind -> value -> ty -> string -> Prop :=
  | ho_unsupported v t : ~ supported cfg t ->
      honest KType v t ("Cannot deal with value of type " ++ name t)
  | ho_key v t n vt : ~ supported cfg t ->
      honest KValue v t ("Cannot deal with value of type " ++ name t ++ " (key of " ++ name (TGen n ODict (Some [t; vt])) ++ ")")
  (** the text calls the members of a union keys *)
  | ho_member v t n args : ~ supported cfg t -> In t args ->
      honest KValue v t ("Cannot deal with value of type " ++ name t ++ " (key of " ++ name (TGen n OUnion (Some args)) ++ ")")
  | ho_value v t n kt : ~ supported cfg t ->
      honest KValue v t ("Cannot deal with value of type " ++ name t ++ " (value of " ++ name (TGen n ODict (Some [kt; t])) ++ ")")
  | ho_forward_off v n : st_frefs s = None ->
      honest KBase v (TForward n) "ForwardRef resolving is disabled for the loader"
  | ho_forward v n : names_of s n = None ->
      honest KValue v (TForward n) ("ForwardRef '" ++ n ++ "' unknown")
  | ho_literal v vals : (forall x, In x vals -> py_eqb v x = false) ->
      honest KValue v (TLiteral vals) ("Not one of the allowed values in " ++ name (TLiteral vals))
  | ho_basic v c : In c basic -> type_of v <> c -> basiccast cfg = false ->
      honest KValue v (TClass c) ("Got " ++ q_repr p v ++ " of type " ++ name (TClass (type_of v)) ++ ", expected " ++ name (TClass c))
  | ho_none v : v <> VNone -> honest KValue v (TClass CNone) "Not None"
  | ho_long v n ts l : iter v = Some l -> List.length ts < List.length l -> failonextra cfg = true ->
      honest KValue v (TGen n OTuple (Some ts)) ("Value is too long for type " ++ name (TGen n OTuple (Some ts)))
  | ho_short v n ts l : iter v = Some l -> List.length l < List.length ts ->
      honest KValue v (TGen n OTuple (Some ts)) ("Value is too short for type " ++ name (TGen n OTuple (Some ts)))
  | ho_dict_tuple d n ts : honest KType (VDict d) (TGen n OTuple (Some ts)) "Unable to load dictionary as a tuple"
  | ho_dict_iter d k n t rest : honest KType (VDict d) (coll_type k n t rest) "Unable to load dictionary as an iterable"
  (** a list, set, frozenset without the type of the items *)
  | ho_dict_bare d n o args : In o [OList; OSet; OFrozen] ->
      honest KType (VDict d) (TGen n o args) "Unable to load dictionary as an iterable"
  (** the key is the python name of a field, which is known by another name *)
  | ho_extra_field d c k n : failonextra cfg = true -> In (VStr k) (map fst d) ->
      metadata_name c k n -> ~ (exists f, metadata_name c f k) ->
      honest KValue (VDict d) (TClass c) ("Extra field: " ++ k)
  (** the names are all the fields which are required and not in the data.  These are
      the python names, and the value is the dictionary after the renaming *)
  | ho_missing d c names : names <> [] ->
      (forall f, In f names <-> In f (obj_required w cfg c) /\ ~ In (VStr f) (map fst d)) ->
      honest KValue (VDict d) (TClass c)
        ("Value does not contain fields: {" ++ String.concat ", " (map (fun f => q_repr p (VStr f)) names)
           ++ "} which are necessary for type " ++ name (TClass c))
  (** the names are all the keys which are not fields *)
  | ho_extra d c names : failonextra cfg = true -> names <> [] ->
      (forall k, In k (map fst d) -> ~ (exists f, k = VStr f /\ In f (map fst (obj_fields w cfg c))) -> exists f, k = VStr f /\ In f names) ->
      (forall f, In f names -> In (VStr f) (map fst d) /\ ~ In f (map fst (obj_fields w cfg c))) ->
      honest KValue (VDict d) (TClass c)
        ("Dictionary has unrecognized fields: " ++ String.concat ", " names ++ " and cannot be loaded into " ++ name (TClass c))
  | ho_union v n args : ~ own_basic basic args v ->
      honest KValue v (TGen n OUnion (Some args))
        ("Value of " ++ name (TClass (type_of v)) ++ " could not be loaded into " ++ name (TGen n OUnion (Some args)))
  | ho_conflict v n args k : ~ own_basic basic args v -> uniondebugconflict cfg = true -> 2 <= k ->
      honest KType v (TGen n OUnion (Some args))
        ("Value of " ++ name (TClass (type_of v)) ++ " could be loaded into " ++ name (TGen n OUnion (Some args)) ++ " " ++ dec k ++ " times")
  (** with at most ten members, all with basic values, the values are listed *)
  | ho_enum_values v c ms : ci_enum (class_of w c) = Some ms -> no_member_for c ms v ->
      List.length ms <= 10 -> (forall m, In m ms -> In (type_of (snd m)) basic) ->
      honest KValue v (TClass c)
        ("Value of " ++ name (TClass (type_of v)) ++ " could not be loaded into " ++ name (TClass c) ++ nl
           ++ "Value " ++ q_repr p v ++ " not between: " ++ String.concat ", " (map (fun m => q_repr p (snd m)) ms))
  | ho_enum v c ms : ci_enum (class_of w c) = Some ms -> no_member_for c ms v ->
      10 < List.length ms \/ (exists m, In m ms /\ ~ In (type_of (snd m)) basic) ->
      honest KValue v (TClass c)
        ("Value of " ++ name (TClass (type_of v)) ++ " could not be loaded into " ++ name (TClass c)).
End Honest.

(** ** Proofs *)
Section Says.
  Variable w : world.
  Variables basic strcons : list cid.
  Variable cfg : config.
  Hypothesis Hstd : is_std w basic strcons cfg.
  Hypothesis Hwr : wf_reflect w.
  Variable S0 : lstate.

  (** what the message of an exception says holds *)
  Definition fits (k : tlkind) (m : msg) (v : value) (t : ty) : Prop :=
    match m with
    | MCannotDeal t' => k = KType /\ t' = t /\ find_handler cfg t = PExc RValue
    | MFrefDisabled => k = KBase /\ (exists n, t = TForward n) /\ st_frefs S0 = None
    | MFrefUnknown n => k = KValue /\ t = TForward n /\ names_of S0 n = None
    | MNotLiteral t' => k = KValue /\ t' = t /\ exists vals, t = TLiteral vals /\ forall x, In x vals -> py_eqb v x = false
    | MPy _ | MCtor _ | MNested _ => True
    | MGot v' t' => k = KValue /\ v' = v /\ t' = t /\ exists c, t = TClass c /\ In c basic /\ type_of v <> c /\ basiccast cfg = false
    | MCannotKey t1 t' => k = KValue /\ t1 = t /\ find_handler cfg t = PExc RValue /\
        ((exists n vt, t' = TGen n ODict (Some [t; vt])) \/ (exists n args, t' = TGen n OUnion (Some args) /\ In t args))
    | MCannotVal t1 t' => k = KValue /\ t1 = t /\ find_handler cfg t = PExc RValue /\ exists n kt, t' = TGen n ODict (Some [kt; t])
    | MTooLong t' => k = KValue /\ t' = t /\ exists n ts l, t = TGen n OTuple (Some ts) /\ iter v = Some l /\ List.length ts < List.length l /\ failonextra cfg = true
    | MTooShort t' => k = KValue /\ t' = t /\ exists n ts l, t = TGen n OTuple (Some ts) /\ iter v = Some l /\ List.length l < List.length ts
    | MDictTuple => k = KType /\ (exists d, v = VDict d) /\ exists n ts, t = TGen n OTuple (Some ts)
    | MDictIter => k = KType /\ (exists d, v = VDict d) /\
        ((exists c n et rest, t = coll_type c n et rest) \/ (exists n o args, In o [OList; OSet; OFrozen] /\ t = TGen n o args))
    | MNotSubclass => False
    | MExtraField x => k = KValue /\ exists d c n, v = VDict d /\ t = TClass c /\ failonextra cfg = true /\ In (VStr x) (map fst d) /\
        metadata_name w cfg c x n /\ ~ (exists f, metadata_name w cfg c f x)
    | MMissing fs t' => k = KValue /\ t' = t /\ exists d c, v = VDict d /\ t = TClass c /\ fs <> [] /\
        forall f, In f fs <-> In f (obj_required w cfg c) /\ ~ In (VStr f) (map fst d)
    | MExtra ks t' => k = KValue /\ t' = t /\ exists d c, v = VDict d /\ t = TClass c /\ failonextra cfg = true /\ ks <> [] /\ all_str ks = true /\
        forall x, In x ks <-> In x (map fst d) /\ ~ (exists f, x = VStr f /\ In f (map fst (obj_fields w cfg c)))
    | MUnion c t' => k = KValue /\ t' = t /\ c = type_of v /\ exists n args, t = TGen n OUnion (Some args) /\ ~ own_basic basic args v
    | MConflict c t' n => k = KType /\ t' = t /\ c = type_of v /\ uniondebugconflict cfg = true /\ 2 <= n /\
        exists n args, t = TGen n OUnion (Some args) /\ ~ own_basic basic args v
    | MEnum c t' => k = KValue /\ t' = t /\ c = type_of v /\ exists c' ms, t = TClass c' /\ ci_enum (class_of w c') = Some ms /\ no_member_for c' ms v
    | MNotNone => k = KValue /\ t = TClass CNone /\ v <> VNone
    | MCustom _ => False
    end.
  Inductive te : exn -> Prop :=
  | te_raw r : te (XRaw r)
  | te_none k tr m : (m = MNotSubclass /\ k = KType) \/ (exists r, m = MCtor r) -> te (XTL k m tr None None [])
  | te_fits k m tr v t subs : fits k m v t -> Forall te subs -> te (XTL k m tr (Some v) (Some t) subs).
  Hint Constructors te : core.

  Lemma te_push i e : te e -> te (push_trace i e).
  Proof using. intros []; cbn [push_trace]; auto. Qed.
  Lemma te_nested e x : nested e x -> te e -> te x.
  Proof using.
    induction 1 as [|k m tr v t subs x y I N IH]; intro T; [exact T|]. apply IH.
    inversion T as [| |k0 m0 tr0 v0 t0 subs0 F Fa]; subst; [destruct I|]. rewrite Forall_forall in Fa. apply Fa. exact I.
  Qed.
  Lemma fit1 k m tr v t : fits k m v t -> te (XTL k m tr (Some v) (Some t) []).
  Proof using. auto. Qed.

  Definition names_le (s : lstate) : Prop :=
    match st_frefs S0, st_frefs s with
    | None, None => True
    | Some a, Some b => forall n t, str_get n a = Some t -> str_get n b = Some t
    | _, _ => False
    end.
  Definition J (s : lstate) : Prop := coh w cfg s /\ names_le s.
  Lemma J_step s s' : good_step w cfg s s' -> J s -> J s'.
  Proof using.
    intros [G1 G2] [C N]. split; [auto|]. pose proof (le_frefs _ _ G2) as L. unfold names_le in *.
    destruct (st_frefs S0), (st_frefs s), (st_frefs s'); auto; contradiction.
  Qed.
  Notation hs := (fun m => hl J m (fun _ => True) te).
  Lemma hl_gd {A} (m : M A) Q : gd w cfg m -> (forall s, J s -> match fst (m s) with Ok a => Q a | Exc e => te e | OOF => True end) -> hl J m Q te.
  Proof using.
    intros G H s Js. specialize (G s). specialize (H s Js). pose proof (J_step _ _ G Js). destruct (m s) as [[a|e|] s1]; cbn [fst snd] in *; auto.
  Qed.

  Variable call : handler -> value -> ty -> M value.
  Hypothesis Hcall : forall h v t, find_handler cfg t = POk h -> hs (call h v t).

  Lemma hl_lookup nf t : (find_handler cfg t = PExc RValue -> te nf) ->
    hl J (lookup_handler cfg nf t) (fun h => find_handler cfg t = POk h) te.
  Proof using Hstd.
    intro H. apply hl_gd; [apply gd_lookup|]. intros s [C N]. unfold lookup_handler. destruct (ty_get t (st_index s)) eqn:E; cbn [fst].
    - apply (coh_index _ _ _ C). exact E.
    - destruct (find_handler cfg t) as [h|r] eqn:F; cbn [fst]; [reflexivity|].
      pose proof (std_exc w basic strcons cfg t r Hstd F) as ->. cbn [fst]. auto.
  Qed.
  Lemma hl_load_with v t a : hs (load_with w cfg call v t a).
  Proof using Hstd Hcall.
    unfold load_with. apply hl_bind with (Q1 := fun h => find_handler cfg t = POk h).
    - apply hl_gd.
      + intro s. destruct (ty_get t (st_index s)) eqn:E; [apply good_refl|].
        destruct (find_handler cfg t) as [h|[]] eqn:F; cbn [snd]; try apply good_refl.
        eapply good_trans; [apply (good_index w cfg s t h E F)|apply good_reg].
      + intros s [C N]. destruct (ty_get t (st_index s)) eqn:E; cbn [fst].
        * apply (coh_index _ _ _ C). exact E.
        * destruct (find_handler cfg t) as [h|r] eqn:F; cbn [fst]; [reflexivity|].
          pose proof (std_exc w basic strcons cfg t r Hstd F) as ->. cbn [fst]. apply fit1. cbn. auto.
    - intros h F. eapply hl_catch; [exact (Hcall h v t F)|]. intros e T. destruct (is_tl e); apply hl_raise; auto using te_push.
  Qed.
  Lemma hl_unless {A} (b : bool) (m1 m2 : M A) Q E : hl J m1 Q E -> hl J m2 Q E -> hl J (if b then m1 else m2) Q E.
  Proof using. destruct b; auto. Qed.

  Hypothesis Gcall : forall h v t, gd w cfg (call h v t).
  Lemma hl_forget {A} (m : M A) : gd w cfg m -> hl J m (fun _ => True) (fun _ => True).
  Proof using. intros G s Js. specialize (G s). pose proof (J_step _ _ G Js). destruct (m s) as [[a|e|] s1]; cbn [snd] in *; auto. Qed.
  Lemma hl_item_error {A} (v : value) (t : ty) i e : te e -> hl J (item_error v t i e) (fun _ : A => True) te.
  Proof using.
    intro T. destruct e as [k m tr ve te0 subs|r]; cbn [item_error].
    - apply hl_raise. apply te_push. exact T.
    - destruct r; apply hl_raise; auto; apply fit1; exact I.
  Qed.

  Lemma hl_dict_slow kt vt d acc : hs (dict_slow w cfg call kt vt d acc).
  Proof using Hstd Hcall.
    revert acc. induction d as [|[k x] d IH]; intro acc; cbn [dict_slow]; [apply hl_ret; exact I|].
    eapply hl_bind; [apply hl_load_with|]. intros k' _. eapply hl_bind; [apply hl_load_with|]. intros x' _.
    apply hl_unless; [apply IH|apply hl_raise; auto].
  Qed.
  Lemma hl_dictload v n args : hs (dictload w cfg call v (TGen n ODict args)).
  Proof using Hstd Hcall Gcall.
    unfold dictload. cbn [ty_args]. destruct args as [[|kt [|vt [|? ?]]]|]; try (apply hl_raise; auto; fail).
    eapply hl_bind. { apply hl_lookup. intro F. apply fit1. cbn. repeat (split; auto). left. eauto. }
    intros kf0 Fk. eapply hl_bind with (Q1 := fun _ => True).
    { apply hl_gd.
      - intro s. destruct (ty_get vt (st_index s)) eqn:E; [apply good_refl|].
        destruct (find_handler cfg vt) as [h|[]] eqn:F; cbn [snd]; try apply good_refl. apply good_index; assumption.
      - intros s [C N]. destruct (ty_get vt (st_index s)) eqn:E; cbn [fst]; [exact I|].
        destruct (find_handler cfg vt) as [h|r] eqn:F; cbn [fst]; [exact I|].
        pose proof (std_exc w basic strcons cfg vt r Hstd F) as ->. cbn [fst]. apply fit1. cbn. repeat (split; auto). eauto. }
    intros [kf vf] _. cbv beta iota zeta. eapply hl_catch.
    { apply hl_forget. destruct (as_dict cfg v); try apply gd_raise. apply gd_dict_fast. exact Gcall. }
    intros _ _. eapply hl_catch.
    { instantiate (1 := te). destruct (as_dict cfg v); try (apply hl_raise; auto; fail). apply hl_dict_slow. }
    intros e T. destruct e as [k m tr ve te0 subs|r].
    - destruct k; apply hl_raise; try exact T. apply fit1. exact I.
    - destruct r; apply hl_raise; auto. apply fit1. exact I.
  Qed.

  Lemma hl_iter_loop k mp f v t l i acc : (forall x, hs (f x)) -> hs (iter_loop w k mp f v t l i acc).
  Proof using.
    intro F. revert i acc. induction l as [|x l IH]; intros i acc; cbn [iter_loop]; [apply hl_ret; exact I|].
    eapply hl_bind.
    { apply hl_attempt with (Q := fun _ => True) (E1 := te). eapply hl_bind; [apply F|]. intros y _. apply hl_lift; auto. }
    intros [acc'|e] H; [apply IH|]. apply hl_unless; [apply hl_ret; exact I|apply hl_item_error; exact H].
  Qed.
  Lemma hl_iter_item h et x : find_handler cfg et = POk h -> hs (iter_item w cfg call h et x).
  Proof using Hcall.
    intro F. unfold iter_item. apply hl_unless; [apply hl_unless; [apply hl_ret; exact I|apply Hcall; exact F]|].
    destruct et as [|n o args| | | | | |]; try (apply Hcall; exact F). destruct o; try (apply Hcall; exact F).
    destruct args; try (apply Hcall; exact F). apply hl_unless; [apply hl_ret; exact I|apply Hcall; exact F].
  Qed.
  Lemma hl_iterload k v n o args : In o [OList; OSet; OFrozen] \/ (exists et rest, TGen n o args = coll_type k n et rest) ->
    hs (iterload w cfg call k v (TGen n o args)).
  Proof using Hstd Hcall.
    intro Ho. unfold iterload.
    assert (D : forall d, te (XTL KType MDictIter [] (Some (VDict d)) (Some (TGen n o args)) [])).
    { intro d. apply fit1. cbn. split; [reflexivity|]. split; [eauto|]. destruct Ho as [Ho|[et [rest E]]]; [right; exists n, o, args; auto|left; exists k, n, et, rest; exact E]. }
    assert (B : forall l : option (list value), (forall d, v <> VDict d) ->
      hs (match ty_args (TGen n o args) with
          | None => raise (XRaw RAttr) | Some [] => raise (XRaw RIndex)
          | Some (et :: _) =>
              bind (lookup_handler cfg (XTL KType (MCannotDeal et) [] (Some v) (Some et) []) et) (fun h =>
              match l with
              | None => raise (XTL KType (MPy RType) [] (Some v) (Some (TGen n o args)) [])
              | Some l => iter_loop w k (mapped cfg et) (iter_item w cfg call h et) v (TGen n o args) l 0 []
              end)
          end)).
    { intros l _. cbn [ty_args]. destruct args as [[|et rest]|]; try (apply hl_raise; auto; fail).
      eapply hl_bind. { apply hl_lookup. intro F. apply fit1. cbn. auto. }
      intros h F. destruct l; [|apply hl_raise; apply fit1; exact I].
      apply hl_iter_loop. intro x. apply hl_iter_item. exact F. }
    destruct v; try (apply B; discriminate). apply hl_raise. apply D.
  Qed.
  Lemma hl_tuple_loop v t l ts i acc : hs (tuple_loop cfg call v t l ts i acc).
  Proof using Hcall Hstd.
    revert l i acc. induction ts as [|et ts IH]; intros l i acc; (destruct l as [|x l]; cbn [tuple_loop]; [apply hl_ret; exact I|]); [apply hl_ret; exact I|].
    eapply hl_bind.
    { apply hl_attempt with (Q := fun _ => True) (E1 := te). eapply hl_bind with (Q1 := fun h => find_handler cfg et = POk h).
      - intros s Js. pose proof Js as [C N]. destruct (ty_get et (st_index s)) eqn:E.
        + split; [exact Js|apply (coh_index _ _ _ C); exact E].
        + destruct (find_handler cfg et); cbn; auto.
      - intros h F. apply hl_unless; [apply hl_ret; exact I|apply Hcall; exact F]. }
    intros [y|e] H; [apply IH|apply hl_item_error; exact H].
  Qed.
  Lemma hl_tupleload v n args : hs (tupleload w cfg call v (TGen n OTuple args)).
  Proof using Hstd Hcall.
    unfold tupleload. cbn [ty_args]. destruct args as [ts|]; [|apply hl_raise; auto].
    assert (B : hs (match v with
        | VDict _ => raise (XTL KType MDictTuple [] (Some v) (Some (TGen n OTuple (Some ts))) [])
        | _ => match iter v with
            | None => raise (XRaw RType)
            | Some l =>
                if failonextra cfg && Nat.ltb (List.length ts) (List.length l)
                then raise (XTL KValue (MTooLong (TGen n OTuple (Some ts))) [] (Some v) (Some (TGen n OTuple (Some ts))) [])
                else if Nat.ltb (List.length l) (List.length ts)
                then raise (XTL KValue (MTooShort (TGen n OTuple (Some ts))) [] (Some v) (Some (TGen n OTuple (Some ts))) [])
                else tuple_loop cfg call v (TGen n OTuple (Some ts)) l ts 0 []
            end
        end)).
    { assert (X : hs (match iter v with
            | None => raise (XRaw RType)
            | Some l =>
                if failonextra cfg && Nat.ltb (List.length ts) (List.length l)
                then raise (XTL KValue (MTooLong (TGen n OTuple (Some ts))) [] (Some v) (Some (TGen n OTuple (Some ts))) [])
                else if Nat.ltb (List.length l) (List.length ts)
                then raise (XTL KValue (MTooShort (TGen n OTuple (Some ts))) [] (Some v) (Some (TGen n OTuple (Some ts))) [])
                else tuple_loop cfg call v (TGen n OTuple (Some ts)) l ts 0 []
            end)).
      { destruct (iter v) as [l|] eqn:E; [|apply hl_raise; auto].
        destruct (failonextra cfg && Nat.ltb (List.length ts) (List.length l)) eqn:X.
        - apply andb_prop in X as [X1 X2]. apply Nat.ltb_lt in X2. apply hl_raise. apply fit1. cbn. repeat (split; auto). eauto 10.
        - destruct (Nat.ltb (List.length l) (List.length ts)) eqn:Y; [|apply hl_tuple_loop].
          apply Nat.ltb_lt in Y. apply hl_raise. apply fit1. cbn. repeat (split; auto). eauto 10. }
      destruct v; try exact X. apply hl_raise. apply fit1. cbn. eauto 8. }
    destruct ts as [|et [|[] [|? ?]]]; try exact B. apply hl_iterload. right. exists et, [TEllipsis]. reflexivity.
  Qed.

  (** *** objects *)
  Lemma mangle_loop_fail names skip d acc k : mangle_loop cfg names skip d acc = inr k ->
    In (VStr k) (map fst d) /\ str_get k names = None /\ In k skip /\ failonextra cfg = true.
  Proof using.
    revert acc. induction d as [|[k0 x] d IH]; intro acc; cbn [mangle_loop]; [discriminate|].
    assert (R : forall a, mangle_loop cfg names skip d a = inr k -> In (VStr k) (map fst ((k0, x) :: d)) /\ str_get k names = None /\ In k skip /\ failonextra cfg = true).
    { intros a E. destruct (IH a E) as [A B]. split; [right; exact A|exact B]. }
    destruct k0; try (exact (R _)). destruct (str_get s names) eqn:G; [exact (R _)|].
    destruct (mem_str s skip) eqn:Ms; [|exact (R _)]. destruct (failonextra cfg); [|exact (R _)].
    intros [= <-]. apply mem_str_In in Ms. cbn. auto.
  Qed.
  Lemma str_set_keeps {A} k k' (a : A) l : str_get k l <> None -> str_get k (str_set k' a l) <> None.
  Proof using.
    induction l as [|[x b] l IH]; cbn; [congruence|]. destruct (String.eqb k x) eqn:E.
    - intros _. destruct (String.eqb k' x); cbn; rewrite E; discriminate.
    - intro H. destruct (String.eqb k' x); cbn; rewrite E; auto.
  Qed.
  Lemma str_set_has {A} k (a : A) l : str_get k (str_set k a l) <> None.
  Proof using.
    induction l as [|[x b] l IH]; cbn; [rewrite String.eqb_refl; discriminate|].
    destruct (String.eqb k x) eqn:E; cbn; rewrite E; [discriminate|exact IH].
  Qed.
  Lemma str_set_in {A} k k' (a b : A) l : In (k, b) (str_set k' a l) -> (k = k' /\ b = a) \/ In (k, b) l.
  Proof using.
    induction l as [|[x y] l IH]; cbn; [intros [[= <- <-]|[]]; auto|].
    destruct (String.eqb k' x) eqn:E; cbn.
    - apply String.eqb_eq in E. subst x. intros [[= <- <-]|H]; auto.
    - intros [H|H]; [auto|]. destruct (IH H); auto.
  Qed.
  Lemma names_fold_has g fs acc n : str_get n acc <> None \/ (exists fd, In fd fs /\ g fd = Some n) -> str_get n (names_fold g fs acc) <> None.
  Proof using.
    revert acc. induction fs as [|f fs IH]; intros acc H; cbn [names_fold fold_left]; [destruct H as [H|[? [[] _]]]; exact H|].
    apply IH. destruct H as [H|[fd [[<-|I0] G]]]; [left|left; rewrite G; apply str_set_has|right; eauto].
    destruct (g f); [apply str_set_keeps|]; exact H.
  Qed.
  Lemma names_fold_in g fs acc n f : In (n, f) (names_fold g fs acc) -> In (n, f) acc \/ exists fd, In fd fs /\ f_name fd = f /\ g fd = Some n.
  Proof using.
    revert acc. induction fs as [|f0 fs IH]; intros acc H; cbn [names_fold fold_left] in H; [left; exact H|].
    destruct (IH _ H) as [H1|[fd [I0 X]]]; [|right; exists fd; split; [right; exact I0|exact X]].
    destruct (g f0) as [n0|] eqn:G; [|left; exact H1].
    apply str_set_in in H1 as [[-> ->]|H1]; [right; exists f0; cbn; auto|left; exact H1].
  Qed.
  Lemma obj_names_in c n f : In (n, f) (obj_names w cfg c) -> metadata_name w cfg c f n.
  Proof using.
    unfold obj_names. destruct (kind_of_class w c) as [[nt|fs|fs|req]|] eqn:K; try (intros []; fail);
      intro H.
    - apply dc_transforms_in in H as [fd [I0 [G <-]]]. exists false, fs, fd. auto.
    - apply names_fold_in in H as [[]|[fd [I0 [<- G]]]]. exists true, fs, fd. auto.
  Qed.
  Lemma obj_names_has c n f : metadata_name w cfg c f n -> str_get n (obj_names w cfg c) <> None.
  Proof using.
    intros [a [fs [fd [K [I0 [_ G]]]]]]. unfold obj_names. rewrite K. destruct a; [apply names_fold_has; right; eauto|].
    intro E. destruct (str_get n (dc_table w cfg fs)) as [k|] eqn:T.
    - assert (I1 : In (n, k) (dc_table w cfg fs)) by (apply str_get_In; exact T).
      rewrite dc_table_fold in I1. apply names_fold_in in I1 as [[]|[fd' [I1 [Nk G']]]]. apply dc_order_in in I1.
      assert (I2 : In (n, k) (dc_transforms w cfg fs)).
      { unfold dc_transforms. apply in_flat_map. exists fd'. split; [exact I1|]. rewrite dc_name_given, G', T, Nk, String.eqb_refl. left. reflexivity. }
      apply (in_map fst) in I2. apply str_get_None in E. contradiction.
    - rewrite dc_table_fold in T. revert T. apply names_fold_has. right. exists fd. split; [apply dc_order_in; exact I0|exact G].
  Qed.
  Lemma hl_mangle c v : hs (mangle cfg (obj_names w cfg c) v (TClass c)).
  Proof using.
    unfold mangle. destruct (obj_names w cfg c) as [|nm l] eqn:E; [apply hl_ret; exact I|]. rewrite <- E. clear nm l E.
    destruct v; try (apply hl_raise; apply fit1; exact I).
    destruct (mangle_loop _ _ _ _ _) as [d'|k] eqn:M; [apply hl_ret; exact I|]. apply hl_raise. apply fit1.
    destruct (mangle_loop_fail _ _ _ _ _ M) as [I1 [G [I2 FE]]]. apply in_map_iff in I2 as [[n f] [Ef I2]]. cbn [snd] in Ef. subst f.
    split; [reflexivity|]. eexists _, c, n. split; [reflexivity|]. split; [reflexivity|]. split; [exact FE|]. split; [exact I1|].
    split; [apply obj_names_in; exact I2|]. intros [f H]. exact (obj_names_has _ _ _ H G).
  Qed.
  Lemma hl_fields_loop fs hints v t d acc : hs (fields_loop cfg call fs hints v t d acc).
  Proof using Hstd Hcall.
    revert acc. induction d as [|[k x] d IH]; intro acc; cbn [fields_loop]; [apply hl_ret; exact I|].
    destruct k; try apply IH. destruct (mem_str s fs); [|apply IH]. destruct (str_get s hints) as [ft|]; [|apply hl_raise; auto].
    eapply hl_bind. { apply hl_lookup. intro F. apply fit1. cbn. auto. }
    intros h F. eapply hl_bind. { eapply hl_catch; [apply Hcall; exact F|]. intros e T. apply hl_raise. apply te_push. exact T. }
    intros y _. apply IH.
  Qed.
  Lemma has_key_In d f : has_key d f = true <-> In (VStr f) (map fst d).
  Proof using.
    unfold has_key. rewrite existsb_exists. split.
    - intros [[k x] [I0 E]]. cbn [fst] in E. destruct k; try discriminate. apply String.eqb_eq in E. subst. apply (in_map fst) in I0. exact I0.
    - intro I0. apply in_map_iff in I0 as [[k x] [E I0]]. cbn [fst] in E. subst k. exists (VStr f, x). split; [exact I0|]. apply String.eqb_refl.
  Qed.
  Lemma key_in_In l (kv : value * value) : key_in l kv = true <-> exists f, fst kv = VStr f /\ In f l.
  Proof using.
    unfold key_in. destruct (fst kv); try (split; [discriminate|intros [? [? _]]; discriminate]).
    rewrite mem_str_In. split; [eauto|]. intros [f [[= ->] H]]. exact H.
  Qed.
  Lemma hl_objloader hints c v : hs (objloader w cfg call (map fst (obj_fields w cfg c)) (obj_required w cfg c) hints v (TClass c)).
  Proof using Hstd Hcall.
    unfold objloader. destruct (as_dict cfg v) as [| | | | | | | | | |d| | | | | ] eqn:A; try (apply hl_raise; apply fit1; exact I).
    cbv zeta. destruct (filter (fun s => negb (has_key d s)) (obj_required w cfg c)) as [|f fs] eqn:M.
    - destruct (failonextra cfg) eqn:FE; cbn [andb].
      + destruct (negb _) eqn:NE.
        * destruct (all_str _) eqn:AS; apply hl_raise; auto. apply fit1. cbn [fits]. split; [reflexivity|]. split; [reflexivity|].
          exists d, c. split; [reflexivity|]. split; [reflexivity|]. split; [exact FE|]. split; [intro E0; rewrite E0 in NE; discriminate|]. split; [exact AS|].
          intro x. rewrite in_map_iff. split.
          -- intros [kv [<- I0]]. apply filter_In in I0 as [I0 NK]. split; [apply in_map; exact I0|]. intro X. apply (key_in_In _ kv) in X. rewrite X in NK. discriminate.
          -- intros [I0 X]. apply in_map_iff in I0 as [kv [<- I0]]. exists kv. split; [reflexivity|]. apply filter_In. split; [exact I0|].
             destruct (key_in _ kv) eqn:KI; [|reflexivity]. apply key_in_In in KI. contradiction.
        * eapply hl_bind; [apply hl_fields_loop|]. intros ps _. destruct (construct w (TClass c) ps) as [r|[]]; first [apply hl_ret; exact I|apply hl_raise; eauto].
      + eapply hl_bind; [apply hl_fields_loop|]. intros ps _. destruct (construct w (TClass c) ps) as [r|[]]; first [apply hl_ret; exact I|apply hl_raise; eauto].
    - apply hl_raise. apply fit1. cbn [fits]. split; [reflexivity|]. split; [reflexivity|]. exists d, c. split; [reflexivity|]. split; [reflexivity|].
      split; [discriminate|]. intro x. rewrite <- M, filter_In. split.
      + intros [I0 N]. split; [exact I0|]. intro X. apply has_key_In in X. rewrite X in N. discriminate.
      + intros [I0 N]. split; [exact I0|]. destruct (has_key d x) eqn:HK; [|reflexivity]. apply has_key_In in HK. contradiction.
  Qed.
  Lemma hl_raw {A} (m : M A) s : J s -> (exists r, m s = (Exc (XRaw r), s)) -> match m s with (Ok a, s') => J s' /\ True | (Exc e, s') => J s' /\ te e | (OOF, s') => J s' end.
  Proof using. intros Js [r ->]. auto. Qed.
  Lemma hl_object c k v : object_class w basic strcons c -> kind_of_class w c = Some k -> hs (body w cfg call (object_handler k) v (TClass c)).
  Proof using Hstd Hcall Hwr.
    intros OC Hk s Js.
    assert (D : resolvable w cfg c \/ exists r, body w cfg call (object_handler k) v (TClass c) s = (Exc (XRaw r), s)).
    { unfold resolvable. rewrite Hk. destruct k as [nt|fs|fs|req]; cbn [object_handler body].
      - assert (N : ci_nt (class_of w c) = Some nt).
        { unfold kind_of_class in Hk. destruct (ci_nt _); [congruence|]. destruct (ci_dc _); [discriminate|].
          destruct (ci_attrs _); [discriminate|]. destruct (ci_td _); discriminate. }
        unfold namedtupleload. rewrite N. destruct (pep563 cfg); [|left; discriminate].
        destruct (ci_hints (class_of w c)) as [l|r]; [left; eauto|right; exists r; reflexivity].
      - assert (N : ci_dc (class_of w c) = Some fs).
        { unfold kind_of_class in Hk. destruct (ci_nt _); [discriminate|]. destruct (ci_dc _); [congruence|].
          destruct (ci_attrs _); [discriminate|]. destruct (ci_td _); discriminate. }
        destruct (pep563 cfg) eqn:P; [|left; discriminate].
        destruct (ci_hints (class_of w c)) as [l|r] eqn:Hh; [left; eauto|right]. unfold dataclassload, bind.
        destruct (ty_get (TClass c) (st_fields s)) as [oi|] eqn:E.
        + exfalso. destruct (coh_fields _ _ _ (proj1 Js) _ _ E) as [c' [fs' [[= <-] [_ O]]]]. unfold dataclass_info in O. rewrite P, Hh in O. discriminate.
        + rewrite N. unfold dataclass_info. rewrite P, Hh. eauto.
      - assert (N : ci_attrs (class_of w c) = Some fs).
        { unfold kind_of_class in Hk. destruct (ci_nt _); [discriminate|]. destruct (ci_dc _); [discriminate|].
          destruct (ci_attrs _); [congruence|]. destruct (ci_td _); discriminate. }
        unfold attrload. rewrite N. destruct (attr_hints fs) as [l|r] eqn:AH; [left; apply Sound.attr_hints_iff; eauto|right; exists r; reflexivity].
      - assert (TD : ci_td (class_of w c) = Some req).
        { unfold kind_of_class in Hk. destruct (ci_nt _); [discriminate|]. destruct (ci_dc _); [discriminate|].
          destruct (ci_attrs _); [discriminate|]. destruct (ci_td _); congruence. }
        unfold typeddictload. rewrite TD. destruct (pep563 cfg); [|left; discriminate].
        destruct (ci_hints (class_of w c)) as [l|r]; [left; eauto|right; exists r; reflexivity]. }
    destruct D as [R|[r ->]]; [|auto].
    destruct (obj_body w basic strcons cfg Hstd Hwr c k s OC Hk R (proj1 Js)) as [s2 [C2 [_ [F2 B]]]]. rewrite B.
    assert (J2 : J s2) by (split; [exact C2|unfold names_le; rewrite F2; apply (proj2 Js)]).
    refine (hl_bind J _ _ (fun _ => True) _ te _ _ s2 J2); [apply hl_mangle|]. intros v' _. apply hl_objloader.
  Qed.

  (** *** unions, enums and the rest *)
  Lemma hl_prefer v n args sorted : (forall x, In x sorted -> In x args) ->
    hl J (prefer w v (TGen n OUnion (Some args)) args sorted) (fun l => forall x, In x l -> In x args) te.
  Proof using.
    intros Hs. unfold prefer. destruct v; try (apply hl_ret; exact Hs).
    apply hl_bind with (Q1 := fun dc => forall key cd x, dc = Some (key, cd) -> In x (map snd cd) -> In x args).
    { apply hl_gd.
      - intro s. destruct (same_get _ (st_disc s)) eqn:E; [apply good_refl|]. apply good_disc; [exact E|reflexivity].
      - intros s [C _]. destruct (same_get _ (st_disc s)) as [dc|] eqn:E; cbn [fst].
        + destruct (coh_disc _ _ _ C _ _ E) as [args0 [args' [s' [A' [Sm ->]]]]]. injection A' as <-.
          intros key cd x B I0. apply Sm. revert B I0. apply Sound.build_disc_types.
        + intros key cd x. apply Sound.build_disc_types. }
    intros [[key [|lt cd]]|] Hd; try (apply hl_ret; exact Hs).
    destruct (hashable w _); [|apply hl_raise; auto].
    destruct (disc_get _ (lt :: cd)) as [pt|] eqn:DG; apply hl_ret; [|exact Hs].
    intros x [<-|Hin]; [|apply Hs; eapply Sound.remove_first_In; exact Hin].
    eapply Hd; [reflexivity|]. eapply Sound.disc_get_types. exact DG.
  Qed.
  Lemma hl_try_members v u args ts n r exs : (forall x, In x ts -> In x args) -> Forall te exs -> (uniondebugconflict cfg = true \/ n = 0) ->
    hl J (try_members cfg call v (TGen u OUnion (Some args)) ts n r exs)
      (fun nre => Forall te (snd nre) /\ (uniondebugconflict cfg = true \/ fst (fst nre) <= 1)) te.
  Proof using Hstd Hcall.
    revert n r exs. induction ts as [|x ts IH]; intros n r exs Hts Fx Hn; cbn [try_members].
    { apply hl_ret. cbn. split; [exact Fx|]. destruct Hn as [Hn| ->]; auto. }
    assert (Hx : In x args) by (apply Hts; left; reflexivity).
    assert (Ht : forall y, In y ts -> In y args) by (intros; apply Hts; right; assumption).
    eapply hl_bind.
    { apply hl_attempt with (Q := fun _ => True) (E1 := te). eapply hl_bind.
      - apply hl_lookup. intro F. apply fit1. cbn [fits]. split; [reflexivity|]. split; [reflexivity|]. split; [exact F|]. right. eauto.
      - intros h F. apply Hcall. exact F. }
    intros [r'|e] H.
    - destruct (uniondebugconflict cfg) eqn:U; [apply IH; auto|].
      apply hl_ret. cbn. split; [exact Fx|]. right. destruct Hn as [Hn| ->]; [discriminate|auto].
    - destruct e as [k m tr ve te0 subs|k]; [|apply hl_raise; auto]. apply IH; auto. apply Forall_app. split; [exact Fx|].
      constructor; [|constructor]. apply te_push. exact H.
  Qed.
  Lemma hl_unionload v n args : hs (unionload w cfg call v (TGen n OUnion (Some args))).
  Proof using Hstd Hcall.
    unfold unionload. cbn [ty_args]. destruct (_ && _) eqn:OB; [apply hl_ret; exact I|]. cbv zeta.
    assert (NB : ~ own_basic basic args v).
    { intros [B I0]. unfold basicb in OB. rewrite (proj2 Hstd) in OB. cbn [in_classes] in OB.
      apply mem_cid_In in B. rewrite B in OB. cbn [andb] in OB. rewrite (proj2 (mem_ty_In _ _) I0) in OB. discriminate. }
    eapply hl_bind.
    { apply hl_prefer. intros x I0. apply in_app_iff in I0 as [I0|I0]; apply filter_In in I0; apply I0. }
    intros l Hl. eapply hl_bind. { apply hl_try_members with (args := args); [exact Hl|constructor|auto]. }
    intros [[k r] exs] [Fx Hc]. cbn [fst snd] in *. destruct k as [|[|k]]; [|apply hl_ret; exact I|]; apply hl_raise; constructor; try exact Fx; cbn [fits].
    - repeat (split; [reflexivity|]). eauto.
    - split; [reflexivity|]. split; [reflexivity|]. split; [reflexivity|]. destruct Hc as [Hc|Hc]; [|exfalso; lia].
      split; [exact Hc|]. split; [lia|]. eauto.
  Qed.
  Lemma hl_enum_hints v t ts exs : Forall te exs -> hl J (enum_hints w cfg call v t ts exs) (fun o => match o with inl _ => True | inr l => Forall te l end) te.
  Proof using Hstd Hcall.
    revert exs. induction ts as [|x ts IH]; intros exs Fx; cbn [enum_hints]; [apply hl_ret; exact Fx|].
    eapply hl_bind.
    { apply hl_attempt with (Q := fun _ => True) (E1 := te). eapply hl_bind; [apply hl_load_with|]. intros y _. apply hl_lift; auto. }
    intros [r|e] H; [apply hl_ret; exact I|]. apply IH. apply Forall_app. split; [exact Fx|]. constructor; [exact H|constructor].
  Qed.
  Lemma hl_enumload v c ms : ci_enum (class_of w c) = Some ms -> hs (enumload w cfg call v (TClass c)).
  Proof using Hstd Hcall.
    intro E. unfold enumload. cbn [call_type]. rewrite E. destruct (enum_call c ms v) as [r|r] eqn:Ec; [apply hl_ret; exact I|].
    eapply hl_bind; [apply hl_lift; auto; intros; exact I|]. intros hints _. eapply hl_bind; [apply hl_enum_hints; constructor|].
    intros [o|exs] H; [apply hl_ret; exact I|]. apply hl_raise. constructor; [|exact H]. cbn [fits].
    repeat (split; [reflexivity|]). exists c, ms. split; [reflexivity|]. split; [exact E|]. apply enum_call_none. eauto.
  Qed.
  Lemma hl_forwardrefload v n : hs (forwardrefload w cfg call v (TForward n)).
  Proof using Hstd Hcall.
    unfold forwardrefload. intros s Js. unfold bind, get_st. pose proof Js as [C N]. unfold names_le in N. destruct (st_frefs s) as [fr|] eqn:E.
    - destruct (str_get n fr) as [t'|] eqn:G; [exact (hl_load_with v t' (Some (AnForward n)) s Js)|]. split; [exact Js|]. apply fit1. cbn [fits].
      split; [reflexivity|]. split; [reflexivity|]. unfold names_of. destruct (st_frefs S0) as [a|]; [|reflexivity].
      destruct (str_get n a) as [t|] eqn:G0; [|reflexivity]. rewrite (N _ _ G0) in G. discriminate.
    - split; [exact Js|]. apply fit1. cbn [fits]. split; [reflexivity|]. split; [eauto|]. destruct (st_frefs S0); [contradiction|reflexivity].
  Qed.

  Lemma hl_body h v t : find_handler cfg t = POk h -> hs (body w cfg call h v t).
  Proof using Hstd Hcall Gcall Hwr.
    intro F. pose proof (std_selected w basic strcons cfg t h Hstd F) as Sel.
    assert (Py : forall (r : pyres value) (f : rawkind -> exn), (forall k, te (f k)) -> hs (match r with POk a => ret a | PExc k => raise (f k) end)).
    { intros r f H. destruct r; [apply hl_ret; exact I|apply hl_raise; apply H]. }
    destruct h; cbn [selected] in Sel; cbn [body].
    - subst t. unfold noneload. destruct v; try (apply hl_raise; apply fit1; cbn; repeat split; discriminate). apply hl_ret. exact I.
    - destruct Sel as [n [args ->]]. apply hl_unionload.
    - destruct Sel as [c [-> [B _]]]. unfold basicload. destruct (exact v (TClass c)) eqn:Ex; [apply hl_ret; exact I|].
      destruct (basiccast cfg) eqn:BC.
      + destruct (call_type w (TClass c) v) as [r|[]]; first [apply hl_ret; exact I|apply hl_raise; apply fit1; exact I].
      + apply hl_raise. apply fit1. cbn [fits]. repeat (split; [reflexivity|]). exists c. split; [reflexivity|]. split; [exact B|]. split; [|exact BC].
        intro T. unfold exact in Ex. rewrite T in Ex. assert (ty_eqb (TClass c) (TClass c) = true) by (apply ty_eqb_eq; reflexivity). congruence.
    - destruct Sel as [c [ms [-> [E _]]]]. eapply hl_enumload; eauto.
    - destruct Sel as [n [args ->]]. apply hl_tupleload.
    - destruct Sel as [n [args ->]]. apply hl_iterload. left. cbn. auto.
    - destruct Sel as [n [args ->]]. apply hl_dictload.
    - destruct Sel as [n [args ->]]. apply hl_iterload. left. cbn. auto.
    - destruct Sel as [n [args ->]]. apply hl_iterload. left. cbn. auto.
    - destruct Sel as [c [nt [-> [N [NB NE]]]]].
      assert (K : kind_of_class w c = Some (KNT nt)) by (unfold kind_of_class; rewrite N; reflexivity).
      apply (hl_object c (KNT nt)); [|exact K]. unfold object_class. rewrite K. auto.
    - destruct Sel as [c [fs [-> [D [N [NB NE]]]]]].
      assert (K : kind_of_class w c = Some (KDC fs)) by (unfold kind_of_class; rewrite N, D; reflexivity).
      apply (hl_object c (KDC fs)); [|exact K]. unfold object_class. rewrite K. auto.
    - destruct Sel as [n ->]. apply hl_forwardrefload.
    - destruct Sel as [vals ->]. unfold literalload. destruct (py_in v vals) eqn:PI; [apply hl_ret; exact I|]. apply hl_raise. apply fit1. cbn [fits].
      repeat (split; [reflexivity|]). exists vals. split; [reflexivity|]. intros x I0. destruct (py_eqb v x) eqn:E; [|reflexivity].
      exfalso. assert (py_in v vals = true) by (unfold py_in; apply existsb_exists; eauto). congruence.
    - destruct Sel as [c [req [-> [T [N [D [NB NE]]]]]]].
      assert (K : kind_of_class w c = Some (KTD req)).
      { unfold kind_of_class. rewrite N, D, (wr_td w Hwr c), T; [reflexivity|congruence]. }
      apply (hl_object c (KTD req)); [|exact K]. unfold object_class. rewrite K. auto.
    - unfold datetimeload. destruct t as [c| | | | | | |]; try (apply hl_raise; auto; fail).
      match goal with |- hl _ (match ?x with _ => _ end) _ _ => destruct x as [y|[]] end; first [apply hl_ret; exact I|apply hl_raise; auto; apply fit1; exact I].
    - unfold patternload. destruct (w_compile w v) as [r|[]]; first [apply hl_ret; exact I|apply hl_raise; auto; apply fit1; exact I].
    - unfold timedeltaload. destruct (w_timedelta w v) as [r|[]]; first [apply hl_ret; exact I|apply hl_raise; auto; apply fit1; exact I].
    - unfold strconsload. destruct (call_type w t v) as [r|[]]; first [apply hl_ret; exact I|apply hl_raise; auto; apply fit1; exact I].
    - destruct Sel as [c [fs [-> [A [N [D [T [NB [NE NS]]]]]]]]].
      assert (K : kind_of_class w c = Some (KAT fs)) by (unfold kind_of_class; rewrite N, D, A; reflexivity).
      apply (hl_object c (KAT fs)); [|exact K]. unfold object_class. rewrite K. auto.
    - apply hl_ret. exact I.
    - destruct Sel as [n [su ->]]. apply hl_load_with.
    - contradiction.
  Qed.
End Says.

Section Loads.
  Variable w : world.
  Variables basic strcons : list cid.
  Variable cfg : config.
  Hypothesis Hstd : is_std w basic strcons cfg.
  Hypothesis Hwr : wf_reflect w.
  Variable S0 : lstate.

  Lemma hl_run n h v t : find_handler cfg t = POk h -> hl (J w cfg S0) (run w cfg n h v t) (fun _ => True) (te w basic cfg S0).
  Proof using Hstd Hwr.
    revert h v t. induction n as [|n IH]; intros h v t F; cbn [run]; [intros s Js; exact Js|].
    eapply hl_body; eauto. intros h0 v0 t0. apply gd_run.
  Qed.
  Lemma load_te n v t e s' : coh w cfg S0 -> load w cfg n v t S0 = (Exc e, s') -> te w basic cfg S0 e.
  Proof using Hstd Hwr.
    intros C E. unfold load, load_ann in E.
    assert (J0 : J w cfg S0 S0).
    { split; [exact C|]. unfold names_le. destruct (st_frefs S0); auto. }
    pose proof (hl_load_with w basic strcons cfg Hstd S0 (run w cfg n) (hl_run n) v t None S0 J0) as H.
    rewrite E in H. apply H.
  Qed.

  Variable p : printing.
  Hypothesis Hp : forall l, Permutation l (q_order p l).

  Lemma str_app_assoc (a b c : string) : ((a ++ b) ++ c = a ++ b ++ c)%string.
  Proof using. induction a as [|x a IH]; cbn; [reflexivity|]. rewrite IH. reflexivity. Qed.
  Lemma str_app_nil (a : string) : (a ++ "" = a)%string.
  Proof using. induction a as [|x a IH]; cbn; [reflexivity|]. rewrite IH. reflexivity. Qed.
  Lemma honest_eq k v t a b : honest w basic cfg p S0 k v t a -> a = b -> honest w basic cfg p S0 k v t b.
  Proof using. intros H <-. exact H. Qed.
  Lemma unsupported t : find_handler cfg t = PExc RValue -> ~ supported cfg t.
  Proof using. intros F S. apply supported_find in S as [h S]. congruence. Qed.
  Lemma te_honest k m tr ve te0 subs text : te w basic cfg S0 (XTL k m tr ve te0 subs) -> description w cfg p (XTL k m tr ve te0 subs) = Some text ->
    (exists x t, ve = Some x /\ te0 = Some t /\ honest w basic cfg p S0 k x t text) \/
    (ve = None /\ te0 = None /\ k = KType /\ m = MNotSubclass).
  Proof using Hp Hstd.
    intros T D. inversion T as [|k0 tr0 m0 H|k0 m0 tr0 v t subs0 F Fa]; subst.
    - right. destruct H as [[-> ->]|[r ->]]; [auto|discriminate].
    - left. exists v, t. split; [reflexivity|]. split; [reflexivity|].
      destruct m; cbn [description] in D; try discriminate D; cbn [fits] in F; try contradiction;
        injection D as <-.
      + destruct F as [-> [-> F]]. apply ho_unsupported. apply unsupported. exact F.
      + destruct F as [-> [[n ->] F]]. apply ho_forward_off. exact F.
      + destruct F as [-> [-> F]]. apply ho_forward. exact F.
      + destruct F as [-> [-> [vals [-> F]]]]. apply ho_literal. exact F.
      + destruct F as [-> [-> [-> [c [-> [B [T0 BC]]]]]]]. apply ho_basic; assumption.
      + destruct F as [-> [-> [F [[n [vt ->]]|[n [args [-> I0]]]]]]]; [apply ho_key|apply ho_member]; auto using unsupported.
      + destruct F as [-> [-> [F [n [kt ->]]]]]. apply ho_value. apply unsupported. exact F.
      + destruct F as [-> [-> [n [ts [l [-> [I0 [L FE]]]]]]]]. eapply ho_long; eassumption.
      + destruct F as [-> [-> [n [ts [l [-> [I0 L]]]]]]]. eapply ho_short; eassumption.
      + destruct F as [-> [[d ->] [n [ts ->]]]]. apply ho_dict_tuple.
      + destruct F as [-> [[d ->] [[c [n [et [rest ->]]]]|[n [o [args [I0 ->]]]]]]]; [apply ho_dict_iter|apply ho_dict_bare; exact I0].
      + destruct F as [-> [d [c [n [-> [-> [FE [I0 [M1 M2]]]]]]]]]. eapply ho_extra_field; eassumption.
      + destruct F as [-> [-> [d [c [-> [-> [NE H]]]]]]]. unfold set_text.
        eapply honest_eq.
        * apply (ho_missing w basic cfg p S0 d c (q_order p fs)).
          -- intro E. apply NE. apply Permutation_nil. rewrite <- E. apply Permutation_sym. apply Hp.
          -- intro f. rewrite <- H. split; apply Permutation_in; [apply Permutation_sym|]; apply Hp.
        * cbn [String.append]. rewrite !str_app_assoc. reflexivity.
      + destruct F as [-> [-> [d [c [-> [-> [FE [NE [AS H]]]]]]]]].
        set (ns := flat_map (fun k => match k with VStr s => [s] | _ => [] end) ks).
        assert (In_ns : forall f, In f (q_order p ns) <-> In (VStr f) ks).
        { intro f. transitivity (In f ns); [split; apply Permutation_in; [apply Permutation_sym|]; apply Hp|]. unfold ns. rewrite in_flat_map. split.
          - intros [x [I0 H0]]. destruct x; try contradiction. destruct H0 as [<-|[]]. exact I0.
          - intro I0. exists (VStr f). split; [exact I0|]. left. reflexivity. }
        unfold all_str in AS. rewrite forallb_forall in AS.
        apply (ho_extra w basic cfg p S0 d c (q_order p ns)); [exact FE| | |].
        * intro E. destruct ks as [|x ks0]; [apply NE; reflexivity|]. specialize (AS x (or_introl eq_refl)). destruct x; try discriminate.
          pose proof (proj2 (In_ns _) (or_introl eq_refl)) as X. rewrite E in X. destruct X.
        * intros x I0 N. assert (Ix : In x ks) by (apply H; auto). pose proof (AS x Ix) as Sx. destruct x; try discriminate.
          eexists. split; [reflexivity|]. apply In_ns. exact Ix.
        * intros f I0. apply In_ns in I0. apply H in I0 as [I1 I2]. split; [exact I1|]. intro X. apply I2. eauto.
      + destruct F as [-> [-> [-> [n [args [-> NB]]]]]]. apply ho_union. exact NB.
      + destruct F as [-> [-> [-> [U [L [n0 [args [-> NB]]]]]]]]. apply ho_conflict; assumption.
      + destruct F as [-> [-> [-> [c' [ms [-> [E NM]]]]]]]. cbn [enum_text]. rewrite E. rewrite (proj2 Hstd).
        destruct (Nat.leb (List.length ms) 10 && _) eqn:L.
        * apply andb_true_iff in L as [L1 L2]. apply Nat.leb_le in L1. rewrite forallb_forall in L2.
          eapply ho_enum_values; [exact E|exact NM|exact L1|]. intros m Im. apply mem_cid_In. apply L2. exact Im.
        * eapply honest_eq.
          -- eapply ho_enum; [exact E|exact NM|]. apply andb_false_iff in L as [L|L]; [left; apply Nat.leb_gt; exact L|right].
             assert (X : ~ forall m, In m ms -> mem_cid (type_of (snd m)) basic = true) by (intro X; apply forallb_forall in X; congruence).
             clear - X. induction ms as [|m ms IH]; [exfalso; apply X; intros ? []|].
             destruct (mem_cid (type_of (snd m)) basic) eqn:B.
             ++ destruct IH as [m' [I0 N]]; [|exists m'; split; [right; exact I0|exact N]].
                intro Y. apply X. intros m0 [<-|I0]; auto.
             ++ exists m. split; [left; reflexivity|]. rewrite <- mem_cid_In. congruence.
          -- cbn [String.append]. rewrite !str_app_nil. reflexivity.
      + destruct F as [-> [-> N]]. apply ho_none. exact N.
  Qed.
End Loads.
