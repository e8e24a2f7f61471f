(** * Properties, ninth part: the reference semantics (C43, C44, C45, C46)

    [gives w basic strcons cfg env unseen v t r] (Reference.v): the data [v],
    read as the type [t], is the value [r].  It is defined without loader,
    caches, order of trials, exceptions and recursion budget.

    [well_formed], [no_choice], [trials_end] (Reference.v): the classes have
    distinct names for their fields and the dictionaries distinct, hashable
    keys; at the unions and annotated Enums at most one result is possible;
    each trial there ends with a value or a TypedloadException. *)

From Verif Require Import Loader Dumper Spec Vocab Inv Std Obs Hist Reuse Transparent Examples Ground
  Properties1 Properties2 Properties3 RefSound RefComplete RefUse.

(** ** Reading off the rules *)
Lemma gives_none w basic strcons cfg env v r : In CNone basic ->
  gives w basic strcons cfg env (fun _ => False) v (TClass CNone) r -> v = VNone.
Proof.
  intros B G. remember (TClass CNone) as t eqn:Et.
  destruct G as [ |v0 c0 B0 N0 T0|v0 c0 r0 B0 N0 T0 BC M| | |k n t rest v0 l ys r0 Su El L Hs Hg Co| | |v0 c0 d ps r0 OC| v0 c0 ms r0 E NB|v0 c0 ms h n t y0 r0 E NB|c0 x0 r0 I O|c0 v0 l r0 I O|v0 r0 O|v0 t0 r0 O|v0 c0 r0 I O| | | | | ];
    try discriminate Et; try (injection Et as Et; subst); try reflexivity; try contradiction;
    try (destruct O as [NB _]; contradiction).
  - destruct k; discriminate Et.
  - destruct OC as [NB _]. contradiction.
  - destruct O as [[-> [NB _]]|[n [a ->]]]; discriminate Et.
Qed.
Lemma gives_data w basic strcons cfg env v c r : object_class w basic strcons c -> special c = None -> ~ In c strcons ->
  gives w basic strcons cfg env (fun _ => False) v (TClass c) r -> exists d, obj_data w cfg c v d.
Proof.
  intros [NB0 [NE _]] Sp NS G. remember (TClass c) as t eqn:Et.
  destruct G as [ |v0 c0 B0 N0 T0|v0 c0 r0 B0 N0 T0 BC M| | |k n t rest v0 l ys r0 Su El L Hs Hg Co| | |v0 c0 d ps r0 OC Rs OD| v0 c0 ms r0 E NB|v0 c0 ms h n t y0 r0 E NB|c0 x0 r0 I O|c0 v0 l r0 I O|v0 r0 O|v0 t0 r0 O|v0 c0 r0 I O| | | | | ];
    try discriminate Et; try (injection Et as Et; subst); try contradiction; try congruence; try (cbn in Sp; discriminate Sp).
  - destruct k; discriminate Et.
  - exists d. exact OD.
  - cbn in I; intuition (subst; discriminate).
  - cbn in I; intuition (subst; discriminate).
  - destruct O as [[-> [NB _]]|[n [a ->]]]; [|discriminate Et]. injection Et as <-. discriminate.
Qed.

(** C43 Whatever load returns is a reading of the data: nothing else than the
    rules of the types decides about it *)
Theorem C43_sound : forall w basic strcons cfg,
  is_std w basic strcons cfg -> wf_reflect w ->
  forall s v t r s',
  used w cfg s -> ends w cfg s v t (Ok r) s' ->
  (forall c, reach w (pep563 cfg) (names_of s') t (TClass c) -> object_class w basic strcons c -> distinct_names w cfg c) ->
  (forall x, inside v x -> python_data x) ->
  never_stops w (pep563 cfg) (names_of s') t ->
  gives w basic strcons cfg (names_of s') (fun t => ~ seen s t) v t r.
Proof. exact c43_sound. Qed.
(** when line 396 of dataloader.py plays no part *)
Theorem C43_steady : forall w basic strcons cfg,
  is_std w basic strcons cfg -> wf_reflect w ->
  forall env s v t r,
  used w cfg s -> steady w basic cfg env s v t -> well_formed w basic strcons cfg env v t ->
  loads w cfg s v t (Ok r) -> gives w basic strcons cfg env (fun _ => False) v t r.
Proof. intros w basic strcons cfg Hstd Hwr env s v t r Us St Wl L. eapply ref_sound; eassumption. Qed.
(** what has no reading is never accepted *)
Theorem C43_mismatch : forall w basic strcons cfg,
  is_std w basic strcons cfg -> wf_reflect w ->
  forall env s v t,
  used w cfg s -> steady w basic cfg env s v t -> well_formed w basic strcons cfg env v t ->
  (forall r, ~ gives w basic strcons cfg env (fun _ => False) v t r) ->
  ~ accepts w cfg s v t.
Proof. intros w basic strcons cfg Hstd Hwr env s v t Us St Wl N [r L]. apply (N r). eapply ref_sound; eassumption. Qed.
Print Assumptions C43_sound.
Print Assumptions C43_steady.
Print Assumptions C43_mismatch.

(** C44 When the rules allow one reading, load returns exactly it *)
Theorem C44_exact : forall w basic strcons cfg,
  is_std w basic strcons cfg -> wf_reflect w -> uniondebugconflict cfg = false ->
  forall env s v t,
  used w cfg s -> steady w basic cfg env s v t -> well_formed w basic strcons cfg env v t ->
  no_choice w basic strcons cfg env v t -> trials_end w basic cfg env s v t ->
  forall r, loads w cfg s v t (Ok r) <-> gives w basic strcons cfg env (fun _ => False) v t r.
Proof.
  intros w basic strcons cfg Hstd Hwr Hud env s v t Us St Wl Nc Te r. split; intro H.
  - eapply ref_sound; eassumption.
  - eapply ref_complete; try eassumption. constructor; assumption.
Qed.
Theorem C44_one_reading : forall w basic strcons cfg,
  is_std w basic strcons cfg -> wf_reflect w -> uniondebugconflict cfg = false ->
  forall env s v t,
  used w cfg s -> steady w basic cfg env s v t -> well_formed w basic strcons cfg env v t ->
  no_choice w basic strcons cfg env v t -> trials_end w basic cfg env s v t ->
  forall r r', gives w basic strcons cfg env (fun _ => False) v t r ->
    gives w basic strcons cfg env (fun _ => False) v t r' -> r = r'.
Proof.
  intros w basic strcons cfg Hstd Hwr Hud env s v t Us St Wl Nc Te r r' G G'.
  apply (C44_exact w basic strcons cfg Hstd Hwr Hud env s v t Us St Wl Nc Te) in G, G'.
  pose proof (loads_det _ _ _ _ _ _ _ G G'). congruence.
Qed.
Print Assumptions C44_exact.
Print Assumptions C44_one_reading.

(** C45 The order of the members of a Union (and their repetition) does not
    matter when one reading is possible *)
Theorem C45_order : forall w basic strcons cfg,
  is_std w basic strcons cfg -> wf_reflect w -> uniondebugconflict cfg = false ->
  forall env s v n n' args args',
  (forall t, In t args <-> In t args') ->
  used w cfg s ->
  let t := TGen n OUnion (Some args) in
  steady w basic cfg env s v t -> well_formed w basic strcons cfg env v t ->
  no_choice w basic strcons cfg env v t -> trials_end w basic cfg env s v t ->
  forall r, loads w cfg s v (TGen n OUnion (Some args)) (Ok r) <-> loads w cfg s v (TGen n' OUnion (Some args')) (Ok r).
Proof.
  intros w basic strcons cfg Hstd Hwr Hud env s v n n' args args' Same Us t St Wl Nc Te r. split; intro L.
  - eapply order_loads; eassumption.
  - assert (Same' : forall x, In x args' <-> In x args) by (intro; symmetry; apply Same).
    eapply (order_loads w basic strcons cfg Hstd Hwr env n' n args' args Same'); try eassumption.
    + eapply order_steady; eassumption.
    + eapply order_wl; eassumption.
    + eapply order_nc; eassumption.
    + eapply order_te; eassumption.
Qed.
Print Assumptions C45_order.

(** C46 Relaxing the settings (failonextra off, basiccast on, dictequivalence
    on) does not change what was accepted before *)
Theorem C46_relaxed : forall w basic strcons cfg cfg',
  is_std w basic strcons cfg -> is_std w basic strcons cfg' -> wf_reflect w -> relaxes cfg cfg' ->
  uniondebugconflict cfg' = false ->
  forall env s s' v t,
  used w cfg s -> used w cfg' s' ->
  steady w basic cfg env s v t -> steady w basic cfg' env s' v t ->
  well_formed w basic strcons cfg env v t ->
  no_choice w basic strcons cfg' env v t -> trials_end w basic cfg' env s' v t ->
  forall r, loads w cfg s v t (Ok r) -> loads w cfg' s' v t (Ok r).
Proof.
  intros w basic strcons cfg cfg' Hstd Hstd' Hwr HR Hud env s s' v t Us Us' St St' Wl Nc Te r L.
  assert (Wl' : well_formed w basic strcons cfg' env v t).
  { destruct Wl as [H1 H2 H3]. constructor; [|exact H2|rewrite (mono_pep cfg cfg' HR); exact H3]. intros c R OC. rewrite (mono_pep cfg cfg' HR) in R.
    unfold distinct_names. rewrite (mono_fields w cfg cfg' HR). apply H1; assumption. }
  apply (ref_complete w basic strcons cfg' Hstd' Hwr env s' Us' Hud); [|constructor; assumption].
  apply (gives_mono w basic strcons cfg cfg' Hstd Hstd' HR). eapply ref_sound; eassumption.
Qed.
Print Assumptions C46_relaxed.

(** ** A recursive class and a union of a class and a list, on a loader with a
    history *)
Definition settledb (cfg : config) (s : lstate) (t : ty) (v : value) : bool :=
  match fst (load W0 cfg 50 v t s) with Ok _ => true | Exc (XTL _ _ _ _ _ _) => true | _ => false end.
Lemma settledb_spec cfg s t v : settledb cfg s t v = true -> settles W0 cfg s v t.
Proof.
  unfold settledb. intro B. exists (fst (load W0 cfg 50 v t s)). split.
  - split; [intro Q; rewrite Q in B; discriminate|]. exists 50. reflexivity.
  - destruct (fst (load W0 cfg 50 v t s)) as [y|[]|]; try discriminate; [left; eauto|right; unfold raises_tl; eauto 10].
Qed.
Fixpoint pairsb {A} (f : A -> A -> bool) (l : list A) : bool :=
  match l with [] => true | a :: l' => forallb (f a) l' && pairsb f l' end.
Lemma pairsb_spec {A} (f : A -> A -> bool) l : pairsb f l = true -> ForallOrdPairs (fun a b => f a b = true) l.
Proof.
  induction l as [|a l IH]; cbn; [constructor|]. intro H. apply andb_true_iff in H as [H1 H2]. constructor; [|auto].
  apply Forall_forall. intros b I. rewrite forallb_forall in H1. auto.
Qed.
Definition data_okb (v : value) : bool :=
  (match v with
   | VDict d => pairsb (fun a b => negb (py_eqb (fst b) (fst a))) d && forallb (fun kx => hashable W0 (fst kx)) d
   | VNamespace _ => false | _ => true end) &&
  (match v with VNT _ _ | VObj _ _ | VEnum _ _ _ | VInst _ _ => false | _ => true end).
Lemma data_okb_spec v : data_okb v = true -> python_data v /\ keys_hashable W0 v.
Proof.
  unfold data_okb. intro B. apply andb_true_iff in B as [B1 B2]. split; [split|].
  - destruct v; cbn in *; try exact I; try discriminate. apply andb_true_iff in B1 as [B1 _]. apply pairsb_spec in B1.
    unfold py_dict. induction B1 as [|a l H F IH]; constructor; [|apply IH; exact B2].
    eapply Forall_impl; [|exact H]. cbn. intros b Q. apply negb_true_iff in Q. exact Q.
  - destruct v; cbn in *; try reflexivity; discriminate.
  - intros d k x -> I. cbn in B1. apply andb_true_iff in B1 as [_ B1]. rewrite forallb_forall in B1. apply (B1 (k, x) I).
Qed.
Definition in9 : list value := all_inside 4 [NODE2].
Lemma in9_spec x : inside NODE2 x -> In x in9.
Proof. apply inside_closed; vm_compute; reflexivity. Qed.
Definition L9 : list ty := [CLS "Node"; TInt; OPT (TForward "Node"); TForward "Node"; TNone].
Lemma L9_spec t : reach W0 (pep563 C0) env2 (CLS "Node") t -> In t L9.
Proof. apply reach_closed; vm_compute; reflexivity. Qed.
Lemma steady9 : steady W0 default_basic C0 env2 S2 NODE2 (CLS "Node").
Proof. steady_in L9. Qed.
Lemma wl9 : well_formed W0 default_basic default_strcons C0 env2 NODE2 (CLS "Node").
Proof.
  constructor.
  - intros c R _. apply L9_spec in R. cbn [L9 In] in R. destruct R as [[= <-]|[[= <-]|[R|[R|[[= <-]|[]]]]]]; try discriminate;
      split; cbn; repeat constructor; cbn; intuition discriminate.
  - intros x I. apply in9_spec in I. apply data_okb_spec.
    assert (F : forallb data_okb in9 = true) by (vm_compute; reflexivity). rewrite forallb_forall in F. exact (F x I).
  - apply (W0_never C0 _ L9); vm_compute; reflexivity.
Qed.
Lemma nc9 : no_choice W0 default_basic default_strcons C0 env2 NODE2 (CLS "Node").
Proof.
  constructor.
  - intros n args x t1 t2 r1 r2 R I O I1 I2 N G1 G2. apply L9_spec in R. cbn in R.
    destruct R as [R|[R|[R|[R|[R|[]]]]]]; try discriminate. injection R as <- <-. exfalso. apply O.
    assert (Q : x = VNone).
    { destruct I1 as [<-|[<-|[]]]; destruct I2 as [<-|[<-|[]]]; try congruence;
        (apply gives_none in G1; [exact G1|cbn; auto 10]) || (apply gives_none in G2; [exact G2|cbn; auto 10]). }
    subst x. split; cbn; auto 10.
  - intros c ms hints x t1 t2 y1 y2 r1 r2 R I E. apply L9_spec in R. cbn in R.
    destruct R as [[= <-]|[[= <-]|[R|[R|[[= <-]|[]]]]]]; try discriminate; discriminate E.
  - intros n kt vt c x R. apply L9_spec in R. cbn in R. destruct R as [R|[R|[R|[R|[R|[]]]]]]; discriminate.
Qed.
Lemma te9 cfg s :
  pep563 cfg = pep563 C0 ->
  forallb (settledb cfg s (TForward "Node")) in9 = true -> forallb (settledb cfg s TNone) in9 = true ->
  trials_end W0 default_basic cfg env2 s NODE2 (CLS "Node").
Proof.
  intros Ep F1 F2. rewrite forallb_forall in F1, F2. constructor.
  - rewrite Ep. intros n args x R I O. apply L9_spec in R. cbn in R.
    destruct R as [R|[R|[R|[R|[R|[]]]]]]; try discriminate R. injection R as <- <-. split.
    + intros d k y E L. destruct (L TNone) as [c [tk [vals [[= <-] [Q _]]]]]; [cbn; auto|destruct Q].
    + apply in9_spec in I. intros t' [<-|[<-|[]]]; apply settledb_spec; [exact (F1 x I)|exact (F2 x I)].
  - rewrite Ep. intros c ms hints x t' R I E. apply L9_spec in R. cbn in R.
    destruct R as [R|[R|[R|[R|[R|[]]]]]]; try discriminate R; injection R as <-; discriminate E.
Qed.
Definition NODE2r : value :=
  VObj (CUser "Node") [("v", VInt 1); ("next", VObj (CUser "Node") [("v", VInt 2); ("next", VNone)])].
Example C44_ex :
  used W0 C0 S2 /\ steady W0 default_basic C0 env2 S2 NODE2 (CLS "Node") /\
  well_formed W0 default_basic default_strcons C0 env2 NODE2 (CLS "Node") /\
  no_choice W0 default_basic default_strcons C0 env2 NODE2 (CLS "Node") /\
  trials_end W0 default_basic C0 env2 S2 NODE2 (CLS "Node") /\
  uniondebugconflict C0 = false /\
  gives W0 default_basic default_strcons C0 env2 (fun _ => False) NODE2 (CLS "Node") NODE2r.
Proof.
  pose proof (te9 C0 S2 eq_refl ltac:(vm_compute; reflexivity) ltac:(vm_compute; reflexivity)) as Te.
  repeat match goal with |- _ /\ _ => split end; try assumption; try reflexivity.
  - exact S2_used.
  - exact steady9.
  - exact wl9.
  - exact nc9.
  - apply (C43_steady W0 default_basic default_strcons C0 (conj eq_refl eq_refl) wr0 env2 S2); [exact S2_used|exact steady9|exact wl9|].
    split; [discriminate|]. exists 50. vm_compute. reflexivity.
Qed.
(** a new loader; data which cannot be read *)
Definition S9 : lstate := snd (load W0 C0 50 NODE2 (CLS "Node") S0).
Example C43_ex :
  used W0 C0 S0 /\ ends W0 C0 S0 NODE2 (CLS "Node") (Ok NODE2r) S9 /\
  (forall c, reach W0 (pep563 C0) (names_of S9) (CLS "Node") (TClass c) ->
     object_class W0 default_basic default_strcons c -> distinct_names W0 C0 c) /\
  (forall x, inside NODE2 x -> python_data x) /\
  never_stops W0 (pep563 C0) (names_of S9) (CLS "Node") /\
  (* a list for a class *)
  forall r, ~ gives W0 default_basic default_strcons C0 env2 (fun _ => False) (VList [VInt 1]) (CLS "Node") r.
Proof.
  split; [constructor|]. split.
  { split; [discriminate|]. exists 50. vm_compute. reflexivity. }
  split; [|split; [|split]].
  - intros c R _. apply (reach_closed W0 C0 (names_of S9) L9) in R; [|vm_compute; reflexivity|vm_compute; reflexivity].
    cbn in R. destruct R as [R|[R|[R|[R|[R|[]]]]]]; try discriminate R; injection R as <-;
      split; cbn; repeat constructor; cbn; intuition discriminate.
  - intros x I. apply (wl_data _ _ _ _ _ _ _ wl9 x I).
  - apply (W0_never C0 _ L9); vm_compute; reflexivity.
  - intros r G. apply gives_data in G.
    + destruct G as [d [Q|[_ [_ [a [Q _]]]]]]; discriminate.
    + split; [cbn; intuition discriminate|]. split; [reflexivity|]. cbn. exact I.
    + reflexivity.
    + cbn. intuition discriminate.
Qed.

(** Union[Point, List[int]] and Union[List[int], Point] *)
Definition v10 : value := VList [VStr "3"; VInt 4].
Definition U10 : list ty := [CLS "Point"; LIST TInt].
Definition in10 : list value := all_inside 3 [v10].
Lemma in10_spec x : inside v10 x -> In x in10.
Proof. apply inside_closed; vm_compute; reflexivity. Qed.
Definition L10 : list ty := [UNION U10; CLS "Point"; LIST TInt; TInt].
Lemma L10_spec t : reach W0 (pep563 C0) env2 (UNION U10) t -> In t L10.
Proof. apply reach_closed; vm_compute; reflexivity. Qed.
Example C45_ex : let t := UNION U10 in
  (forall t, In t U10 <-> In t [LIST TInt; CLS "Point"; LIST TInt]) /\
  steady W0 default_basic C0 env2 S2 v10 t /\ well_formed W0 default_basic default_strcons C0 env2 v10 t /\
  no_choice W0 default_basic default_strcons C0 env2 v10 t /\ trials_end W0 default_basic C0 env2 S2 v10 t /\
  loads W0 C0 S2 v10 t (Ok (VList [VInt 3; VInt 4])).
Proof.
  cbv zeta. split; [intro t; cbn; tauto|]. split; [steady_in L10|]. split; [|split; [|split]].
  - constructor.
    + intros c R _. apply L10_spec in R. cbn in R. destruct R as [R|[R|[R|[R|[]]]]]; try discriminate R; injection R as <-;
        split; cbn; repeat constructor; cbn; intuition discriminate.
    + intros x I. apply in10_spec in I. apply data_okb_spec.
      assert (F : forallb data_okb in10 = true) by (vm_compute; reflexivity). rewrite forallb_forall in F. exact (F x I).
    + apply (W0_never C0 _ L10); vm_compute; reflexivity.
  - constructor.
    + intros n args x t1 t2 r1 r2 R I O I1 I2 N G1 G2. apply L10_spec in R. cbn in R.
      destruct R as [R|[R|[R|[R|[]]]]]; try discriminate R. injection R as <- <-. exfalso.
      assert (X : forall r, gives W0 default_basic default_strcons C0 env2 (fun _ => False) x (CLS "Point") r -> False).
      { intros r G. apply gives_data in G.
        - apply in10_spec in I. assert (F : forallb (fun x => match x with VDict _ | VNamespace _ => false | _ => true end) in10 = true) by (vm_compute; reflexivity).
          rewrite forallb_forall in F. specialize (F x I). destruct G as [d [->|[_ [_ [a [-> _]]]]]]; discriminate F.
        - split; [cbn; intuition discriminate|]. split; [reflexivity|]. cbn. exact Logic.I.
        - reflexivity.
        - cbn. intuition discriminate. }
      destruct I1 as [<-|[<-|[]]]; destruct I2 as [<-|[<-|[]]]; try (eapply X; eassumption); congruence.
    + intros c ms hints x t1 t2 y1 y2 r1 r2 R I E. apply L10_spec in R. cbn in R.
      destruct R as [R|[R|[R|[R|[]]]]]; try discriminate R; injection R as <-; discriminate E.
    + intros n kt vt c x R. apply L10_spec in R. cbn in R. destruct R as [R|[R|[R|[R|[]]]]]; discriminate R.
  - constructor.
    + intros n args x R I O. apply L10_spec in R. cbn in R.
      destruct R as [R|[R|[R|[R|[]]]]]; try discriminate R. injection R as <- <-. apply in10_spec in I. split.
      * intros d k y E L. destruct (L (LIST TInt)) as [c [tk [vals [Q _]]]]; [cbn; auto|discriminate Q].
      * assert (F1 : forallb (settledb C0 S2 (CLS "Point")) in10 = true) by (vm_compute; reflexivity).
        assert (F2 : forallb (settledb C0 S2 (LIST TInt)) in10 = true) by (vm_compute; reflexivity).
        rewrite forallb_forall in F1, F2. intros t' [<-|[<-|[]]]; apply settledb_spec; [exact (F1 x I)|exact (F2 x I)].
    + intros c ms hints x t' R I E. apply L10_spec in R. cbn in R.
      destruct R as [R|[R|[R|[R|[]]]]]; try discriminate R; injection R as <-; discriminate E.
  - split; [discriminate|]. exists 50. vm_compute. reflexivity.
Qed.

(** Loader(basiccast=False, failonextra=True) and Loader() *)
Definition S9s : lstate := snd (load W0 (strict C0) 50 NODE2 (CLS "Node") S0).
Example C46_ex :
  is_std W0 default_basic default_strcons (strict C0) /\ is_std W0 default_basic default_strcons C0 /\
  relaxes (strict C0) C0 /\ used W0 (strict C0) S9s /\
  steady W0 default_basic (strict C0) env2 S9s NODE2 (CLS "Node") /\
  well_formed W0 default_basic default_strcons (strict C0) env2 NODE2 (CLS "Node") /\
  loads W0 (strict C0) S9s NODE2 (CLS "Node") (Ok NODE2r).
Proof.
  split; [split; reflexivity|]. split; [split; reflexivity|]. split; [split; [split; reflexivity|split; [discriminate|split; [reflexivity|auto]]]|].
  split; [unfold S9s; repeat constructor|]. split; [|split].
  - apply (steady_by W0 (strict C0) env2 S9s L9); vm_compute; reflexivity.
  - destruct wl9 as [H1 H2 H3]. constructor; [|exact H2|exact H3]. intros c R OC. exact (H1 c R OC).
  - split; [discriminate|]. exists 50. vm_compute. reflexivity.
Qed.
