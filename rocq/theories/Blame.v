(** * Blame: what the trace blames does fail, and in the same way, when it is
      loaded on its own (C50) *)

From Verif Require Import Loader Spec Inv Std Trace Hist Obs Transparent Reuse Facts4 Threads.
From Verif Require Import Vocab.

Lemma move_comp w cfg env v t i x t1 : move w cfg env v t i x t1 -> component w (pep563 cfg) env t t1.
Proof.
  intro Mv. unfold component.
  inversion Mv as [v0 t0 l i0 x0 et E1 E2 E3|v0 c d d' e f x0 ft E1 E2 E3 E4 E5 E6|v0 d n kt vt k x0 E1 E2|v0 d n kt vt k x0 E1 E2|v0 n t0 E1|v0 n t0]; subst; cbn [comps].
  + destruct t; try discriminate. destruct args as [a|]; [|destruct o; discriminate].
    assert (N : forall j, nth_error a j = Some t1 -> In t1 a) by (intro j; apply nth_error_In).
    destruct o; cbn in E3; try discriminate; try (destruct a as [|e0 a]; [discriminate|injection E3 as <-; left; reflexivity]).
    revert E3. destruct a as [|e0 a]; [destruct i0; discriminate|].
    destruct a as [|e1 a]; [apply N|]. destruct a as [|e2 a]; [|destruct e1; apply N].
    destruct e1; try apply N. intros [= <-]. left. reflexivity.
  + apply in_or_app. left. apply in_map_iff. exists (f, t1). split; [reflexivity|exact E6].
  + left. reflexivity.
  + right. left. reflexivity.
  + rewrite E1. left. reflexivity.
  + left. reflexivity.
Qed.
Lemma alt_comp w cfg env t t1 : alternative w t t1 -> component w (pep563 cfg) env t t1.
Proof.
  intro A. unfold component. inversion A as [n args t0 I|c ms l t0 E1 E2 I]; subst; cbn [comps]; [exact I|].
  apply in_or_app. right. rewrite E1, E2. exact I.
Qed.

Section Weaken.
  Variable w : world.
  Variable cfg : config.
  Variable env : string -> option ty.
  Variables bad bad' : value -> ty -> exn -> Prop.
  Variable Dom : value -> ty -> Prop.
  Hypothesis Dmove : forall v t i x t1, Dom v t -> move w cfg env v t i x t1 -> Dom x t1.
  Hypothesis Dalt : forall v t t1, Dom v t -> alternative w t t1 -> Dom v t1.
  Hypothesis Hbad : forall v t k m tr ve te subs, Dom v t -> bad v t (XTL k m tr ve te subs) -> bad' v t (XTL k m tr ve te subs).

  Lemma bad_walk_weaken k m ve te subs v t tr v' t' :
    bad_walk w cfg env bad (fun tr => XTL k m tr ve te subs) v t tr v' t' -> Dom v t ->
    bad_walk w cfg env bad' (fun tr => XTL k m tr ve te subs) v t tr v' t' /\ Dom v' t'.
  Proof using Dmove Hbad.
    induction 1 as [v t|v t i x t1 tr v' t' M B W IH]; intro D; [split; [constructor|exact D]|].
    pose proof (Dmove _ _ _ _ _ D M) as D1. destruct (IH D1) as [W' D'].
    split; [|exact D']. econstructor; [exact M|exact (Hbad _ _ _ _ _ _ _ _ D1 B)|exact W'].
  Qed.
  Fixpoint blames_weaken v t e (H : blames w cfg env bad v t e) {struct H} : Dom v t -> blames w cfg env bad' v t e
  with sub_blames_weaken v t e (H : sub_blames w cfg env bad v t e) {struct H} : Dom v t -> sub_blames w cfg env bad' v t e.
  Proof using Dmove Dalt Hbad.
    - destruct H as [v t k m tr ve te subs v' t' Wk Rp Su Fs]. intro D.
      destruct (bad_walk_weaken _ _ _ _ _ _ _ _ _ _ Wk D) as [Wk' D'].
      apply (blame w cfg env bad' v t k m tr ve te subs v' t' Wk' Rp Su).
      exact ((fix go l (F : Forall (sub_blames w cfg env bad v' t') l) : Forall (sub_blames w cfg env bad' v' t') l :=
            match F with
            | Forall_nil _ => Forall_nil _
            | Forall_cons x P F' => Forall_cons x (sub_blames_weaken v' t' x P D') (go _ F')
            end) subs Fs).
    - destruct H as [v n args t e k m tr ve te subs I B E X|v c t e k m tr ve te subs I B E X|v c t k m I B|v c t r I]; intro D.
      + assert (D1 : Dom v t) by exact (Dalt _ _ _ D (alt_union w n args t I)).
        apply (subb_union w cfg env bad' v n args t e k m tr ve te subs I); [|exact E|exact (blames_weaken v t e X D1)].
        rewrite E in *. exact (Hbad _ _ _ _ _ _ _ _ D1 B).
      + assert (D1 : Dom v t) by exact (Dalt _ _ _ D I).
        apply (subb_enum w cfg env bad' v c t e k m tr ve te subs I); [|exact E|exact (blames_weaken v t e X D1)].
        rewrite E in *. exact (Hbad _ _ _ _ _ _ _ _ D1 B).
      + apply (subb_unsupported w cfg env bad' v c t k m I). exact (Hbad _ _ _ _ _ _ _ _ (Dalt _ _ _ D I) B).
      + exact (subb_raw w cfg env bad' v c t r I).
  Qed.
End Weaken.

Lemma bad_walk_split w cfg env bad E v t tr v' t' : bad_walk w cfg env bad E v t tr v' t' ->
  bad v t (E tr) ->
  forall tr1 tr2, tr = tr1 ++ tr2 -> exists x t1, walk w cfg env v t tr1 x t1 /\ walk w cfg env x t1 tr2 v' t' /\ bad x t1 (E tr2).
Proof.
  induction 1 as [v t|v t i x t1 tr v' t' M B W IH]; intros B0 tr1 tr2 Q.
  - destruct tr1; [|discriminate Q]. cbn in Q. subst tr2. exists v, t. split; [constructor|]. split; [constructor|exact B0].
  - destruct tr1 as [|j tr1]; cbn [app] in Q.
    + subst tr2. exists v, t. split; [constructor|]. split; [|exact B0].
      econstructor; [exact M|]. eapply bad_walk_walk. exact W.
    + injection Q as <- Q. destruct (IH B tr1 tr2 Q) as [y [t2 [W1 [W2 B2]]]]. exists y, t2.
      split; [econstructor; eassumption|]. auto.
Qed.

Section Blame.
  Variable w : world.
  Variables basic strcons : list cid.
  Variable cfg : config.
  Hypothesis Hstd : is_std w basic strcons cfg.
  Hypothesis Hwr : wf_reflect w.
  Variable env : string -> option ty.
  Notation p := (pep563 cfg).
  Variable v0 : value.
  Variable t0 : ty.
  Variable warm : ty -> Prop.
  Hypothesis Gdict : forall n kt vt, reach w p env t0 (TGen n ODict (Some [kt; vt])) -> warm vt \/ det_dict w basic (inside v0) kt vt.
  Hypothesis Gdisc : forall n args, reach w p env t0 (TGen n OUnion (Some args)) -> plain_tags w args.
  Notation G := (reach w p env t0).
  Notation settled := (settled w cfg env G warm).

  Lemma replay s1 s2 x t1 k m tr ve te subs :
    settled s1 -> settled s2 -> inside v0 x -> G t1 ->
    failed_run w cfg s1 x t1 (XTL k m tr ve te subs) -> reproduces w cfg s2 x t1 (XTL k m tr ve te subs).
  Proof using Hstd Hwr Gdict Gdisc.
    intros H1 H2 I R [F|[n [h [s [F [C [G0 E]]]]]]].
    - right. split; [apply not_supported; exact F|]. eexists. split; [discriminate|]. exists 0.
      apply load_nohandler; [apply H2|exact F].
    - left. split.
      { unfold find_handler in F. unfold supported. destruct (loader_index cfg t1) as [i|]; [eauto|discriminate]. }
      pose proof (settled_step w cfg env G warm s1 s H1 G0) as Hs.
      assert (He : settled (enter w cfg t1 h s2)).
      { eapply settled_step; [exact H2|]. unfold enter. destruct (ty_get t1 (st_index s2)) eqn:E2; [apply good_refl|].
        eapply good_trans; [apply (good_index w cfg s2 t1 h E2 F)|apply good_reg]. }
      destruct (sim_run w basic strcons cfg Hstd Hwr env G (fun a b => reach_step w p env t0 a b) warm (inside v0)
        (fun a b => inside_step v0 a b) Gdict Gdisc n h x t1 R I F s (enter w cfg t1 h s2) Hs He) as [_ [r2 [s2' [N [_ [OR HN]]]]]].
      { rewrite E. discriminate. }
      rewrite E in OR. destruct r2 as [a|e|]; cbn in OR; try contradiction. subst e.
      split; [discriminate|]. exists N. unfold load.
      rewrite (load_enter_fst w cfg N x t1 None s2 h (proj1 H2) F). rewrite (HN N) by lia. reflexivity.
  Qed.

  Lemma blame_settled n s k m tr ve te subs s2 :
    coh w cfg s -> supported cfg t0 ->
    fst (load w cfg n v0 t0 s) = Exc (XTL k m tr ve te subs) ->
    (forall h, find_handler cfg t0 = POk h -> settled (enter w cfg t0 h s)) -> settled s2 ->
    exists tr', tr = (v0, t0, None) :: tr' /\
      reproduces w cfg s2 v0 t0 (XTL k m tr' ve te subs) /\
      blames w cfg (names_of (snd (load w cfg n v0 t0 s))) (reproduces w cfg s2) v0 t0 (XTL k m tr' ve te subs).
  Proof using Hstd Hwr Gdict Gdisc.
    intros C Sp E He H2.
    destruct (blame_load w basic strcons cfg Hstd Hwr n v0 t0 s _ C E) as [[F _]|[h [e0 [F X]]]].
    { exfalso. exact (not_supported cfg t0 F Sp). }
    cbv zeta in X. specialize (He h F). fold (enter w cfg t0 h s) in X.
    destruct X as [E0 [G0 [[X B] Q]]].
    destruct e0 as [k0 m0 tr0 ve0 te0 subs0|r]; cbn [is_tl push_trace] in Q; [|discriminate Q].
    injection Q as -> -> -> -> -> ->. exists tr0. split; [reflexivity|].
    cbn [EX] in X.
    assert (LF : st_le (enter w cfg t0 h s) (snd (load w cfg n v0 t0 s))).
    { unfold load. rewrite (load_enter w cfg n v0 t0 None s h C F). unfold catch.
      pose proof (gd_run w cfg n h v0 t0 (enter w cfg t0 h s)) as GR.
      destruct (run w cfg n h v0 t0 (enter w cfg t0 h s)) as [[a|e|] s']; cbn [snd] in *; try apply GR.
      destruct (is_tl e); apply GR. }
    assert (DC : forall t1 t2, G t1 -> component w p (names_of (snd (load w cfg n v0 t0 s))) t1 t2 -> G t2).
    { intros t1 t2 R CP. eapply reach_step; [exact R|]. destruct t1 as [c|nn o [args|]|vs| |nm| |nm2 t3|nm3]; try exact CP.
      unfold component in *. cbn [comps] in *.
      destruct (proj1 (proj2 He) nm R) as [fr [t' [E1 [E2 E3]]]]. rewrite E3.
      unfold names_of in CP. pose proof (le_frefs _ _ LF) as LQ. rewrite E1 in LQ.
      destruct (st_frefs (snd (load w cfg n v0 t0 s))) as [fr'|]; [|contradiction].
      rewrite (LQ _ _ E2) in CP. exact CP. }
    split; [eapply replay; [exact He|exact H2|apply inside_refl|apply reach_refl|exact B]|].
    refine (blames_weaken w cfg _ _ _ (fun x t1 => inside v0 x /\ G t1) _ _ _ _ _ _ X (conj (inside_refl v0) (reach_refl _ _ _ _))).
    - intros v t i x t1 [I R] M. split; [|eapply DC; [exact R|eapply move_comp; exact M]].
      destruct (move_part _ _ _ _ _ _ _ _ M) as [->|P]; [exact I|eapply inside_step; eassumption].
    - intros v t t1 [I R] A. split; [exact I|]. eapply DC; [exact R|eapply alt_comp; exact A].
    - intros v t k m tr ve te subs [I R] Bd. exact (replay _ _ _ _ _ _ _ _ _ _ He H2 I R Bd).
  Qed.
End Blame.

Lemma c50 w basic strcons cfg : is_std w basic strcons cfg -> wf_reflect w ->
  forall env s v t k m tr ve te subs s',
  used w cfg s -> supported cfg t -> resolves w cfg env s t ->
  (forall n kt vt, reach w (pep563 cfg) env t (TGen n ODict (Some [kt; vt])) ->
      seen s vt \/ det_dict w basic (inside v) kt vt) ->
  (forall n args, reach w (pep563 cfg) env t (TGen n OUnion (Some args)) -> plain_tags w args) ->
  ends w cfg s v t (Exc (XTL k m tr ve te subs)) s' ->
  exists tr', tr = (v, t, None) :: tr' /\
    reproduces w cfg s' v t (XTL k m tr' ve te subs) /\
    blames w cfg (names_of s') (reproduces w cfg s') v t (XTL k m tr' ve te subs).
Proof.
  intros Hs Hw env s v t k m tr ve te subs s' U Sp R D Un [_ [n E]].
  pose proof (used_coh w cfg s U) as C.
  assert (He : forall h, find_handler cfg t = POk h -> settled w cfg env (reach w (pep563 cfg) env t) (seen s) (enter w cfg t h s)).
  { intros h F. apply settled_enter_resolves; auto. }
  assert (Es : s' = snd (load w cfg n v t s)) by (rewrite E; reflexivity).
  rewrite Es. apply (blame_settled w basic strcons cfg Hs Hw env v t (seen s) D Un n s); auto.
  - rewrite E. reflexivity.
  - destruct Sp as [i I]. destruct (find_handler cfg t) as [h|r] eqn:F.
    + eapply settled_step; [exact (He h eq_refl)|].
      unfold load. rewrite (load_enter w cfg n v t None s h C F). unfold catch.
      pose proof (gd_run w cfg n h v t (enter w cfg t h s)) as GR.
      destruct (run w cfg n h v t (enter w cfg t h s)) as [[a|e|] s2]; cbn [snd] in *; try apply GR.
      destruct (is_tl e); apply GR.
    + exfalso. pose proof (std_exc w basic strcons cfg t r Hs F) as ->.
      exact (not_supported cfg t F (ex_intro _ i I)).
Qed.

Lemma c50_same w basic strcons cfg : is_std w basic strcons cfg -> wf_reflect w ->
  forall env s v t k m tr ve te subs s',
  used w cfg s -> supported cfg t -> steady w basic cfg env s v t ->
  ends w cfg s v t (Exc (XTL k m tr ve te subs)) s' ->
  exists tr', tr = (v, t, None) :: tr' /\
    reproduces w cfg s v t (XTL k m tr' ve te subs) /\
    blames w cfg (names_of s') (reproduces w cfg s) v t (XTL k m tr' ve te subs).
Proof.
  intros Hs Hw env s v t k m tr ve te subs s' U Sp St [_ [n E]].
  pose proof (used_coh w cfg s U) as C. pose proof (steady_settled w basic cfg env s v t C St) as H.
  assert (Es : s' = snd (load w cfg n v t s)) by (rewrite E; reflexivity).
  rewrite Es. apply (blame_settled w basic strcons cfg Hs Hw env v t (seen s) (sd_dict _ _ _ _ _ _ _ St) (sd_union _ _ _ _ _ _ _ St) n s); auto.
  - rewrite E. reflexivity.
  - intros h F. eapply settled_step; [exact H|]. unfold enter. destruct (ty_get t (st_index s)) eqn:E2; [apply good_refl|].
    eapply good_trans; [apply (good_index w cfg s t h E2 F)|apply good_reg].
Qed.

Lemma c50_path w basic strcons cfg : is_std w basic strcons cfg -> wf_reflect w ->
  forall env s v t k m tr ve te subs s',
  used w cfg s -> supported cfg t -> steady w basic cfg env s v t ->
  ends w cfg s v t (Exc (XTL k m tr ve te subs)) s' ->
  exists tr' v' t', tr = (v, t, None) :: tr' /\
    reported w cfg (names_of s') v' t' ve te /\
    forall tr1 tr2, tr' = tr1 ++ tr2 ->
      exists x t1, walk w cfg (names_of s') v t tr1 x t1 /\ walk w cfg (names_of s') x t1 tr2 v' t' /\
        reproduces w cfg s x t1 (XTL k m tr2 ve te subs).
Proof.
  intros Hs Hw env s v t k m tr ve te subs s' U Sp St E.
  destruct (c50_same w basic strcons cfg Hs Hw env s v t k m tr ve te subs s' U Sp St E) as [tr' [-> [R X]]].
  inversion X as [v1 t1 k1 m1 tr1 ve1 te1 subs1 v' t' Wk Rp Su Fs]; subst.
  exists tr', v', t'. split; [reflexivity|]. split; [exact Rp|].
  intros tr1 tr2 Q. exact (bad_walk_split _ _ _ _ _ _ _ _ _ _ Wk R tr1 tr2 Q).
Qed.
