(** * Reuse: C20, C35, C36 *)

From Verif Require Import Loader Spec Inv Std Sound Fuel Obs Scalars Simple Transparent Hist.


Lemma settled_enter_resolves w cfg env s t h (warm : ty -> Prop) :
  coh w cfg s -> find_handler cfg t = POk h -> resolves w cfg env s t ->
  (forall t', warm t' -> seen s t') ->
  settled w cfg env (reach w (pep563 cfg) env t) warm (enter w cfg t h s).
Proof.
  intros C F R W. unfold enter, seen in *. destruct (ty_get t (st_index s)) as [h0|] eqn:E.
  - split; [exact C|]. split; [|exact W]. intros n Rn.
    destruct (R n Rn) as [[t' [E1 [fr [E2 E3]]]]|[_ [_ [NS _]]]]; [exists fr, t'; auto|].
    exfalso. apply NS. unfold seen. congruence.
  - assert (LE : st_le (set_index (cons (t, h)) s) (register w t (set_index (cons (t, h)) s))) by apply register_le.
    split; [apply coh_register; apply coh_set_index; assumption|]. split.
    + intros n Rn. destruct (R n Rn) as [[t' [E1 [fr [E2 E3]]]]|[WN [EN [_ [FN KN]]]]].
      * pose proof (le_frefs _ _ LE) as Q. cbn [st_frefs set_index] in Q. rewrite E2 in Q.
        destruct (st_frefs (register w t (set_index (cons (t, h)) s))) as [fr'|] eqn:FE; [|contradiction].
        exists fr', t'. auto.
      * unfold register. cbn [st_frefs set_index]. unfold names_of in KN.
        destruct (st_frefs s) as [fr|] eqn:FS; [|congruence]. rewrite WN, KN. cbn [st_frefs set_frefs].
        exists (fr ++ [(n, t)]), t. split; [reflexivity|]. split; [|exact EN].
        rewrite str_get_app, KN. cbn. rewrite String.eqb_refl. reflexivity.
    + intros t' Wt. specialize (W t' Wt).
      destruct (ty_get t' (st_index s)) as [h1|] eqn:E1; [|congruence].
      assert (E2 : ty_get t' (st_index (set_index (cons (t, h)) s)) = Some h1).
      { cbn [set_index st_index]. apply ty_get_cons_None; assumption. }
      rewrite (le_index _ _ LE _ _ E2). discriminate.
Qed.

Lemma c20 w basic strcons cfg :
  is_std w basic strcons cfg -> wf_reflect w ->
  forall env s1 s2 v t,
  used w cfg s1 -> used w cfg s2 ->
  resolves w cfg env s1 t -> resolves w cfg env s2 t ->
  (forall n kt vt, reach w (pep563 cfg) env t (TGen n ODict (Some [kt; vt])) ->
      (seen s1 vt /\ seen s2 vt) \/ det_dict w basic (inside v) kt vt) ->
  (forall n args, reach w (pep563 cfg) env t (TGen n OUnion (Some args)) -> plain_tags w args) ->
  forall r, loads w cfg s1 v t r <-> loads w cfg s2 v t r.
Proof.
  intros Hstd Hwr env.
  assert (X : forall s1 s2 v t, used w cfg s1 -> used w cfg s2 ->
    resolves w cfg env s1 t -> resolves w cfg env s2 t ->
    (forall n kt vt, reach w (pep563 cfg) env t (TGen n ODict (Some [kt; vt])) ->
      (seen s1 vt /\ seen s2 vt) \/ det_dict w basic (inside v) kt vt) ->
    (forall n args, reach w (pep563 cfg) env t (TGen n OUnion (Some args)) -> plain_tags w args) ->
    forall r, loads w cfg s1 v t r -> loads w cfg s2 v t r).
  { intros s1 s2 v t U1 U2 R1 R2 D U r [NO [n E]].
    pose proof (used_coh _ _ _ U1) as C1. pose proof (used_coh _ _ _ U2) as C2.
    destruct (find_handler cfg t) as [h|rk] eqn:F.
    - unfold load in E. rewrite (load_enter_fst w cfg n v t None s1 h C1 F) in E.
      assert (NO' : fst (run w cfg n h v t (enter w cfg t h s1)) <> OOF).
      { intro O. rewrite O in E. cbn in E. congruence. }
      set (warm := fun t' => seen s1 t' /\ seen s2 t').
      assert (H1 : settled w cfg env (reach w (pep563 cfg) env t) warm (enter w cfg t h s1)).
      { apply settled_enter_resolves; auto. intros t' [A _]. exact A. }
      assert (H2 : settled w cfg env (reach w (pep563 cfg) env t) warm (enter w cfg t h s2)).
      { apply settled_enter_resolves; auto. intros t' [_ A]. exact A. }
      destruct (sim_run w basic strcons cfg Hstd Hwr env (reach w (pep563 cfg) env t)
        (fun a b => reach_step w (pep563 cfg) env t a b) warm (inside v) (fun a b => inside_step v a b) D U
        n h v t (reach_refl _ _ _ _) (inside_refl v) F _ _ H1 H2 NO') as [_ [r2 [s2' [N [_ [OR HN]]]]]].
      split; [exact NO|]. exists N. unfold load. rewrite (load_enter_fst w cfg N v t None s2 h C2 F).
      rewrite (HN N) by lia. cbn [fst].
      destruct (fst (run w cfg n h v t (enter w cfg t h s1))), r2; cbn in OR; try contradiction; congruence.
    - assert (rk = RValue) by (eapply std_exc; eassumption). subst rk.
      split; [exact NO|]. exists n. unfold load in *. rewrite (load_nohandler w cfg n v t None s1 C1 F) in E.
      rewrite (load_nohandler w cfg n v t None s2 C2 F). exact E. }
  intros s1 s2 v t U1 U2 R1 R2 D U r. split; intro L.
  - exact (X s1 s2 v t U1 U2 R1 R2 D U r L).
  - refine (X s2 s1 v t U2 U1 R2 R1 _ U r L). intros n kt vt Rn.
    destruct (D n kt vt Rn) as [[A B]|A]; [left; split; assumption|right; exact A].
Qed.

(** a new loader with the same settings and the same frefs *)
Lemma c20_fresh w basic strcons cfg :
  is_std w basic strcons cfg -> wf_reflect w ->
  forall fr st st' s v t,
  later w cfg (fresh (Some fr) st) s ->
  let env := fun n => str_get n fr in
  (forall n, reach w (pep563 cfg) env t (TForward n) -> env n <> None) ->
  (forall n kt vt, reach w (pep563 cfg) env t (TGen n ODict (Some [kt; vt])) -> det_dict w basic (inside v) kt vt) ->
  (forall n args, reach w (pep563 cfg) env t (TGen n OUnion (Some args)) -> plain_tags w args) ->
  forall r, loads w cfg s v t r <-> loads w cfg (fresh (Some fr) st') v t r.
Proof.
  intros Hstd Hwr fr st st' s v t L env N D U r.
  assert (U1 : used w cfg s) by (eapply later_used; [apply used_new|exact L]).
  apply (c20 w basic strcons cfg Hstd Hwr env); auto.
  - apply used_new.
  - intros n Rn. left. specialize (N n Rn). unfold env in *. destruct (str_get n fr) as [t'|] eqn:E; [|congruence].
    exists t'. split; [reflexivity|]. eapply c21_names; [exact L|]. exists fr. split; [reflexivity|exact E].
  - intros n Rn. left. specialize (N n Rn). unfold env in *. destruct (str_get n fr) as [t'|] eqn:E; [|congruence].
    exists t'. split; [reflexivity|]. exists fr. split; [reflexivity|exact E].
  - intros n kt vt Rn. right. eapply D; eassumption.
Qed.

(** in the state of a loader for which the type is settled, more loads do not
    change the outcome *)
Lemma c20_later w basic strcons cfg :
  is_std w basic strcons cfg -> wf_reflect w ->
  forall env s s' v t,
  used w cfg s -> later w cfg s s' -> steady w basic cfg env s v t ->
  forall r, loads w cfg s v t r <-> loads w cfg s' v t r.
Proof.
  intros Hstd Hwr env s s' v t U L [SN SD SU].
  apply (c20 w basic strcons cfg Hstd Hwr env); auto.
  - eapply later_used; eassumption.
  - intros n Rn. left. apply SN. exact Rn.
  - intros n Rn. left. destruct (SN n Rn) as [t' [E K]]. exists t'. split; [exact E|]. eapply c21_names; eassumption.
  - intros n kt vt Rn. destruct (SD n kt vt Rn) as [S|D]; [left|right; exact D].
    split; [exact S|]. unfold seen in *. destruct (ty_get vt (st_index s)) as [h|] eqn:E; [|congruence].
    rewrite (c21_handlers w cfg s s' vt h L E). discriminate.
Qed.

(** ** C35 *)
Lemma wrap_rewrap v t r : wrap v t None r = rewrap v t r.
Proof. destruct r as [x|[]|]; reflexivity. Qed.

Lemma loads_wrap_OOF v t a r : wrap v t a r = OOF -> r = OOF.
Proof. destruct r as [x|e|]; cbn; [discriminate|destruct (is_tl e); discriminate|reflexivity]. Qed.

Lemma c35 w basic strcons cfg :
  is_std w basic strcons cfg -> wf_reflect w ->
  forall env s v nm t,
  used w cfg s -> steady w basic cfg env s v t ->
  forall r, loads w cfg s v (TNewType nm t) r <->
            exists r0, loads w cfg s v t r0 /\ r = rewrap v (TNewType nm t) r0.
Proof.
  intros Hstd Hwr env s v nm t U St r. pose proof (used_coh _ _ _ U) as C.
  pose proof (find_newtype w basic strcons cfg Hstd nm t) as F.
  pose proof (steady_settled _ _ _ _ _ _ _ C St) as S0.
  pose proof (settled_enter w cfg env _ _ s (TNewType nm t) HNewType F S0) as S1.
  assert (TR : forall s1 s2 r0, settled w cfg env (reach w (pep563 cfg) env t) (seen s) s1 ->
     settled w cfg env (reach w (pep563 cfg) env t) (seen s) s2 -> loads w cfg s1 v t r0 -> loads w cfg s2 v t r0).
  { intros s1 s2 r0 A B. apply (transfer w basic strcons cfg Hstd Hwr env (reach w (pep563 cfg) env t)
        (fun a b => reach_step w (pep563 cfg) env t a b) (seen s) (inside v) (fun a b => inside_step v a b)
        (sd_dict _ _ _ _ _ _ _ St) (sd_union _ _ _ _ _ _ _ St) s1 s2 v t r0 A B (reach_refl _ _ _ _) (inside_refl v)). }
  split.
  - intros [NO [n E]]. unfold load in E. rewrite (load_enter_fst w cfg n v _ None s HNewType C F) in E.
    destruct n as [|n]; [cbn in E; congruence|]. cbn [run body newtypeload] in E.
    fold (load_ann w cfg n v t None) in E. fold (load w cfg n v t) in E.
    set (r0 := fst (load w cfg n v t (enter w cfg (TNewType nm t) HNewType s))) in E.
    exists r0. rewrite <- wrap_rewrap. split; [|symmetry; exact E].
    apply (TR _ _ r0 S1 S0). split; [|exists n; reflexivity].
    intro O. rewrite O in E. cbn in E. congruence.
  - intros [r0 [L0 ->]]. destruct (TR _ _ r0 S0 S1 L0) as [NO [n E]].
    split; [destruct r0 as [x|[]|]; cbn; congruence|].
    exists (S n). unfold load. rewrite (load_enter_fst w cfg (S n) v _ None s HNewType C F).
    cbn [run body newtypeload]. fold (load_ann w cfg n v t None). fold (load w cfg n v t).
    rewrite E. apply wrap_rewrap.
Qed.
