(** * DThreads: a Dumper shared by several threads (C54)

    As in Threads.v: one dump is followed, the other threads are what they may
    do to the shared state ([dwrites]) before and after each call of a handler.
    Same simplifications. *)

From Verif Require Import Loader Dumper Spec Vocab Inv Fuel Index Dumps DumpAny.

(** [call] runs handlers, nested at most [n] deep, and other threads write
    before and after each of them *)
Fixpoint ddisturbed (w : world) (cfg : dconfig) (n : nat) (call : dhandler -> value -> ty -> DM value) {struct n} : Prop :=
  match n with
  | 0 => forall h v t s, call h v t s = (OOF, s)
  | S n' => forall h v t s, exists inner s1 s2,
      ddisturbed w cfg n' inner /\
      dwrites w cfg s s1 /\
      dbody w cfg inner h v t s1 = (fst (call h v t s), s2) /\
      dwrites w cfg s2 (snd (call h v t s))
  end.

(** dump(v, annotated_type=t), called in the state [s] while other threads use
    the same dumper, finishes with [r], leaving [s'] *)
Definition shared_dump (w : world) (cfg : dconfig) (s : dstate) (v : value) (t : ty) (r : res value) (s' : dstate) : Prop :=
  r <> OOF /\ exists n call s1 s2, ddisturbed w cfg n call /\
    dwrites w cfg s s1 /\ dump_with cfg call v t s1 = (r, s2) /\ dwrites w cfg s2 s'.

Section DThreads.
  Variable w : world.
  Variable cfg : dconfig.
  Hypothesis Hcls : class_handlers w cfg.
  Hypothesis Hsane : sane_handlers w cfg.
  Notation dcoh := (Dumps.dcoh w cfg).

  Lemma dwrites_coh s s' : dwrites w cfg s s' -> dcoh s -> dcoh s'.
  Proof using Hcls.
    induction 1 as [s|a b c _ IH1 _ IH2|s v h P F|s c fs i D F]; auto; intro C.
    - split; [|apply C]. intros v' h' P'. cbn [ds_cache cid_get].
      destruct (cid_eqb (type_of v') (type_of v)) eqn:Q; [|apply (proj1 C v' h' P')].
      apply cid_eqb_eq in Q. intros [= <-]. apply (find_class w cfg Hcls v v'); auto.
    - split; [apply C|]. intros c' i'. cbn [ds_dc cid_get].
      destruct (cid_eqb c' c) eqn:Q; [|apply (proj2 C)]. apply cid_eqb_eq in Q. subst c'. intros [= <-]. eauto.
  Qed.

  Lemma disturbed_agrees n : forall call, ddisturbed w cfg n call ->
    forall x t, python_value w x -> agrees w cfg (dump_with cfg call x t) (gdump w cfg n x t).
  Proof using Hcls Hsane.
    induction n as [|n IH]; intros call D x t P; cbn [gdump ddisturbed] in *.
    - apply (gg_dump_with w cfg Hcls call x t (fun _ => OOF) (pv_head w x P)).
      intros h _ s C. rewrite (D h x t s). split; [reflexivity|split; [exact C|constructor]].
    - apply (gg_dump_with w cfg Hcls call x t (fun h => gbody w cfg (gdump w cfg n) h x t) (pv_head w x P)).
      intros h F s C. destruct (D h x t s) as [inner [s1 [s2 [DI [W1 [B W2]]]]]].
      assert (C1 : dcoh s1) by (eapply dwrites_coh; eassumption).
      pose proof (gg_body w cfg Hsane inner (gdump w cfg n) h x t F P (fun y t' Py => IH inner DI y t' Py) s1 C1) as [E [C2 W]].
      rewrite B in E, C2, W. cbn [fst snd] in *. split; [exact E|].
      split; [eapply dwrites_coh; eassumption|]. eapply dw_then; [exact W1|]. eapply dw_then; eassumption.
  Qed.

  Lemma c54_threads s v t r s' : dhistory w cfg s -> python_value w v ->
    shared_dump w cfg s v t r s' -> dumps_as w cfg s v t r /\ dwrites w cfg s s'.
  Proof using Hcls Hsane.
    intros H P [NO [n [call [s1 [s2 [D [W1 [E W2]]]]]]]].
    pose proof (ghistory_coh w cfg s Hcls Hsane H) as C.
    assert (C1 : dcoh s1) by (eapply dwrites_coh; eassumption).
    destruct (disturbed_agrees n call D v t P s1 C1) as [E1 [C2 W]]. rewrite E in E1, C2, W. cbn [fst snd] in *. split.
    - split; [exact NO|]. exists n. rewrite (gdump_spec w cfg Hcls Hsane n s v t H P). symmetry. exact E1.
    - eapply dw_then; [exact W1|]. eapply dw_then; eassumption.
  Qed.

  Lemma c54_abandoned s s' v t r : dhistory w cfg s -> python_value w v -> dwrites w cfg s s' ->
    (dumps_as w cfg s v t r <-> dumps_as w cfg s' v t r).
  Proof using Hcls Hsane.
    intros H P W. pose proof (ghistory_coh w cfg s Hcls Hsane H) as C. pose proof (dwrites_coh s s' W C) as C'.
    unfold dumps_as. split; intros [NO [n E]]; (split; [exact NO|]); exists n; rewrite <- E;
      rewrite (proj1 (gg_dump w cfg Hcls Hsane n v t P s C)), (proj1 (gg_dump w cfg Hcls Hsane n v t P s' C')); reflexivity.
  Qed.
End DThreads.

(** the undisturbed run is one of the disturbed ones *)
Lemma drun_disturbed w cfg n : ddisturbed w cfg n (drun w cfg n).
Proof.
  induction n as [|n IH]; cbn [ddisturbed drun]; [reflexivity|]. intros h v t s.
  exists (drun w cfg n), s, (snd (dbody w cfg (drun w cfg n) h v t s)).
  split; [exact IH|]. split; [constructor|]. split; [apply surjective_pairing|constructor].
Qed.
Lemma std_class w basic strcons cfg : is_dstd w basic strcons cfg -> class_handlers w cfg.
Proof.
  intros [E _]. apply (class_conditions w basic strcons cfg [] [] (default_dhandlers w basic strcons)); [reflexivity|exact E|].
  intros c h v v' [].
Qed.
Lemma std_sane w basic strcons cfg : is_dstd w basic strcons cfg -> sane_handlers w cfg.
Proof.
  intros [E _] c f v t I P. exfalso. rewrite E in I. cbn in I. repeat (destruct I as [I|I]; [discriminate|]). contradiction.
Qed.
