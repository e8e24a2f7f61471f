(** * Threads: a Loader shared by several threads (C47)

    One load is followed; the other threads are represented by what they may
    do to the shared state, at every moment where this load is about to call a
    handler or has just got its result.  What they may do is any sequence of
    the writes that loads perform ([writes]); [c47_guarantee] shows that the
    load which is followed does not do more than that either, so that any
    number of threads, each disturbed by all others, is covered.

    Simplifications: the few dictionary operations between two handler calls
    are one step; in one call of a handler, two nested calls with the same
    arguments in the same state are disturbed in the same way. *)

From Verif Require Import Loader Spec Vocab Inv Std Sound Fuel Obs Scalars Simple Transparent Hist Reuse Trace.

(** The writes to the state of a Loader, any number of them.
    dataloader.py 290, 382, 396, 591, 722, 919 (handlers); 293-296 (names);
    517 (fields of the dataclasses); 700 (discriminators); 646-650
    (NotRequired removed from a TypedDict) *)
Inductive writes (w : world) (cfg : config) : lstate -> lstate -> Prop :=
| wr_nothing s : writes w cfg s s
| wr_then a b c : writes w cfg a b -> writes w cfg b c -> writes w cfg a c
| wr_handler s t h : ty_get t (st_index s) = None -> find_handler cfg t = POk h ->
    writes w cfg s (set_index (cons (t, h)) s)
| wr_names s t : writes w cfg s (register w t s)
| wr_fields s c fs oi : ty_get (TClass c) (st_fields s) = None -> ci_dc (class_of w c) = Some fs ->
    dataclass_info w cfg c fs = POk oi -> writes w cfg s (set_fields (cons (TClass c, oi)) s)
| wr_tags s t args : same_get t (st_disc s) = None -> ty_args t = Some args ->
    writes w cfg s (set_disc (cons (t, build_disc w s args)) s)
| wr_strip s c : ci_td (class_of w c) <> None -> writes w cfg s (set_stripped (cons c) s).

(** [call] runs handlers, nested at most [n] deep, and other threads write
    before and after each of them *)
Fixpoint disturbed (w : world) (cfg : config) (n : nat) (call : handler -> value -> ty -> M value) {struct n} : Prop :=
  match n with
  | 0 => forall h v t s, call h v t s = (OOF, s)
  | S n' => forall h v t s, exists inner s1 s2,
      disturbed w cfg n' inner /\
      writes w cfg s s1 /\
      body w cfg inner h v t s1 = (fst (call h v t s), s2) /\
      writes w cfg s2 (snd (call h v t s))
  end.

(** load(v, t), called in the state [s] while other threads use the same
    loader, finishes with [r], leaving [s'] *)
Definition shared_load (w : world) (cfg : config) (s : lstate) (v : value) (t : ty) (r : res value) (s' : lstate) : Prop :=
  r <> OOF /\ exists n call s1 s2, disturbed w cfg n call /\
    writes w cfg s s1 /\ load_with w cfg call v t None s1 = (r, s2) /\ writes w cfg s2 s'.

Section Threads.
  Variable w : world.
  Variable cfg : config.

  Lemma writes_good s s' : writes w cfg s s' -> good_step w cfg s s'.
  Proof using.
    induction 1 as [s|a b c _ IH1 _ IH2|s t h N F|s t|s c fs oi N D E|s t args N A|s c D].
    - apply good_refl.
    - eapply good_trans; eassumption.
    - apply good_index; assumption.
    - apply good_reg.
    - eapply good_fields; eassumption.
    - apply good_disc; assumption.
    - apply good_strip; assumption.
  Qed.

  Lemma disturbed_writes n : forall call, disturbed w cfg n call -> forall h v t s, writes w cfg s (snd (call h v t s)).
  Proof using.
    induction n as [|n IH]; intros call D h v t s; cbn [disturbed] in D.
    { rewrite D. constructor. }
    destruct (D h v t s) as [inner [s1 [s2 [DI [W1 [E W2]]]]]].
    eapply wr_then; [exact W1|]. eapply wr_then; [|exact W2].
    change s2 with (snd (fst (call h v t s), s2)). rewrite <- E.
    apply (pr_body w cfg (writes w cfg)).
    - intros; apply wr_nothing.
    - apply wr_then.
    - apply wr_handler.
    - apply wr_names.
    - apply wr_fields.
    - apply wr_tags.
    - apply wr_strip.
    - intros h' v' t' s'. apply IH. exact DI.
  Qed.

  (** the guarantee *)
  Lemma c47_guarantee s v t r s' : shared_load w cfg s v t r s' -> writes w cfg s s'.
  Proof using.
    intros [_ [n [call [s1 [s2 [D [W1 [E W2]]]]]]]].
    eapply wr_then; [exact W1|]. eapply wr_then; [|exact W2].
    change s2 with (snd (r, s2)). rewrite <- E.
    apply (pr_load_with w cfg (writes w cfg)).
    - intros; apply wr_nothing.
    - apply wr_then.
    - apply wr_handler.
    - apply wr_names.
    - intros h' v' t' s0. eapply disturbed_writes. exact D.
  Qed.
End Threads.

Section ThreadsSim.
  Variable w : world.
  Variables basic strcons : list cid.
  Variable cfg : config.
  Hypothesis Hstd : is_std w basic strcons cfg.
  Hypothesis Hwr : wf_reflect w.
  Variable env : string -> option ty.
  Notation p := (pep563 cfg).
  Variable G : ty -> Prop.
  Hypothesis Gcomp : forall t t', G t -> component w p env t t' -> G t'.
  Variable warm : ty -> Prop.
  Variable Vok : value -> Prop.
  Hypothesis Vpart : forall v x, Vok v -> part v x -> Vok x.
  Hypothesis Gdict : forall n kt vt, G (TGen n ODict (Some [kt; vt])) -> warm vt \/ det_dict w basic Vok kt vt.
  Hypothesis Gdisc : forall n args, G (TGen n OUnion (Some args)) -> plain_tags w args.

  Lemma sim_disturbed n : forall call, disturbed w cfg n call -> forall h v t,
    G t -> Vok v -> find_handler cfg t = POk h ->
    sim w cfg env G warm Meq (call h v t) (fun m => run w cfg m h v t).
  Proof using Hstd Hwr Gcomp Vpart Gdict Gdisc.
    induction n as [|n IH]; intros call D h v t Gt Vv F s1 s2 H1 H2 NO; cbn [disturbed] in D.
    { rewrite D in NO. contradiction NO. reflexivity. }
    destruct (D h v t s1) as [inner [s1a [s1b [DI [W1 [E W2]]]]]].
    assert (NO' : fst (body w cfg inner h v t s1a) <> OOF) by (rewrite E; exact NO).
    destruct (sim_body w basic strcons cfg Hstd Hwr env G Gcomp warm Vok Vpart Gdict Gdisc inner (IH inner DI)
       (fun h v t s S => settled_step w cfg env G warm s _ S (writes_good w cfg _ _ (disturbed_writes w cfg n inner DI h v t s)))
       h v t Gt Vv F s1a s2 (settled_step w cfg env G warm _ _ H1 (writes_good w cfg _ _ W1)) H2 NO')
      as [I1 [r2 [s2' [N [I2 [OR HN]]]]]].
    rewrite E in I1, OR. cbn [fst snd] in I1, OR.
    split; [eapply settled_step; [exact I1|apply writes_good; exact W2]|].
    exists r2, s2', (S N). split; [exact I2|]. split; [exact OR|].
    intros [|m] L; [lia|]. cbn [run]. apply HN. lia.
  Qed.
End ThreadsSim.

Lemma steady_settled w basic cfg env s v t :
  coh w cfg s -> steady w basic cfg env s v t ->
  settled w cfg env (reach w (pep563 cfg) env t) (seen s) s.
Proof.
  intros C [SN _ _]. split; [exact C|]. split; [|intros t' X; exact X].
  intros n Rn. destruct (SN n Rn) as [t' [E [fr [E2 E3]]]]. exists fr, t'. auto.
Qed.

Lemma c47 w basic strcons cfg :
  is_std w basic strcons cfg -> wf_reflect w ->
  forall env s v t r s',
  used w cfg s -> steady w basic cfg env s v t ->
  shared_load w cfg s v t r s' -> loads w cfg s v t r.
Proof.
  intros Hstd Hwr env s v t r s' U SS [NO [n [call [s1 [s2 [D [W1 [E W2]]]]]]]].
  pose proof (steady_settled w basic cfg env s v t (used_coh _ _ _ U) SS) as H.
  pose proof SS as [SN SD SU].
  assert (H1 : settled w cfg env (reach w (pep563 cfg) env t) (seen s) s1).
  { eapply settled_step; [exact H|apply writes_good; exact W1]. }
  destruct (sim_load_with w cfg env (reach w (pep563 cfg) env t) (seen s) (inside v) call
    (sim_disturbed w basic strcons cfg Hstd Hwr env (reach w (pep563 cfg) env t)
        (fun a b => reach_step w (pep563 cfg) env t a b) (seen s) (inside v) (fun a b => inside_step v a b) SD SU n call D)
    v t None (reach_refl _ _ _ _) (inside_refl v) s1 s H1 H) as [_ [r2 [s2' [N [_ [OR HN]]]]]].
  { rewrite E. exact NO. }
  split; [exact NO|]. exists N. unfold load, load_ann. rewrite (HN N) by lia. cbn [fst].
  rewrite E in OR. cbn [fst] in OR. destruct r, r2; cbn in OR; try contradiction; congruence.
Qed.

(** what others have done before a load, or an abandoned load left behind, is
    not observable *)
Lemma c47_before w basic strcons cfg :
  is_std w basic strcons cfg -> wf_reflect w ->
  forall env s s' v t,
  used w cfg s -> steady w basic cfg env s v t -> writes w cfg s s' ->
  forall r, loads w cfg s v t r <-> loads w cfg s' v t r.
Proof.
  intros Hstd Hwr env s s' v t U SS W.
  pose proof (steady_settled w basic cfg env s v t (used_coh _ _ _ U) SS) as H.
  pose proof SS as [SN SD SU].
  assert (H1 : settled w cfg env (reach w (pep563 cfg) env t) (seen s) s').
  { eapply settled_step; [exact H|apply writes_good; exact W]. }
  intro r; split; intro L;
    [apply (transfer w basic strcons cfg Hstd Hwr env (reach w (pep563 cfg) env t)
        (fun a b => reach_step w (pep563 cfg) env t a b) (seen s) (inside v) (fun a b => inside_step v a b) SD SU s s')
    |apply (transfer w basic strcons cfg Hstd Hwr env (reach w (pep563 cfg) env t)
        (fun a b => reach_step w (pep563 cfg) env t a b) (seen s) (inside v) (fun a b => inside_step v a b) SD SU s' s)];
    try assumption; first [apply reach_refl|apply inside_refl].
Qed.
