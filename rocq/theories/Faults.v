(** * Faults: loads in which something breaks (C56)

    While a load runs, the calls of handlers in it can fail for reasons which
    have nothing to do with the data: the stack is exhausted (RecursionError),
    the memory is exhausted (MemoryError), a handler of the user raises
    something.  The clauses [except Exception] of dataloader.py (lines 300,
    413, 459, 784, 943) do not let such exceptions pass: the handlers above
    convert them, or go on with something else.

    [troubled]: every call of a handler can fail with any exception, other than
    StopIteration (which would end the iteration of line 935), at any moment, after any of its writes; and other threads can write to the state
    of the loader, as in Threads.v.

    Simplification: a failure is a failure of the whole call of a handler; the
    Python functions which a handler calls (isinstance, the constructors) do not
    fail on their own. *)

From Verif Require Import Loader Spec Vocab Inv Std Sound Fuel Obs Scalars Simple Transparent Hist Reuse Trace Threads
  Reference RefSound RefComplete Stops.

Fixpoint troubled (w : world) (cfg : config) (n : nat) (call : handler -> value -> ty -> M value) {struct n} : Prop :=
  match n with
  | 0 => forall h v t s, call h v t s = (OOF, s)
  | S n' => forall h v t s,
      (exists e, e <> XRaw RStopIter /\ fst (call h v t s) = Exc e /\ writes w cfg s (snd (call h v t s))) \/
      exists inner s1 s2,
        troubled w cfg n' inner /\
        writes w cfg s s1 /\
        body w cfg inner h v t s1 = (fst (call h v t s), s2) /\
        writes w cfg s2 (snd (call h v t s))
  end.

(** load(v, t), in the state [s], with any such trouble, finishes with [r] and
    leaves [s'] *)
Definition troubled_load (w : world) (cfg : config) (s : lstate) (v : value) (t : ty) (r : res value) (s' : lstate) : Prop :=
  r <> OOF /\ exists n call s1 s2, troubled w cfg n call /\
    writes w cfg s s1 /\ load_with w cfg call v t None s1 = (r, s2) /\ writes w cfg s2 s'.

(** ** The recursion limit: the handlers can be nested [n] deep *)
Definition recursion_error : exn := XRaw (ROther "RecursionError").
Fixpoint limited (w : world) (cfg : config) (n : nat) (h : handler) (v : value) (t : ty) {struct n} : M value :=
  match n with
  | 0 => raise recursion_error
  | S n' => body w cfg (limited w cfg n') h v t
  end.
Definition limited_load (w : world) (cfg : config) (n : nat) (v : value) (t : ty) : M value :=
  load_with w cfg (limited w cfg n) v t None.

Lemma limited_troubled w cfg n : troubled w cfg (S n) (limited w cfg n).
Proof.
  induction n as [|n IH]; intros h v t s.
  - left. exists recursion_error. split; [discriminate|]. split; [reflexivity|apply wr_nothing].
  - right. exists (limited w cfg n), s, (snd (limited w cfg (S n) h v t s)). split; [exact IH|]. split; [apply wr_nothing|].
    split; [|apply wr_nothing]. cbn [limited]. destruct (body w cfg (limited w cfg n) h v t s); reflexivity.
Qed.

Section Troubled.
  Variable w : world.
  Variable cfg : config.

  Lemma troubled_writes n : forall call, troubled w cfg n call -> forall h v t s, writes w cfg s (snd (call h v t s)).
  Proof using.
    induction n as [|n IH]; intros call D h v t s; cbn [troubled] in D.
    { rewrite D. constructor. }
    destruct (D h v t s) as [[e [_ [_ W]]]|[inner [s1 [s2 [DI [W1 [E W2]]]]]]]; [exact W|].
    eapply wr_then; [exact W1|]. eapply wr_then; [|exact W2].
    change s2 with (snd (fst (call h v t s), s2)). rewrite <- E.
    apply (pr_body w cfg (writes w cfg)).
    - intros; apply wr_nothing.
    - apply wr_then.
    - apply wr_handler.
    - apply wr_names.
    - apply wr_fields.
    - apply wr_tags.
    - apply wr_strip.
    - intros h' v' t' s'. apply IH. exact DI.
  Qed.
  Lemma troubled_gd n call : troubled w cfg n call -> forall h v t, gd w cfg (call h v t).
  Proof using. intros D h v t s. apply writes_good. eapply troubled_writes. exact D. Qed.

  Lemma c56_writes s v t r s' : troubled_load w cfg s v t r s' -> writes w cfg s s'.
  Proof using.
    intros [_ [n [call [s1 [s2 [D [W1 [E W2]]]]]]]].
    eapply wr_then; [exact W1|]. eapply wr_then; [|exact W2].
    change s2 with (snd (r, s2)). rewrite <- E.
    apply (pr_load_with w cfg (writes w cfg)).
    - intros; apply wr_nothing.
    - apply wr_then.
    - apply wr_handler.
    - apply wr_names.
    - intros h' v' t' s0. eapply troubled_writes. exact D.
  Qed.
End Troubled.

Section TroubledSound.
  Variable w : world.
  Variables basic strcons : list cid.
  Variable cfg : config.
  Hypothesis Hstd : is_std w basic strcons cfg.
  Hypothesis Hwr : wf_reflect w.

  Lemma writes_hs {A} S0 SF (m : M A) (r : res A) s s1 s2 s' (Q : A -> Prop) :
    writes w cfg s s1 -> m s1 = (r, s2) -> writes w cfg s2 s' -> hs w cfg S0 SF m Q ->
    coh w cfg s -> (forall t, seen S0 t -> seen s t) -> st_le s' SF -> match r with Ok a => Q a | _ => True end.
  Proof using.
    intros W1 E W2 H C L U. destruct (writes_good _ _ _ _ W1) as [G1 L1]. destruct (writes_good _ _ _ _ W2) as [_ L2].
    specialize (H s1 (G1 C) (fun t St => seen_le _ _ L1 t (L t St))). rewrite E in H. apply H. eapply st_le_trans; eassumption.
  Qed.

  Lemma troubled_quiet env n : forall call, troubled w cfg n call ->
    forall h v t, never_stops w (pep563 cfg) env t -> find_handler cfg t = POk h -> hl (coh w cfg) (call h v t) (fun _ => True) NS.
  Proof using Hstd Hwr.
    induction n as [|n IH]; intros call D h v t G F s C; cbn [troubled] in D; [rewrite D; exact C|].
    pose proof (proj1 (writes_good _ _ _ _ (troubled_writes w cfg (S n) call D h v t s)) C) as C'.
    destruct (D h v t s) as [[e [N [E _]]]|[inner [s1 [s2 [DI [W1 [E _]]]]]]].
    - destruct (call h v t s) as [r s']; cbn [fst snd] in *. subst r. auto.
    - assert (B : hl (coh w cfg) (body w cfg inner h v t) (fun _ => True) NS).
      { apply (ns_body w basic strcons cfg Hstd Hwr env inner); [| |exact G|exact F].
        - intros h' v' t' s' C1. pose proof (proj1 (writes_good _ _ _ _ (troubled_writes w cfg n inner DI h' v' t' s')) C1) as C2.
          destruct (inner h' v' t' s') as [[a|e|] s3]; cbn [snd] in C2; auto.
        - apply IH. exact DI. }
      specialize (B s1 (proj1 (writes_good _ _ _ _ W1) C)). rewrite E in B.
      destruct (call h v t s) as [[a|e|] s']; cbn [fst snd] in *; auto. split; [exact C'|apply B].
  Qed.
  Lemma sd_troubled S0 SF n : forall call, troubled w cfg n call ->
    (forall k t,
      hs w cfg S0 SF (call HNone k t) (fun r => k = VNone /\ r = VNone) /\
      hs w cfg S0 SF (call HBasic k t) (fun r => (TClass (type_of k) = t /\ r = k) \/ (TClass (type_of k) <> t /\ basiccast cfg = true /\ makes w t k r))) /\
    forall h v t, tidy w basic strcons cfg SF v t -> find_handler cfg t = POk h ->
      hs w cfg S0 SF (call h v t) (gives w basic strcons cfg (names_of SF) (fun t => ~ seen S0 t) v t).
  Proof using Hstd Hwr.
    induction n as [|n IH]; intros call D; cbn [troubled] in D.
    { split; [intros k t; split|intros h v t _ _]; intros s C L U; rewrite D; exact I. }
    split.
    - assert (K : forall (Q : value -> Prop) h k t, (forall inner, hs w cfg S0 SF (body w cfg inner h k t) Q) -> hs w cfg S0 SF (call h k t) Q).
      { intros Q h k t B s C L U. destruct (D h k t s) as [[e [_ [E _]]]|[inner [s1 [s2 [DI [W1 [E W2]]]]]]]; [rewrite E; exact I|].
        exact (writes_hs S0 SF _ _ s s1 s2 _ Q W1 E W2 (B inner) C L U). }
      intros k t. split; apply K; intro inner; cbn [body].
      + unfold noneload. destruct k; try apply hs_raise. apply hs_ret. auto.
      + unfold basicload. destruct (exact k t) eqn:E; [apply hs_ret; left; apply ty_eqb_eq in E; auto|].
        apply ty_eqb_neq in E. destruct (basiccast cfg); [|apply hs_raise].
        destruct (call_type w t k) as [r|[]] eqn:CT; try apply hs_raise. apply hs_ret. right. split; [exact E|]. split; [reflexivity|]. apply makes_call. exact CT.
    - intros h v t Td F s C L U. destruct (D h v t s) as [[e [_ [E _]]]|[inner [s1 [s2 [DI [W1 [E W2]]]]]]]; [rewrite E; exact I|].
      eapply writes_hs; [exact W1|exact E|exact W2| |exact C|exact L|exact U].
      destruct (IH inner DI) as [IK IB].
      apply (sd_body w basic strcons cfg Hstd Hwr S0 SF inner (troubled_gd w cfg n inner DI) IB (troubled_quiet _ n inner DI) IK); assumption.
  Qed.

  Lemma c56_sound s v t r s' :
    used w cfg s -> troubled_load w cfg s v t (Ok r) s' ->
    (forall c, reach w (pep563 cfg) (names_of s') t (TClass c) -> object_class w basic strcons c -> distinct_names w cfg c) ->
    (forall x, inside v x -> python_data x) ->
    never_stops w (pep563 cfg) (names_of s') t ->
    gives w basic strcons cfg (names_of s') (fun t => ~ seen s t) v t r.
  Proof using Hstd Hwr.
    intros U [_ [n [call [s1 [s2 [D [W1 [E W2]]]]]]]] HT HD HN.
    destruct (sd_troubled s s' n call D) as [_ B].
    exact (writes_hs s s' _ _ s s1 s2 s' _ W1 E W2
      (sd_load_with w basic strcons cfg s s' call (troubled_gd w cfg n call D) B v t None (mkTidy w basic strcons cfg s' v t HT HD HN))
      (used_coh w cfg s U) (fun _ H => H) (st_le_refl _)).
  Qed.

  Lemma c56_reading env s v t r s' : used w cfg s -> steady w basic cfg env s v t -> well_formed w basic strcons cfg env v t ->
    troubled_load w cfg s v t (Ok r) s' -> gives w basic strcons cfg env (fun _ => False) v t r.
  Proof using Hstd Hwr.
    intros U St Wl T. pose proof (writes_good _ _ _ _ (c56_writes w cfg s v t (Ok r) s' T)) as [_ LE].
    eapply (gives_clean w basic strcons cfg Hstd env s); [exact LE| |exact St].
    apply c56_sound with (s' := s'); auto.
    - intros c R. apply (wl_names _ _ _ _ _ _ _ Wl). eapply (reach_names w basic cfg env s); eassumption.
    - intros x I. apply (wl_data _ _ _ _ _ _ _ Wl x I).
    - intros y R. apply (wl_calm _ _ _ _ _ _ _ Wl). eapply (reach_names w basic cfg env s); eassumption.
  Qed.
End TroubledSound.

(** ** Enough stack *)
Lemma run_limited w cfg n : forall h v t, ext (run w cfg n h v t) (limited w cfg n h v t).
Proof.
  induction n as [|n IH]; intros h v t; [intro s; left; reflexivity|]. cbn [run limited]. apply body_ext. exact IH.
Qed.
Lemma limited_mono w cfg n m : n <= m -> forall h v t, ext (run w cfg n h v t) (limited w cfg m h v t).
Proof. intros L h v t. eapply ext_trans; [apply run_mono; exact L|apply run_limited]. Qed.
Lemma c56_enough w cfg s v t r : loads w cfg s v t r -> exists n, forall m, n <= m -> fst (limited_load w cfg m v t s) = r.
Proof.
  intros [NO [n E]]. exists n. intros m L. rewrite <- E in *. symmetry. f_equal. apply ext_agree; [|exact NO].
  apply load_with_ext. apply limited_mono. exact L.
Qed.
Lemma limited_load_troubled w cfg n v t s : fst (limited_load w cfg n v t s) <> OOF ->
  troubled_load w cfg s v t (fst (limited_load w cfg n v t s)) (snd (limited_load w cfg n v t s)).
Proof.
  intro NO. split; [exact NO|]. exists (S n), (limited w cfg n), s, (snd (limited_load w cfg n v t s)).
  split; [apply limited_troubled|]. split; [apply wr_nothing|]. split; [apply surjective_pairing|apply wr_nothing].
Qed.
