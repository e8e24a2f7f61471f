(** * DFaults: dumps in which something breaks (C56)

    As in Faults.v, for a Dumper: every call of a handler can fail with any
    exception, after any of its writes, and other threads can write. *)

From Verif Require Import Loader Dumper Spec Vocab Inv Fuel Index Dumps DumpAny DThreads.

Fixpoint dtroubled (w : world) (cfg : dconfig) (n : nat) (call : dhandler -> value -> ty -> DM value) {struct n} : Prop :=
  match n with
  | 0 => forall h v t s, call h v t s = (OOF, s)
  | S n' => forall h v t s,
      (exists e, fst (call h v t s) = Exc e /\ dwrites w cfg s (snd (call h v t s))) \/
      exists inner s1 s2,
        dtroubled w cfg n' inner /\
        dwrites w cfg s s1 /\
        dbody w cfg inner h v t s1 = (fst (call h v t s), s2) /\
        dwrites w cfg s2 (snd (call h v t s))
  end.
Definition troubled_dump (w : world) (cfg : dconfig) (s : dstate) (v : value) (t : ty) (r : res value) (s' : dstate) : Prop :=
  r <> OOF /\ exists n call s1 s2, dtroubled w cfg n call /\
    dwrites w cfg s s1 /\ dump_with cfg call v t s1 = (r, s2) /\ dwrites w cfg s2 s'.

(** a handler of the user which lets the exceptions of the dumps it asks for
    pass *)
Inductive passes : dprog -> Prop :=
| ps_ret v : passes (DPRet v)
| ps_raise e : passes (DPRaise e)
| ps_dump v t k : (forall o, passes (k o)) -> (forall e, exists e', k (inr e) = DPRaise e') -> passes (DPDump v t k).
Definition passing_handlers (cfg : dconfig) : Prop :=
  forall c f v t, In (c, DCustom f) (d_handlers cfg) -> passes (f v t).

(** the recursion limit *)
Fixpoint dlimited (w : world) (cfg : dconfig) (n : nat) (h : dhandler) (v : value) (t : ty) {struct n} : DM value :=
  match n with
  | 0 => raise (XRaw (ROther "RecursionError"))
  | S n' => dbody w cfg (dlimited w cfg n') h v t
  end.
Lemma dlimited_troubled w cfg n : dtroubled w cfg (S n) (dlimited w cfg n).
Proof.
  induction n as [|n IH]; intros h v t s.
  - left. eexists. split; [reflexivity|apply dw_nothing].
  - right. exists (dlimited w cfg n), s, (snd (dlimited w cfg (S n) h v t s)). split; [exact IH|]. split; [apply dw_nothing|].
    split; [|apply dw_nothing]. cbn [dlimited]. destruct (dbody w cfg (dlimited w cfg n) h v t s); reflexivity.
Qed.

Section DFaults.
  Variable w : world.
  Variable cfg : dconfig.
  Hypothesis Hcls : class_handlers w cfg.
  Hypothesis Hsane : sane_handlers w cfg.
  Hypothesis Hpass : passing_handlers cfg.
  Notation dcoh := (Dumps.dcoh w cfg).

  (** the outcome is [r], or an exception *)
  Definition wk {A} (m : DM A) (r : res A) : Prop :=
    forall s, dcoh s -> (fst (m s) = r \/ exists e, fst (m s) = Exc e) /\ dcoh (snd (m s)) /\ dwrites w cfg s (snd (m s)).
  Lemma wk_ag {A} (m : DM A) r : agrees w cfg m r -> wk m r.
  Proof using. intros H s C. destruct (H s C) as [E [C' W]]. auto. Qed.
  Lemma wk_ret {A} (a : A) : wk (ret a) (Ok a). Proof using. apply wk_ag, ag_ret. Qed.
  Lemma wk_raise {A} e : wk (raise (A := A) e) (Exc e). Proof using. apply wk_ag, ag_raise. Qed.
  Lemma wk_lift {A} (r : pyres A) : wk (lift r) (rlift r). Proof using. apply wk_ag, ag_lift. Qed.
  Lemma wk_bind {A B} (m : DM A) (f : A -> DM B) r g :
    wk m r -> (forall a, r = Ok a -> wk (f a) (g a)) -> wk (bind m f) (rbind r g).
  Proof using.
    intros Hm Hf s H. unfold bind. destruct (Hm s H) as [E [C W]]. destruct (m s) as [x s'] eqn:Q. cbn [fst snd] in *.
    destruct E as [->|[e ->]]; [|split; [right; exists e; reflexivity|split; assumption]].
    destruct r as [a|e|]; cbn [rbind]; [|split; [left; reflexivity|split; assumption]|split; [left; reflexivity|split; assumption]].
    destruct (Hf a eq_refl s' C) as [E' [C' W']]. split; [exact E'|]. split; [exact C'|]. eapply dw_then; eassumption.
  Qed.

  Section Body.
    Variable call : dhandler -> value -> ty -> DM value.
    Variable D : value -> ty -> res value.
    Lemma wk_attr_loop v fs acc :
      (forall f x, getattr v f = POk x -> forall t, wk (dump_with cfg call x t) (D x t)) ->
      wk (attr_loop cfg call v fs acc) (pattr_loop cfg D v fs acc).
    Proof using.
      intro H. revert acc. induction fs as [|f fs IH]; intro acc; cbn [attr_loop pattr_loop]; [apply wk_ret|].
      apply wk_bind; [apply wk_lift|]. intros x Q.
      destruct (negb (f_repr f)); [apply IH|]. apply wk_bind; [apply wk_lift|]. intros hid _.
      destruct hid; [apply IH|]. apply wk_bind; [|intros y _; apply IH].
      apply (H (f_name f)). destruct (getattr v (f_name f)); cbn in Q; congruence.
    Qed.
    Lemma wk_nt_loop ds fs acc :
      (forall f x, In (f, x) fs -> forall t, wk (dump_with cfg call x t) (D x t)) ->
      wk (nt_loop cfg call ds fs acc) (pnt_loop cfg D ds fs acc).
    Proof using.
      revert acc. induction fs as [|[k x] fs IH]; intros acc H; cbn [nt_loop pnt_loop]; [apply wk_ret|].
      assert (H' : forall f x, In (f, x) fs -> forall t, wk (dump_with cfg call x t) (D x t)) by (intros f y I; apply (H f y); right; exact I).
      destruct (_ && _); [apply IH; exact H'|]. apply wk_bind; [apply (H k x); left; reflexivity|]. intros y _. apply IH. exact H'.
    Qed.
    Lemma wk_dc_loop v fs info names acc :
      (forall f x, getattr v f = POk x -> forall t, wk (dump_with cfg call x t) (D x t)) ->
      wk (dc_loop cfg call v fs info names acc) (pdc_loop cfg D v fs info names acc).
    Proof using.
      intro H. revert acc. induction names as [|k names IH]; intro acc; cbn [dc_loop pdc_loop]; [apply wk_ret|].
      destruct (find _ fs) as [f|]; [|apply wk_raise].
      apply wk_bind; [apply wk_lift|]. intros x Q.
      destruct (_ && _); [apply IH|]. apply wk_bind; [|intros y _; apply IH].
      apply (H k). destruct (getattr v k); cbn in Q; congruence.
    Qed.
    Lemma wk_dump_list l acc :
      (forall x, In x l -> forall t, wk (dump_with cfg call x t) (D x t)) ->
      wk (dump_list cfg call l acc) (pdump_list D l acc).
    Proof using.
      revert acc. induction l as [|x l IH]; intros acc H; cbn [dump_list pdump_list]; [apply wk_ret|].
      apply wk_bind; [apply H; left; reflexivity|]. intros y _. apply IH. intros z I. apply H. right. exact I.
    Qed.
    Lemma wk_dict_loop d acc :
      (forall k x, In (k, x) d -> forall t, wk (dump_with cfg call k t) (D k t) /\ wk (dump_with cfg call x t) (D x t)) ->
      wk (dict_loop w cfg call d acc) (pdict_loop w D d acc).
    Proof using.
      revert acc. induction d as [|[k x] d IH]; intros acc H; cbn [dict_loop pdict_loop]; [apply wk_ret|].
      apply wk_bind; [apply (H k x); left; reflexivity|]. intros k' _.
      apply wk_bind; [apply (H k x); left; reflexivity|]. intros x' _.
      destruct (hashable w k'); [|apply wk_raise]. apply IH. intros k0 x0 I. apply H. right. exact I.
    Qed.
    Lemma wk_prog p : sane_prog w p -> passes p ->
      (forall x t', python_value w x -> wk (dump_with cfg call x t') (D x t')) ->
      wk (run_dprog cfg call p) (gprog D p).
    Proof using.
      intros Sp Pp H. induction Sp as [v|e|v t k Pv _ IH]; cbn [run_dprog gprog]; [apply wk_ret|apply wk_raise|].
      inversion Pp as [| |v0 t0 k0 Pk Pe]; subst.
      intros s C. unfold bind, attempt. destruct (H v t Pv s C) as [E [C' W]].
      destruct (dump_with cfg call v t s) as [o s'] eqn:Q; cbn [fst snd] in *.
      destruct E as [->|[e ->]].
      - destruct (D v t) as [a|e|]; [destruct (IH (inl a) (Pk (inl a)) s' C') as [E2 [C2 W2]]
        |destruct (IH (inr e) (Pk (inr e)) s' C') as [E2 [C2 W2]]|split; [left; reflexivity|split; assumption]];
        (split; [exact E2|]; split; [exact C2|]; eapply dw_then; eassumption).
      - destruct (Pe e) as [e' Ke]. rewrite Ke. cbn [run_dprog raise fst snd]. split; [right; eexists; reflexivity|]. split; assumption.
    Qed.
  End Body.

  Lemma wk_dump_with call x t r :
    python_object w x ->
    (forall h, dfind cfg x = inl h -> wk (call h x t) (r h)) ->
    wk (dump_with cfg call x t) (match dfind cfg x with inr e => Exc e | inl h => r h end).
  Proof using Hcls.
    intros P H s C. unfold dump_with, bind.
    destruct (cid_get (type_of x) (ds_cache s)) as [h|] eqn:E.
    - rewrite (proj1 C x h P E). apply (H h (proj1 C x h P E) s C).
    - destruct (dfind cfg x) as [h|e] eqn:F; [|split; [left; reflexivity|split; [exact C|constructor]]].
      assert (C' : dcoh (mkDState ((type_of x, h) :: ds_cache s) (ds_dc s))); [|
        destruct (H h eq_refl _ C') as [E1 [C1 W1]]; split; [exact E1|]; split; [exact C1|];
        eapply dw_then; [eapply dw_handler; eassumption|exact W1]].
      split; [|apply C]. cbn [ds_cache]. intros v h0 Pv. cbn [cid_get].
      destruct (cid_eqb (type_of v) (type_of x)) eqn:Q; [|apply (proj1 C v h0 Pv)].
      apply cid_eqb_eq in Q. intros [= <-]. apply (find_class w cfg Hcls x v); auto.
  Qed.

  Lemma wk_body call D h v t :
    dfind cfg v = inl h -> python_value w v ->
    (forall x t', python_value w x -> wk (dump_with cfg call x t') (D x t')) ->
    wk (dbody w cfg call h v t) (gbody w cfg D h v t).
  Proof using Hsane Hpass.
    intros F P H. assert (Hh : forall x t', holds v x -> wk (dump_with cfg call x t') (D x t')).
    { intros x t' I. apply H. eapply pv_holds; eassumption. }
    destruct h; cbn [dbody gbody pbody].
    - apply wk_ret.
    - unfold namedtupledump. destruct v; try apply wk_raise. apply wk_nt_loop.
      intros f x I t'. apply Hh. eapply holds_nt. exact I.
    - unfold dataclassdump. destruct (ci_dc (class_of w (type_of v))) as [fs|] eqn:E; [|apply wk_raise].
      apply wk_bind; [|intros i _; apply wk_dc_loop; intros f x G t'; apply Hh; eapply getattr_holds; exact G].
      intros s C. destruct (cid_get (type_of v) (ds_dc s)) as [i|] eqn:Q.
      + destruct (proj2 C _ _ Q) as [fs' [E' I]]. rewrite E in E'. injection E' as <-. rewrite I. split; [left; reflexivity|split; [exact C|constructor]].
      + destruct (dc_info w (type_of v) fs) as [i|r] eqn:I; [|split; [left; reflexivity|split; [exact C|constructor]]].
        split; [left; reflexivity|]. split; [|eapply dw_fields; eassumption]. split; [apply C|]. cbn [ds_dc snd cid_get]. intros c j.
        destruct (cid_eqb c (type_of v)) eqn:Q'; [|apply (proj2 C)].
        apply cid_eqb_eq in Q'. subst c. intros [= <-]. eauto.
    - unfold iteratordump. destruct (iter v) as [l|] eqn:E; [|apply wk_raise].
      destruct (_ && _); [apply wk_ret|]. apply wk_dump_list. intros x I t'. apply H. eapply iter_pv; eassumption.
    - destruct v; try apply wk_raise. apply Hh. constructor.
    - destruct v; try apply wk_raise. apply wk_dict_loop. intros k x I t'.
      split; apply Hh; [eapply holds_key|eapply holds_value]; exact I.
    - unfold attrdump. destruct (ci_attrs _); [|apply wk_raise]. apply wk_attr_loop.
      intros f x G t'. apply Hh. eapply getattr_holds. exact G.
    - unfold datetimedump. destruct (d_iso cfg); [apply wk_ret|]. destruct v as [| | | | | | | | | | | | | | |c p]; try apply wk_raise.
      destruct p; try apply wk_raise. destruct (_ && _); [apply wk_ret|]. destruct (last l VNone); try apply wk_raise. apply wk_ret.
    - apply wk_ret.
    - unfold patterndump. destruct v; try apply wk_raise. apply wk_ret.
    - apply wk_ret.
    - destruct (dfind_In _ _ _ F) as [c I]. apply wk_prog; [eapply Hsane; eassumption|eapply Hpass; eassumption|exact H].
  Qed.

  Lemma troubled_wk n : forall call, dtroubled w cfg n call ->
    forall x t, python_value w x -> wk (dump_with cfg call x t) (gdump w cfg n x t).
  Proof using Hcls Hsane Hpass.
    induction n as [|n IH]; intros call D x t P; cbn [gdump dtroubled] in *.
    - apply (wk_dump_with call x t (fun _ => OOF) (pv_head w x P)).
      intros h _ s C. rewrite (D h x t s). split; [left; reflexivity|split; [exact C|constructor]].
    - apply (wk_dump_with call x t (fun h => gbody w cfg (gdump w cfg n) h x t) (pv_head w x P)).
      intros h F s C. destruct (D h x t s) as [[e [E W]]|[inner [s1 [s2 [DI [W1 [B W2]]]]]]].
      { split; [right; exists e; exact E|]. split; [eapply dwrites_coh; eassumption|exact W]. }
      assert (C1 : dcoh s1) by (eapply dwrites_coh; eassumption).
      pose proof (wk_body inner (gdump w cfg n) h x t F P (fun y t' Py => IH inner DI y t' Py) s1 C1) as [E [C2 W]].
      rewrite B in E, C2, W. cbn [fst snd] in *. split; [exact E|].
      split; [eapply dwrites_coh; eassumption|]. eapply dw_then; [exact W1|]. eapply dw_then; eassumption.
  Qed.

  Lemma c56_dump s v t x s' : dhistory w cfg s -> python_value w v ->
    troubled_dump w cfg s v t (Ok x) s' -> dumps_as w cfg s v t (Ok x).
  Proof using Hcls Hsane Hpass.
    intros H P [NO [n [call [s1 [s2 [D [W1 [E W2]]]]]]]].
    pose proof (ghistory_coh w cfg s Hcls Hsane H) as C.
    assert (C1 : dcoh s1) by (eapply dwrites_coh; eassumption).
    destruct (troubled_wk n call D v t P s1 C1) as [E1 _]. rewrite E in E1. cbn [fst] in *.
    destruct E1 as [E1|[e E1]]; [|discriminate].
    split; [exact NO|]. exists n. rewrite (gdump_spec w cfg Hcls Hsane n s v t H P). symmetry. exact E1.
  Qed.
  Lemma c56_dump_writes s v t r s' : dhistory w cfg s -> python_value w v ->
    troubled_dump w cfg s v t r s' -> dwrites w cfg s s'.
  Proof using Hcls Hsane Hpass.
    intros H P [NO [n [call [s1 [s2 [D [W1 [E W2]]]]]]]].
    pose proof (ghistory_coh w cfg s Hcls Hsane H) as C.
    assert (C1 : dcoh s1) by (eapply dwrites_coh; eassumption).
    destruct (troubled_wk n call D v t P s1 C1) as [_ [_ W]]. rewrite E in W. cbn [snd] in W.
    eapply dw_then; [exact W1|]. eapply dw_then; eassumption.
  Qed.
End DFaults.
Lemma std_pass w basic strcons cfg : is_dstd w basic strcons cfg -> passing_handlers cfg.
Proof.
  intros [E _] c f v t I. exfalso. rewrite E in I. cbn in I. repeat (destruct I as [I|I]; [discriminate|]). contradiction.
Qed.
