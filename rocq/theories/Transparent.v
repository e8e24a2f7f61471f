(** * Transparent: the outcome of a load does not depend on the caches
      (towards C10, C13-C16, C20, C36)

    Two runs of the same load, from two states with different caches, are
    compared.  The computations of the second run are families indexed by the
    recursion budget: the conclusion holds for every large enough budget. *)

From Verif Require Import Loader Spec Inv Std Sound Fuel Obs Order.

Section Transparent.
  Variable w : world.
  Variables basic strcons : list cid.
  Variable cfg : config.
  Hypothesis Hstd : is_std w basic strcons cfg.
  Hypothesis Hwr : wf_reflect w.
  Variable env : string -> option ty.
  Notation p := (pep563 cfg).
  Variable G : ty -> Prop.
  Hypothesis Gcomp : forall t t', G t -> component w p env t t' -> G t'.
  Variable warm : ty -> Prop.
  Variable Vok : value -> Prop.
  Hypothesis Vpart : forall v x, Vok v -> part v x -> Vok x.
  Local Notation exact_inst := (exact_inst w Vok).
  Local Notation simple_key := (simple_key w).
  Local Notation det_dict := (det_dict w basic Vok).

  Hypothesis Gdict : forall n kt vt, G (TGen n ODict (Some [kt; vt])) -> warm vt \/ det_dict kt vt.
  (** the members of a union are told apart by at most one key *)
  Hypothesis Gdisc : forall n args, G (TGen n OUnion (Some args)) -> plain_tags w args.

  (** the caches are coherent, the names are resolved as in [env], and the
      types in [warm] have already been used *)
  Definition settled (s : lstate) : Prop :=
    coh w cfg s /\
    (forall n, G (TForward n) ->
       exists fr t, st_frefs s = Some fr /\ str_get n fr = Some t /\ env n = Some t) /\
    (forall t, warm t -> ty_get t (st_index s) <> None).

  Lemma settled_step s s' : settled s -> good_step w cfg s s' -> settled s'.
  Proof using.
    intros [C [F W]] [GC LE]. split; [auto|]. split.
    - intros n Gn. destruct (F n Gn) as [fr [t [E1 [E2 E3]]]].
      pose proof (le_frefs _ _ LE) as L. rewrite E1 in L.
      destruct (st_frefs s') as [fr'|]; [|contradiction]. exists fr', t. auto.
    - intros t Wt. specialize (W t Wt). destruct (ty_get t (st_index s)) as [h|] eqn:E; [|congruence].
      rewrite (le_index _ _ LE _ _ E). discriminate.
  Qed.
  Lemma settled_run n h v t s : settled s -> settled (snd (run w cfg n h v t s)).
  Proof using. intro H. eapply settled_step; [exact H|apply good_run]. Qed.
  Lemma settled_index s t h :
    find_handler cfg t = POk h -> ty_get t (st_index s) = None -> settled s -> settled (set_index (cons (t, h)) s).
  Proof using.
    intros F E [C [R W]]. split; [apply coh_set_index; assumption|]. split; [exact R|].
    intros t' Wt. cbn [set_index st_index]. rewrite ty_get_cons. destruct (ty_eqb t' t); [discriminate|auto].
  Qed.
  Lemma settled_register s t : settled s -> settled (register w t s).
  Proof using.
    intro H. eapply settled_step; [exact H|]. split; [apply coh_register|apply register_le].
  Qed.

  (** ** Simulations *)
  (** Meq: same outcome; Mq: same result, or both raise; Mw: moreover the
      second may raise when the first returns *)
  Inductive mode : Type := Meq | Mq | Mw.
  Definition outcome_rel {A} (q : mode) (r1 r2 : res A) : Prop :=
    match r1, r2 with
    | Ok a, Ok b => a = b
    | Exc e, Exc e' => match q with Meq => e = e' | _ => True end
    | Ok _, Exc _ => match q with Mw => True | _ => False end
    | _, _ => False
    end.
  Definition sim {A} (q : mode) (m1 : M A) (F : nat -> M A) : Prop :=
    forall s1 s2, settled s1 -> settled s2 -> fst (m1 s1) <> OOF ->
      settled (snd (m1 s1)) /\
      exists r2 s2' N, settled s2' /\ outcome_rel q (fst (m1 s1)) r2 /\
        forall m, N <= m -> F m s2 = (r2, s2').

  Lemma sim_ret {A} q (a : A) : sim q (ret a) (fun _ => ret a).
  Proof using. intros s1 s2 H1 H2 _. split; [exact H1|]. exists (Ok a), s2, 0. repeat split; auto; apply H2. Qed.
  Lemma sim_raise {A} q e : sim q (@raise lstate A e) (fun _ => raise e).
  Proof using.
    intros s1 s2 H1 H2 _. split; [exact H1|]. exists (Exc e), s2, 0.
    split; [exact H2|]. split; [destruct q; cbn; auto|auto].
  Qed.
  Lemma sim_raise2 {A} q e e' : q <> Meq -> sim q (@raise lstate A e) (fun _ => raise e').
  Proof using.
    intros Q s1 s2 H1 H2 _. split; [exact H1|]. exists (Exc e'), s2, 0.
    split; [exact H2|]. split; [destruct q; cbn; [congruence|exact I|exact I]|auto].
  Qed.
  Lemma sim_lift {A} q (r : pyres A) : sim q (lift r) (fun _ => lift r).
  Proof using. destruct r; [apply sim_ret|apply sim_raise]. Qed.
  Lemma sim_bind {A B} q (m1 : M A) F (f1 : A -> M B) (f2 : A -> nat -> M B) :
    sim q m1 F -> (forall a, sim q (f1 a) (f2 a)) ->
    sim q (bind m1 f1) (fun m => bind (F m) (fun a => f2 a m)).
  Proof using.
    intros Hm Hf s1 s2 H1 H2 NO. unfold bind in NO |- *.
    specialize (Hm s1 s2 H1 H2).
    destruct (m1 s1) as [[a|e|] s1'] eqn:E1; cbn [fst snd] in *.
    - destruct Hm as [I1 [r2 [s2' [N [I2 [OR HN]]]]]]; [discriminate|].
      destruct r2 as [b|e2|]; cbn in OR; [subst b| |contradiction].
      + destruct (Hf a s1' s2' I1 I2 NO) as [I1' [r3 [s3 [N' [I3 [OR' HN']]]]]].
        split; [exact I1'|]. exists r3, s3, (N + N'). split; [exact I3|]. split; [exact OR'|].
        intros m L. rewrite (HN m) by lia. apply HN'. lia.
      + destruct q; try contradiction.
        split; [destruct (Hf a s1' s2' I1 I2 NO) as [I1' _]; exact I1'|].
        exists (Exc e2), s2', N. split; [exact I2|]. split.
        * destruct (fst (f1 a s1')); cbn; auto.
        * intros m L. rewrite (HN m) by lia. reflexivity.
    - destruct Hm as [I1 [r2 [s2' [N [I2 [OR HN]]]]]]; [discriminate|].
      split; [exact I1|]. destruct r2 as [b|e2|]; cbn in OR; try contradiction.
      exists (Exc e2), s2', N. split; [exact I2|]. split; [exact OR|].
      intros m L. rewrite (HN m) by lia. reflexivity.
    - congruence.
  Qed.
  Lemma sim_catch {A} (m1 : M A) F f1 f2 :
    sim Meq m1 F -> (forall e, sim Meq (f1 e) (f2 e)) ->
    sim Meq (catch m1 f1) (fun m => catch (F m) (fun e => f2 e m)).
  Proof using.
    intros Hm Hf s1 s2 H1 H2 NO. unfold catch in NO |- *.
    specialize (Hm s1 s2 H1 H2).
    destruct (m1 s1) as [[a|e|] s1'] eqn:E1; cbn [fst snd] in *.
    - destruct Hm as [I1 [r2 [s2' [N [I2 [OR HN]]]]]]; [discriminate|].
      split; [exact I1|]. destruct r2 as [b|e2|]; cbn in OR; try contradiction. subst b.
      exists (Ok a), s2', N. split; [exact I2|]. split; [reflexivity|].
      intros m L. rewrite (HN m) by lia. reflexivity.
    - destruct Hm as [I1 [r2 [s2' [N [I2 [OR HN]]]]]]; [discriminate|].
      destruct r2 as [b|e2|]; cbn in OR; try contradiction. subst e2.
      destruct (Hf e s1' s2' I1 I2 NO) as [I1' [r3 [s3 [N' [I3 [OR' HN']]]]]].
      split; [exact I1'|]. exists r3, s3, (N + N'). split; [exact I3|]. split; [exact OR'|].
      intros m L. rewrite (HN m) by lia. apply HN'. lia.
    - congruence.
  Qed.
  (** the rethrowing catch of load: up to the exception it is transparent *)
  Lemma sim_rethrow {A} q (m1 : M A) F g :
    q <> Meq -> sim q m1 F -> sim q (catch m1 (fun e => raise (g e))) F.
  Proof using.
    intros Q Hm s1 s2 H1 H2 NO. unfold catch in NO |- *. specialize (Hm s1 s2 H1 H2).
    destruct (m1 s1) as [[a|e|] s1'] eqn:E1; cbn [fst snd raise] in *; [apply Hm; discriminate| |congruence].
    destruct Hm as [I1 [r2 [s2' [N [I2 [OR HN]]]]]]; [discriminate|].
    split; [exact I1|]. exists r2, s2', N. split; [exact I2|]. split; [|exact HN].
    destruct r2; cbn in *; try contradiction. destruct q; [congruence|exact I|exact I].
  Qed.
  Lemma sim_rethrow2 {A} q (m1 : M A) F g :
    q <> Meq -> sim q m1 F -> sim q m1 (fun m => catch (F m) (fun e => raise (g e))).
  Proof using.
    intros Q Hm s1 s2 H1 H2 NO. destruct (Hm s1 s2 H1 H2 NO) as [I1 [r2 [s2' [N [I2 [OR HN]]]]]].
    split; [exact I1|].
    exists (match r2 with Exc e => Exc (g e) | x => x end), s2', N. split; [exact I2|]. split.
    - destruct (fst (m1 s1)), r2; cbn in *; auto. destruct q; [congruence|exact I|exact I].
    - intros m L. unfold catch. rewrite (HN m L). destruct r2; reflexivity.
  Qed.
  Lemma sim_attempt {A} (m1 : M A) F :
    sim Meq m1 F -> sim Meq (attempt m1) (fun m => attempt (F m)).
  Proof using.
    intros Hm s1 s2 H1 H2 NO. unfold attempt in NO |- *.
    specialize (Hm s1 s2 H1 H2).
    destruct (m1 s1) as [[a|e|] s1'] eqn:E1; cbn [fst snd] in *; try congruence.
    - destruct Hm as [I1 [r2 [s2' [N [I2 [OR HN]]]]]]; [discriminate|].
      split; [exact I1|]. destruct r2 as [b|e2|]; cbn in OR; try contradiction. subst b.
      exists (Ok (inl a)), s2', N. split; [exact I2|]. split; [reflexivity|].
      intros m L. rewrite (HN m) by lia. reflexivity.
    - destruct Hm as [I1 [r2 [s2' [N [I2 [OR HN]]]]]]; [discriminate|].
      split; [exact I1|]. destruct r2 as [b|e2|]; cbn in OR; try contradiction. subst e2.
      exists (Ok (inr e)), s2', N. split; [exact I2|]. split; [reflexivity|].
      intros m L. rewrite (HN m) by lia. reflexivity.
  Qed.
  (** [catch m (fun _ => f)] needs only agreement up to the exception *)
  Lemma sim_catch_any {A} (m1 : M A) F f1 f2 :
    sim Mq m1 F -> sim Meq f1 f2 ->
    sim Meq (catch m1 (fun _ => f1)) (fun m => catch (F m) (fun _ => f2 m)).
  Proof using.
    intros Hm Hf s1 s2 H1 H2 NO. unfold catch in NO |- *.
    specialize (Hm s1 s2 H1 H2).
    destruct (m1 s1) as [[a|e|] s1'] eqn:E1; cbn [fst snd] in *.
    - destruct Hm as [I1 [r2 [s2' [N [I2 [OR HN]]]]]]; [discriminate|].
      split; [exact I1|]. destruct r2 as [b|e2|]; cbn in OR; try contradiction. subst b.
      exists (Ok a), s2', N. split; [exact I2|]. split; [reflexivity|].
      intros m L. rewrite (HN m) by lia. reflexivity.
    - destruct Hm as [I1 [r2 [s2' [N [I2 [OR HN]]]]]]; [discriminate|].
      destruct r2 as [b|e2|]; cbn in OR; try contradiction.
      destruct (Hf s1' s2' I1 I2 NO) as [I1' [r3 [s3 [N' [I3 [OR' HN']]]]]].
      split; [exact I1'|]. exists r3, s3, (N + N'). split; [exact I3|]. split; [exact OR'|].
      intros m L. rewrite (HN m) by lia. apply HN'. lia.
    - congruence.
  Qed.
  (** a mixed form for line 396: the first run succeeds or fails on its fast
      loop, the second one has only the slow loop left, or the opposite *)
  Lemma sim_catch_w {A} (m1 : M A) F f1 f2 :
    sim Mw m1 F -> sim Mq m1 f2 -> sim Meq f1 f2 ->
    sim Meq (catch m1 (fun _ => f1)) (fun m => catch (F m) (fun _ => f2 m)).
  Proof using.
    intros Hm Hq Hf s1 s2 H1 H2 NO. unfold catch in NO |- *.
    specialize (Hm s1 s2 H1 H2).
    destruct (m1 s1) as [[a|e|] s1'] eqn:E1; cbn [fst snd] in *.
    - destruct Hm as [I1 [r2 [s2' [N [I2 [OR HN]]]]]]; [discriminate|].
      split; [exact I1|]. destruct r2 as [b|e2|]; cbn in OR; try contradiction.
      + subst b. exists (Ok a), s2', N. split; [exact I2|]. split; [reflexivity|].
        intros m L. rewrite (HN m) by lia. reflexivity.
      + specialize (Hq s1 s2' H1 I2). rewrite E1 in Hq. cbn [fst snd] in Hq.
        destruct Hq as [_ [r3 [s3 [N' [I3 [OR' HN']]]]]]; [discriminate|].
        destruct r3 as [b| |]; cbn in OR'; try contradiction. subst b.
        exists (Ok a), s3, (N + N'). split; [exact I3|]. split; [reflexivity|].
        intros m L. rewrite (HN m) by lia. apply HN'. lia.
    - destruct Hm as [I1 [r2 [s2' [N [I2 [OR HN]]]]]]; [discriminate|].
      destruct r2 as [b|e2|]; cbn in OR; try contradiction.
      destruct (Hf s1' s2' I1 I2 NO) as [I1' [r3 [s3 [N' [I3 [OR' HN']]]]]].
      split; [exact I1'|]. exists r3, s3, (N + N'). split; [exact I3|]. split; [exact OR'|].
      intros m L. rewrite (HN m) by lia. apply HN'. lia.
    - congruence.
  Qed.
  (** the fast loop of the first run gives the same as the one of the second
      when it succeeds; otherwise its slow loop [f1] decides *)
  Lemma sim_catch_slow {A} (m1 : M A) F f1 f2 :
    (forall s1 s2 a s1', settled s1 -> settled s2 -> m1 s1 = (Ok a, s1') ->
       settled s1' /\ exists s2' N, settled s2' /\ forall m, N <= m -> F m s2 = (Ok a, s2')) ->
    (forall s1, settled s1 -> settled (snd (m1 s1))) ->
    sim Mq f1 F -> sim Meq f1 f2 ->
    sim Meq (catch m1 (fun _ => f1)) (fun m => catch (F m) (fun _ => f2 m)).
  Proof using.
    intros Hm Hp Hq Hf s1 s2 H1 H2 NO. unfold catch in NO |- *.
    specialize (Hm s1 s2). specialize (Hp s1 H1).
    destruct (m1 s1) as [[a|e|] s1'] eqn:E1; cbn [fst snd] in *.
    - destruct (Hm a s1' H1 H2 eq_refl) as [I1 [s2' [N [I2 HN]]]].
      split; [exact I1|]. exists (Ok a), s2', N. split; [exact I2|]. split; [reflexivity|].
      intros m L. rewrite (HN m) by lia. reflexivity.
    - destruct (Hq s1' s2 Hp H2 NO) as [I1 [r2 [s2' [N [I2 [OR HN]]]]]].
      destruct (Hf s1' s2' Hp I2 NO) as [_ [r3 [s3 [N' [I3 [OR' HN']]]]]].
      split; [exact I1|]. destruct r2 as [b|e2|].
      + destruct (fst (f1 s1')) as [a|e'|] eqn:Ef; cbn in OR; try contradiction. subst b.
        exists (Ok a), s2', N. split; [exact I2|]. split; [reflexivity|].
        intros m L. rewrite (HN m) by lia. reflexivity.
      + exists r3, s3, (N + N'). split; [exact I3|]. split; [exact OR'|].
        intros m L. rewrite (HN m) by lia. apply HN'. lia.
      + destruct (fst (f1 s1')); cbn in OR; contradiction.
    - congruence.
  Qed.
  Lemma sim_ext {A} q (m1 : M A) F F' : (forall m s, F m s = F' m s) -> sim q m1 F -> sim q m1 F'.
  Proof using.
    intros E Hm s1 s2 H1 H2 NO. destruct (Hm s1 s2 H1 H2 NO) as [I1 [r2 [s2' [N [I2 [OR HN]]]]]].
    split; [exact I1|]. exists r2, s2', N. split; [exact I2|]. split; [exact OR|].
    intros m L. rewrite <- E. apply HN. exact L.
  Qed.
  Lemma sim_weak {A} q (m1 : M A) F : sim Meq m1 F -> sim q m1 F.
  Proof using.
    intros Hm s1 s2 H1 H2 NO. destruct (Hm s1 s2 H1 H2 NO) as [I1 [r2 [s2' [N [I2 [OR HN]]]]]].
    split; [exact I1|]. exists r2, s2', N. split; [exact I2|]. split; [|exact HN].
    destruct (fst (m1 s1)), r2; cbn in *; auto; [contradiction|]. destruct q; auto.
  Qed.

  (** looking for a handler gives [find_handler], whatever the cache holds *)
  Definition finds (L : M handler) (t : ty) (nf : rawkind -> exn) : Prop :=
    forall s, settled s -> settled (snd (L s)) /\
      fst (L s) = match find_handler cfg t with POk h => Ok h | PExc r => Exc (nf r) end.
  Lemma sim_finds {B} q (L : M handler) t nf (f1 : handler -> M B) (f2 : handler -> nat -> M B) :
    finds L t nf ->
    (forall h, find_handler cfg t = POk h -> sim q (f1 h) (f2 h)) ->
    sim q (bind L f1) (fun m => bind L (fun h => f2 h m)).
  Proof using.
    intros HL Hf s1 s2 H1 H2 NO. destruct (HL s1 H1) as [I1 E1]. destruct (HL s2 H2) as [I2 E2].
    unfold bind in NO |- *. destruct (L s1) as [r1 t1]. destruct (L s2) as [r2 t2]. cbn [fst snd] in *. subst r1 r2.
    destruct (find_handler cfg t) as [h|r].
    - apply (Hf h eq_refl); assumption.
    - split; [exact I1|]. exists (Exc (nf r)), t2, 0. split; [exact I2|]. split; [destruct q; reflexivity || exact I|auto].
  Qed.
  Lemma finds_lookup nf t : finds (lookup_handler cfg nf t) t (fun r => match r with RValue => nf | _ => XRaw r end).
  Proof using.
    intros s Hs. unfold lookup_handler. destruct (ty_get t (st_index s)) as [h|] eqn:E.
    - pose proof (coh_index _ _ _ (proj1 Hs) _ _ E) as F. rewrite F. split; [exact Hs|reflexivity].
    - destruct (find_handler cfg t) as [h|[]] eqn:F; split; auto. apply settled_index; assumption.
  Qed.
  Lemma sim_lookup_bind {B} q nf t (f1 : handler -> M B) (f2 : handler -> nat -> M B) :
    (forall h, find_handler cfg t = POk h -> sim q (f1 h) (f2 h)) ->
    sim q (bind (lookup_handler cfg nf t) f1) (fun m => bind (lookup_handler cfg nf t) (fun h => f2 h m)).
  Proof using. apply (sim_finds q _ t _ _ _ (finds_lookup nf t)). Qed.

  (** ** The handlers *)
  Variable call1 : handler -> value -> ty -> M value.
  Notation call2 := (run w cfg).
  Hypothesis Hcall : forall h v t, G t -> Vok v -> find_handler cfg t = POk h ->
      sim Meq (call1 h v t) (fun m => call2 m h v t).

  Lemma sim_load_with v t a :
    G t -> Vok v -> sim Meq (load_with w cfg call1 v t a) (fun m => load_with w cfg (call2 m) v t a).
  Proof using Hcall.
    intros Gt Vv. unfold load_with.
    apply (sim_finds Meq _ t (fun r => match r with
             | RValue => XTL KType (MCannotDeal t) [] (Some v) (Some t) [] | _ => XRaw r end) _
             (fun h m => catch (call2 m h v t)
                (fun e => if is_tl e then raise (push_trace (v, t, a) e) else raise (XRaw RAssert)))).
    - intros s Hs. destruct (ty_get t (st_index s)) as [h|] eqn:E.
      + pose proof (coh_index _ _ _ (proj1 Hs) _ _ E) as F. rewrite F. split; [exact Hs|reflexivity].
      + destruct (find_handler cfg t) as [h|[]] eqn:F; split; auto.
        apply settled_register. apply settled_index; assumption.
    - intros h F. apply (sim_catch _ _ _ (fun e _ => if is_tl e then raise (push_trace (v, t, a) e) else raise (XRaw RAssert))).
      + apply Hcall; assumption.
      + intro e. destruct (is_tl e); apply sim_raise.
  Qed.

  Hypothesis Hpres : forall h v t s, settled s -> settled (snd (call1 h v t s)).

  Lemma basicb_in t : basicb cfg t = in_classes basic t.
  Proof using Hstd. unfold basicb. destruct Hstd as [_ ->]. reflexivity. Qed.

  (** calling the handler, or calling load: same up to the trace *)
  Lemma sim_call_load h v t a :
    G t -> Vok v -> find_handler cfg t = POk h ->
    sim Mq (call1 h v t) (fun m => load_with w cfg (call2 m) v t a).
  Proof using Hcall.
    intros Gt Vv F s1 s2 H1 H2 NO.
    assert (I2 : exists s2', settled s2' /\ forall c, load_with w cfg c v t a s2 =
       catch (c h v t) (fun e => if is_tl e then raise (push_trace (v, t, a) e) else raise (XRaw RAssert)) s2').
    { unfold load_with, bind. destruct (ty_get t (st_index s2)) as [h'|] eqn:E.
      - pose proof (coh_index _ _ _ (proj1 H2) _ _ E) as F'. assert (h' = h) by congruence. subst h'. eauto.
      - rewrite F. eexists. split; [|reflexivity]. apply settled_register. apply settled_index; assumption. }
    destruct I2 as [s2' [I2 E2]].
    destruct (Hcall h v t Gt Vv F s1 s2' H1 I2 NO) as [I1 [r2 [s3 [N [I3 [OR HN]]]]]].
    split; [exact I1|].
    exists (wrap v t a r2), s3, N. split; [exact I3|]. split.
    - destruct (fst (call1 h v t s1)) as [a1|e1|], r2 as [a2|e2|]; cbn in *; auto; try contradiction.
      destruct (is_tl e2); cbn; exact I.
    - intros m L. rewrite E2. unfold catch. rewrite (HN m L). destruct r2; cbn [wrap]; try reflexivity.
      destruct (is_tl e); reflexivity.
  Qed.
  Lemma sim_load_call h v t a :
    G t -> Vok v -> find_handler cfg t = POk h ->
    sim Mq (load_with w cfg call1 v t a) (fun m => call2 m h v t).
  Proof using Hcall.
    intros Gt Vv F s1 s2 H1 H2 NO.
    assert (I1 : exists s1', settled s1' /\ forall c, load_with w cfg c v t a s1 =
       catch (c h v t) (fun e => if is_tl e then raise (push_trace (v, t, a) e) else raise (XRaw RAssert)) s1').
    { unfold load_with, bind. destruct (ty_get t (st_index s1)) as [h'|] eqn:E.
      - pose proof (coh_index _ _ _ (proj1 H1) _ _ E) as F'. assert (h' = h) by congruence. subst h'. eauto.
      - rewrite F. eexists. split; [|reflexivity]. apply settled_register. apply settled_index; assumption. }
    destruct I1 as [s1' [I1 E1]]. rewrite E1 in NO |- *.
    assert (X : sim Mq (catch (call1 h v t) (fun e => raise (if is_tl e then push_trace (v, t, a) e else XRaw RAssert)))
                       (fun m => call2 m h v t)).
    { apply sim_rethrow; [discriminate|]. apply sim_weak. apply Hcall; assumption. }
    assert (E : forall s, catch (call1 h v t) (fun e => raise (if is_tl e then push_trace (v, t, a) e else XRaw RAssert)) s =
       catch (call1 h v t) (fun e => if is_tl e then raise (push_trace (v, t, a) e) else raise (XRaw RAssert)) s).
    { intro s. unfold catch. destruct (call1 h v t s) as [[]]; try reflexivity. destruct (is_tl e); reflexivity. }
    rewrite <- E in NO |- *. apply X; assumption.
  Qed.

  (** an exact instance of a basic type *)
  Lemma find_basic' t : in_classes basic t = true -> t <> TClass CNone -> find_handler cfg t = POk HBasic.
  Proof using Hstd.
    intros B N. rewrite (find_std w basic strcons) by exact Hstd. unfold chain.
    destruct (is_nonetype t) eqn:E; [apply ty_eqb_eq in E; congruence|].
    destruct t; try discriminate. cbn [is_union]. rewrite B. reflexivity.
  Qed.
  Lemma run_basic_exact m v t s : TClass (type_of v) = t -> run w cfg (S m) HBasic v t s = (Ok v, s).
  Proof using. intros <-. cbn [run body]. unfold basicload, exact. rewrite ty_eqb_refl. reflexivity. Qed.

  Definition fastkv (call : handler -> value -> ty -> M value) (h : handler) (t : ty) (x : value) : M value :=
    if basicb cfg t && isinst w x t then ret x else call h x t.

  Lemma sim_fast_slow h t x a :
    G t -> Vok x -> find_handler cfg t = POk h ->
    (in_classes basic t = true -> t <> TClass CNone /\ exact_inst t) ->
    sim Mq (fastkv call1 h t x) (fun m => load_with w cfg (call2 m) x t a).
  Proof using Hstd Hcall.
    intros Gt Vx F Ex. unfold fastkv. destruct (basicb cfg t && isinst w x t) eqn:E.
    2: { apply sim_call_load; assumption. }
    apply andb_prop in E as [B E]. rewrite basicb_in in B. destruct (Ex B) as [NN EX].
    assert (h = HBasic) by (rewrite (find_basic' t B NN) in F; congruence). subst h.
    specialize (EX x Vx E).
    intros s1 s2 H1 H2 _. split; [exact H1|].
    assert (I2 : exists s2', settled s2' /\ forall c, load_with w cfg c x t a s2 =
       catch (c HBasic x t) (fun e => if is_tl e then raise (push_trace (x, t, a) e) else raise (XRaw RAssert)) s2').
    { unfold load_with, bind. destruct (ty_get t (st_index s2)) as [h'|] eqn:E'.
      - pose proof (coh_index _ _ _ (proj1 H2) _ _ E') as F'. assert (h' = HBasic) by congruence. subst h'. eauto.
      - rewrite F. eexists. split; [|reflexivity]. apply settled_register. apply settled_index; assumption. }
    destruct I2 as [s2' [I2 E2]]. exists (Ok x), s2', 1. split; [exact I2|]. split; [reflexivity|].
    intros [|m] L; [lia|]. rewrite E2. unfold catch. rewrite run_basic_exact by exact EX. reflexivity.
  Qed.
  Lemma sim_slow_fast h t x a :
    G t -> Vok x -> find_handler cfg t = POk h ->
    (in_classes basic t = true -> t <> TClass CNone /\ exact_inst t) ->
    sim Mq (load_with w cfg call1 x t a) (fun m => fastkv (call2 m) h t x).
  Proof using Hstd Hcall.
    intros Gt Vx F Ex. unfold fastkv. destruct (basicb cfg t && isinst w x t) eqn:E.
    2: { apply sim_load_call; assumption. }
    apply andb_prop in E as [B E]. rewrite basicb_in in B. destruct (Ex B) as [NN EX].
    assert (h = HBasic) by (rewrite (find_basic' t B NN) in F; congruence). subst h.
    specialize (EX x Vx E).
    pose proof (sim_load_call HBasic x t a Gt Vx F) as X.
    intros s1 s2 H1 H2 NO. destruct (X s1 s2 H1 H2 NO) as [I1 [r2 [s3 [N [I3 [OR HN]]]]]].
    split; [exact I1|]. exists (Ok x), s2, 0. split; [exact H2|]. split; [|auto].
    specialize (HN (S N) ltac:(lia)). rewrite run_basic_exact in HN by exact EX.
    injection HN as <- <-. exact OR.
  Qed.
  Lemma sim_fast_fast h t x :
    G t -> Vok x -> find_handler cfg t = POk h -> sim Meq (fastkv call1 h t x) (fun m => fastkv (call2 m) h t x).
  Proof using Hcall.
    intros Gt Vx F. unfold fastkv. destruct (basicb cfg t && isinst w x t); [apply sim_ret|apply Hcall; assumption].
  Qed.

  (** the loops on the items of a dictionary *)
  Fixpoint kv_loop (fk fv : value -> M value) (d acc : list (value * value)) : M value :=
    match d with
    | [] => ret (VDict acc)
    | (k, x) :: d' =>
        k' <- fk k ;;
        x' <- fv x ;;
        if hashable w k' then kv_loop fk fv d' (dict_set k' x' acc) else raise (XRaw RType)
    end.
  Definition fastv (call : handler -> value -> ty -> M value) (vf : option handler) (t : ty) (x : value) : M value :=
    if basicb cfg t && isinst w x t then ret x
    else match vf with Some h => call h x t | None => raise (XRaw RName) end.
  Lemma dict_fast_kv call kt vt kf vf d acc s :
    dict_fast w cfg call kt vt kf vf d acc s = kv_loop (fastkv call kf kt) (fastv call vf vt) d acc s.
  Proof using.
    revert acc s. induction d as [|[k x] d IH]; intros acc s; cbn [dict_fast kv_loop]; [reflexivity|].
    change (if basicb cfg kt && isinst w k kt then ret k else call kf k kt) with (fastkv call kf kt k).
    unfold bind at 1 3. destruct (fastkv call kf kt k s) as [[k'|e|] s1]; try reflexivity.
    change (if basicb cfg vt && isinst w x vt then ret x
            else match vf with Some h => call h x vt | None => raise (XRaw RName) end) with (fastv call vf vt x).
    unfold bind. destruct (fastv call vf vt x s1) as [[x'|e|] s2]; try reflexivity.
    destruct (hashable w k'); [apply IH|reflexivity].
  Qed.
  Lemma dict_slow_kv call kt vt d acc s :
    dict_slow w cfg call kt vt d acc s
    = kv_loop (fun k => load_with w cfg call k kt (Some (AnKey k)))
              (fun x => load_with w cfg call x vt (Some (AnValue x))) d acc s.
  Proof using.
    revert acc s. induction d as [|[k x] d IH]; intros acc s; cbn [dict_slow kv_loop]; [reflexivity|].
    unfold bind at 1 3. destruct (load_with w cfg call k kt (Some (AnKey k)) s) as [[k'|e|] s1]; try reflexivity.
    unfold bind. destruct (load_with w cfg call x vt (Some (AnValue x)) s1) as [[x'|e|] s2]; try reflexivity.
    destruct (hashable w k'); [apply IH|reflexivity].
  Qed.
  Lemma sim_kv q fk1 fv1 (fk2 fv2 : nat -> value -> M value) d acc :
    (forall k x, In (k, x) d -> sim q (fk1 k) (fun m => fk2 m k)) ->
    (forall k x, In (k, x) d -> sim q (fv1 x) (fun m => fv2 m x)) ->
    sim q (kv_loop fk1 fv1 d acc) (fun m => kv_loop (fk2 m) (fv2 m) d acc).
  Proof using.
    revert acc. induction d as [|[k x] d IH]; intros acc Hk Hv; cbn [kv_loop]; [apply sim_ret|].
    apply (sim_bind q _ (fun m => fk2 m k) _ (fun k' m => x' <- fv2 m x ;;
       if hashable w k' then kv_loop (fk2 m) (fv2 m) d (dict_set k' x' acc) else raise (XRaw RType))).
    { eapply Hk. left. reflexivity. }
    intro k'. apply (sim_bind q _ (fun m => fv2 m x) _ (fun x' m =>
       if hashable w k' then kv_loop (fk2 m) (fv2 m) d (dict_set k' x' acc) else raise (XRaw RType))).
    { eapply Hv. left. reflexivity. }
    intro x'. destruct (hashable w k'); [|apply sim_raise].
    apply IH; intros; [eapply Hk|eapply Hv]; right; eassumption.
  Qed.

  (** if the first returns, the second returns the same *)
  Definition osim {A} (m1 : M A) (F : nat -> M A) : Prop :=
    forall s1 s2 a s1', settled s1 -> settled s2 -> m1 s1 = (Ok a, s1') ->
      settled s1' /\ exists s2' N, settled s2' /\ forall m, N <= m -> F m s2 = (Ok a, s2').
  Lemma sim_osim {A} q (m1 : M A) F : q <> Mw -> sim q m1 F -> osim m1 F.
  Proof using.
    intros Q H s1 s2 a s1' H1 H2 E. specialize (H s1 s2 H1 H2). rewrite E in H. cbn [fst snd] in H.
    destruct H as [I1 [r2 [s2' [N [I2 [OR HN]]]]]]; [discriminate|]. split; [exact I1|].
    destruct r2; cbn in OR; try contradiction.
    - subst. eauto.
    - destruct q; try contradiction.
  Qed.
  Lemma osim_bind {A B} (m1 : M A) F (f1 : A -> M B) f2 :
    osim m1 F -> (forall a, osim (f1 a) (f2 a)) -> osim (bind m1 f1) (fun m => bind (F m) (fun a => f2 a m)).
  Proof using.
    intros Hm Hf s1 s2 b s1'' H1 H2 E. unfold bind in E |- *.
    destruct (m1 s1) as [[a|e|] s1'] eqn:E1; try discriminate.
    destruct (Hm s1 s2 a s1' H1 H2 E1) as [I1 [s2' [N [I2 HN]]]].
    destruct (Hf a s1' s2' b s1'' I1 I2 E) as [I1' [s3 [N' [I3 HN']]]].
    split; [exact I1'|]. exists s3, (N + N'). split; [exact I3|].
    intros m L. rewrite (HN m) by lia. apply HN'. lia.
  Qed.
  Lemma osim_kv fk1 fv1 (fk2 fv2 : nat -> value -> M value) d acc :
    (forall k x, In (k, x) d -> osim (fk1 k) (fun m => fk2 m k)) ->
    (forall k x, In (k, x) d -> osim (fv1 x) (fun m => fv2 m x)) ->
    osim (kv_loop fk1 fv1 d acc) (fun m => kv_loop (fk2 m) (fv2 m) d acc).
  Proof using.
    revert acc. induction d as [|[k x] d IH]; intros acc Hk Hv; cbn [kv_loop].
    { eapply sim_osim with (q := Meq); [discriminate|apply sim_ret]. }
    apply (osim_bind _ (fun m => fk2 m k) _ (fun k' m => x' <- fv2 m x ;;
       if hashable w k' then kv_loop (fk2 m) (fv2 m) d (dict_set k' x' acc) else raise (XRaw RType))).
    { eapply Hk. left. reflexivity. }
    intro k'. apply (osim_bind _ (fun m => fv2 m x) _ (fun x' m =>
       if hashable w k' then kv_loop (fk2 m) (fv2 m) d (dict_set k' x' acc) else raise (XRaw RType))).
    { eapply Hv. left. reflexivity. }
    intro x'. destruct (hashable w k'); [|eapply sim_osim with (q := Meq); [discriminate|apply sim_raise]].
    apply IH; intros; [eapply Hk|eapply Hv]; right; eassumption.
  Qed.
  Lemma pres_kv fk fv d acc s :
    (forall k s, settled s -> settled (snd (fk k s))) -> (forall x s, settled s -> settled (snd (fv x s))) ->
    settled s -> settled (snd (kv_loop fk fv d acc s)).
  Proof using.
    intros Hk Hv. revert acc s. induction d as [|[k x] d IH]; intros acc s Hs; cbn [kv_loop]; [exact Hs|].
    unfold bind. specialize (Hk k s Hs). destruct (fk k s) as [[k'|e|] s1]; cbn [snd] in *; auto.
    specialize (Hv x s1 Hk). destruct (fv x s1) as [[x'|e|] s2]; cbn [snd] in *; auto.
    destruct (hashable w k'); [apply IH; exact Hv|exact Hv].
  Qed.
  Lemma pres_fastkv h t x s : settled s -> settled (snd (fastkv call1 h t x s)).
  Proof using Hpres. unfold fastkv. destruct (_ && _); [auto|apply Hpres]. Qed.
  Lemma pres_fastv vf t x s : settled s -> settled (snd (fastv call1 vf t x s)).
  Proof using Hpres. unfold fastv. destruct (_ && _); [auto|]. destruct vf; [apply Hpres|auto]. Qed.

  (** a handler applied to a simple key type does not call other handlers *)
  Lemma kind_none c : kind_of_class w c = None ->
    ci_nt (class_of w c) = None /\ ci_dc (class_of w c) = None /\
    ci_attrs (class_of w c) = None /\ ci_td (class_of w c) = None.
  Proof using.
    unfold kind_of_class. destruct (ci_nt (class_of w c)), (ci_dc (class_of w c)),
      (ci_attrs (class_of w c)), (ci_td (class_of w c)); try discriminate. auto.
  Qed.
  Ltac stops :=
    repeat match goal with
           | |- context [match ?x with _ => _ end] => destruct x; try discriminate
           end; try discriminate.
  Lemma simple_key_stops call h k kt s :
    (forall f, h <> HCustom f) -> simple_key kt -> coh w cfg s -> fst (body w cfg call h k kt s) <> OOF.
  Proof using.
    intros NC SK C.
    assert (NG : ty_args kt = None) by (destruct kt; try contradiction SK; reflexivity).
    destruct h; cbn [body]; try (exfalso; eapply NC; reflexivity); try discriminate.
    - unfold noneload. stops.
    - unfold unionload. rewrite NG. discriminate.
    - unfold basicload. stops.
    - unfold enumload. destruct (call_type w kt k); [discriminate|]. destruct kt; try discriminate.
      destruct SK as [_ HN]. unfold bind, lift. destruct (ci_hints (class_of w c)) as [l|r0]; [|discriminate].
      rewrite (HN l eq_refl). discriminate.
    - unfold tupleload. rewrite NG. discriminate.
    - unfold iterload. rewrite NG. stops.
    - unfold dictload. rewrite NG. discriminate.
    - unfold iterload. rewrite NG. stops.
    - unfold iterload. rewrite NG. stops.
    - unfold namedtupleload. destruct kt; try discriminate. destruct SK as [K _].
      apply kind_none in K. destruct K as [-> _]. discriminate.
    - unfold dataclassload, bind. destruct (ty_get kt (st_fields s)) as [oi|] eqn:E.
      + destruct (coh_fields _ _ _ C _ _ E) as [c [fs [-> [D _]]]]. destruct SK as [K _].
        apply kind_none in K. destruct K as [_ [K _]]. congruence.
      + destruct kt; try discriminate. destruct SK as [K _].
        apply kind_none in K. destruct K as [_ [-> _]]. discriminate.
    - unfold forwardrefload, bind, get_st. cbn. destruct (st_frefs s); [|discriminate].
      destruct kt; try discriminate. contradiction SK.
    - unfold literalload. stops.
    - unfold typeddictload. destruct kt; try discriminate. destruct SK as [K _].
      apply kind_none in K. destruct K as [_ [_ [_ ->]]]. discriminate.
    - unfold datetimeload. destruct kt; try discriminate.
      match goal with |- context [match ?x with POk _ => _ | _ => _ end] => destruct x as [?|[]]; discriminate end.
    - unfold patternload. stops.
    - unfold timedeltaload. stops.
    - unfold strconsload. stops.
    - unfold attrload. destruct kt; try discriminate. destruct SK as [K _].
      apply kind_none in K. destruct K as [_ [_ [-> _]]]. discriminate.
    - unfold newtypeload. destruct kt; try discriminate. contradiction SK.
  Qed.

  Lemma sim_always_exc {A} q (m1 : M A) F :
    q = Mw \/ (q = Mq /\ forall s, settled s -> fst (m1 s) <> OOF -> exists e, fst (m1 s) = Exc e) ->
    (forall s, settled s -> settled (snd (m1 s))) ->
    (forall s2, settled s2 -> exists e s2' N, settled s2' /\ forall m, N <= m -> F m s2 = (Exc e, s2')) ->
    sim q m1 F.
  Proof using.
    intros Q P H s1 s2 H1 H2 NO. split; [auto|]. destruct (H s2 H2) as [e [s2' [N [I2 HN]]]].
    exists (Exc e), s2', N. split; [exact I2|]. split; [|exact HN].
    destruct Q as [->|[-> E]].
    - destruct (fst (m1 s1)); cbn; auto.
    - destruct (E s1 H1 NO) as [e' ->]. exact I.
  Qed.

  Lemma fw_raises kt vt vh k x d acc s2 :
    (forall f, vh <> HCustom f) -> simple_key kt -> in_classes basic vt = false -> settled s2 ->
    exists e s2' N, settled s2' /\ forall m, N <= m ->
      kv_loop (fastkv (call2 m) vh kt) (fastv (call2 m) None vt) ((k, x) :: d) acc s2 = (Exc e, s2').
  Proof using Hstd.
    intros NC SK NB H2. cbn [kv_loop].
    assert (FV : forall m x, fastv (call2 m) None vt x = raise (XRaw RName)).
    { intros m y. unfold fastv. rewrite basicb_in, NB. reflexivity. }
    destruct (basicb cfg kt && isinst w k kt) eqn:E.
    - exists (XRaw RName), s2, 0. split; [exact H2|]. intros m _. unfold fastkv. rewrite E, FV. reflexivity.
    - pose proof (simple_key_stops (run w cfg 0) vh k kt s2 NC SK (proj1 H2)) as NO.
      change (body w cfg (run w cfg 0) vh k kt) with (run w cfg 1 vh k kt) in NO.
      assert (K : forall m, 1 <= m -> run w cfg m vh k kt s2 = run w cfg 1 vh k kt s2).
      { intros m L. destruct (run_mono w cfg 1 m vh k kt L s2) as [O|O]; [contradiction|symmetry; exact O]. }
      pose proof (settled_run 1 vh k kt s2 H2) as S1.
      destruct (run w cfg 1 vh k kt s2) as [[k'|e|] s3] eqn:R; cbn [fst snd] in *; [| |congruence].
      + exists (XRaw RName), s3, 1. split; [exact S1|]. intros m L. unfold fastkv. rewrite E.
        unfold bind. rewrite (K m L), FV. reflexivity.
      + exists e, s3, 1. split; [exact S1|]. intros m L. unfold fastkv. rewrite E.
        unfold bind. rewrite (K m L). reflexivity.
  Qed.

  Lemma fw_never kt vt vh k x d acc s :
    in_classes basic vt = false -> settled s ->
    fst (kv_loop (fastkv call1 vh kt) (fastv call1 None vt) ((k, x) :: d) acc s) <> OOF ->
    exists e, fst (kv_loop (fastkv call1 vh kt) (fastv call1 None vt) ((k, x) :: d) acc s) = Exc e.
  Proof using Hstd.
    intros NB Hs. cbn [kv_loop]. unfold bind. destruct (fastkv call1 vh kt k s) as [[k'|e|] s1]; cbn; eauto; [|congruence].
    unfold fastv. rewrite basicb_in, NB. cbn. eauto.
  Qed.

  Lemma pres_load_with v t a s : settled s -> settled (snd (load_with w cfg call1 v t a s)).
  Proof using Hpres.
    intro Hs. unfold load_with, bind. destruct (ty_get t (st_index s)) as [h|] eqn:E.
    - unfold catch. specialize (Hpres h v t s Hs). destruct (call1 h v t s) as [[r|e|] s1]; cbn in *; auto.
      destruct (is_tl e); exact Hpres.
    - destruct (find_handler cfg t) as [h|[]] eqn:F; auto.
      assert (S1 : settled (register w t (set_index (cons (t, h)) s))).
      { apply settled_register. apply settled_index; assumption. }
      unfold catch. specialize (Hpres h v t _ S1).
      destruct (call1 h v t (register w t (set_index (cons (t, h)) s))) as [[r|e|] s1]; cbn in *; auto.
      destruct (is_tl e); exact Hpres.
  Qed.

  Lemma dict_cases v' : (exists d, v' = VDict d) \/
    (forall (f : list (value * value) -> M value),
      match v' with VDict d => f d | _ => raise (XRaw RAttr) end = raise (XRaw RAttr)).
  Proof using. destruct v'; eauto. Qed.
  Definition dfast (call : handler -> value -> ty -> M value) kt vt kf vf (v' : value) : M value :=
    match v' with VDict d => dict_fast w cfg call kt vt kf vf d [] | _ => raise (XRaw RAttr) end.
  Definition dslow0 (call : handler -> value -> ty -> M value) kt vt (v' : value) : M value :=
    match v' with VDict d => dict_slow w cfg call kt vt d [] | _ => raise (XRaw RAttr) end.
  Definition dconv (v' : value) (t : ty) (e : exn) : exn :=
    match e with
    | XRaw RAttr => XTL KAttr (MPy RAttr) [] (Some v') (Some t) []
    | XTL KAttr m _ _ _ _ => XTL KAttr (MNested m) [] (Some v') (Some t) []
    | _ => e
    end.
  Definition dslow call kt vt v' t : M value := catch (dslow0 call kt vt v') (fun e => raise (dconv v' t e)).
  Definition dcont call kt vt kf vf v' t : M value := catch (dfast call kt vt kf vf v') (fun _ => dslow call kt vt v' t).

  Section Dict.
    Variables (n0 : bool) (kt vt : ty) (kh vh : handler) (v' : value) (t : ty).
    Hypothesis Gt : G (TGen n0 ODict (Some [kt; vt])).
    Hypothesis Fk : find_handler cfg kt = POk kh.
    Hypothesis Fv : find_handler cfg vt = POk vh.
    Hypothesis Vv : forall d k x, v' = VDict d -> In (k, x) d -> Vok k /\ Vok x.

    Lemma Gk : G kt. Proof using Gcomp Gt. eapply Gcomp; [exact Gt|]. left. reflexivity. Qed.
    Lemma Gv : G vt. Proof using Gcomp Gt. eapply Gcomp; [exact Gt|]. right. left. reflexivity. Qed.
    Lemma vh_std f : vh <> HCustom f.
    Proof using Hstd Fv. intros ->. apply (std_selected w basic strcons _ _ _ Hstd) in Fv. exact Fv. Qed.

    Lemma sim_dslow : sim Meq (dslow call1 kt vt v' t) (fun m => dslow (call2 m) kt vt v' t).
    Proof using Vv Gt Gcomp Hcall.
      apply (sim_catch _ _ _ (fun e _ => raise (dconv v' t e))); [|intro e; apply sim_raise].
      unfold dslow0. destruct (dict_cases v') as [[d V]|V]; [rewrite V|rewrite V; apply (sim_ext _ _ (fun _ => raise (XRaw RAttr))); [intros m s; rewrite V; reflexivity|apply sim_raise]].
      eapply sim_ext. { intros m s. symmetry. apply dict_slow_kv. }
      intros s1 s2. rewrite dict_slow_kv.
      apply (sim_kv Meq _ _ (fun m k => load_with w cfg (call2 m) k kt (Some (AnKey k)))
                            (fun m x => load_with w cfg (call2 m) x vt (Some (AnValue x)))); intros k x H; apply sim_load_with.
      - exact Gk.
      - first [exact (proj1 (Vv _ _ _ V H)) | exact (proj2 (Vv _ _ _ V H))].
      - exact Gv.
      - first [exact (proj1 (Vv _ _ _ V H)) | exact (proj2 (Vv _ _ _ V H))].
    Qed.

    Lemma sim_RR : sim Meq (dcont call1 kt vt kh (Some vh) v' t) (fun m => dcont (call2 m) kt vt kh (Some vh) v' t).
    Proof using Vv Gt Gcomp Hcall Fk Fv.
      apply sim_catch_any; [|apply sim_dslow]. unfold dfast.
      destruct (dict_cases v') as [[d V]|V]; [rewrite V|rewrite V; apply (sim_ext _ _ (fun _ => raise (XRaw RAttr))); [intros m s; rewrite V; reflexivity|apply sim_raise]].
      eapply sim_ext. { intros m s. symmetry. apply dict_fast_kv. }
      intros s1 s2. rewrite dict_fast_kv.
      apply (sim_kv Mq _ _ (fun m => fastkv (call2 m) kh kt) (fun m => fastv (call2 m) (Some vh) vt)); intros k x H;
        apply sim_weak.
      - apply sim_fast_fast; [exact Gk|first [exact (proj1 (Vv _ _ _ V H)) | exact (proj2 (Vv _ _ _ V H))]|exact Fk].
      - apply (sim_fast_fast vh vt x); [exact Gv|first [exact (proj1 (Vv _ _ _ V H)) | exact (proj2 (Vv _ _ _ V H))]|exact Fv].
    Qed.

    Hypothesis Dd : det_dict kt vt.

    Lemma basic_handlers : in_classes basic vt = false \/
        (kh = HBasic /\ vh = HBasic /\ exact_inst vt /\ vt <> TClass CNone).
    Proof using Dd Fk Fv Hstd.
      destruct Dd as [_ [D1 [D2|[D2 [D3 D4]]]]]; [left; exact D2|].
      destruct (in_classes basic vt) eqn:B; [right|left; reflexivity].
      destruct (D1 D4) as [NN _].
      rewrite (find_basic' kt D4 NN) in Fk. rewrite (find_basic' vt B D2) in Fv.
      repeat split; auto; congruence.
    Qed.

    Lemma sim_WW : sim Meq (dcont call1 kt vt vh None v' t) (fun m => dcont (call2 m) kt vt vh None v' t).
    Proof using Vv Gt Gcomp Hcall Hpres Fk Fv Dd Hstd.
      apply sim_catch_any; [|apply sim_dslow]. unfold dfast.
      destruct (dict_cases v') as [[d V]|V]; [rewrite V|rewrite V; apply (sim_ext _ _ (fun _ => raise (XRaw RAttr))); [intros m s; rewrite V; reflexivity|apply sim_raise]].
      eapply sim_ext. { intros m s. symmetry. apply dict_fast_kv. }
      intros s1 s2. rewrite dict_fast_kv. revert s1 s2.
      destruct basic_handlers as [NB|[-> [-> [_ _]]]].
      - destruct d as [|[k x] d]; [apply sim_ret|].
        apply sim_always_exc.
        + right. split; [reflexivity|]. intros s Hs. apply fw_never; assumption.
        + intros s Hs. apply pres_kv; auto using pres_fastkv, pres_fastv.
        + intros s2 H2. apply fw_raises; auto. { exact vh_std. } apply Dd.
      - apply (sim_kv Mq _ _ (fun m => fastkv (call2 m) HBasic kt) (fun m => fastv (call2 m) None vt)); intros k x H;
          apply sim_weak.
        + apply sim_fast_fast; [exact Gk|first [exact (proj1 (Vv _ _ _ V H)) | exact (proj2 (Vv _ _ _ V H))]|exact Fk].
        + unfold fastv. destruct (_ && _); [apply sim_ret|apply sim_raise].
    Qed.

    Lemma sim_fast_to_slow d : v' = VDict d ->
      sim Mq (kv_loop (fastkv call1 kh kt) (fastv call1 (Some vh) vt) d [])
             (fun m => dslow (call2 m) kt vt v' t).
    Proof using Vv Gt Gcomp Hcall Hstd Fk Fv Dd.
      intro V. unfold dslow. apply sim_rethrow2; [discriminate|]. rewrite V. unfold dslow0.
      eapply sim_ext. { intros m s. symmetry. apply dict_slow_kv. }
      apply (sim_kv Mq _ _ (fun m k => load_with w cfg (call2 m) k kt (Some (AnKey k)))
                            (fun m x => load_with w cfg (call2 m) x vt (Some (AnValue x)))); intros k x H.
      - apply sim_fast_slow; [exact Gk|first [exact (proj1 (Vv _ _ _ V H)) | exact (proj2 (Vv _ _ _ V H))]|exact Fk|apply Dd].
      - apply (sim_fast_slow vh vt x); [exact Gv|first [exact (proj1 (Vv _ _ _ V H)) | exact (proj2 (Vv _ _ _ V H))]|exact Fv|].
        intro B. destruct basic_handlers as [NB|[_ [_ [EI NN]]]]; [congruence|auto].
    Qed.

    Lemma sim_RW : sim Meq (dcont call1 kt vt kh (Some vh) v' t) (fun m => dcont (call2 m) kt vt vh None v' t).
    Proof using Vv Gt Gcomp Hcall Hpres Fk Fv Dd Hstd.
      destruct (dict_cases v') as [[d V]|V].
      2: { apply sim_catch_any; [|apply sim_dslow]. unfold dfast. rewrite V.
           apply (sim_ext _ _ (fun _ => raise (XRaw RAttr))); [intros m s; rewrite V; reflexivity|apply sim_raise]. }
      apply sim_catch_w; [| |apply sim_dslow].
      - unfold dfast. rewrite V.
        eapply sim_ext. { intros m s. symmetry. apply dict_fast_kv. }
        intros s1 s2. rewrite dict_fast_kv. revert s1 s2.
        destruct basic_handlers as [NB|[-> [-> [EI NN]]]].
        + destruct d as [|[k x] d]; [apply sim_ret|].
          apply sim_always_exc.
          * left. reflexivity.
          * intros s Hs. apply pres_kv; auto using pres_fastkv, pres_fastv.
          * intros s2 H2. apply fw_raises; auto. { exact vh_std. } apply Dd.
        + apply (sim_kv Mw _ _ (fun m => fastkv (call2 m) HBasic kt) (fun m => fastv (call2 m) None vt)); intros k x H.
          * apply sim_weak. apply sim_fast_fast; [exact Gk|first [exact (proj1 (Vv _ _ _ V H)) | exact (proj2 (Vv _ _ _ V H))]|exact Fk].
          * unfold fastv. destruct (_ && _); [apply sim_ret|].
            apply sim_always_exc; [left; reflexivity|intros; apply Hpres; assumption|].
            intros s2 H2. exists (XRaw RName), s2, 0. split; [exact H2|reflexivity].
      - unfold dfast. rewrite V at 1. intros s1 s2. rewrite dict_fast_kv. apply sim_fast_to_slow. exact V.
    Qed.

    Lemma sim_WR : sim Meq (dcont call1 kt vt vh None v' t) (fun m => dcont (call2 m) kt vt kh (Some vh) v' t).
    Proof using Vv Gt Gcomp Hcall Hpres Fk Fv Dd Hstd.
      destruct (dict_cases v') as [[d V]|V].
      2: { apply sim_catch_any; [|apply sim_dslow]. unfold dfast. rewrite V.
           apply (sim_ext _ _ (fun _ => raise (XRaw RAttr))); [intros m s; rewrite V; reflexivity|apply sim_raise]. }
      apply sim_catch_slow; [| | |apply sim_dslow].
      - unfold dfast. rewrite V.
        assert (X : osim (kv_loop (fastkv call1 vh kt) (fastv call1 None vt) d [])
                         (fun m => kv_loop (fastkv (call2 m) kh kt) (fastv (call2 m) (Some vh) vt) d [])).
        { destruct basic_handlers as [NB|[-> [-> [EI NN]]]].
          + destruct d as [|[k x] d]; [eapply sim_osim with (q := Meq); [discriminate|apply sim_ret]|].
            intros s1 s2 a s1' H1 H2 E. exfalso.
            destruct (fw_never kt vt vh k x d [] s1 NB H1) as [e E']; rewrite E in *; discriminate.
          + apply (osim_kv _ _ (fun m => fastkv (call2 m) HBasic kt) (fun m => fastv (call2 m) (Some HBasic) vt)); intros k x H.
            * eapply sim_osim with (q := Meq); [discriminate|].
              apply sim_fast_fast; [exact Gk|first [exact (proj1 (Vv _ _ _ V H)) | exact (proj2 (Vv _ _ _ V H))]|exact Fk].
            * unfold fastv. destruct (_ && _).
              -- eapply sim_osim with (q := Meq); [discriminate|apply sim_ret].
              -- intros s1 s2 a s1' _ _ E. discriminate. }
        intros s1 s2 a s1' H1 H2 E. rewrite dict_fast_kv in E.
        destruct (X s1 s2 a s1' H1 H2 E) as [I1 [s2' [N [I2 HN]]]].
        split; [exact I1|]. exists s2', N. split; [exact I2|]. intros m L. rewrite dict_fast_kv. apply HN. exact L.
      - intros s1 H1. unfold dfast. rewrite V. rewrite dict_fast_kv.
        apply pres_kv; auto using pres_fastkv, pres_fastv.
      - unfold dslow. apply sim_rethrow; [discriminate|]. unfold dslow0, dfast. rewrite V.
        eapply sim_ext. { intros m s. symmetry. apply dict_fast_kv. }
        intros s1 s2. rewrite dict_slow_kv. revert s1 s2.
        apply (sim_kv Mq _ _ (fun m => fastkv (call2 m) kh kt) (fun m => fastv (call2 m) (Some vh) vt)); intros k x H.
        + apply sim_slow_fast; [exact Gk|first [exact (proj1 (Vv _ _ _ V H)) | exact (proj2 (Vv _ _ _ V H))]|exact Fk|apply Dd].
        + apply (sim_slow_fast vh vt x); [exact Gv|first [exact (proj1 (Vv _ _ _ V H)) | exact (proj2 (Vv _ _ _ V H))]|exact Fv|].
          intro B. destruct basic_handlers as [NB|[_ [_ [EI NN]]]]; [congruence|auto].
    Qed.
  End Dict.

  Lemma Vok_items v d k x : Vok v -> as_dict cfg v = VDict d -> In (k, x) d -> Vok k /\ Vok x.
  Proof using Vpart.
    intros Vv E H. destruct v; cbn in E; try discriminate.
    - injection E as ->. split; (eapply Vpart; [exact Vv|]).
      + eapply part_item; [reflexivity|]. apply (in_map fst) in H. exact H.
      + eapply part_value. exact H.
    - destruct (dictequivalence cfg); [|discriminate]. injection E as <-.
      apply in_map_iff in H as [[k' x'] [E H]]. injection E as <- <-.
      split; (eapply Vpart; [exact Vv|]); [eapply part_ns_key|eapply part_ns_value]; exact H.
  Qed.

  Definition look2 (v : value) (t vt : ty) (kf0 : handler) : M (handler * option handler) :=
    fun s =>
      match ty_get vt (st_index s) with
      | Some h => (Ok (kf0, Some h), s)
      | None =>
          match find_handler cfg vt with
          | POk h => (Ok (h, None), set_index (cons (vt, h)) s)
          | PExc RValue => (Exc (XTL KValue (MCannotVal vt t) [] (Some v) (Some vt) []), s)
          | PExc r => (Exc (XRaw r), s)
          end
      end.
  Lemma catch_ext {A} (m1 m2 : M A) f1 f2 s :
    m1 s = m2 s -> (forall e s, f1 e s = f2 e s) -> catch m1 f1 s = catch m2 f2 s.
  Proof using. intros E F. unfold catch. rewrite E. destruct (m2 s) as [[]]; auto. Qed.
  Lemma dictload_eq call v n0 kt vt s :
    let t := TGen n0 ODict (Some [kt; vt]) in
    dictload w cfg call v t s =
    bind (lookup_handler cfg (XTL KValue (MCannotKey kt t) [] (Some v) (Some kt) []) kt)
      (fun kf0 => bind (look2 v t vt kf0) (fun kv => dcont call kt vt (fst kv) (snd kv) (as_dict cfg v) t)) s.
  Proof using.
    intro t. unfold dictload, t. cbn [ty_args]. unfold bind at 1 3.
    destruct (lookup_handler _ _ kt s) as [[kf0|e|] s']; try reflexivity.
    unfold look2, bind.
    destruct (match ty_get vt (st_index s') with Some h => _ | None => _ end) as [[[kf vf]|e|] s'']; try reflexivity.
    cbv zeta. unfold dcont, dfast, dslow, dslow0. apply catch_ext; [reflexivity|]. intros e s0.
    apply catch_ext; [reflexivity|]. intros [[] m tr v0 t0 subs|[]] s3; reflexivity.
  Qed.
  Lemma sim_ext_both {A} q (m1 m1' : M A) F F' :
    (forall s, m1 s = m1' s) -> (forall m s, F m s = F' m s) -> sim q m1' F' -> sim q m1 F.
  Proof using.
    intros E1 E2 Hm s1 s2 H1 H2 NO. rewrite E1 in *.
    destruct (Hm s1 s2 H1 H2 NO) as [I1 [r2 [s2' [N [I2 [OR HN]]]]]].
    split; [exact I1|]. exists r2, s2', N. split; [exact I2|]. split; [exact OR|].
    intros m L. rewrite E2. apply HN. exact L.
  Qed.

  Lemma sim_dictload n0 args v :
    G (TGen n0 ODict args) -> Vok v ->
    sim Meq (dictload w cfg call1 v (TGen n0 ODict args)) (fun m => dictload w cfg (call2 m) v (TGen n0 ODict args)).
  Proof using Vpart Gcomp Gdict Hcall Hpres Hstd.
    intros Gt Vv. 
    destruct args as [[|kt [|vt [|? ?]]]|]; try apply sim_raise.
    set (t := TGen n0 ODict (Some [kt; vt])).
    eapply sim_ext_both; [intro s; apply dictload_eq|intros m s; apply dictload_eq|]. fold t.
    apply (sim_lookup_bind Meq _ kt _ (fun kf0 m => bind (look2 v t vt kf0)
       (fun kv => dcont (call2 m) kt vt (fst kv) (snd kv) (as_dict cfg v) t))).
    intros kh Fk.
    assert (VV : forall d k x, as_dict cfg v = VDict d -> In (k, x) d -> Vok k /\ Vok x).
    { intros d k x. apply Vok_items. exact Vv. }
    destruct (find_handler cfg vt) as [vh|r] eqn:Fv.
    - assert (L : forall s, settled s ->
         (look2 v t vt kh s = (Ok (kh, Some vh), s)) \/
         (~ warm vt /\ look2 v t vt kh s = (Ok (vh, None), set_index (cons (vt, vh)) s) /\ settled (set_index (cons (vt, vh)) s))).
      { intros s Hs. unfold look2. destruct (ty_get vt (st_index s)) as [h|] eqn:E.
        - left. pose proof (coh_index _ _ _ (proj1 Hs) _ _ E). congruence.
        - right. split; [intro W; exact (proj2 (proj2 Hs) vt W E)|]. rewrite Fv. split; [reflexivity|].
          apply settled_index; assumption. }
      assert (DD : ~ warm vt -> det_dict kt vt).
      { intro NW. destruct (Gdict _ _ _ Gt) as [W|D]; [contradiction|exact D]. }
      intros s1 s2 H1 H2. unfold bind.
      destruct (L s1 H1) as [->|[W1 [-> S1]]], (L s2 H2) as [->|[W2 [-> S2]]]; cbn [fst snd].
      + apply (sim_RR n0 kt vt kh vh _ t Gt Fk Fv VV); assumption.
      + apply (sim_RW n0 kt vt kh vh _ t Gt Fk Fv VV); auto.
      + apply (sim_WR n0 kt vt kh vh _ t Gt Fk Fv VV); auto.
      + apply (sim_WW n0 kt vt kh vh _ t Gt Fk Fv VV); auto.
    - assert (L : forall s, settled s -> exists e, look2 v t vt kh s = (Exc e, s) /\
         e = match r with RValue => XTL KValue (MCannotVal vt t) [] (Some v) (Some vt) [] | _ => XRaw r end).
      { intros s Hs. unfold look2. destruct (ty_get vt (st_index s)) as [h|] eqn:E.
        - pose proof (coh_index _ _ _ (proj1 Hs) _ _ E). congruence.
        - rewrite Fv. destruct r; eexists; split; reflexivity. }
      intros s1 s2 H1 H2 NO. unfold bind.
      destruct (L s1 H1) as [e1 [-> ->]], (L s2 H2) as [e2 [E2 ->]]. split; [exact H1|].
      eexists _, s2, 0. split; [exact H2|]. split; [|intros m _; rewrite E2; reflexivity]. reflexivity.
  Qed.

  (** a computation whose outcome is the same in all settled states *)
  Lemma sim_const {A} q (m : M A) r :
    r <> OOF -> (forall s, settled s -> settled (snd (m s)) /\ fst (m s) = r) -> sim q m (fun _ => m).
  Proof using.
    intros NO H s1 s2 H1 H2 _. destruct (H s1 H1) as [S1 E1], (H s2 H2) as [S2 E2]. split; [exact S1|].
    exists r, (snd (m s2)), 0. split; [exact S2|]. split.
    - rewrite E1. destruct r; cbn; [reflexivity|destruct q; auto|congruence].
    - intros m0 _. rewrite <- E2. destruct (m s2); reflexivity.
  Qed.
  Lemma sim_bind_const {A B} q (m : M A) r (f1 : A -> M B) (f2 : A -> nat -> M B) :
    r <> OOF -> (forall s, settled s -> settled (snd (m s)) /\ fst (m s) = r) ->
    (forall a, r = Ok a -> sim q (f1 a) (f2 a)) ->
    sim q (bind m f1) (fun n => bind m (fun a => f2 a n)).
  Proof using.
    intros NO H Hf s1 s2 H1 H2. destruct (H s1 H1) as [S1 E1], (H s2 H2) as [S2 E2].
    unfold bind. destruct (m s1) as [r1 s1'], (m s2) as [r2 s2'] eqn:M2. cbn [fst snd] in *. subst r1 r2.
    destruct r as [a|e|].
    - intro N. destruct (Hf a eq_refl s1' s2' S1 S2 N) as [I1 [r3 [s3 [N' [I3 [OR HN]]]]]].
      split; [exact I1|]. exists r3, s3, N'. split; [exact I3|]. split; [exact OR|].
      intros m0 L. apply HN. exact L.
    - intros _. split; [exact S1|]. exists (Exc e), s2', 0. split; [exact S2|]. split.
      + destruct q; cbn; auto.
      + reflexivity.
    - congruence.
  Qed.

  Lemma sim_item_error {A} v t i e : sim Meq (@item_error A v t i e) (fun _ => item_error v t i e).
  Proof using. destruct e as [k m tr v0 t0 subs|[]]; cbn [item_error]; apply sim_raise. Qed.

  Lemma sim_iter_loop k mp f1 (f2 : nat -> value -> M value) v t l i acc :
    (forall x, In x l -> sim Meq (f1 x) (fun m => f2 m x)) ->
    sim Meq (iter_loop w k mp f1 v t l i acc) (fun m => iter_loop w k mp (f2 m) v t l i acc).
  Proof using.
    revert i acc. induction l as [|x l IH]; intros i acc Hf; cbn [iter_loop]; [apply sim_ret|].
    apply (sim_bind Meq _ (fun m => attempt (bind (f2 m x) (fun y => lift (coll_add w k y acc)))) _
       (fun r m => match r with inl acc' => iter_loop w k mp (f2 m) v t l (S i) acc' | inr e => if stops mp e then ret (mk_coll k acc) else item_error v t i e end)).
    - apply sim_attempt. apply (sim_bind Meq _ (fun m => f2 m x) _ (fun y _ => lift (coll_add w k y acc))).
      + apply Hf. left. reflexivity.
      + intro y. apply sim_lift.
    - intros [acc'|e]; [|destruct (stops mp e); [apply sim_ret|apply sim_item_error]]. apply IH. intros y Hy. apply Hf. right. exact Hy.
  Qed.

  Lemma sim_iter_item h et x :
    G et -> Vok x -> find_handler cfg et = POk h ->
    sim Meq (iter_item w cfg call1 h et x) (fun m => iter_item w cfg (call2 m) h et x).
  Proof using Hcall.
    intros Ge Vx F. unfold iter_item.
    destruct (basicb cfg et).
    - destruct (isinst w x et); [apply sim_ret|apply Hcall; assumption].
    - destruct et as [c|n o [us|]|vals| |s| |n t|s]; try (apply Hcall; assumption);
        destruct o; try (apply Hcall; assumption).
      destruct (_ && _); [apply sim_ret|apply Hcall; assumption].
  Qed.

  Lemma sim_iterload k n o args v :
    G (TGen n o args) -> Vok v ->
    sim Meq (iterload w cfg call1 k v (TGen n o args)) (fun m => iterload w cfg (call2 m) k v (TGen n o args)).
  Proof using Hcall Gcomp Vpart.
    intros Gt Vv. unfold iterload. cbn [ty_args].
    destruct args as [[|et rest]|].
    { destruct v; apply sim_raise. }
    2: { destruct v; apply sim_raise. }
    assert (X : sim Meq (h <- lookup_handler cfg (XTL KType (MCannotDeal et) [] (Some v) (Some et) []) et ;;
            match iter v with
            | None => raise (XTL KType (MPy RType) [] (Some v) (Some (TGen n o (Some (et :: rest)))) [])
            | Some l => iter_loop w k (mapped cfg et) (iter_item w cfg call1 h et) v (TGen n o (Some (et :: rest))) l 0 []
            end)
       (fun m => h <- lookup_handler cfg (XTL KType (MCannotDeal et) [] (Some v) (Some et) []) et ;;
            match iter v with
            | None => raise (XTL KType (MPy RType) [] (Some v) (Some (TGen n o (Some (et :: rest)))) [])
            | Some l => iter_loop w k (mapped cfg et) (iter_item w cfg (call2 m) h et) v (TGen n o (Some (et :: rest))) l 0 []
            end)).
    { apply (sim_lookup_bind Meq _ et _ (fun h m => match iter v with None => _ | Some l =>
         iter_loop w k (mapped cfg et) (iter_item w cfg (call2 m) h et) v (TGen n o (Some (et :: rest))) l 0 [] end)).
      intros h F. destruct (iter v) as [l|] eqn:L; [|apply sim_raise].
      apply (sim_iter_loop k _ _ (fun m => iter_item w cfg (call2 m) h et)). intros x Hx. apply sim_iter_item.
      - eapply Gcomp; [exact Gt|]. left. reflexivity.
      - eapply Vpart; [exact Vv|]. eapply part_item; eassumption.
      - exact F. }
    destruct v; try exact X. apply sim_raise.
  Qed.

  Lemma sim_tuple_loop v t l ts i acc :
    (forall x, In x ts -> G x) -> (forall x, In x l -> Vok x) ->
    sim Meq (tuple_loop cfg call1 v t l ts i acc) (fun m => tuple_loop cfg (call2 m) v t l ts i acc).
  Proof using Hcall.
    revert l i acc. induction ts as [|et ts IH]; intros [|x l] i acc HG HV; cbn [tuple_loop]; try apply sim_ret.
    set (L := fun s => match ty_get et (st_index s) with Some h => (Ok h, s) | None => lift (find_handler cfg et) s end).
    apply (sim_bind Meq _ (fun m => attempt (bind L (fun h => if basicb cfg et && exact x et then ret x else call2 m h x et))) _
       (fun r m => match r with inl y => tuple_loop cfg (call2 m) v t l ts (S i) (acc ++ [y]) | inr e => item_error v t i e end)).
    - apply sim_attempt.
      apply (sim_finds Meq L et XRaw _ (fun h m => if basicb cfg et && exact x et then ret x else call2 m h x et)).
      + intros s Hs. unfold L. destruct (ty_get et (st_index s)) as [h|] eqn:E.
        * pose proof (coh_index _ _ _ (proj1 Hs) _ _ E) as F. rewrite F. split; [exact Hs|reflexivity].
        * destruct (find_handler cfg et); split; auto.
      + intros h F. destruct (_ && _); [apply sim_ret|]. apply Hcall; [apply HG; left; reflexivity|apply HV; left; reflexivity|exact F].
    - intros [y|e]; [|apply sim_item_error]. apply IH; intros; [apply HG|apply HV]; right; assumption.
  Qed.

  Lemma sim_tupleload n args v :
    G (TGen n OTuple args) -> Vok v ->
    sim Meq (tupleload w cfg call1 v (TGen n OTuple args)) (fun m => tupleload w cfg (call2 m) v (TGen n OTuple args)).
  Proof using Hcall Gcomp Vpart.
    intros Gt Vv. unfold tupleload. cbn [ty_args].
    destruct args as [ts|]; [|apply sim_raise].
    assert (X : sim Meq (match v with
        | VDict _ => raise (XTL KType MDictTuple [] (Some v) (Some (TGen n OTuple (Some ts))) [])
        | _ =>
            match iter v with
            | None => raise (XRaw RType)
            | Some l =>
                if failonextra cfg && Nat.ltb (List.length ts) (List.length l)
                then raise (XTL KValue (MTooLong (TGen n OTuple (Some ts))) [] (Some v) (Some (TGen n OTuple (Some ts))) [])
                else if Nat.ltb (List.length l) (List.length ts)
                then raise (XTL KValue (MTooShort (TGen n OTuple (Some ts))) [] (Some v) (Some (TGen n OTuple (Some ts))) [])
                else tuple_loop cfg call1 v (TGen n OTuple (Some ts)) l ts 0 []
            end
        end)
      (fun m => match v with
        | VDict _ => raise (XTL KType MDictTuple [] (Some v) (Some (TGen n OTuple (Some ts))) [])
        | _ =>
            match iter v with
            | None => raise (XRaw RType)
            | Some l =>
                if failonextra cfg && Nat.ltb (List.length ts) (List.length l)
                then raise (XTL KValue (MTooLong (TGen n OTuple (Some ts))) [] (Some v) (Some (TGen n OTuple (Some ts))) [])
                else if Nat.ltb (List.length l) (List.length ts)
                then raise (XTL KValue (MTooShort (TGen n OTuple (Some ts))) [] (Some v) (Some (TGen n OTuple (Some ts))) [])
                else tuple_loop cfg (call2 m) v (TGen n OTuple (Some ts)) l ts 0 []
            end
        end)).
    { assert (Y : forall l, iter v = Some l -> sim Meq
                (if failonextra cfg && Nat.ltb (List.length ts) (List.length l)
                then raise (XTL KValue (MTooLong (TGen n OTuple (Some ts))) [] (Some v) (Some (TGen n OTuple (Some ts))) [])
                else if Nat.ltb (List.length l) (List.length ts)
                then raise (XTL KValue (MTooShort (TGen n OTuple (Some ts))) [] (Some v) (Some (TGen n OTuple (Some ts))) [])
                else tuple_loop cfg call1 v (TGen n OTuple (Some ts)) l ts 0 [])
              (fun m => if failonextra cfg && Nat.ltb (List.length ts) (List.length l)
                then raise (XTL KValue (MTooLong (TGen n OTuple (Some ts))) [] (Some v) (Some (TGen n OTuple (Some ts))) [])
                else if Nat.ltb (List.length l) (List.length ts)
                then raise (XTL KValue (MTooShort (TGen n OTuple (Some ts))) [] (Some v) (Some (TGen n OTuple (Some ts))) [])
                else tuple_loop cfg (call2 m) v (TGen n OTuple (Some ts)) l ts 0 [])).
      { intros l L. destruct (_ && _); [apply sim_raise|]. destruct (Nat.ltb _ _); [apply sim_raise|].
        apply sim_tuple_loop.
        - intros x Hx. eapply Gcomp; [exact Gt|exact Hx].
        - intros x Hx. eapply Vpart; [exact Vv|]. eapply part_item; eassumption. }
      destruct v; try apply sim_raise; cbn [iter] in *; try apply sim_raise; apply Y; reflexivity. }
    destruct ts as [|a [|[] [|]]]; try exact X.
    apply sim_iterload; assumption.
  Qed.

  (** objects *)
  Definition itemsok (v : value) : Prop := forall d k x, as_dict cfg v = VDict d -> In (k, x) d -> Vok x.
  Lemma itemsok_Vok v : Vok v -> itemsok v.
  Proof using Vpart. intros Vv d k x E H. eapply Vok_items; eassumption. Qed.

  Lemma sim_fields_loop fields hints v t d acc :
    (forall k x, In (k, x) d -> Vok x) -> (forall k ft, In (k, ft) hints -> G ft) ->
    sim Meq (fields_loop cfg call1 fields hints v t d acc) (fun m => fields_loop cfg (call2 m) fields hints v t d acc).
  Proof using Hcall.
    revert acc. induction d as [|[k x] d IH]; intros acc HV HG; cbn [fields_loop]; [apply sim_ret|].
    assert (IH' : forall acc, sim Meq (fields_loop cfg call1 fields hints v t d acc)
       (fun m => fields_loop cfg (call2 m) fields hints v t d acc)).
    { intro acc'. apply IH; [|exact HG]. intros k' x' H. eapply HV. right. exact H. }
    destruct k; try apply IH'. destruct (mem_str s fields); [|apply IH'].
    destruct (str_get s hints) as [ft|] eqn:E; [|apply sim_raise].
    apply (sim_lookup_bind Meq _ ft _ (fun h m => bind (catch (call2 m h x ft) (fun e => raise (push_trace (v, t, Some (AnField s)) e)))
        (fun y => fields_loop cfg (call2 m) fields hints v t d (acc ++ [(s, y)])))).
    intros h F.
    apply (sim_bind Meq _ (fun m => catch (call2 m h x ft) (fun e => raise (push_trace (v, t, Some (AnField s)) e))) _
       (fun y m => fields_loop cfg (call2 m) fields hints v t d (acc ++ [(s, y)]))); [|intro y; apply IH'].
    apply (sim_catch _ _ _ (fun e _ => raise (push_trace (v, t, Some (AnField s)) e))); [|intro; apply sim_raise].
    apply Hcall; [|eapply HV; left; reflexivity|exact F].
    eapply HG. apply str_get_In. exact E.
  Qed.

  Lemma sim_objloader fields nec hints v t :
    itemsok v -> (forall k ft, In (k, ft) hints -> G ft) ->
    sim Meq (objloader w cfg call1 fields nec hints v t) (fun m => objloader w cfg (call2 m) fields nec hints v t).
  Proof using Hcall.
    intros HI HG. unfold objloader.
    destruct (as_dict cfg v) as [| | | | | | | | | |d| | | | | ] eqn:E; try apply sim_raise.
    destruct (filter _ nec); [|apply sim_raise].
    destruct (failonextra cfg && _); [destruct (all_str _); apply sim_raise|].
    apply (sim_bind Meq _ (fun m => fields_loop cfg (call2 m) fields hints (VDict d) t d []) _
       (fun params m => match construct w t params with
              | POk r => ret r
              | PExc RType => raise (XTL KType (MCtor RType) [] None None [])
              | PExc RValue => raise (XTL KValue (MCtor RValue) [] None None [])
              | PExc r => raise (XRaw r)
              end)).
    - apply sim_fields_loop; [|exact HG]. intros k x H. eapply HI; eassumption.
    - intro params. destruct (construct w t params) as [r|[]]; try apply sim_ret; apply sim_raise.
  Qed.

  Lemma mangle_loop_items names skip d acc d' :
    mangle_loop cfg names skip d acc = inl d' ->
    (forall k x, In (k, x) d -> Vok x) -> (forall k x, In (k, x) acc -> Vok x) ->
    forall k x, In (k, x) d' -> Vok x.
  Proof using.
    revert acc. induction d as [|[k x] d IH]; intros acc E HD HA; cbn [mangle_loop] in E.
    { injection E as <-. exact HA. }
    assert (HD' : forall k x, In (k, x) d -> Vok x) by (intros k' x' H; eapply HD; right; exact H).
    assert (HS : forall k0, forall k' x', In (k', x') (dict_set k0 x acc) -> Vok x').
    { intros k0 k' x' H. apply dict_set_In in H as [H|[-> _]].
      - eapply HA. exact H.
      - eapply HD. left. reflexivity. }
    destruct k; try (eapply IH; [exact E|exact HD'|apply HS]).
    destruct (str_get s names); [eapply IH; [exact E|exact HD'|apply HS]|].
    destruct (mem_str s skip); [|eapply IH; [exact E|exact HD'|apply HS]].
    destruct (failonextra cfg); [discriminate|]. eapply IH; eassumption.
  Qed.

  Lemma sim_mangle_obj names fields nec hints v t :
    Vok v -> (forall k ft, In (k, ft) hints -> G ft) ->
    sim Meq (bind (mangle cfg names v t) (fun v' => objloader w cfg call1 fields nec hints v' t))
            (fun m => bind (mangle cfg names v t) (fun v' => objloader w cfg (call2 m) fields nec hints v' t)).
  Proof using Hcall Vpart.
    intros Vv HG.
    apply (sim_bind_const Meq _ (fst (mangle cfg names v t (fresh None []))) _
             (fun v' m => objloader w cfg (call2 m) fields nec hints v' t)).
    - unfold mangle. destruct names; [discriminate|]. destruct v; try discriminate.
      destruct (mangle_loop _ _ _ _ _); discriminate.
    - intros s Hs. unfold mangle. destruct names; [split; auto|]. destruct v; try (split; auto; fail).
      destruct (mangle_loop _ _ _ _ _); split; auto.
    - intros v' E. apply sim_objloader; [|exact HG]. unfold mangle in E. destruct names as [|nm names].
      { injection E as <-. apply itemsok_Vok. exact Vv. }
      destruct v; try discriminate. destruct (mangle_loop _ _ _ _ _) as [d'|] eqn:ML; [|discriminate].
      injection E as <-. intros d0 k x [= <-] H. revert H. revert k x. eapply mangle_loop_items; [exact ML| |intros ? ? []].
      intros k x H. eapply itemsok_Vok; [exact Vv|reflexivity|exact H].
  Qed.

  Lemma sim_dataclassload v c fs :
    G (TClass c) -> Vok v -> ci_dc (class_of w c) = Some fs -> ci_nt (class_of w c) = None ->
    sim Meq (dataclassload w cfg call1 v (TClass c)) (fun m => dataclassload w cfg (call2 m) v (TClass c)).
  Proof using Hcall Vpart Gcomp.
    intros Gt Vv D N. unfold dataclassload.
    eapply (sim_bind_const Meq _ (match dataclass_info w cfg c fs with POk oi => Ok oi | PExc r => Exc (XRaw r) end) _
             (fun oi m => bind (mangle cfg (oi_names oi) v (TClass c)) (fun v' =>
                 objloader w cfg (call2 m) (oi_fields oi) (oi_necessary oi) (oi_hints oi) v' (TClass c)))).
    - destruct (dataclass_info w cfg c fs); discriminate.
    - intros s Hs. destruct (ty_get (TClass c) (st_fields s)) as [oi|] eqn:E.
      + destruct (coh_fields _ _ _ (proj1 Hs) _ _ E) as [c' [fs' [[= <-] [D' O]]]].
        assert (fs' = fs) by congruence. subst fs'. rewrite O. split; [exact Hs|reflexivity].
      + rewrite D. destruct (dataclass_info w cfg c fs) as [oi|r] eqn:O; split; auto.
        destruct Hs as [C R]. split; [eapply coh_set_fields; eassumption|exact R].
    - intros oi E. apply sim_mangle_obj; [exact Vv|].
      destruct (dataclass_info w cfg c fs) as [oi'|] eqn:O; [|discriminate]. injection E as <-.
      intros k ft H. eapply Gcomp; [exact Gt|]. unfold component, comps. apply in_or_app. left.
      apply (dataclass_info_hints w cfg c fs) in O; [|unfold kind_of_class; rewrite N, D; reflexivity].
      rewrite O in H. apply (in_map snd) in H. exact H.
  Qed.

  Lemma declared_G c k ft : G (TClass c) -> In (k, ft) (declared w p c) -> G ft.
  Proof using Gcomp.
    intros Gt H. eapply Gcomp; [exact Gt|]. unfold component, comps. apply in_or_app. left.
    apply (in_map snd) in H. exact H.
  Qed.

  Lemma sim_namedtupleload v c nt :
    G (TClass c) -> Vok v -> ci_nt (class_of w c) = Some nt ->
    sim Meq (namedtupleload w cfg call1 v (TClass c)) (fun m => namedtupleload w cfg (call2 m) v (TClass c)).
  Proof using Hcall Vpart Gcomp.
    intros Gt Vv N. unfold namedtupleload. rewrite N.
    set (L := if p then ci_hints (class_of w c) else POk (ci_ann (class_of w c))).
    eapply (sim_bind_const Meq (lift L) (match L with POk a => Ok a | PExc r => Exc (XRaw r) end) _
       (fun hints m => objloader w cfg (call2 m) (map fst hints) _ hints v (TClass c))).
    - destruct L; discriminate.
    - intros s Hs. destruct L; split; auto.
    - intros hints E. apply sim_objloader; [apply itemsok_Vok; exact Vv|].
      intros k ft H. eapply declared_G; [exact Gt|].
      assert (E' : L = POk hints) by (destruct L; [injection E as ->; reflexivity|discriminate]).
      unfold declared, declared_types, kind_of_class. rewrite N. revert E'. unfold L.
      case p; intro E'; [rewrite E'; exact H|]. injection E' as ->. exact H.
  Qed.

  Lemma sim_attrload v c fs :
    G (TClass c) -> Vok v -> ci_attrs (class_of w c) = Some fs ->
    ci_nt (class_of w c) = None -> ci_dc (class_of w c) = None ->
    sim Meq (attrload w cfg call1 v (TClass c)) (fun m => attrload w cfg (call2 m) v (TClass c)).
  Proof using Hcall Vpart Gcomp.
    intros Gt Vv A N D. unfold attrload. rewrite A.
    eapply (sim_bind_const Meq (lift (attr_hints fs)) (match attr_hints fs with POk a => Ok a | PExc r => Exc (XRaw r) end) _
       (fun hints m => bind (mangle cfg _ v (TClass c)) (fun v' => objloader w cfg (call2 m) _ _ hints v' (TClass c)))).
    - destruct (attr_hints fs); discriminate.
    - intros s Hs. destruct (attr_hints fs); split; auto.
    - intros hints E. apply sim_mangle_obj; [exact Vv|].
      intros k ft H. eapply declared_G; [exact Gt|].
      destruct (attr_hints fs) as [h'|] eqn:E'; [|discriminate]. injection E as ->.
      apply attr_hints_spec in E'. unfold declared, kind_of_class. rewrite N, D, A. rewrite <- E'. exact H.
  Qed.

  Lemma notreq_filter (l : list string) (hints : list (string * ty)) :
    (forall k n a, In (k, TGen n ONotRequired a) hints -> ~ In k l) ->
    filter (fun k => negb (mem_str k (map fst (filter (fun kt => is_notrequired (snd kt)) hints)))) l = l.
  Proof using.
    intro H. assert (F : forall k, In k l -> negb (mem_str k (map fst (filter (fun kt => is_notrequired (snd kt)) hints))) = true).
    { intros k Hk. destruct (mem_str k _) eqn:M; [|reflexivity]. exfalso.
      apply mem_str_In in M. apply in_map_iff in M as [[k' t] [<- Hin]]. apply filter_In in Hin as [Hin R].
      cbn in R. destruct t as [|n o a| | | | | | ]; try discriminate. destruct o; try discriminate.
      eapply H; eassumption. }
    clear H. induction l as [|k l IH]; [reflexivity|]. cbn [filter].
    rewrite (F k) by (left; reflexivity). f_equal. apply IH. intros k' Hk. apply F. right. exact Hk.
  Qed.

  Lemma sim_typeddictload v c req :
    G (TClass c) -> Vok v -> ci_td (class_of w c) = Some req ->
    ci_nt (class_of w c) = None -> ci_dc (class_of w c) = None ->
    sim Meq (typeddictload w cfg call1 v (TClass c)) (fun m => typeddictload w cfg (call2 m) v (TClass c)).
  Proof using Hcall Vpart Gcomp Hwr.
    intros Gt Vv T N D. unfold typeddictload. rewrite T.
    assert (A : ci_attrs (class_of w c) = None) by (eapply wr_td; [exact Hwr|congruence]).
    assert (K : kind_of_class w c = Some (KTD req)) by (unfold kind_of_class; rewrite N, D, A, T; reflexivity).
    assert (P : pep563 cfg = true \/ pep563 cfg = false) by (case (pep563 cfg); auto).
    destruct P as [P|P]; rewrite P.
    - apply (sim_ext_both _ _ (bind (lift (ci_hints (class_of w c))) (fun hints =>
           objloader w cfg call1 (map fst hints) (filter (fun k => negb (mem_str k (map fst (filter (fun kt => is_notrequired (snd kt)) hints)))) req)
             (map (fun kt => (fst kt, strip_notrequired (snd kt))) hints) v (TClass c))) _
          (fun m => bind (lift (ci_hints (class_of w c))) (fun hints =>
           objloader w cfg (call2 m) (map fst hints) (filter (fun k => negb (mem_str k (map fst (filter (fun kt => is_notrequired (snd kt)) hints)))) req)
             (map (fun kt => (fst kt, strip_notrequired (snd kt))) hints) v (TClass c)))).
      { intro s. unfold bind, get_st. destruct (lift _ s) as [[]]; reflexivity. }
      { intros m s. unfold bind, get_st. destruct (lift _ s) as [[]]; reflexivity. }
      eapply (sim_bind_const Meq (lift (ci_hints (class_of w c))) (match ci_hints (class_of w c) with POk a => Ok a | PExc r => Exc (XRaw r) end) _
         (fun hints m => objloader w cfg (call2 m) (map fst hints) _ _ v (TClass c))).
      + destruct (ci_hints (class_of w c)); discriminate.
      + intros s Hs. destruct (ci_hints (class_of w c)); split; auto.
      + intros hints E. apply sim_objloader; [apply itemsok_Vok; exact Vv|].
        intros k ft H. eapply declared_G; [exact Gt|].
        destruct (ci_hints (class_of w c)) as [h'|] eqn:E'; [|discriminate]. injection E as ->.
        unfold declared. rewrite K. unfold declared_types. rewrite P, E'. exact H.
    - set (hints0 := map (fun kt => (fst kt, unwrap (snd kt))) (ci_ann (class_of w c))).
      assert (X : sim Meq (bind (mod_st (set_stripped (cons c))) (fun _ =>
             objloader w cfg call1 (map fst (ci_ann (class_of w c))) req hints0 v (TClass c)))
           (fun m => bind (mod_st (set_stripped (cons c))) (fun _ =>
             objloader w cfg (call2 m) (map fst (ci_ann (class_of w c))) req hints0 v (TClass c)))).
      { apply (sim_bind_const Meq (mod_st (set_stripped (cons c))) (Ok tt) _
           (fun _ m => objloader w cfg (call2 m) (map fst (ci_ann (class_of w c))) req hints0 v (TClass c))).
        - discriminate.
        - intros s Hs. split; [|reflexivity]. cbn. destruct Hs as [C R]. split; [apply coh_set_stripped; exact C|exact R].
        - intros _ _. apply sim_objloader; [apply itemsok_Vok; exact Vv|].
          intros k ft H. eapply declared_G; [exact Gt|]. unfold declared. rewrite K. unfold declared_types. rewrite P. exact H. }
      assert (E : forall call s,
        bind get_st (fun s0 => bind (lift (POk (annotations w s0 c))) (fun hints =>
          bind (mod_st (fun s => set_stripped (cons c) s)) (fun _ =>
            objloader w cfg call (map fst hints) (filter (fun k => negb (mem_str k (map fst (filter (fun kt => is_notrequired (snd kt)) hints)))) req)
             (map (fun kt => (fst kt, strip_notrequired (snd kt))) hints) v (TClass c)))) s
        = bind (mod_st (set_stripped (cons c))) (fun _ =>
             objloader w cfg call (map fst (ci_ann (class_of w c))) req hints0 v (TClass c)) s).
      { intros call s. cbn [bind get_st lift ret mod_st]. unfold annotations.
        assert (R0 : filter (fun k => negb (mem_str k (map fst (filter (fun kt => is_notrequired (snd kt)) (ci_ann (class_of w c)))))) req = req).
        { apply notreq_filter. intros k n a H. eapply wr_required; eassumption. }
        destruct (mem_cid c (st_stripped s)).
        - rewrite notreq_filter.
          + rewrite !map_map. cbn [fst snd]. unfold hints0.
            replace (map (fun x => (fst x, strip_notrequired (strip_notrequired (snd x)))) (ci_ann (class_of w c)))
              with (map (fun kt => (fst kt, unwrap (snd kt))) (ci_ann (class_of w c))); [reflexivity|].
            apply map_ext_in. intros [k t] Hin. cbn [fst snd]. f_equal. symmetry.
            eapply (wr_nested w Hwr c k t); [congruence|exact Hin].
          + intros k n a H. apply in_map_iff in H as [[k' t] [E0 Hin]]. cbn [fst snd] in E0. injection E0 as <- Hs.
            destruct t as [|n' o' a'| | | | | | ]; try discriminate Hs.
            destruct o'; try discriminate Hs. eapply wr_required; eassumption.
        - rewrite R0. reflexivity. }
      eapply sim_ext_both; [intro s; apply E|intros m s; apply E|exact X].
  Qed.

  Lemma prefer_const v n args sorted :
    G (TGen n OUnion (Some args)) -> (forall x, In x sorted -> In x args) ->
    exists r, r <> OOF /\ (forall l, r = Ok l -> forall x, In x l -> In x args) /\
      forall s, settled s -> settled (snd (prefer w v (TGen n OUnion (Some args)) args sorted s)) /\
         fst (prefer w v (TGen n OUnion (Some args)) args sorted s) = r.
  Proof using Gdisc.
    intros Gt HS. destruct v as [| | | | | | | | | |d| | | | | ];
      try (exists (Ok sorted); split; [discriminate|]; split; [intros l1 [= <-]; exact HS|]; intros s1 Hs1; split; [exact Hs1|reflexivity]).
    set (dc := build_disc w (fresh None []) args).
    set (k := fun disc : option (string * list (value * ty)) =>
        match disc with
        | Some (key, ((_ :: _) as cd)) =>
            let tag := match dict_get (VStr key) d with Some x => x | None => VNone end in
            if hashable w tag then
              match disc_get tag cd with
              | Some p => ret (p :: remove_first p sorted)
              | None => ret sorted
              end
            else raise (XRaw RType)
        | _ => ret sorted
        end : M (list ty)).
    assert (KC : forall s dc', same_table dc' dc -> snd (k dc' s) = s /\ fst (k dc' s) = fst (k dc (fresh None []))).
    { intros s0 dc' Q. unfold k, same_table in *.
      destruct dc' as [[key' cd']|], dc as [[key cd]|]; try contradiction; [|split; reflexivity].
      destruct Q as [-> [Q1 Q2]]. destruct cd' as [|lt' cd'], cd as [|lt cd]; try (split; reflexivity).
      - discriminate (proj1 Q2 eq_refl).
      - discriminate (proj2 Q2 eq_refl).
      - cbv zeta. rewrite Q1. destruct (hashable w _); [destruct (disc_get _ _)|]; split; reflexivity. }
    exists (fst (k dc (fresh None []))). split; [|split].
    - unfold k. destruct dc as [[key [|lt cd]]|]; try discriminate. cbv zeta.
      destruct (hashable w _); [destruct (disc_get _ _)|]; discriminate.
    - intros l E x Hx. unfold k in E. destruct dc as [[key [|lt cd]]|] eqn:DC; try (injection E as <-; auto).
      cbv zeta in E. destruct (hashable w _); [|discriminate].
      destruct (disc_get _ (lt :: cd)) as [p0|] eqn:DG; injection E as <-; [|auto].
      destruct Hx as [<-|Hx]; [|apply HS; eapply remove_first_In; exact Hx].
      eapply build_disc_types; [exact DC|]. eapply disc_get_types. exact DG.
    - intros s Hs. unfold prefer, bind.
      destruct (same_get (TGen n OUnion (Some args)) (st_disc s)) as [dc'|] eqn:E.
      + destruct (coh_disc _ _ _ (proj1 Hs) _ _ E) as [args0 [args' [s' [[= <-] [Sm ->]]]]].
        change (settled (snd (k (build_disc w s' args') s)) /\ fst (k (build_disc w s' args') s) = fst (k dc (fresh None []))).
        destruct (KC s (build_disc w s' args')) as [-> ->]; [|split; [exact Hs|reflexivity]].
        apply same_table_sym. apply disc_order; [exact (Gdisc n args Gt)|exact Sm].
      + cbv zeta.
        set (s1 := set_disc (cons (TGen n OUnion (Some args), build_disc w s args)) s).
        change (settled (snd (k (build_disc w s args) s1)) /\ fst (k (build_disc w s args) s1) = fst (k dc (fresh None []))).
        destruct (KC s1 (build_disc w s args)) as [-> ->].
        { apply disc_order; [exact (Gdisc n args Gt)|reflexivity]. }
        split; [|reflexivity]. destruct Hs as [C R].
        split; [apply coh_set_disc; [reflexivity|exact C]|exact R].
  Qed.

  Lemma sim_try_members v t ts n r exs :
    (forall x, In x ts -> G x) -> Vok v ->
    sim Meq (try_members cfg call1 v t ts n r exs) (fun m => try_members cfg (call2 m) v t ts n r exs).
  Proof using Hcall.
    intros HG Vv. revert n r exs. induction ts as [|x ts IH]; intros n r exs; cbn [try_members]; [apply sim_ret|].
    assert (IH' : forall n r exs, sim Meq (try_members cfg call1 v t ts n r exs) (fun m => try_members cfg (call2 m) v t ts n r exs)).
    { apply IH. intros y Hy. apply HG. right. exact Hy. }
    apply (sim_bind Meq _ (fun m => attempt
               (h <- lookup_handler cfg (XTL KValue (MCannotKey x t) [] (Some v) (Some x) []) x ;;
                call2 m h v x)) _ (fun o m => match o with
        | inl r' =>
            if uniondebugconflict cfg then try_members cfg (call2 m) v t ts (S n) r' exs
            else ret (S n, r', exs)
        | inr (XRaw k) => raise (XRaw k)
        | inr e => try_members cfg (call2 m) v t ts n r (exs ++ [push_trace (v, t, Some (AnUnion x)) e])
        end)).
    - apply sim_attempt. apply (sim_lookup_bind Meq _ x _ (fun h m => call2 m h v x)). intros h F.
      apply Hcall; [apply HG; left; reflexivity|exact Vv|exact F].
    - intros [r'|[k m tr v0 t0 subs|k]]; [destruct (uniondebugconflict cfg); [apply IH'|apply sim_ret]|apply IH'|apply sim_raise].
  Qed.

  Lemma sim_unionload v n args :
    G (TGen n OUnion (Some args)) -> Vok v ->
    sim Meq (unionload w cfg call1 v (TGen n OUnion (Some args))) (fun m => unionload w cfg (call2 m) v (TGen n OUnion (Some args))).
  Proof using Hcall Gdisc Gcomp.
    intros Gt Vv. unfold unionload. cbn [ty_args]. destruct (_ && _); [apply sim_ret|].
    set (t := TGen n OUnion (Some args)).
    set (sorted := filter (fun x => negb (basicb cfg x)) args ++ filter (basicb cfg) args).
    destruct (prefer_const v n args sorted Gt) as [r [NO [HL HC]]].
    { intros x Hx. unfold sorted in Hx. apply in_app_iff in Hx as [Hx|Hx]; apply filter_In in Hx; apply Hx. }
    apply (sim_bind_const Meq _ r _ (fun sorted' m => bind (try_members cfg (call2 m) v t sorted' 0 VNone []) (fun x =>
          let '(n, r, exs) := x in
          match n with
          | 1 => ret r
          | 0 => raise (XTL KValue (MUnion (type_of v) t) [] (Some v) (Some t) exs)
          | _ => raise (XTL KType (MConflict (type_of v) t n) [] (Some v) (Some t) exs)
          end)) NO HC).
    intros l E.
    apply (sim_bind Meq _ (fun m => try_members cfg (call2 m) v t l 0 VNone []) _ (fun x m =>
          let '(n, r, exs) := x in
          match n with
          | 1 => ret r
          | 0 => raise (XTL KValue (MUnion (type_of v) t) [] (Some v) (Some t) exs)
          | _ => raise (XTL KType (MConflict (type_of v) t n) [] (Some v) (Some t) exs)
          end)).
    - apply sim_try_members; [|exact Vv]. intros x Hx. eapply Gcomp; [exact Gt|]. exact (HL l E x Hx).
    - intros [[[|[|n0]] r0] exs]; try apply sim_raise. apply sim_ret.
  Qed.

  Lemma sim_enum_hints v t ts exs :
    (forall x, In x ts -> G x) -> Vok v ->
    sim Meq (enum_hints w cfg call1 v t ts exs) (fun m => enum_hints w cfg (call2 m) v t ts exs).
  Proof using Hcall.
    intros HG Vv. revert exs. induction ts as [|x ts IH]; intros exs; cbn [enum_hints]; [apply sim_ret|].
    apply (sim_bind Meq _ (fun m => attempt (bind (load_with w cfg (call2 m) v x (Some (AnUnion x))) (fun y => lift (call_type w t y)))) _
      (fun o m => match o with inl r => ret (inl r) | inr e => enum_hints w cfg (call2 m) v t ts (exs ++ [e]) end)).
    - apply sim_attempt. apply (sim_bind Meq _ (fun m => load_with w cfg (call2 m) v x (Some (AnUnion x))) _ (fun y _ => lift (call_type w t y))).
      + apply sim_load_with; [apply HG; left; reflexivity|exact Vv].
      + intro y. apply sim_lift.
    - intros [r|e]; [apply sim_ret|]. apply IH. intros y Hy. apply HG. right. exact Hy.
  Qed.

  Lemma sim_enumload v c ms :
    G (TClass c) -> Vok v -> ci_enum (class_of w c) = Some ms ->
    sim Meq (enumload w cfg call1 v (TClass c)) (fun m => enumload w cfg (call2 m) v (TClass c)).
  Proof using Hcall Gcomp.
    intros Gt Vv E. unfold enumload. destruct (call_type w (TClass c) v); [apply sim_ret|].
    eapply (sim_bind_const Meq (lift (ci_hints (class_of w c))) (match ci_hints (class_of w c) with POk a => Ok a | PExc r => Exc (XRaw r) end) _
       (fun hints m => bind (enum_hints w cfg (call2 m) v (TClass c) (map snd hints) []) (fun o => match o with
            | inl r => ret r
            | inr exs => raise (XTL KValue (MEnum (type_of v) (TClass c)) [] (Some v) (Some (TClass c)) exs)
            end))).
    - destruct (ci_hints (class_of w c)); discriminate.
    - intros s Hs. destruct (ci_hints (class_of w c)); split; auto.
    - intros hints EH.
      apply (sim_bind Meq _ (fun m => enum_hints w cfg (call2 m) v (TClass c) (map snd hints) []) _ (fun o m => match o with
            | inl r => ret r
            | inr exs => raise (XTL KValue (MEnum (type_of v) (TClass c)) [] (Some v) (Some (TClass c)) exs)
            end)); [|intros [?|?]; [apply sim_ret|apply sim_raise]].
      apply sim_enum_hints; [|exact Vv]. intros x Hx. eapply Gcomp; [exact Gt|].
      unfold component, comps. apply in_or_app. right. rewrite E.
      destruct (ci_hints (class_of w c)); [|discriminate]. injection EH as ->. exact Hx.
  Qed.

  Lemma sim_forward n v :
    G (TForward n) -> Vok v ->
    sim Meq (forwardrefload w cfg call1 v (TForward n)) (fun m => forwardrefload w cfg (call2 m) v (TForward n)).
  Proof using Hcall Gcomp.
    intros Gt Vv s1 s2 H1 H2.
    destruct (proj1 (proj2 H1) n Gt) as [fr1 [t1 [F1 [S1 E1]]]].
    destruct (proj1 (proj2 H2) n Gt) as [fr2 [t2 [F2 [S2 E2]]]].
    assert (t2 = t1) by congruence. subst t2.
    assert (X : forall call s fr, st_frefs s = Some fr -> str_get n fr = Some t1 ->
        forwardrefload w cfg call v (TForward n) s = load_with w cfg call v t1 (Some (AnForward n)) s).
    { intros call s fr F S. unfold forwardrefload, bind, get_st. rewrite F, S. reflexivity. }
    rewrite (X call1 s1 fr1 F1 S1). intro NO.
    destruct (sim_load_with v t1 (Some (AnForward n))) with (s1 := s1) (s2 := s2) as [I1 [r2 [s2' [N [I2 [OR HN]]]]]]; auto.
    { eapply Gcomp; [exact Gt|]. unfold component, comps. rewrite E1. left. reflexivity. }
    split; [exact I1|]. exists r2, s2', N. split; [exact I2|]. split; [exact OR|].
    intros m L. rewrite (X (call2 m) s2 fr2 F2 S2). apply HN. exact L.
  Qed.

  Lemma sim_body h v t :
    G t -> Vok v -> find_handler cfg t = POk h ->
    sim Meq (body w cfg call1 h v t) (fun m => body w cfg (call2 m) h v t).
  Proof using Hstd Hwr Gcomp Vpart Gdict Gdisc Hcall Hpres.
    intros Gt Vv F. pose proof (std_selected w basic strcons cfg t h Hstd F) as Sel.
    destruct h; cbn [selected] in Sel; cbn [body].
    - unfold noneload. destruct v; try apply sim_raise. apply sim_ret.
    - destruct Sel as [n [args ->]]. apply sim_unionload; assumption.
    - unfold basicload. destruct (exact v t); [apply sim_ret|]. destruct (basiccast cfg); [|apply sim_raise].
      destruct (call_type w t v) as [r|[]]; try apply sim_raise. apply sim_ret.
    - destruct Sel as [c [ms [-> [E _]]]]. eapply sim_enumload; eassumption.
    - destruct Sel as [n [args ->]]. apply sim_tupleload; assumption.
    - destruct Sel as [n [args ->]]. apply sim_iterload; assumption.
    - destruct Sel as [n [args ->]]. apply sim_dictload; assumption.
    - destruct Sel as [n [args ->]]. apply sim_iterload; assumption.
    - destruct Sel as [n [args ->]]. apply sim_iterload; assumption.
    - destruct Sel as [c [nt [-> [N _]]]]. eapply sim_namedtupleload; eassumption.
    - destruct Sel as [c [fs [-> [D [N _]]]]]. eapply sim_dataclassload; eassumption.
    - destruct Sel as [n ->]. apply sim_forward; assumption.
    - destruct Sel as [vals ->]. unfold literalload. destruct (py_in v vals); [apply sim_ret|apply sim_raise].
    - destruct Sel as [c [req [-> [T [N [D _]]]]]]. eapply sim_typeddictload; eassumption.
    - assert (K : exists c, t = TClass c) by (destruct Sel as [->|[->| ->]]; eauto).
      destruct K as [c ->]. unfold datetimeload.
      destruct (match v with VStr s => w_fromiso w c s | _ => _ end) as [r|[]]; try apply sim_raise. apply sim_ret.
    - unfold patternload. destruct (w_compile w v) as [r|[]]; try apply sim_raise. apply sim_ret.
    - unfold timedeltaload. destruct (w_timedelta w v) as [r|[]]; try apply sim_raise. apply sim_ret.
    - unfold strconsload. destruct (call_type w t v) as [r|[]]; try apply sim_raise. apply sim_ret.
    - destruct Sel as [c [fs [-> [A [N [D _]]]]]]. eapply sim_attrload; eassumption.
    - apply sim_ret.
    - destruct Sel as [n [su ->]]. unfold newtypeload. apply sim_load_with; [|exact Vv].
      eapply Gcomp; [exact Gt|]. left. reflexivity.
    - contradiction.
  Qed.
End Transparent.

Section TransparentRun.
  Variable w : world.
  Variables basic strcons : list cid.
  Variable cfg : config.
  Hypothesis Hstd : is_std w basic strcons cfg.
  Hypothesis Hwr : wf_reflect w.
  Variable env : string -> option ty.
  Notation p := (pep563 cfg).
  Variable G : ty -> Prop.
  Hypothesis Gcomp : forall t t', G t -> component w p env t t' -> G t'.
  Variable warm : ty -> Prop.
  Variable Vok : value -> Prop.
  Hypothesis Vpart : forall v x, Vok v -> part v x -> Vok x.
  Hypothesis Gdict : forall n kt vt, G (TGen n ODict (Some [kt; vt])) -> warm vt \/ det_dict w basic Vok kt vt.
  Hypothesis Gdisc : forall n args, G (TGen n OUnion (Some args)) -> plain_tags w args.
  Notation SETTLED := (settled w cfg env G warm).

  Lemma sim_run n h v t :
    G t -> Vok v -> find_handler cfg t = POk h ->
    sim w cfg env G warm Meq (run w cfg n h v t) (fun m => run w cfg m h v t).
  Proof using Hstd Hwr Gcomp Vpart Gdict Gdisc.
    revert h v t. induction n as [|n IH]; intros h v t Gt Vv F.
    { intros s1 s2 _ _ NO. cbn in NO. congruence. }
    intros s1 s2 H1 H2 NO.
    destruct (sim_body w basic strcons cfg Hstd Hwr env G Gcomp warm Vok Vpart Gdict Gdisc (run w cfg n) IH
       (fun h v t s => settled_run w cfg env G warm n h v t s) h v t Gt Vv F s1 s2 H1 H2 NO)
      as [I1 [r2 [s2' [N [I2 [OR HN]]]]]].
    split; [exact I1|]. exists r2, s2', (S N). split; [exact I2|]. split; [exact OR|].
    intros [|m] L; [lia|]. cbn [run]. apply HN. lia.
  Qed.

  (** the outcome of load is the same in any two settled states *)
  Lemma transfer_ann n s1 s2 v t a :
    SETTLED s1 -> SETTLED s2 -> G t -> Vok v ->
    fst (load_ann w cfg n v t a s1) <> OOF ->
    exists N, forall m, N <= m -> fst (load_ann w cfg m v t a s2) = fst (load_ann w cfg n v t a s1).
  Proof using Hstd Hwr Gcomp Vpart Gdict Gdisc.
    intros H1 H2 Gt Vv NO.
    destruct (sim_load_with w cfg env G warm Vok (run w cfg n) (sim_run n) v t a Gt Vv s1 s2 H1 H2 NO)
      as [_ [r2 [s2' [N [_ [OR HN]]]]]].
    exists N. intros m L. unfold load_ann at 1. rewrite (HN m L). cbn [fst].
    unfold load_ann in *. destruct (fst (load_with w cfg (run w cfg n) v t a s1)), r2; cbn in OR; try contradiction; congruence.
  Qed.

  Lemma transfer s1 s2 v t r :
    SETTLED s1 -> SETTLED s2 -> G t -> Vok v ->
    loads w cfg s1 v t r -> loads w cfg s2 v t r.
  Proof using Hstd Hwr Gcomp Vpart Gdict Gdisc.
    intros H1 H2 Gt Vv [NO [n E]]. split; [exact NO|].
    destruct (transfer_ann n s1 s2 v t None H1 H2 Gt Vv) as [N HN].
    { unfold load in E. rewrite E. exact NO. }
    exists N. unfold load. rewrite (HN N) by lia. exact E.
  Qed.
End TransparentRun.
