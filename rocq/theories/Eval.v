(** * Eval: outcomes of the pieces of the loader, independent of its state

    [conv F r]: in every settled state, the computation [F], given a large
    enough recursion budget, ends with the outcome [r].  The rules below turn
    the outcome of a handler into a statement on the outcomes of the loads it
    makes (towards C06-C09, C13-C16, C24, C34, C37, C39). *)

From Verif Require Import Loader Spec Inv Std Sound Fuel Obs Scalars Transparent Hist.

Section Eval.
  Variable w : world.
  Variables basic strcons : list cid.
  Variable cfg : config.
  Hypothesis Hstd : is_std w basic strcons cfg.
  Hypothesis Hwr : wf_reflect w.
  Variable env : string -> option ty.
  Notation p := (pep563 cfg).
  Variable s : lstate.
  Variable V : value.
  Variable T : ty.
  Hypothesis Us : used w cfg s.
  Hypothesis St : steady w basic cfg env s V T.
  Notation G := (reach w p env T).
  Notation Vok := (inside V).
  Notation warm := (seen s).
  Notation SETTLED := (settled w cfg env (reach w p env T) (seen s)).
  Notation SIM := (sim w cfg env (reach w p env T) (seen s) Meq).

  Lemma settled_s : SETTLED s.
  Proof using Us St. eapply steady_settled; [apply used_coh; exact Us|exact St]. Qed.

  Definition conv {A} (F : nat -> M A) (r : res A) : Prop :=
    r <> OOF /\ forall s1, SETTLED s1 -> exists s' N, SETTLED s' /\ forall m, N <= m -> F m s1 = (r, s').
  Definition regular {A} (F : nat -> M A) : Prop :=
    forall n s1, SETTLED s1 -> fst (F n s1) <> OOF -> SETTLED (snd (F n s1)) /\ conv F (fst (F n s1)).

  Lemma sim_regular {A} (F : nat -> M A) : (forall n, SIM (F n) F) -> regular F.
  Proof using.
    intros H n s1 S1 NO. split; [exact (proj1 (H n s1 s1 S1 S1 NO))|]. split; [exact NO|]. intros s2 S2.
    destruct (H n s1 s2 S1 S2 NO) as [_ [r2 [s2' [N [S2' [OR HN]]]]]]. exists s2', N. split; [exact S2'|].
    intros m L. rewrite (HN m L). f_equal.
    destruct (fst (F n s1)), r2; cbn in OR; try contradiction; congruence.
  Qed.
  Lemma regular_const {A} (m : M A) :
    (forall s1 s2, SETTLED s1 -> SETTLED s2 -> fst (m s1) = fst (m s2)) ->
    (forall s1, SETTLED s1 -> SETTLED (snd (m s1))) -> regular (fun _ => m).
  Proof using.
    intros H1 H2 n s1 S1 NO. split; [auto|]. split; [exact NO|]. intros s2 S2. exists (snd (m s2)), 0. split; [auto|].
    intros _ _. rewrite (surjective_pairing (m s2)). f_equal. symmetry. auto.
  Qed.
  Lemma conv_det {A} (F : nat -> M A) r1 r2 : conv F r1 -> conv F r2 -> r1 = r2.
  Proof using Us St.
    intros [_ H1] [_ H2]. destruct (H1 s settled_s) as [s1 [N1 [_ E1]]]. destruct (H2 s settled_s) as [s2 [N2 [_ E2]]].
    specialize (E1 (N1 + N2) ltac:(lia)). specialize (E2 (N1 + N2) ltac:(lia)). congruence.
  Qed.
  Lemma conv_ext {A} (F F' : nat -> M A) r : (forall m s1, F m s1 = F' m s1) -> conv F r <-> conv F' r.
  Proof using.
    intro E. split; intros [NO H]; split; auto; intros s1 S1; destruct (H s1 S1) as [s' [N [S' HN]]]; exists s', N;
      split; auto; intros m L; [rewrite <- E|rewrite E]; auto.
  Qed.
  Lemma regular_ext {A} (F F' : nat -> M A) : (forall m s1, F m s1 = F' m s1) -> regular F -> regular F'.
  Proof using.
    intros E R n s1 S1 NO. rewrite <- E in *. destruct (R n s1 S1 NO) as [A1 A2]. split; [exact A1|].
    eapply conv_ext; [|exact A2]. intros. symmetry. apply E.
  Qed.
  Lemma conv_ret {A} (a : A) r : conv (fun _ => ret a) r <-> r = Ok a.
  Proof using Us St.
    split.
    - intros [_ H]. destruct (H s settled_s) as [s' [N [_ E]]]. specialize (E N (le_n _)). unfold ret, raise in E. congruence.
    - intros ->. split; [discriminate|]. intros s1 S1. exists s1, 0. split; [exact S1|]. reflexivity.
  Qed.
  Lemma conv_raise {A} e (r : res A) : conv (fun _ => raise e) r <-> r = Exc e.
  Proof using Us St.
    split.
    - intros [_ H]. destruct (H s settled_s) as [s' [N [_ E]]]. specialize (E N (le_n _)). unfold ret, raise in E. congruence.
    - intros ->. split; [discriminate|]. intros s1 S1. exists s1, 0. split; [exact S1|]. reflexivity.
  Qed.
  Lemma conv_lift {A} (x : pyres A) r :
    conv (fun _ => lift x) r <-> r = match x with POk a => Ok a | PExc k => Exc (XRaw k) end.
  Proof using Us St. destruct x; cbn [lift]; [apply conv_ret|apply conv_raise]. Qed.
  Lemma regular_ret {A} (a : A) : regular (fun _ => ret a).
  Proof using. apply regular_const; auto. Qed.
  Lemma regular_raise {A} e : regular (fun _ => @raise lstate A e).
  Proof using. apply regular_const; auto. Qed.
  Lemma regular_lift {A} (x : pyres A) : regular (fun _ => lift x).
  Proof using. destruct x; [apply regular_ret|apply regular_raise]. Qed.

  Lemma conv_in {A} (F : nat -> M A) r : regular F -> (conv F r <-> r <> OOF /\ exists n s1, SETTLED s1 /\ fst (F n s1) = r).
  Proof using Us St.
    intro R. split.
    - intros [NO H]. split; [exact NO|]. destruct (H s settled_s) as [s' [N [_ E]]]. exists N, s. split; [apply settled_s|].
      rewrite (E N (le_n _)). reflexivity.
    - intros [NO [n [s1 [S1 <-]]]]. apply R; assumption.
  Qed.

  Lemma conv_bind {A B} (F : nat -> M A) (f : A -> nat -> M B) r :
    regular F -> (forall a, conv F (Ok a) -> regular (f a)) ->
    (conv (fun m => bind (F m) (fun a => f a m)) r <->
    ((exists a, conv F (Ok a) /\ conv (f a) r) \/ (exists e, conv F (Exc e) /\ r = Exc e))).
  Proof using Us St.
    intros RF Rf. split.
    - intros [NO H]. destruct (H s settled_s) as [s' [N [S' E]]]. specialize (E N (le_n _)). unfold bind in E.
      pose proof (RF N s settled_s) as C1. destruct (F N s) as [[a|e|] s1] eqn:E1; cbn [fst snd] in C1.
      + destruct (C1 ltac:(discriminate)) as [S1 C]. left. exists a. split; [exact C|].
        apply conv_in; [apply Rf; exact C|]. split; [exact NO|]. exists N, s1. split; [exact S1|]. rewrite E. reflexivity.
      + right. exists e. split; [apply C1; discriminate|congruence].
      + congruence.
    - intros [[a [[_ CF] [NO Cf]]]|[e [[_ CF] ->]]].
      + split; [exact NO|]. intros s1 S1. destruct (CF s1 S1) as [s2 [N1 [S2 H1]]]. destruct (Cf s2 S2) as [s3 [N2 [S3 H2]]].
        exists s3, (N1 + N2). split; [exact S3|]. intros m L. unfold bind. rewrite (H1 m) by lia. apply H2. lia.
      + split; [discriminate|]. intros s1 S1. destruct (CF s1 S1) as [s2 [N1 [S2 H1]]]. exists s2, N1. split; [exact S2|].
        intros m L. unfold bind. rewrite (H1 m) by lia. reflexivity.
  Qed.
  Lemma regular_bind {A B} (F : nat -> M A) (f : A -> nat -> M B) :
    regular F -> (forall a, conv F (Ok a) -> regular (f a)) -> regular (fun m => bind (F m) (fun a => f a m)).
  Proof using Us St.
    intros RF Rf n s1 S1 NO. unfold bind in *. pose proof (RF n s1 S1) as C1.
    destruct (F n s1) as [[a|e|] s2] eqn:E1; cbn [fst snd] in *.
    - destruct (C1 ltac:(discriminate)) as [S2 C]. destruct (Rf a C n s2 S2 NO) as [S3 C3]. split; [exact S3|].
      apply conv_bind; auto. left. eauto.
    - destruct (C1 ltac:(discriminate)) as [S2 C]. split; [exact S2|]. apply conv_bind; auto. right. eauto.
    - congruence.
  Qed.
  Lemma conv_catch {A} (F : nat -> M A) (f : exn -> nat -> M A) r :
    regular F -> (forall e, conv F (Exc e) -> regular (f e)) ->
    (conv (fun m => catch (F m) (fun a => f a m)) r <->
    ((exists a, conv F (Ok a) /\ r = Ok a) \/ (exists e, conv F (Exc e) /\ conv (f e) r))).
  Proof using Us St.
    intros RF Rf. split.
    - intros [NO H]. destruct (H s settled_s) as [s' [N [S' E]]]. specialize (E N (le_n _)). unfold catch in E.
      pose proof (RF N s settled_s) as C1. destruct (F N s) as [[a|e|] s1] eqn:E1; cbn [fst snd] in C1.
      + left. exists a. split; [apply C1; discriminate|congruence].
      + destruct (C1 ltac:(discriminate)) as [S1 C]. right. exists e. split; [exact C|].
        apply conv_in; [apply Rf; exact C|]. split; [exact NO|]. exists N, s1. split; [exact S1|]. rewrite E. reflexivity.
      + congruence.
    - intros [[e [[_ CF] ->]]|[a [[_ CF] [NO Cf]]]].
      + split; [discriminate|]. intros s1 S1. destruct (CF s1 S1) as [s2 [N1 [S2 H1]]]. exists s2, N1. split; [exact S2|].
        intros m L. unfold catch. rewrite (H1 m) by lia. reflexivity.
      + split; [exact NO|]. intros s1 S1. destruct (CF s1 S1) as [s2 [N1 [S2 H1]]]. destruct (Cf s2 S2) as [s3 [N2 [S3 H2]]].
        exists s3, (N1 + N2). split; [exact S3|]. intros m L. unfold catch. rewrite (H1 m) by lia. apply H2. lia.
  Qed.
  Lemma regular_catch {A} (F : nat -> M A) (f : exn -> nat -> M A) :
    regular F -> (forall e, conv F (Exc e) -> regular (f e)) -> regular (fun m => catch (F m) (fun a => f a m)).
  Proof using Us St.
    intros RF Rf n s1 S1 NO. unfold catch in *. pose proof (RF n s1 S1) as C1.
    destruct (F n s1) as [[a|e|] s2] eqn:E1; cbn [fst snd] in *.
    - destruct (C1 ltac:(discriminate)) as [S2 C]. split; [exact S2|]. apply conv_catch; auto. left. eauto.
    - destruct (C1 ltac:(discriminate)) as [S2 C]. destruct (Rf e C n s2 S2 NO) as [S3 C3]. split; [exact S3|].
      apply conv_catch; auto. right. eauto.
    - congruence.
  Qed.
  Lemma conv_attempt {A} (F : nat -> M A) r :
    regular F ->
    (conv (fun m => attempt (F m)) r <->
    ((exists a, conv F (Ok a) /\ r = Ok (inl a)) \/ (exists e, conv F (Exc e) /\ r = Ok (inr e)))).
  Proof using Us St.
    intros RF. split.
    - intros [NO H]. destruct (H s settled_s) as [s' [N [S' E]]]. specialize (E N (le_n _)). unfold attempt in E.
      pose proof (RF N s settled_s) as C1. destruct (F N s) as [[a|e|] s1] eqn:E1; cbn [fst snd] in C1.
      + left. exists a. split; [apply C1; discriminate|congruence].
      + right. exists e. split; [apply C1; discriminate|congruence].
      + congruence.
    - intros [[e [[_ CF] ->]]|[e [[_ CF] ->]]]; (split; [discriminate|]); intros s1 S1;
        destruct (CF s1 S1) as [s2 [N1 [S2 H1]]]; exists s2, N1; (split; [exact S2|]);
        intros m L; unfold attempt; rewrite (H1 m) by lia; reflexivity.
  Qed.
  Lemma regular_attempt {A} (F : nat -> M A) : regular F -> regular (fun m => attempt (F m)).
  Proof using Us St.
    intros RF n s1 S1 NO. unfold attempt in *. pose proof (RF n s1 S1) as C1.
    destruct (F n s1) as [[a|e|] s2] eqn:E1; cbn [fst snd] in *.
    - destruct (C1 ltac:(discriminate)) as [S2 C]. split; [exact S2|]. apply conv_attempt; auto. left. eauto.
    - destruct (C1 ltac:(discriminate)) as [S2 C]. split; [exact S2|]. apply conv_attempt; auto. right. eauto.
    - congruence.
  Qed.
  (** a computation which depends on the state only through its own caches *)
  Lemma conv_const {A} (m : M A) x :
    x <> OOF -> (forall s1, SETTLED s1 -> SETTLED (snd (m s1)) /\ fst (m s1) = x) ->
    forall r, conv (fun _ => m) r <-> r = x.
  Proof using Us St.
    intros NO H r. split.
    - intros [_ C]. destruct (C s settled_s) as [s' [N [_ E]]]. specialize (E N (le_n _)).
      destruct (H s settled_s) as [_ E']. rewrite E in E'. exact E'.
    - intros ->. split; [exact NO|]. intros s1 S1. destruct (H s1 S1) as [S2 E2]. exists (snd (m s1)), 0. split; [exact S2|].
      intros _ _. rewrite <- E2. apply surjective_pairing.
  Qed.
  Lemma regular_const' {A} (m : M A) x :
    (forall s1, SETTLED s1 -> SETTLED (snd (m s1)) /\ fst (m s1) = x) -> regular (fun _ => m).
  Proof using.
    intro H. apply regular_const; [|apply H]. intros s1 s2 S1 S2. rewrite (proj2 (H s1 S1)), (proj2 (H s2 S2)). reflexivity.
  Qed.

  (** looking for a handler *)
  Lemma finds_conv (L : M handler) t nf :
    finds w cfg env G warm L t nf ->
    regular (fun _ => L) /\
    forall r, conv (fun _ => L) r <-> r = match find_handler cfg t with POk h => Ok h | PExc k => Exc (nf k) end.
  Proof using Us St.
    intro H. split; [eapply regular_const'; exact H|]. apply conv_const; [|exact H].
    destruct (find_handler cfg t); discriminate.
  Qed.
  Lemma conv_found {B} (L : M handler) t nf h (f : handler -> nat -> M B) r :
    finds w cfg env G warm L t nf -> find_handler cfg t = POk h -> regular (f h) ->
    (conv (fun m => bind L (fun h => f h m)) r <-> conv (f h) r).
  Proof using Us St.
    intros H F Rf. destruct (finds_conv L t nf H) as [R1 C1]. rewrite F in C1.
    rewrite (conv_bind (fun _ => L) f r R1).
    2: { intros a Ca. apply C1 in Ca. injection Ca as ->. exact Rf. }
    split.
    - intros [[a [Ca Cf]]|[e [Ce _]]]; [apply C1 in Ca; injection Ca as ->; exact Cf|apply C1 in Ce; discriminate].
    - intro C. left. exists h. split; [apply C1; reflexivity|exact C].
  Qed.
  Lemma conv_notfound {B} (L : M handler) t nf k (f : handler -> nat -> M B) r :
    finds w cfg env G warm L t nf -> find_handler cfg t = PExc k ->
    (conv (fun m => bind L (fun h => f h m)) r <-> r = Exc (nf k)).
  Proof using Us St.
    intros H F. destruct (finds_conv L t nf H) as [R1 C1]. rewrite F in C1.
    rewrite (conv_bind (fun _ => L) f r R1).
    2: { intros a Ca. apply C1 in Ca. discriminate. }
    split.
    - intros [[a [Ca Cf]]|[e [Ce E]]]; [apply C1 in Ca; discriminate|apply C1 in Ce; congruence].
    - intros ->. right. exists (nf k). split; [apply C1; reflexivity|reflexivity].
  Qed.
  Lemma regular_finds {B} (L : M handler) t nf (f : handler -> nat -> M B) :
    finds w cfg env G warm L t nf -> (forall h, find_handler cfg t = POk h -> regular (f h)) ->
    regular (fun m => bind L (fun h => f h m)).
  Proof using Us St.
    intros H Rf. destruct (finds_conv L t nf H) as [R1 C1].
    apply (regular_bind (fun _ => L) f R1). intros h Ch. apply C1 in Ch. apply Rf.
    destruct (find_handler cfg t); congruence.
  Qed.

  (** calling a handler, and load *)
  Lemma Hsim n h v t : G t -> Vok v -> find_handler cfg t = POk h -> SIM (run w cfg n h v t) (fun m => run w cfg m h v t).
  Proof using Hstd Hwr St.
    exact (sim_run w basic strcons cfg Hstd Hwr env G (fun a b => reach_step w p env T a b)
     (seen s) (inside V) (fun a b => inside_step V a b) (sd_dict _ _ _ _ _ _ _ St) (sd_union _ _ _ _ _ _ _ St) n h v t).
  Qed.
  Lemma regular_call h v t : G t -> Vok v -> find_handler cfg t = POk h -> regular (fun m => run w cfg m h v t).
  Proof using Hstd Hwr St.
    intros Gt Vv F. apply sim_regular. intro n.
    exact (sim_run w basic strcons cfg Hstd Hwr env G (fun a b => reach_step w p env T a b)
     (seen s) (inside V) (fun a b => inside_step V a b) (sd_dict _ _ _ _ _ _ _ St) (sd_union _ _ _ _ _ _ _ St) n h v t Gt Vv F).
  Qed.
  (** [calls h v t r]: what the handler of [t] does to [v] *)
  Definition calls (h : handler) (v : value) (t : ty) (r : res value) : Prop := conv (fun m => run w cfg m h v t) r.
  Lemma calls_body h v t r : calls h v t r <-> conv (fun m => body w cfg (run w cfg m) h v t) r.
  Proof using.
    split; intros [NO H]; (split; [exact NO|]); intros s1 S1; destruct (H s1 S1) as [s' [N [S' HN]]].
    - exists s', N. split; [exact S'|]. intros m L. specialize (HN (S m) ltac:(lia)). exact HN.
    - exists s', (S N). split; [exact S'|]. intros [|m] L; [lia|]. cbn [run]. apply HN. lia.
  Qed.
  Lemma finds_load v t :
    finds w cfg env G warm (fun s1 =>
            match ty_get t (st_index s1) with
            | Some h => (Ok h, s1)
            | None =>
                match find_handler cfg t with
                | POk h => (Ok h, register w t (set_index (cons (t, h)) s1))
                | PExc RValue =>
                    (Exc (XTL KType (MCannotDeal t) [] (Some v) (Some t) []), s1)
                | PExc r => (Exc (XRaw r), s1)
                end
            end) t (fun r => match r with RValue => XTL KType (MCannotDeal t) [] (Some v) (Some t) [] | _ => XRaw r end).
  Proof using.
    intros s1 S1. cbv beta. destruct (ty_get t (st_index s1)) as [h|] eqn:E.
    - pose proof (coh_index _ _ _ (proj1 S1) _ _ E) as F. rewrite F. split; [exact S1|reflexivity].
    - destruct (find_handler cfg t) as [h|[]] eqn:F; split; auto. apply settled_register. apply settled_index; assumption.
  Qed.
  Lemma regular_load v t a : G t -> Vok v -> regular (fun m => load_ann w cfg m v t a).
  Proof using Hstd Hwr Us St.
    intros Gt Vv. unfold load_ann, load_with.
    apply (regular_finds _ t _ (fun h m => catch (run w cfg m h v t)
       (fun e => if is_tl e then raise (push_trace (v, t, a) e) else raise (XRaw RAssert))) (finds_load v t)).
    intros h F. apply (regular_catch _ (fun e _ => if is_tl e then raise (push_trace (v, t, a) e) else raise (XRaw RAssert))).
    - apply regular_call; assumption.
    - intros e _. destruct (is_tl e); apply regular_raise.
  Qed.
  Lemma conv_load v t a h r :
    G t -> Vok v -> find_handler cfg t = POk h ->
    (conv (fun m => load_ann w cfg m v t a) r <-> exists r0, calls h v t r0 /\ r = wrap v t a r0).
  Proof using Hstd Hwr Us St.
    intros Gt Vv F. unfold load_ann, load_with.
    rewrite (conv_found _ t _ h (fun h m => catch (run w cfg m h v t)
       (fun e => if is_tl e then raise (push_trace (v, t, a) e) else raise (XRaw RAssert))) r (finds_load v t) F).
    2: { apply (regular_catch _ (fun e _ => if is_tl e then raise (push_trace (v, t, a) e) else raise (XRaw RAssert))).
         - apply regular_call; assumption.
         - intros e _. destruct (is_tl e); apply regular_raise. }
    rewrite (conv_catch _ (fun e _ => if is_tl e then raise (push_trace (v, t, a) e) else raise (XRaw RAssert))).
    2: apply regular_call; assumption.
    2: { intros e _. destruct (is_tl e); apply regular_raise. }
    split.
    - intros [[x [C ->]]|[e [C Ce]]]; [exists (Ok x); auto|]. exists (Exc e). split; [exact C|]. cbn.
      destruct (is_tl e); apply conv_raise in Ce; exact Ce.
    - intros [[x|e|] [C ->]]; [left; eauto| |destruct C; congruence]. right. exists e. split; [exact C|]. cbn.
      destruct (is_tl e); apply conv_raise; reflexivity.
  Qed.
  Lemma conv_load_none v t a k r :
    find_handler cfg t = PExc k ->
    (conv (fun m => load_ann w cfg m v t a) r <-> r = Exc (XTL KType (MCannotDeal t) [] (Some v) (Some t) [])).
  Proof using Hstd Us St.
    intro F. assert (k = RValue) by (eapply std_exc; eassumption). subst k.
    exact (conv_notfound _ t _ RValue (fun h m => catch (run w cfg m h v t)
       (fun e => if is_tl e then raise (push_trace (v, t, a) e) else raise (XRaw RAssert))) r (finds_load v t) F).
  Qed.
  Lemma loads_conv v t r : G t -> Vok v -> (loads w cfg s v t r <-> conv (fun m => load_ann w cfg m v t None) r).
  Proof using Hstd Hwr Us St.
    intros Gt Vv. rewrite (conv_in _ r (regular_load v t None Gt Vv)). split.
    - intros [NO [n E]]. split; [exact NO|]. exists n, s. split; [apply settled_s|exact E].
    - intros [NO [n [s1 [S1 E]]]]. pose proof (regular_load v t None Gt Vv n s1 S1) as R. cbv beta in R, E. rewrite E in R.
      destruct (R NO) as [_ [_ C]]. destruct (C s settled_s) as [s' [N [_ H]]]. split; [exact NO|]. exists N.
      unfold load. rewrite (H N (le_n _)). reflexivity.
  Qed.
  Lemma loads_calls v t h r :
    G t -> Vok v -> find_handler cfg t = POk h ->
    (loads w cfg s v t r <-> exists r0, calls h v t r0 /\ r = wrap v t None r0).
  Proof using Hstd Hwr Us St. intros Gt Vv F. rewrite loads_conv by assumption. apply conv_load; assumption. Qed.
  Lemma loads_ok_calls v t h y :
    G t -> Vok v -> find_handler cfg t = POk h -> (loads w cfg s v t (Ok y) <-> calls h v t (Ok y)).
  Proof using Hstd Hwr Us St.
    intros Gt Vv F. rewrite (loads_calls v t h (Ok y) Gt Vv F). split; [|intro C; exists (Ok y); auto].
    intros [[x|e|] [C E]]; cbn in E; [congruence|destruct (is_tl e); discriminate|discriminate].
  Qed.
  Lemma calls_det h v t r1 r2 : calls h v t r1 -> calls h v t r2 -> r1 = r2.
  Proof using Us St. apply conv_det. Qed.
  Lemma G_refl : G T. Proof using. apply reach_refl. Qed.
  Lemma V_refl : Vok V. Proof using. apply inside_refl. Qed.
  Lemma not_OOF_conv {A} (F : nat -> M A) : ~ conv F OOF.
  Proof using. intros [NO _]. congruence. Qed.
End Eval.
