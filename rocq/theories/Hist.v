(** * Hist: loads of the parts of a value, in the state of the loader before
      the load (towards C09, C10, C13-C16, C20, C35, C38, C39) *)

From Verif Require Import Loader Spec Inv Std Sound Fuel Obs Scalars Transparent.

(** ** Vocabulary *)




Lemma reach_step w p env T t t' : reach w p env T t -> component w p env t t' -> reach w p env T t'.
Proof.
  intros R C. induction R as [x|x y z Cxy Ryz IH].
  - eapply rt1n_trans; [exact C|constructor].
  - eapply rt1n_trans; [exact Cxy|]. apply IH. exact C.
Qed.
Lemma reach_trans w p env a b c : reach w p env a b -> reach w p env b c -> reach w p env a c.
Proof.
  intros R1 R2. induction R1 as [x|x y z Cxy Ryz IH]; [exact R2|].
  eapply rt1n_trans; [exact Cxy|]. apply IH. exact R2.
Qed.
Lemma inside_step V v x : inside V v -> part v x -> inside V x.
Proof.
  intros R C. induction R as [a|a y z Cxy Ryz IH].
  - eapply rt1n_trans; [exact C|constructor].
  - eapply rt1n_trans; [exact Cxy|]. apply IH. exact C.
Qed.
Lemma inside_trans a b c : inside a b -> inside b c -> inside a c.
Proof.
  intros R1 R2. induction R1 as [x|x y z Cxy Ryz IH]; [exact R2|].
  eapply rt1n_trans; [exact Cxy|]. apply IH. exact R2.
Qed.
Lemma inside_refl v : inside v v. Proof. constructor. Qed.
Lemma reach_refl w p env t : reach w p env t t. Proof. constructor. Qed.

(** ** Entering load *)
Definition enter (w : world) (cfg : config) (t : ty) (h : handler) (s : lstate) : lstate :=
  match ty_get t (st_index s) with
  | Some _ => s
  | None => register w t (set_index (cons (t, h)) s)
  end.
Lemma load_enter w cfg n v t a s h :
  coh w cfg s -> find_handler cfg t = POk h ->
  load_ann w cfg n v t a s =
    catch (run w cfg n h v t)
      (fun e => if is_tl e then raise (push_trace (v, t, a) e) else raise (XRaw RAssert)) (enter w cfg t h s).
Proof.
  intros C F. unfold load_ann, load_with, bind, enter.
  destruct (ty_get t (st_index s)) as [h'|] eqn:E.
  - pose proof (coh_index _ _ _ C _ _ E) as F'. assert (h' = h) by congruence. subst h'. reflexivity.
  - rewrite F. reflexivity.
Qed.
Lemma load_enter_fst w cfg n v t a s h :
  coh w cfg s -> find_handler cfg t = POk h ->
  fst (load_ann w cfg n v t a s) = wrap v t a (fst (run w cfg n h v t (enter w cfg t h s))).
Proof.
  intros C F. rewrite (load_enter w cfg n v t a s h C F). unfold catch, wrap.
  destruct (run w cfg n h v t (enter w cfg t h s)) as [[r|e|] s2]; cbn [fst]; try reflexivity.
  destruct (is_tl e); reflexivity.
Qed.

(** after enough budget the outcome and the state stay the same *)
Lemma run_conv w cfg n h v t s r s' :
  run w cfg n h v t s = (r, s') -> r <> OOF -> forall m, n <= m -> run w cfg m h v t s = (r, s').
Proof.
  intros E NO m L. rewrite <- E. symmetry. apply ext_agree; [apply run_mono; exact L|].
  rewrite E. exact NO.
Qed.

Section Sub.
  Variable w : world.
  Variables basic strcons : list cid.
  Variable cfg : config.
  Hypothesis Hstd : is_std w basic strcons cfg.
  Hypothesis Hwr : wf_reflect w.
  Variable env : string -> option ty.
  Notation p := (pep563 cfg).
  Variable G : ty -> Prop.
  Hypothesis Gcomp : forall t t', G t -> component w p env t t' -> G t'.
  Variable warm : ty -> Prop.
  Variable Vok : value -> Prop.
  Hypothesis Vpart : forall v x, Vok v -> part v x -> Vok x.
  Hypothesis Gdict : forall n kt vt, G (TGen n ODict (Some [kt; vt])) -> warm vt \/ det_dict w basic Vok kt vt.
  Hypothesis Gdisc : forall n args, G (TGen n OUnion (Some args)) -> plain_tags w args.
  Notation SETTLED := (settled w cfg env G warm).

  Lemma settled_enter s t h : find_handler cfg t = POk h -> SETTLED s -> SETTLED (enter w cfg t h s).
  Proof using.
    intros F S. unfold enter. destruct (ty_get t (st_index s)) eqn:E; [exact S|].
    apply settled_register. apply settled_index; assumption.
  Qed.

  (** running the handler of [t], in any settled state, is loading into [t] *)
  Lemma run_loads n h v t s1 s2 r :
    SETTLED s1 -> SETTLED s2 -> G t -> Vok v -> find_handler cfg t = POk h ->
    fst (run w cfg n h v t s1) = r -> r <> OOF -> loads w cfg s2 v t (wrap v t None r).
  Proof using Hstd Hwr Gcomp Vpart Gdict Gdisc.
    intros H1 H2 Gt Vv F E NO.
    assert (NO' : fst (run w cfg n h v t s1) <> OOF) by congruence.
    destruct (sim_run w basic strcons cfg Hstd Hwr env G Gcomp warm Vok Vpart Gdict Gdisc n h v t Gt Vv F
       s1 (enter w cfg t h s2) H1 (settled_enter s2 t h F H2) NO') as [_ [r2 [s2' [N [_ [OR HN]]]]]].
    assert (r2 = r) as ->.
    { rewrite E in OR. destruct r, r2; cbn in OR; try contradiction; congruence. }
    split.
    - unfold wrap. destruct r; try congruence. destruct (is_tl e); discriminate.
    - exists N. unfold load. rewrite (load_enter_fst w cfg N v t None s2 h (proj1 H2) F).
      rewrite (HN N) by lia. reflexivity.
  Qed.
  (** and conversely *)
  Lemma loads_run h v t s1 s2 r :
    SETTLED s1 -> SETTLED s2 -> G t -> Vok v -> find_handler cfg t = POk h ->
    loads w cfg s2 v t r ->
    exists r0 s1' N, r0 <> OOF /\ r = wrap v t None r0 /\ SETTLED s1' /\
      forall m, N <= m -> run w cfg m h v t s1 = (r0, s1').
  Proof using Hstd Hwr Gcomp Vpart Gdict Gdisc.
    intros H1 H2 Gt Vv F [NO [n E]].
    unfold load in E. rewrite (load_enter_fst w cfg n v t None s2 h (proj1 H2) F) in E.
    assert (NO' : fst (run w cfg n h v t (enter w cfg t h s2)) <> OOF).
    { intro O. rewrite O in E. cbn in E. congruence. }
    destruct (sim_run w basic strcons cfg Hstd Hwr env G Gcomp warm Vok Vpart Gdict Gdisc n h v t Gt Vv F
       (enter w cfg t h s2) s1 (settled_enter s2 t h F H2) H1 NO') as [_ [r2 [s2' [N [S' [OR HN]]]]]].
    exists r2, s2', N.
    assert (Q : fst (run w cfg n h v t (enter w cfg t h s2)) = r2).
    { destruct (fst (run w cfg n h v t (enter w cfg t h s2))), r2; cbn in OR; try contradiction; congruence. }
    rewrite Q in E. split; [congruence|]. split; [congruence|]. split; [exact S'|exact HN].
  Qed.
  Lemma load_ann_loads n v t a s1 s2 r :
    SETTLED s1 -> SETTLED s2 -> G t -> Vok v ->
    fst (load_ann w cfg n v t a s1) = Ok r -> loads w cfg s2 v t (Ok r).
  Proof using Hstd Hwr Gcomp Vpart Gdict Gdisc.
    intros H1 H2 Gt Vv E.
    destruct (find_handler cfg t) as [h|rk] eqn:F.
    - rewrite (load_enter_fst w cfg n v t a s1 h (proj1 H1) F) in E.
      destruct (fst (run w cfg n h v t (enter w cfg t h s1))) as [x|e|] eqn:Er; cbn in E; [|destruct (is_tl e); discriminate|discriminate].
      injection E as ->. 
      exact (run_loads n h v t _ s2 (Ok r) (settled_enter s1 t h F H1) H2 Gt Vv F Er ltac:(discriminate)).
    - exfalso. assert (rk = RValue) by (eapply std_exc; eassumption). subst rk.
      rewrite (load_nohandler w cfg n v t a s1 (proj1 H1) F) in E. discriminate.
  Qed.
  Lemma loads_ok_find s v t r : SETTLED s -> loads w cfg s v t (Ok r) -> exists h, find_handler cfg t = POk h.
  Proof using Hstd.
    intros H [_ [n E]]. destruct (find_handler cfg t) as [h|rk] eqn:F; [eauto|].
    assert (rk = RValue) by (eapply std_exc; eassumption). subst rk.
    unfold load in E. rewrite (load_nohandler w cfg n v t None s (proj1 H) F) in E. discriminate.
  Qed.
  Lemma loads_run_ok h v t s1 s2 r :
    SETTLED s1 -> SETTLED s2 -> G t -> Vok v -> find_handler cfg t = POk h ->
    loads w cfg s2 v t (Ok r) ->
    exists s1' N, SETTLED s1' /\ forall m, N <= m -> run w cfg m h v t s1 = (Ok r, s1').
  Proof using Hstd Hwr Gcomp Vpart Gdict Gdisc.
    intros H1 H2 Gt Vv F L. destruct (loads_run h v t s1 s2 (Ok r) H1 H2 Gt Vv F L) as [r0 [s1' [N [NO [E [S' HN]]]]]].
    exists s1', N. split; [exact S'|]. destruct r0 as [x|e|]; cbn in E; [injection E as ->; exact HN|destruct (is_tl e); discriminate|discriminate].
  Qed.
End Sub.

(** ** The same, starting from [steady] *)
Lemma steady_settled w basic cfg env s v t :
  coh w cfg s -> steady w basic cfg env s v t ->
  settled w cfg env (reach w (pep563 cfg) env t) (seen s) s.
Proof.
  intros C [SN SD SU]. split; [exact C|]. split; [|auto].
  intros n R. destruct (SN n R) as [t' [E [fr [F Q]]]]. exists fr, t'. auto.
Qed.
Lemma steady_sub w basic cfg env s V T v t :
  steady w basic cfg env s V T -> inside V v -> reach w (pep563 cfg) env T t -> steady w basic cfg env s v t.
Proof.
  intros [SN SD SU] I R. split.
  - intros n Rn. apply SN. eapply reach_trans; eassumption.
  - intros n kt vt Rn. destruct (SD n kt vt (reach_trans _ _ _ _ _ _ R Rn)) as [W|D]; [left; exact W|right].
    destruct D as [D1 [D2 D3]]. split; [exact D1|].
    assert (X : forall u, exact_inst w (inside V) u -> exact_inst w (inside v) u).
    { intros u Hu x Hx. apply Hu. eapply inside_trans; eassumption. }
    split.
    + intro B. destruct (D2 B) as [A1 A2]. split; [exact A1|apply X; exact A2].
    + destruct D3 as [D3|[D3 [D4 D5]]]; [left; exact D3|right]. split; [exact D3|]. split; [apply X; exact D4|exact D5].
  - intros n args Rn. apply (SU n args). eapply reach_trans; eassumption.
Qed.
