(** * Tagged: the uniondebugconflict option does not change results (C15) and
      tagged unions (C16) *)

From Verif Require Import Loader Spec Inv Std Sound Fuel Obs Scalars Simple Transparent Hist Eval Items Tuples Dicts Objects ObjFacts Unions Order.

(** ** The same settings, with uniondebugconflict set to [b] *)

Section Conflict.
  Variable w : world.
  Variables basic strcons : list cid.
  Variable cfg : config.
  Hypothesis Hstd : is_std w basic strcons cfg.
  Hypothesis Hwr : wf_reflect w.
  Variable env : string -> option ty.
  Notation p := (pep563 cfg).
  Notation cf b := (set_conflict b cfg).
  Lemma std_cf b : is_std w basic strcons (cf b). Proof using Hstd. exact Hstd. Qed.

  Lemma coh_cf b b' s : coh w (cf b) s -> coh w (cf b') s.
  Proof using. intros [H1 H2 H3]. split; [exact H1|exact H2|exact H3]. Qed.
  Lemma settled_cf b b' G warm s : settled w (cf b) env G warm s -> settled w (cf b') env G warm s.
  Proof using. intros [C H]. split; [eapply coh_cf; exact C|exact H]. Qed.

  Variable G : ty -> Prop.
  Hypothesis Gcomp : forall t t', G t -> component w p env t t' -> G t'.
  Variable warm : ty -> Prop.
  Variable Vok : value -> Prop.
  Hypothesis Vpart : forall v x, Vok v -> part v x -> Vok x.
  Hypothesis Gdict : forall n kt vt, G (TGen n ODict (Some [kt; vt])) -> warm vt \/ det_dict w basic Vok kt vt.
  Hypothesis Gno : forall n args, ~ G (TGen n OUnion (Some args)).
  Lemma Gdisc' : forall n args, G (TGen n OUnion (Some args)) -> plain_tags w args.
  Proof using Gno. intros n args H. destruct (Gno _ _ H). Qed.

  Lemma body_cf b b' call h v t : h <> HUnion -> body w (cf b) call h v t = body w (cf b') call h v t.
  Proof using. intro N. destruct h; try reflexivity. congruence. Qed.

  Lemma sim_cf b b' n h v t :
    G t -> Vok v -> find_handler cfg t = POk h ->
    sim w (cf b') env G warm Meq (run w (cf b) n h v t) (fun m => run w (cf b') m h v t).
  Proof using Hstd Hwr Gcomp Vpart Gdict Gno.
    revert h v t. induction n as [|n IH]; intros h v t Gt Vv F s1 s2 H1 H2 NO; [cbn in NO; congruence|].
    assert (NU : h <> HUnion).
    { intros ->. destruct (std_selected w basic strcons cfg t HUnion Hstd F) as [n0 [args ->]]. exact (Gno _ _ Gt). }
    cbn [run] in *. rewrite (body_cf b b' _ h v t NU) in *.
    destruct (sim_body w basic strcons (cf b') (std_cf b') Hwr env G Gcomp warm Vok Vpart Gdict Gdisc' (run w (cf b) n) IH
       (fun h v t s S => settled_cf b b' G warm _ (settled_run w (cf b) env G warm n h v t s (settled_cf b' b G warm _ S))) h v t Gt Vv F s1 s2 H1 H2 NO)
      as [I1 [r2 [s2' [N [I2 [OR HN]]]]]].
    split; [exact I1|]. exists r2, s2', (S N). split; [exact I2|]. split; [exact OR|].
    intros [|m] L; [lia|]. cbn [run]. apply HN. lia.
  Qed.

  Lemma loads_cf b b' s1 s2 v t r :
    settled w (cf b) env G warm s1 -> settled w (cf b') env G warm s2 -> G t -> Vok v ->
    loads w (cf b) s1 v t r -> loads w (cf b') s2 v t r.
  Proof using Hstd Hwr Gcomp Vpart Gdict Gno.
    intros H1 H2 Gt Vv [NO [n E]]. destruct (find_handler cfg t) as [h|k] eqn:F.
    - unfold load in E. rewrite (load_enter_fst w (cf b) n v t None s1 h (proj1 H1) F) in E.
      assert (NO' : fst (run w (cf b) n h v t (enter w (cf b) t h s1)) <> OOF).
      { intro O. rewrite O in E. cbn in E. congruence. }
      destruct (sim_cf b b' n h v t Gt Vv F (enter w (cf b) t h s1) (enter w (cf b') t h s2)) as [_ [r2 [s2' [N [S' [OR HN]]]]]].
      + apply (settled_cf b b'). apply (settled_enter w (cf b) env G warm s1 t h F H1).
      + apply (settled_enter w (cf b') env G warm s2 t h F H2).
      + exact NO'.
      + split; [exact NO|]. exists N. unfold load. rewrite (load_enter_fst w (cf b') N v t None s2 h (proj1 H2) F), (HN N) by lia.
        cbn [fst]. rewrite <- E. f_equal.
        destruct (fst (run w (cf b) n h v t (enter w (cf b) t h s1))), r2; cbn in OR; try contradiction; congruence.
    - assert (k = RValue) by (eapply std_exc; eassumption). subst k. split; [exact NO|]. exists n.
      unfold load in *. rewrite (load_nohandler w (cf b') n v t None s2 (proj1 H2) F).
      rewrite (load_nohandler w (cf b) n v t None s1 (proj1 H1) F) in E. exact E.
  Qed.
End Conflict.


Section Members.
  Variable w : world.
  Variables basic strcons : list cid.
  Variable cfg : config.
  Hypothesis Hstd : is_std w basic strcons cfg.
  Hypothesis Hwr : wf_reflect w.
  Variable env : string -> option ty.
  Notation p := (pep563 cfg).
  Notation cf b := (set_conflict b cfg).
  Variables b1 b2 : bool.
  Variables s1 s2 : lstate.
  Variable V : value.
  Variable n0 : bool.
  Variable args : list ty.
  Notation T := (TGen n0 OUnion (Some args)).
  Hypothesis U1 : used w (cf b1) s1.
  Hypothesis U2 : used w (cf b2) s2.
  Hypothesis St1 : steady w basic (cf b1) env s1 V T.
  Hypothesis St2 : steady w basic (cf b2) env s2 V T.
  Hypothesis NU : no_union_inside w p env args.

  Lemma member_cf x r : In x args -> loads w (cf b1) s1 V x r -> loads w (cf b2) s2 V x r.
  Proof using Hstd Hwr U1 U2 St1 St2 NU.
    intros Hx L.
    set (warm := fun t => seen s1 t /\ seen s2 t).
    assert (RX : reach w p env T x) by (eapply reach_step; [apply reach_refl|exact Hx]).
    apply (loads_cf w basic strcons cfg Hstd Hwr env (reach w p env x) (fun a b => reach_step w p env x a b) warm (inside V)
             (fun v y => inside_step V v y)) with (b := b1) (s1 := s1).
    - intros n kt vt R. destruct (sd_dict _ _ _ _ _ _ _ St1 n kt vt (reach_trans _ _ _ _ _ _ RX R)) as [S1|D]; [|right; exact D].
      destruct (sd_dict _ _ _ _ _ _ _ St2 n kt vt (reach_trans _ _ _ _ _ _ RX R)) as [S2|D]; [|right; exact D].
      left. split; assumption.
    - intros n us R. exact (NU x n us Hx R).
    - split; [apply used_coh; exact U1|]. split.
      + intros n R. destruct (sd_names _ _ _ _ _ _ _ St1 n (reach_trans _ _ _ _ _ _ RX R)) as [t' [E [fr [F Q]]]]. exists fr, t'. auto.
      + intros t [W _]. exact W.
    - split; [apply used_coh; exact U2|]. split.
      + intros n R. destruct (sd_names _ _ _ _ _ _ _ St2 n (reach_trans _ _ _ _ _ _ RX R)) as [t' [E [fr [F Q]]]]. exists fr, t'. auto.
      + intros t [_ W]. exact W.
    - apply reach_refl.
    - apply inside_refl.
    - exact L.
  Qed.
End Members.

(** C15, second part *)
Lemma c15_same w basic strcons cfg (Hstd : is_std w basic strcons cfg) (Hwr : wf_reflect w) env s1 s2 V n0 args :
  used w (set_conflict true cfg) s1 -> used w (set_conflict false cfg) s2 ->
  steady w basic (set_conflict true cfg) env s1 V (TGen n0 OUnion (Some args)) ->
  steady w basic (set_conflict false cfg) env s2 V (TGen n0 OUnion (Some args)) ->
  no_union_inside w (pep563 cfg) env args ->
  tags_hashable w args V -> (forall x, In x args -> settles w (set_conflict true cfg) s1 V x) ->
  forall r, loads w (set_conflict true cfg) s1 V (TGen n0 OUnion (Some args)) (Ok r) ->
            loads w (set_conflict false cfg) s2 V (TGen n0 OUnion (Some args)) (Ok r).
Proof.
  intros U1 U2 St1 St2 NU TH HS r L.
  assert (OD : own_basic basic args V \/ ~ own_basic basic args V).
  { unfold own_basic. rewrite <- mem_cid_In, <- mem_ty_In. destruct (mem_cid _ _), (mem_ty _ _); auto; right; intros [A B]; discriminate. }
  destruct OD as [[B1 B2]|NO].
  { apply (c12 w basic strcons _ (std_cf w basic strcons cfg Hstd true) s1 U1 V n0 args (Ok r) B1 B2) in L.
    apply (c12 w basic strcons _ (std_cf w basic strcons cfg Hstd false) s2 U2 V n0 args (Ok r) B1 B2). exact L. }
  assert (FW := member_cf w basic strcons cfg Hstd Hwr env true false s1 s2 V n0 args U1 U2 St1 St2 NU).
  assert (BW := member_cf w basic strcons cfg Hstd Hwr env false true s2 s1 V n0 args U2 U1 St2 St1 NU).
  apply (c15_one w basic strcons _ (std_cf w basic strcons cfg Hstd true) Hwr env s1 V n0 args U1 St1 eq_refl TH NO HS) in L.
  destruct L as [pre [x [post [E [Lx N]]]]].
  assert (Hx : In x args) by (rewrite E; apply in_or_app; right; left; reflexivity).
  assert (Lx2 := FW x (Ok r) Hx Lx).
  destruct (c14_accept w basic strcons _ (std_cf w basic strcons cfg Hstd false) Hwr env s2 V n0 args U2 St2 eq_refl TH) as [r' L'].
  { intros z Hz. destruct (HS z Hz) as [rz [Lz D]]. exists rz. split; [apply (FW z rz Hz Lz)|exact D]. }
  { exists x. split; [exact Hx|]. exists r. exact Lx2. }
  destruct (c13 w basic strcons _ (std_cf w basic strcons cfg Hstd false) Hwr env s2 V n0 args U2 St2 r' L') as [[OB _]|[z [Hz [Lz _]]]]; [contradiction|].
  assert (z = x).
  { assert (Hz' := Hz). rewrite E in Hz'. apply in_app_or in Hz' as [H|[H|H]]; [|auto|];
      (exfalso; apply (N z); [apply in_or_app; auto|]; exists r'; apply (BW z (Ok r') Hz Lz)). }
  subst z. pose proof (loads_det _ _ _ _ _ _ _ Lz Lx2) as Q. injection Q as ->. exact L'.
Qed.

(** ** Tagged unions (C16) *)


Lemma construct_class w c ps r : construct w (TClass c) ps = POk r ->
  match kind_of_class w c with Some (KTD _) => exists d, r = VDict d | Some _ => type_of r = c | None => False end.
Proof.
  unfold construct, kind_of_class. destruct (ci_nt (class_of w c)) as [nt|].
  { destruct (unexpected _ _); [discriminate|]. destruct (bind_nt nt ps); [|discriminate]. intros [= <-]. reflexivity. }
  destruct (ci_dc (class_of w c)) as [fs|].
  { unfold construct_fields. destruct (unexpected _ _); [discriminate|]. destruct (bind_fields _ _ _ _); [|discriminate].
    destruct (ci_post _ _); [|discriminate]. intros [= <-]. reflexivity. }
  destruct (ci_attrs (class_of w c)) as [fs|].
  { unfold construct_fields. destruct (unexpected _ _); [discriminate|]. destruct (bind_fields _ _ _ _); [|discriminate].
    destruct (ci_post _ _); [|discriminate]. intros [= <-]. reflexivity. }
  destruct (ci_td (class_of w c)); [|discriminate]. intros [= <-]. eauto.
Qed.

Section Tagged.
  Variable w : world.
  Variables basic strcons : list cid.
  Variable cfg : config.
  Hypothesis Hstd : is_std w basic strcons cfg.
  Hypothesis Hwr : wf_reflect w.
  Variable env : string -> option ty.
  Notation p := (pep563 cfg).
  Variable s : lstate.
  Variable d : list (value * value).
  Notation V := (VDict d).
  Variable n0 : bool.
  Variable tags : list (cid * list value).
  Variable k : string.
  Notation args := (map (fun cl => TClass (fst cl)) tags).
  Notation T := (TGen n0 OUnion (Some args)).
  Hypothesis Us : used w cfg s.
  Hypothesis St : steady w basic cfg env s V T.
  Hypothesis TG : tagged_union w basic strcons cfg k tags.
  Hypothesis PD : py_dict d.

  Lemma member_tag c vals tag r :
    In (c, vals) tags -> In (VStr k, tag) d -> loads w cfg s V (TClass c) (Ok r) -> py_in tag vals = true /\
      match kind_of_class w c with Some (KTD _) => exists d, r = VDict d | Some _ => type_of r = c | None => False end.
  Proof using Hstd Hwr Us St TG PD.
    intros Hc Ht L. destruct (tg_object _ _ _ _ _ _ TG c vals Hc) as [OC [RS DN]]. destruct (tg_field _ _ _ _ _ _ TG c vals Hc) as [F1 [F2 F3]].
    assert (RX : reach w p env T (TClass c)). { eapply reach_step; [apply reach_refl|]. cbn. apply (in_map (fun cl => TClass (fst cl))) in Hc. exact Hc. }
    pose proof (steady_sub w basic cfg env s V T V (TClass c) St (inside_refl V) RX) as StC.
    apply (object w basic strcons cfg Hstd Hwr env s V (TClass c) Us StC c eq_refl OC RS DN PD r) in L.
    destruct L as [d' [[E|[_ [_ [a [E _]]]]] [_ [_ [ps [FL CT]]]]]]; [|discriminate]. injection E as <-.
    split; [|exact (construct_class w c ps r CT)].
    assert (FO : field_of w cfg c (VStr k) = Some k).
    { unfold field_of. apply str_get_NoDup.
      - rewrite map_map. cbn. exact (proj2 DN).
      - apply in_map_iff. exists (k, k). auto. }
    assert (GI : In (k, tag) (given w cfg c d)).
    { unfold given. apply in_flat_map. exists (VStr k, tag). split; [exact Ht|]. cbn [fst snd]. rewrite FO. left. reflexivity. }
    assert (X : exists y, field_loads w cfg s (declared w p c) (k, tag) y).
    { clear -FL GI. induction FL as [|a b l l' H FL IH]; [destruct GI|]. destruct GI as [->|GI]; [eauto|auto]. }
    destruct X as [y [_ [ft [Ff L]]]]. cbn [fst snd] in *.
    assert (FT : ft = TLiteral vals) by congruence.
    subst ft. apply (c04_literal w basic strcons cfg Hstd s Us) in L. destruct L as [[H _]|[_ Q]]; [exact H|discriminate].
  Qed.

  Lemma c16 c0 vals0 tag r :
    In (c0, vals0) tags -> In (VStr k, tag) d -> py_in tag vals0 = true ->
    loads w cfg s V T (Ok r) ->
    loads w cfg s V (TClass c0) (Ok r) /\
    match kind_of_class w c0 with Some (KTD _) => exists d, r = VDict d | Some _ => type_of r = c0 | None => False end.
  Proof using Hstd Hwr Us St TG PD.
    intros H0 Ht HI L.
    destruct (c13 w basic strcons cfg Hstd Hwr env s V n0 args Us St r L) as [[[B1 B2] _]|[x [Hx [Lx _]]]].
    { exfalso. apply in_map_iff in B2 as [[c l] [Q B2]]. cbn in Q. injection Q as ->.
      destruct (tg_object _ _ _ _ _ _ TG _ _ B2) as [OC _]. exact (proj1 OC B1). }
    apply in_map_iff in Hx as [[c vals] [<- Hc]]. cbn [fst] in *.
    destruct (member_tag c vals tag r Hc Ht Lx) as [HI' K].
    destruct (cid_eq_dec c c0) as [->|NE]; [split; [exact Lx|exact K]|exfalso].
    unfold py_in in HI, HI'. apply existsb_exists in HI as [x [Ix Ex]]. apply existsb_exists in HI' as [y [Iy Ey]].
    destruct (tg_field _ _ _ _ _ _ TG _ _ H0) as [_ [_ P0]]. destruct (tg_field _ _ _ _ _ _ TG _ _ Hc) as [_ [_ P1]].
    rewrite Forall_forall in P0, P1.
    pose proof (plain_eq tag x y (P0 x Ix) (P1 y Iy) Ex Ey) as Q.
    rewrite (tg_distinct _ _ _ _ _ _ TG c0 vals0 c vals x y H0 Hc (fun e => NE (eq_sym e)) Ix Iy) in Q. discriminate.
  Qed.
End Tagged.
