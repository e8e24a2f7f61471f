(** * The discriminator of a union does not depend on the order of the members
    The cache of line 682 of dataloader.py is a dictionary whose keys are types,
    and Union[A, B] == Union[B, A]: an entry may have been made for another order
    of the same members.  It is the same when the tags are plain. *)
From Verif Require Import Loader Spec Inv Std Sound.

Lemma float_eqb_int m e a b : float_eqb (FFin m e) (FFin a 0) = true -> float_eqb (FFin m e) (FFin b 0) = true -> a = b.
Proof.
  unfold float_eqb. rewrite !Z.eqb_eq. intros H1 H2.
  assert (Q : (a * 2 ^ (0 - Z.min e 0) = b * 2 ^ (0 - Z.min e 0))%Z) by congruence.
  apply Z.mul_reg_r in Q; [exact Q|]. apply Z.pow_nonzero; lia.
Qed.
Lemma float_eqb_refl0 a : float_eqb (FFin a 0) (FFin a 0) = true.
Proof. unfold float_eqb. apply Z.eqb_refl. Qed.
Lemma int_eq m e a b : float_eqb (FFin m e) (FFin a 0) = true -> float_eqb (FFin m e) (FFin b 0) = true -> float_eqb (FFin a 0) (FFin b 0) = true.
Proof. intros H1 H2. rewrite (float_eqb_int m e a b H1 H2). apply float_eqb_refl0. Qed.
Lemma plain_eq v x y : plain_literal x -> plain_literal y -> py_eqb v x = true -> py_eqb v y = true -> py_eqb x y = true.
Proof.
  intros Px Py Hx Hy.
  destruct x; try (destruct Px; fail); destruct y; try (destruct Py; fail); destruct v; cbn in Hx, Hy; try discriminate; cbn.
  all: try reflexivity.
  all: try (destruct f; try discriminate).
  all: try (eapply int_eq; eassumption).
  all: repeat match goal with H : String.eqb _ _ = true |- _ => apply String.eqb_eq in H; subst end; try apply String.eqb_refl.
  all: repeat match goal with
      | H : _ && _ = true |- _ => apply andb_true_iff in H; destruct H
      | H : cid_eqb _ _ = true |- _ => apply cid_eqb_eq in H; subst
      | H : String.eqb _ _ = true |- _ => apply String.eqb_eq in H; subst
      end.
  all: try (rewrite cid_eqb_refl, String.eqb_refl; reflexivity).
  all: rewrite Z.eqb_eq in *; congruence.
Qed.
Lemma plain_trans v x y : plain_literal x -> plain_literal y -> py_eqb v x = true -> py_eqb x y = true -> py_eqb v y = true.
Proof.
  intros Px Py Hx Hy.
  destruct x; try (destruct Px; fail); destruct y; try (destruct Py; fail); try discriminate Hy; destruct v; cbn in Hx, Hy; try discriminate; cbn.
  all: try reflexivity.
  all: repeat match goal with
      | H : _ && _ = true |- _ => apply andb_true_iff in H; destruct H
      | H : cid_eqb _ _ = true |- _ => apply cid_eqb_eq in H; subst
      | H : String.eqb _ _ = true |- _ => apply String.eqb_eq in H; subst
      end.
  all: try (rewrite ?cid_eqb_refl, ?String.eqb_refl; reflexivity).
  all: try (destruct f; try discriminate).
  all: rewrite ?Z.mul_1_r in *.
  all: repeat match goal with H : (_ =? _)%Z = true |- _ => apply Z.eqb_eq in H end.
  all: try (apply Z.eqb_eq; congruence).
  all: match goal with H : ?a = ?b |- _ = true => rewrite <- H; assumption end.
Qed.

Lemma plain_refl0 x : plain_literal x -> py_eqb x x = true.
Proof.
  destruct x; cbn [plain_literal]; try contradiction; intros _; cbn.
  all: try reflexivity; try apply String.eqb_refl.
  all: try (rewrite ?cid_eqb_refl, ?String.eqb_refl; reflexivity).
  all: apply Z.eqb_refl.
Qed.

(** ** The literals of a member *)
Section Order.
  Variable w : world.
  Definition lits (t : ty) : list (string * list value) := discriminatorliterals w (fresh None []) t.

  Lemma lits_const s t :
    (forall c, t = TClass c -> forall k tk vals, In (k, tk) (ci_ann (class_of w c)) -> unwrap tk = TLiteral vals -> tk = TLiteral vals) ->
    discriminatorliterals w s t = lits t.
  Proof using.
    intro R. unfold lits. destruct t as [c| | | | | | | ]; try reflexivity. specialize (R c eq_refl). cbn [discriminatorliterals].
    assert (Y : forall s, flat_map (fun kt => match snd kt with TLiteral vals => [(fst kt, vals)] | _ => [] end) (annotations w s c)
              = flat_map (fun kt => match snd kt with TLiteral vals => [(fst kt, vals)] | _ => [] end) (ci_ann (class_of w c))).
    { intro s0. unfold annotations. destruct (mem_cid c (st_stripped s0)); [|reflexivity].
      revert R. generalize (ci_ann (class_of w c)) as l. induction l as [|[k t] l IH]; intro Z; [reflexivity|].
      cbn [map flat_map fst snd]. rewrite IH by (intros k' t' vals Hk; eapply Z; right; exact Hk).
      f_equal. pose proof (fun vals => Z k t vals (or_introl eq_refl)) as Z0. change (strip_notrequired t) with (unwrap t).
      destruct (unwrap t) eqn:U; try (destruct t; try reflexivity; cbn in U; congruence).
      rewrite (Z0 _ eq_refl). reflexivity. }
    rewrite !Y. reflexivity.
  Qed.
  Lemma lits_values t k vals : In (k, vals) (lits t) -> tag_values w t k vals.
  Proof using.
    unfold lits. destruct t as [c| | | | | | | ]; cbn [discriminatorliterals]; try contradiction.
    intro H. apply in_flat_map in H as [[k0 a] [I E]]. cbn [fst snd] in E. destruct a; try contradiction.
    destruct E as [[= <- <-]|[]]. exists c. split; [reflexivity|exact I].
  Qed.
  Lemma lits_has t k : In k (map fst (lits t)) -> has_tag w t k.
  Proof using.
    intro H. apply in_map_iff in H as [[k0 vals] [<- H]]. destruct (lits_values _ _ _ H) as [c [-> I]].
    exists c, (TLiteral vals), vals. repeat split. exact I.
  Qed.

  (** ** The table *)
  Definition same_table (a b : option (string * list (value * ty))) : Prop :=
    match a, b with
    | None, None => True
    | Some (k, cd), Some (k', cd') => k = k' /\ (forall x, disc_get x cd = disc_get x cd') /\ (cd = [] <-> cd' = [])
    | _, _ => False
    end.

  Lemma same_table_sym a b : same_table a b -> same_table b a.
  Proof using.
    unfold same_table. destruct a as [[k cd]|], b as [[k' cd']|]; auto. intros [-> [H1 H2]]. split; [reflexivity|]. split; [intro x; symmetry; apply H1|].
    symmetry. exact H2.
  Qed.

  Section Table.
    Variable args : list ty.
    Hypothesis PT : plain_tags w args.
    Variable k : string.
    Hypothesis Sh : forall x, In x args -> has_tag w x k.
    Definition owner (l : value) (t : ty) : Prop := In t args /\ exists vals, str_get k (lits t) = Some vals /\ In l vals.
    Lemma owner_values l t : owner l t -> exists vals, tag_values w t k vals /\ In l vals.
    Proof using. intros [_ [vals [G I]]]. exists vals. split; [|exact I]. apply lits_values. apply str_get_In. exact G. Qed.
    Lemma owner_plain l t : owner l t -> plain_literal l.
    Proof using PT Sh.
      intro O. pose proof (proj1 O) as I. destruct (owner_values l t O) as [vals [V Il]].
      pose proof (pt_plain w args PT k t vals Sh I V) as F. rewrite Forall_forall in F. auto.
    Qed.
    Lemma owner_eq l t l' t' : owner l t -> owner l' t' -> py_eqb l l' = true -> t = t'.
    Proof using PT Sh.
      intros O O' E. destruct (owner_values l t O) as [vals [V Il]], (owner_values l' t' O') as [vals' [V' Il']].
      exact (pt_clear w args PT k t t' vals vals' l l' Sh (proj1 O) (proj1 O') V V' Il Il' E).
    Qed.
    Definition owned (cd : list (value * ty)) : Prop := forall l t, In (l, t) cd -> owner l t.
    Lemma owned_set cd l t : owned cd -> owner l t -> owned (disc_set l t cd).
    Proof using PT Sh.
      intros O Ol. induction cd as [|[l' t'] cd IH]; cbn [disc_set].
      - intros a b [[= <- <-]|[]]. exact Ol.
      - pose proof (O l' t' (or_introl eq_refl)) as O1. destruct (py_eqb l l') eqn:E.
        + intros a b [[= <- <-]|I]; [|apply O; right; exact I]. rewrite (owner_eq l t l' t' Ol O1 E). exact O1.
        + intros a b [[= <- <-]|I]; [exact O1|]. apply IH; [intros x y J; apply O; right; exact J|exact I].
    Qed.
    Lemma keys_set (cd : list (value * ty)) l t y : In y (map fst cd) -> In y (map fst (disc_set l t cd)).
    Proof using.
      induction cd as [|[l' t'] cd IH]; cbn [disc_set map]; [contradiction|]. intros [<-|I]; destruct (py_eqb l l'); cbn [map fst]; auto.
      - left. reflexivity.
      - left. reflexivity.
      - right. exact I.
      - right. auto.
    Qed.
    Lemma keys_set_new (cd : list (value * ty)) l t : plain_literal l -> exists l', In l' (map fst (disc_set l t cd)) /\ py_eqb l l' = true.
    Proof using.
      intro P. induction cd as [|[l' t'] cd IH]; cbn [disc_set].
      - exists l. split; [left; reflexivity|]. apply plain_refl0. exact P.
      - destruct (py_eqb l l') eqn:E; [exists l'; split; [left; reflexivity|exact E]|].
        destruct IH as [x [I Q]]. exists x. split; [right; exact I|exact Q].
    Qed.
    Lemma fold_vals vals t : (forall l, In l vals -> owner l t) -> forall cd, owned cd ->
      let cd' := fold_left (fun acc l => disc_set l t acc) vals cd in
      owned cd' /\ (forall y, In y (map fst cd) -> In y (map fst cd')) /\
      forall l, In l vals -> exists l', In l' (map fst cd') /\ py_eqb l l' = true.
    Proof using PT Sh.
      induction vals as [|l vals IH]; intros Ow cd O; cbn [fold_left].
      - split; [exact O|]. split; [auto|]. intros l [].
      - destruct (IH (fun x I => Ow x (or_intror I)) (disc_set l t cd)) as [H1 [H2 H3]].
        { apply owned_set; [exact O|]. apply Ow. left. reflexivity. }
        split; [exact H1|]. split; [intros y I; apply H2; apply keys_set; exact I|].
        intros x [<-|I]; [|apply H3; exact I].
        destruct (keys_set_new cd l t) as [l' [I E]]; [eapply owner_plain; apply Ow; left; reflexivity|].
        exists l'. split; [apply H2; exact I|exact E].
    Qed.
    Notation step := (fun acc (td : ty * list (string * list value)) =>
      match str_get k (snd td) with Some vals => fold_left (fun acc l => disc_set l (fst td) acc) vals acc | None => acc end).
    Definition table (ts : list ty) : list (value * ty) := fold_left step (map (fun t => (t, lits t)) ts) [].
    Lemma table_spec ts : (forall t, In t ts -> In t args) ->
      owned (table ts) /\ forall t l, In t ts -> owner l t -> exists l', In l' (map fst (table ts)) /\ py_eqb l l' = true.
    Proof using PT Sh.
      intro Sub. unfold table.
      assert (G : forall cd, owned cd -> let cd' := fold_left step (map (fun t => (t, lits t)) ts) cd in
        owned cd' /\ (forall y, In y (map fst cd) -> In y (map fst cd')) /\
        forall t l, In t ts -> owner l t -> exists l', In l' (map fst cd') /\ py_eqb l l' = true).
      { induction ts as [|t ts IH]; intros cd O; cbn [map fold_left fst snd].
        - split; [exact O|]. split; [auto|]. intros t l [].
        - assert (F : let cd1 := match str_get k (lits t) with Some vals => fold_left (fun acc l => disc_set l t acc) vals cd | None => cd end in
             owned cd1 /\ (forall y, In y (map fst cd) -> In y (map fst cd1)) /\
             forall l, owner l t -> exists l', In l' (map fst cd1) /\ py_eqb l l' = true).
          { destruct (str_get k (lits t)) as [vals|] eqn:E.
            - destruct (fold_vals vals t) with (cd := cd) as [H1 [H2 H3]]; [|exact O|].
              + intros l I. split; [apply Sub; left; reflexivity|]. exists vals. auto.
              + split; [exact H1|]. split; [exact H2|]. intros l [_ [vals' [E' I]]]. apply H3. congruence.
            - split; [exact O|]. split; [auto|]. intros l [_ [vals [E' _]]]. congruence. }
          cbv zeta in F. destruct F as [F1 [F2 F3]].
          destruct (IH (fun x I => Sub x (or_intror I)) _ F1) as [H1 [H2 H3]]. cbv zeta in H1, H2, H3.
          split; [exact H1|]. split; [intros y I; apply H2, F2, I|].
          intros x l [<-|I] Ol; [|apply (H3 x l I Ol)]. destruct (F3 l Ol) as [l' [I' E']]. exists l'. split; [apply H2; exact I'|exact E']. }
      destruct (G [] (fun l t (F : In (l, t) []) => match F with end)) as [H1 [_ H3]]. split; assumption.
    Qed.
    Lemma get_owned cd x t : owned cd -> disc_get x cd = Some t -> exists l, owner l t /\ py_eqb x l = true.
    Proof using.
      intro O. induction cd as [|[l' t'] cd IH]; cbn [disc_get]; [discriminate|]. destruct (py_eqb x l') eqn:E.
      - intros [= <-]. exists l'. split; [apply O; left; reflexivity|exact E].
      - apply IH. intros a b I. apply O. right. exact I.
    Qed.
    Lemma get_some (cd : list (value * ty)) x l' : In l' (map fst cd) -> py_eqb x l' = true -> exists t, disc_get x cd = Some t.
    Proof using.
      induction cd as [|[l0 t0] cd IH]; cbn [disc_get map fst]; [contradiction|]. intros I E. destruct (py_eqb x l0) eqn:E0; [eauto|].
      destruct I as [<-|I]; [congruence|auto].
    Qed.
    Lemma table_get ts x t : (forall t, In t ts <-> In t args) ->
      disc_get x (table ts) = Some t <-> exists l, owner l t /\ py_eqb x l = true.
    Proof using PT Sh.
      intro Sm. destruct (table_spec ts (fun t I => proj1 (Sm t) I)) as [O C]. split; [apply get_owned; exact O|].
      intros [l [Ol E]]. destruct (C t l (proj2 (Sm t) (proj1 Ol)) Ol) as [l' [I Q]].
      assert (Pl : plain_literal l) by (eapply owner_plain; exact Ol).
      assert (Ol' : exists t', owner l' t').
      { apply in_map_iff in I as [[l1 t1] [<- I]]. exists t1. apply O. exact I. }
      destruct Ol' as [t' Ol'].
      destruct (get_some (table ts) x l' I) as [t0 G].
      { eapply plain_trans; [exact Pl|eapply owner_plain; exact Ol'|exact E|exact Q]. }
      rewrite G. f_equal. destruct (get_owned _ x t0 O G) as [l0 [O0 E0]].
      apply (owner_eq l0 t0 l t O0 Ol). eapply plain_eq; [eapply owner_plain; exact O0|exact Pl|exact E0|exact E].
    Qed.
    Lemma table_nil ts : (forall t, In t ts <-> In t args) -> table ts = [] <-> forall l t, ~ owner l t.
    Proof using PT Sh.
      intro Sm. destruct (table_spec ts (fun t I => proj1 (Sm t) I)) as [O C]. split.
      - intros E l t Ol. destruct (C t l (proj2 (Sm t) (proj1 Ol)) Ol) as [l' [I _]]. rewrite E in I. exact I.
      - intro N. destruct (table ts) as [|[l t] cd]; [reflexivity|]. destruct (N l t). apply O. left. reflexivity.
    Qed.
  End Table.

  Definition keys_of (ts : list ty) : list string :=
    match map (fun t => map fst (lits t)) ts with
    | [] => []
    | ks :: rest => filter (fun k => forallb (mem_str k) rest) ks
    end.
  Lemma keys_shared ts k : ts <> [] -> In k (keys_of ts) <-> forall t, In t ts -> In k (map fst (lits t)).
  Proof using.
    intro N. unfold keys_of. destruct ts as [|t0 ts]; [congruence|]. cbn [map]. rewrite filter_In, forallb_forall. split.
    - intros [H1 H2] t [<-|I]; [exact H1|]. apply mem_str_In. apply H2. apply in_map_iff. exists t. auto.
    - intro H. split; [apply H; left; reflexivity|]. intros ks I. apply in_map_iff in I as [t [<- I]]. apply mem_str_In. apply H. right. exact I.
  Qed.
  Lemma build_lits s ts : (forall t, In t ts -> discriminatorliterals w s t = lits t) ->
    build_disc w s ts = match nth_error (keys_of ts) (w_pick w (keys_of ts) mod List.length (keys_of ts)) with
                        | None => None
                        | Some key => Some (key, table key ts)
                        end.
  Proof using.
    intro H. unfold build_disc, keys_of, table.
    assert (E : map (fun t => (t, discriminatorliterals w s t)) ts = map (fun t => (t, lits t)) ts).
    { apply map_ext_in. intros t I. rewrite (H t I). reflexivity. }
    rewrite E, map_map. reflexivity.
  Qed.
  Lemma nth_pick (l : list string) i : l <> [] -> exists k, nth_error l (i mod List.length l) = Some k /\ In k l.
  Proof using.
    intro N. destruct l as [|x l]; [congruence|].
    assert (L : i mod List.length (x :: l) < List.length (x :: l)) by (apply Nat.mod_upper_bound; discriminate).
    destruct (nth_error (x :: l) (i mod List.length (x :: l))) as [y|] eqn:E.
    - exists y. split; [reflexivity|]. eapply nth_error_In. exact E.
    - apply nth_error_None in E. lia.
  Qed.
  Lemma build_shape s ts : (forall t, In t ts -> discriminatorliterals w s t = lits t) ->
    (keys_of ts = [] /\ build_disc w s ts = None) \/ exists k, In k (keys_of ts) /\ build_disc w s ts = Some (k, table k ts).
  Proof using.
    intro H. rewrite (build_lits s ts H). destruct (keys_of ts) as [|k0 ks] eqn:E.
    - left. split; [reflexivity|]. destruct (_ mod _); reflexivity.
    - right. destruct (nth_pick (k0 :: ks) (w_pick w (k0 :: ks))) as [k [N I]]; [discriminate|]. exists k. rewrite N. auto.
  Qed.

  (** the order of the members, and the state, do not matter *)
  Theorem disc_order s s' args ts : plain_tags w args -> (forall x, In x args <-> In x ts) ->
    same_table (build_disc w s args) (build_disc w s' ts).
  Proof using.
    intros PT Sm.
    assert (L : forall s t, In t args -> discriminatorliterals w s t = lits t).
    { intros s0 t I. apply lits_const. intros c -> k tk vals. apply (pt_required w args PT). exact I. }
    destruct args as [|a0 args].
    { destruct ts as [|t ts]; [|destruct (proj2 (Sm t) (or_introl eq_refl))]. unfold build_disc. cbn [map]. destruct (w_pick w [] mod Datatypes.length (@nil string)); exact I. }
    assert (N : a0 :: args <> []) by discriminate.
    assert (N' : ts <> []) by (intros ->; destruct (proj1 (Sm a0) (or_introl eq_refl))).
    assert (K : forall k, In k (keys_of (a0 :: args)) <-> In k (keys_of ts)).
    { intro k. rewrite (keys_shared _ k N), (keys_shared _ k N'). split; intros H t I; apply H; apply Sm; exact I. }
    assert (Sh : forall k, In k (keys_of (a0 :: args)) -> forall x, In x (a0 :: args) -> has_tag w x k).
    { intros k I x Ix. apply lits_has. apply (proj1 (keys_shared _ k N) I). exact Ix. }
    destruct (build_shape s (a0 :: args) (L s)) as [[E ->]|[k [I ->]]];
      destruct (build_shape s' ts (fun t I => L s' t (proj2 (Sm t) I))) as [[E' ->]|[k' [I' ->]]].
    - exact Logic.I.
    - apply K in I'. rewrite E in I'. destruct I'.
    - apply K in I. rewrite E' in I. destruct I.
    - assert (Q : k = k'). { apply (pt_one w _ PT N); [apply Sh; exact I|]. apply Sh. apply K. exact I'. }
      subst k'. cbn [same_table]. split; [reflexivity|]. assert (Sm' : forall t, In t ts <-> In t (a0 :: args)) by (intro t; symmetry; apply Sm).
      specialize (Sh k I). split.
      + intro x. destruct (disc_get x (table k (a0 :: args))) as [t|] eqn:G, (disc_get x (table k ts)) as [t'|] eqn:G'; try reflexivity.
        * apply (table_get _ PT k Sh _ x t (fun _ => iff_refl _)) in G. pose proof (proj2 (table_get _ PT k Sh ts x t Sm') G) as G2. congruence.
        * apply (table_get _ PT k Sh _ x t (fun _ => iff_refl _)) in G. pose proof (proj2 (table_get _ PT k Sh ts x t Sm') G) as G2. congruence.
        * apply (table_get _ PT k Sh _ x t' Sm') in G'. pose proof (proj2 (table_get _ PT k Sh _ x t' (fun _ => iff_refl _)) G') as G2. congruence.
      + rewrite (table_nil _ PT k Sh _ (fun _ => iff_refl _)), (table_nil _ PT k Sh _ Sm'). reflexivity.
  Qed.
End Order.
Arguments same_table_sym {_ _} _.

Lemma plain_tags_same w args ts : plain_tags w args -> (forall x, In x args <-> In x ts) -> plain_tags w ts.
Proof.
  intros PT Sm. assert (Sh : forall k, (forall x, In x ts -> has_tag w x k) -> forall x, In x args -> has_tag w x k).
  { intros k H x I. apply H, Sm, I. }
  split.
  - intros c k tk vals I. apply (pt_required w args PT). apply Sm. exact I.
  - intros N k k' S S'. apply (pt_one w args PT); [|auto|auto]. intros ->. destruct ts as [|t ts]; [congruence|]. destruct (proj2 (Sm t) (or_introl eq_refl)).
  - intros k x vals S I. apply (pt_plain w args PT k); [auto|apply Sm; exact I].
  - intros k x x' vals vals' l l' S I I'. apply (pt_clear w args PT k); [auto|apply Sm; exact I|apply Sm; exact I'].
Qed.
