(** * Facts2: conformance (C01), dictionaries (C39), fixed tuples (C09) in the
      form of the property statements *)

From Verif Require Import Loader Spec Inv Std Sound Fuel Obs Scalars Simple Transparent Hist Reuse Eval Items Tuples Dicts.

(** ** C01 *)
Lemma c01 w basic strcons cfg :
  is_std w basic strcons cfg -> wf_world w basic strcons ->
  forall env s v t r,
  used w cfg s ->
  (forall n t', reach w (pep563 cfg) env t (TForward n) -> knows s n t' -> env n = Some t') ->
  (forall n t', reach w (pep563 cfg) env t (TForward n) -> w_name w t' = Some n ->
     (exists t'', knows s n t'') \/ env n = Some t') ->
  (forall n kt vt, reach w (pep563 cfg) env t (TGen n ODict (Some [kt; vt])) ->
     seen s vt \/ dict_ok w basic strcons kt vt) ->
  loads w cfg s v t (Ok r) -> conforms w (pep563 cfg) env r t.
Proof.
  intros Hstd Hwf env s v t r U K1 K2 HD [_ [n E]].
  apply (sound_load w basic strcons cfg Hstd Hwf env (reach w (pep563 cfg) env t)
    (fun a b => reach_step w (pep563 cfg) env t a b) (seen s) (fun n => exists t'', knows s n t'')
    (fun a b X Y => K2 b a Y X) HD n v t None s r (reach_refl _ _ _ _)); [|exact E].
  split; [apply used_coh; exact U|]. split; [|split; [intros t' H; exact H|]].
  - intros fr n' t' F G R. apply K1; [exact R|]. exists fr. auto.
  - intros fr n' F [t' [fr' [F' G]]]. rewrite F in F'. injection F' as <-. congruence.
Qed.

(** ** Equality of keys *)
Lemma pow_shift m e k : (k <= e -> forall K, K <= k -> m * 2 ^ (e - K) = m * 2 ^ (e - k) * 2 ^ (k - K))%Z.
Proof.
  intros H K L. replace (e - K)%Z with ((e - k) + (k - K))%Z by lia. rewrite Z.pow_add_r by lia. lia.
Qed.
Lemma float_eqb_scale m e m' e' K :
  (K <= e)%Z -> (K <= e')%Z ->
  float_eqb (FFin m e) (FFin m' e') = Z.eqb (m * 2 ^ (e - K)) (m' * 2 ^ (e' - K)).
Proof.
  intros H H'. cbn [float_eqb]. cbv zeta. set (k := Z.min e e').
  assert (L : (K <= k)%Z) by (unfold k; lia).
  rewrite (pow_shift m e k ltac:(unfold k; lia) K L), (pow_shift m' e' k ltac:(unfold k; lia) K L).
  assert (P : (0 < 2 ^ (k - K))%Z) by (apply Z.pow_pos_nonneg; lia).
  destruct (Z.eqb_spec (m * 2 ^ (e - k)) (m' * 2 ^ (e' - k))) as [Q|Q].
  - rewrite Q. symmetry. apply Z.eqb_refl.
  - symmetry. apply Z.eqb_neq. intro X. apply Q. apply Z.mul_cancel_r in X; lia.
Qed.
Definition not_nan (f : pyfloat) : Prop := f <> FNan.
Lemma float_refl f : not_nan f -> float_eqb f f = true.
Proof. destruct f as [m e|b|]; intro N; [cbn; apply Z.eqb_refl|destruct b; reflexivity|congruence]. Qed.
Lemma float_sym f g : float_eqb f g = true -> float_eqb g f = true.
Proof.
  destruct f as [m e|b|], g as [m' e'|b'|]; try discriminate.
  - cbn. rewrite Z.min_comm. intro H. apply Z.eqb_eq in H. apply Z.eqb_eq. symmetry. exact H.
  - destruct b, b'; cbn; congruence.
Qed.
Lemma float_trans f g h : float_eqb f g = true -> float_eqb g h = true -> float_eqb f h = true.
Proof.
  destruct f as [m e|b|], g as [m' e'|b'|], h as [m2 e2|b2|]; try discriminate.
  - set (K := Z.min e (Z.min e' e2)).
    rewrite (float_eqb_scale m e m' e' K), (float_eqb_scale m' e' m2 e2 K), (float_eqb_scale m e m2 e2 K) by (unfold K; lia).
    rewrite !Z.eqb_eq. congruence.
  - destruct b, b', b2; cbn; congruence.
Qed.

Lemma plain_tuple l : plain_key (VTuple l) <-> Forall plain_key l.
Proof.
  cbn. induction l as [|x l IH]; [split; auto|]. rewrite IH. split; [intros [A B]; constructor; auto|].
  intro H. inversion H; auto.
Qed.
Definition eql : list value -> list value -> bool :=
  fix eql (xs ys : list value) : bool :=
    match xs, ys with
    | [], [] => true
    | x :: xs', y :: ys' => py_eqb x y && eql xs' ys'
    | _, _ => false
    end.
Lemma py_eqb_tuple xs ys : py_eqb (VTuple xs) (VTuple ys) = eql xs ys.
Proof. reflexivity. Qed.

Lemma plain_refl a : plain_key a -> py_eqb a a = true.
Proof.
  induction a as [|b|z|f|s|s|l IH|l IH|l IH|l IH|d IH|d IH|c d IH|c d IH|c m v IH|c v IH] using value_ind'; try contradiction; intro P.
  - reflexivity.
  - destruct b; reflexivity.
  - cbn. apply Z.eqb_refl.
  - cbn. apply float_refl. exact P.
  - cbn. apply String.eqb_refl.
  - cbn. apply String.eqb_refl.
  - rewrite py_eqb_tuple. apply plain_tuple in P. induction l as [|x l IHl]; [reflexivity|].
    inversion IH as [|? ? I1 I2]; subst. inversion P as [|? ? P1 P2]; subst. cbn. rewrite I1, IHl by assumption. reflexivity.
  - cbn. rewrite cid_eqb_refl, String.eqb_refl. reflexivity.
  - cbn. rewrite cid_eqb_refl. cbn. apply IH. exact P.
Qed.
Lemma plain_sym a : plain_key a -> forall b, plain_key b -> py_eqb a b = true -> py_eqb b a = true.
Proof.
  induction a as [|ba|z|f|s|s|l IH|l IH|l IH|l IH|d IH|d IH|c d IH|c d IH|c m v IH|c v IH] using value_ind'; try contradiction; intros P b Pb;
    destruct b as [|bb|z'|f'|s'|s'|l'|l'|l'|l'|d'|d'|c' d'|c' d'|c' m' v'|c' v']; try contradiction; try discriminate;
    try (cbn [py_eqb as_float]; apply float_sym).
  - reflexivity.
  - cbn. rewrite !String.eqb_eq. auto.
  - cbn. rewrite !String.eqb_eq. auto.
  - rewrite !py_eqb_tuple. apply plain_tuple in P. apply plain_tuple in Pb. revert l' Pb.
    induction l as [|x l IHl]; intros [|y l'] Pb; try discriminate; auto.
    inversion IH as [|? ? I1 I2]; subst. inversion P as [|? ? P1 P2]; subst. inversion Pb as [|? ? Q1 Q2]; subst.
    cbn. rewrite !andb_true_iff. intros [A B]. auto.
  - cbn. rewrite !andb_true_iff, !cid_eqb_eq, !String.eqb_eq. intros [-> ->]. auto.
  - cbn. rewrite !andb_true_iff, !cid_eqb_eq. intros [-> A]. auto.
Qed.
Lemma plain_trans a : forall b c, plain_key a -> plain_key b -> plain_key c ->
  py_eqb a b = true -> py_eqb b c = true -> py_eqb a c = true.
Proof.
  induction a as [|ba|z|f|s|s|l IH|l IH|l IH|l IH|d IH|d IH|c0 d IH|c0 d IH|c0 m v IH|c0 v IH] using value_ind'; intros b c P Pb Pc E1 E2;
    (contradiction ||
    (destruct b as [|bb|z'|f'|s'|s'|l'|l'|l'|l'|d'|d'|c' d'|c' d'|c' m' v'|c' v']; (contradiction || discriminate E1 ||
    (destruct c as [|b2|z2|f2|s2|s2|l2|l2|l2|l2|d2|d2|c2 d2|c2 d2|c2 m2 v2|c2 v2]; (contradiction || discriminate E2 ||
    (cbn [py_eqb as_float] in E1, E2 |- *; try (exact (float_trans _ _ _ E1 E2)))))))).
  - reflexivity.
  - apply String.eqb_eq in E1, E2. apply String.eqb_eq. congruence.
  - apply String.eqb_eq in E1, E2. apply String.eqb_eq. congruence.
  - change (eql l l' = true) in E1. change (eql l' l2 = true) in E2. change (eql l l2 = true).
    apply plain_tuple in P. apply plain_tuple in Pb. apply plain_tuple in Pc. revert l' l2 Pb Pc E1 E2.
    induction l as [|x l IHl]; intros [|y l'] [|y2 l2] Pb Pc E1 E2; try discriminate E1; try discriminate E2; [reflexivity|].
    inversion IH as [|? ? I1 I2]; subst. inversion P as [|? ? P1 P2]; subst. inversion Pb as [|? ? Q1 Q2]; subst.
    inversion Pc as [|? ? R1 R2]; subst.
    cbn in E1, E2 |- *. apply andb_true_iff in E1 as [A B]. apply andb_true_iff in E2 as [A2 B2].
    apply andb_true_iff. split; [exact (I1 y y2 P1 Q1 R1 A A2)|exact (IHl I2 P2 l' l2 Q2 R2 B B2)].
  - apply andb_true_iff in E1, E2. rewrite cid_eqb_eq, String.eqb_eq in E1, E2. rewrite andb_true_iff, cid_eqb_eq, String.eqb_eq.
    destruct E1 as [-> ->], E2 as [-> ->]. auto.
  - apply andb_true_iff in E1, E2. rewrite cid_eqb_eq in E1, E2. rewrite andb_true_iff, cid_eqb_eq.
    destruct E1 as [-> A], E2 as [-> B]. split; [reflexivity|exact (IH v' v2 P Pb Pc A B)].
Qed.
Lemma plain_eq_keys ks : Forall plain_key ks -> eq_keys ks.
Proof.
  rewrite Forall_forall. intro P. split; [intros a H; apply plain_refl; auto|]. split.
  - intros a b Ha Hb. apply plain_sym; auto.
  - intros a b c Ha Hb Hc. apply plain_trans; auto.
Qed.

(** ** C39 *)
Lemma c39 w basic strcons cfg :
  is_std w basic strcons cfg -> wf_reflect w ->
  forall env s v n kt vt r,
  used w cfg s -> steady w basic cfg env s v (TGen n ODict (Some [kt; vt])) ->
  keys_hashable w v ->
  loads w cfg s v (TGen n ODict (Some [kt; vt])) (Ok r) ->
  exists d kvs rd,
    dict_items cfg v d /\ r = VDict rd /\
    (* the loaded items *)
    Forall2 (fun kx ky => item_loads w basic cfg s kt (fst kx) (fst ky) /\ item_loads w basic cfg s vt (snd kx) (snd ky)) d kvs /\
    (* each item of the result comes from them *)
    (forall k x, In (k, x) rd -> exists y k', In (k, y) kvs /\ In (k', x) kvs /\ (k' = k \/ py_eqb k' k = true)) /\
    (* each loaded key is in the result, with the last value *)
    (Forall plain_key (map fst kvs) ->
     forall k, In k (map fst kvs) -> exists x, dict_get k rd = Some x /\ last_with k kvs = Some x).
Proof.
  intros Hstd Hwr env s v n kt vt r U St Hh L.
  apply (dictionary w basic strcons cfg Hstd Hwr env s v _ U St Hh n kt vt eq_refl r) in L.
  destruct L as [_ [_ [d [kvs [DI [IR [_ ->]]]]]]]. exists d, kvs, (dict_of kvs).
  split; [exact DI|]. split; [reflexivity|]. split; [exact IR|]. split; [apply dict_of_from|].
  intros P k Hk. apply plain_eq_keys in P as E.
  rewrite (dict_of_last (map fst kvs) kvs k E Hk); [|intros a y H; apply (in_map fst) in H; exact H].
  destruct E as [R _]. specialize (R k Hk). clear - Hk R P.
  destruct (last_with k kvs) as [x|] eqn:LW; [exists x; auto|]. exfalso. clear P. revert Hk LW.
  induction kvs as [|[k0 x0] kvs IH]; cbn; [intros []|]. intros [->|H].
  - destruct (last_with k kvs); [discriminate|]. rewrite R. discriminate.
  - destruct (last_with k kvs); [discriminate|]. destruct (py_eqb k k0); [discriminate|]. auto.
Qed.

Lemma F2len {A B} (R : A -> B -> Prop) l1 l2 : Forall2 R l1 l2 -> List.length l1 = List.length l2.
Proof. induction 1; cbn; congruence. Qed.
