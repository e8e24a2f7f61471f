(** * Facts3: what the fields of a loaded object get (C24) *)

From Verif Require Import Loader Spec Inv Std Sound Fuel Obs Scalars Transparent Hist Eval Objects ObjFacts.

Lemma str_get_app_l {A} k (l1 l2 : list (string * A)) x : str_get k l1 = Some x -> str_get k (l1 ++ l2) = Some x.
Proof. induction l1 as [|[a b] l1 IH]; cbn; [discriminate|]. destruct (String.eqb k a); auto. Qed.
Lemma str_get_app_r {A} k (l1 l2 : list (string * A)) : ~ In k (map fst l1) -> str_get k (l1 ++ l2) = str_get k l2.
Proof.
  induction l1 as [|[a b] l1 IH]; cbn; [reflexivity|]. intro H. destruct (String.eqb_spec k a) as [->|N]; [exfalso; auto|]. apply IH. auto.
Qed.
Lemma str_get_key {A} k (l : list (string * A)) : In k (map fst l) -> exists x, str_get k l = Some x.
Proof.
  induction l as [|[a b] l IH]; cbn; [intros []|]. destruct (String.eqb_spec k a) as [->|N]; [eauto|]. intros [H|H]; [congruence|auto].
Qed.

Lemma unexpected_in l ps k x : unexpected l ps = false -> In (k, x) ps -> In k l.
Proof.
  unfold unexpected. intros U I. destruct (mem_str k l) eqn:M.
  - apply existsb_exists in M as [y [Hy E]]. apply String.eqb_eq in E. congruence.
  - assert (X : existsb (fun kv : string * value => negb (mem_str (fst kv) l)) ps = true).
    { apply existsb_exists. exists (k, x). cbn. rewrite M. auto. }
    congruence.
Qed.

Lemma bind_nt_get nt ps vals k y :
  bind_nt nt ps = Some vals -> In k (map fst nt) -> str_get k ps = Some y -> str_get k vals = Some y.
Proof.
  revert vals. induction nt as [|[k0 d] nt IH]; intros vals B I G; [destruct I|]. cbn [bind_nt map fst] in *.
  destruct (String.eqb_spec k k0) as [->|N].
  - rewrite G in B. destruct (bind_nt nt ps); cbn in B; [|discriminate]. injection B as <-. cbn. rewrite String.eqb_refl. reflexivity.
  - destruct I as [I|I]; [congruence|].
    assert (X : exists z vs, bind_nt nt ps = Some vs /\ vals = (k0, z) :: vs).
    { destruct (str_get k0 ps) as [z|], d as [z'|]; try discriminate;
        (destruct (bind_nt nt ps) as [vs|]; cbn in B; [|discriminate]; injection B as <-; eauto). }
    destruct X as [z [vs [E ->]]]. cbn. destruct (String.eqb_spec k k0); [congruence|]. exact (IH vs E I G).
Qed.

Lemma bind_fields_get an fs ps f y :
  NoDup (map f_name fs) -> In f fs -> f_init f = true -> str_get (an (f_name f)) ps = Some y ->
  forall sofar vals, ~ In (f_name f) (map fst sofar) -> bind_fields an fs ps sofar = Some vals ->
  str_get (f_name f) vals = Some y.
Proof.
  induction fs as [|f0 fs IH]; intros ND I FI G sofar vals NI B; [destruct I|].
  cbn [map] in ND. inversion ND as [|? ? N1 N2]; subst. cbn [bind_fields] in B. destruct I as [->|I].
  - rewrite FI, G in B. destruct (bind_fields_spec _ _ _ _ _ B) as [new [-> _]]. rewrite <- app_assoc, str_get_app_r by exact NI.
    cbn. rewrite String.eqb_refl. reflexivity.
  - assert (NE : f_name f0 <> f_name f) by (intro E; apply N1; rewrite E; apply in_map; exact I).
    assert (NI' : forall z, ~ In (f_name f) (map fst (sofar ++ [(f_name f0, z)]))).
    { intros z H. rewrite map_app in H. apply in_app_or in H as [H|[H|[]]]; [contradiction|cbn in H; congruence]. }
    destruct (f_init f0).
    + destruct (str_get (an (f_name f0)) ps); [exact (IH N2 I FI G _ _ (NI' _) B)|].
      destruct (default_of _ sofar); [exact (IH N2 I FI G _ _ (NI' _) B)|discriminate].
    + destruct (default_of _ sofar); [exact (IH N2 I FI G _ _ (NI' _) B)|exact (IH N2 I FI G _ _ NI B)].
Qed.

(** the attributes are the arguments, or defaults *)
Lemma construct_binds w basic strcons cfg c ps r :
  wf_world w basic strcons -> distinct_names w cfg c ->
  (forall k x, In (k, x) ps -> In k (map fst (obj_fields w cfg c))) ->
  construct w (TClass c) ps = POk r ->
  exists fs, bound_fields w c r fs /\
    (forall k y, str_get k ps = Some y -> str_get k fs = Some y) /\
    (forall k y, ~ In k (map fst ps) -> In k (map fst (obj_fields w cfg c)) -> str_get k fs = Some y -> is_default w c k y).
Proof.
  intros Hwf [ND _] HP. unfold construct, bound_fields, is_default.
  destruct (ci_nt (class_of w c)) as [nt|] eqn:N.
  { assert (K : kind_of_class w c = Some (KNT nt)) by (unfold kind_of_class; rewrite N; reflexivity). rewrite K.
    destruct (unexpected _ ps) eqn:U; [discriminate|]. destruct (bind_nt nt ps) as [vals|] eqn:B; [|discriminate]. intros [= <-].
    exists vals. split; [reflexivity|]. split.
    - intros k y G. apply (bind_nt_get _ _ _ _ _ B); [|exact G]. exact (unexpected_in _ _ _ _ U (str_get_In _ _ _ G)).
    - intros k y NI _ G. apply str_get_In in G. destruct (proj2 (bind_nt_spec _ _ _ B) _ _ G) as [H|H]; [|exact H].
      apply (in_map fst) in H. contradiction. }
  destruct (ci_dc (class_of w c)) as [fs|] eqn:D.
  { assert (K : kind_of_class w c = Some (KDC fs)) by (unfold kind_of_class; rewrite N, D; reflexivity). rewrite K.
    assert (ND' : NoDup (map f_name fs)). { unfold obj_fields in ND. rewrite K, map_map in ND. exact ND. }
    unfold construct_fields. destruct (unexpected _ ps) eqn:U; [discriminate|].
    destruct (bind_fields _ fs ps []) as [vals|] eqn:B; [|discriminate].
    destruct (ci_post (class_of w c) vals) as [vals'|] eqn:PO; [|discriminate]. intros [= <-].
    exists vals. split; [eauto|]. split.
    - intros k y G. pose proof (unexpected_in _ _ _ _ U (str_get_In _ _ _ G)) as H. apply in_map_iff in H as [f [<- H]].
      apply filter_In in H as [H FI]. exact (bind_fields_get (fun s => s) fs ps f y ND' H FI G [] vals (fun x => x) B).
    - intros k y NI _ G. apply str_get_In in G. destruct (bind_fields_spec _ _ _ _ _ B) as [new [-> [_ B2]]]. cbn [app] in G.
      destruct (B2 _ _ G) as [f [Hf [Hn [Hd|[_ Hx]]]]]; [exists f; auto|]. apply (in_map fst) in Hx. contradiction. }
  destruct (ci_attrs (class_of w c)) as [fs|] eqn:A.
  { assert (K : kind_of_class w c = Some (KAT fs)) by (unfold kind_of_class; rewrite N, D, A; reflexivity). rewrite K.
    assert (EF : map fst (obj_fields w cfg c) = map f_name fs) by (unfold obj_fields; rewrite K, map_map; reflexivity).
    assert (ND' : NoDup (map f_name fs)) by (rewrite <- EF; exact ND).
    unfold construct_fields. destruct (unexpected _ ps) eqn:U; [discriminate|].
    destruct (bind_fields _ fs ps []) as [vals|] eqn:B; [|discriminate].
    destruct (ci_post (class_of w c) vals) as [vals'|] eqn:PO; [|discriminate]. intros [= <-].
    exists vals. split; [eauto|]. split.
    - intros k y G. pose proof (str_get_In _ _ _ G) as G'. pose proof (unexpected_in _ _ _ _ U G') as H. apply in_map_iff in H as [f [E H]].
      apply filter_In in H as [H FI]. apply HP in G' as G2. rewrite EF in G2.
      assert (S : strip_underscore (f_name f) = f_name f) by (eapply (wf_attrs _ _ _ Hwf); [exact A|exact H|exact FI|rewrite E; exact G2]).
      rewrite S in E. subst k. apply (bind_fields_get strip_underscore fs ps f y ND' H FI) with (sofar := []); [rewrite S; exact G|intros []|exact B].
    - intros k y NI _ G. apply str_get_In in G. destruct (bind_fields_spec _ _ _ _ _ B) as [new [-> [_ B2]]]. cbn [app] in G.
      destruct (B2 _ _ G) as [f [Hf [Hn [Hd|[FI Hx]]]]]; [exists f; auto|]. exfalso. subst k.
      assert (S : strip_underscore (f_name f) = f_name f).
      { eapply (wf_attrs _ _ _ Hwf); [exact A|exact Hf|exact FI|]. rewrite <- EF. exact (HP _ _ Hx). }
      rewrite S in Hx. apply (in_map fst) in Hx. contradiction. }
  destruct (ci_td (class_of w c)) as [req|] eqn:T; [|discriminate].
  assert (K : kind_of_class w c = Some (KTD req)) by (unfold kind_of_class; rewrite N, D, A, T; reflexivity). rewrite K.
  intros [= <-]. exists ps. split; [reflexivity|]. split; [auto|]. intros k y NI _ G. apply str_get_In in G. apply (in_map fst) in G. contradiction.
Qed.

Lemma field_of_In w cfg c k f : field_of w cfg c k = Some f -> exists e, k = VStr e /\ In (f, e) (obj_fields w cfg c).
Proof.
  unfold field_of. destruct k; try discriminate. intro H. exists s. split; [reflexivity|]. apply str_get_In in H.
  apply in_map_iff in H as [[a b] [[= <- <-] H]]. exact H.
Qed.
Lemma field_of_field w cfg c f e : distinct_names w cfg c -> In (f, e) (obj_fields w cfg c) -> field_of w cfg c (VStr e) = Some f.
Proof.
  intros [_ N] H. unfold field_of. apply str_get_NoDup; [rewrite map_map; exact N|]. apply in_map_iff. exists (f, e). auto.
Qed.
Lemma given_In w cfg c d f x : In (f, x) (given w cfg c d) -> exists e, In (f, e) (obj_fields w cfg c) /\ In (VStr e, x) d.
Proof.
  unfold given. intro H. apply in_flat_map in H as [[k y] [H1 H2]]. cbn in H2. destruct (field_of w cfg c k) as [g|] eqn:F; [|destruct H2].
  destruct H2 as [[= -> ->]|[]]. destruct (field_of_In _ _ _ _ _ F) as [e [-> H]]. eauto.
Qed.
Lemma given_get w cfg c d f e x :
  distinct_names w cfg c -> py_dict d -> In (f, e) (obj_fields w cfg c) -> In (VStr e, x) d -> str_get f (given w cfg c d) = Some x.
Proof.
  intros DN PD HF. unfold given. induction PD as [|[k0 x0] d F P IH]; intro I; [destruct I|]. cbn [flat_map fst snd] in *.
  destruct (field_of w cfg c k0) as [g|] eqn:FO.
  - cbn [app str_get]. destruct (String.eqb_spec f g) as [->|N].
    + destruct (field_of_In _ _ _ _ _ FO) as [e0 [-> H0]].
      assert (e0 = e). { apply (str_get_NoDup _ _ _ (proj1 DN)) in H0. apply (str_get_NoDup _ _ _ (proj1 DN)) in HF. congruence. }
      subst e0. destruct I as [[= ->]|I]; [reflexivity|]. rewrite Forall_forall in F. specialize (F _ I). cbn in F.
      rewrite String.eqb_refl in F. discriminate.
    + destruct I as [[= -> ->]|I]; [|exact (IH I)]. exfalso. rewrite (field_of_field _ _ _ _ _ DN HF) in FO. congruence.
  - cbn [app]. destruct I as [[= -> ->]|I]; [|exact (IH I)]. exfalso. rewrite (field_of_field _ _ _ _ _ DN HF) in FO. discriminate.
Qed.

Lemma c24 w basic strcons cfg :
  is_std w basic strcons cfg -> wf_reflect w -> wf_world w basic strcons ->
  forall env s v c,
  used w cfg s -> steady w basic cfg env s v (TClass c) ->
  object_class w basic strcons c -> resolvable w cfg c -> distinct_names w cfg c -> proper_data v ->
  forall r, loads w cfg s v (TClass c) (Ok r) ->
  exists d fs, obj_data w cfg c v d /\ bound_fields w c r fs /\
    (forall f e x, In (f, e) (obj_fields w cfg c) -> In (VStr e, x) d ->
       exists t y, str_get f (declared w (pep563 cfg) c) = Some t /\ loads w cfg s x t (Ok y) /\ str_get f fs = Some y) /\
    (forall f e y, In (f, e) (obj_fields w cfg c) -> ~ In (VStr e) (map fst d) -> str_get f fs = Some y -> is_default w c f y).
Proof.
  intros Hs Hw Hwf env s v c U St OC R DN PV r L.
  pose proof PV as PV'.
  apply (object w basic strcons cfg Hs Hw env s v _ U St c eq_refl OC R DN PV r) in L as [d [OD [_ [_ [ps [FL CT]]]]]].
  pose proof (proper_data_dict w cfg c v d PV OD) as PD.
  assert (EK : map fst ps = map fst (given w cfg c d)).
  { clear -FL. induction FL as [|a b l l' [E _] FL IH]; [reflexivity|]. cbn. f_equal; [symmetry; exact E|exact IH]. }
  assert (HP : forall k x, In (k, x) ps -> In k (map fst (obj_fields w cfg c))).
  { intros k x H. apply (in_map fst) in H. cbn in H. rewrite EK in H. apply in_map_iff in H as [[k' x'] [<- H]].
    apply given_In in H as [e [H _]]. apply (in_map fst) in H. exact H. }
  destruct (construct_binds w basic strcons cfg c ps r Hwf DN HP CT) as [fs [BF [B1 B2]]].
  exists d, fs. split; [exact OD|]. split; [exact BF|]. split.
  - intros f e x HF HD. pose proof (given_get w cfg c d f e x DN PD HF HD) as G.
    assert (X : exists y t, str_get f ps = Some y /\ str_get f (declared w (pep563 cfg) c) = Some t /\ loads w cfg s x t (Ok y)).
    { clear -FL G. induction FL as [|[a b] [a' b'] l l' H FL IH]; [discriminate|]. destruct H as [E [t [H1 H2]]]. cbn in E, H1, H2. subst a'.
      cbn in *. destruct (String.eqb_spec f a) as [->|N]; [|auto]. injection G as ->. eauto. }
    destruct X as [y [t [G1 [G2 G3]]]]. exists t, y. auto.
  - intros f e y HF NI G. apply (B2 f y); [|apply (in_map fst) in HF; exact HF|exact G]. rewrite EK. intro H.
    apply in_map_iff in H as [[k' x'] [Q H]]. cbn in Q. subst k'. apply given_In in H as [e' [H1 H2]]. apply NI.
    assert (e' = e). { apply (str_get_NoDup _ _ _ (proj1 DN)) in H1. apply (str_get_NoDup _ _ _ (proj1 DN)) in HF. congruence. }
    subst e'. apply (in_map fst) in H2. exact H2.
Qed.
