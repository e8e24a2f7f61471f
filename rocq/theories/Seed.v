(** * Seed: the hash seed of the process (C58)

    Python draws a new hash seed for each process, and the iteration order of
    the sets of strings depends on it: which of the common Literal keys of the
    members of a union is the discriminator ([keys.pop()], dataloader.py 693),
    and the order of the fields of a dataclass in a dump (datadumper.py 266). *)

From Verif Require Import Loader Dumper Spec Vocab Inv Std Sound Fuel Obs Scalars Simple Transparent Hist Reuse Index Objects
  Reference RefSound RefComplete Local Dumps.
From Coq Require Import Permutation.

(** ** Vocabulary *)

Definition union_type (t : ty) : Prop := exists n args, t = TGen n OUnion (Some args).
(** [t] is a union, or, by line 396 of dataloader.py, the type of the keys of a
    Dict whose values are a union *)
Definition as_union (R : ty -> Prop) (t : ty) : Prop :=
  union_type t \/ exists n o vt, R (TGen n o (Some [t; vt])) /\ union_type vt.

(** equal data, the order of the keys of the dictionaries aside *)
Inductive same_data : value -> value -> Prop :=
| sm_same v : same_data v v
| sm_list l l' : Forall2 same_data l l' -> same_data (VList l) (VList l')
| sm_dict d d1 d' : Permutation d d1 ->
    Forall2 (fun a b => fst a = fst b /\ same_data (snd a) (snd b)) d1 d' -> same_data (VDict d) (VDict d').
(** both fail, or both return, the same data *)
Definition same_dump (r r' : res value) : Prop :=
  match r, r' with
  | Ok x, Ok x' => same_data x x'
  | Exc _, Exc _ => True
  | OOF, OOF => True
  | _, _ => False
  end.

(** ** The discriminator *)
Lemma plain_tags_reseed w pick order args : plain_tags w args -> plain_tags (reseed w pick order) args.
Proof. intros [H1 H2 H3 H4]. constructor; assumption. Qed.

Lemma nth_same (l : list string) i j : (forall a b, In a l -> In b l -> a = b) ->
  nth_error l (i mod List.length l) = nth_error l (j mod List.length l).
Proof.
  intro H. destruct l as [|x l]; [cbn [List.length]; destruct (i mod 0), (j mod 0); reflexivity|].
  assert (X : forall k, nth_error (x :: l) (k mod List.length (x :: l)) = Some x).
  { intro k. assert (L : k mod List.length (x :: l) < List.length (x :: l)) by (apply Nat.mod_upper_bound; discriminate).
    destruct (nth_error (x :: l) (k mod List.length (x :: l))) as [y|] eqn:E.
    - f_equal. apply H; [eapply nth_error_In; exact E|left; reflexivity].
    - apply nth_error_None in E. lia. }
  rewrite !X. reflexivity.
Qed.

Lemma lits_tag w s t k : In k (map fst (discriminatorliterals w s t)) -> has_tag w t k.
Proof.
  intro H. apply in_map_iff in H as [[k0 vals] [<- H]]. destruct t as [c| | | | | | | ]; try contradiction.
  cbn [discriminatorliterals] in H. apply in_flat_map in H as [[k1 a] [I E]]. cbn [fst snd] in E.
  destruct a as [| |l| | | | | ]; try contradiction. destruct E as [[= <- <-]|[]]. cbn [fst].
  unfold annotations in I. destruct (mem_cid c (st_stripped s)).
  - apply in_map_iff in I as [[k2 a2] [E I]]. injection E as <- E2. exists c, a2, l. repeat split; [exact I|exact E2].
  - exists c, (TLiteral l), l. repeat split; exact I.
Qed.

Lemma disc_reseed w pick order s args : one_tag w args -> build_disc (reseed w pick order) s args = build_disc w s args.
Proof.
  intro O. unfold build_disc. change (discriminatorliterals (reseed w pick order)) with (discriminatorliterals w).
  cbv zeta. match goal with |- match nth_error ?K ?i with _ => _ end = match nth_error ?K' ?j with _ => _ end =>
    change K' with K; set (keys := K) end.
  rewrite (nth_same keys _ (w_pick w keys)); [reflexivity|].
  assert (T : forall k, In k keys -> args <> [] /\ forall x, In x args -> has_tag w x k).
  { intros k. subst keys. destruct args as [|a args]; [intros []|]. cbn [map fst snd]. intro I.
    apply filter_In in I as [I F]. split; [discriminate|]. intros x [<-|Hx]; [eapply lits_tag; exact I|].
    rewrite forallb_forall in F. rewrite map_map in F. cbn [snd] in F.
    specialize (F (map fst (discriminatorliterals w s x)) (in_map (fun y => map fst (discriminatorliterals w s y)) args x Hx)).
    apply mem_str_In in F. eapply lits_tag. exact F. }
  intros k1 k2 I1 I2. destruct (T k1 I1) as [N H1]. destruct (T k2 I2) as [_ H2]. exact (O N k1 k2 H1 H2).
Qed.

(** ** load: the same outcome, when every union has at most one possible
      discriminator *)
Lemma seed_load w basic strcons cfg pick order :
  is_std w basic strcons cfg -> wf_reflect w ->
  forall env s v t, used w cfg s ->
  (forall n t', reach w (pep563 cfg) env t (TForward n) -> knows s n t' -> env n = Some t') ->
  (forall n t', reach w (pep563 cfg) env t (TForward n) -> reach w (pep563 cfg) env t t' -> w_name w t' = Some n -> env n = Some t') ->
  (forall n o c vt t', reach w (pep563 cfg) env t (TGen n o (Some [TClass c; vt])) -> annotated w c t' -> reach w (pep563 cfg) env t t') ->
  (forall t' args, reach w (pep563 cfg) env t t' -> as_union (reach w (pep563 cfg) env t) t' -> ty_args t' = Some args -> one_tag w args) ->
  (forall c fs, reach w (pep563 cfg) env t (TClass c) -> ci_dc (class_of w c) = Some fs ->
     NoDup (map f_name fs) /\ NoDup (map (external cfg false) fs)) ->
  forall n, load w cfg n v t s = load (reseed w pick order) cfg n v t s.
Proof.
  intros Hstd Hwr env s v t U Kn Nm Mi Tg Nd n. pose proof (used_coh _ _ _ U) as C.
  destruct cfg as [b2 ca2 ex2 rc2 dq2 mk2 ud2 p2 h2]. cbn [pep563] in *.
  assert (UT : forall t', find_handler (mkConfig b2 ca2 ex2 rc2 dq2 mk2 ud2 p2 h2) t' = POk HUnion -> union_type t').
  { intros t' F. apply (std_selected w basic strcons _ t' _ Hstd) in F. cbn in F. destruct F as [n0 [a ->]]. exists n0, a. reflexivity. }
  apply (local_load w pick order basic strcons b2 ca2 ex2 rc2 rc2 dq2 mk2 ud2 p2 h2 h2 Hstd Hwr env (reach w p2 env t)
     (fun a b => reach_step w p2 env t a b) (fun _ _ => eq_refl)); [| exact Nm | exact Mi | |apply reach_refl|exact C|].
  - intros c fs R D. destruct (Nd c fs R D) as [N1 N2].
    exact (eq_trans (dc_transforms_flat (reseed w pick order) (mkConfig b2 ca2 ex2 rc2 dq2 mk2 ud2 p2 h2) fs N1 N2) (eq_sym (dc_transforms_flat w (mkConfig b2 ca2 ex2 rc2 dq2 mk2 ud2 p2 h2) fs N1 N2))).
  - intros t' args s' R Ru A. apply disc_reseed. apply (Tg t' args R); [|exact A].
    destruct Ru as [F|[n0 [o [vt [R' F]]]]]; [left|right; exists n0, o, vt; split; [exact R'|]]; apply UT; exact F.
  - intros m fr t' R F S0. apply (Kn m t' R). exists fr. auto.
Qed.

(** ** The readings do not depend on the seed *)
Section Readings.
  Variable w : world.
  Variable pick : list string -> nat.
  Variable order : list string -> list string.
  Variables basic strcons : list cid.
  Variable cfg : config.
  Variable env : string -> option ty.
  Variable unseen : ty -> Prop.
  Notation w' := (reseed w pick order).

  Lemma gives_reseed : 
    (forall v t r, gives w basic strcons cfg env unseen v t r -> gives w' basic strcons cfg env unseen v t r) /\
    (forall v t r, reads w basic strcons cfg env unseen v t r -> reads w' basic strcons cfg env unseen v t r).
  Proof using.
    apply (gives_reads_ind w basic strcons cfg env unseen).
    all: intros.
    1: apply gv_none.
    1: apply gv_same; assumption.
    1: eapply gv_cast; eassumption.
    1: apply gv_any.
    1: apply gv_literal; assumption.
    1: eapply gv_collection; eassumption.
    1: eapply gv_tuple; eassumption.
    1: eapply gv_dict; eassumption.
    1: eapply gv_object; eassumption.
    1: eapply gv_enum; eassumption.
    1: eapply gv_enum_hint; eassumption.
    1: eapply gv_iso; eassumption.
    1: eapply gv_args; eassumption.
    1: eapply gv_timedelta; eassumption.
    1: eapply gv_pattern; eassumption.
    1: eapply gv_string; eassumption.
    1: eapply gv_newtype; eassumption.
    1: eapply gv_forward; eassumption.
    1: eapply gv_union_own; eassumption.
    1: eapply gv_union; eassumption.
    1: eapply gv_dict_396; eassumption.
    1: eapply rd_same; eassumption.
    1: eapply rd_gives; eassumption.
  Qed.
End Readings.

(** ** dump *)
Section DumpSeed.
  Variable w : world.
  Variable pick : list string -> nat.
  Variable order : list string -> list string.
  Variables basic strcons : list cid.
  Variable cfg : dconfig.
  Hypothesis Hstd : is_dstd w basic strcons cfg.
  Notation w' := (reseed w pick order).

  Definition alike (a b : list (value * value)) : Prop :=
    Forall2 (fun x y => fst x = fst y /\ same_data (snd x) (snd y)) a b.
  Lemma alike_set k y y' a b : same_data y y' -> alike a b -> alike (dict_set k y a) (dict_set k y' b).
  Proof using.
    intros Sy A. induction A as [|[k1 x1] [k2 x2] a b [E Sx] A IH]; cbn [dict_set].
    - constructor; [split; [reflexivity|exact Sy]|constructor].
    - cbn [fst snd] in E, Sx. subst k2. destruct (py_eqb k k1).
      + constructor; [split; [reflexivity|exact Sy]|exact A].
      + constructor; [split; [reflexivity|exact Sx]|exact IH].
  Qed.
  Lemma same_dict a b : alike a b -> same_data (VDict a) (VDict b).
  Proof using. intro A. apply (sm_dict a a b); [reflexivity|exact A]. Qed.
  Lemma same_rbind r r' f f' :
    same_dump r r' -> (forall x x', same_data x x' -> same_dump (f x) (f' x')) -> same_dump (rbind r f) (rbind r' f').
  Proof using. destruct r, r'; cbn; intros H G; try contradiction; auto. Qed.
  Lemma same_refl (r : res value) : same_dump r r.
  Proof using. destruct r; cbn; auto. apply sm_same. Qed.
  Lemma same_hash x x' : same_data x x' -> hashable w x = hashable w x' /\ (hashable w x = true -> x = x').
  Proof using. intro H. destruct H; split; try reflexivity; discriminate. Qed.

  (** the items which a field adds to the dictionary *)
  Definition adds (D : value -> ty -> res value) (v : value) (fs : list field) (df : list (string * value)) (hs : list (string * ty))
      (k : string) : res (list (value * value)) :=
    match find (fun f => String.eqb (f_name f) k) fs with
    | None => Exc (XRaw RKey)
    | Some f =>
        rbind (rlift (getattr v k)) (fun x =>
        if d_hide cfg && match str_get k df with Some d => py_eqb d x | None => false end then Ok []
        else rbind (D x (match str_get k hs with Some h => h | None => TAny end)) (fun y => Ok [(VStr (dump_name cfg f), y)]))
    end.
  Definition items_of (r : res (list (value * value))) : list (value * value) := match r with Ok l => l | _ => [] end.
  Definition is_ok {A} (r : res A) : bool := match r with Ok _ => true | _ => false end.

  Lemma adds_key D v fs df hs k kv : In kv (items_of (adds D v fs df hs k)) ->
    exists f, In f fs /\ f_name f = k /\ fst kv = VStr (dump_name cfg f).
  Proof using.
    unfold adds. destruct (find _ fs) as [f|] eqn:E; [|intros []]. apply find_some in E as [I Q]. apply String.eqb_eq in Q.
    destruct (getattr v k); cbn [rlift rbind]; [|intros []]. destruct (_ && _); [intros []|].
    destruct (D _ _); cbn; [|intros []|intros []]. intros [<-|[]]. exists f. auto.
  Qed.

  Lemma set_new k y (acc : list (value * value)) : (forall kv, In kv acc -> py_eqb k (fst kv) = false) -> dict_set k y acc = acc ++ [(k, y)].
  Proof using.
    induction acc as [|[k1 x1] acc IH]; intro H; [reflexivity|]. cbn [dict_set app].
    pose proof (H (k1, x1) (or_introl eq_refl)) as Q. cbn [fst] in Q. rewrite Q. f_equal. apply IH. intros kv I. apply H. right. exact I.
  Qed.

  Lemma ext_inj (fs : list field) f g : NoDup (map (dump_name cfg) fs) -> In f fs -> In g fs -> dump_name cfg f = dump_name cfg g -> f = g.
  Proof using.
    intros N If Ig E. induction fs as [|h fs IH]; [contradiction|]. cbn [map] in N. apply NoDup_cons_iff in N as [N1 N2].
    destruct If as [<-|If], Ig as [<-|Ig]; [reflexivity| | |exact (IH N2 If Ig)].
    - exfalso. apply N1. rewrite E. apply in_map. exact Ig.
    - exfalso. apply N1. rewrite <- E. apply in_map. exact If.
  Qed.

  Lemma pdc_adds D v fs info names acc :
    NoDup (map (dump_name cfg) fs) -> NoDup names ->
    (forall kv, In kv acc -> exists f, In f fs /\ ~ In (f_name f) names /\ fst kv = VStr (dump_name cfg f)) ->
    let A := adds D v fs (dc_defaults info) (dc_hints info) in
    (forallb (fun k => is_ok (A k)) names = true /\ pdc_loop cfg D v fs info names acc = Ok (VDict (acc ++ flat_map (fun k => items_of (A k)) names))) \/
    (forallb (fun k => is_ok (A k)) names = false /\ forall x, pdc_loop cfg D v fs info names acc <> Ok x).
  Proof using.
    intros Nf Nn Ka A. revert acc Ka. induction names as [|k names IH]; intros acc Ka.
    - left. split; [reflexivity|]. cbn. rewrite app_nil_r. reflexivity.
    - apply NoDup_cons_iff in Nn as [Nk Nn]. cbn [forallb flat_map pdc_loop].
      assert (EA : A k = adds D v fs (dc_defaults info) (dc_hints info) k) by reflexivity. unfold adds in EA.
      destruct (find _ fs) as [f|] eqn:E; [|rewrite EA; right; split; [reflexivity|discriminate]].
      apply find_some in E as [I Q]. apply String.eqb_eq in Q.
      destruct (getattr v k) as [x|]; cbn [rlift rbind] in *; [|rewrite EA; right; split; [reflexivity|discriminate]].
      assert (Ka' : forall kv, In kv acc -> exists g, In g fs /\ ~ In (f_name g) names /\ fst kv = VStr (dump_name cfg g)).
      { intros kv Ik. destruct (Ka kv Ik) as [g [Ig [Ng Eg]]]. exists g. split; [exact Ig|]. split; [|exact Eg]. intro. apply Ng. right. assumption. }
      destruct (d_hide cfg && _); [rewrite EA; cbn [is_ok items_of andb app]; apply (IH Nn acc Ka')|].
      destruct (D x _) as [y| |]; cbn [rbind] in *; rewrite EA; cbn [is_ok items_of andb];
        [|right; split; [reflexivity|discriminate]|right; split; [reflexivity|discriminate]].
      rewrite set_new.
      + replace (acc ++ [(VStr (dump_name cfg f), y)] ++ flat_map (fun k => items_of (A k)) names)
          with ((acc ++ [(VStr (dump_name cfg f), y)]) ++ flat_map (fun k => items_of (A k)) names) by (symmetry; apply app_assoc).
        apply (IH Nn). intros kv Ik. apply in_app_or in Ik as [Ik|[<-|[]]]; [exact (Ka' kv Ik)|]. exists f. split; [exact I|]. split; [congruence|reflexivity].
      + intros kv Ik. destruct (Ka kv Ik) as [g [Ig [Ng Eg]]]. rewrite Eg. cbn. apply String.eqb_neq. intro Ee. symmetry in Ee.
        apply (ext_inj fs g f Nf Ig I) in Ee. subst g. apply Ng. left. congruence.
  Qed.

  Lemma adds_same D D' v fs df hs k : (forall x t, holds v x -> same_dump (D x t) (D' x t)) ->
    is_ok (adds D v fs df hs k) = is_ok (adds D' v fs df hs k) /\ alike (items_of (adds D v fs df hs k)) (items_of (adds D' v fs df hs k)).
  Proof using.
    intro H. unfold adds. destruct (find _ fs) as [f|]; [|split; [reflexivity|constructor]].
    destruct (getattr v k) as [x|] eqn:G; cbn [rlift rbind]; [|split; [reflexivity|constructor]].
    destruct (_ && _); [split; [reflexivity|constructor]|].
    set (t := match str_get k hs with Some h => h | None => TAny end).
    specialize (H x t (getattr_holds _ _ _ G)).
    destruct (D x t), (D' x t); cbn in *; try contradiction; split; try reflexivity; repeat constructor. exact H.
  Qed.
  Lemma flat_alike (f g : string -> list (value * value)) l : (forall k, In k l -> alike (f k) (g k)) -> alike (flat_map f l) (flat_map g l).
  Proof using.
    induction l as [|k l IH]; intro H; cbn [flat_map]; [constructor|]. apply Forall2_app; [apply H; left; reflexivity|].
    apply IH. intros. apply H. right. assumption.
  Qed.
  Lemma forallb_perm {A} (f : A -> bool) l l' : Permutation l l' -> forallb f l = forallb f l'.
  Proof using.
    intro P. induction P; cbn [forallb]; [reflexivity|congruence| |congruence].
    destruct (f x), (f y); reflexivity.
  Qed.
  Lemma forallb_same {A} (f g : A -> bool) l : (forall k, f k = g k) -> forallb f l = forallb g l.
  Proof using. intro H. induction l as [|k l IH]; cbn [forallb]; [reflexivity|]. rewrite H, IH. reflexivity. Qed.

  Lemma pdc_same D D' v fs df hs names names' :
    NoDup (map (dump_name cfg) fs) -> NoDup names -> Permutation names names' ->
    (forall x t, D x t <> OOF) -> (forall x t, D' x t <> OOF) ->
    (forall x t, holds v x -> same_dump (D x t) (D' x t)) ->
    same_dump (pdc_loop cfg D v fs (mkDcinfo names df hs) names []) (pdc_loop cfg D' v fs (mkDcinfo names' df hs) names' []).
  Proof using.
    intros Nf Nn P O O' H.
    assert (Nn' : NoDup names') by (eapply Permutation_NoDup; eassumption).
    assert (NO : forall D0 info ns acc, (forall x t, D0 x t <> OOF) -> pdc_loop cfg D0 v fs info ns acc <> OOF).
    { intros D0 info ns acc O0. revert acc. induction ns as [|k ns IH]; intro acc; cbn [pdc_loop]; [discriminate|].
      destruct (find _ fs); [|discriminate]. apply rbind_OOF; [apply rlift_OOF|]. intro x. destruct (_ && _); [apply IH|].
      apply rbind_OOF; [apply O0|]. intro. apply IH. }
    assert (X := pdc_adds D v fs (mkDcinfo names df hs) names [] Nf Nn (fun kv I => match I with end)).
    assert (X' := pdc_adds D' v fs (mkDcinfo names' df hs) names' [] Nf Nn' (fun kv I => match I with end)).
    cbn [dc_defaults dc_hints app] in X, X'. cbv zeta in X, X'.
    assert (Q : forallb (fun k => is_ok (adds D v fs df hs k)) names = forallb (fun k => is_ok (adds D' v fs df hs k)) names').
    { rewrite (forallb_perm _ _ _ P). apply forallb_same. intro k. apply (adds_same D D' v fs df hs k H). }
    destruct X as [[T ->]|[F E]], X' as [[T' ->]|[F' E']]; try congruence.
    - cbn. apply (sm_dict _ (flat_map (fun k => items_of (adds D v fs df hs k)) names')).
      + apply Permutation_flat_map. exact P.
      + apply flat_alike. intros k _. apply (adds_same D D' v fs df hs k H).
    - pose proof (NO D (mkDcinfo names df hs) names [] O) as N1. pose proof (NO D' (mkDcinfo names' df hs) names' [] O') as N2.
      destruct (pdc_loop cfg D _ _ _ _ _); [exfalso; eapply E; reflexivity| |contradiction].
      destruct (pdc_loop cfg D' _ _ _ _ _); [exfalso; eapply E'; reflexivity| |contradiction]. exact I.
  Qed.

  Lemma pbody_same D D' h v t :
    dfind cfg v = inl h ->
    (forall fs, ci_dc (class_of w (type_of v)) = Some fs -> NoDup (map f_name fs) /\ NoDup (map (dump_name cfg) fs)) ->
    (forall x t, D x t <> OOF) -> (forall x t, D' x t <> OOF) ->
    (forall x t', holds v x -> same_dump (D x t') (D' x t')) ->
    same_dump (pbody w cfg D h v t) (pbody w' cfg D' h v t).
  Proof using Hstd.
    intros F Nd O O' H. destruct h; cbn [pbody]; try apply same_refl.
    - destruct v; try apply same_refl. change (class_of w' c) with (class_of w c).
      generalize (match ci_nt (class_of w c) with Some l => l | None => [] end) as ds. intro ds.
      assert (H' : forall f x, In (f, x) fs -> forall t', same_dump (D x t') (D' x t')) by (intros f x I t'; apply H; eapply holds_nt; exact I).
      clear H F Nd. assert (A : alike [] []) by constructor. revert A. generalize (@nil (value * value)) at 1 3 as acc. generalize (@nil (value * value)) as acc'.
      induction fs as [|[k x] fs IH]; intros acc' acc A; cbn [pnt_loop]; [apply same_dict; exact A|].
      assert (IH' := IH (fun f x I => H' f x (or_intror I))).
      destruct (_ && _); [apply IH'; exact A|]. apply same_rbind; [apply (H' k); left; reflexivity|].
      intros y y' S. apply IH'. apply alike_set; assumption.
    - change (ci_dc (class_of w' (type_of v))) with (ci_dc (class_of w (type_of v))).
      destruct (ci_dc (class_of w (type_of v))) as [fs|]; [|apply same_refl]. destruct (Nd fs eq_refl) as [N1 N2].
      unfold dc_info. change (ci_ihints (class_of w' (type_of v))) with (ci_ihints (class_of w (type_of v))).
      destruct (ci_ihints _) as [hs|]; [|apply same_refl]. cbn [rlift rbind dc_fields].
      apply pdc_same; try assumption.
      + exact (Permutation_NoDup (Permutation_sym (set_iter_perm w _)) N1).
      + exact (perm_trans (set_iter_perm w _) (Permutation_sym (set_iter_perm w' _))).
    - destruct (iter v) as [l|] eqn:E; [|apply same_refl]. destruct (_ && _); [apply same_refl|].
      assert (H' : forall x, In x l -> same_dump (D x TAny) (D' x TAny)) by (intros x I; apply H; eapply iter_holds; eassumption).
      clear E. assert (A : Forall2 same_data [] []) by constructor. revert A. generalize (@nil value) at 1 3 as acc. generalize (@nil value) as acc'.
      induction l as [|x l IH]; intros acc' acc A; cbn [pdump_list]; [apply sm_list; exact A|].
      apply same_rbind; [apply H'; left; reflexivity|]. intros y y' S. apply IH.
      + intros z I. apply H'. right. exact I.
      + apply Forall2_app; [exact A|]. constructor; [exact S|constructor].
    - destruct v; try apply same_refl. apply H. constructor.
    - destruct v as [| | | | | | | | | |d| | | | |]; try apply same_refl.
      assert (H' : forall k x, In (k, x) d -> same_dump (D k TAny) (D' k TAny) /\ same_dump (D x TAny) (D' x TAny)).
      { intros k x I; split; apply H; [eapply holds_key|eapply holds_value]; exact I. }
      clear H F Nd. assert (A : alike [] []) by constructor. revert A. generalize (@nil (value * value)) at 1 3 as acc. generalize (@nil (value * value)) as acc'.
      induction d as [|[k x] d IH]; intros acc' acc A; cbn [pdict_loop]; [apply same_dict; exact A|].
      destruct (H' k x) as [Hk Hx]; [left; reflexivity|]. apply same_rbind; [exact Hk|]. intros k1 k2 Sk.
      apply same_rbind; [exact Hx|]. intros y y' S. change (hashable w' k2) with (hashable w k2).
      destruct (same_hash k1 k2 Sk) as [Eh Ek]. rewrite <- Eh. destruct (hashable w k1); [|exact I].
      rewrite <- (Ek eq_refl). apply IH; [intros k0 x0 I0; apply H'; right; exact I0|]. apply alike_set; assumption.
    - change (ci_attrs (class_of w' (type_of v))) with (ci_attrs (class_of w (type_of v))).
      destruct (ci_attrs _) as [fs|]; [|apply same_refl].
      assert (A : alike [] []) by constructor. revert A. generalize (@nil (value * value)) at 1 3 as acc. generalize (@nil (value * value)) as acc'.
      induction fs as [|f fs IH]; intros acc' acc A; cbn [pattr_loop]; [apply same_dict; exact A|].
      destruct (getattr v (f_name f)) as [x|] eqn:G; cbn [rlift rbind]; [|exact I].
      destruct (negb (f_repr f)); [apply IH; exact A|]. destruct (attr_hidden cfg f x) as [[|]|]; cbn [rlift rbind]; [apply IH; exact A| |exact I].
      apply same_rbind; [apply H; eapply getattr_holds; exact G|]. intros y y' S. apply IH. apply alike_set; assumption.
  Qed.

  Lemma dval_same v t : python_value w v ->
    (forall x fs, within v x -> ci_dc (class_of w (type_of x)) = Some fs -> NoDup (map f_name fs) /\ NoDup (map (dump_name cfg) fs)) ->
    same_dump (dval w cfg v t) (dval w' cfg v t).
  Proof using Hstd.
    remember (depth v) as n eqn:Q. assert (L : depth v <= n) by lia. clear Q.
    revert v t L. induction n as [|n IH]; intros v t L P Nd; [destruct v; cbn in L; lia|].
    assert (Hstd' : is_dstd w' basic strcons cfg) by exact Hstd.
    rewrite (dval_eq w basic strcons cfg Hstd), (dval_eq w' basic strcons cfg Hstd').
    destruct (dfind cfg v) as [h|] eqn:F; [|exact I].
    assert (G : forall x t', holds v x -> same_dump (dval w cfg x t') (dval w' cfg x t')).
    { intros x t' Hx. apply IH.
      - apply depth_holds in Hx. lia.
      - eapply pv_holds; eassumption.
      - intros y fs Wy. apply Nd. econstructor; eassumption. }
    apply pbody_same; [exact F| | | |exact G].
    - intros fs. apply Nd. constructor.
    - intros x t'. apply (dval_OOF w basic strcons cfg Hstd).
    - intros x t'. apply (dval_OOF w' basic strcons cfg Hstd').
  Qed.
End DumpSeed.

Lemma seed_dump w basic strcons cfg pick order :
  is_dstd w basic strcons cfg ->
  forall s s' v, dhistory w cfg s -> dhistory (reseed w pick order) cfg s' -> python_value w v ->
  (forall x fs, within v x -> ci_dc (class_of w (type_of x)) = Some fs -> NoDup (map f_name fs) /\ NoDup (map (dump_name cfg) fs)) ->
  forall r r', dumps w cfg s v r -> dumps (reseed w pick order) cfg s' v r' -> same_dump r r'.
Proof.
  intros St s s' v H H' P Nd r r' Dm Dm'. assert (St' : is_dstd (reseed w pick order) basic strcons cfg) by exact St.
  assert (P' : python_value (reseed w pick order) v) by exact P.
  apply (dumps_dval w basic strcons cfg St s v r H P) in Dm. apply (dumps_dval _ basic strcons cfg St' s' v r' H' P') in Dm'.
  subst. apply (dval_same w pick order basic strcons cfg St v TAny P Nd).
Qed.
