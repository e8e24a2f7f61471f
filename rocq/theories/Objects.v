(** * Objects: NamedTuple, dataclass, attrs and TypedDict field by field
      (C06, C07, C08, C24, C37) *)

From Verif Require Import Loader Spec Inv Std Sound Fuel Obs Scalars Simple Transparent Hist Eval Items Tuples Dicts.

(** ** Vocabulary *)

(** ** Names *)
Lemma str_get_NoDup {A} k a (l : list (string * A)) : NoDup (map fst l) -> In (k, a) l -> str_get k l = Some a.
Proof.
  induction l as [|[k' a'] l IH]; cbn; [intros _ []|]. intros ND [[= -> ->]|H].
  - rewrite String.eqb_refl. reflexivity.
  - inversion ND as [|? ? N1 N2]; subst. destruct (String.eqb k k') eqn:E.
    + apply String.eqb_eq in E. subst. exfalso. apply N1. apply (in_map fst) in H. exact H.
    + apply IH; assumption.
Qed.
Lemma str_set_new {A} k (a : A) l : ~ In k (map fst l) -> str_set k a l = l ++ [(k, a)].
Proof.
  induction l as [|[k' a'] l IH]; cbn; [reflexivity|]. intro N. destruct (String.eqb k k') eqn:E.
  - apply String.eqb_eq in E. subst. exfalso. auto.
  - f_equal. apply IH. auto.
Qed.

Lemma NoDup_apart {A} (l1 l2 : list A) : NoDup l1 -> NoDup l2 -> (forall x, In x l1 -> In x l2 -> False) -> NoDup (l1 ++ l2).
Proof.
  intros H1 H2 D. induction H1 as [|x l Hx _ IH]; [exact H2|]. cbn. constructor.
  - intro I. apply in_app_iff in I as [I|I]; [contradiction|]. apply (D x); [left; reflexivity|exact I].
  - apply IH. intros y I1 I2. apply (D y); [right; exact I1|exact I2].
Qed.

Section Names.
  Variable g : field -> option string.      (* the name in the metadata *)
  Definition ext_g (f : field) : string := match g f with Some n => n | None => f_name f end.
  Definition names_fold (fs : list field) (acc : list (string * string)) : list (string * string) :=
    fold_left (fun acc f => match g f with Some n => str_set n (f_name f) acc | None => acc end) fs acc.
  Definition names_flat (fs : list field) : list (string * string) :=
    flat_map (fun f => match g f with Some n => [(n, f_name f)] | None => [] end) fs.
  Lemma names_flat_in fs n k : In (n, k) (names_flat fs) -> exists f, In f fs /\ g f = Some n /\ f_name f = k.
  Proof.
    unfold names_flat. intro H. apply in_flat_map in H as [f [Hf H]]. exists f. destruct (g f); [|destruct H].
    destruct H as [[= -> ->]|[]]. auto.
  Qed.
  Lemma names_fold_flat fs acc :
    NoDup (map fst acc ++ map ext_g fs) -> names_fold fs acc = acc ++ names_flat fs.
  Proof.
    revert acc. induction fs as [|f fs IH]; intros acc ND; cbn [names_fold fold_left names_flat flat_map]; [rewrite app_nil_r; reflexivity|].
    fold (names_fold fs). cbn [map] in ND.
    destruct (g f) as [n|] eqn:E.
    - assert (X : ext_g f = n) by (unfold ext_g; rewrite E; reflexivity). rewrite X in ND.
      rewrite str_set_new.
      + change (fold_left _ fs ?a) with (names_fold fs a). rewrite IH.
        * rewrite <- app_assoc. reflexivity.
        * rewrite map_app. cbn [map fst]. rewrite <- app_assoc. exact ND.
      + apply NoDup_remove in ND. destruct ND as [_ ND]. intro H. apply ND. apply in_or_app. left. exact H.
    - change (fold_left _ fs ?a) with (names_fold fs a). apply IH. apply NoDup_remove in ND. apply ND.
  Qed.
  Lemma names_flat_nodup fs : NoDup (map ext_g fs) -> NoDup (map fst (names_flat fs)).
  Proof.
    induction fs as [|f fs IH]; intro ND; [constructor|]. cbn [map] in ND. inversion ND as [|? ? N1 N2]; subst.
    cbn [names_flat flat_map]. destruct (g f) as [n|] eqn:E; [|apply IH; exact N2].
    cbn. constructor; [|apply IH; exact N2]. intro H. apply in_map_iff in H as [[n' k] [<- H]]. cbn in *.
    apply names_flat_in in H as [f' [Hf [G _]]]. apply N1. apply in_map_iff. exists f'. split; [|exact Hf].
    unfold ext_g. rewrite G, E. reflexivity.
  Qed.
End Names.

(** what the loader needs to know of the table of names *)
Record name_table (F : list (string * string)) (names : list (string * string)) : Prop := mkNT {
  nt_py : NoDup (map fst F);
  nt_ext : NoDup (map snd F);
  nt_in : forall e f, str_get e names = Some f -> In (f, e) F;
  nt_all : forall e f, In (f, e) F -> str_get e names = Some f \/ (e = f /\ ~ In f (map snd names));
  nt_skip : forall f, In f (map snd names) -> exists e, str_get e names = Some f
}.

Lemma name_table_nil F : NoDup (map fst F) -> (forall f e, In (f, e) F -> e = f) -> name_table F [].
Proof.
  intros N H. split; try (intros; discriminate); try (intros ? []); auto.
  replace (map snd F) with (map fst F); [exact N|]. apply map_ext_in. intros [f e] Hin. cbn. symmetry. eapply H; eassumption.
Qed.
Lemma name_table_fields g fs :
  NoDup (map f_name fs) -> NoDup (map (ext_g g) fs) ->
  name_table (map (fun f => (f_name f, ext_g g f)) fs) (names_flat g fs).
Proof.
  intros N1 N2.
  assert (M1 : map fst (map (fun f => (f_name f, ext_g g f)) fs) = map f_name fs) by (rewrite map_map; reflexivity).
  assert (M2 : map snd (map (fun f => (f_name f, ext_g g f)) fs) = map (ext_g g) fs) by (rewrite map_map; reflexivity).
  assert (U : forall f f', In f fs -> In f' fs -> f_name f = f_name f' -> f = f').
  { clear -N1. intros f f' H H' E. induction fs as [|a fs IH]; [destruct H|]. cbn in N1. inversion N1 as [|? ? Na Nb]; subst.
    destruct H as [->|H], H' as [->|H']; auto.
    - exfalso. apply Na. rewrite E. apply in_map. exact H'.
    - exfalso. apply Na. rewrite <- E. apply in_map. exact H. }
  split; [rewrite M1; exact N1|rewrite M2; exact N2| | |].
  - intros e f H. apply str_get_In in H. apply names_flat_in in H as [fl [Hf [G <-]]].
    apply in_map_iff. exists fl. split; [|exact Hf]. unfold ext_g. rewrite G. reflexivity.
  - intros e f H. apply in_map_iff in H as [fl [E Hf]]. injection E as <- <-. unfold ext_g at 1 2. destruct (g fl) as [n|] eqn:G.
    + left. apply str_get_NoDup; [apply names_flat_nodup; exact N2|]. apply in_flat_map. exists fl. split; [exact Hf|].
      rewrite G. left. reflexivity.
    + right. split; [reflexivity|]. intro H. apply in_map_iff in H as [[n k] [E H]]. cbn in E. subst k.
      apply names_flat_in in H as [f' [Hf' [G' E']]]. assert (f' = fl) by (apply U; assumption). congruence.
  - intros f H. apply in_map_iff in H as [[n k] [E H]]. cbn in E. subst k. exists n.
    apply str_get_NoDup; [apply names_flat_nodup; exact N2|exact H].
Qed.

(** ** The mangling loop *)
Section Mangle.
  Variable cfg : config.
  Variables F names : list (string * string).
  Hypothesis NT : name_table F names.
  Notation skip := (map snd names).
  Definition swapF : list (string * string) := map (fun fe => (snd fe, fst fe)) F.

  (** what becomes of one item *)
  Definition ren1 (kx : value * value) : list (value * value) :=
    match fst kx with
    | VStr s =>
        match str_get s names with
        | Some s' => [(VStr s', snd kx)]
        | None => if mem_str s skip then [] else [kx]
        end
    | _ => [kx]
    end.
  Definition ren (d : list (value * value)) : list (value * value) := flat_map ren1 d.
  (** the python name of a renamed field *)
  Definition skipped (k : value) : bool :=
    match k with VStr s => match str_get s names with Some _ => false | None => mem_str s skip end | _ => false end.

  Lemma dict_set_new k x d : (forall k' x', In (k', x') d -> py_eqb k k' = false) -> dict_set k x d = d ++ [(k, x)].
  Proof using.
    induction d as [|[k' x'] d IH]; intro H; cbn; [reflexivity|]. rewrite (H k' x') by (left; reflexivity).
    f_equal. apply IH. intros k1 x1 H1. eapply H. right. exact H1.
  Qed.
  Lemma eqb_str a b : py_eqb (VStr a) (VStr b) = String.eqb a b. Proof using. reflexivity. Qed.

  (** renaming keeps the keys different *)
  Lemma ren1_diff kx ky a b :
    py_eqb (fst ky) (fst kx) = false -> In a (ren1 kx) -> In b (ren1 ky) -> py_eqb (fst b) (fst a) = false.
  Proof using NT.
    destruct kx as [k x], ky as [k' y]. unfold ren1. cbn [fst snd]. intro E.
    assert (S : forall (z : value) s, (forall s', z <> VStr s') -> py_eqb z (VStr s) = false /\ py_eqb (VStr s) z = false).
    { intros z s H. destruct z; cbn; auto; exfalso; eapply H; reflexivity. }
    assert (ST : forall z, (exists s, z = VStr s) \/ (forall s, z <> VStr s)).
    { intros []; try (right; discriminate). left. eauto. }
    assert (R1 : forall (z v : value) (e : value * value), (forall s, z <> VStr s) -> In e (match z with
        | VStr s => match str_get s names with Some s' => [(VStr s', v)] | None => if mem_str s skip then [] else [(z, v)] end
        | _ => [(z, v)] end) -> e = (z, v)).
    { intros z v e H. destruct z; try (intros [<-|[]]; reflexivity). exfalso. eapply H. reflexivity. }
    assert (R2 : forall s (v : value) (e : value * value), In e (match str_get s names with Some s' => [(VStr s', v)] | None => if mem_str s skip then [] else [(VStr s, v)] end)
        -> exists s', e = (VStr s', v) /\ (str_get s names = Some s' \/ (str_get s names = None /\ s' = s /\ ~ In s skip))).
    { intros s v e. destruct (str_get s names) as [s'|]; [intros [<-|[]]; eauto|].
      destruct (mem_str s skip) eqn:M; [intros []|]. intros [<-|[]]. exists s. split; [reflexivity|]. right. repeat split.
      rewrite <- mem_str_In. congruence. }
    destruct (ST k) as [[s ->]|Nk], (ST k') as [[s' ->]|Nk'].
    - intros Ha Hb. apply R2 in Ha as [sa [-> Ha]]. apply R2 in Hb as [sb [-> Hb]]. cbn [fst]. rewrite eqb_str in *.
      apply String.eqb_neq. apply String.eqb_neq in E. intros ->.
      destruct Ha as [Ha|[Ha [-> Na]]], Hb as [Hb|[Hb [Q Nb]]].
      + apply (nt_in _ _ NT) in Ha. apply (nt_in _ _ NT) in Hb.
        assert (Fn : forall f e1 e2, In (f, e1) F -> In (f, e2) F -> e1 = e2).
        { intros f e1 e2 H1 H2. apply (str_get_NoDup f e1 F (nt_py _ _ NT)) in H1.
          apply (str_get_NoDup f e2 F (nt_py _ _ NT)) in H2. congruence. }
        apply E. eapply Fn; eassumption.
      + subst. apply Nb. apply str_get_In in Ha. apply (in_map snd) in Ha. exact Ha.
      + apply Na. apply str_get_In in Hb. apply (in_map snd) in Hb. exact Hb.
      + congruence.
    - intros Ha Hb. apply R2 in Ha as [sa [-> _]]. apply (R1 _ _ _ Nk') in Hb. subst. cbn. apply S. exact Nk'.
    - intros Ha Hb. apply R2 in Hb as [sa [-> _]]. apply (R1 _ _ _ Nk) in Ha. subst. cbn [fst]. apply S. exact Nk.
    - intros Ha Hb. apply (R1 _ _ _ Nk) in Ha. apply (R1 _ _ _ Nk') in Hb. subst. exact E.
  Qed.

  Lemma mangle_ren d acc pre :
    py_dict (pre ++ d) -> acc = ren pre ->
    mangle_loop cfg names skip d acc =
      match find (fun kx => failonextra cfg && skipped (fst kx)) d with
      | None => inl (acc ++ ren d)
      | Some (VStr k, _) => inr k
      | Some _ => inl []
      end.
  Proof using NT.
    revert acc pre. induction d as [|[k x] d IH]; intros acc pre PD EA; cbn [mangle_loop find]; [rewrite app_nil_r; reflexivity|].
    assert (PD' : py_dict ((pre ++ [(k, x)]) ++ d)) by (rewrite <- app_assoc; exact PD).
    assert (D : forall k1, In (k1, x) (ren1 (k, x)) -> ren1 (k, x) = [(k1, x)] -> dict_set k1 x acc = acc ++ [(k1, x)]).
    { intros k1 H1 _. apply dict_set_new. intros k' x' H. subst acc. unfold ren in H. apply in_flat_map in H as [a [Ha H]].
      change k1 with (fst (k1, x)). change k' with (fst (k', x')). apply (ren1_diff a (k, x)); [|exact H|exact H1]. cbn [fst].
      clear -PD Ha. unfold py_dict in PD. induction pre as [|b pre IH]; [destruct Ha|]. cbn in PD. inversion PD as [|? ? P1 P2]; subst.
      destruct Ha as [->|Ha]; [|apply IH; assumption]. rewrite Forall_forall in P1. apply (P1 (k, x)). apply in_or_app. right. left. reflexivity. }
    assert (SN : forall m, ren1 (k, x) = m -> ren (pre ++ [(k, x)]) = acc ++ m).
    { intros m Q. unfold ren. rewrite flat_map_app. cbn. rewrite app_nil_r, Q. f_equal. symmetry. exact EA. }
    assert (RC : forall m, ren1 (k, x) = m -> acc ++ ren ((k, x) :: d) = (acc ++ m) ++ ren d).
    { intros m Q. unfold ren. cbn [flat_map]. rewrite Q. rewrite app_assoc. reflexivity. }
    assert (GO : forall k1, ren1 (k, x) = [(k1, x)] -> skipped k = false ->
       mangle_loop cfg names skip d (dict_set k1 x acc) =
       match (if failonextra cfg && skipped k then Some (k, x) else find (fun kx => failonextra cfg && skipped (fst kx)) d) with
       | None => inl (acc ++ ren ((k, x) :: d)) | Some (VStr k0, _) => inr k0 | Some _ => inl [] end).
    { intros k1 Q SK. rewrite SK, andb_false_r. rewrite (D k1) by (rewrite Q; auto; left; reflexivity).
      rewrite (RC _ Q). apply (IH _ (pre ++ [(k, x)]) PD'). symmetry. apply SN. exact Q. }
    cbn [fst].
    destruct k; try (apply GO; reflexivity).
    destruct (str_get s names) as [s'|] eqn:E.
    - apply GO; unfold ren1, skipped; cbn [fst snd]; rewrite E; reflexivity.
    - destruct (mem_str s skip) eqn:M.
      + assert (SK : skipped (VStr s) = true) by (unfold skipped; rewrite E; exact M). rewrite SK, andb_true_r.
        destruct (failonextra cfg); [reflexivity|].
        assert (Q : ren1 (VStr s, x) = []) by (unfold ren1; cbn [fst]; rewrite E, M; reflexivity).
        rewrite (RC _ Q), app_nil_r. apply (IH _ (pre ++ [(VStr s, x)]) PD'). rewrite (SN [] Q), app_nil_r. reflexivity.
      + apply GO; unfold ren1, skipped; cbn [fst snd]; rewrite E, M; reflexivity.
  Qed.

  (** *** Reading the renamed dictionary *)
  Definition fieldF (k : value) : option string := match k with VStr e => str_get e swapF | _ => None end.
  Lemma swapF_get e f : str_get e swapF = Some f <-> In (f, e) F.
  Proof using NT.
    assert (N : NoDup (map fst swapF)).
    { unfold swapF. rewrite map_map. cbn [fst]. exact (nt_ext _ _ NT). }
    split; intro H.
    - apply str_get_In in H. unfold swapF in H. apply in_map_iff in H as [[f' e'] [[= <- <-] H]]. exact H.
    - apply str_get_NoDup; [exact N|]. unfold swapF. apply in_map_iff. exists (f, e). auto.
  Qed.
  (** each item of the dictionary goes to the field with that external name *)
  Lemma ren1_field kx :
    flat_map (fun ky => match fst ky with VStr s => if mem_str s (map fst F) then [(s, snd ky)] else [] | _ => [] end) (ren1 kx)
    = match fieldF (fst kx) with Some f => [(f, snd kx)] | None => [] end.
  Proof using NT.
    destruct kx as [k x]. unfold ren1, fieldF. cbn [fst snd].
    destruct k; try reflexivity. destruct (str_get s names) as [s'|] eqn:E.
    - pose proof (nt_in _ _ NT _ _ E) as H. pose proof H as H'. apply swapF_get in H'. rewrite H'. cbn.
      apply (in_map fst) in H. cbn in H. apply mem_str_In in H. rewrite H. reflexivity.
    - destruct (mem_str s skip) eqn:M.
      + destruct (str_get s swapF) as [f|] eqn:Q; [|reflexivity]. exfalso. apply swapF_get in Q. apply mem_str_In in M.
        destruct (nt_all _ _ NT _ _ Q) as [H|[-> H]]; [congruence|contradiction].
      + cbn. destruct (mem_str s (map fst F)) eqn:MF.
        * apply mem_str_In in MF. apply in_map_iff in MF as [[f e] [Q H]]. cbn in Q. subst f.
          assert (e = s). { destruct (nt_all _ _ NT _ _ H) as [H'|[Q _]]; [|exact Q]. exfalso.
            apply str_get_In in H'. apply (in_map snd) in H'. cbn in H'. apply mem_str_In in H'. congruence. }
          subst e. apply swapF_get in H. rewrite H. reflexivity.
        * destruct (str_get s swapF) as [f|] eqn:Q; [|reflexivity]. exfalso. apply swapF_get in Q.
          destruct (nt_all _ _ NT _ _ Q) as [H|[-> H]]; [congruence|]. apply (in_map fst) in Q. cbn in Q. apply mem_str_In in Q. congruence.
  Qed.
  Lemma ren_has d f e :
    In (f, e) F -> (has_key (ren d) f = true <-> In (VStr e) (map fst d)).
  Proof using NT.
    intro HF. unfold has_key. rewrite existsb_exists. split.
    - intros [[k x] [H E]]. cbn in E. destruct k; try discriminate. apply String.eqb_eq in E. subst s.
      unfold ren in H. apply in_flat_map in H as [[k0 x0] [H0 H]]. unfold ren1 in H. cbn [fst snd] in H.
      apply in_map_iff. exists (k0, x0). split; [|exact H0]. cbn.
      destruct k0; try (destruct H as [[= ]|[]]). destruct (str_get s names) as [s'|] eqn:E.
      + destruct H as [[= <- <-]|[]]. apply (nt_in _ _ NT) in E.
        apply (str_get_NoDup _ _ _ (nt_py _ _ NT)) in E. apply (str_get_NoDup _ _ _ (nt_py _ _ NT)) in HF. congruence.
      + destruct (mem_str s skip) eqn:M; [destruct H|]. destruct H as [[= <- <-]|[]].
        destruct (nt_all _ _ NT _ _ HF) as [H'|[-> _]]; [|reflexivity]. exfalso.
        apply str_get_In in H'. apply (in_map snd) in H'. cbn in H'. apply mem_str_In in H'. congruence.
    - intro H. apply in_map_iff in H as [[k x] [E H]]. cbn in E. subst k.
      exists (VStr f, x). split; [|cbn; apply String.eqb_refl]. unfold ren. apply in_flat_map. exists (VStr e, x). split; [exact H|].
      unfold ren1. cbn [fst snd]. destruct (nt_all _ _ NT _ _ HF) as [Q|[-> N]].
      + rewrite Q. left. reflexivity.
      + destruct (str_get f names) as [s'|] eqn:E.
        * left. apply (nt_in _ _ NT) in E. apply swapF_get in E. apply swapF_get in HF. congruence.
        * assert (M : mem_str f skip = false) by (destruct (mem_str f skip) eqn:M; [apply mem_str_In in M; contradiction|reflexivity]).
          rewrite M. left. reflexivity.
  Qed.
  (** the item is neither skipped nor extra: its key is an external name *)
  Lemma ren1_known kx :
    (skipped (fst kx) = false /\ forallb (key_in (map fst F)) (ren1 kx) = true) <-> exists f, fieldF (fst kx) = Some f.
  Proof using NT.
    pose proof (ren1_field kx) as R. destruct kx as [k x]. unfold skipped, ren1, key_in in *. cbn [fst snd] in *.
    destruct k as [| | | |s| | | | | | | | | | |]; try (cbn; split; [intros [_ Q]; discriminate|intros [? Q]; discriminate]).
    cbn [fieldF] in *.
    destruct (str_get s names) as [s'|] eqn:E; cbn [forallb flat_map fst snd] in *.
    - destruct (mem_str s' (map fst F)) eqn:M; destruct (str_get s swapF); cbn in R; try discriminate; split; auto; eauto.
      + intros [_ Q]. discriminate.
      + intros [f Q]. discriminate.
    - destruct (mem_str s skip) eqn:M; cbn [forallb flat_map fst snd] in *.
      + destruct (str_get s swapF); cbn in R; [discriminate|]. split; [intros [Q _]; discriminate|intros [f Q]; discriminate].
      + destruct (mem_str s (map fst F)) eqn:M2; destruct (str_get s swapF); cbn in R; try discriminate; split; auto; eauto.
        * intros [_ Q]. discriminate.
        * intros [f Q]. discriminate.
  Qed.
  Lemma ren_known d :
    ((forall kx, In kx d -> skipped (fst kx) = false) /\ filter (fun kv => negb (key_in (map fst F) kv)) (ren d) = []) <->
    (forall k x, In (k, x) d -> exists f, fieldF k = Some f).
  Proof using NT.
    assert (FE : forall l, filter (fun kv : value * value => negb (key_in (map fst F) kv)) l = [] <-> forallb (key_in (map fst F)) l = true).
    { induction l as [|a l IH]; cbn; [tauto|]. destruct (key_in (map fst F) a); cbn; [exact IH|]. split; discriminate. }
    rewrite FE. unfold ren. induction d as [|[k x] d IH]; cbn [flat_map].
    - split; [intros _ k x []|]. intros _. split; [intros kx []|reflexivity].
    - rewrite forallb_app, andb_true_iff. split.
      + intros [H1 [H2 H3]] k0 x0 [[= <- <-]|H].
        * apply (ren1_known (k, x)). split; [apply (H1 (k, x)); left; reflexivity|exact H2].
        * apply (proj1 IH) with (x := x0); [|exact H]. split; [intros kx Hk; apply H1; right; exact Hk|exact H3].
      + intro H. destruct (proj2 (ren1_known (k, x)) (H k x (or_introl eq_refl))) as [A B].
        destruct (proj2 IH (fun k0 x0 H0 => H k0 x0 (or_intror H0))) as [A' B'].
        split; [intros kx [<-|Hk]; [exact A|apply A'; exact Hk]|]. split; assumption.
  Qed.
End Mangle.

(** ** Entering the handler of an object class *)
Section Enter.
  Variable w : world.
  Variables basic strcons : list cid.
  Variable cfg : config.
  Hypothesis Hstd : is_std w basic strcons cfg.
  Hypothesis Hwr : wf_reflect w.
  Notation p := (pep563 cfg).

  Lemma dc_name_given f : dc_name cfg f = given_name cfg false f.
  Proof using. unfold dc_name, given_name. destruct (str_get _ _) as [[|]|]; reflexivity. Qed.
  Lemma dc_order_in fs f : In f (dc_order w fs) <-> In f fs.
  Proof using.
    unfold dc_order. rewrite in_flat_map. split.
    - intros [k [_ H]]. apply filter_In in H. apply H.
    - intro H. exists (f_name f). split; [|apply filter_In; split; [exact H|apply String.eqb_refl]].
      apply (Permutation_in _ (Permutation_sym (set_iter_perm w _))). apply nodup_In. apply in_map. exact H.
  Qed.
  Lemma dc_table_fold fs : dc_table w cfg fs = names_fold (given_name cfg false) (dc_order w fs) [].
  Proof using.
    unfold dc_table, names_fold. generalize (@nil (string * string)) as acc. induction (dc_order w fs) as [|f l IH]; intro acc; [reflexivity|].
    cbn [fold_left]. rewrite dc_name_given. apply IH.
  Qed.
  Lemma dc_order_perm fs : NoDup (map f_name fs) -> Permutation (dc_order w fs) fs.
  Proof using.
    intro N. unfold dc_order.
    assert (X : forall l, NoDup l -> (forall f, In f fs -> In (f_name f) l) -> 
        Permutation (flat_map (fun k => filter (fun f => String.eqb (f_name f) k) fs) l) fs).
    { intros l Nl Hl. apply NoDup_Permutation.
      - assert (Nf : NoDup fs) by (eapply NoDup_map_inv; exact N). clear N Hl.
        induction Nl as [|k l Hk _ IH]; [constructor|]. cbn [flat_map]. apply NoDup_apart; [apply NoDup_filter; exact Nf|exact IH|].
        intros f H1 H2. apply filter_In in H1 as [_ H1]. apply String.eqb_eq in H1. apply in_flat_map in H2 as [k' [I2 H2]].
        apply filter_In in H2 as [_ H2]. apply String.eqb_eq in H2. congruence.
      - eapply NoDup_map_inv. exact N.
      - intro f. rewrite in_flat_map. split.
        + intros [k [_ H]]. apply filter_In in H. apply H.
        + intro H. exists (f_name f). split; [apply Hl; exact H|]. apply filter_In. split; [exact H|apply String.eqb_refl]. }
    apply X.
    - apply (Permutation_NoDup (Permutation_sym (set_iter_perm w _))). apply NoDup_nodup.
    - intros f H. apply (Permutation_in _ (Permutation_sym (set_iter_perm w _))). apply nodup_In. apply in_map. exact H.
  Qed.
  (** when the fields have different names, inside and outside, the order does
      not matter *)
  Lemma dc_transforms_flat fs : NoDup (map f_name fs) -> NoDup (map (ext_g (given_name cfg false)) fs) ->
    dc_transforms w cfg fs = names_flat (given_name cfg false) fs.
  Proof using.
    intros N1 N2. pose proof (dc_order_perm fs N1) as Pm.
    assert (T : dc_table w cfg fs = names_flat (given_name cfg false) (dc_order w fs)).
    { rewrite dc_table_fold. apply (names_fold_flat (given_name cfg false) (dc_order w fs) []).
      cbn [map app]. apply (Permutation_NoDup (Permutation_map _ (Permutation_sym Pm))). exact N2. }
    unfold dc_transforms, names_flat at 1. rewrite T.
    assert (X : forall l, (forall f, In f l -> In f fs) -> flat_map (fun f => match dc_name cfg f with
                       | Some n => match str_get n (names_flat (given_name cfg false) (dc_order w fs)) with
                                   | Some k => if String.eqb k (f_name f) then [(n, k)] else []
                                   | None => [] end
                       | None => [] end) l = flat_map (fun f => match given_name cfg false f with Some n => [(n, f_name f)] | None => [] end) l).
    { induction l as [|f l IH]; intro H; [reflexivity|]. cbn [flat_map]. rewrite IH by (intros g Hg; apply H; right; exact Hg).
      rewrite dc_name_given. destruct (given_name cfg false f) as [n|] eqn:G; [|reflexivity].
      rewrite (str_get_NoDup n (f_name f)).
      - rewrite String.eqb_refl. reflexivity.
      - apply names_flat_nodup. apply (Permutation_NoDup (Permutation_map _ (Permutation_sym Pm))). exact N2.
      - apply in_flat_map. exists f. split; [apply dc_order_in; apply H; left; reflexivity|]. rewrite G. left. reflexivity. }
    apply X. auto.
  Qed.
  Lemma dc_transforms_in fs n k : In (n, k) (dc_transforms w cfg fs) -> exists f, In f fs /\ given_name cfg false f = Some n /\ f_name f = k.
  Proof using.
    unfold dc_transforms. intro H. apply in_flat_map in H as [f [Hf H]]. rewrite dc_name_given in H. exists f. split; [exact Hf|].
    destruct (given_name cfg false f) as [n'|]; [|destruct H]. destruct (str_get n' _) as [k'|]; [|destruct H].
    destruct (String.eqb k' (f_name f)) eqn:E; [|destruct H]. apply String.eqb_eq in E. destruct H as [[= -> ->]|[]]. auto.
  Qed.

  Definition obj_names (c : cid) : list (string * string) :=
    match kind_of_class w c with
    | Some (KDC fs) => dc_transforms w cfg fs
    | Some (KAT fs) => names_fold (given_name cfg true) fs []
    | _ => []
    end.
  Lemma obj_table c : distinct_names w cfg c -> name_table (obj_fields w cfg c) (obj_names c).
  Proof using.
    intros [N1 N2]. unfold obj_fields, obj_names in *.
    assert (X : NoDup (map fst (map (fun kt : string * ty => (fst kt, fst kt)) (declared w p c))) ->
       name_table (map (fun kt => (fst kt, fst kt)) (declared w p c)) []).
    { intro N. apply name_table_nil; [exact N|]. intros f e H. apply in_map_iff in H as [x [[= <- <-] _]]. reflexivity. }
    assert (Y : forall g fs, NoDup (map fst (map (fun f => (f_name f, ext_g g f)) fs)) ->
       NoDup (map snd (map (fun f => (f_name f, ext_g g f)) fs)) ->
       name_table (map (fun f => (f_name f, ext_g g f)) fs) (names_fold g fs [])).
    { intros g fs M1 M2. rewrite map_map in M1, M2. cbn [fst snd] in M1, M2. rewrite names_fold_flat by exact M2.
      apply name_table_fields; assumption. }
    destruct (kind_of_class w c) as [[nt|fs|fs|req]|]; auto.
    - rewrite map_map in N1, N2. cbn [fst snd] in N1, N2. rewrite (dc_transforms_flat fs N1 N2). apply name_table_fields; assumption.
    - exact (Y (given_name cfg true) fs N1 N2).
  Qed.
  Lemma names_renames c : distinct_names w cfg c -> (obj_names c = [] <-> renames w cfg c = false).
  Proof using.
    intros [N1 N2]. unfold obj_names, renames, obj_fields in *.
    assert (Y : forall g fs, NoDup (map snd (map (fun f => (f_name f, ext_g g f)) fs)) ->
        names_fold g fs [] = [] <-> existsb (fun f => match g f with Some _ => true | None => false end) fs = false).
    { intros g fs M2. rewrite map_map in M2. cbn [snd] in M2. rewrite names_fold_flat by exact M2. cbn. clear.
      induction fs as [|f fs IH]; cbn; [tauto|]. destruct (g f); cbn; [split; discriminate|exact IH]. }
    destruct (kind_of_class w c) as [[nt|fs|fs|req]|]; try tauto.
    - rewrite map_map in N1, N2. cbn [fst snd] in N1, N2. rewrite (dc_transforms_flat fs N1 N2). clear.
      unfold names_flat. induction fs as [|f fs IH]; cbn; [tauto|]. destruct (given_name cfg false f); cbn; [split; discriminate|exact IH].
    - exact (Y (given_name cfg true) fs N2).
  Qed.

  Definition mangle_obj (call : handler -> value -> ty -> M value) (c : cid) (v : value) : M value :=
    bind (mangle cfg (obj_names c) v (TClass c)) (fun v' =>
      objloader w cfg call (map fst (obj_fields w cfg c)) (obj_required w cfg c) (declared w p c) v' (TClass c)).

  Definition object_handler (k : kind) : handler :=
    match k with KNT _ => HNamedTuple | KDC _ => HDataclass | KAT _ => HAttrs | KTD _ => HTypedDict end.
  Lemma find_object c k :
    object_class w basic strcons c -> kind_of_class w c = Some k -> find_handler cfg (TClass c) = POk (object_handler k).
  Proof using Hstd Hwr.
    intros [NB [NE K]] Hk. rewrite Hk in K. rewrite (find_std w basic strcons cfg _ Hstd). unfold chain.
    destruct c; try (unfold kind_of_class in Hk; cbn in Hk; discriminate). set (c := CUser n) in *.
    assert (B : mem_cid c basic = false) by (destruct (mem_cid c basic) eqn:B; [apply mem_cid_In in B; contradiction|reflexivity]).
    cbn [is_nonetype is_union in_classes is_enum is_tuple is_list is_dict is_set is_frozenset is_namedtuple is_dataclass
      is_forwardref is_literal is_typeddict is_pattern is_attrs].
    replace (is_nonetype (TClass c)) with false by reflexivity. rewrite B, NE.
    unfold kind_of_class in Hk.
    destruct (ci_nt (class_of w c)) as [nt|]; [injection Hk as <-; reflexivity|].
    destruct (ci_dc (class_of w c)) as [dc|]; [injection Hk as <-; reflexivity|].
    destruct (ci_attrs (class_of w c)) as [at_|] eqn:A.
    - injection Hk as <-. destruct (ci_td (class_of w c)) as [td|] eqn:TD.
      { exfalso. assert (ci_attrs (class_of w c) = None) by (apply (wr_td w Hwr); congruence). congruence. }
      cbn [is_pattern].
      assert (SC : mem_cid c strcons = false) by (destruct (mem_cid c strcons) eqn:Q; [apply mem_cid_In in Q; contradiction|reflexivity]).
      rewrite SC. reflexivity.
    - destruct (ci_td (class_of w c)) as [td|]; [injection Hk as <-; reflexivity|discriminate].
  Qed.

  Lemma names_fold_at fs acc :
    fold_left (fun acc f => match str_get (mangle_key cfg) (f_meta f) with
                     | Some name => str_set name (f_name f) acc
                     | None => acc end) fs acc = names_fold (given_name cfg true) fs acc.
  Proof using.
    revert acc. induction fs as [|f fs IH]; intro acc; cbn [fold_left names_fold]; [reflexivity|].
    rewrite IH. unfold names_fold. f_equal. unfold given_name.
    destruct (str_get (mangle_key cfg) (f_meta f)) as [[|a s]|]; reflexivity.
  Qed.

  Lemma obj_body c k s1 :
    object_class w basic strcons c -> kind_of_class w c = Some k -> resolvable w cfg c -> coh w cfg s1 ->
    exists s2, coh w cfg s2 /\ st_index s2 = st_index s1 /\ st_frefs s2 = st_frefs s1 /\
      forall call v, body w cfg call (object_handler k) v (TClass c) s1 = mangle_obj call c v s2.
  Proof using Hstd Hwr.
    intros OC Hk R C. unfold mangle_obj, obj_names, obj_fields, obj_required, resolvable in *. 
    assert (P : p = true \/ p = false) by (destruct p; auto).
    destruct k as [nt|fs|fs|req]; cbn [object_handler body]; rewrite Hk in *.
    - (* NamedTuple *)
      exists s1. split; [exact C|]. split; [reflexivity|]. split; [reflexivity|].
      assert (N : ci_nt (class_of w c) = Some nt).
      { unfold kind_of_class in Hk. destruct (ci_nt _); [congruence|]. destruct (ci_dc _); [discriminate|].
        destruct (ci_attrs _); [discriminate|]. destruct (ci_td _); discriminate. }
      unfold namedtupleload. rewrite N. rewrite map_map. cbn [fst mangle].
      assert (H : (if p then ci_hints (class_of w c) else POk (ci_ann (class_of w c))) = POk (declared w p c)).
      { unfold declared, declared_types. rewrite Hk. destruct P as [P|P]; rewrite P in *; [|reflexivity].
        destruct (R eq_refl) as [l ->]. reflexivity. }
      rewrite H. reflexivity.
    - (* dataclass *)
      assert (D : ci_dc (class_of w c) = Some fs).
      { unfold kind_of_class in Hk. destruct (ci_nt _); [discriminate|]. destruct (ci_dc _); [congruence|].
        destruct (ci_attrs _); [discriminate|]. destruct (ci_td _); discriminate. }
      set (oi := mkObjinfo (map f_name fs) (map f_name (filter required_field fs)) (declared w p c)
           (dc_transforms w cfg fs)).
      assert (H : dataclass_info w cfg c fs = POk oi).
      { unfold dataclass_info. unfold oi, declared, declared_types. rewrite Hk.
        destruct P as [P|P]; rewrite P in *; [|reflexivity]. destruct (R eq_refl) as [l ->]. reflexivity. }
      unfold dataclassload. setoid_rewrite bind_eq. destruct (ty_get (TClass c) (st_fields s1)) as [oi'|] eqn:E.
      + destruct (coh_fields _ _ _ C _ _ E) as [c' [fs' [[= <-] [D' O]]]].
        assert (fs' = fs) by congruence. subst fs'. assert (oi' = oi) by congruence. subst oi'.
        exists s1. split; [exact C|]. split; [reflexivity|]. split; [reflexivity|]. rewrite map_map. reflexivity.
      + rewrite D, H. exists (set_fields (cons (TClass c, oi)) s1).
        split; [eapply coh_set_fields; eassumption|]. repeat split. rewrite map_map. reflexivity.
    - (* attrs *)
      exists s1. split; [exact C|]. split; [reflexivity|]. split; [reflexivity|].
      assert (A : ci_attrs (class_of w c) = Some fs).
      { unfold kind_of_class in Hk. destruct (ci_nt _); [discriminate|]. destruct (ci_dc _); [discriminate|].
        destruct (ci_attrs _); [congruence|]. destruct (ci_td _); discriminate. }
      unfold attrload. rewrite A, names_fold_at, map_map. cbn [fst].
      destruct (proj2 (attr_hints_iff fs) R) as [l E]. rewrite E. pose proof (attr_hints_spec fs l E) as Q.
      unfold declared. rewrite Hk, <- Q. reflexivity.
    - (* TypedDict *)
      assert (TD : ci_td (class_of w c) = Some req).
      { unfold kind_of_class in Hk. destruct (ci_nt _); [discriminate|]. destruct (ci_dc _); [discriminate|].
        destruct (ci_attrs _); [discriminate|]. destruct (ci_td _); congruence. }
      unfold typeddictload. rewrite TD. rewrite map_map. cbn [fst mangle].
      unfold declared, declared_types. rewrite Hk. destruct P as [P|P]; rewrite P in *.
      + exists s1. split; [exact C|]. split; [reflexivity|]. split; [reflexivity|]. destruct (R eq_refl) as [l ->]. rewrite map_map. reflexivity.
      + exists (set_stripped (cons c) s1). split; [apply coh_set_stripped; exact C|]. repeat split.
        cbn [bind get_st lift ret mod_st]. unfold annotations. rewrite map_map. cbn [fst].
        assert (R0 : filter (fun k => negb (mem_str k (map fst (filter (fun kt => is_notrequired (snd kt)) (ci_ann (class_of w c)))))) req = req).
        { apply notreq_filter. intros k n a H. eapply wr_required; eassumption. }
        destruct (mem_cid c (st_stripped s1)).
        * rewrite notreq_filter.
          -- rewrite !map_map. cbn [fst snd].
            replace (map (fun x => (fst x, strip_notrequired (strip_notrequired (snd x)))) (ci_ann (class_of w c)))
              with (map (fun kt => (fst kt, unwrap (snd kt))) (ci_ann (class_of w c))); [reflexivity|].
            apply map_ext_in. intros [k t] Hin. cbn [fst snd]. f_equal. symmetry.
            eapply (wr_nested w Hwr c k t); [congruence|exact Hin].
          -- intros k n a H. apply in_map_iff in H as [[k' t] [E0 Hin]]. cbn [fst snd] in E0. injection E0 as <- Hs.
            destruct t as [|n' o' a'| | | | | | ]; try discriminate Hs.
            destruct o'; try discriminate Hs. eapply wr_required; eassumption.
        * rewrite R0. reflexivity.
  Qed.

  (** *** The data *)
  Lemma ren_nil d : ren [] d = d.
  Proof using.
    unfold ren. induction d as [|[k x] d IH]; cbn [flat_map]; [reflexivity|]. rewrite IH.
    unfold ren1. cbn [fst snd]. destruct k; reflexivity.
  Qed.
  Lemma mangle_obj_data c v d call s1 :
    distinct_names w cfg c -> obj_data w cfg c v d -> py_dict d ->
    mangle_obj call c v s1 =
      match find (fun kx => failonextra cfg && skipped (obj_names c) (fst kx)) d with
      | Some (VStr k, _) => raise (XTL KValue (MExtraField k) [] (Some v) (Some (TClass c)) []) s1
      | Some _ => raise (XRaw RType) s1
      | None => objloader w cfg call (map fst (obj_fields w cfg c)) (obj_required w cfg c) (declared w p c)
                  (VDict (ren (obj_names c) d)) (TClass c) s1
      end.
  Proof using.
    intros DN OD PD. unfold mangle_obj. pose proof (names_renames c DN) as NR. pose proof (obj_table c DN) as TB.
    assert (EN : obj_names c = [] \/ obj_names c <> []) by (destruct (obj_names c); [left; reflexivity|right; discriminate]).
    destruct EN as [EN|EN].
    - rewrite EN. assert (F0 : find (fun kx : value * value => failonextra cfg && skipped [] (fst kx)) d = None).
      { clear. induction d as [|[k x] d IH]; cbn; [reflexivity|]. destruct k; cbn; rewrite andb_false_r; exact IH. }
      rewrite F0, ren_nil. cbn [mangle bind ret]. destruct OD as [->|[DE [_ [a [-> ->]]]]]; [reflexivity|].
      unfold bind, ret, objloader. cbn [as_dict]. rewrite DE. reflexivity.
    - destruct OD as [->|[_ [RN _]]]; [|apply NR in RN; contradiction].
      assert (MG : mangle cfg (obj_names c) (VDict d) (TClass c) =
         match mangle_loop cfg (obj_names c) (map snd (obj_names c)) d [] with
            | inl d' => ret (VDict d')
            | inr k => raise (XTL KValue (MExtraField k) [] (Some (VDict d)) (Some (TClass c)) [])
            end) by (unfold mangle; destruct (obj_names c); [contradiction|reflexivity]).
      rewrite MG.
      rewrite (mangle_ren cfg (obj_fields w cfg c) (obj_names c) TB d [] [] PD eq_refl).
      rewrite bind_eq.
      destruct (find (fun kx => failonextra cfg && skipped (obj_names c) (fst kx)) d) as [[k x]|] eqn:FD; [|reflexivity].
      apply find_some in FD. destruct FD as [_ FD]. apply andb_true_iff in FD. destruct FD as [_ FD]. cbn in FD.
      destruct k; cbn in FD; try discriminate. reflexivity.
  Qed.
  Lemma mangle_obj_nodata c v call s1 :
    distinct_names w cfg c -> (forall d, ~ obj_data w cfg c v d) ->
    mangle_obj call c v s1 = (Exc (XTL KAttr (MPy RAttr) [] (Some v) (Some (TClass c)) []), s1).
  Proof using.
    intros DN ND. unfold mangle_obj. pose proof (names_renames c DN) as NR.
    assert (NV : forall d, v <> VDict d) by (intros d ->; apply (ND d); left; reflexivity).
    destruct (obj_names c) as [|nm names] eqn:EN; rewrite bind_eq; cbn [mangle ret].
    - unfold objloader. destruct v; cbn [as_dict]; try reflexivity; [exfalso; eapply NV; reflexivity|].
      destruct (dictequivalence cfg) eqn:DE; [|reflexivity]. exfalso. eapply ND. right. split; [exact DE|].
      split; [apply NR; reflexivity|]. eexists. split; reflexivity.
    - destruct v; try reflexivity. exfalso. eapply NV. reflexivity.
  Qed.
  Lemma obj_data_dec c v : (exists d, obj_data w cfg c v d) \/ (forall d, ~ obj_data w cfg c v d).
  Proof using.
    unfold obj_data. destruct v; try (right; intros ? [Q|[_ [_ [? [Q _]]]]]; discriminate).
    - left. eexists. left. reflexivity.
    - destruct (dictequivalence cfg); [|right; intros ? [Q|[Q _]]; discriminate].
      destruct (renames w cfg c); [right; intros ? [Q|[_ [Q _]]]; discriminate|].
      left. eexists. right. repeat split. eexists. split; reflexivity.
  Qed.
  Lemma obj_data_fun c v d d' : obj_data w cfg c v d -> obj_data w cfg c v d' -> d = d'.
  Proof using. intros [->|[_ [_ [a [-> ->]]]]] [E|[_ [_ [a' [E ->]]]]]; try discriminate; congruence. Qed.
End Enter.

(** ** The object equation *)
Section Object.
  Variable w : world.
  Variables basic strcons : list cid.
  Variable cfg : config.
  Hypothesis Hstd : is_std w basic strcons cfg.
  Hypothesis Hwr : wf_reflect w.
  Variable env : string -> option ty.
  Notation p := (pep563 cfg).
  Variable s : lstate.
  Variable V : value.
  Variable T : ty.
  Hypothesis Us : used w cfg s.
  Hypothesis St : steady w basic cfg env s V T.
  Notation G := (reach w p env T).
  Notation Vok := (inside V).
  Notation SETTLED := (settled w cfg env (reach w p env T) (seen s)).
  Notation conv := (conv w cfg env s T).
  Notation regular := (regular w cfg env s T).

  Local Notation field_loads := (field_loads w cfg s).
  Definition picked (fields : list string) (d : list (value * value)) : list (string * value) :=
    flat_map (fun ky => match fst ky with VStr k => if mem_str k fields then [(k, snd ky)] else [] | _ => [] end) d.

  Lemma regular_fields_loop fields hints v t d acc :
    (forall k x, In (k, x) d -> Vok x) -> (forall k ft, In (k, ft) hints -> G ft) ->
    regular (fun m => fields_loop cfg (run w cfg m) fields hints v t d acc).
  Proof using Hstd Hwr Us St.
    intros HV HG. apply sim_regular. intro n.
    apply (sim_fields_loop w cfg env (reach w p env T) (seen s) (inside V) (run w cfg n)); [|exact HV|exact HG].
    intros h x ft Gx Vx F. exact (Hsim w basic strcons cfg Hstd Hwr env s V T St n h x ft Gx Vx F).
  Qed.
  Lemma conv_fields_loop fields hints v t d :
    (forall k x, In (k, x) d -> Vok x) -> (forall k ft, In (k, ft) hints -> G ft) ->
    forall acc ps, conv (fun m => fields_loop cfg (run w cfg m) fields hints v t d acc) (Ok ps) <->
      exists qs, ps = acc ++ qs /\ Forall2 (field_loads hints) (picked fields d) qs.
  Proof using Hstd Hwr Us St.
    intros HV HG. induction d as [|[k x] d IH]; intros acc ps.
    { cbn [fields_loop]. rewrite (conv_ret w basic cfg env s V T Us St). cbn. split.
      - intros [= ->]. exists []. rewrite app_nil_r. auto.
      - intros [qs [-> F]]. inversion F. rewrite app_nil_r. reflexivity. }
    assert (HV' : forall k x, In (k, x) d -> Vok x) by (intros k' x' H; eapply HV; right; exact H).
    specialize (IH HV'). cbn [picked flat_map fst snd].
    change (flat_map _ d) with (picked fields d).
    cbn [fields_loop].
    destruct k; try (apply IH). destruct (mem_str s0 fields); [|apply IH].
    assert (Vx : Vok x) by (eapply HV; left; reflexivity).
    assert (NO : forall r : res (list (string * value)), (exists e, r = Exc e) -> r <> Ok ps) by (intros r [e ->]; discriminate).
    destruct (str_get s0 hints) as [ft|] eqn:E.
    2: { rewrite (conv_raise w basic cfg env s V T Us St). split; [discriminate|].
         intros [qs [_ F]]. inversion F as [|? ? ? ? [_ [t' [Q _]]] _]; subst. cbn in Q. congruence. }
    assert (Gf : G ft) by (eapply HG; apply str_get_In; exact E).
    destruct (find_handler cfg ft) as [h|rk] eqn:Fh.
    2: { rewrite (conv_notfound w basic cfg env s V T Us St _ ft _ rk
          (fun h m => bind (catch (run w cfg m h x ft) (fun e => raise (push_trace (v, t, Some (AnField s0)) e)))
             (fun y => fields_loop cfg (run w cfg m) fields hints v t d (acc ++ [(s0, y)]))) _
          (finds_lookup w cfg env G (seen s) _ ft) Fh).
         split; [discriminate|]. intros [qs [_ F]]. inversion F as [|? ? ? ? [_ [t' [Q L]]] _]; subst. cbn in Q.
         assert (t' = ft) by congruence. subst t'.
         destruct (loads_ok_find w basic strcons cfg Hstd env G (seen s) s _ _ _ (settled_s w basic cfg env s V T Us St) L) as [h Q'].
         congruence. }
    assert (RC : regular (fun m => catch (run w cfg m h x ft) (fun e => raise (push_trace (v, t, Some (AnField s0)) e)))).
    { apply (regular_catch w basic cfg env s V T Us St (fun m => run w cfg m h x ft) (fun e _ => raise (push_trace (v, t, Some (AnField s0)) e)));
      [apply (regular_call w basic strcons cfg Hstd Hwr env s V T St h x ft Gf Vx Fh)|intros; apply regular_raise]. }
    assert (RF : forall a, regular (fun m => fields_loop cfg (run w cfg m) fields hints v t d a)).
    { intro a. apply regular_fields_loop; assumption. }
    rewrite (conv_found w basic cfg env s V T Us St _ ft _ h
          (fun h m => bind (catch (run w cfg m h x ft) (fun e => raise (push_trace (v, t, Some (AnField s0)) e)))
             (fun y => fields_loop cfg (run w cfg m) fields hints v t d (acc ++ [(s0, y)]))) _
          (finds_lookup w cfg env G (seen s) _ ft) Fh).
    2: { apply (regular_bind w basic cfg env s V T Us St _ (fun y m => fields_loop cfg (run w cfg m) fields hints v t d (acc ++ [(s0, y)])) RC).
         intros; apply RF. }
    rewrite (conv_bind w basic cfg env s V T Us St _ (fun y m => fields_loop cfg (run w cfg m) fields hints v t d (acc ++ [(s0, y)])) _ RC).
    2: { intros; apply RF. }
    assert (CC : forall y, conv (fun m => catch (run w cfg m h x ft) (fun e => raise (push_trace (v, t, Some (AnField s0)) e))) (Ok y)
       <-> loads w cfg s x ft (Ok y)).
    { intro y. rewrite (loads_ok_calls w basic strcons cfg Hstd Hwr env s V T Us St x ft h y Gf Vx Fh).
      rewrite (conv_catch w basic cfg env s V T Us St (fun m => run w cfg m h x ft) (fun e _ => raise (push_trace (v, t, Some (AnField s0)) e))).
      - split.
        + intros [[a [C [= ->]]]|[e [_ C]]]; [exact C|]. apply (conv_raise w basic cfg env s V T Us St) in C. discriminate.
        + intro C. left. exists y. split; [exact C|reflexivity].
      - apply (regular_call w basic strcons cfg Hstd Hwr env s V T St h x ft Gf Vx Fh).
      - intros; apply regular_raise. }
    split.
    - intros [[y [C1 C2]]|[e [_ Q]]]; [|discriminate]. apply IH in C2. destruct C2 as [qs [-> F]].
      exists ((s0, y) :: qs). rewrite <- app_assoc. split; [reflexivity|]. cbn [app]. constructor; [|exact F].
      split; [reflexivity|]. exists ft. split; [exact E|]. apply CC. exact C1.
    - intros [qs [-> F]]. cbn [app] in F. inversion F as [|? [f y] ? qs' [Q [t' [E' L]]] F']; subst. cbn [fst snd] in *. subst f.
      assert (t' = ft) by congruence. subst t'. left. exists y. split; [apply CC; exact L|].
      apply IH. exists qs'. rewrite <- app_assoc. auto.
  Qed.

  Lemma regular_objloader fields nec hints d t :
    (forall k x, In (k, x) d -> Vok x) -> (forall k ft, In (k, ft) hints -> G ft) ->
    regular (fun m => objloader w cfg (run w cfg m) fields nec hints (VDict d) t).
  Proof using Hstd Hwr Us St.
    intros HV HG. apply sim_regular. intro n.
    apply (sim_objloader w cfg env (reach w p env T) (seen s) (inside V) (run w cfg n)); [| |exact HG].
    - intros h x ft Gx Vx F. exact (Hsim w basic strcons cfg Hstd Hwr env s V T St n h x ft Gx Vx F).
    - intros d' k x [= <-] H. eapply HV. exact H.
  Qed.
  Lemma filter_nil {A} (f : A -> bool) l : filter f l = [] <-> forall x, In x l -> f x = false.
  Proof using.
    induction l as [|a l IH]; cbn; [split; [intros _ x []|reflexivity]|]. destruct (f a) eqn:E.
    - split; [discriminate|]. intro H. rewrite (H a) in E by (left; reflexivity). discriminate.
    - rewrite IH. split; [intros H x [<-|Hx]; auto|auto].
  Qed.
  Lemma conv_objloader fields nec hints d t r :
    (forall k x, In (k, x) d -> Vok x) -> (forall k ft, In (k, ft) hints -> G ft) ->
    conv (fun m => objloader w cfg (run w cfg m) fields nec hints (VDict d) t) (Ok r) <->
    (forall f, In f nec -> has_key d f = true) /\
    (failonextra cfg = true -> filter (fun kv => negb (key_in fields kv)) d = []) /\
    exists ps, Forall2 (field_loads hints) (picked fields d) ps /\ construct w t ps = POk r.
  Proof using Hstd Hwr Us St.
    intros HV HG. unfold objloader. cbn [as_dict].
    destruct (filter (fun f => negb (has_key d f)) nec) as [|f0 miss] eqn:EM.
    2: { rewrite (conv_raise w basic cfg env s V T Us St). split; [discriminate|]. intros [H _]. exfalso.
         assert (Hin : In f0 (filter (fun f => negb (has_key d f)) nec)) by (rewrite EM; left; reflexivity).
         apply filter_In in Hin as [Hin Q]. rewrite (H f0 Hin) in Q. discriminate. }
    assert (HN : forall f, In f nec -> has_key d f = true).
    { intros f Hf. apply filter_nil with (x := f) in EM; [|exact Hf]. apply negb_false_iff in EM. exact EM. }
    destruct (failonextra cfg && negb (Nat.eqb (List.length (map fst (filter (fun kv => negb (key_in fields kv)) d))) 0)) eqn:EX.
    { assert (NR : forall e, conv (fun _ => raise e) (Ok r) <-> False).
      { intro e. rewrite (conv_raise w basic cfg env s V T Us St). split; [discriminate|tauto]. }
      apply andb_true_iff in EX. destruct EX as [FE EX]. apply negb_true_iff in EX. apply Nat.eqb_neq in EX.
      rewrite map_length in EX.
      assert (Q : False <-> (forall f, In f nec -> has_key d f = true) /\
          (failonextra cfg = true -> filter (fun kv => negb (key_in fields kv)) d = []) /\
          exists ps, Forall2 (field_loads hints) (picked fields d) ps /\ construct w t ps = POk r).
      { split; [tauto|]. intros [_ [H _]]. rewrite (H FE) in EX. apply EX. reflexivity. }
      destruct (all_str _); rewrite NR; exact Q. }
    assert (HX : failonextra cfg = true -> filter (fun kv => negb (key_in fields kv)) d = []).
    { intro FE. rewrite FE in EX. cbn in EX. apply negb_false_iff in EX. apply Nat.eqb_eq in EX. rewrite map_length in EX.
      destruct (filter _ d); [reflexivity|discriminate]. }
    rewrite (conv_bind w basic cfg env s V T Us St (fun m => fields_loop cfg (run w cfg m) fields hints (VDict d) t d [])
       (fun params _ => match construct w t params with
              | POk r => ret r
              | PExc RType => raise (XTL KType (MCtor RType) [] None None [])
              | PExc RValue => raise (XTL KValue (MCtor RValue) [] None None [])
              | PExc r => raise (XRaw r)
              end)).
    2: apply regular_fields_loop; assumption.
    2: { intros ps _. destruct (construct w t ps) as [x|[]]; try apply regular_ret; apply regular_raise. }
    split.
    - intros [[ps [C1 C2]]|[e [_ Q]]]; [|discriminate]. split; [exact HN|]. split; [exact HX|].
      apply conv_fields_loop in C1; auto. destruct C1 as [qs [-> F]]. cbn [app] in *. exists qs. split; [exact F|].
      destruct (construct w t qs) as [x|[]]; try (apply (conv_raise w basic cfg env s V T Us St) in C2; discriminate).
      apply (conv_ret w basic cfg env s V T Us St) in C2. congruence.
    - intros [_ [_ [ps [F E]]]]. left. exists ps. split.
      + apply conv_fields_loop; auto. exists ps. auto.
      + rewrite E. apply (conv_ret w basic cfg env s V T Us St). reflexivity.
  Qed.

  Lemma picked_ren F names d :
    name_table F names -> picked (map fst F) (ren names d) =
      flat_map (fun kx => match fieldF F (fst kx) with Some f => [(f, snd kx)] | None => [] end) d.
  Proof using.
    intro NT. unfold picked, ren. induction d as [|kx d IH]; cbn [flat_map]; [reflexivity|].
    rewrite flat_map_app, IH. f_equal. exact (ren1_field F names NT kx).
  Qed.
  Lemma ren_values names d k x : In (k, x) (ren names d) -> exists k0, In (k0, x) d.
  Proof using.
    unfold ren. intro H. apply in_flat_map in H as [[k0 x0] [H0 H]]. exists k0. unfold ren1 in H. cbn [fst snd] in H.
    assert (x = x0).
    { destruct k0; try (destruct H as [[= _ <-]|[]]; reflexivity). destruct (str_get s0 names); [destruct H as [[= _ <-]|[]]; reflexivity|].
      destruct (mem_str s0 (map snd names)); [destruct H|]. destruct H as [[= _ <-]|[]]. reflexivity. }
    subst. exact H0.
  Qed.
  Lemma obj_data_part c v d k x : obj_data w cfg c v d -> In (k, x) d -> part v x.
  Proof using.
    intros [->|[_ [_ [a [-> ->]]]]] H; [econstructor 2; exact H|].
    apply in_map_iff in H as [[k' x'] [[= <- <-] H]]. econstructor 4. exact H.
  Qed.

  Lemma proper_data_dict c v d : proper_data v -> obj_data w cfg c v d -> py_dict d.
  Proof using.
    intros P [->|[_ [_ [a [-> ->]]]]]; [exact P|]. cbn in P. unfold py_dict.
    induction a as [|[k x] a IH]; cbn; [constructor|]. inversion P as [|? ? N1 N2]; subst. constructor; [|apply IH; exact N2].
    apply Forall_forall. intros [k' x'] H. apply in_map_iff in H as [[k0 x0] [[= <- <-] H]]. cbn [fst]. apply String.eqb_neq.
    intros ->. apply N1. apply (in_map fst) in H. exact H.
  Qed.
  Lemma required_ren c d :
    distinct_names w cfg c ->
    ((forall f, In f (obj_required w cfg c) -> has_key (ren (obj_names w cfg c) d) f = true) <->
     (forall e, In e (required_names w cfg c) -> In (VStr e) (map fst d))).
  Proof using.
    intro DN. pose proof (obj_table w cfg c DN) as TB.
    assert (ID : forall l, obj_names w cfg c = [] ->
      ((forall f, In f l -> has_key (ren (obj_names w cfg c) d) f = true) <-> (forall e, In e l -> In (VStr e) (map fst d)))).
    { intros l E. rewrite E, ren_nil. split; intros H f Hf; specialize (H f Hf).
      - unfold has_key in H. apply existsb_exists in H as [[k x] [H Q]]. cbn in Q. destruct k; try discriminate.
        apply String.eqb_eq in Q. subst. apply (in_map fst) in H. exact H.
      - apply in_map_iff in H as [[k x] [Q H]]. cbn in Q. subst k. unfold has_key. apply existsb_exists. exists (VStr f, x).
        split; [exact H|]. cbn. apply String.eqb_refl. }
    assert (FS : forall at_ fs, obj_fields w cfg c = map (fun f => (f_name f, external cfg at_ f)) fs -> forall fs', incl fs' fs ->
       ((forall f, In f (map f_name fs') -> has_key (ren (obj_names w cfg c) d) f = true) <->
        (forall e, In e (map (external cfg at_) fs') -> In (VStr e) (map fst d)))).
    { intros at_ fs EF fs' I. split; intros H n Hn; apply in_map_iff in Hn as [f [<- Hf]].
      - assert (X : In (f_name f, external cfg at_ f) (obj_fields w cfg c)).
        { rewrite EF. apply in_map_iff. exists f. split; [reflexivity|]. apply I. exact Hf. }
        apply (ren_has _ _ TB d _ _ X). apply H. apply in_map. exact Hf.
      - assert (X : In (f_name f, external cfg at_ f) (obj_fields w cfg c)).
        { rewrite EF. apply in_map_iff. exists f. split; [reflexivity|]. apply I. exact Hf. }
        apply (ren_has _ _ TB d _ _ X). apply H. apply in_map. exact Hf. }
    assert (IF : forall (f : field -> bool) l, incl (filter f l) l) by (intros f l x Hx; apply filter_In in Hx; apply Hx).
    unfold required_names, obj_required. unfold obj_fields in FS. unfold obj_names in ID.
    destruct (kind_of_class w c) as [[nt|fs|fs|req]|] eqn:K.
    - unfold obj_names. rewrite K. apply ID. reflexivity.
    - apply (FS false fs eq_refl). apply IF.
    - apply (FS true fs eq_refl). apply IF.
    - unfold obj_names. rewrite K. apply ID. reflexivity.
    - unfold obj_names. rewrite K. apply ID. reflexivity.
  Qed.
  Lemma conv_in_obj c k r :
    T = TClass c -> object_class w basic strcons c -> kind_of_class w c = Some k -> resolvable w cfg c ->
    regular (fun m => mangle_obj w cfg (run w cfg m) c V) ->
    (calls w cfg env s T (object_handler k) V (TClass c) r <->
    conv (fun m => mangle_obj w cfg (run w cfg m) c V) r).
  Proof using Hstd Hwr Us St.
    intros ET OC Hk R RG.
    pose proof (find_object w basic strcons cfg Hstd Hwr c k OC Hk) as Fh.
    assert (GT : G (TClass c)) by (rewrite <- ET; apply reach_refl).
    rewrite calls_body.
    assert (RB : regular (fun m => body w cfg (run w cfg m) (object_handler k) V (TClass c))).
    { intros n s1 S1 NO.
      destruct (regular_call w basic strcons cfg Hstd Hwr env s V T St (object_handler k) V (TClass c) GT (V_refl V) Fh (S n) s1 S1 NO) as [S2 C].
      split; [exact S2|]. apply calls_body. exact C. }
    assert (ST2 : forall s1, SETTLED s1 -> exists s2, SETTLED s2 /\
       forall call v, body w cfg call (object_handler k) v (TClass c) s1 = mangle_obj w cfg call c v s2).
    { intros s1 [S1 [S2 S3]]. destruct (obj_body w basic strcons cfg Hstd Hwr c k s1 OC Hk R S1) as [s2 [C2 [I2 [F2 E]]]].
      exists s2. split; [|exact E]. split; [exact C2|]. split; [rewrite F2; exact S2|rewrite I2; exact S3]. }
    split.
    - intros [NO H]. apply (conv_in w basic cfg env s V T Us St _ r RG). split; [exact NO|].
      pose proof (settled_s w basic cfg env s V T Us St) as S0. destruct (H s S0) as [s' [N [_ E]]].
      destruct (ST2 s S0) as [s2 [S2 E2]]. exists N, s2. split; [exact S2|]. rewrite <- E2, (E N (le_n _)). reflexivity.
    - intros [NO H]. split; [exact NO|]. intros s1 S1. destruct (ST2 s1 S1) as [s2 [S2 E2]]. destruct (H s2 S2) as [s' [N [S' E]]].
      exists s', N. split; [exact S'|]. intros m L. rewrite E2. apply E. exact L.
  Qed.

  (** the whole behaviour of an object class *)
  Lemma object c :
    T = TClass c -> object_class w basic strcons c -> resolvable w cfg c -> distinct_names w cfg c -> proper_data V -> forall r,
    (loads w cfg s V (TClass c) (Ok r) <->
     exists d, obj_data w cfg c V d /\
       (forall e, In e (required_names w cfg c) -> In (VStr e) (map fst d)) /\
       (failonextra cfg = true -> forall k x, In (k, x) d -> exists f, field_of w cfg c k = Some f) /\
       exists ps, Forall2 (field_loads (declared w p c)) (given w cfg c d) ps /\ construct w (TClass c) ps = POk r).
  Proof using Hstd Hwr Us St.
    intros ET OC R DN PV r.
    assert (GT : G (TClass c)) by (rewrite <- ET; apply reach_refl).
    assert (K : exists k, kind_of_class w c = Some k).
    { destruct OC as [_ [_ OC]]. destruct (kind_of_class w c); [eauto|contradiction]. }
    destruct K as [k Hk]. pose proof (find_object w basic strcons cfg Hstd Hwr c k OC Hk) as Fh.
    rewrite (loads_ok_calls w basic strcons cfg Hstd Hwr env s V T Us St V (TClass c) (object_handler k) r GT (V_refl V) Fh).
    pose proof (obj_table w cfg c DN) as TB.
    destruct (obj_data_dec w cfg c V) as [[d OD]|ND].
    - pose proof (proper_data_dict c V d PV OD) as PD.
      assert (HV : forall k0 x, In (k0, x) (ren (obj_names w cfg c) d) -> Vok x).
      { intros k0 x H. apply ren_values in H as [k1 H]. eapply inside_step; [apply inside_refl|]. eapply obj_data_part; eassumption. }
      assert (HG : forall k0 ft, In (k0, ft) (declared w p c) -> G ft).
      { intros k0 ft H. eapply reach_step; [exact GT|]. unfold component, comps. apply in_or_app. left. apply (in_map snd) in H. exact H. }
      set (bad := find (fun kx => failonextra cfg && skipped (obj_names w cfg c) (fst kx)) d).
      assert (RM : regular (fun m => mangle_obj w cfg (run w cfg m) c V) /\
        (conv (fun m => mangle_obj w cfg (run w cfg m) c V) (Ok r) <->
         bad = None /\ conv (fun m => objloader w cfg (run w cfg m) (map fst (obj_fields w cfg c)) (obj_required w cfg c) (declared w p c)
                  (VDict (ren (obj_names w cfg c) d)) (TClass c)) (Ok r))).
      { assert (EQ : forall m s1, mangle_obj w cfg (run w cfg m) c V s1 = match bad with
          | Some (VStr k, _) => raise (XTL KValue (MExtraField k) [] (Some V) (Some (TClass c)) []) s1
          | Some _ => raise (XRaw RType) s1
          | None => objloader w cfg (run w cfg m) (map fst (obj_fields w cfg c)) (obj_required w cfg c) (declared w p c)
                      (VDict (ren (obj_names w cfg c) d)) (TClass c) s1
          end) by (intros; apply mangle_obj_data; assumption).
        destruct bad as [[k0 x0]|].
        - assert (EQ' : exists e, forall m s1, mangle_obj w cfg (run w cfg m) c V s1 = raise e s1).
          { destruct k0; eexists; intros; apply EQ. }
          destruct EQ' as [e EQ']. split.
          + intros n s1 S1. rewrite EQ'. intros NO. split; [exact S1|]. apply (conv_ext w cfg env s T _ (fun _ => raise e)); [exact EQ'|].
            apply (conv_raise w basic cfg env s V T Us St). reflexivity.
          + rewrite (conv_ext w cfg env s T _ (fun _ => raise e)) by exact EQ'. rewrite (conv_raise w basic cfg env s V T Us St).
            split; [discriminate|]. intros [Q _]. discriminate.
        - pose proof (regular_objloader (map fst (obj_fields w cfg c)) (obj_required w cfg c) (declared w p c) _ (TClass c) HV HG) as RG.
          split.
          + intros n s1 S1. rewrite EQ. intro NO. destruct (RG n s1 S1 NO) as [S2 C]. split; [exact S2|].
            apply (conv_ext w cfg env s T _ _ _ EQ). exact C.
          + rewrite (conv_ext w cfg env s T _ _ _ EQ). split; [auto|]. intros [_ C]. exact C. }
      destruct RM as [RG CV]. rewrite (conv_in_obj c k (Ok r) ET OC Hk R RG), CV.
      rewrite conv_objloader by assumption. rewrite (required_ren c d DN).
      rewrite (picked_ren _ _ d TB). change (flat_map _ d) with (given w cfg c d).
      assert (KN : (bad = None /\ (failonextra cfg = true ->
           filter (fun kv => negb (key_in (map fst (obj_fields w cfg c)) kv)) (ren (obj_names w cfg c) d) = [])) <->
         (failonextra cfg = true -> forall k x, In (k, x) d -> exists f, field_of w cfg c k = Some f)).
      { pose proof (ren_known _ _ TB d) as RK.
        assert (FE : failonextra cfg = true \/ failonextra cfg = false) by (destruct (failonextra cfg); auto).
        destruct FE as [FE|FE].
        - assert (BN : bad = None <-> forall kx, In kx d -> skipped (obj_names w cfg c) (fst kx) = false).
          { unfold bad. rewrite FE. cbn [andb]. split.
            - intros H kx Hk'. exact (List.find_none _ _ H kx Hk').
            - intro H. clear -H. induction d as [|a d IH]; cbn; [reflexivity|]. rewrite (H a) by (left; reflexivity).
              apply IH. intros kx Hk'. apply H. right. exact Hk'. }
          rewrite BN. split.
          + intros [A B] _. apply RK. split; [exact A|]. apply B. exact FE.
          + intro H. destruct (proj2 RK (H FE)) as [A B]. split; [exact A|]. intros _. exact B.
        - split; [intros _ Q; congruence|]. intros _. split; [|intro Q; congruence].
          unfold bad. rewrite FE. cbn [andb]. clear. induction d as [|a d IH]; [reflexivity|exact IH]. }
      split.
      + intros [B [N [X [ps P]]]]. exists d. split; [exact OD|]. split; [exact N|]. split; [|exists ps; exact P].
        apply KN. auto.
      + intros [d' [OD' [N [X P]]]]. assert (d' = d) by (eapply obj_data_fun; eassumption). subst d'.
        apply KN in X. destruct X as [X1 X2]. auto.
    - assert (EV : forall m s1, mangle_obj w cfg (run w cfg m) c V s1 = raise (XTL KAttr (MPy RAttr) [] (Some V) (Some (TClass c)) []) s1).
      { intros. apply mangle_obj_nodata; assumption. }
      rewrite (conv_in_obj c k (Ok r) ET OC Hk R).
      + rewrite (conv_ext w cfg env s T _ _ _ EV). rewrite (conv_raise w basic cfg env s V T Us St).
        split; [discriminate|]. intros [d [OD _]]. exfalso. eapply ND. exact OD.
      + intros n s1 S1. rewrite EV. intros NO. split; [exact S1|]. apply (conv_ext w cfg env s T _ _ _ EV).
        apply (conv_raise w basic cfg env s V T Us St). reflexivity.
  Qed.
End Object.
