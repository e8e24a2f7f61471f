(** * Facts5: the dumper (C25, C26, C28, C29, C30) *)

From Verif Require Import Loader Dumper Spec Inv Std Sound Fuel Objects Dumps.
From Verif Require Export Vocab.

(** ** Dictionaries *)
Lemma FOP_app {A} (R : A -> A -> Prop) l x : ForallOrdPairs R l -> Forall (fun y => R y x) l -> ForallOrdPairs R (l ++ [x]).
Proof.
  intros H F. induction H as [|a l Ha H IH]; cbn; [repeat constructor|].
  inversion F as [|a' l' Fa Fl]; subst. constructor; [|apply IH; exact Fl].
  apply Forall_app. split; [exact Ha|constructor; [exact Fa|constructor]].
Qed.
Lemma dict_set_py k x d : py_dict d -> py_dict (dict_set k x d).
Proof.
  unfold py_dict. intro H.
  assert (G : (forall k' x', In (k', x') d -> py_eqb k k' = false) \/
              exists pre k' x' post, d = pre ++ (k', x') :: post /\ dict_set k x d = pre ++ (k', x) :: post).
  { clear H. induction d as [|[k0 x0] d IH]; cbn [dict_set]; [left; intros k' x' []|].
    destruct (py_eqb k k0) eqn:E; [right; exists [], k0, x0, d; split; reflexivity|].
    destruct IH as [IH|[pre [k' [x' [post [-> ->]]]]]].
    - left. intros k' x' [Q|I]; [injection Q as <- <-; exact E|apply (IH k' x' I)].
    - right. exists ((k0, x0) :: pre), k', x', post. split; reflexivity. }
  destruct G as [G|[pre [k' [x' [post [-> ->]]]]]].
  - rewrite dict_set_new by exact G. apply FOP_app; [exact H|]. apply Forall_forall. intros [k' x'] I. cbn. exact (G k' x' I).
  - revert H. induction pre as [|a pre IH]; cbn; intro H; inversion H as [|a0 l0 Ha Hl]; subst.
    + constructor; [|exact Hl]. exact Ha.
    + constructor; [|apply IH; exact Hl]. apply Forall_app in Ha as [Ha1 Ha2].
      inversion Ha2 as [|b0 l1 Hb Hc]; subst. apply Forall_app. split; [exact Ha1|constructor; [exact Hb|exact Hc]].
Qed.
Lemma dict_set_in k x d k' x' : In (k', x') (dict_set k x d) -> (k' = k /\ x' = x) \/ (In k' (map fst d) /\ x' = x) \/ In (k', x') d.
Proof.
  induction d as [|[k0 x0] d IH]; cbn [dict_set].
  - intros [Q|[]]. injection Q as <- <-. left. auto.
  - destruct (py_eqb k k0).
    + intros [Q|I]; [injection Q as <- <-; right; left; split; [left; reflexivity|reflexivity]|right; right; right; exact I].
    + intros [Q|I]; [injection Q as <- <-; right; right; left; reflexivity|].
      destruct (IH I) as [A|[[A B]|A]]; [left; exact A|right; left; split; [right; exact A|exact B]|right; right; right; exact A].
Qed.

(** the order of a set *)
Lemma in_set_order_names w fs : map f_name (in_set_order w fs) = set_iter w (map f_name fs).
Proof.
  unfold in_set_order. assert (H : forall k, In k (set_iter w (map f_name fs)) -> In k (map f_name fs)).
  { intros k I. exact (Permutation_in _ (set_iter_perm w _) I). }
  induction (set_iter w (map f_name fs)) as [|k l IH]; [reflexivity|]. cbn [flat_map]. rewrite map_app, IH by (intros x I; apply H; right; exact I).
  destruct (find (fun f => String.eqb (f_name f) k) fs) as [f|] eqn:F.
  - apply find_some in F as [_ Q]. apply String.eqb_eq in Q. cbn. rewrite Q. reflexivity.
  - exfalso. destruct (proj1 (in_map_iff _ _ _) (H k (or_introl eq_refl))) as [f [Q I]].
    pose proof (find_none _ _ F f I) as N. cbn in N. rewrite Q, String.eqb_refl in N. discriminate.
Qed.
Lemma in_set_order_incl w fs f : In f (in_set_order w fs) -> In f fs.
Proof.
  unfold in_set_order. rewrite in_flat_map. intros [k [_ I]].
  destruct (find (fun f => String.eqb (f_name f) k) fs) as [g|] eqn:F; [|contradiction]. destruct I as [<-|[]].
  apply find_some in F. apply F.
Qed.
Lemma in_set_order_nodup w fs : NoDup (map f_name (in_set_order w fs)) <-> NoDup (map f_name fs).
Proof.
  rewrite in_set_order_names. split; intro H.
  - exact (Permutation_NoDup (set_iter_perm w _) H).
  - exact (Permutation_NoDup (Permutation_sym (set_iter_perm w _)) H).
Qed.
Lemma in_set_order_perm w fs : NoDup (map f_name fs) -> Permutation (in_set_order w fs) fs.
Proof.
  intro ND. apply Permutation_sym, NoDup_Permutation_bis.
  - exact (NoDup_map_inv _ _ ND).
  - pose proof (f_equal (@List.length string) (in_set_order_names w fs)) as Q.
    rewrite (Permutation_length (set_iter_perm w _)), !map_length in Q. rewrite Q. reflexivity.
  - intros f I. assert (J : In (f_name f) (map f_name (in_set_order w fs))).
    { rewrite in_set_order_names. apply (Permutation_in _ (Permutation_sym (set_iter_perm w _))). apply in_map. exact I. }
    apply in_map_iff in J as [g [Q J]]. pose proof (in_set_order_incl w fs g J) as Ig.
    assert (g = f) as ->; [|exact J]. clear J.
    induction fs as [|h fs IH]; [contradiction|]. inversion ND as [|e es Ni ND']; subst.
    destruct I as [->|I], Ig as [->|Ig]; try reflexivity.
    + exfalso. apply Ni. rewrite <- Q. apply in_map. exact Ig.
    + exfalso. apply Ni. rewrite Q. apply in_map. exact I.
    + apply IH; assumption.
Qed.
Lemma in_set_order_in w fs f : NoDup (map f_name fs) -> (In f (in_set_order w fs) <-> In f fs).
Proof. intro ND. split; apply Permutation_in; [|apply Permutation_sym]; apply in_set_order_perm; exact ND. Qed.

Section Facts5.
  Variable w : world.
  Variables basic strcons : list cid.
  Variable cfg : dconfig.
  Hypothesis Hstd : is_dstd w basic strcons cfg.
  Notation dval := (dval w cfg).

  (** ** C28, C29 *)
  Lemma c28 s v t n : dhistory w cfg s -> python_value w v -> depth v <= n -> fst (dump_ann w cfg n v t s) <> OOF.
  Proof using Hstd. intros H P L. rewrite (dump_dval w basic strcons cfg Hstd n s v t H P L). apply (dval_OOF w basic strcons cfg Hstd). Qed.

  Lemma dumps_as_dval s v t r : dhistory w cfg s -> python_value w v -> (dumps_as w cfg s v t r <-> r = dval v t).
  Proof using Hstd.
    intros H P. split.
    - intros [NO [n E]]. rewrite <- (dump_dval w basic strcons cfg Hstd (depth v) s v t H P (le_n _)).
      rewrite <- E. f_equal. apply dump_fuel_independent; [congruence|]. apply c28; [exact H|exact P|apply le_n].
    - intros ->. split; [apply (dval_OOF w basic strcons cfg Hstd)|]. exists (depth v). apply (dump_dval w basic strcons cfg Hstd); [exact H|exact P|apply le_n].
  Qed.
  Lemma c29 s1 s2 v t r : dhistory w cfg s1 -> dhistory w cfg s2 -> python_value w v ->
    (dumps_as w cfg s1 v t r <-> dumps_as w cfg s2 v t r).
  Proof using Hstd. intros H1 H2 P. rewrite !dumps_as_dval by assumption. reflexivity. Qed.

  (** ** C30 *)
  Lemma dfind_basic v : In (type_of v) basic -> dfind cfg v = inl DIdent.
  Proof using Hstd.
    intro I. rewrite (dfind_choice w basic strcons cfg Hstd). unfold dchoice. apply mem_cid_In in I. rewrite I. reflexivity.
  Qed.
  Lemma item_any : Dumper.item_type TAny = TAny. Proof using. reflexivity. Qed.

  Lemma dval_json v : json_like w basic v -> dval v TAny = Ok v.
  Proof using Hstd.
    intro J. induction J as [v I|l H IH|d H _ IH Pd].
    - rewrite (dval_eq w basic strcons cfg Hstd), (dfind_basic v I). reflexivity.
    - rewrite (dval_eq w basic strcons cfg Hstd), (dfind_choice w basic strcons cfg Hstd). unfold dchoice.
      destruct (mem_cid (type_of (VList l)) basic); [reflexivity|]. cbn. clear H.
      assert (G : forall acc, pdump_list dval l acc = Ok (VList (acc ++ l))).
      { induction l as [|x l IHl]; intro acc; cbn; [rewrite app_nil_r; reflexivity|].
        rewrite IH by (left; reflexivity). cbn. rewrite IHl by (intros y I; apply IH; right; exact I). rewrite <- app_assoc. reflexivity. }
      apply G.
    - rewrite (dval_eq w basic strcons cfg Hstd), (dfind_choice w basic strcons cfg Hstd). unfold dchoice.
      destruct (mem_cid (type_of (VDict d)) basic); [reflexivity|]. cbn.
      assert (G : forall d2 d1, d = d1 ++ d2 -> pdict_loop w dval d2 d1 = Ok (VDict d)).
      { induction d2 as [|[k x] d2 IHd]; intros d1 Q; cbn; [rewrite app_nil_r in Q; subst; reflexivity|].
        assert (I : In (k, x) d) by (rewrite Q; apply in_or_app; right; left; reflexivity).
        destruct (H k x I) as [B Hk].
        rewrite (IH k x I). rewrite (dval_eq w basic strcons cfg Hstd k), (dfind_basic k B). cbn. rewrite Hk.
        rewrite dict_set_new; [apply IHd; rewrite <- app_assoc; exact Q|].
        intros k' x' I'. clear -Pd Q I'. subst d. unfold py_dict in Pd. induction d1 as [|a d1 IH]; [contradiction|].
        cbn in Pd. inversion Pd as [|a0 l0 Ha Hl]; subst. destruct I' as [->|I']; [|apply IH; assumption].
        apply Forall_app in Ha as [_ Ha]. inversion Ha as [|b0 l1 Hb _]; subst. exact Hb. }
      apply (G d []). reflexivity.
  Qed.
  Lemma c30 s v r : dhistory w cfg s -> python_value w v -> json_like w basic v -> (dumps w cfg s v r <-> r = Ok v).
  Proof using Hstd. intros H P J. rewrite (dumps_dval w basic strcons cfg Hstd s v r H P), (dval_json v J). reflexivity. Qed.

  (** ** C25 *)
  Section Shape.
    Hypothesis Hint : In CInt basic.
    Hypothesis Hfloat : In CFloat basic.
    Hypothesis Hstr : In CStr basic.
    Definition good (x : value) : Prop := json_like w basic x /\ python_value w x.
    Lemma leaf_pv v : (forall x, ~ holds v x) -> python_object w v -> python_value w v.
    Proof using. intros N P x I. inversion I as [|y z H1 H2]; subst; [exact P|]. exfalso. exact (N _ H1). Qed.
    Lemma good_str x : good (VStr x).
    Proof using Hstr. split; [apply json_basic; exact Hstr|]. apply leaf_pv; [intros y H; inversion H|exact I]. Qed.
    Lemma good_int x : good (VInt x).
    Proof using Hint. split; [apply json_basic; exact Hint|]. apply leaf_pv; [intros y H; inversion H|exact I]. Qed.
    Lemma pv_list l : (forall x, In x l -> python_value w x) -> python_value w (VList l).
    Proof using. intros H x I. inversion I as [|y z H1 H2]; subst; [exact Logic.I|]. inversion H1; subst. eapply H; eassumption. Qed.
    Lemma good_list l : (forall x, In x l -> good x) -> good (VList l).
    Proof using. intro H. split; [apply json_list; intros x I; apply H; exact I|apply pv_list; intros x I; apply H; exact I]. Qed.
    Definition gdict (d : list (value * value)) : Prop :=
      (forall k x, In (k, x) d -> In (type_of k) basic /\ hashable w k = true /\ python_value w k /\ good x) /\ py_dict d.
    Lemma good_dict d : gdict d -> good (VDict d).
    Proof using.
      intros [H P]. split.
      - apply json_dict; [| |exact P]; intros k x I; destruct (H k x I) as [A [B [_ [C _]]]]; auto.
      - intros x I. inversion I as [|y z H1 H2]; subst; [exact Logic.I|].
        inversion H1 as [| | | |d0 k y0 J|d0 k y0 J| | |]; subst; destruct (H _ _ J) as [_ [_ [A [_ B]]]]; [exact (A x H2)|exact (B x H2)].
    Qed.
    Lemma gdict_set k x d : gdict d -> In (type_of k) basic -> hashable w k = true -> python_value w k -> good x -> gdict (dict_set k x d).
    Proof using.
      intros [H P] A B C G. split; [|apply dict_set_py; exact P].
      intros k' x' I. apply dict_set_in in I as [[-> ->]|[[I ->]|I]]; [auto| |apply H; exact I].
      apply in_map_iff in I as [[k1 x1] [Q I]]. cbn in Q. subst k1. destruct (H _ _ I) as [A1 [B1 [C1 _]]]. auto.
    Qed.
    Lemma gdict_nil : gdict [].
    Proof using. split; [intros k x []|constructor]. Qed.
    Lemma gdict_str k x d : gdict d -> good x -> gdict (dict_set (VStr k) x d).
    Proof using Hstr. intros H G. apply gdict_set; [exact H|exact Hstr|reflexivity|apply good_str|exact G]. Qed.

    (** a value annotated as a collection of basic values is one *)
    Definition ann_ok (v : value) (t : ty) : Prop :=
      forall l y, v = VList l \/ v = VTuple l \/ v = VSet l \/ v = VFrozen l ->
      in_classes basic (Dumper.item_type t) = true -> In y l -> In (type_of y) basic.

    Lemma rbind_Ok {A B} (r : res A) (f : A -> res B) b : rbind r f = Ok b -> exists a, r = Ok a /\ f a = Ok b.
    Proof using. destruct r as [a|e|]; cbn; [eauto|discriminate|discriminate]. Qed.
    Lemma rlift_Ok {A} (r : pyres A) a : rlift r = Ok a -> r = POk a.
    Proof using. destruct r; cbn; congruence. Qed.

    Lemma within_trans a b c : within a b -> within b c -> within a c.
    Proof using. intros H1 H2. induction H1 as [|x y z Hxy _ IH]; [exact H2|]. eapply rt1n_trans; [exact Hxy|apply IH; exact H2]. Qed.
    Lemma within_holds a b : holds a b -> within a b.
    Proof using. intro H. eapply rt1n_trans; [exact H|apply rt1n_refl]. Qed.

    Lemma item_basic t b : in_classes basic t = true -> t = Dumper.item_type b ->
      exists c n o, In c basic /\ t = TClass c /\ (b = TGen n o (Some [TClass c]) \/ b = TGen n o (Some [TClass c; TEllipsis])).
    Proof using.
      intros I E. destruct t as [c| | | | | | |]; try discriminate. cbn in I. apply mem_cid_In in I.
      destruct b as [| n o [args|]| | | | | |]; cbn in E; try discriminate.
      destruct args as [|a args]; [discriminate|]. destruct args as [|a2 args]; [subst a; exists c, n, o; auto|].
      destruct args; [|destruct a2; discriminate]. destruct a2; try discriminate. subst a. exists c, n, o. auto.
    Qed.

    Lemma c25_dval v : forall t,
      python_value w v -> library_values w basic v -> annotations_hold w basic v -> ann_ok v t ->
      forall r, dval v t = Ok r -> good r.
    Proof using Hstd Hint Hfloat Hstr.
      remember (depth v) as n eqn:Q. assert (L : depth v <= n) by lia. clear Q. revert v L.
      induction n as [|n IH]; intros v L t P Lib Ann At r E; [destruct v; cbn in L; lia|].
      rewrite (dval_eq w basic strcons cfg Hstd) in E. destruct (dfind cfg v) as [h|] eqn:F; [|discriminate].
      assert (Sub : forall x t', holds v x -> ann_ok x t' -> forall y, dval x t' = Ok y -> good y).
      { intros x t' Hx A y. apply IH.
        - apply depth_holds in Hx. lia.
        - eapply pv_holds; eassumption.
        - destruct Lib as [L1 L2]. split; [intros z Hz; apply L1; eapply rt1n_trans; eassumption|].
          intros c p Hz. apply (L2 c p). eapply rt1n_trans; eassumption.
        - intros c fs hs f t0 b n0 o x0 l y0 Hz. apply (Ann c fs hs f t0 b n0 o x0 l y0). eapply rt1n_trans; eassumption.
        - exact A. }
      assert (AnyOk : forall x, ann_ok x TAny) by (intros x l y _ B; discriminate).
      rewrite (dfind_choice w basic strcons cfg Hstd) in F.
      destruct h; cbn [pbody] in E.
      - injection E as <-. split; [|exact P]. apply json_basic. unfold dchoice in F.
        destruct (mem_cid (type_of v) basic) eqn:B; [apply mem_cid_In; exact B|].
        repeat match type of F with context [if ?b then _ else _] => destruct b; [discriminate|] end; discriminate.
      - destruct v as [| | | | | | | | | | | |c fs| | |]; try discriminate.
        revert E. generalize (match ci_nt (class_of w c) with Some l => l | None => [] end) as ds. intro ds.
        assert (H' : forall f x, In (f, x) fs -> forall y, dval x TAny = Ok y -> good y).
        { intros f x I. apply (Sub x TAny); [eapply holds_nt; exact I|apply AnyOk]. }
        assert (G : forall acc, gdict acc -> pnt_loop cfg dval ds fs acc = Ok r -> good r).
        { clear -H' Hstr. induction fs as [|[k x] fs IH]; intros acc Ga; cbn [pnt_loop].
          - intros [= <-]. apply good_dict. exact Ga.
          - assert (IH' := IH (fun f x I => H' f x (or_intror I))). destruct (_ && _); [apply IH'; exact Ga|].
            intro E. apply rbind_Ok in E as [y [Ey E]]. revert E. apply IH'. apply gdict_str; [exact Ga|].
            exact (H' k x (or_introl eq_refl) y Ey). }
        intro E. exact (G [] gdict_nil E).
      - destruct (ci_dc (class_of w (type_of v))) as [fs|] eqn:Dc; [|discriminate].
        apply rbind_Ok in E as [info [Ei E]]. apply rlift_Ok in Ei.
        assert (Hh : exists hs, ci_ihints (class_of w (type_of v)) = POk hs /\ dc_hints info = hs).
        { unfold dc_info in Ei. destruct (ci_ihints (class_of w (type_of v))) as [hs|]; [|discriminate]. injection Ei as <-. eauto. }
        destruct Hh as [hs [Eh Qh]].
        assert (G : forall names acc, gdict acc -> pdc_loop cfg dval v fs info names acc = Ok r -> good r).
        { induction names as [|k names IHn]; intros acc Ga; cbn [pdc_loop].
          - intros [= <-]. apply good_dict. exact Ga.
          - destruct (find _ fs) as [f|]; [|discriminate]. intro E1. apply rbind_Ok in E1 as [x [Ex E1]]. apply rlift_Ok in Ex.
            destruct (_ && _); [exact (IHn acc Ga E1)|]. apply rbind_Ok in E1 as [y [Ey E1]]. revert E1. apply IHn.
            apply gdict_str; [exact Ga|]. apply (Sub x _ (getattr_holds _ _ _ Ex)) in Ey; [exact Ey|].
            rewrite Qh. destruct (str_get k hs) as [t0|] eqn:Eg; [|apply AnyOk].
            intros l y0 Hx B I.
            destruct (item_basic _ t0 B eq_refl) as [b [n0 [o [Ib [_ Ht]]]]].
            assert (Vo : exists c fs0, v = VObj c fs0 /\ In (k, x) fs0).
            { assert (G0 : forall (fs : list (string * value)), str_get k fs = Some x -> In (k, x) fs).
              { clear. induction fs as [|[k0 y] fs IH]; cbn; [discriminate|].
                destruct (String.eqb_spec k k0) as [->|_]; [intros [= <-]; left; reflexivity|right; auto]. }
              destruct v; cbn in Ex; try discriminate.
              - exfalso. pose proof (pv_head w _ P) as Po. cbn in Po, Dc. unfold dchoice in F. cbn in F.
                destruct (mem_cid c basic); discriminate.
              - destruct (str_get k fs0) eqn:Es; [|discriminate]. injection Ex as ->. exists c, fs0. split; [reflexivity|apply G0; exact Es]. }
            destruct Vo as [c [fs0 [-> I0]]]. cbn in Eh.
            exact (Ann c fs0 hs k t0 b n0 o x l y0 (rt1n_refl _ _ _) Eh Eg Ht Ib I0 Hx I). }
        exact (G _ [] gdict_nil E).
      - destruct (iter v) as [l|] eqn:Ei; [|discriminate].
        assert (Hl : v = VList l \/ v = VTuple l \/ v = VSet l \/ v = VFrozen l).
        { unfold dchoice in F. destruct v; cbn in F, Ei; try (injection Ei as ->; auto);
            repeat match type of F with context [if ?b then _ else _] => destruct b; [discriminate|] end; discriminate. }
        assert (Hi : forall x, In x l -> holds v x).
        { intros x I. destruct Hl as [->|[->|[->| ->]]]; constructor; exact I. }
        destruct (in_classes (d_basic cfg) (Dumper.item_type t) && ident_first cfg) eqn:B.
        + injection E as <-. apply andb_prop in B as [B _]. rewrite (proj2 Hstd) in B. apply good_list. intros x I.
          split; [apply json_basic; exact (At l x Hl B I)|]. eapply pv_holds; [exact P|apply Hi; exact I].
        + assert (G : forall l0 acc, (forall x, In x l0 -> holds v x) -> (forall x, In x acc -> good x) -> pdump_list dval l0 acc = Ok r -> good r).
          { induction l0 as [|x l0 IHl]; intros acc H0 Ga; cbn [pdump_list].
            - intros [= <-]. apply good_list. exact Ga.
            - intro E1. apply rbind_Ok in E1 as [y [Ey E1]]. revert E1. apply IHl; [intros z I; apply H0; right; exact I|].
              intros z I. apply in_app_or in I as [I|[<-|[]]]; [apply Ga; exact I|].
              apply (Sub x TAny (H0 x (or_introl eq_refl)) (AnyOk x) y Ey). }
          apply (G l []); [exact Hi|intros x []|exact E].
      - destruct v; try discriminate. apply (Sub v TAny); [constructor|apply AnyOk|exact E].
      - destruct v as [| | | | | | | | | |d| | | | |]; try discriminate.
        assert (G : forall d0 acc, (forall k x, In (k, x) d0 -> In (k, x) d) -> gdict acc -> pdict_loop w dval d0 acc = Ok r -> good r).
        { induction d0 as [|[k x] d0 IHd]; intros acc H0 Ga; cbn [pdict_loop].
          - intros [= <-]. apply good_dict. exact Ga.
          - intro E1. apply rbind_Ok in E1 as [k' [Ek E1]]. apply rbind_Ok in E1 as [x' [Ex E1]].
            destruct (hashable w k') eqn:Hk; [|discriminate]. revert E1. apply IHd; [intros k0 x0 I; apply H0; right; exact I|].
            assert (I : In (k, x) d) by (apply H0; left; reflexivity).
            pose proof (Sub k TAny (holds_key d k x I) (AnyOk k) k' Ek) as [J1 J2].
            apply gdict_set; [exact Ga| |exact Hk|exact J2|apply (Sub x TAny (holds_value d k x I) (AnyOk x) x' Ex)].
            inversion J1; subst; [assumption|discriminate|discriminate]. }
        apply (G d []); [auto|exact gdict_nil|exact E].
      - destruct (ci_attrs (class_of w (type_of v))) as [fs|]; [|discriminate].
        assert (G : forall fs acc, gdict acc -> pattr_loop cfg dval v fs acc = Ok r -> good r).
        { clear fs E. induction fs as [|f fs IHn]; intros acc Ga; cbn [pattr_loop].
          - intros [= <-]. apply good_dict. exact Ga.
          - intro E1. apply rbind_Ok in E1 as [x [Ex E1]]. apply rlift_Ok in Ex.
            destruct (negb (f_repr f)); [exact (IHn acc Ga E1)|]. apply rbind_Ok in E1 as [[|] [_ E1]]; [exact (IHn acc Ga E1)|].
            apply rbind_Ok in E1 as [y [Ey E1]]. revert E1. apply IHn. apply gdict_str; [exact Ga|].
            exact (Sub x TAny (getattr_holds _ _ _ Ex) (AnyOk x) y Ey). }
        exact (G fs [] gdict_nil E).
      - destruct (d_iso cfg); [injection E as <-; apply good_str|].
        destruct v as [| | | | | | | | | | | | | | |c p]; try discriminate. destruct p as [| | | | | | |l| | | | | | | |]; try discriminate.
        assert (Hd : is_date_or_time w (VInst c (VTuple l)) = true).
        { unfold dchoice in F. destruct (is_date_or_time w (VInst c (VTuple l))) eqn:B; [reflexivity|].
          repeat match type of F with context [if ?b then _ else _] => destruct b; [discriminate|] end; discriminate. }
        destruct (proj1 Lib _ (rt1n_refl _ _ _)) as [H1 _]. destruct (H1 (proj1 (orb_true_iff _ _) Hd)) as [zs [tz Q]].
        assert (I1 : forall a b, isinstance w (VInst c a) b = isinstance w (VInst c VNone) b) by reflexivity.
        rewrite !(I1 (VTuple l)) in Q, E. injection Q as Ql.
        destruct (isinstance w (VInst c VNone) CDate && negb (isinstance w (VInst c VNone) CDatetime)); rewrite Ql in E.
        + injection E as <-. rewrite app_nil_r. apply good_list. intros x I. apply in_map_iff in I as [z [<- _]]. apply good_int.
        + rewrite last_last, removelast_last in E.
          destruct tz; try discriminate. injection E as <-. apply good_list. intros x I. apply in_map_iff in I as [z [<- _]]. apply good_int.
      - injection E as <-.
        assert (Ht : isinstance w v CTimedelta = true).
        { unfold dchoice in F. destruct (isinstance w v CTimedelta) eqn:B; [reflexivity|].
          repeat match type of F with context [if ?b then _ else _] => destruct b; [discriminate|] end; discriminate. }
        assert (Vi : exists c p, v = VInst c p).
        { pose proof (pv_head w v P) as Po. unfold dchoice in F.
          destruct v; cbn in Ht; try discriminate; try (eexists; eexists; reflexivity); exfalso; cbn in F;
            try (destruct (mem_cid c basic); [discriminate|]); try discriminate.
          - unfold has_dc, has_attrs in F. cbn in F, Po. destruct (ci_dc (class_of w c)); [discriminate|].
            destruct (ci_attrs (class_of w c)); [discriminate|]. intuition congruence.
          - destruct (has_dc w (VEnum c m v)); discriminate. }
        destruct Vi as [c [p ->]]. destruct (proj1 Lib _ (rt1n_refl _ _ _)) as [_ [H1 _]]. destruct (H1 Ht) as [f ->].
        split; [apply json_basic; exact Hfloat|]. apply leaf_pv; [intros y H; inversion H|exact I].
      - assert (Ht : isinstance w v CPattern = true).
        { unfold dchoice in F. destruct (isinstance w v CPattern) eqn:B; [reflexivity|].
          repeat match type of F with context [if ?b then _ else _] => destruct b; [discriminate|] end; discriminate. }
        destruct v as [| | | | | | | | | | | | | | |c p]; try discriminate. injection E as <-.
        destruct (proj1 Lib _ (rt1n_refl _ _ _)) as [_ [_ H1]]. destruct (H1 Ht) as [x [->| ->]]; [apply good_str|].
        split; [apply json_basic; apply (proj2 Lib c x (rt1n_refl _ _ _) Ht)|]. apply leaf_pv; [intros y H; inversion H|exact I].
      - injection E as <-. apply good_str.
      - discriminate.
    Qed.
  End Shape.

  (** ** C26 *)
  Section Fields.
    Variable v : value.
    Fixpoint gloop (fs : list dfield) (acc : list (value * value)) : res value :=
      match fs with
      | [] => Ok (VDict acc)
      | f :: fs' =>
          rbind (rlift (getattr v (df_name f))) (fun x =>
          if dump_shows w cfg v f then rbind (dval x (df_ann f)) (fun y => gloop fs' (dict_set (VStr (df_ext f)) y acc))
          else gloop fs' acc)
      end.
    Definition field_dumps (f : dfield) (y : value) : Prop :=
      exists x, getattr v (df_name f) = POk x /\ dval x (df_ann f) = Ok y.
    Definition written (fs : list dfield) (ys : list value) : list (value * value) :=
      combine (map (fun f => VStr (df_ext f)) fs) ys.

    Lemma gloop_spec fs acc r :
      NoDup (map df_ext fs) ->
      (forall f k x, In f fs -> In (k, x) acc -> py_eqb (VStr (df_ext f)) k = false) ->
      (gloop fs acc = Ok r <->
       (forall f, In f fs -> exists x, getattr v (df_name f) = POk x) /\
       exists ys, Forall2 field_dumps (filter (dump_shows w cfg v) fs) ys /\
                  r = VDict (acc ++ written (filter (dump_shows w cfg v) fs) ys)).
    Proof using.
      revert acc. induction fs as [|f fs IH]; intros acc ND Ha; cbn [gloop filter].
      - split.
        + intros [= <-]. split; [intros f []|]. exists []. split; [constructor|]. unfold written. cbn. rewrite app_nil_r. reflexivity.
        + intros [_ [ys [F ->]]]. inversion F; subst. unfold written. cbn. rewrite app_nil_r. reflexivity.
      - cbn [map] in ND. inversion ND as [|e es Ni ND']; subst.
        destruct (getattr v (df_name f)) as [x|q] eqn:G; cbn [rlift rbind].
        2: { split; [discriminate|]. intros [H _]. destruct (H f (or_introl eq_refl)) as [x Q]. congruence. }
        destruct (dump_shows w cfg v f) eqn:Sh.
        + destruct (dval x (df_ann f)) as [y|e|] eqn:Ey; cbn [rbind].
          2: { split; [discriminate|]. intros [_ [ys [F _]]]. inversion F as [|f0 y0 l0 ys0 [x0 [Q1 Q2]] F0]; subst. congruence. }
          2: { split; [discriminate|]. intros [_ [ys [F _]]]. inversion F as [|f0 y0 l0 ys0 [x0 [Q1 Q2]] F0]; subst. congruence. }
          rewrite dict_set_new by (intros k' x' I; apply (Ha f k' x' (or_introl eq_refl) I)).
          rewrite IH.
          * split.
            -- intros [H [ys [F ->]]]. split; [intros f0 [<-|I]; [eauto|apply H; exact I]|].
               exists (y :: ys). split; [constructor; [exists x; auto|exact F]|]. unfold written. cbn [map combine]. rewrite <- app_assoc. reflexivity.
            -- intros [H [ys [F ->]]]. split; [intros f0 I; apply H; right; exact I|].
               inversion F as [|f0 y0 l0 ys0 [x0 [Q1 Q2]] F0]; subst. exists ys0. split; [exact F0|].
               unfold written. cbn [map combine]. rewrite <- app_assoc. assert (y0 = y) by congruence. subst. reflexivity.
          * exact ND'.
          * intros f0 k x0 I J. apply in_app_or in J as [J|[J|[]]]; [apply (Ha f0 k x0); [right; exact I|exact J]|].
            injection J as <- <-. cbn. apply String.eqb_neq. intro Q. apply Ni. rewrite <- Q. apply in_map. exact I.
        + rewrite IH; [|exact ND'|intros f0 k x0 I J; apply (Ha f0 k x0); [right; exact I|exact J]].
          split; intros [H R]; (split; [|exact R]).
          * intros f0 [<-|I]; [eauto|apply H; exact I].
          * intros f0 I. apply H. right. exact I.
    Qed.
  End Fields.

  Lemma str_get_NoDup {A} (l : list (string * A)) k x : NoDup (map fst l) -> In (k, x) l -> str_get k l = Some x.
  Proof using.
    induction l as [|[k0 y] l IH]; cbn; [intros _ []|]. intro ND. inversion ND as [|e es Ni ND']; subst.
    intros [Q|I]; [injection Q as -> ->; rewrite String.eqb_refl; reflexivity|].
    destruct (String.eqb_spec k k0) as [->|_]; [|apply IH; assumption].
    exfalso. apply Ni. apply (in_map fst l (k0, x) I).
  Qed.

  Lemma nt_gloop c fs0 : forall fs acc,
    (forall k x, In (k, x) fs -> str_get k fs0 = Some x) ->
    let ds := match ci_nt (class_of w c) with Some l => l | None => [] end in
    pnt_loop cfg dval ds fs acc =
    gloop (VNT c fs0) (map (fun kx => mkDfield (fst kx) (fst kx) TAny
             (match ci_nt (class_of w c) with
              | Some l => match str_get (fst kx) l with Some d => d | None => None end
              | None => None
              end)) fs) acc.
  Proof using.
    induction fs as [|[k x] fs IH]; intros acc H ds; cbn [pnt_loop gloop map]; [reflexivity|].
    assert (IH' := fun acc => IH acc (fun k x I => H k x (or_intror I))). cbv zeta in IH'.
    cbn [df_name fst getattr]. rewrite (H k x) by (left; reflexivity). cbn [rlift rbind].
    unfold dump_shows, at_default. cbn [df_default df_name fst getattr]. rewrite (H k x) by (left; reflexivity).
    unfold ds. destruct (ci_nt (class_of w c)) as [l|]; cbn [df_ann df_ext].
    - destruct (str_get k l) as [[d|]|]; [destruct (d_hide cfg && py_eqb d x)| |]; rewrite ?andb_false_r; cbn [negb]; rewrite ?IH'; try reflexivity;
        destruct (dval x TAny); cbn; try reflexivity; apply IH'.
    - cbn [str_get]. rewrite ?andb_false_r. cbn [negb]. destruct (dval x TAny); cbn; try reflexivity; apply IH'.
  Qed.

  Lemma find_name (fs : list field) f : NoDup (map f_name fs) -> In f fs -> find (fun g => String.eqb (f_name g) (f_name f)) fs = Some f.
  Proof using.
    induction fs as [|g fs IH]; cbn; [intros _ []|]. intro ND. inversion ND as [|e es Ni ND']; subst.
    intros [->|I]; [rewrite String.eqb_refl; reflexivity|].
    destruct (String.eqb_spec (f_name g) (f_name f)) as [Q|_]; [|apply IH; assumption].
    exfalso. apply Ni. rewrite Q. apply in_map. exact I.
  Qed.
  Lemma dc_defaults_get (fs : list field) f : NoDup (map f_name fs) -> In f fs ->
    str_get (f_name f) (flat_map (fun f => match f_default f with DValue d | DFactory d => [(f_name f, d)] | _ => [] end) fs)
    = default_value (f_default f).
  Proof using.
    assert (N : forall (fs : list field) k, ~ In k (map f_name fs) ->
      str_get k (flat_map (fun f => match f_default f with DValue d | DFactory d => [(f_name f, d)] | _ => [] end) fs) = None).
    { clear. induction fs as [|g fs IH]; intros k H; cbn; [reflexivity|].
      assert (H1 : k <> f_name g) by (intro Q; apply H; left; congruence).
      assert (H2 : ~ In k (map f_name fs)) by (intro I; apply H; right; exact I).
      destruct (f_default g); cbn; try apply (IH k H2); destruct (String.eqb_spec k (f_name g)); try contradiction; apply (IH k H2). }
    induction fs as [|g fs IH]; cbn; [intros _ []|]. intro ND. inversion ND as [|e es Ni ND']; subst.
    intros [->|I].
    - destruct (f_default f); cbn; rewrite ?String.eqb_refl; try reflexivity; apply N; exact Ni.
    - assert (Q : f_name f <> f_name g) by (intro Q; apply Ni; rewrite <- Q; apply in_map; exact I).
      destruct (f_default g); cbn; try (apply IH; assumption); destruct (String.eqb_spec (f_name f) (f_name g)); try contradiction; apply IH; assumption.
  Qed.

  Lemma dc_gloop c vs fs hs info : NoDup (map f_name fs) -> ci_dc (class_of w c) = Some fs ->
    ci_ihints (class_of w c) = POk hs -> dc_info w c fs = POk info ->
    forall fs1 acc, (forall f, In f fs1 -> In f fs) ->
    pdc_loop cfg dval (VObj c vs) fs info (map f_name fs1) acc =
    gloop (VObj c vs) (map (fun f => mkDfield (f_name f) (dump_name cfg f)
                 (match str_get (f_name f) hs with Some t => t | None => TAny end) (default_value (f_default f))) fs1) acc.
  Proof using.
    intros ND Dc Eh Ei. unfold dc_info in Ei. rewrite Eh in Ei. injection Ei as <-.
    induction fs1 as [|f fs1 IH]; intros acc H; cbn [pdc_loop gloop map]; [reflexivity|].
    assert (If : In f fs) by (apply H; left; reflexivity).
    assert (IH' := fun acc => IH acc (fun f I => H f (or_intror I))).
    rewrite (find_name fs f ND If). cbn [df_name df_ann df_ext dc_defaults dc_hints].
    destruct (getattr (VObj c vs) (f_name f)) as [x|] eqn:G; cbn [rlift rbind]; [|reflexivity].
    rewrite (dc_defaults_get fs f ND If).
    unfold dump_shows, at_default. cbn [df_default df_name]. rewrite G, Dc.
    destruct (default_value (f_default f)) as [d|]; [destruct (d_hide cfg && py_eqb d x)|]; rewrite ?andb_false_r; cbn [negb];
      rewrite ?IH'; try reflexivity; destruct (dval x _); cbn; try reflexivity; apply IH'.
  Qed.

  Lemma attr_gloop c vs fs0 : ci_dc (class_of w c) = None -> ci_attrs (class_of w c) = Some fs0 ->
    forall fs acc r,
    pattr_loop cfg dval (VObj c vs) fs acc = Ok r <->
    (forall f, In f fs -> (exists x, getattr (VObj c vs) (f_name f) = POk x) /\
            (d_hide cfg = true -> f_repr f = true -> forall g, f_default f <> DFactorySelf g)) /\
    gloop (VObj c vs) (map (fun f => mkDfield (f_name f) (dump_name cfg f) TAny (default_value (f_default f))) (filter f_repr fs)) acc = Ok r.
  Proof using.
    intros Dc At. induction fs as [|f fs IH]; intros acc r; cbn [pattr_loop filter map].
    - cbn [gloop]. split; [intro E; split; [intros f []|exact E]|intros [_ E]; exact E].
    - destruct (getattr (VObj c vs) (f_name f)) as [x|] eqn:G; cbn [rlift rbind].
      2: { split; [discriminate|]. intros [H _]. destruct (H f (or_introl eq_refl)) as [[x Q] _]. congruence. }
      destruct (f_repr f) eqn:R; cbn [negb map].
      2: { rewrite IH. split; intros [H1 H2]; (split; [|exact H2]).
           - intros f0 [<-|I]; [split; [eauto|congruence]|apply H1; exact I].
           - intros f0 I. apply H1. right. exact I. }
      cbn [gloop df_name df_ann df_ext]. rewrite G. cbn [rlift rbind]. unfold dump_shows, at_default. cbn [df_default df_name]. rewrite G, Dc.
      unfold attr_hidden.
      assert (K : (d_hide cfg = true -> forall g, f_default f <> DFactorySelf g) -> forall B : Prop,
        ((forall f0, In f0 fs -> (exists x, getattr (VObj c vs) (f_name f0) = POk x) /\
            (d_hide cfg = true -> f_repr f0 = true -> forall g, f_default f0 <> DFactorySelf g)) /\ B <->
        (forall f0, f = f0 \/ In f0 fs -> (exists x, getattr (VObj c vs) (f_name f0) = POk x) /\
            (d_hide cfg = true -> f_repr f0 = true -> forall g, f_default f0 <> DFactorySelf g)) /\ B)).
      { intros Hb B. split; intros [H1 H2]; (split; [|exact H2]).
        - intros f0 [<-|I]; [split; [eauto|intros; apply Hb; assumption]|apply H1; exact I].
        - intros f0 I. apply H1. right. exact I. }
      destruct (d_hide cfg) eqn:Hide; cbn [andb rlift rbind].
      + destruct (f_default f) as [|d|d|g] eqn:Df; cbn [default_value rlift rbind negb andb].
        * cbn [negb]. rewrite <- K by (intros; discriminate).
          destruct (dval x TAny) as [y| |]; cbn [rbind]; [apply IH|intuition discriminate|intuition discriminate].
        * rewrite <- K by (intros; discriminate). destruct (py_eqb x d); cbn [negb]; [apply IH|].
          destruct (dval x TAny) as [y| |]; cbn [rbind]; [apply IH|intuition discriminate|intuition discriminate].
        * rewrite <- K by (intros; discriminate). destruct (py_eqb x d); cbn [negb]; [apply IH|].
          destruct (dval x TAny) as [y| |]; cbn [rbind]; [apply IH|intuition discriminate|intuition discriminate].
        * split; [discriminate|]. intros [H _]. exfalso. destruct (H f (or_introl eq_refl)) as [_ H2]. exact (H2 eq_refl R g Df).
      + cbn [negb]. rewrite <- K by (intros; discriminate).
        destruct (dval x TAny) as [y| |]; cbn [rbind]; [apply IH|intuition discriminate|intuition discriminate].
  Qed.

  Lemma c26_dval v r : python_value w v -> dump_object w basic cfg v ->
    (dval v TAny = Ok r <-> dump_ready w cfg v /\
       exists ys, Forall2 (field_dumps v) (filter (dump_shows w cfg v) (dump_fields w cfg v)) ys /\
                  r = VDict (written (filter (dump_shows w cfg v) (dump_fields w cfg v)) ys)).
  Proof using Hstd.
    intros P [NB [Sh [ND1 ND2]]]. rewrite (dval_eq w basic strcons cfg Hstd), (dfind_choice w basic strcons cfg Hstd).
    unfold dchoice. assert (NB' : mem_cid (type_of v) basic = false).
    { destruct (mem_cid (type_of v) basic) eqn:M; [apply mem_cid_In in M; contradiction|reflexivity]. }
    rewrite NB'. destruct v as [| | | | | | | | | | | |c vs|c vs| |]; try contradiction.
    - cbn [pbody]. rewrite (nt_gloop c vs vs []).
      2: { intros k x I. apply str_get_NoDup; [|exact I]. cbn [dump_fields] in ND1. rewrite map_map in ND1. exact ND1. }
      cbn [dump_fields dump_ready]. rewrite gloop_spec; [|exact ND2|intros f k x _ []].
      split; [intros [_ H]; split; [exact I|exact H]|]. intros [_ H]. split; [|exact H].
      intros f J. apply in_map_iff in J as [[k x] [<- J]]. cbn [df_name fst getattr]. exists x.
      rewrite (str_get_NoDup vs k x); [reflexivity| |exact J]. cbn [dump_fields] in ND1. rewrite map_map in ND1. exact ND1.
    - unfold has_dc, has_attrs. cbn [type_of]. cbn [dump_fields dump_ready] in *.
      destruct (ci_dc (class_of w c)) as [fs|] eqn:Dc.
      + cbn [pbody type_of]. rewrite Dc. unfold dc_info at 1.
        destruct (ci_ihints (class_of w c)) as [hs|q] eqn:Eh; cbn [rlift rbind].
        2: { split; [discriminate|]. intros [[[hs Q] _] _]. discriminate. }
        cbn [dc_fields]. rewrite map_map in ND1. cbn [df_name] in ND1.
        set (info := mkDcinfo _ _ _).
        assert (Ei : dc_info w c fs = POk info) by (unfold dc_info; rewrite Eh; reflexivity).
        rewrite <- (in_set_order_names w fs).
        pose proof (proj1 (in_set_order_nodup w fs) ND1) as ND0.
        rewrite (dc_gloop c vs fs hs info ND0 Dc Eh Ei (in_set_order w fs) []) by (apply in_set_order_incl).
        rewrite gloop_spec; [|exact ND2|intros f k x _ []].
        split; intros [H R]; (split; [|exact R]).
        * split; [eauto|]. intros f I. apply (in_set_order_in w fs f ND0) in I. apply (H _ (in_map _ _ f I)).
        * intros f I. apply in_map_iff in I as [g [<- I]]. cbn [df_name]. apply H. apply in_set_order_incl in I. exact I.
      + destruct (ci_attrs (class_of w c)) as [fs|] eqn:At.
        2: { exfalso. pose proof (pv_head w _ P) as Po. cbn in Po. rewrite Dc, At in Po. intuition congruence. }
        cbn [pbody type_of]. rewrite At. rewrite (attr_gloop c vs fs Dc At).
        rewrite gloop_spec; [|exact ND2|intros f k x _ []].
        split.
        * intros [H [_ R]]. split; [exact H|exact R].
        * intros [H R]. split; [exact H|]. split; [|exact R]. intros f I. apply in_map_iff in I as [g [<- I]].
          apply filter_In in I as [I _]. cbn [df_name]. apply H. exact I.
  Qed.

  Lemma c26 s v r : dhistory w cfg s -> python_value w v -> dump_object w basic cfg v ->
    (dumps w cfg s v (Ok r) <-> dump_ready w cfg v /\
       exists ys, Forall2 (fun f y => exists x, getattr v (df_name f) = POk x /\ dumps_as w cfg s x (df_ann f) (Ok y))
                    (filter (dump_shows w cfg v) (dump_fields w cfg v)) ys /\
                  r = VDict (combine (map (fun f => VStr (df_ext f)) (filter (dump_shows w cfg v) (dump_fields w cfg v))) ys)).
  Proof using Hstd.
    intros H P O. rewrite (dumps_dval w basic strcons cfg Hstd s v _ H P).
    assert (Q : forall f y, field_dumps v f y <-> exists x, getattr v (df_name f) = POk x /\ dumps_as w cfg s x (df_ann f) (Ok y)).
    { intros f y. unfold field_dumps. split; intros [x [G E]]; exists x; (split; [exact G|]).
      - rewrite dumps_as_dval; [symmetry; exact E|exact H|eapply pv_holds; [exact P|eapply getattr_holds; exact G]].
      - rewrite dumps_as_dval in E; [symmetry; exact E|exact H|eapply pv_holds; [exact P|eapply getattr_holds; exact G]]. }
    assert (F : forall l ys, Forall2 (field_dumps v) l ys <-> Forall2 (fun f y => exists x, getattr v (df_name f) = POk x /\ dumps_as w cfg s x (df_ann f) (Ok y)) l ys).
    { intros l ys. split; intro F; induction F as [|a b l1 l2 E _ IH]; constructor; try exact IH; apply Q; exact E. }
    split.
    - intro E. symmetry in E. apply (c26_dval v r P O) in E as [R [ys [E1 ->]]]. split; [exact R|]. exists ys. split; [apply F; exact E1|reflexivity].
    - intros [R [ys [E1 ->]]]. symmetry. apply (c26_dval v _ P O). split; [exact R|]. exists ys. split; [apply F; exact E1|reflexivity].
  Qed.

  Lemma c26_all v : d_hide cfg = false -> filter (dump_shows w cfg v) (dump_fields w cfg v) = dump_fields w cfg v.
  Proof using.
    intro H. generalize (dump_fields w cfg v) as l. induction l as [|f l IH]; cbn; [reflexivity|].
    unfold dump_shows at 1. rewrite H. cbn. rewrite IH. reflexivity.
  Qed.

  Section Shape2.
    Hypothesis Hint : In CInt basic.
    Hypothesis Hfloat : In CFloat basic.
    Hypothesis Hstr : In CStr basic.
    Lemma c25_good s v r : dhistory w cfg s -> python_value w v -> library_values w basic v -> annotations_hold w basic v ->
      dumps w cfg s v (Ok r) -> good r.
    Proof using Hstd Hint Hfloat Hstr.
      intros H P L A E. apply (dumps_dval w basic strcons cfg Hstd s v _ H P) in E.
      apply (c25_dval Hint Hfloat Hstr v TAny P L A); [intros l y _ B; discriminate|congruence].
    Qed.
    Lemma c25 s v r : dhistory w cfg s -> python_value w v -> library_values w basic v -> annotations_hold w basic v ->
      dumps w cfg s v (Ok r) -> json_like w basic r.
    Proof using Hstd Hint Hfloat Hstr. intros H P L A E. apply (c25_good s v r H P L A E). Qed.
    Lemma c30_idempotent s v d r : dhistory w cfg s -> python_value w v -> library_values w basic v -> annotations_hold w basic v ->
      dumps w cfg s v (Ok d) -> (dumps w cfg s d r <-> r = Ok d).
    Proof using Hstd Hint Hfloat Hstr.
      intros H P L A E. destruct (c25_good s v d H P L A E) as [J Q]. apply c30; assumption.
    Qed.
  End Shape2.
End Facts5.
