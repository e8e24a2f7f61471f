(** * RoundTrip: load is a left inverse of dump (towards C27) *)

From Verif Require Import Loader Dumper Spec Inv Std Sound Fuel Obs Scalars Transparent Hist Reuse Items Eval Tuples Dicts
  Objects ObjFacts Unions Enums Dumps Facts2 Facts3 Facts5 Properties1 Properties2 Properties3.
From Verif Require Export Vocab.

Section RT.
  Variable w : world.
  Variables basic strcons dstrcons : list cid.
  Variable cfg : config.
  Variable dcfg : dconfig.
  Hypothesis Hstd : is_std w basic strcons cfg.
  Hypothesis Hd : is_dstd w basic dstrcons dcfg.
  Hypothesis Hwr : wf_reflect w.
  Variable s : lstate.
  Variable env : string -> option ty.
  Notation p := (pep563 cfg).
  Notation serial := (serial w basic strcons dstrcons cfg dcfg s env).
  Notation dval := (dval w dcfg).

  (** ** The dumper *)
  Lemma dv v t : dval v t = match dchoice w basic dstrcons v with None => Exc (unable v) | Some h => pbody w dcfg dval h v t end.
  Proof using Hd.
    rewrite (dval_eq w basic dstrcons dcfg Hd), (dfind_choice w basic dstrcons dcfg Hd). destruct (dchoice w basic dstrcons v); reflexivity.
  Qed.
  Lemma F2_combine {A B} (R : A -> B -> Prop) l xs : List.length l = List.length xs ->
    (forall a b, In (a, b) (combine l xs) -> R a b) -> Forall2 R l xs.
  Proof using.
    revert xs. induction l as [|a l IH]; intros [|b xs] L H; try discriminate; constructor.
    - apply H. left. reflexivity.
    - apply IH; [cbn in L; lia|]. intros a' b' I. apply H. right. exact I.
  Qed.
  Lemma dump_items l xs : Forall2 (fun v x => dval v TAny = Ok x) l xs -> forall acc, pdump_list dval l acc = Ok (VList (acc ++ xs)).
  Proof using.
    intro F. induction F as [|a b l xs E _ IH]; intro acc; cbn; [rewrite app_nil_r; reflexivity|].
    rewrite E. cbn. rewrite IH, <- app_assoc. reflexivity.
  Qed.
  Lemma basic_dval v t : In (type_of v) basic -> dval v t = Ok v.
  Proof using Hd. intro I. rewrite dv. unfold dchoice. apply mem_cid_In in I. rewrite I. reflexivity. Qed.

  Hypothesis Hplain : forall c, In c [CList; CTuple; CSet; CFrozen; CDict] -> ~ In c basic.
  Lemma not_basic c : In c [CList; CTuple; CSet; CFrozen; CDict] -> mem_cid c basic = false.
  Proof using Hplain. intro I. destruct (mem_cid c basic) eqn:M; [|reflexivity]. apply mem_cid_In in M. destruct (Hplain c I M). Qed.
  Lemma not_in_basic c : ~ In c basic -> mem_cid c basic = false.
  Proof using. intro N. destruct (mem_cid c basic) eqn:M; [|reflexivity]. apply mem_cid_In in M. contradiction. Qed.

  Notation ann_ok := (ann_ok basic).
  Lemma coll_dval v l xs a : v = VList l \/ v = VTuple l \/ v = VSet l \/ v = VFrozen l ->
    ann_ok v a -> Forall2 (fun v x => dval v TAny = Ok x) l xs -> dval v a = Ok (VList xs).
  Proof using Hd Hplain.
    intros Hv A F. rewrite dv.
    assert (C : dchoice w basic dstrcons v = Some DIter).
    { unfold dchoice. destruct Hv as [->|[->|[->| ->]]]; cbn [type_of]; rewrite not_basic by (cbn; tauto); reflexivity. }
    rewrite C. cbn [pbody]. assert (I : iter v = Some l) by (destruct Hv as [->|[->|[->| ->]]]; reflexivity). rewrite I.
    destruct (_ && _) eqn:B; [|rewrite (dump_items l xs F []); reflexivity].
    apply andb_prop in B as [B _]. rewrite (proj2 Hd) in B. do 2 f_equal.
    assert (T : forall y, In y l -> In (type_of y) basic) by (intros y J; exact (A l y Hv B J)).
    clear - F T Hd. induction F as [|v x l xs E _ IH]; [reflexivity|]. f_equal.
    - rewrite basic_dval in E by (apply T; left; reflexivity). congruence.
    - apply IH. intros; apply T; right; assumption.
  Qed.
  Lemma json_dval v a : json_like w basic v -> dval v a = Ok v.
  Proof using Hd Hplain.
    intro J. pose proof (dval_json w basic dstrcons dcfg Hd v J) as E. destruct J as [v I|l H|d H1 H2 P].
    - apply basic_dval. exact I.
    - rewrite dv in *. unfold dchoice in *. cbn [type_of] in *. rewrite not_basic in * by (cbn; tauto). cbn [has_dc] in *.
      cbn in *. destruct (_ && _); [reflexivity|]. exact E.
    - rewrite dv in *. unfold dchoice in *. cbn [type_of] in *. rewrite not_basic in * by (cbn; tauto). cbn in *. exact E.
  Qed.
  Lemma dict_dval d d' a :
    Forall2 (fun kv kx => dval (fst kv) TAny = Ok (fst kx) /\ dval (snd kv) TAny = Ok (snd kx)) d d' ->
    py_dict d' -> (forall k, In k (map fst d') -> hashable w k = true) -> dval (VDict d) a = Ok (VDict d').
  Proof using Hd Hplain.
    intros F P H. rewrite dv. unfold dchoice. cbn [type_of]. rewrite not_basic by (cbn; tauto). cbn.
    assert (G : forall d2 e2 e1, Forall2 (fun kv kx => dval (fst kv) TAny = Ok (fst kx) /\ dval (snd kv) TAny = Ok (snd kx)) d2 e2 ->
      d' = e1 ++ e2 -> pdict_loop w dval d2 e1 = Ok (VDict d')).
    { clear F. intros d2 e2 e1 F. revert e1. induction F as [|[k v] [k' x] d2 e2 [E1 E2] _ IH]; intros e1 Q; cbn [pdict_loop].
      - rewrite app_nil_r in Q. subst. reflexivity.
      - cbn [fst snd] in E1, E2. rewrite E1, E2. cbn [rbind].
        assert (I : In (k', x) d') by (rewrite Q; apply in_or_app; right; left; reflexivity).
        rewrite (H k') by (apply (in_map fst) in I; exact I).
        rewrite dict_set_new; [apply IH; rewrite <- app_assoc; exact Q|].
        intros k0 x0 I'. clear -P Q I'. subst d'. unfold py_dict in P. induction e1 as [|b e1 IH]; [contradiction|].
        cbn in P. inversion P as [|a0 l0 Ha Hl]; subst. destruct I' as [->|I']; [|apply IH; assumption].
        apply Forall_app in Ha as [_ Ha]. inversion Ha as [|b0 l1 Hb _]; subst. exact Hb. }
    apply (G d d' []); [exact F|reflexivity].
  Qed.

  Lemma object_any v a : match v with VNT _ _ | VObj _ _ => True | _ => False end -> python_object w v -> dval v a = dval v TAny.
  Proof using Hd.
    intros S P. rewrite !dv. unfold dchoice. destruct v; try contradiction; cbn [type_of] in *.
    - destruct (mem_cid c basic); reflexivity.
    - destruct (mem_cid c basic); [reflexivity|]. unfold has_dc, has_attrs. cbn [type_of].
      destruct (ci_dc (class_of w c)) eqn:D; [reflexivity|]. destruct (ci_attrs (class_of w c)) eqn:At; [reflexivity|].
      exfalso. cbn in P. rewrite D, At in P. intuition congruence.
  Qed.
  Lemma library_dval v t x a : library_form w basic strcons dstrcons (d_iso dcfg) v t x ->
    ~ In (type_of v) basic -> kind_of_class w (type_of v) = None -> dval v a = Ok x.
  Proof using Hd.
    intros L NB K. rewrite dv. unfold dchoice. rewrite (not_in_basic _ NB).
    assert (Hdc : has_dc w v = false /\ has_attrs w v = false).
    { unfold has_dc, has_attrs. unfold kind_of_class in K. destruct (ci_nt _); [discriminate|]. destruct (ci_dc _); [discriminate|].
      destruct (ci_attrs _); [discriminate|]. auto. }
    destruct Hdc as [-> ->].
    destruct L as [c q I Iso E|l Iso E|c l I Iso E|q E|q t T E|c q I1 I2 Sp _ _ Ni E]; cbn [type_of] in *.
    - assert (D : is_date_or_time w (VInst c q) = true).
      { cbn in I. repeat (destruct I as [<-|I]; [reflexivity|]). contradiction. }
      rewrite D. cbn [pbody]. rewrite Iso. reflexivity.
    - cbn. rewrite Iso. reflexivity.
    - destruct I as [-> | ->]; cbn; rewrite Iso, last_last, removelast_last; reflexivity.
    - reflexivity.
    - reflexivity.
    - assert (N : is_date_or_time w (VInst c q) = false).
      { unfold is_date_or_time. rewrite !Ni by (cbn; tauto). reflexivity. }
      rewrite N, !Ni by (cbn; tauto). apply mem_cid_In in I2. rewrite I2. reflexivity.
  Qed.

  Lemma ann_any x : ann_ok x TAny.
  Proof using. intros l y _ B. discriminate. Qed.
  Lemma ann_sub v x : annotations_hold w basic v -> holds v x -> annotations_hold w basic x.
  Proof using.
    intros Ann Hx c fs hs f t0 b n0 o x0 l y0 Hz. apply (Ann c fs hs f t0 b n0 o x0 l y0). eapply rt1n_trans; eassumption.
  Qed.
  Lemma ser_dump v t x : serial v t x -> python_value w v -> annotations_hold w basic v ->
    forall a, ann_ok v a -> dval v a = Ok x.
  Proof using Hd Hplain.
    intro S. induction S; intros P Ann a A.
    - apply basic_dval. assumption.
    - apply basic_dval. subst. assumption.
    - apply json_dval. assumption.
    - apply json_dval. assumption.
    - apply (coll_dval _ l); auto. apply F2_combine; [assumption|]. intros v x I. apply H2; [exact I| | |apply ann_any].
      + eapply pv_holds; [exact P|]. apply holds_list. eapply in_combine_l; exact I.
      + eapply ann_sub; [exact Ann|]. apply holds_list. eapply in_combine_l; exact I.
    - apply (coll_dval _ l); auto. apply F2_combine; [assumption|]. intros v x I. apply H2; [exact I| | |apply ann_any].
      + eapply pv_holds; [exact P|]. apply holds_tuple. eapply in_combine_l; exact I.
      + eapply ann_sub; [exact Ann|]. apply holds_tuple. eapply in_combine_l; exact I.
    - apply (coll_dval _ l); auto. apply F2_combine; [assumption|]. intros v x I. apply H2; [exact I| | |apply ann_any].
      + eapply pv_holds; [exact P|]. apply holds_set. eapply in_combine_l; exact I.
      + eapply ann_sub; [exact Ann|]. apply holds_set. eapply in_combine_l; exact I.
    - apply (coll_dval _ l); auto. apply F2_combine; [assumption|]. intros v x I. apply H2; [exact I| | |apply ann_any].
      + eapply pv_holds; [exact P|]. apply holds_frozen. eapply in_combine_l; exact I.
      + eapply ann_sub; [exact Ann|]. apply holds_frozen. eapply in_combine_l; exact I.
    - apply (coll_dval _ l); auto. apply F2_combine; [lia|]. intros v x I.
      assert (J : exists t, In (t, (v, x)) (combine ts (combine l xs))).
      { apply In_nth_error in I as [i I]. assert (Li : i < List.length ts).
        { assert (nth_error (combine l xs) i <> None) as Q by congruence. apply nth_error_Some in Q. rewrite combine_length in Q. lia. }
        destruct (nth_error ts i) as [t|] eqn:Et; [|apply nth_error_None in Et; lia]. exists t.
        clear - I Et. revert i I Et. generalize (combine l xs) as m. induction ts as [|t0 ts IH]; intros m [|i] I Et; try discriminate Et.
        - cbn in Et. injection Et as ->. destruct m; cbn in I; [discriminate|]. injection I as ->. left. reflexivity.
        - destruct m as [|q m]; cbn in I; [discriminate|]. right. eapply IH; eassumption. }
      destruct J as [t J]. eapply H3; [exact J| | |apply ann_any].
      + eapply pv_holds; [exact P|]. apply holds_tuple. eapply in_combine_l; exact I.
      + eapply ann_sub; [exact Ann|]. apply holds_tuple. eapply in_combine_l; exact I.
    - apply dict_dval; [|assumption|assumption]. apply F2_combine; [assumption|]. intros [k v] [k' x] I. cbn [fst snd].
      assert (Ik : holds (VDict d) k) by (eapply holds_key; eapply in_combine_l; exact I).
      assert (Iv : holds (VDict d) v) by (eapply holds_value; eapply in_combine_l; exact I).
      split.
      + eapply H3; [exact I| | |apply ann_any]; [eapply pv_holds; eassumption|eapply ann_sub; eassumption].
      + eapply H5; [exact I| | |apply ann_any]; [eapply pv_holds; eassumption|eapply ann_sub; eassumption].
    - apply basic_dval. assumption.
    - auto.
    - auto.
    - auto.
    - rewrite dv. unfold dchoice. cbn [type_of]. rewrite (not_in_basic _ H0).
      assert (Dc : has_dc w (VEnum c m x) = false).
      { unfold has_dc. cbn [type_of]. unfold kind_of_class in H1. destruct (ci_nt _); [discriminate|]. destruct (ci_dc _); [discriminate|reflexivity]. }
      rewrite Dc. cbn [pbody]. apply json_dval. assumption.
    - eapply library_dval; eassumption.
    - pose proof H3 as DO. destruct H3 as [_ [Sh _]]. rewrite object_any; [|exact Sh|apply pv_head; exact P].
      apply (c26_dval w basic dstrcons dcfg Hd v _ P DO). split; [assumption|]. exists ys. split; [|reflexivity].
      apply F2_combine; [assumption|]. intros f y I.
      assert (If : In f (dump_fields w dcfg v)) by (apply in_combine_l in I; apply filter_In in I; apply I).
      destruct (H7 f If) as [t Et].
      assert (G : exists x, getattr v (df_name f) = POk x).
      { clear - H4 If H5. unfold dump_ready in H4. destruct H5 as [H5 _]. destruct v; try contradiction; cbn [dump_fields] in If.
        - apply in_map_iff in If as [[k x] [<- I]]. cbn [df_name fst]. cbn [getattr]. destruct (str_get k fs) eqn:E; [eauto|].
          exfalso. clear -I E. induction fs as [|[k0 x0] fs IH]; [contradiction|]. cbn in E. destruct (String.eqb_spec k k0) as [->|N]; [discriminate|].
          destruct I as [I|I]; [congruence|auto].
        - destruct (ci_dc (class_of w c)) as [decl|]; [|destruct (ci_attrs (class_of w c)) as [decl|]; [|contradiction]].
          + apply in_map_iff in If as [g [<- I]]. cbn [df_name]. apply (proj2 H4). exact (in_set_order_incl _ _ _ I).
          + apply in_map_iff in If as [g [<- I]]. cbn [df_name]. apply filter_In in I as [I _]. apply (H4 g I). }
      destruct G as [x Ex]. exists x. split; [exact Ex|].
      assert (Hx : holds v x) by (eapply getattr_holds; exact Ex).
      apply (H10 f y x t I Ex Et); [eapply pv_holds; eassumption|eapply ann_sub; eassumption|].
      (* the annotation of the field *)
      clear - Ann Ex If Sh P. intros l y0 Hx B I.
      assert (B' : in_classes basic (Dumper.item_type (df_ann f)) = true) by exact B.
      destruct v; try contradiction; cbn [dump_fields] in If.
      + apply in_map_iff in If as [kx [<- _]]. discriminate B.
      + destruct (ci_dc (class_of w c)) as [decl|].
        2: { destruct (ci_attrs (class_of w c)); [|contradiction]. apply in_map_iff in If as [g [<- _]]. discriminate B. }
        apply in_map_iff in If as [g [<- Ig]]. cbn [df_ann df_name] in *.
        destruct (ci_ihints (class_of w c)) as [hs|] eqn:Eh; [|discriminate B].
        destruct (str_get (f_name g) hs) as [t0|] eqn:Eg; [|discriminate B].
        destruct (item_basic basic _ t0 B eq_refl) as [b [n0 [o [Ib [_ Ht]]]]].
        cbn [getattr] in Ex. destruct (str_get (f_name g) fs) as [x0|] eqn:Es; [|discriminate]. injection Ex as ->.
        assert (I0 : In (f_name g, x) fs).
        { clear - Es. induction fs as [|[k0 x0] fs IH]; cbn in Es; [discriminate|].
          destruct (String.eqb_spec (f_name g) k0) as [->|_]; [injection Es as ->; left; reflexivity|right; auto]. }
        exact (Ann c fs hs (f_name g) t0 b n0 o x l y0 (rt1n_refl _ _ _) Eh Eg Ht Ib I0 Hx I).
    - assert (Pd' : py_dict d').
      { clear - H4 H5. unfold py_dict in *. revert d' H4. induction H5 as [|[k v] d Ha _ IH]; intros [|[k' v'] d'] E; try discriminate; constructor.
        - cbn in E. injection E as -> E. apply Forall_forall. intros [k2 v2] I. cbn [fst].
          assert (J : In k2 (map fst d)) by (rewrite E; apply (in_map fst) in I; exact I).
          apply in_map_iff in J as [[k3 v3] [Q J]]. cbn in Q. subst k3. rewrite Forall_forall in Ha. exact (Ha _ J).
        - apply IH. cbn in E. congruence. }
      apply dict_dval; [|exact Pd'|].
      + apply F2_combine; [rewrite <- (map_length fst d), <- (map_length fst d'), H4; reflexivity|].
        intros [k v] [k' x] I. cbn [fst snd].
        assert (k' = k).
        { clear - I H4. revert d' H4 I. induction d as [|[k0 v0] d IH]; intros [|[k1 v1] d'] E I; try contradiction.
          cbn in E. injection E as -> E. destruct I as [I|I]; [congruence|eauto]. }
        subst k'. assert (Id : In (k, v) d) by (eapply in_combine_l; exact I).
        destruct (H7 k (in_map fst d (k, v) Id)) as [f [t [-> Et]]].
        split; [apply basic_dval; assumption|].
        apply (H9 f v x t I Et); [eapply pv_holds; [exact P|eapply holds_value; exact Id]|eapply ann_sub; [exact Ann|eapply holds_value; exact Id]|apply ann_any].
      + intros k I. rewrite <- H4 in I. destruct (H7 k I) as [f [t [-> _]]]. reflexivity.
  Qed.

  (** ** The loader *)
  Hypothesis Hu : used w cfg s.
  Notation steady := (steady w basic cfg env s).
  Notation loads := (loads w cfg s).

  Lemma component_steady v t x t' : steady v t -> component w p env t t' -> inside v x -> steady x t'.
  Proof using. intros St C I. eapply steady_sub; [exact St|exact I|]. eapply rt1n_trans; [exact C|apply rt1n_refl]. Qed.
  Lemma item_inside v l x : iter v = Some l -> In x l -> inside v x.
  Proof using. intros E I. eapply rt1n_trans; [eapply part_item; eassumption|apply rt1n_refl]. Qed.
  Lemma value_inside d k x : In (k, x) d -> inside (VDict d) x.
  Proof using. intro I. eapply rt1n_trans; [eapply part_value; exact I|apply rt1n_refl]. Qed.
  Lemma same_inside v : inside v v.
  Proof using. apply rt1n_refl. Qed.

  Lemma serial_basic v c x : serial v (TClass c) x -> In c basic -> v = x.
  Proof using.
    intros S B. inversion S as [| | | | | | | | | | | | | |c0 ms m x0 E1 NB|v0 t0 x0 L NB K E|v0 c0 ys T OC|c0 req d d' K CS OC]; subst; try reflexivity.
    - contradiction.
    - exfalso. inversion L as [c1 q|l|c1 l [E1|E1]|q|q t1 [Ht|[? [? Ht]]]|c1 q]; subst; cbn [type_of] in *; try contradiction.
      + injection Ht as ->. contradiction.
      + discriminate.
    - destruct OC. contradiction.
    - destruct OC. contradiction.
  Qed.
  Lemma kept_dec t x : kept w basic t x \/ ~ kept w basic t x.
  Proof using.
    destruct t as [c| | | | | | |]; try (right; intros [c' [E _]]; discriminate).
    destruct (mem_cid c basic) eqn:M; [|right; intros [c' [[= <-] [I _]]]; apply mem_cid_In in I; congruence].
    apply mem_cid_In in M. destruct (isinstance w x c) eqn:Is; [left; exists c; auto|right; intros [c' [[= <-] [_ I]]]; congruence].
  Qed.
  Lemma ser_item v t x : serial v t x -> loads x t (Ok v) -> item_loads w basic cfg s t x v.
  Proof using.
    intros S L. destruct (kept_dec t x) as [K|K]; [left|right; auto].
    split; [exact K|]. destruct K as [c [-> [B _]]]. eapply serial_basic; eassumption.
  Qed.
  Lemma ser_tuple_item v t x : serial v t x -> loads x t (Ok v) -> tuple_item_loads w basic cfg s t x v.
  Proof using.
    intros S L. assert (D : kept_exact basic t x \/ ~ kept_exact basic t x).
    { destruct t as [c| | | | | | |]; try (right; intros [c' [E _]]; discriminate).
      destruct (mem_cid c basic) eqn:M; [|right; intros [c' [[= <-] [I _]]]; apply mem_cid_In in I; congruence].
      apply mem_cid_In in M. destruct (cid_eqb (type_of x) c) eqn:Is; [apply cid_eqb_eq in Is; left; exists c; auto|].
      right; intros [c' [[= <-] [_ I]]]. apply cid_eqb_eq in I. congruence. }
    destruct D as [K|K]; [left|right; auto]. split; [exact K|]. destruct K as [c [-> [B _]]]. eapply serial_basic; eassumption.
  Qed.
  Lemma set_of_id l : ForallOrdPairs (fun a b => py_eqb b a = false) l -> set_of l = l.
  Proof using.
    unfold set_of. assert (G : forall l2 l1, ForallOrdPairs (fun a b => py_eqb b a = false) (l1 ++ l2) -> fold_left (fun acc y => set_add y acc) l2 l1 = l1 ++ l2).
    { induction l2 as [|x l2 IH]; intros l1 F; cbn; [rewrite app_nil_r; reflexivity|].
      assert (E : set_add x l1 = l1 ++ [x]).
      { unfold set_add. assert (N : forall y, In y l1 -> py_eqb x y = false).
        { intros y I. clear - F I. induction l1 as [|z l1 IH]; [contradiction|]. cbn in F. inversion F as [|a l0 Ha Hl]; subst.
          destruct I as [->|I]; [|auto]. rewrite Forall_forall in Ha. apply Ha. apply in_or_app. right. left. reflexivity. }
        unfold py_in. destruct (existsb (py_eqb x) l1) eqn:E; [|reflexivity]. apply existsb_exists in E as [y [I Q]]. rewrite (N y I) in Q. discriminate. }
      rewrite E, IH; rewrite <- app_assoc; [reflexivity|exact F]. }
    intro F. apply (G l []). exact F.
  Qed.
  Lemma dict_of_id d : py_dict d -> dict_of d = d.
  Proof using.
    unfold dict_of. assert (G : forall l2 l1, py_dict (l1 ++ l2) -> fold_left (fun acc kv => dict_set (fst kv) (snd kv) acc) l2 l1 = l1 ++ l2).
    { induction l2 as [|[k x] l2 IH]; intros l1 F; cbn [fold_left]; [rewrite app_nil_r; reflexivity|]. cbn [fst snd].
      rewrite dict_set_new; [rewrite IH; rewrite <- app_assoc; [reflexivity|exact F]|].
      intros k0 x0 I. clear - F I. unfold py_dict in F. induction l1 as [|z l1 IH]; [contradiction|]. cbn in F. inversion F as [|a l0 Ha Hl]; subst.
      destruct I as [->|I]; [|auto]. rewrite Forall_forall in Ha. apply (Ha (k, x)). apply in_or_app. right. left. reflexivity. }
    intro F. apply (G d []). exact F.
  Qed.
  Lemma F2_flip {A B} (R : A -> B -> Prop) l xs : Forall2 R l xs -> Forall2 (fun b a => R a b) xs l.
  Proof using. intro F. induction F; constructor; assumption. Qed.

  Lemma forward_loads n t x v : steady x (TForward n) -> env n = Some t -> loads x t (Ok v) -> loads x (TForward n) (Ok v).
  Proof using Hstd Hwr Hu.
    intros St En L. pose proof (used_coh _ _ _ Hu) as C.
    pose proof (find_forward w basic strcons cfg Hstd n) as F.
    pose proof (steady_settled _ _ _ _ _ _ _ C St) as S0.
    pose proof (settled_enter w cfg env _ _ s (TForward n) HForward F S0) as S1.
    assert (R : reach w p env (TForward n) t).
    { eapply rt1n_trans; [|apply rt1n_refl]. unfold component. cbn. rewrite En. left. reflexivity. }
    destruct (transfer w basic strcons cfg Hstd Hwr env (reach w p env (TForward n))
        (fun a b => reach_step w p env (TForward n) a b) (seen s) (inside x) (fun a b => inside_step x a b)
        (sd_dict _ _ _ _ _ _ _ St) (sd_union _ _ _ _ _ _ _ St) s (enter w cfg (TForward n) HForward s) x t (Ok v) S0 S1 R (inside_refl x) L) as [_ [m E]].
    split; [discriminate|]. exists (S m). unfold load. rewrite (load_enter_fst w cfg (S m) x _ None s HForward C F).
    cbn [run body]. unfold forwardrefload, bind, get_st.
    destruct S1 as [C1 [K _]]. destruct (K n (rt1n_refl _ _ _)) as [fr [t' [Fr [G E']]]]. rewrite En in E'. injection E' as <-.
    rewrite Fr, G. unfold load, load_ann in E. clear - E. unfold load_with, bind, catch in *.
    destruct (ty_get t (st_index (enter w cfg (TForward n) HForward s))) as [h|].
    - destruct (run w cfg m h x t (enter w cfg (TForward n) HForward s)) as [[y|e|] s2]; cbn in *; [injection E as ->; reflexivity|destruct (is_tl e); discriminate|discriminate].
    - destruct (find_handler cfg t) as [h|[]]; try discriminate.
      match goal with |- context [run w cfg m h x t ?st] => destruct (run w cfg m h x t st) as [[y|e|] s2] end; cbn in *; [injection E as ->; reflexivity|destruct (is_tl e); discriminate|discriminate].
  Qed.

  Lemma str_get_nodup {A} k (x : A) l : NoDup (map fst l) -> In (k, x) l -> str_get k l = Some x.
  Proof using.
    induction l as [|[k0 x0] l IH]; intros ND I; [contradiction|]. cbn in *. inversion ND as [|? ? N1 N2]; subst.
    destruct I as [[= -> ->]|I]; [rewrite String.eqb_refl; reflexivity|].
    destruct (String.eqb_spec k k0) as [->|_]; [exfalso; apply N1; apply (in_map fst) in I; exact I|auto].
  Qed.
  Lemma str_get_absent {A} k (l : list (string * A)) : ~ In k (map fst l) -> str_get k l = None.
  Proof using.
    intro N. destruct (str_get k l) as [x|] eqn:E; [|reflexivity]. apply str_get_In in E. exfalso. apply N. apply (in_map fst) in E. exact E.
  Qed.
  Lemma NoDup_same_fst {A B} (l : list (A * B)) a b b' : NoDup (map fst l) -> In (a, b) l -> In (a, b') l -> b = b'.
  Proof using.
    induction l as [|[a0 b0] l IH]; intros ND I1 I2; [contradiction|]. cbn in ND. inversion ND as [|? ? N1 N2]; subst.
    destruct I1 as [[= -> ->]|I1], I2 as [E|I2]; try (injection E as -> ->); try reflexivity.
    - injection E as ->. reflexivity.
    - exfalso. apply N1. apply (in_map fst) in I2. exact I2.
    - exfalso. apply N1. apply (in_map fst) in I1. exact I1.
    - auto.
  Qed.

  Lemma bind_nt_all (nt : list (string * option value)) ps fs :
    Forall2 (fun kd kx => fst kd = fst kx /\ (str_get (fst kx) ps = Some (snd kx) \/ (str_get (fst kx) ps = None /\ snd kd = Some (snd kx)))) nt fs ->
    bind_nt nt ps = Some fs.
  Proof using.
    intro F. induction F as [|[k d] [k' x] nt fs [E H] _ IH]; [reflexivity|]. cbn [fst snd] in *. subst k'. cbn [bind_nt].
    destruct H as [-> |[-> ->]]; rewrite IH; reflexivity.
  Qed.
  Lemma bind_fields_all an decl ps fs :
    Forall2 (fun f kx => f_init f = true /\ f_name f = fst kx /\ an (f_name f) = f_name f /\
      (str_get (fst kx) ps = Some (snd kx) \/ (str_get (fst kx) ps = None /\ default_value (f_default f) = Some (snd kx)))) decl fs ->
    forall sofar, bind_fields an decl ps sofar = Some (sofar ++ fs).
  Proof using.
    intro F. induction F as [|f [k x] decl fs [Ei [E [A H]]] _ IH]; intro sofar; cbn [bind_fields]; [rewrite app_nil_r; reflexivity|].
    cbn [fst snd] in *. subst k. rewrite Ei, A.
    destruct H as [-> |[-> D]].
    - rewrite IH, <- app_assoc. reflexivity.
    - assert (D' : default_of (f_default f) sofar = Some x) by (destruct (f_default f); try discriminate D; exact D).
      rewrite D', IH, <- app_assoc. reflexivity.
  Qed.

  (** the keyword arguments made from the fields which are shown *)
  Definition field_value (v : value) (f : dfield) : value := match getattr v (df_name f) with POk x => x | PExc _ => VNone end.
  Definition kwargs (v : value) : list (string * value) :=
    map (fun f => (df_name f, field_value v f)) (filter (dump_shows w dcfg v) (dump_fields w dcfg v)).
  Lemma kwargs_get v f : NoDup (map df_name (dump_fields w dcfg v)) -> In f (dump_fields w dcfg v) ->
    str_get (df_name f) (kwargs v) = if dump_shows w dcfg v f then Some (field_value v f) else None.
  Proof using.
    unfold kwargs. generalize (dump_fields w dcfg v) as l. generalize (dump_shows w dcfg v) as sh. intros sh l.
    induction l as [|g l IH]; intros ND I; [contradiction|]. cbn in ND. inversion ND as [|? ? N1 N2]; subst. cbn [filter].
    destruct I as [->|I].
    - destruct (sh f) eqn:E; [cbn; rewrite String.eqb_refl; reflexivity|]. apply str_get_absent. intro J. apply N1.
      apply in_map_iff in J as [[k x] [Q J]]. apply in_map_iff in J as [g' [[= <- <-] J]]. cbn in Q. apply filter_In in J as [J _].
      rewrite <- Q. apply in_map. exact J.
    - specialize (IH N2 I). destruct (sh g); [|exact IH]. cbn [map str_get fst].
      destruct (String.eqb_spec (df_name f) (df_name g)) as [E|_]; [|exact IH].
      exfalso. apply N1. rewrite <- E. apply in_map. exact I.
  Qed.
  Lemma kwargs_names v allowed : (forall f, In f (dump_fields w dcfg v) -> In (df_name f) allowed) -> unexpected allowed (kwargs v) = false.
  Proof using.
    intro H. unfold unexpected. destruct (existsb _ (kwargs v)) eqn:E; [|reflexivity]. apply existsb_exists in E as [[k x] [I N]].
    unfold kwargs in I. apply in_map_iff in I as [f [[= <- <-] I]]. apply filter_In in I as [I _]. apply H in I. apply mem_str_In in I.
    cbn in N. rewrite I in N. discriminate.
  Qed.
  Lemma F2_pos {A B} (R : A -> B -> Prop) l xs : List.length l = List.length xs ->
    (forall i a b, nth_error l i = Some a -> nth_error xs i = Some b -> R a b) -> Forall2 R l xs.
  Proof using.
    revert xs. induction l as [|a l IH]; intros [|b xs] L H; try discriminate; constructor.
    - apply (H 0); reflexivity.
    - apply IH; [cbn in L; lia|]. intros i a' b' E1 E2. apply (H (S i)); assumption.
  Qed.

  Lemma construct_rebuilds v : dump_object w basic dcfg v -> dump_ready w dcfg v -> rebuilds w dcfg v ->
    construct w (TClass (type_of v)) (kwargs v) = POk v.
  Proof using.
    intros [_ [Sh [ND _]]] Rd [Rb Df].
    assert (G : forall f, In f (dump_fields w dcfg v) -> exists x, getattr v (df_name f) = POk x /\
      (str_get (df_name f) (kwargs v) = Some x \/ (str_get (df_name f) (kwargs v) = None /\ df_default f = Some x))).
    { intros f I. rewrite (kwargs_get v f ND I). destruct (dump_shows w dcfg v f) eqn:Es.
      - assert (X : exists x, getattr v (df_name f) = POk x).
        { clear - I Rd Sh Rb. destruct v; try contradiction; cbn [dump_fields] in I.
          - apply in_map_iff in I as [[k x] [<- I]]. cbn [df_name fst getattr]. destruct (str_get k fs) eqn:E; [eauto|].
            exfalso. clear - I E. induction fs as [|[k0 x0] fs IH]; [contradiction|]. cbn in E. destruct (String.eqb_spec k k0) as [->|N]; [discriminate|].
            destruct I as [I|I]; [congruence|auto].
          - unfold dump_ready in Rd. destruct (ci_dc (class_of w c)) as [decl|]; [|destruct (ci_attrs (class_of w c)) as [decl|]; [|contradiction]].
            + apply in_map_iff in I as [g [<- I]]. apply (proj2 Rd). exact (in_set_order_incl _ _ _ I).
            + apply in_map_iff in I as [g [<- I]]. apply filter_In in I as [I _]. apply (Rd g I). }
        destruct X as [x Ex]. exists x. split; [exact Ex|]. left. unfold field_value. rewrite Ex. reflexivity.
      - pose proof Es as Es'. unfold dump_shows in Es. destruct (d_hide dcfg && _) eqn:B; [|discriminate]. apply andb_prop in B as [_ B].
        destruct (df_default f) as [d|] eqn:Ed; [|discriminate]. destruct (getattr v (df_name f)) as [x|] eqn:Ex; [|discriminate].
        exists x. split; [reflexivity|]. right. split; [reflexivity|]. f_equal. symmetry. eapply Df; eassumption. }
    destruct v; try contradiction; cbn [type_of].
    - destruct Rb as [nt [Ent Em]]. cbn [construct]. rewrite Ent.
      assert (NDf : NoDup (map fst fs)).
      { cbn [dump_fields] in ND. rewrite map_map in ND. exact ND. }
      rewrite (kwargs_names (VNT c fs)).
      2: { intros f I. cbn [dump_fields] in I. apply in_map_iff in I as [kx [<- I]]. cbn [df_name]. rewrite <- Em. apply in_map. exact I. }
      rewrite (bind_nt_all nt _ fs); [reflexivity|].
      apply F2_pos; [rewrite <- (map_length fst nt), <- Em, map_length; reflexivity|].
      intros i [k d] [k' x] E1 E2. cbn [fst snd].
      assert (k = k').
      { apply (map_nth_error fst) in E1. apply (map_nth_error fst) in E2. rewrite Em in E2. cbn in *. congruence. }
      subst k'. split; [reflexivity|].
      assert (I : In (k, x) fs) by (eapply nth_error_In; exact E2).
      assert (In0 : In (k, d) nt) by (eapply nth_error_In; exact E1).
      destruct (G _ (in_map _ _ _ I)) as [x' [Ex H]]. cbn [df_name df_default fst] in *.
      cbn [getattr] in Ex. rewrite (str_get_nodup k x fs NDf I) in Ex. injection Ex as <-.
      destruct H as [H|[H1 H2]]; [left; exact H|right]. split; [exact H1|].
      rewrite Ent, (str_get_nodup k d nt) in H2; [exact H2|rewrite <- Em; exact NDf|exact In0].
    - destruct Rb as [Ent [decl [Ed [Ini [Em Po]]]]]. cbn [construct]. rewrite Ent.
      assert (H : forall an ann, (forall f, In f decl -> an (f_name f) = f_name f) ->
        (exists decl', Permutation decl' decl /\
          dump_fields w dcfg (VObj c fs) = map (fun f => mkDfield (f_name f) (dump_name dcfg f) (ann f) (default_value (f_default f))) decl') ->
        construct_fields w an c decl (kwargs (VObj c fs)) = POk (VObj c fs)).
      { intros an ann Han [decl' [Pm Hdf]]. unfold construct_fields.
        assert (Hn : map (fun f => an (f_name f)) (filter f_init decl) = map f_name decl).
        { clear - Han Ini. induction decl as [|f decl IH]; [reflexivity|]. cbn. rewrite (Ini f (or_introl eq_refl)). cbn.
          rewrite Han by (left; reflexivity). f_equal. apply IH; intros g Ig; [apply Ini|apply Han]; right; exact Ig. }
        rewrite Hn, kwargs_names.
        2: { intros f I. rewrite Hdf in I. apply in_map_iff in I as [g [<- I]]. cbn [df_name]. apply in_map. exact (Permutation_in _ Pm I). }
        assert (NDd : NoDup (map f_name decl)) by (rewrite Hdf, map_map in ND; exact (Permutation_NoDup (Permutation_map f_name Pm) ND)).
        rewrite (bind_fields_all an decl _ fs); [cbn [app]; rewrite Po; reflexivity|].
        apply F2_pos; [rewrite <- (map_length f_name decl), <- Em, map_length; reflexivity|].
        intros i f [k x] E1 E2. cbn [fst snd].
        assert (I0 : In f decl) by (eapply nth_error_In; exact E1).
        assert (I : In (k, x) fs) by (eapply nth_error_In; exact E2).
        assert (f_name f = k).
        { apply (map_nth_error f_name) in E1. apply (map_nth_error fst) in E2. rewrite Em in E2. cbn in *. congruence. }
        subst k. split; [auto|]. split; [reflexivity|]. split; [auto|].
        assert (If : In (mkDfield (f_name f) (dump_name dcfg f) (ann f) (default_value (f_default f))) (dump_fields w dcfg (VObj c fs))).
        { rewrite Hdf. apply (in_map (fun f => mkDfield (f_name f) (dump_name dcfg f) (ann f) (default_value (f_default f)))). exact (Permutation_in _ (Permutation_sym Pm) I0). }
        destruct (G _ If) as [x' [Ex H]]. cbn [df_name df_default] in *. cbn [getattr] in Ex.
        rewrite (str_get_nodup (f_name f) x fs) in Ex; [injection Ex as <-; exact H|rewrite Em; exact NDd|exact I]. }
      destruct Ed as [Ed|[Ed [Ea Ha]]].
      + rewrite Ed in *. eapply H; [reflexivity|]. exists (in_set_order w decl). cbn [dump_fields]. rewrite Ed. split; [|reflexivity].
        apply in_set_order_perm. cbn [dump_fields] in ND. rewrite Ed, map_map in ND. exact (proj1 (in_set_order_nodup w decl) ND).
      + rewrite Ed, Ea in *. apply (H _ (fun _ => TAny)); [intros f I; apply Ha; exact I|]. exists decl. split; [reflexivity|]. cbn [dump_fields]. rewrite Ed, Ea.
        assert (Fr : filter f_repr decl = decl).
        { clear - Ha. induction decl as [|f decl IH]; [reflexivity|]. cbn. rewrite (proj1 (Ha f (or_introl eq_refl))). f_equal.
          apply IH. intros g Ig. apply Ha. right. exact Ig. }
        rewrite Fr. reflexivity.
  Qed.

  (** *** Each kind of type *)
  Lemma library_loads v t x : library_form w basic strcons dstrcons (d_iso dcfg) v t x ->
    ~ In (type_of v) basic -> kind_of_class w (type_of v) = None -> ci_enum (class_of w (type_of v)) = None -> loads x t (Ok v).
  Proof using Hstd Hu.
    intros L NB K E. pose proof (used_coh _ _ _ Hu) as C. apply not_in_basic in NB.
    assert (Kn : ci_nt (class_of w (type_of v)) = None /\ ci_dc (class_of w (type_of v)) = None /\ ci_td (class_of w (type_of v)) = None).
    { unfold kind_of_class in K. destruct (ci_nt _); [discriminate|]. destruct (ci_dc _); [discriminate|]. destruct (ci_attrs _); [discriminate|].
      destruct (ci_td _); [discriminate|]. auto. }
    destruct Kn as [K1 [K2 K3]].
    change (Ok v) with (wrap x t None (Ok v)).
    assert (Fcl : forall c, type_of v = c -> c <> CNone -> find_handler cfg (TClass c) =
      (if in_classes [CDate; CTime; CDatetime] (TClass c) then POk HDatetime else
       if is_pattern (TClass c) then POk HPattern else
       if ty_eqb (TClass c) (TClass CTimedelta) then POk HTimedelta else
       if in_classes strcons (TClass c) then POk HStrcons else if is_attrs w (TClass c) then POk HAttrs else PExc RValue)).
    { intros c <- N. rewrite (find_std w basic strcons cfg _ Hstd). unfold chain.
      destruct (is_nonetype (TClass (type_of v))) eqn:Q; [apply ty_eqb_eq in Q; injection Q as Q; contradiction|].
      cbn [is_union in_classes is_enum is_tuple is_list is_dict is_set is_frozenset is_namedtuple is_dataclass is_forwardref is_literal is_typeddict is_any is_newtype].
      rewrite NB, E, K1, K2, K3. reflexivity. }
    destruct L as [c q I Iso Eq|l Iso Eq|c l I Iso Eq|q Eq|q t T Eq|c q I1 I2 Sp _ _ Ni Eq]; cbn [type_of] in *.
    - apply loads_pure with (h := HDatetime); [exact C| | |discriminate].
      + rewrite (Fcl c eq_refl) by (intros ->; cbn in I; intuition discriminate). cbn [in_classes].
        assert (M : mem_cid c [CDate; CTime; CDatetime] = true) by (apply mem_cid_In; exact I). rewrite M. reflexivity.
      + intros call s'. cbn [body]. unfold datetimeload. rewrite Eq. reflexivity.
    - apply loads_pure with (h := HDatetime); [exact C| | |discriminate].
      + rewrite (Fcl CDate eq_refl) by discriminate. reflexivity.
      + intros call s'. cbn [body]. unfold datetimeload. cbn [iter]. rewrite Eq. reflexivity.
    - apply loads_pure with (h := HDatetime); [exact C| | |discriminate].
      + rewrite (Fcl c eq_refl) by (intros ->; destruct I; discriminate). destruct I as [-> | ->]; reflexivity.
      + intros call s'. cbn [body]. unfold datetimeload. cbn [iter]. rewrite Eq. reflexivity.
    - apply loads_pure with (h := HTimedelta); [exact C| | |discriminate].
      + rewrite (Fcl CTimedelta eq_refl) by discriminate. reflexivity.
      + intros call s'. cbn [body]. unfold timedeltaload. rewrite Eq. reflexivity.
    - apply loads_pure with (h := HPattern); [exact C| | |discriminate].
      + destruct T as [-> |[n [a ->]]].
        * rewrite (Fcl CPattern eq_refl) by discriminate. reflexivity.
        * rewrite (find_std w basic strcons cfg _ Hstd). reflexivity.
      + intros call s'. cbn [body]. unfold patternload. rewrite Eq. reflexivity.
    - apply loads_pure with (h := HStrcons); [exact C| | |discriminate].
      + rewrite (Fcl c eq_refl) by (intros ->; discriminate Sp). cbn [in_classes].
        apply mem_cid_In in I1. rewrite I1. destruct c; try discriminate Sp; reflexivity.
      + intros call s'. cbn [body]. unfold strconsload. unfold call_type. rewrite E, Eq. reflexivity.
  Qed.

  Lemma loads_accepts v t r : loads v t (Ok r) -> accepts w cfg s v t.
  Proof using. intro L. exists r. exact L. Qed.

  Lemma union_loads v n pre t post x :
    steady x (TGen n OUnion (Some (pre ++ t :: post))) -> loads x t (Ok v) ->
    ~ own_basic basic (pre ++ t :: post) x -> tags_hashable w (pre ++ t :: post) x ->
    (forall t', In t' (pre ++ post) -> settles w cfg s x t' /\ ~ accepts w cfg s x t') ->
    loads x (TGen n OUnion (Some (pre ++ t :: post))) (Ok v).
  Proof using Hstd Hwr Hu.
    intros St L NO Tg O.
    assert (Se : forall t', In t' (pre ++ t :: post) -> settles w cfg s x t').
    { intros t' I. apply in_elt_inv in I as [->|I]; [|apply O; exact I]. exists (Ok v). split; [exact L|left; eauto]. }
    destruct (uniondebugconflict cfg) eqn:U.
    - apply (C15_one w basic strcons cfg Hstd Hwr env s x n _ Hu St U Tg NO Se v).
      exists pre, t, post. split; [reflexivity|]. split; [exact L|]. intros z Iz. apply O. exact Iz.
    - destruct (C14_accepts w basic strcons cfg Hstd Hwr env s x n _ Hu St U Tg Se) as [r Lr].
      { exists t. split; [apply in_elt|exists v; exact L]. }
      destruct (C13_member w basic strcons cfg Hstd Hwr env s x n _ Hu St r Lr) as [[OB _]|[t' [I [L' _]]]]; [contradiction|].
      apply in_elt_inv in I as [->|I].
      + pose proof (loads_det _ _ _ _ _ _ _ L L') as Q. injection Q as ->. exact Lr.
      + exfalso. apply (proj2 (O t' I)). exists r. exact L'.
  Qed.

  Lemma combine_given c (shown : list dfield) ys :
    distinct_names w cfg c -> List.length shown = List.length ys ->
    (forall f, In f shown -> In (df_name f, df_ext f) (obj_fields w cfg c)) ->
    given w cfg c (combine (map (fun f => VStr (df_ext f)) shown) ys) = combine (map df_name shown) ys.
  Proof using.
    intros [_ ND]. revert ys. induction shown as [|f shown IH]; intros [|y ys] L H; try discriminate; [reflexivity|].
    cbn [map combine given flat_map fst snd]. unfold field_of.
    rewrite (str_get_nodup (df_ext f) (df_name f)).
    - cbn [app]. f_equal. apply IH; [cbn in L; lia|]. intros g I. apply H. right. exact I.
    - rewrite map_map. exact ND.
    - apply in_map_iff. exists (df_name f, df_ext f). split; [reflexivity|]. apply H. left. reflexivity.
  Qed.
  Lemma map_fst_combine {A B} (l : list A) (l' : list B) : List.length l = List.length l' -> map fst (combine l l') = l.
  Proof using. revert l'. induction l as [|a l IH]; intros [|b l'] L; try discriminate; [reflexivity|]. cbn. f_equal. apply IH. cbn in L. lia. Qed.
  Lemma combine_map_l {A A' B} (f : A -> A') (l : list A) (l' : list B) : combine (map f l) l' = map (fun ab => (f (fst ab), snd ab)) (combine l l').
  Proof using. revert l'. induction l as [|a l IH]; intros [|b l']; cbn; try reflexivity. f_equal. apply IH. Qed.
  Lemma py_dict_strings (ks : list string) ys : NoDup ks -> py_dict (combine (map VStr ks) ys).
  Proof using.
    intro ND. revert ys. induction ND as [|k ks N _ IH]; intros [|y ys]; cbn; try constructor; [|apply IH].
    apply Forall_forall. intros [k' y'] I. cbn [fst]. apply in_combine_l in I. apply in_map_iff in I as [k0 [<- I]].
    cbn. apply String.eqb_neq. intros ->. contradiction.
  Qed.

  Lemma NoDup_field (l : list field) f g : NoDup (map f_name l) -> In f l -> In g l -> f_name f = f_name g -> f = g.
  Proof using.
    induction l as [|h l IH]; intros ND I1 I2 E; [contradiction|]. cbn in ND. inversion ND as [|? ? N1 N2]; subst.
    destruct I1 as [->|I1], I2 as [->|I2]; auto.
    - exfalso. apply N1. rewrite E. apply in_map. exact I2.
    - exfalso. apply N1. rewrite <- E. apply in_map. exact I1.
  Qed.
  Lemma required_field v e :
    dump_object w basic dcfg v -> rebuilds w dcfg v ->
    (forall f e, In (f, e) (obj_fields w cfg (type_of v)) <-> In (f, e) (map (fun g => (df_name g, df_ext g)) (dump_fields w dcfg v))) ->
    In e (required_names w cfg (type_of v)) ->
    exists f, In f (dump_fields w dcfg v) /\ df_ext f = e /\ df_default f = None.
  Proof using.
    intros [_ [Sh [ND _]]] [Rb _] Same I. destruct v; try contradiction; cbn [type_of] in *.
    - destruct Rb as [nt [Ent _]]. unfold required_names, obj_required in I. unfold obj_fields in Same.
      assert (K : kind_of_class w c = Some (KNT nt)) by (unfold kind_of_class; rewrite Ent; reflexivity).
      rewrite K in *. apply filter_In in I as [I N].
      apply in_map_iff in I as [[k t] [Q I]]. cbn in Q. subst k.
      assert (J : In (e, e) (map (fun kt => (fst kt, fst kt)) (declared w p c))) by (apply in_map_iff; exists (e, t); auto).
      apply Same in J. apply in_map_iff in J as [g [[= E1 E2] J]]. exists g. split; [exact J|]. split; [exact E2|].
      cbn [dump_fields] in J. apply in_map_iff in J as [[k x] [<- J]]. cbn [df_name df_ext df_default fst] in *. subst k. rewrite Ent.
      destruct (str_get e nt) as [[d|]|] eqn:Eg; try reflexivity. exfalso. apply str_get_In in Eg.
      assert (M : mem_str e (map fst (filter (fun f : string * option value => match snd f with Some _ => true | None => false end) nt)) = true).
      { apply mem_str_In. apply in_map_iff. exists (e, Some d). split; [reflexivity|]. apply filter_In. auto. }
      rewrite M in N. discriminate.
    - destruct Rb as [Ent [decl [Ed _]]].
      assert (Q : exists (b : bool) (ann : field -> ty) fs', kind_of_class w c = Some (if b then KAT decl else KDC decl) /\ (forall f, In f fs' -> In f decl) /\
        dump_fields w dcfg (VObj c fs) = map (fun f => mkDfield (f_name f) (dump_name dcfg f) (ann f) (default_value (f_default f))) fs' /\
        (forall f, In f decl -> In f fs')).
      { destruct Ed as [Ed|[Ed [Ea Ha]]].
        - exists false. eexists _, (in_set_order w decl). unfold kind_of_class. cbn [dump_fields] in *. rewrite Ent, Ed in *. split; [reflexivity|].
          split; [intro f; apply in_set_order_incl|]. split; [reflexivity|].
          rewrite map_map in ND. intro f. apply (in_set_order_in w decl f (proj1 (in_set_order_nodup w decl) ND)).
        - exists true, (fun _ => TAny), (filter f_repr decl). unfold kind_of_class. cbn [dump_fields]. rewrite Ent, Ed, Ea.
          split; [reflexivity|]. split; [intros f J; apply filter_In in J; apply J|]. split; [reflexivity|].
          intros f J. apply filter_In. split; [exact J|]. apply Ha. exact J. }
      destruct Q as [b [ann [fs' [K [Sub [Hdf Sup]]]]]].
      assert (J : exists f, In f decl /\ f_default f = DNo /\ e = external cfg b f).
      { unfold required_names in I. rewrite K in I. destruct b; apply in_map_iff in I as [f [<- I]]; apply filter_In in I as [I N];
          apply andb_prop in N as [_ N]; exists f; (split; [exact I|]); (split; [destruct (f_default f); congruence|reflexivity]). }
      destruct J as [f [If [Df ->]]].
      assert (J : In (f_name f, external cfg b f) (obj_fields w cfg c)).
      { unfold obj_fields. rewrite K. destruct b; apply in_map_iff; exists f; auto. }
      apply Same in J. apply in_map_iff in J as [g [[= E1 E2] J]]. exists g. split; [exact J|]. split; [exact E2|].
      rewrite Hdf in J, ND. apply in_map_iff in J as [f' [<- J]]. cbn [df_name df_default] in *. rewrite map_map in ND.
      rewrite (NoDup_field fs' f' f ND J (Sup f If) E1), Df. reflexivity.
  Qed.

  Lemma object_loads v ys (shown := filter (dump_shows w dcfg v) (dump_fields w dcfg v))
      (x := VDict (combine (map (fun f => VStr (df_ext f)) shown) ys)) :
    let c := type_of v in
    object_class w basic strcons c -> resolvable w cfg c -> distinct_names w cfg c ->
    dump_object w basic dcfg v -> dump_ready w dcfg v -> rebuilds w dcfg v ->
    (forall f e, In (f, e) (obj_fields w cfg c) <-> In (f, e) (map (fun g => (df_name g, df_ext g)) (dump_fields w dcfg v))) ->
    (forall f, In f (dump_fields w dcfg v) -> exists t, str_get (df_name f) (declared w p c) = Some t) ->
    List.length shown = List.length ys -> steady x (TClass c) ->
    (forall f y t, In (f, y) (combine shown ys) -> str_get (df_name f) (declared w p c) = Some t -> loads y t (Ok (field_value v f))) ->
    loads x (TClass c) (Ok v).
  Proof using Hstd Hwr Hu.
    intros c OC Re Di DO Rd Rb Same Hty Len St IH.
    assert (Ish : forall f, In f shown -> In f (dump_fields w dcfg v)) by (intros f I; apply filter_In in I; apply I).
    assert (Iof : forall f, In f (dump_fields w dcfg v) -> In (df_name f, df_ext f) (obj_fields w cfg c)).
    { intros f I. apply Same. apply in_map_iff. exists f. auto. }
    assert (NDe : NoDup (map df_ext shown)).
    { destruct DO as [_ [_ [_ ND]]]. subst shown. clear - ND. induction (dump_fields w dcfg v) as [|f l IH]; [constructor|].
      cbn in ND. inversion ND as [|? ? N1 N2]; subst. cbn [filter]. destruct (dump_shows w dcfg v f); [|auto].
      cbn. constructor; [|auto]. intro I. apply N1. apply in_map_iff in I as [g [<- I]]. apply in_map. apply filter_In in I. apply I. }
    assert (PD : py_dict (combine (map (fun f => VStr (df_ext f)) shown) ys)).
    { rewrite <- (map_map df_ext VStr). apply py_dict_strings. exact NDe. }
    assert (Keys : map fst (combine (map (fun f => VStr (df_ext f)) shown) ys) = map (fun f => VStr (df_ext f)) shown).
    { apply map_fst_combine. rewrite map_length. exact Len. }
    apply (C24_loads_iff w basic strcons cfg Hstd Hwr env s x c Hu St OC Re Di PD v).
    eexists. split; [left; reflexivity|]. split; [|split].
    - (* what is required is shown *)
      intros e I. rewrite Keys.
      assert (J : exists f, In f (dump_fields w dcfg v) /\ df_ext f = e /\ df_default f = None).
      { apply (required_field v e DO Rb Same I). }
      destruct J as [f [I1 [<- Df]]]. apply in_map_iff. exists f. split; [reflexivity|]. apply filter_In. split; [exact I1|].
      unfold dump_shows. rewrite Df. destruct (d_hide dcfg); reflexivity.
    - intros _ k y I. apply (in_map fst) in I. cbn [fst] in I. rewrite Keys in I. apply in_map_iff in I as [f [<- I]].
      exists (df_name f). unfold field_of. apply str_get_nodup; [rewrite map_map; apply Di|].
      apply in_map_iff. exists (df_name f, df_ext f). split; [reflexivity|]. apply Iof, Ish, I.
    - exists (kwargs v). split; [|apply construct_rebuilds; assumption].
      rewrite combine_given; [|exact Di|exact Len|intros f I; apply Iof, Ish, I].
      unfold kwargs. fold shown. clear - Len IH Hty Ish. revert ys Len IH. induction shown as [|f l IHl]; intros [|y ys] Len IH; try discriminate; cbn [map combine]; constructor.
      + split; [reflexivity|]. destruct (Hty f (Ish f (or_introl eq_refl))) as [t Et]. exists t. split; [exact Et|].
        cbn [fst snd]. apply (IH f y t); [left; reflexivity|exact Et].
      + apply IHl; [intros g I; apply Ish; right; exact I|cbn in Len; lia|]. intros g z t I Et. apply (IH g z t); [right; exact I|exact Et].
  Qed.

  Lemma typeddict_loads c req d d' :
    kind_of_class w c = Some (KTD req) ->
    object_class w basic strcons c -> resolvable w cfg c -> distinct_names w cfg c ->
    map fst d = map fst d' -> py_dict d' ->
    (forall e, In e (required_names w cfg c) -> In (VStr e) (map fst d)) ->
    (forall k, In k (map fst d) -> exists f t, k = VStr f /\ str_get f (declared w p c) = Some t) ->
    steady (VDict d') (TClass c) ->
    (forall f v x t, In ((VStr f, v), (VStr f, x)) (combine d d') -> str_get f (declared w p c) = Some t -> loads x t (Ok v)) ->
    loads (VDict d') (TClass c) (Ok (VDict d)).
  Proof using Hstd Hwr Hu.
    intros K OC Re Di Em PD Rq Ks St IH.
    apply (C24_loads_iff w basic strcons cfg Hstd Hwr env s (VDict d') c Hu St OC Re Di PD (VDict d)).
    exists d'. split; [left; reflexivity|]. split; [rewrite <- Em; exact Rq|].
    assert (Fo : forall f t, str_get f (declared w p c) = Some t -> field_of w cfg c (VStr f) = Some f).
    { intros f t Et. unfold field_of. apply str_get_nodup; [rewrite map_map; apply Di|].
      apply in_map_iff. exists (f, f). split; [reflexivity|]. unfold obj_fields. rewrite K. apply str_get_In in Et.
      apply in_map_iff. exists (f, t). auto. }
    split.
    - intros _ k x I. apply (in_map fst) in I. cbn [fst] in I. rewrite <- Em in I. destruct (Ks k I) as [f [t [-> Et]]]. exists f. eauto.
    - assert (Kd : construct w (TClass c) = fun ps => POk (VDict (map (fun kv => (VStr (fst kv), snd kv)) ps))).
      { unfold construct. unfold kind_of_class in K. destruct (ci_nt _); [discriminate|]. destruct (ci_dc _); [discriminate|].
        destruct (ci_attrs _); [discriminate|]. destruct (ci_td _); [reflexivity|discriminate]. }
      rewrite Kd. clear Kd. clear - Em Ks IH Fo.
      assert (G : exists ps, Forall2 (field_loads w cfg s (declared w p c)) (given w cfg c d') ps /\ map (fun kv => (VStr (fst kv), snd kv)) ps = d).
      { revert d' Em IH. induction d as [|[k v] d IHd]; intros [|[k' x] d'] Em IH; try discriminate.
        - exists []. split; [constructor|reflexivity].
        - cbn [map fst] in Em. injection Em as <- Em. destruct (Ks k (or_introl eq_refl)) as [f [t [-> Et]]].
          destruct (IHd (fun k I => Ks k (or_intror I)) d' Em (fun f v x t I => IH f v x t (or_intror I))) as [ps [F E]].
          exists ((f, v) :: ps). split; [|cbn; rewrite E; reflexivity].
          unfold given. cbn [flat_map fst snd]. rewrite (Fo f t Et). cbn [app]. constructor; [|exact F].
          split; [reflexivity|]. exists t. split; [exact Et|]. cbn [snd]. apply (IH f v x t); [left; reflexivity|exact Et]. }
      destruct G as [ps [F E]]. exists ps. split; [exact F|]. rewrite E. reflexivity.
  Qed.

  Lemma coll_items l xs t : List.length l = List.length xs ->
    (forall v x, In (v, x) (combine l xs) -> serial v t x) -> (forall v x, In (v, x) (combine l xs) -> loads x t (Ok v)) ->
    Forall2 (item_loads w basic cfg s t) xs l.
  Proof using.
    intros L S H. apply F2_flip. apply F2_combine; [exact L|]. intros v x I. apply ser_item; auto.
  Qed.

  Lemma ser_load v t x : serial v t x -> steady x t -> loads x t (Ok v).
  Proof using Hstd Hd Hwr Hplain Hu.
    intro S. pose proof (used_coh _ _ _ Hu) as C. induction S; intro St.
    - apply (C05_none w basic strcons cfg Hstd s Hu). auto.
    - split; [discriminate|]. exists 1. apply (basic_same w basic strcons cfg Hstd s C); assumption.
    - apply (C04_any w basic strcons cfg Hstd s Hu). reflexivity.
    - apply (C04_literal w basic strcons cfg Hstd s Hu). auto.
    - apply (list_back w basic strcons cfg Hstd Hwr env s Hu _ n t _ St). split; [assumption|]. split; [discriminate|].
      exists xs, l. split; [reflexivity|]. split; [|reflexivity]. apply coll_items; [assumption|assumption|].
      intros v x I. apply H2; [exact I|]. eapply component_steady; [exact St|left; reflexivity|].
      eapply item_inside; [reflexivity|]. eapply in_combine_r; exact I.
    - apply (tuple_back w basic strcons cfg Hstd Hwr env s Hu _ n t _ St). split; [assumption|]. split; [discriminate|].
      exists xs, l. split; [reflexivity|]. split; [|reflexivity]. apply coll_items; [assumption|assumption|].
      intros v x I. apply H2; [exact I|]. eapply component_steady; [exact St|left; reflexivity|].
      eapply item_inside; [reflexivity|]. eapply in_combine_r; exact I.
    - apply (set_back w basic strcons cfg Hstd Hwr env s Hu _ n t false _ St). split; [assumption|]. split; [discriminate|].
      exists xs, l. split; [reflexivity|]. split; [|split; [assumption|cbv iota; rewrite set_of_id by assumption; reflexivity]].
      apply coll_items; [assumption|assumption|].
      intros v x I. apply H2; [exact I|]. eapply component_steady; [exact St|left; reflexivity|].
      eapply item_inside; [reflexivity|]. eapply in_combine_r; exact I.
    - apply (set_back w basic strcons cfg Hstd Hwr env s Hu _ n t true _ St). split; [assumption|]. split; [discriminate|].
      exists xs, l. split; [reflexivity|]. split; [|split; [assumption|cbv iota; rewrite set_of_id by assumption; reflexivity]].
      apply coll_items; [assumption|assumption|].
      intros v x I. apply H2; [exact I|]. eapply component_steady; [exact St|left; reflexivity|].
      eapply item_inside; [reflexivity|]. eapply in_combine_r; exact I.
    - apply (C09_fixed_tuple w basic strcons cfg Hstd Hwr env s _ n ts Hu St H). split; [discriminate|].
      exists xs, l. split; [reflexivity|]. split; [lia|]. split; [intros; lia|]. split; [|reflexivity].
      assert (G : forall t v x, In (t, (v, x)) (combine ts (combine l xs)) -> tuple_item_loads w basic cfg s t x v).
      { intros t v x I. apply ser_tuple_item; [apply H2; exact I|]. eapply H3; [exact I|].
        eapply component_steady; [exact St|unfold component; cbn; eapply in_combine_l; exact I|].
        eapply item_inside; [reflexivity|]. apply in_combine_r in I. eapply in_combine_r; exact I. }
      clear - G H0 H1. revert l xs H0 H1 G. induction ts as [|t ts IH]; intros [|v l] [|x xs] L1 L2 G; try discriminate; cbn [combine]; constructor.
      + apply G. left. reflexivity.
      + apply IH; [cbn in L1; lia|cbn in L2; lia|]. intros t0 v0 x0 I. apply G. right. exact I.
    - apply (C39_dict w basic strcons cfg Hstd Hwr env s _ n kt vt Hu St).
      { intros d0 k x [= <-] I. apply H9. apply (in_map fst) in I. exact I. }
      split; [assumption|]. split; [assumption|]. exists d', d. split; [left; reflexivity|]. split; [|split; [|rewrite dict_of_id by assumption; reflexivity]].
      + apply F2_flip. apply F2_combine; [assumption|]. intros [k v] [k' x] I. cbn [fst snd].
        assert (I' : In (k', x) d') by (eapply in_combine_r; exact I). split.
        * apply ser_item; [eapply H2; exact I|]. eapply H3; [exact I|]. eapply component_steady; [exact St|left; reflexivity|].
          eapply item_inside; [reflexivity|]. apply (in_map fst) in I'. exact I'.
        * apply ser_item; [eapply H4; exact I|]. eapply H5; [exact I|]. eapply component_steady; [exact St|right; left; reflexivity|].
          eapply value_inside; exact I'.
      + apply forallb_forall. intros [k v] I. cbn [fst]. apply H8. apply (in_map fst) in I. exact I.
    - apply (C12_union_passthrough w basic strcons cfg Hstd s Hu); auto.
    - apply union_loads; auto. apply IHS. eapply component_steady; [exact St|unfold component; cbn; apply in_elt|apply same_inside].
    - assert (St' : steady x t) by (eapply component_steady; [exact St|left; reflexivity|apply same_inside]).
      apply (C35_value w basic strcons cfg Hstd Hwr env s x n t Hu St'). auto.
    - eapply forward_loads; [exact St|eassumption|]. apply IHS. eapply component_steady; [exact St| |apply same_inside].
      unfold component. cbn. rewrite H. left. reflexivity.
    - apply (C34_value w basic strcons cfg Hstd s x c ms H H0 Hu _ _ H4). reflexivity.
    - eapply library_loads; eassumption.
    - subst c. apply object_loads; try assumption. intros f y t I Et.
      assert (Ex : getattr v (df_name f) = POk (field_value v f)).
      { unfold field_value. pose proof (in_combine_l _ _ _ _ I) as J. apply filter_In in J as [J _].
        destruct (getattr v (df_name f)) as [x0|] eqn:E; [reflexivity|exfalso].
        clear - H4 H3 J E. destruct H3 as [_ [Sh _]]. destruct v; try contradiction; cbn [dump_fields] in J.
        - apply in_map_iff in J as [[k x] [<- J]]. cbn [df_name fst getattr] in E. destruct (str_get k fs) eqn:Eg; [discriminate|].
          clear - J Eg. induction fs as [|[k0 x0] fs IH]; [contradiction|]. cbn in Eg. destruct (String.eqb_spec k k0) as [->|N]; [discriminate|].
          destruct J as [J|J]; [congruence|auto].
        - unfold dump_ready in H4. destruct (ci_dc (class_of w c)) as [decl|]; [|destruct (ci_attrs (class_of w c)) as [decl|]; [|contradiction]].
          + apply in_map_iff in J as [g [<- J]]. destruct (proj2 H4 g (in_set_order_incl _ _ _ J)) as [x0 Q]. cbn [df_name] in E. congruence.
          + apply in_map_iff in J as [g [<- J]]. apply filter_In in J as [J _]. destruct (H4 g J) as [[x0 Q] _]. cbn [df_name] in E. congruence. }
      apply (H10 f y _ t I Ex Et). eapply component_steady; [exact St| |].
      + unfold component. cbn. apply in_or_app. left. apply str_get_In in Et. apply (in_map snd) in Et. exact Et.
      + eapply value_inside. clear - I H8. fold shown. rewrite combine_map_l. apply in_map_iff. exists (f, y). split; [reflexivity|exact I].
    - assert (Pd' : py_dict d').
      { clear - H4 H5. unfold py_dict in *. revert d' H4. induction H5 as [|[k v] d Ha _ IH]; intros [|[k' v'] d'] E; try discriminate; constructor.
        - cbn in E. injection E as -> E. apply Forall_forall. intros [k2 v2] I. cbn [fst].
          assert (J : In k2 (map fst d)) by (rewrite E; apply (in_map fst) in I; exact I).
          apply in_map_iff in J as [[k3 v3] [Q J]]. cbn in Q. subst k3. rewrite Forall_forall in Ha. exact (Ha _ J).
        - apply IH. cbn in E. congruence. }
      eapply typeddict_loads; try eassumption. intros f v x t I Et. eapply H9; [exact I|exact Et|]. eapply component_steady; [exact St| |].
      + unfold component. cbn. apply in_or_app. left. apply str_get_In in Et. apply (in_map snd) in Et. exact Et.
      + eapply value_inside. eapply in_combine_r. exact I.
  Qed.
End RT.
