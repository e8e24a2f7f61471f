(** * Plain3: data models round trip (towards C55) *)

From Verif Require Import Loader Dumper Spec Inv Std Sound Fuel Obs Scalars Transparent Hist Reuse Items Eval Tuples Dicts
  Objects ObjFacts Unions Tagged Enums Dumps Facts2 Facts3 Facts5 Total RoundTrip Schema Plain Plain2.
From Verif Require Export Vocab.

Section PL3.
  Variable w : world.
  Variables basic strcons dstrcons : list cid.
  Variable cfg : config.
  Variable dcfg : dconfig.
  Hypothesis Hstd : is_std w basic strcons cfg.
  Hypothesis Hd : is_dstd w basic dstrcons dcfg.
  Hypothesis Hwr : wf_reflect w.
  Variable env : string -> option ty.
  Hypothesis Hplain : forall c, In c [CList; CTuple; CSet; CFrozen; CDict] -> ~ In c basic.
  Hypothesis Hann : forall c, In c basic -> ci_ann (class_of w c) = [].
  Hypothesis Hudc : uniondebugconflict cfg = false.
  Notation p := (pep563 cfg).
  Notation typed := (typed w basic strcons dstrcons cfg dcfg env).
  Notation dval := (dval w dcfg).
  Notation LT := (LT w cfg env).
  Notation RJ := (RJ w cfg env).
  Notation ann_ok := (ann_ok basic).
  Notation keeps := (keeps basic).

  Lemma typed_basic v c : typed v (TClass c) -> In c basic -> In (type_of v) basic.
  Proof using.
    intros T B. inversion T as [| | | | | | | | | | | |c0 ms m x0 E1 NB|v0 t0 x0 L NB K E|v0 OC|c0 req d K CS OC| | |]; subst; try assumption.
    - exfalso. inversion L as [c1 q|l|c1 l [E1|E1]|q|q t1 [Ht|[? [? Ht]]]|c1 q]; subst; cbn [type_of] in *; try contradiction.
      + injection Ht as ->. contradiction.
      + discriminate.
    - destruct OC as [[NB _] _]. contradiction.
  Qed.
  Lemma typed_exact v c : typed v (TClass c) -> In c basic -> type_of v = c.
  Proof using.
    intros T B. inversion T as [| | | | | | | | | | | |c0 ms m x0 E1 NB|v0 t0 x0 L NB K E|v0 OC|c0 req d K CS OC| | |]; subst; try reflexivity.
    - exfalso. inversion L as [c1 q|l|c1 l [E1|E1]|q|q t1 [Ht|[? [? Ht]]]|c1 q]; subst; cbn [type_of] in *; try contradiction.
      + injection Ht as ->. contradiction.
      + discriminate.
    - destruct OC as [[NB _] _]. contradiction.
  Qed.
  Lemma stays_dec t v : stays w basic t v \/ ~ stays w basic t v.
  Proof using.
    unfold stays. destruct (kept_dec w basic t v) as [K|K]; [|right; tauto].
    destruct (mem_cid (type_of v) basic) eqn:E; [apply mem_cid_In in E; auto|]. right. intros [_ B]. apply mem_cid_In in B. congruence.
  Qed.
  Lemma typed_ann v t : typed v t -> ann_ok v t.
  Proof using Hplain.
    intros T l y Hv B I.
    assert (NBv : ~ In (type_of v) basic).
    { apply Hplain. destruct Hv as [->|[->|[->| ->]]]; cbn; tauto. }
    destruct (item_basic basic _ t B eq_refl) as [c [n [o [Ib [Ec Et]]]]].
    assert (G : (forall y, In y l -> ~ stays w basic (TClass c) y -> typed y (TClass c)) -> In (type_of y) basic).
    { intro H. destruct (stays_dec (TClass c) y) as [S|S]; [exact (proj2 S)|]. eapply typed_basic; [apply H; [exact I|exact S]|exact Ib]. }
    inversion T as [| | | |n0 t0 l0 S0 H|n0 t0 l0 S0 H|n0 t0 l0 S0 H|n0 t0 l0 S0 H|n0 ts l0 Fx Len H|n0 c0 vt d| | |c0 ms m x0|v0 t0 x0 L NB K E|v0 FC DO|c0 req d
       |v0 n0 args Bv|v0 n0 pre t0 post T0 Nb|v0 n0 k tags c0 vals D It T0]; subst; try (destruct Et; discriminate).
    - assert (l0 = l) by (destruct Hv as [Q|[Q|[Q|Q]]]; congruence). subst l0. apply G. destruct Et as [Et|Et]; [|discriminate]. injection Et as _ _ <-. exact H.
    - assert (l0 = l) by (destruct Hv as [Q|[Q|[Q|Q]]]; congruence). subst l0. apply G. destruct Et as [Et|Et]; [discriminate|]. injection Et as _ _ <-. exact H.
    - assert (l0 = l) by (destruct Hv as [Q|[Q|[Q|Q]]]; congruence). subst l0. apply G. destruct Et as [Et|Et]; [|discriminate]. injection Et as _ _ <-. exact H.
    - assert (l0 = l) by (destruct Hv as [Q|[Q|[Q|Q]]]; congruence). subst l0. apply G. destruct Et as [Et|Et]; [|discriminate]. injection Et as _ _ <-. exact H.
    - assert (l0 = l) by (destruct Hv as [Q|[Q|[Q|Q]]]; congruence). subst l0. destruct Et as [Et|Et]; injection Et as _ _ ->.
      + destruct l as [|y0 [|]]; try discriminate Len. apply G. intros y' [<-|[]] _. apply H. left. reflexivity.
      + exfalso. exact (Fx _ eq_refl).
    - destruct Hv as [Q|[Q|[Q|Q]]]; discriminate.
    - destruct L; destruct Hv as [Q|[Q|[Q|Q]]]; discriminate.
    - contradiction.
    - exfalso. destruct Et as [Et|Et]; injection Et as _ _ Et.
      + destruct pre as [|a [|]]; cbn in Et; try discriminate Et. injection Et as -> ->. cbn in Nb. apply mem_cid_In in Ib. congruence.
      + destruct pre as [|a [|b [|]]]; cbn in Et; try discriminate Et.
        * injection Et as -> ->. cbn in Nb. apply mem_cid_In in Ib. congruence.
        * injection Et as -> -> ->.
          inversion T0 as [| | | | | | | | | | | | |v1 t1 x1 L1| | | | |]; subst. inversion L1 as [| | | |q t1 [Ht|[? [? Ht]]]|]; subst; discriminate.
    - exfalso. assert (J : exists c1 v1, In (c1, v1) tags /\ TClass c1 = TClass c).
      { destruct tags as [|[c1 v1] tg]; [contradiction|]. cbn in Et. destruct Et as [Et|Et]; injection Et as _ _ Et _; exists c1, v1; split; try (left; reflexivity); congruence. }
      destruct J as [c1 [v1 [I1 [= ->]]]]. destruct (tg_object _ _ _ _ _ _ (proj1 D) _ _ I1) as [[NB _] _]. contradiction.
  Qed.

  Definition good (v : value) (t : ty) (x : value) : Prop :=
    (forall a, ann_ok v a -> dval v a = Ok x) /\ LT x t v /\ keeps t x v.
  Lemma good_dumped v t x : good v t x -> python_value w v -> dumped w dcfg v x.
  Proof using Hd.
    intros [E _] P. exists dfresh. split; [constructor|]. apply (dumps_dval w basic dstrcons dcfg Hd); [constructor|exact P|].
    symmetry. apply E. apply ann_any.
  Qed.
  Lemma keeps_other t x v : in_classes basic t = false -> (forall n us, t <> TGen n OUnion (Some us)) -> keeps t x v.
  Proof using. intros B U. split; [congruence|]. intros n us E. destruct (U n us E). Qed.
  Lemma keeps_same t v : keeps t v v.
  Proof using. split; reflexivity. Qed.
  (** the item of a collection, and its data *)
  Definition good_item (v : value) (t : ty) (x : value) : Prop := (x = v /\ stays w basic t v) \/ good v t x.
  Lemma item_dval v t x : good_item v t x -> dval v TAny = Ok x.
  Proof using Hd. intros [[-> [_ B]]|[E _]]; [apply (basic_dval w basic dstrcons dcfg Hd); exact B|apply E; apply ann_any]. Qed.
  Lemma stays_stay t v : stays w basic t v -> stay w basic t v v.
  Proof using. intros [[c [-> [B E]]] _]. split; [reflexivity|]. split; [cbn; apply mem_cid_In; exact B|exact E]. Qed.
  Lemma good_any l t xs : Forall2 (fun v x => good_item v t x) l xs -> Forall2 (fun v x => dval v TAny = Ok x) l xs.
  Proof using Hd. apply F2_imp. intros v x. apply item_dval. Qed.
  Lemma good_items l t xs : Forall2 (fun v x => good_item v t x) l xs -> Forall2 (fun v x => stay w basic t x v \/ (keeps t x v /\ LT x t v)) l xs.
  Proof using. apply F2_imp. intros v x [[-> S]|[_ [L K]]]; [left; apply stays_stay; exact S|right; auto]. Qed.

  Lemma good_coll k n t l v : v = mk_coll k l -> supported cfg t -> coll_fine w k l -> (forall y, In y l -> ~ stays w basic t y -> exists x, good y t x) ->
    exists x, good v (coll_type k n t []) x.
  Proof using Hstd Hd Hplain.
    intros Ev Su C H. destruct (choose_all (fun y x => good_item y t x) l) as [xs F].
    { intros y I. destruct (stays_dec t y) as [S|S]; [exists y; left; auto|]. destruct (H y I S) as [x G]. exists x. right. exact G. }
    exists (VList xs). split; [|split].
    - intros a A. apply (coll_dval w basic dstrcons dcfg Hd Hplain v l); [destruct k; cbn in Ev; auto|exact A|eapply good_any; exact F].
    - subst v. apply (LT_coll w basic strcons cfg Hstd); [exact Su|exact C|apply good_items; exact F].
    - destruct k; apply keeps_other; try reflexivity; discriminate.
  Qed.

  Lemma LT_library v t x : library_form w basic strcons dstrcons (d_iso dcfg) v t x ->
    ~ In (type_of v) basic -> kind_of_class w (type_of v) = None -> ci_enum (class_of w (type_of v)) = None -> LT x t v.
  Proof using Hstd.
    intros L NB K E. apply not_in_basic in NB.
    assert (Kn : ci_nt (class_of w (type_of v)) = None /\ ci_dc (class_of w (type_of v)) = None /\ ci_td (class_of w (type_of v)) = None).
    { unfold kind_of_class in K. destruct (ci_nt _); [discriminate|]. destruct (ci_dc _); [discriminate|]. destruct (ci_attrs _); [discriminate|].
      destruct (ci_td _); [discriminate|]. auto. }
    destruct Kn as [K1 [K2 K3]].
    assert (Fcl : forall c, type_of v = c -> c <> CNone -> find_handler cfg (TClass c) =
      (if in_classes [CDate; CTime; CDatetime] (TClass c) then POk HDatetime else
       if is_pattern (TClass c) then POk HPattern else
       if ty_eqb (TClass c) (TClass CTimedelta) then POk HTimedelta else
       if in_classes strcons (TClass c) then POk HStrcons else if is_attrs w (TClass c) then POk HAttrs else PExc RValue)).
    { intros c <- N. rewrite (find_std w basic strcons cfg _ Hstd). unfold chain.
      destruct (is_nonetype (TClass (type_of v))) eqn:Q; [apply ty_eqb_eq in Q; injection Q as Q; contradiction|].
      cbn [is_union in_classes is_enum is_tuple is_list is_dict is_set is_frozenset is_namedtuple is_dataclass is_forwardref is_literal is_typeddict is_any is_newtype].
      rewrite NB, E, K1, K2, K3. reflexivity. }
    destruct L as [c q I Iso Eq|l Iso Eq|c l I Iso Eq|q Eq|q t T Eq|c q I1 I2 Sp _ _ Ni Eq]; cbn [type_of] in *.
    - apply LT_pure with (h := HDatetime).
      + rewrite (Fcl c eq_refl) by (intros ->; cbn in I; intuition discriminate). cbn [in_classes].
        assert (M : mem_cid c [CDate; CTime; CDatetime] = true) by (apply mem_cid_In; exact I). rewrite M. reflexivity.
      + intros call s'. cbn [body]. unfold datetimeload. rewrite Eq. reflexivity.
    - apply LT_pure with (h := HDatetime).
      + rewrite (Fcl CDate eq_refl) by discriminate. reflexivity.
      + intros call s'. cbn [body]. unfold datetimeload. cbn [iter]. rewrite Eq. reflexivity.
    - apply LT_pure with (h := HDatetime).
      + rewrite (Fcl c eq_refl) by (intros ->; destruct I; discriminate). destruct I as [-> | ->]; reflexivity.
      + intros call s'. cbn [body]. unfold datetimeload. cbn [iter]. rewrite Eq. reflexivity.
    - apply LT_pure with (h := HTimedelta).
      + rewrite (Fcl CTimedelta eq_refl) by discriminate. reflexivity.
      + intros call s'. cbn [body]. unfold timedeltaload. rewrite Eq. reflexivity.
    - apply LT_pure with (h := HPattern).
      + destruct T as [-> |[n [a ->]]].
        * rewrite (Fcl CPattern eq_refl) by discriminate. reflexivity.
        * rewrite (find_std w basic strcons cfg _ Hstd). reflexivity.
      + intros call s'. cbn [body]. unfold patternload. rewrite Eq. reflexivity.
    - apply LT_pure with (h := HStrcons).
      + rewrite (Fcl c eq_refl) by (intros ->; discriminate Sp). cbn [in_classes].
        apply mem_cid_In in I1. rewrite I1. destruct c; try discriminate Sp; reflexivity.
      + intros call s'. cbn [body]. unfold strconsload. unfold call_type. rewrite E, Eq. reflexivity.
  Qed.

  Lemma getattr_shown v f : dump_object w basic dcfg v -> dump_ready w dcfg v -> In f (dump_fields w dcfg v) -> exists x, getattr v (df_name f) = POk x.
  Proof using.
    intros [_ [Sh _]] Rd J. destruct v; try contradiction; cbn [dump_fields] in J.
    - apply in_map_iff in J as [[k x] [<- J]]. cbn [df_name fst getattr]. destruct (str_get k fs) eqn:Eg; [eauto|].
      exfalso. clear - J Eg. induction fs as [|[k0 x0] fs IH]; [contradiction|]. cbn in Eg. destruct (String.eqb_spec k k0) as [->|N]; [discriminate|].
      destruct J as [J|J]; [congruence|auto].
    - unfold dump_ready in Rd. destruct (ci_dc (class_of w c)) as [decl|]; [|destruct (ci_attrs (class_of w c)) as [decl|]; [|contradiction]].
      + apply in_map_iff in J as [g [<- J]]. exact (proj2 Rd g (in_set_order_incl _ _ _ J)).
      + apply in_map_iff in J as [g [<- J]]. apply filter_In in J as [J _]. apply (Rd g J).
  Qed.

  Lemma LT_rebuilt v ys (shown := filter (dump_shows w dcfg v) (dump_fields w dcfg v))
      (x := VDict (combine (map (fun f => VStr (df_ext f)) shown) ys)) :
    let c := type_of v in
    field_class w basic strcons cfg c ->
    dump_object w basic dcfg v -> dump_ready w dcfg v -> rebuilds w dcfg v ->
    (forall f e, In (f, e) (obj_fields w cfg c) <-> In (f, e) (map (fun g => (df_name g, df_ext g)) (dump_fields w dcfg v))) ->
    Forall2 (fun f y => exists t, str_get (df_name f) (declared w p c) = Some t /\ LT y t (field_value v f)) shown ys ->
    LT x (TClass c) v.
  Proof using Hstd Hwr.
    intros c FC DO Rd Rb Same F. pose proof FC as [OC [Re Di]]. pose proof (F2_len _ _ _ F) as Len.
    assert (Ish : forall f, In f shown -> In f (dump_fields w dcfg v)) by (intros f I; apply filter_In in I; apply I).
    assert (Iof : forall f, In f (dump_fields w dcfg v) -> In (df_name f, df_ext f) (obj_fields w cfg c)).
    { intros f I. apply Same. apply in_map_iff. exists f. auto. }
    assert (NDe : NoDup (map df_ext shown)).
    { destruct DO as [_ [_ [_ ND]]]. subst shown. clear - ND. induction (dump_fields w dcfg v) as [|f l IH]; [constructor|].
      cbn in ND. inversion ND as [|? ? N1 N2]; subst. cbn [filter]. destruct (dump_shows w dcfg v f); [|auto].
      cbn. constructor; [|auto]. intro I. apply N1. apply in_map_iff in I as [g [<- I]]. apply in_map. apply filter_In in I. apply I. }
    assert (PD : py_dict (combine (map (fun f => VStr (df_ext f)) shown) ys)).
    { rewrite <- (map_map df_ext VStr). apply py_dict_strings. exact NDe. }
    assert (Keys : map fst (combine (map (fun f => VStr (df_ext f)) shown) ys) = map (fun f => VStr (df_ext f)) shown).
    { apply map_fst_combine. rewrite map_length. exact Len. }
    apply (LT_object w basic strcons cfg Hstd Hwr env c _ (kwargs w dcfg v)); [exact FC|exact PD| | | |apply (construct_rebuilds w basic); assumption].
    - (* what is required is shown *)
      intros e I. rewrite Keys.
      destruct (required_field w basic cfg dcfg v e DO Rb Same I) as [f [I1 [<- Df]]]. apply in_map_iff. exists f. split; [reflexivity|]. apply filter_In. split; [exact I1|].
      unfold dump_shows. rewrite Df. destruct (d_hide dcfg); reflexivity.
    - intros _ k y I. apply (in_map fst) in I. cbn [fst] in I. rewrite Keys in I. apply in_map_iff in I as [f [<- I]].
      exists (df_name f). unfold field_of. apply str_get_nodup; [rewrite map_map; apply Di|].
      apply in_map_iff. exists (df_name f, df_ext f). split; [reflexivity|]. apply Iof, Ish, I.
    - rewrite combine_given; [|exact Di|exact Len|intros f I; apply Iof, Ish, I].
      unfold kwargs. fold shown. clear - F. induction F as [|f y l ys [t [Et L]] _ IH]; cbn [map combine]; constructor; [|exact IH].
      split; [reflexivity|]. exists t. cbn [fst snd]. auto.
  Qed.

  Lemma LT_typeddict c req d d' : kind_of_class w c = Some (KTD req) -> field_class w basic strcons cfg c -> py_dict d' ->
    (forall e, In e (required_names w cfg c) -> In (VStr e) (map fst d)) ->
    Forall2 (fun kv kx => fst kx = fst kv /\ exists f t, fst kv = VStr f /\ str_get f (declared w p c) = Some t /\ LT (snd kx) t (snd kv)) d d' ->
    LT (VDict d') (TClass c) (VDict d).
  Proof using Hstd Hwr.
    intros K FC PD Rq F. pose proof FC as [OC [Re Di]].
    assert (Fo : forall f t, str_get f (declared w p c) = Some t -> field_of w cfg c (VStr f) = Some f).
    { intros f t Et. unfold field_of. apply str_get_nodup; [rewrite map_map; apply Di|].
      apply in_map_iff. exists (f, f). split; [reflexivity|]. unfold obj_fields. rewrite K. apply str_get_In in Et.
      apply in_map_iff. exists (f, t). auto. }
    assert (Em : map fst d' = map fst d).
    { clear - F. induction F as [|kv kx d d' [E _] _ IH]; [reflexivity|]. cbn. rewrite E, IH. reflexivity. }
    assert (Kd : construct w (TClass c) = fun ps => POk (VDict (map (fun kv => (VStr (fst kv), snd kv)) ps))).
    { unfold construct. unfold kind_of_class in K. destruct (ci_nt _); [discriminate|]. destruct (ci_dc _); [discriminate|].
      destruct (ci_attrs _); [discriminate|]. destruct (ci_td _); [reflexivity|discriminate]. }
    assert (G : exists ps, Forall2 (fun kx q => fst q = fst kx /\ exists ft, str_get (fst kx) (declared w p c) = Some ft /\ LT (snd kx) ft (snd q)) (given w cfg c d') ps /\
      map (fun kv => (VStr (fst kv), snd kv)) ps = d).
    { clear - F Fo. induction F as [|[k v] [k' x] d d' [E [f [t [Ek [Et L]]]]] _ IH]; [exists []; split; [constructor|reflexivity]|].
      cbn [fst snd] in *. subst k' k. destruct IH as [ps [F' E']]. exists ((f, v) :: ps). split; [|cbn; rewrite E'; reflexivity].
      unfold given. cbn [flat_map fst snd]. rewrite (Fo f t Et). cbn [app]. constructor; [|exact F'].
      split; [reflexivity|]. exists t. auto. }
    destruct G as [ps [F' E']].
    apply (LT_object w basic strcons cfg Hstd Hwr env c d' ps); [exact FC|exact PD|rewrite Em; exact Rq| |exact F'|rewrite Kd, E'; reflexivity].
    intros _ k x I. clear - F I Fo. induction F as [|[k0 v0] [k1 x1] d d' [E [f [t [Ek [Et L]]]]] _ IH]; [contradiction|].
    destruct I as [[= -> ->]|I]; [|auto]. cbn [fst] in *. subst. exists f. eauto.
  Qed.

  Lemma keys_dict (d d' : list (value * value)) : map fst d' = map fst d -> py_dict d -> py_dict d'.
  Proof using.
    intros E P. unfold py_dict in *. revert d' E. induction P as [|[k v] d Ha _ IH]; intros [|[k' v'] d'] E; try discriminate; constructor.
    - cbn in E. injection E as -> E. apply Forall_forall. intros [k2 v2] I. cbn [fst].
      assert (J : In k2 (map fst d)) by (rewrite <- E; apply (in_map fst) in I; exact I).
      apply in_map_iff in J as [[k3 v3] [Q J]]. cbn in Q. subst k3. rewrite Forall_forall in Ha. exact (Ha _ J).
    - apply IH. cbn in E. congruence.
  Qed.

  Lemma typed_good v t : typed v t -> python_value w v -> exists x, good v t x.
  Proof using Hstd Hd Hwr Hplain Hann Hudc.
    intro T. induction T as [Bn|v c B Nc Tv|v J|v vals B Pi|n t l Su _ IH|n t l Su _ IH|n t l Su _ IH Ha Fp|n t l Su _ IH Ha Fp|n ts l Fx Len T IH
      |n c vt d B Nc Su Hk T IH PD|v n t T IH|v n t En T IH|c ms m x Em Nb K J Tx Mf|v t x L NB K E|v FC DO Rd Rb Same Hty T IH
      |c req d K CS FC PD Rq Ks T IH|v n args B Ia|v n pre t post T IH Nb O|v n k tags c vals D It T IH O]; intro P.
    - exists VNone. split; [intros a _; apply (basic_dval w basic dstrcons dcfg Hd); exact Bn|]. split; [|apply keeps_same].
      eapply LT_pure; [apply (find_none w basic strcons cfg Hstd)|reflexivity].
    - exists v. split; [intros a _; apply (basic_dval w basic dstrcons dcfg Hd); rewrite Tv; exact B|]. split; [|apply keeps_same].
      eapply LT_pure; [apply (find_basic w basic strcons cfg Hstd); assumption|]. intros call s. cbn [body]. unfold basicload, exact. rewrite Tv, ty_eqb_refl. reflexivity.
    - exists v. split; [intros a _; apply (json_dval w basic dstrcons dcfg Hd Hplain); exact J|]. split; [|apply keeps_same].
      eapply LT_pure; [apply (find_any w basic strcons cfg Hstd)|reflexivity].
    - exists v. split; [intros a _; apply (basic_dval w basic dstrcons dcfg Hd); exact B|]. split; [|apply keeps_same].
      eapply LT_pure; [apply (find_literal w basic strcons cfg Hstd)|]. intros call s. cbn [body literalload]. rewrite Pi. reflexivity.
    - apply (good_coll KoList n t l); [reflexivity|exact Su|exact I|]. intros y Iy Ns. apply IH; [exact Iy|exact Ns|]. eapply pv_holds; [exact P|]. apply holds_list. exact Iy.
    - apply (good_coll KoTuple n t l); [reflexivity|exact Su|exact I|]. intros y Iy Ns. apply IH; [exact Iy|exact Ns|]. eapply pv_holds; [exact P|]. apply holds_tuple. exact Iy.
    - apply (good_coll KoSet n t l); [reflexivity|exact Su|split; assumption|]. intros y Iy Ns. apply IH; [exact Iy|exact Ns|]. eapply pv_holds; [exact P|]. apply holds_set. exact Iy.
    - apply (good_coll KoFrozen n t l); [reflexivity|exact Su|split; assumption|]. intros y Iy Ns. apply IH; [exact Iy|exact Ns|]. eapply pv_holds; [exact P|]. apply holds_frozen. exact Iy.
    - (* tuples *)
      assert (G : exists xs, List.length xs = List.length l /\ Forall2 (fun v x => dval v TAny = Ok x) l xs /\
        Forall2 (fun t vx => keeps t (snd vx) (fst vx) /\ LT (snd vx) t (fst vx)) ts (combine l xs)).
      { destruct (choose_all (fun tv x => good (snd tv) (fst tv) x) (combine ts l)) as [xs F].
        { intros [t v] I. apply IH; [exact I|]. eapply pv_holds; [exact P|]. apply holds_tuple. eapply in_combine_r. exact I. }
        exists xs. clear - F Len. revert l xs Len F. induction ts as [|t ts IH]; intros [|v l] xs Len F; try discriminate Len; cbn [combine] in F;
          inversion F as [|tv x l' xs' [E [L K]] F']; subst; [repeat split; constructor|].
        destruct (IH l xs') as [H1 [H2 H3]]; [cbn in Len; lia|exact F'|]. cbn [fst snd] in *.
        split; [cbn; lia|]. split; [constructor; [apply E; apply ann_any|exact H2]|]. cbn [combine]. constructor; [auto|exact H3]. }
      destruct G as [xs [Lx [F1 F2]]]. exists (VList xs). split; [|split].
      + intros a A. apply (coll_dval w basic dstrcons dcfg Hd Hplain _ l); auto.
      + apply (LT_tuple w basic strcons cfg Hstd); assumption.
      + apply keeps_other; [reflexivity|discriminate].
    - (* dictionaries *)
      destruct (choose_all (fun kv kx => fst kx = fst kv /\ good_item (snd kv) vt (snd kx)) d) as [d' F].
      { intros [k v] I. destruct (stays_dec vt v) as [S|S]; [exists (k, v); split; [reflexivity|left; split; [reflexivity|exact S]]|].
        destruct (IH k v I S) as [x G]; [eapply pv_holds; [exact P|]; eapply holds_value; exact I|]. exists (k, x). split; [reflexivity|right; exact G]. }
      assert (Em : map fst d' = map fst d) by (clear - F; induction F as [|kv kx d d' [E _] _ IH]; [reflexivity|]; cbn; rewrite E, IH; reflexivity).
      pose proof (keys_dict d d' Em PD) as PD'. exists (VDict d'). split; [|split].
      + intros a A. apply (dict_dval w basic dstrcons dcfg Hd Hplain); [|exact PD'|].
        * assert (Hk' : forall kv, In kv d -> type_of (fst kv) = c) by (intros [k v] I; apply (Hk k v I)).
          clear - F Hk' B Hd. induction F as [|kv kx d d' [E G] _ IH]; constructor.
          -- split; [rewrite E; apply (basic_dval w basic dstrcons dcfg Hd); rewrite (Hk' kv (or_introl eq_refl)); exact B|eapply item_dval; exact G].
          -- apply IH. intros; apply Hk'; right; assumption.
        * intros k I. rewrite Em in I. apply in_map_iff in I as [[k0 v0] [<- I]]. apply (Hk k0 v0 I).
      + assert (Hk' : forall kv, In kv d -> type_of (fst kv) = c /\ hashable w (fst kv) = true) by (intros [k v] I; apply (Hk k v I)).
        destruct (in_classes basic vt) eqn:Bv.
        * apply (LT_dict_stay w basic strcons cfg Hstd); try assumption.
          assert (T' : forall kv, In kv d -> ~ stays w basic vt (snd kv) -> typed (snd kv) vt) by (intros [k v] I; exact (T k v I)).
          clear - F Hk' Bv T'. induction F as [|kv kx d d' [E G] _ IH]; constructor.
          -- destruct (Hk' kv (or_introl eq_refl)) as [H1 H2]. split; [exact E|]. split; [exact H1|]. split; [exact H2|].
             destruct (stays_dec vt (snd kv)) as [S|S].
             { destruct G as [[-> _]|[_ [_ [K _]]]]; [apply stays_stay; exact S|]. rewrite (K Bv). apply stays_stay; exact S. }
             destruct G as [[_ S']|[_ [_ [K _]]]]; [contradiction|]. rewrite (K Bv).
             specialize (T' kv (or_introl eq_refl) S). split; [reflexivity|]. split; [exact Bv|].
             destruct vt as [c0|? ? ?|?| |?| |? ?|?]; try discriminate Bv. cbn [in_classes] in Bv. apply mem_cid_In in Bv.
             exfalso. apply S. split; [|exact (typed_basic _ _ T' Bv)]. exists c0. split; [reflexivity|]. split; [exact Bv|].
             rewrite <- (typed_exact _ _ T' Bv). apply isinstance_self.
          -- apply IH; intros; [apply Hk'|apply T']; try (right; assumption); assumption.
        * apply (LT_dict w basic strcons cfg Hstd); try assumption.
          clear - F Hk' Bv. induction F as [|kv kx d d' [E G] _ IH]; constructor.
          -- destruct (Hk' kv (or_introl eq_refl)). destruct G as [[_ S]|[_ [L Kp]]]; [|auto 10].
             exfalso. apply stays_stay in S. destruct S as [_ [S _]]. congruence.
          -- apply IH. intros; apply Hk'; right; assumption.
      + apply keeps_other; [reflexivity|discriminate].
    - destruct (IH P) as [x [E [L _]]]. exists x. split; [exact E|]. split; [apply (LT_newtype w basic strcons); assumption|]. apply keeps_other; [reflexivity|discriminate].
    - destruct (IH P) as [x [E [L _]]]. exists x. split; [exact E|]. split; [apply (LT_forward w basic strcons cfg Hstd env x n t); assumption|]. apply keeps_other; [reflexivity|discriminate].
    - (* Enum *)
      exists x. split; [|split].
      + intros a _. rewrite (dv w basic dstrcons dcfg Hd). unfold dchoice. cbn [type_of]. rewrite (not_in_basic basic _ Nb).
        assert (Dc : has_dc w (VEnum c m x) = false).
        { unfold has_dc. cbn [type_of]. unfold kind_of_class in K. destruct (ci_nt _); [discriminate|]. destruct (ci_dc _); [discriminate|reflexivity]. }
        rewrite Dc. cbn [pbody]. apply (json_dval w basic dstrcons dcfg Hd Hplain). exact J.
      + eapply LT_pure; [apply (find_enum_class w basic strcons cfg Hstd c ms Em Nb)|]. intros call s. cbn [body]. unfold enumload.
        rewrite (call_enum w c ms Em), (proj2 (enum_call_member c ms x _) Mf). reflexivity.
      + apply keeps_other; [cbn; apply not_in_basic; exact Nb|discriminate].
    - exists x. split; [intros a _; eapply (library_dval w basic strcons dstrcons dcfg Hd); eassumption|].
      split; [eapply LT_library; eassumption|]. apply keeps_other.
      + inversion L as [c1 q|l|c1 l [E1|E1]|q|q t1 [Ht|[? [? Ht]]]|c1 q]; subst; cbn [type_of] in *; try (cbn; apply not_in_basic; assumption). reflexivity.
      + inversion L as [c1 q|l|c1 l [E1|E1]|q|q t1 [Ht|[? [? Ht]]]|c1 q]; subst; discriminate.
    - (* objects *)
      set (shown := filter (dump_shows w dcfg v) (dump_fields w dcfg v)).
      assert (Ff : forall f, In f shown -> exists y, exists x t, getattr v (df_name f) = POk x /\ str_get (df_name f) (declared w p (type_of v)) = Some t /\
         (df_ann f = TAny \/ df_ann f = t) /\ typed x t /\ good x t y).
      { intros f I. apply filter_In in I as [I Sh]. destruct (getattr_shown v f DO Rd I) as [x Ex]. destruct (Hty f I) as [t [Et An]].
        destruct (IH f t x I Sh Et Ex) as [y G]; [eapply pv_holds; [exact P|eapply getattr_holds; exact Ex]|].
        exists y, x, t. split; [exact Ex|]. split; [exact Et|]. split; [exact An|]. split; [exact (T f t x I Sh Et Ex)|exact G]. }
      destruct (choose_all _ shown Ff) as [ys F].
      exists (VDict (combine (map (fun f => VStr (df_ext f)) shown) ys)). split; [|split].
      + intros a _. pose proof DO as [_ [Sh _]]. rewrite (object_any w basic dstrcons dcfg Hd); [|exact Sh|apply pv_head; exact P].
        apply (c26_dval w basic dstrcons dcfg Hd v _ P DO). split; [exact Rd|]. exists ys. split; [|reflexivity].
        eapply F2_imp; [|exact F]. cbv beta. intros f y [x [t [Ex [Et [An [Tx [E _]]]]]]]. exists x. split; [exact Ex|].
        apply E. destruct An as [-> | ->]; [apply ann_any|apply typed_ann; exact Tx].
      + apply LT_rebuilt; try assumption. fold shown. eapply F2_imp; [|exact F]. cbv beta. intros f y [x [t [Ex [Et [_ [_ [_ [L _]]]]]]]].
        exists t. split; [exact Et|]. unfold field_value. rewrite Ex. exact L.
      + apply keeps_other; [cbn; apply not_in_basic; apply FC|discriminate].
    - (* TypedDict *)
      destruct (choose_all (fun kv kx => fst kx = fst kv /\ exists f t, fst kv = VStr f /\ str_get f (declared w p c) = Some t /\ good (snd kv) t (snd kx)) d) as [d' F].
      { intros [k v] I. destruct (Ks k v I) as [f [t [-> Et]]].
        destruct (IH f v t I Et) as [x G]; [eapply pv_holds; [exact P|]; eapply holds_value; exact I|]. exists (VStr f, x). split; [reflexivity|]. exists f, t. auto. }
      assert (Em : map fst d' = map fst d) by (clear - F; induction F as [|kv kx d d' [E _] _ IH]; [reflexivity|]; cbn; rewrite E, IH; reflexivity).
      pose proof (keys_dict d d' Em PD) as PD'. exists (VDict d'). split; [|split].
      + intros a A. apply (dict_dval w basic dstrcons dcfg Hd Hplain); [|exact PD'|].
        * eapply F2_imp; [|exact F]. intros kv kx [E [f [t [Ek [_ [G _]]]]]]. split; [|apply G; apply ann_any].
          rewrite E, Ek. apply (basic_dval w basic dstrcons dcfg Hd). exact CS.
        * intros k I. rewrite Em in I. apply in_map_iff in I as [[k0 v0] [<- I]]. destruct (Ks k0 v0 I) as [f [t [-> _]]]. reflexivity.
      + apply (LT_typeddict c req); try assumption. eapply F2_imp; [|exact F]. intros kv kx [E [f [t [Ek [Et [_ [L _]]]]]]].
        split; [exact E|]. exists f, t. auto.
      + apply keeps_other; [cbn; apply not_in_basic; apply FC|discriminate].
    - exists v. split; [intros a _; apply (basic_dval w basic dstrcons dcfg Hd); exact B|]. split; [|apply keeps_same].
      apply (LT_union_basic w basic strcons); assumption.
    - destruct (IH P) as [x G]. destruct (O x (good_dumped v t x G P)) as [NO [Th W]]. destruct G as [E [L _]]. exists x. split; [exact E|]. split.
      + apply (LT_union w basic strcons cfg Hstd env Hann Hudc n (pre ++ t :: post) t x v); [apply in_elt|exact Nb|exact L|exact NO|exact Th|].
        intros u Iu. apply in_elt_inv in Iu as [->|Iu]; [auto|]. right. destruct (W u Iu) as [B|Wu]; [auto|right].
        apply (wrong_RJ w basic strcons cfg Hstd Hwr env Hann); exact Wu.
      + split; [discriminate|]. intros n0 us [= <- <-] Fb. exfalso. rewrite forallb_forall in Fb. rewrite (Fb t (in_elt t pre post)) in Nb. discriminate.
    - destruct (IH P) as [x G]. destruct (O x (good_dumped v (TClass c) x G P)) as [d [tag [-> [Dg Itag]]]]. destruct G as [E [L _]].
      exists (VDict d). split; [exact E|]. split.
      + apply (LT_tagged w basic strcons cfg Hstd env Hudc tags k D) with (c := c) (vals := vals) (tag := tag); auto. apply Hplain. cbn. tauto.
      + split; [discriminate|]. intros n0 us [= <- <-] Fb. exfalso. rewrite forallb_forall in Fb.
        assert (I2 : In (TClass c) (map (fun cl => TClass (fst cl)) tags)) by (apply in_map_iff; exists (c, vals); auto).
        specialize (Fb _ I2). cbn in Fb. apply mem_cid_In in Fb. destruct (tg_object _ _ _ _ _ _ (proj1 D) _ _ It) as [[NB _] _]. contradiction.
  Qed.

  (** ** The state at the beginning *)
  Lemma LT_loads s x t v : used w cfg s ->
    (forall n t', env n = Some t' -> knows s n t' \/ (t' = t /\ w_name w t = Some n /\ ~ seen s t /\ st_frefs s <> None /\ names_of s n = None)) ->
    LT x t v -> forall r, loads w cfg s x t r <-> r = Ok v.
  Proof using.
    intros U En [N G]. destruct (G N (le_n _)) as [h [F T]]. pose proof (used_coh _ _ _ U) as C.
    assert (O : okst w cfg env (fun _ _ => True) (enter w cfg t h s)).
    { split; [|intros n t' E|auto].
      - unfold enter. destruct (ty_get _ _); [exact C|]. apply coh_register. apply coh_set_index; assumption.
      - destruct (En n t' E) as [Kn|[-> [Nm [Ns [Nf No]]]]].
        + unfold enter. destruct (ty_get t (st_index s)); [exact Kn|]. destruct Kn as [fr [Fr Gr]]. unfold register, knows. cbn [st_frefs set_index].
          rewrite Fr. destruct (w_name w t) as [m0|]; [|exists fr; auto]. destruct (str_get m0 fr) eqn:Q; [exists fr; auto|].
          cbn [set_frefs st_frefs set_index]. exists (fr ++ [(m0, t)]). split; [reflexivity|]. clear - Gr.
          induction fr as [|[a b] fr IH]; cbn in *; [discriminate|]. destruct (String.eqb n a); auto.
        + unfold enter. unfold seen in Ns. destruct (ty_get t (st_index s)); [destruct Ns; discriminate|].
          unfold register, knows. cbn [st_frefs set_index]. unfold names_of in No. destruct (st_frefs s) as [fr|] eqn:Fr; [|contradiction].
          rewrite Nm, No. cbn [set_frefs st_frefs set_index]. exists (fr ++ [(n, t)]). split; [reflexivity|]. clear - No.
          induction fr as [|[a b] fr IH]; cbn in *; [rewrite String.eqb_refl; reflexivity|]. destruct (String.eqb n a); [discriminate|auto]. }
    assert (L : loads w cfg s x t (Ok v)).
    { split; [discriminate|]. exists N. unfold load. rewrite (load_enter_fst w cfg N x t None s h C F). specialize (T _ O).
      destruct (run w cfg N h x t (enter w cfg t h s)) as [[a|e|] s']; [|destruct T as [[] _]|contradiction]. destruct T as [<- _]. reflexivity. }
    intro r. split; [intro L'; exact (loads_det _ _ _ _ _ _ _ L' L)|intros ->; exact L].
  Qed.
End PL3.
