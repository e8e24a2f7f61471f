(** * Model3: unions whose members can be told apart by their declarations (C64) *)

From Verif Require Import Loader Dumper Spec Vocab Inv Std Sound Objects Dumps Facts3 Facts5 Items Scalars Obs DumpAny RoundTrip Schema
  Plain Plain2 Plain3 Reference Model Model2.

Section Forms.
  Variable w : world.
  Variables basic strcons dstrcons : list cid.
  Variable cfg : config.
  Variable dcfg : dconfig.
  Variable env : string -> option ty.
  Notation p := (pep563 cfg).
  Notation typed := (typed w basic strcons dstrcons cfg dcfg env).
  Notation has_form := (has_form w basic strcons cfg env).
  Hypothesis Hd : is_dstd w basic dstrcons dcfg.
  Hypothesis Hplain : forall c, In c [CList; CTuple; CSet; CFrozen; CDict] -> ~ In c basic.

  Definition data_of (a : form) (x : value) : Prop :=
    match a with
    | FoList => exists l, x = VList l
    | FoDict => exists d, x = VDict d
    | FoObject c => exists d, x = VDict d /\ py_dict d /\ forall k, In k (map fst d) -> exists e, k = VStr e /\ In e (map snd (obj_fields w cfg c))
    end.

  Lemma dumped_dval v x : python_value w v -> dumped w dcfg v x -> dval w dcfg v TAny = Ok x.
  Proof using Hd. intros P [ds [H D]]. apply (dd w basic dstrcons dcfg Hd ds v _ H P) in D. congruence. Qed.

  (** the values of an object class *)
  Lemma object_values v c : typed v (TClass c) -> object_class w basic strcons c ->
    (type_of v = c /\ dump_object w basic dcfg v /\ dump_ready w dcfg v /\
     (forall f e, In (f, e) (obj_fields w cfg c) <-> In (f, e) (map (fun g => (df_name g, df_ext g)) (dump_fields w dcfg v))) /\
     (forall f t x, In f (dump_fields w dcfg v) -> dump_shows w dcfg v f = true ->
         str_get (df_name f) (declared w p c) = Some t -> getattr v (df_name f) = POk x -> typed x t)) \/
    (exists req d, v = VDict d /\ kind_of_class w c = Some (KTD req) /\ In CStr basic /\ py_dict d /\
     (forall e, In e (required_names w cfg c) -> In (VStr e) (map fst d)) /\
     (forall k x, In (k, x) d -> exists f t, k = VStr f /\ str_get f (declared w p c) = Some t) /\
     (forall f x t, In (VStr f, x) d -> str_get f (declared w p c) = Some t -> typed x t)).
  Proof using.
    intros T OC. inversion T as [Bn|v0 c0 B Nc Tv|v0 J|v0 vals B Pi|n t l Su H0|n t l Su H0|n t l Su H0 Ha Fp|n t l Su H0 Ha Fp|n ts l Fx Len H0
      |n c0 vt d B Nc Su Hk H0 PD|v0 n t H0|v0 n t En H0|c0 ms m x Em Nb K J Tx Mf|v0 t x L NB K E|v0 FC DO Rd Rb Same Hty H0
      |c0 req d K CS FC PD Rq Ks H0|v0 n args B Ia|v0 n pre t post H0 Nb O|v0 n k tags c0 vals D It H0 O]; subst.
    - destruct OC as [NB _]. contradiction.
    - destruct OC as [NB _]. contradiction.
    - destruct OC as [_ [NE _]]. congruence.
    - exfalso. destruct OC as [_ [_ Kc]]. assert (type_of v = c).
      { inversion L as [c1 q|l|c1 l|q|q t1 [Ht|[? [? Ht]]]|c1 q]; subst; try reflexivity; [injection Ht as ->; reflexivity|discriminate]. }
      subst c. rewrite K in Kc. exact Kc.
    - left. split; [reflexivity|]. auto.
    - right. exists req, d. auto 10.
  Qed.

  Lemma combine_keys {A B} (l : list A) (m : list B) k y : In (k, y) (combine l m) -> In k l.
  Proof using. apply in_combine_l. Qed.
  Lemma written_py (shown : list dfield) ys : NoDup (map df_ext shown) -> py_dict (combine (map (fun f => VStr (df_ext f)) shown) ys).
  Proof using. intro ND. rewrite <- (map_map df_ext VStr). apply py_dict_strings. exact ND. Qed.
  Lemma NoDup_filter_map {A} (g : A -> string) h (l : list A) : NoDup (map g l) -> NoDup (map g (filter h l)).
  Proof using.
    induction l as [|f l IH]; intro ND; [constructor|]. cbn in ND. inversion ND as [|? ? N1 N2]; subst. cbn [filter]. destruct (h f); [|auto].
    cbn. constructor; [|auto]. intro I. apply N1. apply in_map_iff in I as [q [<- I]]. apply in_map. apply filter_In in I. apply I.
  Qed.

  (** the data of a TypedDict *)
  Lemma td_dumped d x (CS : In CStr basic) : py_dict d -> (forall k y, In (k, y) d -> exists f, k = VStr f) -> python_value w (VDict d) ->
    dumped w dcfg (VDict d) x ->
    exists d', x = VDict d' /\ py_dict d' /\ Forall2 (fun kv kx => fst kx = fst kv /\ dval w dcfg (snd kv) TAny = Ok (snd kx)) d d'.
  Proof using Hd Hplain.
    intros PD Ks P [ds [H D]]. apply (c51_dict w basic dstrcons dcfg Hd ds d H P) in D; [|apply Hplain; cbn; tauto].
    destruct D as [kys [F ->]].
    assert (F' : Forall2 (fun kv kx => fst kx = fst kv /\ dval w dcfg (snd kv) TAny = Ok (snd kx)) d kys).
    { assert (PL : forall k y, In (k, y) d -> python_value w k /\ python_value w y).
      { intros k y I. split; (eapply pv_holds; [exact P|]); [eapply holds_key|eapply holds_value]; exact I. }
      clear PD P. induction F as [|[k y] [k' y'] d kys [E1 [E2 _]] F IH]; constructor; cbn [fst snd] in *.
      - destruct (PL k y (or_introl eq_refl)) as [Pk Py]. apply (dd w basic dstrcons dcfg Hd ds k _ H Pk) in E1. apply (dd w basic dstrcons dcfg Hd ds y _ H Py) in E2.
        destruct (Ks k y (or_introl eq_refl)) as [f ->]. rewrite (basic_dval w basic dstrcons dcfg Hd) in E1 by exact CS. injection E1 as ->. split; [reflexivity|congruence].
      - apply IH; intros k0 y0 I; [eapply Ks|eapply PL]; right; exact I. }
    assert (Em : map fst kys = map fst d) by (clear - F'; induction F' as [|kv kx d d' [E _] _ IH]; [reflexivity|]; cbn; rewrite E, IH; reflexivity).
    pose proof (keys_dict d kys Em PD) as PD'. rewrite (dict_of_id kys PD'). exists kys. auto.
  Qed.

  Lemma dumped_form v t a x : has_form t a -> typed v t -> python_value w v -> dumped w dcfg v x -> data_of a x.
  Proof using Hd Hplain.
    intros F T P D. induction F as [n o args Io|n kt vt _ _|c FC|n t a F IH|n t a En F IH].
    - assert (C : exists l, collection_of v l /\ ~ In (type_of v) basic).
      { inversion T as [Bn|v0 c0 B Nc Tv|v0 J|v0 vals B Pi|n0 t l Su H0|n0 t l Su H0|n0 t l Su H0 Ha Fp|n0 t l Su H0 Ha Fp|n0 ts l Fx Len H0
          |n0 c0 vt d B Nc Su Hk H0 PD|v0 n0 t H0|v0 n0 t En H0|c0 ms m y Em Nb K J Tx Mf|v0 t y L NB K E|v0 FC DO Rd Rb Same Hty H0
          |c0 req d K CS FC PD Rq Ks H0|v0 n0 args0 B Ia|v0 n0 pre t post H0 Nb O|v0 n0 k tags c0 vals Di It H0 O]; subst;
          try (exfalso; cbn in Io; intuition discriminate); try (exists l; split; [red; auto|apply Hplain; cbn; tauto]).
        inversion L as [c1 q|l|c1 l|q|q t1 [Ht|[? [? Ht]]]|c1 q]; subst; try discriminate. injection Ht as ? ? ?. subst. cbn in Io. intuition discriminate. }
      destruct C as [l [C NB]]. destruct D as [ds [H D]]. apply (c51_items w basic dstrcons dcfg Hd ds v l H P C NB) in D. destruct D as [ys [_ ->]]. exists ys. reflexivity.
    - assert (C : exists d, v = VDict d).
      { inversion T as [Bn|v0 c0 B Nc Tv|v0 J|v0 vals B Pi|n0 t l Su H0|n0 t l Su H0|n0 t l Su H0 Ha Fp|n0 t l Su H0 Ha Fp|n0 ts l Fx Len H0
          |n0 c0 vt0 d B Nc Su Hk H0 PD|v0 n0 t H0|v0 n0 t En H0|c0 ms m y Em Nb K J Tx Mf|v0 t y L NB K E|v0 FC DO Rd Rb Same Hty H0
          |c0 req d K CS FC PD Rq Ks H0|v0 n0 args0 B Ia|v0 n0 pre t post H0 Nb O|v0 n0 k tags c0 vals Di It H0 O]; subst; try (eexists; reflexivity).
        inversion L as [c1 q|l|c1 l|q|q t1 [Ht|[? [? Ht]]]|c1 q]; subst; discriminate. }
      destruct C as [d ->]. destruct D as [ds [H D]]. apply (c51_dict w basic dstrcons dcfg Hd ds d H P) in D; [|apply Hplain; cbn; tauto]. destruct D as [kys [_ ->]]. eexists. reflexivity.
    - destruct (object_values v c T (proj1 FC)) as [[Tv [DO [Rd [Same _]]]]|[req [d [-> [K [CS [PD [_ [Ks _]]]]]]]]].
      + pose proof D as [ds [H D']]. apply (c26 w basic dstrcons dcfg Hd ds v x H P DO) in D'. destruct D' as [_ [ys [_ ->]]].
        eexists. split; [reflexivity|]. split; [apply written_py; apply NoDup_filter_map; apply DO|].
        intros k I. apply in_map_iff in I as [[k0 y] [Q I]]. cbn in Q. subst k0. apply combine_keys in I. apply in_map_iff in I as [f [<- I]].
        exists (df_ext f). split; [reflexivity|]. apply filter_In in I as [I _]. apply in_map_iff. exists (df_name f, df_ext f). split; [reflexivity|].
        apply Same. apply in_map_iff. exists f. auto.
      + destruct (td_dumped d x CS PD) as [d' [-> [PD' F]]]; [|exact P|exact D|].
        { intros k y I. destruct (Ks k y I) as [f [_ [E _]]]. eauto. }
        exists d'. split; [reflexivity|]. split; [exact PD'|].
        assert (Em : map fst d' = map fst d) by (clear - F; induction F as [|kv kx d d' [E _] _ IH]; [reflexivity|]; cbn; rewrite E, IH; reflexivity).
        rewrite Em. intros k I. apply in_map_iff in I as [[k0 y] [Q I]]. cbn in Q. subst k0. destruct (Ks k y I) as [f [t [-> Et]]].
        exists f. split; [reflexivity|]. unfold obj_fields. rewrite K, map_map. cbn [snd]. apply str_get_In in Et. apply (in_map fst _ _ Et).
    - inversion T as [| | | | | | | | | |v0 n0 t0 T0| | | | | | | |]; subst; [exact (IH T0)|].
      match goal with L : library_form _ _ _ _ _ _ _ _ |- _ => inversion L as [c1 q|l|c1 l|q|q t1 [Ht|[? [? Ht]]]|c1 q]; subst; discriminate end.
    - inversion T as [| | | | | | | | | | |v0 n0 t0 En0 T0| | | | | | |]; subst; [rewrite En in En0; injection En0 as <-; exact (IH T0)|].
      match goal with L : library_form _ _ _ _ _ _ _ _ |- _ => inversion L as [c1 q|l|c1 l|q|q t1 [Ht|[? [? Ht]]]|c1 q]; subst; discriminate end.
  Qed.

  Lemma different_wrong a b x t' : data_of a x -> different w cfg a b -> has_form t' b -> wrong_data w basic strcons cfg env x t'.
  Proof using.
    intros Da Df F. induction F as [n o args Io|n kt vt Sk Sv|c FC|n t b F IH|n t b En F IH].
    - destruct a as [| |c]; cbn in Df; try contradiction; [destruct Da as [d ->]|destruct Da as [d [-> _]]]; apply wd_dict; exact Io.
    - destruct a as [| |c]; cbn in Df; try contradiction. destruct Da as [l ->]. apply wd_nodict; [reflexivity|assumption|assumption].
    - destruct a as [| |c0]; cbn in Df; try contradiction.
      + destruct Da as [l ->]. apply wd_noobject; [reflexivity|exact FC].
      + destruct Da as [d [-> [PD Ks]]]. destruct Df as [e [Re Ne]]. apply (wd_missing _ _ _ _ _ d c e); [exact FC|exact PD|exact Re|].
        intro I. destruct (Ks _ I) as [e' [[= <-] I']]. contradiction.
    - apply wd_newtype. apply IH. exact Df.
    - eapply wd_forward; [exact En|]. apply IH. exact Df.
  Qed.

  Theorem forms_apart args : different_forms w basic strcons cfg env args -> told_apart w basic strcons dstrcons cfg dcfg env args.
  Proof using Hd Hplain.
    intros [NL [Hf Df]] pre t post v x E Nb T P D. subst args.
    destruct (Hf t) as [a Fa]; [apply in_elt|exact Nb|]. pose proof (dumped_form v t a x Fa T P D) as Da.
    split; [|split].
    - intros [B _]. revert B. destruct a as [| |c]; [destruct Da as [l ->]|destruct Da as [d ->]|destruct Da as [d [-> _]]]; apply Hplain; cbn; tauto.
    - intros d k y _ L. destruct (NL k L).
    - intros t' I. destruct (in_classes basic t') eqn:Bt; [left; reflexivity|right].
      destruct (Hf t') as [b Fb]; [apply in_or_app; apply in_app_or in I as [I|I]; [left; exact I|right; right; exact I]|exact Bt|].
      exact (different_wrong a b x t' Da (Df pre t post t' a b eq_refl I Nb Bt Fa Fb) Fb).
  Qed.

  Lemma dict_get_in d k y : py_dict d -> In (VStr k, y) d -> dict_get (VStr k) d = Some y.
  Proof using.
    intros PD I. induction PD as [|[k0 x0] d F _ IH]; [destruct I|]. cbn [dict_get]. destruct I as [[= -> ->]|I].
    - cbn [py_eqb]. rewrite String.eqb_refl. reflexivity.
    - rewrite Forall_forall in F. pose proof (F _ I) as N. cbn [fst] in N. rewrite N. apply IH. exact I.
  Qed.
  Lemma literal_string v vals : typed v (TLiteral vals) -> (forall x, In x vals -> exists q, x = VStr q) -> In v vals /\ In (type_of v) basic.
  Proof using.
    intros T Hs. inversion T as [| | |v0 vals0 B Pi| | | | | | | | | |v0 t y L| | | | |]; subst.
    - split; [|exact B]. unfold py_in in Pi. apply existsb_exists in Pi as [z [Iz Ez]]. destruct (Hs z Iz) as [q ->].
      destruct v; try discriminate Ez. cbn in Ez. apply String.eqb_eq in Ez. subst. exact Iz.
    - exfalso. inversion L as [c1 q|l|c1 l|q|q t1 [Ht|[? [? Ht]]]|c1 q]; subst; discriminate.
  Qed.

  Theorem tags_apart args : tagged_classes w basic strcons cfg dcfg args -> told_by_tag w basic strcons dstrcons cfg dcfg env args.
  Proof using Hd Hplain.
    intros [k [tags [E [Di Hc]]]]. exists k, tags. split; [exact E|]. split; [exact Di|].
    intros c vals v x I T P D. destruct (Hc c vals I) as [Al Hs]. destruct Di as [Tu _].
    destruct (tg_field _ _ _ _ _ _ Tu c vals I) as [Kf [Kt _]]. destruct (tg_object _ _ _ _ _ _ Tu c vals I) as [OC [Re DN]].
    destruct (object_values v c T OC) as [[Tv [DO [Rd [Same Ty]]]]|[req [d [-> [K [CS [PD [Rq [Ks Ty]]]]]]]]].
    - pose proof D as [ds [H D']]. apply (c26 w basic dstrcons dcfg Hd ds v x H P DO) in D'. destruct D' as [_ [ys [F ->]]].
      pose proof Kf as If. apply Same in If. apply in_map_iff in If as [f [Q If]]. injection Q as Qn Qe.
      assert (Sh : dump_shows w dcfg v f = true).
      { unfold dump_shows. assert (Z : d_hide dcfg = false \/ df_default f = None).
        { unfold always_dumped in Al. destruct v as [| | | | | | | | | | | |c1 fs|c1 fs| |]; try (destruct DO as [_ [[] _]]); cbn [type_of] in Tv; subst c1; cbn [dump_fields] in If.
          - destruct OC as [NB [NE Kc]]. pose proof (pv_head w _ P) as Po. cbn [python_object] in Po. destruct Po as [Nt _].
            unfold kind_of_class in Al. destruct (ci_nt (class_of w c)) as [nt|] eqn:Ent; [|destruct (Nt eq_refl)]. destruct Al as [Al|Al]; [left; exact Al|right].
            apply in_map_iff in If as [[k0 y] [<- If]]. cbn [df_default df_name fst] in *. subst k0. destruct (str_get k nt) as [[d0|]|] eqn:G; try reflexivity.
            apply str_get_In in G. destruct (Al d0 G).
          - pose proof (pv_head w _ P) as Po. cbn [python_object] in Po. destruct Po as [Nt _]. unfold kind_of_class in Al. rewrite Nt in Al.
            destruct (ci_dc (class_of w c)) as [fl|] eqn:Dc; [|destruct (ci_attrs (class_of w c)) as [fl|] eqn:At; [|destruct If]]; (destruct Al as [Al|Al]; [left; exact Al|right]);
              apply in_map_iff in If as [g [<- If]]; cbn [df_default df_name] in *; apply Al; try assumption.
            + apply in_set_order_incl in If. exact If.
            + apply filter_In in If. apply If. }
        destruct Z as [-> | ->]; [reflexivity|]. destruct (d_hide dcfg); reflexivity. }
      set (shown := filter (dump_shows w dcfg v) (dump_fields w dcfg v)) in *.
      assert (Is : In f shown) by (apply filter_In; auto).
      assert (G : exists y, In (f, y) (combine shown ys) /\ exists x0, getattr v (df_name f) = POk x0 /\ dumps_as w dcfg ds x0 (df_ann f) (Ok y)).
      { clear - F Is. induction F as [|g y l ys R F IH]; [destruct Is|]. destruct Is as [->|Is]; [exists y; split; [left; reflexivity|exact R]|].
        destruct (IH Is) as [y' [I' R']]. exists y'. split; [right; exact I'|exact R']. }
      destruct G as [y [Iy [x0 [Ga Du]]]]. exists (combine (map (fun f => VStr (df_ext f)) shown) ys), y. split; [reflexivity|].
      pose proof (Ty f (TLiteral vals) x0 If Sh) as T0. rewrite Qn in T0, Ga. specialize (T0 Kt Ga).
      destruct (literal_string x0 vals T0 Hs) as [I0 B0].
      assert (y = x0).
      { assert (Px : python_value w x0) by (destruct (Hs x0 I0) as [q ->]; apply pv_leaf; [exact Logic.I|intros z Hz; inversion Hz]).
        apply (dumps_as_dval w basic dstrcons dcfg Hd ds x0 _ _ H Px) in Du. rewrite (basic_dval w basic dstrcons dcfg Hd) in Du by exact B0. congruence. }
      subst y. split; [|exact I0]. apply dict_get_in; [apply written_py; apply NoDup_filter_map; apply DO|].
      clear - Iy Qe. revert ys Iy. induction shown as [|g l IH]; intros [|y0 ys] Iy; try destruct Iy; cbn [map combine].
      + injection H as -> ->. rewrite Qe. left. reflexivity.
      + right. apply IH. exact H.
    - destruct (td_dumped d x CS PD) as [d' [-> [PD' F]]]; [|exact P|exact D|].
      { intros k0 y I0. destruct (Ks k0 y I0) as [f [_ [Q _]]]. eauto. }
      unfold always_dumped in Al. rewrite K in Al. pose proof (Rq k Al) as Ik. apply in_map_iff in Ik as [[k0 y] [Q Ik]]. cbn in Q. subst k0.
      destruct (literal_string y vals (Ty k y _ Ik Kt) Hs) as [I0 B0].
      exists d', y. split; [reflexivity|]. split; [|exact I0].
      assert (J : In (VStr k, y) d').
      { clear - F Ik B0 Hd. induction F as [|[k1 y1] [k2 y2] d d' [E1 E2] F IH]; [destruct Ik|]. cbn [fst snd] in *. destruct Ik as [[= -> ->]|Ik]; [|right; apply IH; exact Ik].
        rewrite (basic_dval w basic dstrcons dcfg Hd) in E2 by exact B0. injection E2 as <-. subst k2. left. reflexivity. }
      apply dict_get_in; assumption.
  Qed.
End Forms.
