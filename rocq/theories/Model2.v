(** * Model2: what is loaded into a data model is a value of it (C64) *)

From Verif Require Import Loader Dumper Spec Vocab Inv Std Sound Objects Dumps Facts3 Facts5 Items Scalars Obs RoundTrip Schema Plain Plain2 Plain3
  Reference Model.

Lemma doc_rect (P : value -> Prop) :
  P VNone -> (forall b, P (VBool b)) -> (forall z, P (VInt z)) -> (forall f, P (VFloat f)) -> (forall s, P (VStr s)) ->
  (forall l, (forall x, In x l -> document x) -> (forall x, In x l -> P x) -> P (VList l)) ->
  (forall d, (forall k x, In (k, x) d -> (exists s, k = VStr s) /\ document x) -> (forall k x, In (k, x) d -> P x) -> py_dict d -> P (VDict d)) ->
  forall v, document v -> P v.
Proof.
  intros H1 H2 H3 H4 H5 H6 H7. fix IH 2. intros v D. destruct D as [|b|z|f|s|l H|d H PD]; [exact H1|apply H2|apply H3|apply H4|apply H5| |].
  - apply H6; [exact H|]. intros x I. apply IH. apply H. exact I.
  - apply H7; [exact H| |exact PD]. intros k x I. apply IH. destruct (H k x I) as [_ H']. exact H'.
Qed.

Lemma pv_intro w v : python_object w v -> (forall x, holds v x -> python_value w x) -> python_value w v.
Proof. intros O H y Y. inversion Y as [|a b' Ha Hb]; subst; [exact O|]. exact (H _ Ha y Hb). Qed.
Lemma pv_leaf w v : python_object w v -> (forall x, ~ holds v x) -> python_value w v.
Proof. intros O H. apply pv_intro; [exact O|]. intros x Hx. destruct (H x Hx). Qed.
Lemma document_pv w v : document v -> python_value w v.
Proof.
  revert v. apply doc_rect; try (intros; apply pv_leaf; [exact I|intros x H; inversion H]).
  - intros l _ IH. apply pv_intro; [exact I|]. intros x H. inversion H; subst. auto.
  - intros d H IH _. apply pv_intro; [exact I|]. intros x Hx. inversion Hx as [| | | |d0 k0 x0 I0|d0 k0 x0 I0| | | ]; subst.
    + destruct (H _ _ I0) as [[q ->] _]. apply pv_leaf; [exact I|intros y Hy; inversion Hy].
    + eapply IH; eassumption.
Qed.
Lemma doc_elements v l x : document v -> elements v l -> In x l -> document x.
Proof.
  intros D [N E]. destruct D as [|b|z|f|s|l0 H|d H PD]; try discriminate E.
  - injection E as <-. intro I. induction s as [|a s IH]; [destruct I|]. destruct I as [<-|I]; [constructor|]. apply IH; [|exact I]. intros d Q. discriminate Q.
  - injection E as <-. apply H.
  - destruct (N d eq_refl).
Qed.
Lemma doc_json w basic (Hsc : forall c, In c [CNone; CBool; CInt; CFloat; CStr] -> In c basic) v : document v -> json_like w basic v.
Proof.
  revert v. apply doc_rect; try (intros; apply json_basic; apply Hsc; cbn; tauto).
  - intros l _ IH. apply json_list. exact IH.
  - intros d H IH PD. apply json_dict; [|exact IH|exact PD]. intros k x I. destruct (H k x I) as [[q ->] _]. split; [apply Hsc; cbn; tauto|reflexivity].
Qed.

Lemma document_part v x : document v -> part v x -> document x.
Proof.
  intros D P. destruct P as [v l x I Ix|d k x I|d k x I|d k x I].
  - destruct D as [|b|z|f|s|l0 H|d H Pd]; cbn in I; try discriminate.
    + injection I as <-. clear - Ix. induction s as [|a s IH]; cbn in Ix; [contradiction|]. destruct Ix as [<-|Ix]; [constructor|exact (IH Ix)].
    + injection I as <-. exact (H x Ix).
    + injection I as <-. apply in_map_iff in Ix. destruct Ix as [[k y] [<- Iy]]. destruct (H k y Iy) as [[s ->] _]. constructor.
  - inversion D as [| | | | | |d0 H Pd E0]; subst. exact (proj2 (H k x I)).
  - inversion D.
  - inversion D.
Qed.

Section Loaded.
  Variable w : world.
  Variables basic strcons dstrcons : list cid.
  Variable cfg : config.
  Variable dcfg : dconfig.
  Variable env : string -> option ty.
  Variable unseen : ty -> Prop.
  Notation p := (pep563 cfg).
  Notation typed := (typed w basic strcons dstrcons cfg dcfg env).
  Notation model_class := (model_class w basic strcons dstrcons cfg dcfg env).
  Notation model_type := (model_type w basic strcons dstrcons cfg dcfg env).
  Notation data_model := (data_model w basic strcons dstrcons cfg dcfg env).
  Notation default_fits := (default_fits w basic strcons dstrcons cfg dcfg env).
  Hypothesis Hstd : is_std w basic strcons cfg.
  Hypothesis Hsc : forall c, In c [CNone; CBool; CInt; CFloat; CStr] -> In c basic.
  Hypothesis Hplain : forall c, In c [CList; CTuple; CSet; CFrozen; CDict] -> ~ In c basic.

  Notation djson := (doc_json w basic Hsc).

  (** objects *)
  Lemma typed_fields v : field_class w basic strcons cfg (type_of v) ->
    dump_object w basic dcfg v -> dump_ready w dcfg v ->
    match v with
    | VNT c fs => exists nt, ci_nt (class_of w c) = Some nt /\ map fst fs = map fst nt
    | VObj c fs =>
      ci_nt (class_of w c) = None /\
      exists decl, (ci_dc (class_of w c) = Some decl \/
                    (ci_dc (class_of w c) = None /\ ci_attrs (class_of w c) = Some decl /\
                     forall f, In f decl -> f_repr f = true /\ strip_underscore (f_name f) = f_name f)) /\
        (forall f, In f decl -> f_init f = true) /\
        map fst fs = map f_name decl /\ ci_post (class_of w c) fs = POk fs
    | _ => False
    end ->
    (forall f e, In (f, e) (obj_fields w cfg (type_of v)) <->
                 In (f, e) (map (fun g => (df_name g, df_ext g)) (dump_fields w dcfg v))) ->
    (forall f, In f (dump_fields w dcfg v) -> exists t x, str_get (df_name f) (declared w p (type_of v)) = Some t /\
       (df_ann f = TAny \/ df_ann f = t) /\ getattr v (df_name f) = POk x /\
       (typed x t \/ df_default f = Some x) /\ forall d, df_default f = Some d -> default_fits t d) ->
    typed v (TClass (type_of v)).
  Proof using.
    intros FC DO Rd Rb Same Hf. apply td_object; [exact FC|exact DO|exact Rd| |exact Same| |].
    - split; [exact Rb|]. intros f d x I Sh Df Ga. destruct (Hf f I) as [t [x' [Et [_ [Ga' [Tx Fit]]]]]].
      rewrite Ga in Ga'. injection Ga' as <-. destruct Tx as [Tx|Tx]; [|congruence].
      destruct (Fit d Df) as [_ [_ Un]]. unfold dump_shows in Sh. apply negb_false_iff in Sh. apply andb_true_iff in Sh as [Hd Ad].
      rewrite Df, Ga in Ad. apply (Un Hd x Tx). unfold at_default in Ad. destruct v; auto. destruct (ci_dc _); auto.
    - intros f I. destruct (Hf f I) as [t [x [Et [An _]]]]. eauto.
    - intros f t x I Sh Et Ga. destruct (Hf f I) as [t' [x' [Et' [_ [Ga' [Tx Fit]]]]]].
      rewrite Ga in Ga'. injection Ga' as <-. rewrite Et in Et'. injection Et' as <-. destruct Tx as [Tx|Tx]; [exact Tx|].
      destruct (Fit x Tx) as [_ [[T|[Hd Eq]] _]]; [exact T|]. exfalso.
      unfold dump_shows in Sh. rewrite Hd, Tx, Ga in Sh. cbn [andb] in Sh. apply negb_true_iff in Sh. unfold at_default in Sh.
      destruct v; try congruence. destruct (ci_dc _); congruence.
  Qed.

  Lemma getattr_NT c fs f x : NoDup (map fst fs) -> In (f, x) fs -> getattr (VNT c fs) f = POk x.
  Proof using. intros ND I. cbn [getattr]. rewrite (str_get_NoDup _ _ _ ND I). reflexivity. Qed.

  Lemma typed_nt c nt fs : model_class c -> kind_of_class w c = Some (KNT nt) -> object_class w basic strcons c -> resolvable w cfg c ->
    map fst fs = map fst nt ->
    (forall k x, In (k, x) fs -> In (k, Some x) nt \/ exists t, str_get k (declared w p c) = Some t /\ typed x t /\ python_value w x) ->
    typed (VNT c fs) (TClass c) /\ python_value w (VNT c fs).
  Proof using.
    intros M K OC Re En Hx. destruct (mc_nt _ _ _ _ _ _ _ _ M nt K OC) as [Nm [ND Df]]. pose proof (mc_names _ _ _ _ _ _ _ _ M OC) as DN.
    assert (Nt : ci_nt (class_of w c) = Some nt).
    { unfold kind_of_class in K. destruct (ci_nt _); [congruence|]. destruct (ci_dc _); [discriminate|]. destruct (ci_attrs _); [discriminate|]. destruct (ci_td _); discriminate. }
    assert (ND' : NoDup (map fst fs)) by (rewrite En; exact ND).
    assert (Ty : forall k x, In (k, x) fs -> exists t, str_get k (declared w p c) = Some t).
    { intros k x I. apply (in_map fst) in I. cbn [fst] in I. rewrite En in I. apply Nm in I. apply str_get_key. exact I. }
    assert (Dfl : forall k d t, (match str_get k nt with Some d => d | None => None end) = Some d -> str_get k (declared w p c) = Some t -> default_fits t d).
    { intros k d t Q Et. destruct (str_get k nt) as [o|] eqn:Eg; [|discriminate]. subst o. apply str_get_In in Eg. exact (Df _ _ _ Eg Et). }
    assert (OF : forall f e, In (f, e) (obj_fields w cfg c) <-> f = e /\ In f (map fst fs)).
    { intros f e. unfold obj_fields. rewrite K, En, <- Nm. rewrite !in_map_iff. split.
      - intros [[k t] [[= <- <-] I]]. split; [reflexivity|]. exists (k, t). auto.
      - intros [<- [[k t] [E I]]]. exists (k, t). cbn in E. subst k. auto. }
    split.
    - apply (typed_fields (VNT c fs)); cbn [type_of].
      + split; [exact OC|]. split; [exact Re|exact DN].
      + split; [apply OC|]. split; [exact I|]. cbn [dump_fields]. rewrite !map_map. cbn [df_name df_ext]. split; exact ND'.
      + exact I.
      + exists nt. auto.
      + intros f e. rewrite OF. cbn [dump_fields]. rewrite map_map. cbn [df_name df_ext]. rewrite !in_map_iff. split.
        * intros [<- [kx [<- I]]]. exists kx. auto.
        * intros [kx [[= <- <-] I]]. split; [reflexivity|]. exists kx. auto.
      + intros f I. cbn [dump_fields] in I. apply in_map_iff in I as [[k x] [<- I]]. cbn [df_name df_ann df_default fst]. rewrite Nt.
        destruct (Ty k x I) as [t Et]. exists t, x. split; [exact Et|]. split; [left; reflexivity|]. split; [apply getattr_NT; assumption|].
        split; [|intros d Q; exact (Dfl k d t Q Et)].
        destruct (Hx k x I) as [J|[t' [Et' [T _]]]].
        * right. rewrite (str_get_NoDup _ _ _ ND J). reflexivity.
        * left. rewrite Et in Et'. injection Et' as <-. exact T.
    - apply pv_intro.
      + cbn [python_object]. rewrite Nt. split; [discriminate|]. apply OC.
      + intros x H. inversion H as [| | | | | |c0 fs0 k x0 I| |]; subst. destruct (Hx k x I) as [J|[t' [Et' [_ T]]]]; [|exact T].
        destruct (Ty k x I) as [t Et]. apply (Df _ _ _ J Et).
  Qed.

  Lemma typed_obj c decl fs : model_class c -> kind_of_class w c = Some (KDC decl) \/ kind_of_class w c = Some (KAT decl) ->
    object_class w basic strcons c -> resolvable w cfg c ->
    map fst fs = map f_name decl ->
    (forall k x, In (k, x) fs -> (exists f, In f decl /\ f_name f = k /\ default_value (f_default f) = Some x) \/
       exists t, str_get k (declared w p c) = Some t /\ typed x t /\ python_value w x) ->
    typed (VObj c fs) (TClass c) /\ python_value w (VObj c fs).
  Proof using.
    intros M K OC Re En Hx. destruct (mc_fields _ _ _ _ _ _ _ _ M decl K OC) as [Po [Ini Df]]. pose proof (mc_names _ _ _ _ _ _ _ _ M OC) as DN.
    assert (Nt : ci_nt (class_of w c) = None /\ (ci_dc (class_of w c) = Some decl \/ (ci_dc (class_of w c) = None /\ ci_attrs (class_of w c) = Some decl))).
    { unfold kind_of_class in K. destruct (ci_nt _); [destruct K; discriminate|]. split; [reflexivity|].
      destruct (ci_dc _); [left; destruct K; congruence|]. destruct (ci_attrs _); [right; destruct K; split; congruence|]. destruct (ci_td _); destruct K; discriminate. }
    destruct Nt as [Nt Kd].
    assert (Ext : exists b, obj_fields w cfg c = map (fun f => (f_name f, external cfg b f)) decl /\ forall f, In f decl -> dump_name dcfg f = external cfg b f).
    { destruct K as [K|K]; unfold obj_fields; rewrite K; eexists; split; try reflexivity.
      - apply (mc_dc _ _ _ _ _ _ _ _ M decl K OC).
      - intros f I. apply (mc_attrs _ _ _ _ _ _ _ _ M decl K OC f I). }
    destruct Ext as [b [OF Dn]].
    assert (NDn : NoDup (map f_name decl)). { destruct DN as [D1 _]. rewrite OF, map_map in D1. exact D1. }
    assert (NDe : NoDup (map (dump_name dcfg) decl)).
    { destruct DN as [_ D2]. rewrite OF, map_map in D2. cbn [snd] in D2. rewrite (map_ext_in _ (external cfg b)); [exact D2|exact Dn]. }
    assert (ND' : NoDup (map fst fs)) by (rewrite En; exact NDn).
    assert (Ga : forall f, In f decl -> exists x, In (f_name f, x) fs /\ getattr (VObj c fs) (f_name f) = POk x).
    { intros f I. assert (J : In (f_name f) (map fst fs)) by (rewrite En; apply in_map; exact I).
      apply in_map_iff in J as [[k x] [Q J]]. cbn in Q. subst k. exists x. split; [exact J|]. cbn [getattr]. rewrite (str_get_NoDup _ _ _ ND' J). reflexivity. }
    (* the fields of the dumper *)
    assert (DF : exists (ann : field -> ty) l, dump_fields w dcfg (VObj c fs) = map (fun f => mkDfield (f_name f) (dump_name dcfg f) (ann f) (default_value (f_default f))) l /\
       Permutation l decl /\ forall f, In f decl -> ann f = TAny \/ str_get (f_name f) (declared w p c) = Some (ann f)).
    { destruct Kd as [Kd|[Kd Ka]].
      - assert (K' : kind_of_class w c = Some (KDC decl)) by (unfold kind_of_class; rewrite Nt, Kd; reflexivity).
        destruct (mc_dc _ _ _ _ _ _ _ _ M decl K' OC) as [_ [hs [Eh An]]].
        cbn [dump_fields]. rewrite Kd, Eh. exists (fun f => match str_get (f_name f) hs with Some t => t | None => TAny end). eexists. split; [reflexivity|].
        split; [apply in_set_order_perm; exact NDn|]. intros f _. destruct (str_get (f_name f) hs) eqn:Q; [|auto]. exact (An _ _ Q).
      - assert (K' : kind_of_class w c = Some (KAT decl)) by (unfold kind_of_class; rewrite Nt, Kd, Ka; reflexivity).
        pose proof (mc_attrs _ _ _ _ _ _ _ _ M decl K' OC) as At.
        cbn [dump_fields]. rewrite Kd, Ka. exists (fun _ => TAny), (filter f_repr decl). split; [reflexivity|]. split; [|auto].
        assert (Fr : filter f_repr decl = decl).
        { clear - At. induction decl as [|f l IH]; [reflexivity|]. cbn [filter]. destruct (At f (or_introl eq_refl)) as [_ [-> _]]. rewrite IH; [reflexivity|].
          intros g I. apply At. right. exact I. }
        rewrite Fr. apply Permutation_refl. }
    destruct DF as [ann [l [DF [Pm An]]]].
    split.
    - apply (typed_fields (VObj c fs)); cbn [type_of].
      + split; [exact OC|]. split; [exact Re|exact DN].
      + split; [apply OC|]. split; [exact I|]. rewrite DF, !map_map. cbn [df_name df_ext]. split.
        * exact (Permutation_NoDup (Permutation_map _ (Permutation_sym Pm)) NDn).
        * exact (Permutation_NoDup (Permutation_map _ (Permutation_sym Pm)) NDe).
      + cbn [dump_ready]. destruct Kd as [Kd|[Kd Ka]]; rewrite Kd; [|rewrite Ka].
        * assert (K' : kind_of_class w c = Some (KDC decl)) by (unfold kind_of_class; rewrite Nt, Kd; reflexivity).
          destruct (mc_dc _ _ _ _ _ _ _ _ M decl K' OC) as [_ [hs [Eh _]]]. split; [eauto|]. intros f I. destruct (Ga f I) as [x [_ G]]. eauto.
        * intros f I. destruct (Ga f I) as [x [_ G]]. split; [eauto|]. intros _ _. apply Ini. exact I.
      + split; [exact Nt|]. exists decl. split; [|split; [intros f I; apply Ini; exact I|split; [exact En|apply Po]]].
        destruct Kd as [Kd|[Kd Ka]]; [left; exact Kd|right]. split; [exact Kd|]. split; [exact Ka|].
        assert (K' : kind_of_class w c = Some (KAT decl)) by (unfold kind_of_class; rewrite Nt, Kd, Ka; reflexivity).
        intros f I. apply (mc_attrs _ _ _ _ _ _ _ _ M decl K' OC f I).
      + intros f e. rewrite OF, DF, map_map. cbn [df_name df_ext]. rewrite !in_map_iff. split; intros [g [Q I]]; exists g.
        * split; [rewrite (Dn g I); exact Q|exact (Permutation_in _ (Permutation_sym Pm) I)].
        * apply (Permutation_in _ Pm) in I. split; [rewrite <- (Dn g I); exact Q|exact I].
      + intros f I. rewrite DF in I. apply in_map_iff in I as [g [<- I]]. apply (Permutation_in _ Pm) in I. cbn [df_name df_ann df_default].
        destruct (Df g I) as [t [Et Fit]]. destruct (Ga g I) as [x [J G]]. exists t, x. split; [exact Et|].
        split; [destruct (An g I) as [A|A]; [left; exact A|right; congruence]|]. split; [exact G|]. split; [|exact Fit].
        destruct (Hx _ _ J) as [[g' [I' [Q D]]]|[t' [Et' [T _]]]].
        * assert (g' = g). { clear - NDn I I' Q. induction decl as [|h l IH]; [destruct I|]. cbn in NDn. inversion NDn as [|? ? N1 N2]; subst.
            destruct I as [->|I], I' as [->|I']; auto; exfalso; apply N1; [rewrite <- Q|rewrite Q]; apply in_map; assumption. }
          subst g'. right. exact D.
        * left. congruence.
    - apply pv_intro.
      + cbn [python_object]. split; [exact Nt|]. split; [apply OC|]. destruct Kd as [-> |[_ ->]]; [left|right]; discriminate.
      + intros x H. inversion H as [| | | | | | |c0 fs0 k x0 I|]; subst. destruct (Hx k x I) as [[g [I' [Q D]]]|[t' [_ [_ T]]]]; [|exact T].
        destruct (Df g I') as [t [_ Fit]]. apply (Fit x D).
  Qed.

  Lemma dm_comp t t' : data_model t -> In t' (comps w p env t) -> data_model t'.
  Proof using. intros D I x R. apply D. eapply rt1n_trans; [exact I|exact R]. Qed.
  Lemma dm_self t : data_model t -> model_type t.
  Proof using. intro D. apply D. apply rt1n_refl. Qed.
  Lemma dm_class c : data_model (TClass c) -> model_class c.
  Proof using. intro D. exact (dm_self _ D). Qed.

  Lemma same_keys_combine (l l' : list (string * value)) f y : map fst l' = map fst l -> In (f, y) l' -> exists x, In ((f, x), (f, y)) (combine l l').
  Proof using.
    revert l. induction l' as [|[k z] l' IH]; intros [|[k0 x0] l] E I; try destruct I; try discriminate E; cbn in E; injection E as -> E.
    - injection H as -> ->. exists x0. left. reflexivity.
    - destruct (IH l E H) as [x J]. exists x. right. exact J.
  Qed.
  Lemma given_nodup c d : distinct_names w cfg c -> py_dict d -> NoDup (map fst (given w cfg c d)).
  Proof using.
    intros DN PD. unfold given. induction PD as [|[k0 x0] d F _ IH]; [constructor|]. cbn [flat_map fst snd].
    destruct (field_of w cfg c k0) as [g|] eqn:FO; [|exact IH]. cbn [app map fst]. constructor; [|exact IH].
    intro J. apply in_map_iff in J as [[g' x] [Q J]]. cbn in Q. subst g'.
    destruct (given_In _ _ _ _ _ _ J) as [e [He Ie]]. destruct (field_of_In _ _ _ _ _ FO) as [e0 [-> H0]].
    apply (str_get_NoDup _ _ _ (proj1 DN)) in H0. apply (str_get_NoDup _ _ _ (proj1 DN)) in He.
    assert (e0 = e) by congruence. subst e0. rewrite Forall_forall in F. specialize (F _ Ie). cbn in F. rewrite String.eqb_refl in F. discriminate.
  Qed.

  (** what the class makes of typed arguments *)
  Lemma loaded_object c d ps r : data_model (TClass c) ->
    object_class w basic strcons c -> resolvable w cfg c -> py_dict d ->
    (forall e, In e (required_names w cfg c) -> In (VStr e) (map fst d)) ->
    map fst ps = map fst (given w cfg c d) ->
    (forall k y, In (k, y) ps -> exists t, str_get k (declared w p c) = Some t /\ typed y t /\ python_value w y) ->
    construct w (TClass c) ps = POk r -> In CStr basic ->
    typed r (TClass c) /\ python_value w r.
  Proof using.
    intros D OC Re PD Rq En Hp Co CS. pose proof (dm_class _ D) as M. pose proof (mc_names _ _ _ _ _ _ _ _ M OC) as DN.
    unfold construct in Co. destruct (ci_nt (class_of w c)) as [nt|] eqn:Nt.
    { assert (K : kind_of_class w c = Some (KNT nt)) by (unfold kind_of_class; rewrite Nt; reflexivity).
      destruct (unexpected _ ps); [discriminate|]. destruct (bind_nt nt ps) as [vals|] eqn:B; [|discriminate]. injection Co as <-.
      destruct (bind_nt_spec _ _ _ B) as [B1 B2]. apply (typed_nt c nt vals M K OC Re B1).
      intros k x I. destruct (B2 k x I) as [J|J]; [right; apply Hp; exact J|left; exact J]. }
    assert (F : forall an decl, kind_of_class w c = Some (KDC decl) \/ kind_of_class w c = Some (KAT decl) ->
      (forall f, In f decl -> an (f_name f) = f_name f) -> construct_fields w an c decl ps = POk r -> typed r (TClass c) /\ python_value w r).
    { intros an decl K Ha Cf. unfold construct_fields in Cf. destruct (unexpected _ ps); [discriminate|].
      destruct (bind_fields an decl ps []) as [vals|] eqn:B; [|discriminate]. destruct (mc_fields _ _ _ _ _ _ _ _ M decl K OC) as [Po [Ini Df]].
      rewrite Po in Cf. injection Cf as <-. destruct (bind_fields_spec _ _ _ _ _ B) as [new [-> [B1 B2]]]. cbn [app].
      apply (typed_obj c decl new M K OC Re).
      - rewrite B1. unfold instance_fields. clear - Ini. f_equal. induction decl as [|f l IH]; [reflexivity|]. cbn [filter].
        destruct (Ini f (or_introl eq_refl)) as [-> _]. cbn [orb]. rewrite IH; [reflexivity|]. intros g I. apply Ini. right. exact I.
      - intros k x I. destruct (B2 k x I) as [f [If [Ef [Fd|[_ J]]]]].
        + left. exists f. split; [exact If|]. split; [exact Ef|]. unfold fdefault in Fd. destruct (Ini f If) as [_ Nf].
          destruct (f_default f) as [|d0|d0|g]; cbn [default_value]; try congruence; [destruct Fd|destruct (Nf g eq_refl)].
        + right. subst k. rewrite (Ha f If) in J. apply Hp. exact J. }
    destruct (ci_dc (class_of w c)) as [decl|] eqn:Dc.
    { apply (F (fun s => s) decl); [left; unfold kind_of_class; rewrite Nt, Dc; reflexivity|reflexivity|exact Co]. }
    destruct (ci_attrs (class_of w c)) as [decl|] eqn:At.
    { assert (K : kind_of_class w c = Some (KAT decl)) by (unfold kind_of_class; rewrite Nt, Dc, At; reflexivity).
      apply (F strip_underscore decl); [right; exact K| |exact Co]. intros f I. apply (mc_attrs _ _ _ _ _ _ _ _ M decl K OC f I). }
    destruct (ci_td (class_of w c)) as [req|] eqn:Td; [|discriminate]. injection Co as <-.
    assert (K : kind_of_class w c = Some (KTD req)) by (unfold kind_of_class; rewrite Nt, Dc, At, Td; reflexivity).
    pose proof (mc_td _ _ _ _ _ _ _ _ M req K OC) as Rf.
    assert (NDp : NoDup (map fst ps)) by (rewrite En; apply given_nodup; assumption).
    split.
    - apply (td_typeddict w basic strcons dstrcons cfg dcfg env c req); [exact K|exact CS|split; [exact OC|split; [exact Re|exact DN]]| | | |].
      + pose proof (py_dict_strings (map fst ps) (map snd ps) NDp) as PS.
        replace (map (fun kv => (VStr (fst kv), snd kv)) ps) with (combine (map VStr (map fst ps)) (map snd ps)); [exact PS|].
        clear. induction ps as [|[k x] ps IH]; [reflexivity|]. cbn. rewrite IH. reflexivity.
      + intros e I. rewrite map_map. cbn [fst].
        assert (J : In (e, e) (obj_fields w cfg c)).
        { unfold required_names in I. rewrite K in I. apply Rf in I. unfold obj_fields in *. rewrite K in *. rewrite map_map in I. cbn [fst] in I.
          apply in_map_iff in I as [kt [<- I]]. apply in_map_iff. exists kt. auto. }
        specialize (Rq e I). apply in_map_iff in Rq as [[k x] [Q Ix]]. cbn in Q. subst k.
        pose proof (given_get _ _ _ _ _ _ _ DN PD J Ix) as G. apply str_get_In in G. apply (in_map fst) in G. cbn [fst] in G. rewrite <- En in G.
        apply in_map_iff in G as [[k y] [Q G]]. cbn in Q. subst k. apply in_map_iff. exists (e, y). auto.
      + intros k v I. apply in_map_iff in I as [[k0 y] [Q I]]. injection Q as <- <-. destruct (Hp _ _ I) as [t [Et _]]. exists k0, t. auto.
      + intros f v t I Et. apply in_map_iff in I as [[k0 y] [Q I]]. injection Q as <- <-. destruct (Hp _ _ I) as [t' [Et' [T _]]]. cbn [fst] in *. congruence.
    - apply pv_intro; [exact I|]. intros x H. inversion H as [| | | |d0 k0 x0 I0|d0 k0 x0 I0| | | ]; subst.
      + apply in_map_iff in I0 as [[q y] [Q _]]. injection Q as <- _. apply pv_leaf; [exact I|]. intros z Hz. inversion Hz.
      + apply in_map_iff in I0 as [[q y] [Q J]]. injection Q as _ <-. destruct (Hp _ _ J) as [t [_ [_ P]]]. exact P.
  Qed.

  Lemma dict_of_parts kvs k x : In (k, x) (dict_of kvs) -> In k (map fst kvs) /\ In x (map snd kvs).
  Proof using.
    assert (G : forall kvs acc, In (k, x) (fold_left (fun a kv => dict_set (fst kv) (snd kv) a) kvs acc) ->
      In k (map fst (acc ++ kvs)) /\ In x (map snd (acc ++ kvs))).
    { clear kvs. induction kvs as [|[k0 x0] kvs IH]; intros acc H; cbn [fold_left] in H.
      - rewrite app_nil_r. split; [apply (in_map fst _ _ H)|apply (in_map snd _ _ H)].
      - destruct (IH _ H) as [H1 H2]. cbn [fst snd] in *. rewrite !map_app in *. rewrite !in_app_iff in *. cbn [map fst snd In].
        split.
        + destruct H1 as [H1|H1]; [|tauto]. apply in_map_iff in H1 as [[k1 x1] [Q I]]. cbn in Q. subst k1.
          destruct (dict_set_in _ _ _ _ _ I) as [[-> _]|[[J _]|J]]; [tauto|tauto|left; apply (in_map fst _ _ J)].
        + destruct H2 as [H2|H2]; [|tauto]. apply in_map_iff in H2 as [[k1 x1] [Q I]]. cbn in Q. subst x1.
          destruct (dict_set_in _ _ _ _ _ I) as [[_ ->]|[[_ ->]|J]]; [tauto|tauto|left; apply (in_map snd _ _ J)]. }
    apply (G kvs []).
  Qed.
  Lemma dict_of_pyd kvs : py_dict (dict_of kvs).
  Proof using.
    unfold dict_of. assert (G : forall l acc, py_dict acc -> py_dict (fold_left (fun a kv => dict_set (fst kv) (snd kv) a) l acc)).
    { induction l as [|kv l IH]; intros acc H; [exact H|]. cbn [fold_left]. apply IH. apply dict_set_py. exact H. }
    apply G. constructor.
  Qed.

  Lemma kept_stays t x : data_model t -> document x -> kept w basic t x -> stays w basic t x.
  Proof using.
    intros D Dx K. split; [exact K|]. destruct K as [c [-> [B Is]]]. exact (mc_instances _ _ _ _ _ _ _ _ (dm_class _ D) B x Dx Is).
  Qed.

  Lemma loaded_library t r : data_model t -> (forall c, t = TClass c -> other_class w basic c) ->
    made w strcons t r -> typed r t /\ python_value w r.
  Proof using.
    intros D Hc Md. assert (W : written_back w basic strcons dstrcons dcfg t).
    { pose proof (dm_self _ D) as M. destruct Md as [c x r I E|c l r I E|v r E|t v r Ht E|c v r I Sp E];
        try exact (mc_library _ _ _ _ _ _ _ _ M (Hc _ eq_refl)).
      destruct Ht as [-> |[n [a ->]]]; [exact (mc_library _ _ _ _ _ _ _ _ M (Hc _ eq_refl))|exact M]. }
    destruct (W r Md) as [P [H1 [H2 [H3 [x L]]]]]. split; [|exact P]. eapply td_library; eassumption.
  Qed.

  Lemma loaded_all :
    (forall v t r, gives w basic strcons cfg env unseen v t r -> document v -> data_model t -> typed r t /\ python_value w r) /\
    (forall x t y, reads w basic strcons cfg env unseen x t y -> document x -> data_model t ->
       ((y = x /\ kept w basic t x) \/ typed y t) /\ python_value w y).
  Proof.
    apply gives_reads_ind.
    - intros _ _. split; [apply td_none; apply Hsc; left; reflexivity|]. apply pv_leaf; [exact I|intros x H; inversion H].
    - intros v c B N T Dv _. split; [apply td_scalar; assumption|apply document_pv; exact Dv].
    - intros v c r B N T Bc Mk Dv D. pose proof (dm_class _ D) as M. destruct (mc_basic _ _ _ _ _ _ _ _ M B) as [En Mc]. cbn [makes] in Mk. rewrite En in Mk.
      destruct (Mc v r Dv Mk) as [Tr P]. split; [apply td_scalar; assumption|exact P].
    - intros v Dv _. split; [apply td_any; apply (doc_json w basic Hsc); exact Dv|apply document_pv; exact Dv].
    - intros v vals Pi Dv D. split; [|apply document_pv; exact Dv]. pose proof (dm_self _ D) as M. cbn in M.
      apply td_literal; [|exact Pi]. unfold py_in in Pi. apply existsb_exists in Pi as [z [Iz Ez]]. rewrite Forall_forall in M. specialize (M z Iz).
      destruct Dv as [|b|z0|f|s|l H|d H PD]; try (apply Hsc; cbn; tauto); exfalso; destruct z; try destruct M; discriminate Ez.
    - (* collections *)
      intros k n t rest v l ys r Su El Len Hk Hg IH Co Dv D.
      assert (Dt : data_model t). { apply (dm_comp _ t D). destruct k; cbn; left; reflexivity. }
      assert (Er : k = KoTuple \/ rest = []).
      { pose proof (dm_self _ D) as M. destruct k; cbn in M; [right|left; reflexivity|right|right]; destruct rest; auto; discriminate. }
      assert (Iy : forall y, In y ys -> exists x, In (x, y) (combine l ys)).
      { intros y I. clear - I Len. revert l Len. induction ys as [|y0 ys IH]; intros [|x0 l] Len; try destruct I; try discriminate Len.
        - subst. exists x0. left. reflexivity.
        - destruct (IH H l) as [x J]; [cbn in Len; lia|]. exists x. right. exact J. }
      assert (Hy : forall y, In y ys -> (~ stays w basic t y -> typed y t) /\ python_value w y).
      { intros y I. destruct (Iy y I) as [x J]. pose proof (doc_elements v l x Dv El (in_combine_l _ _ _ _ J)) as Dx.
        assert (Dec : kept w basic t x \/ ~ kept w basic t x).
        { destruct t as [c| | | | | | | ]; try (right; intros [c' [Q _]]; discriminate Q).
          destruct (mem_cid c basic) eqn:B, (isinstance w x c) eqn:Is; try (right; intros [c' [Q [B' I']]]; injection Q as <-; try congruence; apply mem_cid_In in B'; congruence).
          left. exists c. apply mem_cid_In in B. auto. }
        destruct Dec as [K|K].
        - pose proof (Hk x y J K) as ->. split; [|apply document_pv; exact Dx]. intro N. destruct N. apply kept_stays; assumption.
        - destruct (IH x y J K Dx Dt) as [T P]. auto. }
      assert (Hs : forall y, In y (set_of ys) -> In y ys) by apply (set_of_distinct ys).
      destruct k; cbn [collect] in Co.
      + injection Co as <-. destruct Er as [Q| ->]; [discriminate|]. split; [apply td_list; [exact Su|intros y I; apply Hy; exact I]|].
        apply pv_intro; [exact I|]. intros x H. inversion H; subst. apply Hy. assumption.
      + injection Co as <-. split; [apply td_vtuple; [exact Su|intros y I; apply Hy; exact I]|].
        apply pv_intro; [exact I|]. intros x H. inversion H; subst. apply Hy. assumption.
      + destruct (forallb (hashable w) ys) eqn:Fh; [|discriminate]. injection Co as <-. destruct Er as [Q| ->]; [discriminate|].
        rewrite forallb_forall in Fh. split.
        * apply td_set; [exact Su|intros y I; apply Hy; auto|auto|apply set_of_distinct].
        * apply pv_intro; [exact I|]. intros x H. inversion H; subst. apply Hy. auto.
      + destruct (forallb (hashable w) ys) eqn:Fh; [|discriminate]. injection Co as <-. destruct Er as [Q| ->]; [discriminate|].
        rewrite forallb_forall in Fh. split.
        * apply td_frozen; [exact Su|intros y I; apply Hy; auto|auto|apply set_of_distinct].
        * apply pv_intro; [exact I|]. intros x H. inversion H; subst. apply Hy. auto.
    - (* tuples *)
      intros n ts v l ys Fx El Le _ Ly _ IH Dv D.
      assert (H : forall t y, In (t, y) (combine ts ys) -> typed y t /\ python_value w y).
      { intros t y I. assert (J : exists x, In (t, (x, y)) (combine ts (combine l ys))).
        { clear - I Le. revert l ys I Le. induction ts as [|t0 ts IH]; intros [|x0 l] [|y0 ys] I Le; try destruct I; try (cbn in Le; lia).
          - injection H as -> ->. exists x0. left. reflexivity.
          - destruct (IH l ys H) as [x J]; [cbn in Le; lia|]. exists x. right. exact J. }
        destruct J as [x J]. apply (IH t x y J).
        - apply (doc_elements v l x Dv El). apply in_combine_r in J. exact (in_combine_l _ _ _ _ J).
        - apply (dm_comp _ t D). cbn. exact (in_combine_l _ _ _ _ J). }
      split.
      + apply td_tuple; [exact Fx|exact Ly|]. intros t y I. apply H. exact I.
      + apply pv_intro; [exact I|]. intros y Hy. inversion Hy; subst. 
        assert (J : exists t, In (t, y) (combine ts ys)).
        { match goal with I : In y ys |- _ => clear - I Ly; revert ts Ly; induction ys as [|y0 ys IH]; intros [|t0 ts] Ly; try destruct I; try discriminate Ly end.
          - subst. exists t0. left. reflexivity.
          - destruct (IH H ts) as [t J]; [cbn in Ly; lia|]. exists t. right. exact J. }
        destruct J as [t J]. apply (H t y J).
    - (* dictionaries *)
      intros n kt vt v d kvs Sk Sv Di Len Hk IHk Hv IHv Ha Dv D.
      pose proof (dm_self _ D) as M. cbn in M. destruct M as [c [vt' [Q [B [Nc Cs]]]]]. injection Q as -> <-.
      assert (Ed : v = VDict d). { destruct Di as [E|[_ [a [-> _]]]]; [exact E|inversion Dv]. }
      assert (Dd : forall k x, In (k, x) d -> (exists q, k = VStr q) /\ document x). { subst v. inversion Dv; assumption. }
      assert (Dk : data_model (TClass c)) by (apply (dm_comp _ _ D); left; reflexivity).
      assert (Dvt : data_model vt) by (apply (dm_comp _ _ D); right; left; reflexivity).
      assert (Ik : forall k', In k' (map fst kvs) -> type_of k' = c /\ python_value w k').
      { intros k' I. apply in_map_iff in I as [[k0 y] [Q I]]. cbn in Q. subst k0.
        assert (J : exists kx, In (kx, (k', y)) (combine d kvs)).
        { clear - I Len. revert d Len. induction kvs as [|y0 ys IH]; intros [|x0 l] Len; try destruct I; try discriminate Len.
          - subst. exists x0. left. reflexivity.
          - destruct (IH H l) as [x J]; [cbn in Len; lia|]. exists x. right. exact J. }
        destruct J as [[k x] J]. destruct (Dd k x (in_combine_l _ _ _ _ J)) as [[q ->] _].
        destruct (IHk _ _ _ _ J (doc_str q) Dk) as [[[-> [c' [Q [_ Is]]]]|T] P].
        - injection Q as <-. rewrite (Cs q Is). auto.
        - split; [exact (typed_exact w basic strcons dstrcons cfg dcfg env _ _ T B)|exact P]. }
      assert (Iv : forall y, In y (map snd kvs) -> (~ stays w basic vt y -> typed y vt) /\ python_value w y).
      { intros y I. apply in_map_iff in I as [[k' y0] [Q I]]. cbn in Q. subst y0.
        assert (J : exists kx, In (kx, (k', y)) (combine d kvs)).
        { clear - I Len. revert d Len. induction kvs as [|y0 ys IH]; intros [|x0 l] Len; try destruct I; try discriminate Len.
          - subst. exists x0. left. reflexivity.
          - destruct (IH H l) as [x J]; [cbn in Len; lia|]. exists x. right. exact J. }
        destruct J as [[k x] J]. destruct (Dd k x (in_combine_l _ _ _ _ J)) as [_ Dx].
        destruct (IHv _ _ _ _ J Dx Dvt) as [[[-> K]|T] P]; [|auto]. split; [|exact P]. intro N. destruct N. apply kept_stays; assumption. }
      split.
      + apply td_dict; [exact B|exact Nc|exact Sv| | |apply dict_of_pyd].
        * intros k x I. destruct (dict_of_parts _ _ _ I) as [I1 _]. split; [apply Ik; exact I1|apply Ha; exact I1].
        * intros k x I. destruct (dict_of_parts _ _ _ I) as [_ I2]. apply Iv. exact I2.
      + apply pv_intro; [exact I|]. intros x H. inversion H as [| | | |d0 k0 x0 I0|d0 k0 x0 I0| | | ]; subst;
          destruct (dict_of_parts _ _ _ I0) as [I1 I2]; [apply Ik|apply Iv]; assumption.
    - (* objects *)
      intros v c d ps r OC Re Od Rq _ En Fl Hg IH Co Dv D.
      assert (Ed : v = VDict d). { destruct Od as [E|[_ [_ [a [-> _]]]]]; [exact E|inversion Dv]. }
      subst v. assert (Dd : (forall k x, In (k, x) d -> (exists q, k = VStr q) /\ document x) /\ py_dict d) by (inversion Dv; auto).
      apply (loaded_object c d ps r); try assumption; [apply Dd| |apply Hsc; cbn; tauto].
      intros k y I. destruct (Fl k (in_map fst _ _ I)) as [t Et]. exists t. split; [exact Et|].
      destruct (same_keys_combine _ _ _ _ En I) as [x J]. apply (IH k x y t J Et).
      + apply in_combine_l in J. destruct (given_In _ _ _ _ _ _ J) as [e [_ Ie]]. apply (proj1 Dd _ _ Ie).
      + apply (dm_comp _ t D). cbn. apply in_or_app. left. apply str_get_In in Et. apply (in_map snd _ _ Et).
    - (* Enum *)
      intros v c ms r Em NB Mf Dv D. pose proof (dm_class _ D) as M. destruct (mc_enum _ _ _ _ _ _ _ _ M ms Em NB) as [Nd [K [Ms _]]].
      destruct Mf as [[T ->]|[N [pre [name [x [post [-> [Eq [Pr ->]]]]]]]]].
      + exfalso. apply Nd. destruct Dv; cbn in T; subst c; cbn; tauto.
      + destruct (Ms name x) as [P [J [T F]]]; [apply in_or_app; right; left; reflexivity|]. split; [eapply td_enum; eassumption|].
        apply pv_intro; [|intros y H; inversion H; subst; exact P]. cbn [python_object]. rewrite Em. split; [|discriminate].
        unfold kind_of_class in K. destruct (ci_nt _); [discriminate|reflexivity].
    - intros v c ms hints n t y r Em NB No Hh In_ Hg IH Mf Dv D. pose proof (dm_class _ D) as M. destruct (mc_enum _ _ _ _ _ _ _ _ M ms Em NB) as [Nd [K [Ms Hn]]].
      assert (Dt : data_model t).
      { apply (dm_comp _ t D). cbn. rewrite Em, Hh. apply in_or_app. right. apply (in_map snd _ _ In_). }
      destruct (IH Dv Dt) as [Ty Py].
      destruct Mf as [[T ->]|[N [pre [name [x [post [-> [Eq [Pr ->]]]]]]]]].
      + exfalso. exact (Hn hints n t y Hh In_ Ty T).
      + destruct (Ms name x) as [P [J [T F]]]; [apply in_or_app; right; left; reflexivity|]. split; [eapply td_enum; eassumption|].
        apply pv_intro; [|intros z H; inversion H; subst; exact P]. cbn [python_object]. rewrite Em. split; [|discriminate].
        unfold kind_of_class in K. destruct (ci_nt _); [discriminate|reflexivity].
    - intros c x r I Oc E Dv D. apply loaded_library; [exact D|intros c' [= <-]; exact Oc|eapply made_iso; eassumption].
    - intros c v l r I Oc Nv El E Dv D. apply loaded_library; [exact D|intros c' [= <-]; exact Oc|eapply made_args; [eassumption| |eassumption]; intros y Iy; exact (document_part v y Dv (part_item v l y El Iy))].
    - intros v r Oc E Dv D. apply loaded_library; [exact D|intros c' [= <-]; exact Oc|eapply made_timedelta; eassumption].
    - intros v t r Ht E Dv D. apply loaded_library; [exact D| |eapply made_pattern; [|exact Dv|eassumption]].
      + intros c' ->. destruct Ht as [[[= ->] Oc]|[n [a Q]]]; [exact Oc|discriminate Q].
      + destruct Ht as [[-> _]|Ht]; [left; reflexivity|right; exact Ht].
    - intros v c r I Oc Sp E Dv D. apply loaded_library; [exact D|intros c' [= <-]; exact Oc|eapply made_call; eassumption].
    - intros v n t r _ IH Dv D. destruct (IH Dv) as [T P]; [apply (dm_comp _ t D); left; reflexivity|]. split; [apply td_newtype; exact T|exact P].
    - intros v n t r En _ IH Dv D. destruct (IH Dv) as [T P]; [apply (dm_comp _ t D); cbn; rewrite En; left; reflexivity|]. split; [eapply td_forward; eassumption|exact P].
    - intros v n args [B Ia] Dv D. split; [apply td_union_basic; assumption|apply document_pv; exact Dv].
    - intros v n args t r No It _ IH Dv D. destruct (IH Dv) as [T P]; [apply (dm_comp _ t D); exact It|]. split; [|exact P].
      destruct (in_classes basic t) eqn:Ib.
      + destruct t; try discriminate Ib. cbn in Ib. apply mem_cid_In in Ib. pose proof (typed_exact w basic strcons dstrcons cfg dcfg env _ _ T Ib) as Q.
        apply td_union_basic; rewrite Q; assumption.
      + pose proof (dm_self _ D) as M. destruct M as [Ap|[k [tags [-> [Dis Tg]]]]].
        * apply in_split in It as [pre [post ->]]. apply td_union; [exact T|exact Ib|]. intros x Dx. exact (Ap pre t post r x eq_refl Ib T P Dx).
        * apply in_map_iff in It as [[c vals] [<- It]]. cbn [fst] in *. eapply td_tagged; try eassumption. intros x Dx. exact (Tg c vals r x It T P Dx).
    - (* line 396 *)
      intros n kt c v d kvs B Un Sk Di Len Hk Ha Dv D.
      pose proof (dm_self _ D) as M. cbn in M. destruct M as [c0 [vt' [Q [B0 [Nc Cs]]]]]. injection Q as -> <-.
      assert (Ed : v = VDict d). { destruct Di as [E|[_ [a [-> _]]]]; [exact E|inversion Dv]. }
      assert (Dd : forall k x, In (k, x) d -> (exists q, k = VStr q) /\ document x). { subst v. inversion Dv; assumption. }
      assert (Dk : data_model (TClass c0)) by (apply (dm_comp _ _ D); left; reflexivity).
      assert (Dvt : data_model (TClass c)) by (apply (dm_comp _ _ D); right; left; reflexivity).
      assert (J : forall kv, In kv kvs -> exists kx, In (kx, kv) (combine d kvs)).
      { intros kv I. clear - I Len. revert d Len. induction kvs as [|y0 ys IH]; intros [|x0 l] Len; try destruct I; try discriminate Len.
        - subst. exists x0. left. reflexivity.
        - destruct (IH H l) as [x J]; [cbn in Len; lia|]. exists x. right. exact J. }
      assert (Ik : forall k', In k' (map fst kvs) -> type_of k' = c0 /\ python_value w k').
      { intros k' I. apply in_map_iff in I as [[k0 y] [Q I]]. cbn in Q. subst k0.
        destruct (J _ I) as [[k x] J']. destruct (Dd k x (in_combine_l _ _ _ _ J')) as [[q ->] _].
        destruct (Hk _ _ _ _ J') as [_ [_ [[-> [c' [Q [_ Is]]]]|[[_ [Q _]]|[[_ [Q ->]]|[_ [_ [_ Mk]]]]]]]].
        - injection Q as <-. rewrite (Cs q Is). split; [reflexivity|]. apply document_pv. constructor.
        - discriminate.
        - injection Q as Q. cbn [type_of] in *. split; [exact Q|]. apply document_pv. constructor.
        - destruct (mc_basic _ _ _ _ _ _ _ _ (dm_class _ Dk) B0) as [En Mc]. cbn [makes] in Mk. rewrite En in Mk. exact (Mc _ _ (doc_str _) Mk). }
      assert (Iv : forall y, In y (map snd kvs) -> stays w basic (TClass c) y /\ python_value w y).
      { intros y I. apply in_map_iff in I as [[k' y0] [Q I]]. cbn in Q. subst y0.
        destruct (J _ I) as [[k x] J']. destruct (Dd k x (in_combine_l _ _ _ _ J')) as [_ Dx].
        destruct (Hk _ _ _ _ J') as [-> [Is _]]. split; [|apply document_pv; exact Dx]. apply kept_stays; [exact Dvt|exact Dx|]. exists c. auto. }
      split.
      + apply td_dict; [exact B0|exact Nc| | | |apply dict_of_pyd].
        * apply supported_find. destruct (cid_eqb c CNone) eqn:Q; [apply cid_eqb_eq in Q; subst c; exists HNone; apply (find_none w basic strcons cfg Hstd)|].
          exists HBasic. apply (find_basic w basic strcons cfg Hstd); [exact B|]. intros ->. discriminate Q.
        * intros k x I. destruct (dict_of_parts _ _ _ I) as [I1 _]. split; [apply Ik; exact I1|apply Ha; exact I1].
        * intros k x I N. destruct (dict_of_parts _ _ _ I) as [_ I2]. destruct N. apply Iv. exact I2.
      + apply pv_intro; [exact I|]. intros x H. inversion H as [| | | |d0 k0 x0 I0|d0 k0 x0 I0| | | ]; subst;
          destruct (dict_of_parts _ _ _ I0) as [I1 I2]; [apply Ik|apply Iv]; assumption.
    - intros x t y [-> K] Dx D. split; [left; auto|apply document_pv; exact Dx].
    - intros x t y _ IH Dx D. destruct (IH Dx D) as [T P]. auto.
  Qed.
End Loaded.
