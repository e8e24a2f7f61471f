(** * Rollback: old versions of the classes (C67)

    A program has got a new version, in which some of its dataclasses and attrs
    classes have more fields.  What does the old version make of data which was
    written for the new one? *)

From Verif Require Import Loader Spec Vocab Inv Std Obs Hist Reference RefComplete Evolve.

(** ** Vocabulary *)

Section Shrink.
  (** the fields which only the new version has *)
  Variable new : cid -> list field.

  (** the fields of an object of the class [c], without the new ones *)
  Definition forget (c : cid) (fs : list (string * value)) : list (string * value) :=
    filter (fun kx => negb (mem_str (fst kx) (map f_name (new c)))) fs.

  (** the same value in the old program: its objects do not have the new fields *)
  Fixpoint shrink (v : value) : value :=
    match v with
    | VList l => VList (map shrink l)
    | VTuple l => VTuple (map shrink l)
    | VSet l => VSet (map shrink l)
    | VFrozen l => VFrozen (map shrink l)
    | VDict d => VDict (map (fun kx => (shrink (fst kx), shrink (snd kx))) d)
    | VNamespace d => VNamespace (map (fun kx => (fst kx, shrink (snd kx))) d)
    | VNT c fs => VNT c (map (fun kx => (fst kx, shrink (snd kx))) fs)
    | VObj c fs => VObj c (forget c (map (fun kx => (fst kx, shrink (snd kx))) fs))
    | VEnum c m x => VEnum c m (shrink x)
    | VInst c x => VInst c (shrink x)
    | _ => v
    end.
  Definition shrinkf (kx : string * value) : string * value := (fst kx, shrink (snd kx)).
  Definition shrinks (kx : value * value) : value * value := (shrink (fst kx), shrink (snd kx)).

  (** nothing but the objects in the default changes *)
  Record old_field (f f' : field) : Prop := mkOldField {
    of_name : f_name f' = f_name f;
    of_type : f_type f' = f_type f;
    of_init : f_init f' = f_init f;
    of_meta : f_meta f' = f_meta f;
    of_conv : f_conv f' = f_conv f;
    of_default : forall sofar, default_of (f_default f) (map shrinkf sofar) = option_map shrink (default_of (f_default f') sofar)
  }.
  (** the new version of the class [c] has the fields [fs], and the new ones after them *)
  Definition fewer_fields (c : cid) (fs fs' : option (list field)) : Prop :=
    match fs, fs' with
    | Some l, Some l' => exists l0, Forall2 old_field l l0 /\ l' = l0 ++ new c
    | None, None => True
    | _, _ => False
    end.
  (** the new fields have other names *)
  Definition other_names (fs gs : list field) : Prop :=
    forall f g, In f fs -> In g gs ->
    f_name f <> f_name g /\ strip_underscore (f_name f) <> f_name g /\ f_name f <> strip_underscore (f_name g).

  (** [w] is the old version of the program [w'] *)
  Record older (w w' : world) : Prop := mkOlder {
    ol_bases : forall c, ci_bases (class_of w' c) = ci_bases (class_of w c);
    ol_enum : forall c, ci_enum (class_of w' c) = ci_enum (class_of w c);
    ol_members : forall c ms n x, ci_enum (class_of w c) = Some ms -> In (n, x) ms -> shrink x = x;
    ol_nt : forall c, ci_nt (class_of w c) =
      option_map (map (fun kd => (fst kd, option_map shrink (snd kd)))) (ci_nt (class_of w' c));
    ol_dc : forall c, fewer_fields c (ci_dc (class_of w c)) (ci_dc (class_of w' c));
    ol_attrs : forall c, fewer_fields c (ci_attrs (class_of w c)) (ci_attrs (class_of w' c));
    ol_td : forall c, ci_td (class_of w' c) = ci_td (class_of w c);
    ol_ann : forall c, new c = [] -> ci_ann (class_of w' c) = ci_ann (class_of w c);
    ol_hash : forall c, ci_hash (class_of w' c) = ci_hash (class_of w c);
    ol_hints : forall c l', ci_hints (class_of w' c) = POk l' ->
      exists l, ci_hints (class_of w c) = POk l /\ l' = l ++ map (fun f => (f_name f, f_type f)) (new c);
    ol_hints_exc : forall c r, ci_hints (class_of w' c) = PExc r -> exists r', ci_hints (class_of w c) = PExc r';
    (* __post_init__ and the validators of the old version accept what those of the new one do *)
    ol_post : forall c fs fs', ci_post (class_of w' c) fs = POk fs' ->
      ci_post (class_of w c) (forget c (map shrinkf fs)) = POk (forget c (map shrinkf fs'));
    (* only dataclasses and attrs classes have got new fields *)
    ol_kind : forall c, new c <> [] -> ci_nt (class_of w c) = None /\ ci_td (class_of w c) = None /\ ci_enum (class_of w c) = None /\
      (ci_dc (class_of w c) <> None \/ ci_attrs (class_of w c) <> None);
    ol_new : forall c fs, ci_dc (class_of w c) = Some fs \/ ci_attrs (class_of w c) = Some fs -> other_names (new c) fs;
    (* the other classes, of the library, do the same with the data *)
    ol_call : forall t v r, shrink v = v -> w_call w' t v = POk r -> w_call w t v = POk r /\ shrink r = r;
    ol_iso : forall c x r, w_fromiso w' c x = POk r -> w_fromiso w c x = POk r /\ shrink r = r;
    ol_args : forall c l r, map shrink l = l -> w_callargs w' c l = POk r -> w_callargs w c l = POk r /\ shrink r = r;
    ol_timedelta : forall v r, shrink v = v -> w_timedelta w' v = POk r -> w_timedelta w v = POk r /\ shrink r = r;
    ol_compile : forall v r, shrink v = v -> w_compile w' v = POk r -> w_compile w v = POk r /\ shrink r = r
  }.

  (** the items of sets, the keys of dictionaries and what the annotations of Enums
      give are not objects with new fields: without them, two of them could be equal *)
  Record apart (w' : world) (basic strcons : list cid) (cfg' : config) (env : string -> option ty) (data : value) (T : ty) : Prop := mkApart {
    ap_set : forall n o et rest x r, o = OSet \/ o = OFrozen ->
      reach w' (pep563 cfg') env T (TGen n o (Some (et :: rest))) -> inside data x ->
      gives w' basic strcons cfg' env (fun _ => False) x et r -> shrink r = r;
    ap_key : forall n kt vt x r,
      reach w' (pep563 cfg') env T (TGen n ODict (Some [kt; vt])) -> inside data x ->
      gives w' basic strcons cfg' env (fun _ => False) x kt r -> shrink r = r;
    ap_enum : forall c ms hints n t x r,
      reach w' (pep563 cfg') env T (TClass c) -> ci_enum (class_of w' c) = Some ms -> ci_hints (class_of w' c) = POk hints -> In (n, t) hints ->
      inside data x -> gives w' basic strcons cfg' env (fun _ => False) x t r -> shrink r = r
  }.
End Shrink.

(** ** The readings of new data in the old program *)
Section Rollback.
  Variable new : cid -> list field.
  Notation shrink := (shrink new).
  Notation shrinkf := (shrinkf new).
  Notation shrinks := (shrinks new).
  Notation forget := (forget new).
  Variables w w' : world.
  Hypothesis Ol : older new w w'.
  Variables basic strcons : list cid.
  Variables cfg cfg' : config.
  Hypothesis Hstd : is_std w basic strcons cfg.
  Hypothesis Hstd' : is_std w' basic strcons cfg'.
  Hypothesis Same : equal_settings cfg cfg'.
  Hypothesis Fe : failonextra cfg = false.
  Variable env : string -> option ty.
  Variable data : value.
  Hypothesis Data : shrink data = data.
  Variable T : ty.
  Hypothesis Ap : apart new w' basic strcons cfg' env data T.

  Lemma rb_pep : pep563 cfg' = pep563 cfg. Proof using Same. apply Same. Qed.
  Lemma rb_mangle : mangle_key cfg' = mangle_key cfg. Proof using Same. apply Same. Qed.
  Lemma rb_external b f : external cfg b f = external cfg' b f.
  Proof using Same. unfold external, given_name. rewrite rb_mangle. reflexivity. Qed.

  Lemma rb_mro c : mro w' c = mro w c.
  Proof using Ol. destruct c; try reflexivity. cbn [mro]. f_equal. apply (ol_bases _ _ _ Ol (CUser _)). Qed.
  Lemma rb_isinstance v c : isinstance w' v c = isinstance w v c.
  Proof using Ol. unfold isinstance. rewrite rb_mro. reflexivity. Qed.
  Lemma rb_kept t x : kept w basic t x <-> kept w' basic t x.
  Proof using Ol. unfold kept. split; intros [c H]; exists c; [rewrite rb_isinstance|rewrite <- rb_isinstance]; exact H. Qed.
  Lemma rb_hashable v : hashable w v = hashable w' v.
  Proof using Ol.
    induction v as [|b|z|f|s|s|l F|l F|l F|l F|d F|d F|c d F|c d F|c m v IH|c v IH] using value_ind'; try reflexivity.
    - cbn [hashable]. induction F as [|x l Hx _ IH]; [reflexivity|]. cbn [forallb]. rewrite Hx, IH. reflexivity.
    - cbn [hashable]. induction F as [|[k x] l Hx _ IH]; [reflexivity|]. cbn [forallb fst snd] in *. rewrite Hx, IH. reflexivity.
    - cbn [hashable]. symmetry. apply (ol_hash _ _ _ Ol).
  Qed.

  (** kinds *)
  Lemma rb_no_nt c fs : ci_nt (class_of w c) = Some fs -> new c = [].
  Proof using Ol. intro E. destruct (new c) eqn:N; [reflexivity|]. destruct (ol_kind _ _ _ Ol c) as [H _]; congruence. Qed.
  Lemma rb_no_td c fs : ci_td (class_of w c) = Some fs -> new c = [].
  Proof using Ol. intro E. destruct (new c) eqn:N; [reflexivity|]. destruct (ol_kind _ _ _ Ol c) as [_ [H _]]; congruence. Qed.
  Lemma rb_no_enum c ms : ci_enum (class_of w c) = Some ms -> new c = [].
  Proof using Ol. intro E. destruct (new c) eqn:N; [reflexivity|]. destruct (ol_kind _ _ _ Ol c) as [_ [_ [H _]]]; congruence. Qed.
  Definition rb_rel (c : cid) (k k' : option kind) : Prop :=
    match k, k' with
    | None, None => new c = []
    | Some (KNT fs), Some (KNT fs') => fs = map (fun kd => (fst kd, option_map shrink (snd kd))) fs' /\ new c = []
    | Some (KDC fs), Some (KDC fs') | Some (KAT fs), Some (KAT fs') =>
        (exists l0, Forall2 (old_field new) fs l0 /\ fs' = l0 ++ new c) /\ other_names (new c) fs
    | Some (KTD r), Some (KTD r') => r' = r /\ new c = []
    | _, _ => False
    end.
  Lemma rb_kind c : rb_rel c (kind_of_class w c) (kind_of_class w' c).
  Proof using Ol.
    unfold kind_of_class. rewrite (ol_td _ _ _ Ol). pose proof (ol_nt _ _ _ Ol c) as Nt.
    destruct (ci_nt (class_of w c)) as [fs|] eqn:E1, (ci_nt (class_of w' c)) as [fs'|]; cbn [option_map] in Nt; try discriminate Nt.
    { injection Nt as ->. split; [reflexivity|]. eapply rb_no_nt. exact E1. }
    pose proof (ol_dc _ _ _ Ol c) as D. destruct (ci_dc (class_of w c)) as [fs|] eqn:E2, (ci_dc (class_of w' c)) as [fs'|]; cbn [fewer_fields] in D; try contradiction.
    { split; [exact D|]. apply (ol_new _ _ _ Ol c fs). left. exact E2. }
    pose proof (ol_attrs _ _ _ Ol c) as A. destruct (ci_attrs (class_of w c)) as [fs|] eqn:E3, (ci_attrs (class_of w' c)) as [fs'|]; cbn [fewer_fields] in A; try contradiction.
    { split; [exact A|]. apply (ol_new _ _ _ Ol c fs). right. exact E3. }
    destruct (ci_td (class_of w c)) as [r|] eqn:E4; [split; [reflexivity|]; eapply rb_no_td; exact E4|].
    cbn [rb_rel]. destruct (new c) eqn:Q; [reflexivity|]. destruct (ol_kind _ _ _ Ol c) as [_ [_ [_ [H|H]]]]; congruence.
  Qed.
  Lemma rb_other c : other_class w' basic c -> other_class w basic c.
  Proof using Ol.
    intros [N [E [Nt [D Td]]]]. split; [exact N|]. rewrite (ol_enum _ _ _ Ol) in E. rewrite (ol_td _ _ _ Ol) in Td.
    rewrite (ol_nt _ _ _ Ol), Nt. repeat split; auto.
    pose proof (ol_dc _ _ _ Ol c) as X. rewrite D in X. destruct (ci_dc (class_of w c)); [contradiction|reflexivity].
  Qed.
  Lemma rb_object c : object_class w' basic strcons c -> object_class w basic strcons c.
  Proof using Ol.
    intros [N [E K]]. split; [exact N|]. rewrite (ol_enum _ _ _ Ol) in E. split; [exact E|].
    pose proof (rb_kind c) as R. destruct (kind_of_class w c) as [[]|], (kind_of_class w' c) as [[]|]; try contradiction; auto.
  Qed.
  Lemma rb_find t : find_handler cfg' t = find_handler cfg t.
  Proof using Hstd Hstd' Ol.
    rewrite (find_std w basic strcons cfg t Hstd), (find_std w' basic strcons cfg' t Hstd'). unfold chain.
    assert (X : is_enum w' t = is_enum w t /\ is_namedtuple w' t = is_namedtuple w t /\ is_dataclass w' t = is_dataclass w t /\
                is_typeddict w' t = is_typeddict w t /\ is_attrs w' t = is_attrs w t).
    { destruct t as [c| | | | | | | ]; repeat split.
      - unfold is_enum. rewrite (ol_enum _ _ _ Ol). reflexivity.
      - unfold is_namedtuple. rewrite (ol_nt _ _ _ Ol). destruct (ci_nt (class_of w' c)); reflexivity.
      - unfold is_dataclass. pose proof (ol_dc _ _ _ Ol c) as D. destruct (ci_dc (class_of w c)), (ci_dc (class_of w' c)); (contradiction || reflexivity).
      - unfold is_typeddict. rewrite (ol_td _ _ _ Ol). destruct (ci_td (class_of w c)); reflexivity.
      - unfold is_attrs. pose proof (ol_attrs _ _ _ Ol c) as D. destruct (ci_attrs (class_of w c)), (ci_attrs (class_of w' c)); (contradiction || reflexivity). }
    destruct X as [-> [-> [-> [-> ->]]]]. reflexivity.
  Qed.
  Lemma rb_supported t : supported cfg' t -> supported cfg t.
  Proof using Hstd Hstd' Ol. rewrite !supported_find, rb_find. auto. Qed.

  (** fields *)
  Definition is_new (c : cid) (k : string) : bool := mem_str k (map f_name (new c)).
  Lemma rb_hints c l : ci_hints (class_of w' c) = POk l -> new c = [] -> ci_hints (class_of w c) = POk l.
  Proof using Ol. intros E N. destruct (ol_hints _ _ _ Ol c l E) as [l0 [E0 ->]]. rewrite N in *. cbn [map]. rewrite app_nil_r. exact E0. Qed.
  Lemma rb_declared_same c as_written : new c = [] -> declared_types w (pep563 cfg) c as_written = declared_types w' (pep563 cfg') c as_written.
  Proof using Ol Same.
    intro N. unfold declared_types. rewrite rb_pep. destruct (pep563 cfg); [|reflexivity].
    destruct (ci_hints (class_of w' c)) as [l|r] eqn:E; [rewrite (rb_hints c l E N); reflexivity|].
    destruct (ol_hints_exc _ _ _ Ol c r E) as [r' ->]. reflexivity.
  Qed.
  Lemma get_left {A} k (l l' : list (string * A)) : ~ In k (map fst l') -> str_get k (l ++ l') = str_get k l.
  Proof using.
    intro N. induction l as [|[k' y] l IH].
    - cbn [app]. induction l' as [|[k' y] l' IH]; [reflexivity|]. cbn [str_get]. destruct (String.eqb k k') eqn:E.
      + apply String.eqb_eq in E. subst k'. destruct N. left. reflexivity.
      + apply IH. intro I. apply N. right. exact I.
    - cbn [app str_get]. destruct (String.eqb k k'); [reflexivity|exact IH].
  Qed.
  Lemma not_new c k : is_new c k = false -> ~ In k (map f_name (new c)).
  Proof using. intros E I. apply mem_str_In in I. unfold is_new in E. congruence. Qed.
  Lemma rb_declared c f t : is_new c f = false -> resolvable w' cfg' c ->
    str_get f (declared w' (pep563 cfg') c) = Some t -> str_get f (declared w (pep563 cfg) c) = Some t.
  Proof using Ol Same.
    intros Nn Rs H. apply not_new in Nn. unfold declared, resolvable in *. pose proof (rb_kind c) as R.
    destruct (kind_of_class w c) as [[fs|fs|fs|r]|], (kind_of_class w' c) as [[fs'|fs'|fs'|r']|]; cbn [rb_rel] in R; try contradiction.
    - destruct R as [_ N]. rewrite rb_declared_same by exact N. rewrite <- (ol_ann _ _ _ Ol c N). exact H.
    - destruct R as [[l0 [F ->]] _]. unfold declared_types in *. rewrite rb_pep in *. destruct (pep563 cfg).
      + destruct (Rs eq_refl) as [l' E]. rewrite E in H. destruct (ol_hints _ _ _ Ol c l' E) as [l [-> ->]].
        rewrite get_left in H; [exact H|]. rewrite map_map. exact Nn.
      + rewrite map_app, get_left in H by (rewrite map_map; exact Nn). rewrite <- H. f_equal.
        clear - F. induction F as [|f0 f1 fs l0 S _ IH]; [reflexivity|]. cbn [map]. rewrite (of_name _ _ _ S), (of_type _ _ _ S), IH. reflexivity.
    - destruct R as [[l0 [F ->]] _]. rewrite map_app, get_left in H by (rewrite map_map; exact Nn). rewrite <- H. f_equal.
      clear - F. induction F as [|f0 f1 fs l0 S _ IH]; [reflexivity|].
      assert (A : attr_type f1 = attr_type f0) by (unfold attr_type; rewrite (of_type _ _ _ S), (of_conv _ _ _ S); reflexivity).
      cbn [map]. rewrite (of_name _ _ _ S), A, IH. reflexivity.
    - destruct R as [-> N]. rewrite rb_declared_same by exact N. rewrite <- (ol_ann _ _ _ Ol c N). exact H.
    - discriminate.
  Qed.
  Lemma old_obj_fields b fs l0 : Forall2 (old_field new) fs l0 ->
    map (fun f => (f_name f, external cfg' b f)) l0 = map (fun f => (f_name f, external cfg b f)) fs.
  Proof using Same.
    intro F. induction F as [|f0 f1 fs l0 S _ IH]; [reflexivity|]. cbn [map]. rewrite IH. f_equal.
    unfold external, given_name. rewrite rb_mangle, (of_name _ _ _ S), (of_meta _ _ _ S). reflexivity.
  Qed.
  Lemma rb_fields c : exists b, obj_fields w' cfg' c = obj_fields w cfg c ++ map (fun f => (f_name f, external cfg' b f)) (new c).
  Proof using Ol Same.
    unfold obj_fields. pose proof (rb_kind c) as R. unfold declared.
    destruct (kind_of_class w c) as [[fs|fs|fs|r]|] eqn:K, (kind_of_class w' c) as [[fs'|fs'|fs'|r']|]; cbn [rb_rel] in R; try contradiction.
    - destruct R as [_ N]. exists false. rewrite N, rb_declared_same, (ol_ann _ _ _ Ol) by exact N. cbn [map]. rewrite app_nil_r. reflexivity.
    - destruct R as [[l0 [F ->]] _]. exists false. rewrite map_app, (old_obj_fields _ _ _ F). reflexivity.
    - destruct R as [[l0 [F ->]] _]. exists true. rewrite map_app, (old_obj_fields _ _ _ F). reflexivity.
    - destruct R as [_ N]. exists false. rewrite N, rb_declared_same, (ol_ann _ _ _ Ol) by exact N. cbn [map]. rewrite app_nil_r. reflexivity.
    - exists false. rewrite R. reflexivity.
  Qed.
  Lemma rb_old_name c k : In k (map fst (obj_fields w cfg c)) -> is_new c k = false.
  Proof using Ol Same.
    intro I. apply not_true_is_false. intro N. unfold is_new in N. apply mem_str_In in N. apply in_map_iff in N as [f [<- If]].
    unfold obj_fields in I. pose proof (rb_kind c) as R.
    destruct (kind_of_class w c) as [[fs|fs|fs|r]|], (kind_of_class w' c) as [[fs'|fs'|fs'|r']|]; cbn [rb_rel] in R; try contradiction.
    1,4: destruct R as [_ R]; rewrite R in If; destruct If.
    3: rewrite R in If; destruct If.
    all: destruct R as [_ R]; rewrite map_map in I; cbn [fst] in I; apply in_map_iff in I as [g [E Ig]]; destruct (R f g If Ig) as [X _]; congruence.
  Qed.
  (** a key is the key of the same field, or of a new one *)
  Lemma rb_field_of c k : field_of w cfg c k = match field_of w' cfg' c k with Some f => if is_new c f then None else Some f | None => None end.
  Proof using Ol Same.
    unfold field_of. destruct k; try reflexivity. destruct (rb_fields c) as [b ->]. rewrite map_app, !map_map. cbn [fst snd].
    assert (X : forall l, (forall k, In k (map fst l) -> is_new c k = false) ->
      str_get s (map (fun fe : string * string => (snd fe, fst fe)) l) =
      match str_get s (map (fun fe => (snd fe, fst fe)) l ++ map (fun f => (external cfg' b f, f_name f)) (new c)) with
      | Some f => if is_new c f then None else Some f | None => None end); [|apply X; apply rb_old_name].
    intros l Hl. induction l as [|[n e] l IH].
    - cbn [map app str_get].
      assert (Y : forall fs, (forall f, In f fs -> is_new c (f_name f) = true) ->
        None = match str_get s (map (fun f => (external cfg' b f, f_name f)) fs) with Some f => if is_new c f then None else Some f | None => None end).
      { induction fs as [|f fs IHf]; intro Hf; [reflexivity|]. cbn [map str_get]. destruct (String.eqb s (external cfg' b f)).
        - rewrite (Hf f) by (left; reflexivity). reflexivity.
        - apply IHf. intros g Ig. apply Hf. right. exact Ig. }
      apply Y. intros f If. unfold is_new. apply mem_str_In. apply in_map. exact If.
    - cbn [map app str_get fst snd]. destruct (String.eqb s e).
      + rewrite (Hl n) by (left; reflexivity). reflexivity.
      + apply IH. intros k Ik. apply Hl. right. exact Ik.
  Qed.
  Lemma rb_given c d : given w cfg c d = filter (fun kx => negb (is_new c (fst kx))) (given w' cfg' c d).
  Proof using Ol Same.
    unfold given. induction d as [|[k x] d IH]; [reflexivity|]. cbn [flat_map fst snd]. rewrite rb_field_of, IH.
    destruct (field_of w' cfg' c k) as [f|]; [|reflexivity]. cbn [app filter fst]. destruct (is_new c f); reflexivity.
  Qed.
  Definition needed (f : field) : bool := f_init f && match f_default f with DNo => true | _ => false end.
  Lemma needed_old fs l0 : Forall2 (old_field new) fs l0 -> Forall2 (old_field new) (filter needed fs) (filter needed l0).
  Proof using.
    intro F. induction F as [|f0 f1 fs l0 S _ IH]; [constructor|]. cbn [filter].
    assert (E : match f_default f1 with DNo => true | _ => false end = match f_default f0 with DNo => true | _ => false end).
    { pose proof (of_default _ _ _ S []) as D. cbn [map] in D. destruct (f_default f0), (f_default f1); (reflexivity || discriminate D). }
    assert (Q : needed f1 = needed f0) by (unfold needed; rewrite (of_init _ _ _ S), E; reflexivity).
    rewrite Q. destruct (needed f0); [constructor; assumption|exact IH].
  Qed.
  Lemma rb_required c e : In e (required_names w cfg c) -> In e (required_names w' cfg' c).
  Proof using Ol Same.
    unfold required_names, obj_required. pose proof (rb_kind c) as R. unfold declared.
    assert (X : forall b fs l0, Forall2 (old_field new) fs l0 -> In e (map (external cfg b) (filter needed fs)) -> In e (map (external cfg' b) (filter needed (l0 ++ new c)))).
    { intros b fs l0 F I. rewrite filter_app, map_app. apply in_or_app. left. apply needed_old in F.
      apply old_obj_fields with (b := b) in F. apply (f_equal (map snd)) in F. rewrite !map_map in F. cbn [snd] in F.
      change (map (fun x => external cfg' b x) (filter needed l0)) with (map (external cfg' b) (filter needed l0)) in F. rewrite F. exact I. }
    destruct (kind_of_class w c) as [[fs|fs|fs|r]|] eqn:K, (kind_of_class w' c) as [[fs'|fs'|fs'|r']|]; cbn [rb_rel] in R; try contradiction.
    - destruct R as [-> N]. rewrite rb_declared_same, (ol_ann _ _ _ Ol) by exact N.
      assert (E : forall fs0 : list (string * option value), map fst (filter (fun f => match snd f with Some _ => true | None => false end) (map (fun kd => (fst kd, option_map shrink (snd kd))) fs0))
        = map fst (filter (fun f => match snd f with Some _ => true | None => false end) fs0)).
      { induction fs0 as [|[k [d|]] fs0 IH]; [reflexivity| |]; cbn [map filter fst snd option_map]; [f_equal|]; exact IH. }
      rewrite E. auto.
    - destruct R as [[l0 [F ->]] O]. apply (X false fs l0 F).
    - destruct R as [[l0 [F ->]] O]. apply (X true fs l0 F).
    - destruct R as [-> N]. rewrite rb_declared_same, (ol_ann _ _ _ Ol), rb_pep by exact N. auto.
  Qed.
  Lemma rb_resolvable c : resolvable w' cfg' c -> resolvable w cfg c.
  Proof using Ol Same.
    unfold resolvable. pose proof (rb_kind c) as R.
    assert (X : (pep563 cfg' = true -> exists l, ci_hints (class_of w' c) = POk l) -> pep563 cfg = true -> exists l, ci_hints (class_of w c) = POk l).
    { rewrite rb_pep. intros H Q. destruct (H Q) as [l E]. destruct (ol_hints _ _ _ Ol c l E) as [l0 [E0 _]]. exists l0. exact E0. }
    destruct (kind_of_class w c) as [[fs|fs|fs|r]|] eqn:K, (kind_of_class w' c) as [[fs'|fs'|fs'|r']|]; cbn [rb_rel] in R; try contradiction; try exact X.
    destruct R as [[l0 [F ->]] O]. intros H f hs I C.
    assert (Y : exists f1, In f1 l0 /\ f_conv f1 = f_conv f).
    { clear - F I. induction F as [|f0 f1 fs l0 S F IH]; [destruct I|]. destruct I as [<-|I].
      - exists f1. split; [left; reflexivity|apply (of_conv _ _ _ S)].
      - destruct (IH I) as [f2 [I2 E2]]. exists f2. split; [right; exact I2|exact E2]. }
    destruct Y as [f1 [I1 E1]]. apply (H f1 hs); [apply in_or_app; left; exact I1|congruence].
  Qed.
  Lemma rb_renames c : renames w' cfg' c = false -> renames w cfg c = false.
  Proof using Ol Same.
    unfold renames. pose proof (rb_kind c) as R.
    assert (X : forall b fs l0, Forall2 (old_field new) fs l0 ->
      existsb (fun f => match given_name cfg' b f with Some _ => true | None => false end) (l0 ++ new c) = false ->
      existsb (fun f => match given_name cfg b f with Some _ => true | None => false end) fs = false).
    { intros b fs l0 F. rewrite existsb_app. intro H. apply orb_false_iff in H as [H _]. refine (eq_trans _ H). clear H.
      induction F as [|f0 f1 fs l0 S _ IH]; [reflexivity|]. cbn [existsb]. rewrite IH. f_equal.
      unfold given_name. rewrite rb_mangle, (of_meta _ _ _ S). reflexivity. }
    destruct (kind_of_class w c) as [[fs|fs|fs|r]|] eqn:K, (kind_of_class w' c) as [[fs'|fs'|fs'|r']|]; cbn [rb_rel] in R; try contradiction; try reflexivity;
      destruct R as [[l0 [F ->]] _]; apply X; exact F.
  Qed.

  (** the constructor *)
  Lemma get_shrinkf k l : str_get k (map shrinkf l) = option_map shrink (str_get k l).
  Proof using. induction l as [|[k' x] l IH]; [reflexivity|]. cbn [map Rollback.shrinkf fst snd str_get]. destruct (String.eqb k k'); [reflexivity|exact IH]. Qed.
  Lemma get_forget c k l : is_new c k = false -> str_get k (forget c l) = str_get k l.
  Proof using.
    intro N. induction l as [|[k' x] l IH]; [reflexivity|]. cbn [Rollback.forget filter fst str_get].
    change (mem_str k' (map f_name (new c))) with (is_new c k'). destruct (String.eqb k k') eqn:E.
    - apply String.eqb_eq in E. subst k'. rewrite N. cbn [negb str_get]. rewrite String.eqb_refl. reflexivity.
    - destruct (is_new c k'); cbn [negb str_get]; [exact IH|]. rewrite E. exact IH.
  Qed.
  Lemma forget_none c l : new c = [] -> forget c l = l.
  Proof using. intro N. unfold Rollback.forget. rewrite N. induction l as [|a l IH]; [reflexivity|]. cbn [filter map mem_str existsb negb]. f_equal. exact IH. Qed.
  Lemma forget_app c l l' : forget c (l ++ l') = forget c l ++ forget c l'.
  Proof using. apply filter_app. Qed.
  Lemma forget_old c l : (forall k, In k (map fst l) -> is_new c k = false) -> forget c l = l.
  Proof using.
    intro H. induction l as [|[k x] l IH]; [reflexivity|]. cbn [Rollback.forget filter fst]. change (mem_str k (map f_name (new c))) with (is_new c k).
    rewrite (H k) by (left; reflexivity). cbn [negb]. f_equal. apply IH. intros k' I. apply H. right. exact I.
  Qed.
  Lemma forget_new c l : (forall k, In k (map fst l) -> is_new c k = true) -> forget c l = [].
  Proof using.
    intro H. induction l as [|[k x] l IH]; [reflexivity|]. cbn [Rollback.forget filter fst]. change (mem_str k (map f_name (new c))) with (is_new c k).
    rewrite (H k) by (left; reflexivity). cbn [negb]. apply IH. intros k' I. apply H. right. exact I.
  Qed.
  Lemma bind_nt_shrink fs ps : bind_nt (map (fun kd => (fst kd, option_map shrink (snd kd))) fs) (map shrinkf ps) = option_map (map shrinkf) (bind_nt fs ps).
  Proof using.
    induction fs as [|[k d] fs IH]; [reflexivity|]. cbn [map bind_nt fst snd]. rewrite get_shrinkf, IH.
    destruct (str_get k ps), d; cbn [option_map]; try reflexivity; destruct (bind_nt fs ps); reflexivity.
  Qed.
  Lemma bind_shrink an c fs l0 ps : Forall2 (old_field new) fs l0 -> (forall g, In g fs -> is_new c (an (f_name g)) = false) ->
    forall more sofar vals, bind_fields an (l0 ++ more) ps sofar = Some vals ->
    exists vals0, bind_fields an fs (forget c (map shrinkf ps)) (map shrinkf sofar) = Some (map shrinkf vals0) /\ bind_fields an more ps vals0 = Some vals.
  Proof using.
    intro F. induction F as [|f0 f1 fs l0 Sf _ IH]; intros N more sofar vals B; [exists sofar; split; [reflexivity|exact B]|].
    cbn [app bind_fields] in *. rewrite (of_init _ _ _ Sf), (of_name _ _ _ Sf) in B.
    rewrite get_forget by (apply N; left; reflexivity). rewrite get_shrinkf, (of_default _ _ _ Sf).
    assert (N' : forall g, In g fs -> is_new c (an (f_name g)) = false) by (intros g I; apply N; right; exact I).
    assert (X : forall x, bind_fields an (l0 ++ more) ps (sofar ++ [(f_name f0, x)]) = Some vals ->
      exists vals0, bind_fields an fs (forget c (map shrinkf ps)) (map shrinkf sofar ++ [(f_name f0, shrink x)]) = Some (map shrinkf vals0) /\ bind_fields an more ps vals0 = Some vals).
    { intros x Bx. destruct (IH N' _ _ _ Bx) as [v0 [E1 E2]]. exists v0. split; [|exact E2]. rewrite map_app in E1. exact E1. }
    destruct (f_init f0); [destruct (str_get _ ps) as [x|]; cbn [option_map]; [apply X; exact B|]|];
      (destruct (default_of (f_default f1) sofar) as [x|]; cbn [option_map]; [apply X; exact B|]); [discriminate B|apply (IH N'); exact B].
  Qed.
  Lemma bind_names an fs ps : forall sofar vals, bind_fields an fs ps sofar = Some vals ->
    exists more, vals = sofar ++ more /\ incl (map fst more) (map f_name fs).
  Proof using.
    induction fs as [|f fs IH]; intros sofar vals B; cbn [bind_fields] in B.
    - injection B as <-. exists []. rewrite app_nil_r. split; [reflexivity|apply incl_refl].
    - assert (X : forall x, bind_fields an fs ps (sofar ++ [(f_name f, x)]) = Some vals -> exists more, vals = sofar ++ more /\ incl (map fst more) (map f_name (f :: fs))).
      { intros x Bx. destruct (IH _ _ Bx) as [m [-> I]]. exists ((f_name f, x) :: m). split; [rewrite <- app_assoc; reflexivity|].
        cbn [map fst]. intros k [<-|J]; [left; reflexivity|right; apply I; exact J]. }
      destruct (f_init f); [destruct (str_get _ ps); [apply (X _ B)|]|]; (destruct (default_of _ sofar); [apply (X _ B)|]); [discriminate B|].
      destruct (IH _ _ B) as [m [-> I]]. exists m. split; [reflexivity|]. intros k J. right. apply I. exact J.
  Qed.
  Lemma old_args (an : string -> string) fs l0 : Forall2 (old_field new) fs l0 ->
    map (fun f => an (f_name f)) (filter f_init l0) = map (fun f => an (f_name f)) (filter f_init fs).
  Proof using.
    intro F. induction F as [|f0 f1 fs l0 Sf _ IH]; [reflexivity|]. cbn [filter]. rewrite (of_init _ _ _ Sf).
    destruct (f_init f0); [|exact IH]. cbn [map]. rewrite (of_name _ _ _ Sf), IH. reflexivity.
  Qed.
  Lemma is_new_in c f : In f (new c) -> is_new c (f_name f) = true.
  Proof using. intro I. unfold is_new. apply mem_str_In. apply in_map. exact I. Qed.
  Lemma unexpected_in allowed ps : unexpected allowed ps = false <-> forall k, In k (map fst ps) -> In k allowed.
  Proof using.
    unfold unexpected. split.
    - intros E k I. apply in_map_iff in I as [[k0 x] [<- I]]. cbn [fst]. destruct (mem_str k0 allowed) eqn:M; [apply mem_str_In; exact M|]. exfalso.
      assert (Q : existsb (fun kv => negb (mem_str (fst kv) allowed)) ps = true); [|congruence].
      apply existsb_exists. exists (k0, x). split; [exact I|]. cbn [fst]. rewrite M. reflexivity.
    - intro H. apply not_true_is_false. intro E. apply existsb_exists in E as [[k x] [I E]]. cbn [fst] in E.
      apply (in_map fst) in I. apply H in I. apply mem_str_In in I. cbn [fst] in I. rewrite I in E. discriminate.
  Qed.
  Lemma fields_shrink an c fs l0 ps r : Forall2 (old_field new) fs l0 ->
    (forall f g, In f (new c) -> In g fs -> f_name f <> f_name g /\ an (f_name f) <> f_name g /\ f_name f <> an (f_name g)) ->
    (forall k, In k (map fst ps) -> exists g, In g (l0 ++ new c) /\ f_name g = k) ->
    construct_fields w' an c (l0 ++ new c) ps = POk r -> construct_fields w an c fs (forget c (map shrinkf ps)) = POk (shrink r).
  Proof using Ol.
    intros F Nn Ns H. unfold construct_fields in *. rewrite filter_app, map_app, (old_args an fs l0 F) in H.
    assert (Old : forall g, In g fs -> is_new c (f_name g) = false /\ is_new c (an (f_name g)) = false).
    { intros g Ig. split; apply not_true_is_false; intro Q; unfold is_new in Q; apply mem_str_In in Q; apply in_map_iff in Q as [f [E If]];
        destruct (Nn f g If Ig) as [X [_ Y]]; congruence. }
    destruct (unexpected _ ps) eqn:Un; [discriminate|]. rewrite unexpected_in in Un.
    assert (Un' : unexpected (map (fun f => an (f_name f)) (filter f_init fs)) (forget c (map shrinkf ps)) = false).
    { apply unexpected_in. intros k I. apply in_map_iff in I as [[k0 x0] [<- I]]. cbn [fst]. apply filter_In in I as [I Nk]. cbn [fst] in Nk.
      change (mem_str k0 (map f_name (new c))) with (is_new c k0) in Nk. apply negb_true_iff in Nk.
      assert (Ik : In k0 (map fst ps)) by (apply in_map_iff in I as [[k1 x1] [[= -> _] I]]; apply (in_map fst) in I; exact I).
      pose proof (Un k0 Ik) as A. apply in_app_or in A as [A|A]; [exact A|]. exfalso.
      apply in_map_iff in A as [f [Ef If]]. apply filter_In in If as [If _].
      destruct (Ns k0 Ik) as [g [Ig Eg]]. apply in_app_or in Ig as [Ig|Ig].
      - assert (Z : exists g0, In g0 fs /\ f_name g0 = f_name g).
        { clear - F Ig. induction F as [|f0 f1 fs l0 Sf F IH]; [destruct Ig|]. destruct Ig as [<-|Ig].
          - exists f0. split; [left; reflexivity|symmetry; apply (of_name _ _ _ Sf)].
          - destruct (IH Ig) as [g0 [I0 E0]]. exists g0. split; [right; exact I0|exact E0]. }
        destruct Z as [g0 [I0 E0]]. destruct (Nn f g0 If I0) as [_ [X _]]. congruence.
      - rewrite <- Eg, (is_new_in c g Ig) in Nk. discriminate. }
    rewrite Un'. destruct (bind_fields an (l0 ++ new c) ps []) as [vals|] eqn:B; [|discriminate].
    destruct (bind_shrink an c fs l0 ps F (fun g I => proj2 (Old g I)) (new c) [] vals B) as [v0 [E1 E2]].
    cbn [map] in E1. rewrite E1. destruct (ci_post (class_of w' c) vals) as [vals'|] eqn:P; [|discriminate]. injection H as <-.
    apply (ol_post _ _ _ Ol) in P. destruct (bind_names _ _ _ _ _ E2) as [m [-> Im]].
    rewrite map_app, forget_app in P. rewrite (forget_new c (map shrinkf m)), app_nil_r, forget_old in P.
    - rewrite P. reflexivity.
    - intros k I. destruct (bind_names _ _ _ _ _ E1) as [m' [E3 I3]]. cbn [app] in E3. rewrite E3 in I. apply I3 in I.
      apply in_map_iff in I as [g [<- Ig]]. apply Old. exact Ig.
    - intros k I. rewrite map_map in I. cbn [Rollback.shrinkf fst] in I. apply Im in I. apply in_map_iff in I as [f [<- If]]. apply is_new_in. exact If.
  Qed.
  Lemma rb_construct c ps r : (forall k, In k (map fst ps) -> In k (map fst (obj_fields w' cfg' c))) ->
    construct w' (TClass c) ps = POk r -> construct w (TClass c) (forget c (map shrinkf ps)) = POk (shrink r).
  Proof using Ol.
    intros Ns H. pose proof (rb_kind c) as R. cbn [construct] in *. cbv zeta in *. unfold obj_fields in Ns. unfold kind_of_class in R, Ns.
    rewrite (ol_td _ _ _ Ol) in *. rewrite (ol_nt _ _ _ Ol) in *.
    destruct (ci_nt (class_of w' c)) as [fs|] eqn:E1; cbn [option_map] in *.
    { destruct R as [_ N]. rewrite forget_none by exact N. destruct (unexpected (map fst fs) ps) eqn:Un; [discriminate|].
      replace (map fst (map (fun kd => (fst kd, option_map shrink (snd kd))) fs)) with (map fst fs) by (rewrite map_map; reflexivity).
      assert (Un' : unexpected (map fst fs) (map shrinkf ps) = false).
      { apply unexpected_in. intros k I. rewrite map_map in I. cbn [Rollback.shrinkf fst] in I. rewrite unexpected_in in Un. apply Un. exact I. }
      rewrite Un', bind_nt_shrink. destruct (bind_nt fs ps) as [l|]; [|discriminate]. injection H as <-. reflexivity. }
    destruct (ci_dc (class_of w c)) as [fs|] eqn:E2, (ci_dc (class_of w' c)) as [fs'|]; cbn [rb_rel] in R; try contradiction; try (destruct R as [[l0 [F ->]] O]).
    { refine (fields_shrink (fun s => s) c fs l0 ps r F _ _ H).
      - intros f g If Ig. destruct (O f g If Ig) as [X _]. auto.
      - intros k Ik. apply Ns in Ik. rewrite map_map in Ik. cbn [fst] in Ik. apply in_map_iff in Ik as [g [Eg Ig]]. exists g. auto. }
    1-2: exfalso; destruct (ci_attrs (class_of w c)), (ci_attrs (class_of w' c)), (ci_td (class_of w c)); cbn [rb_rel] in R; contradiction.
    destruct (ci_attrs (class_of w c)) as [fs|] eqn:E3, (ci_attrs (class_of w' c)) as [fs'|]; cbn [rb_rel] in R; try contradiction; try (destruct R as [[l0 [F ->]] O]).
    { refine (fields_shrink strip_underscore c fs l0 ps r F O _ H).
      intros k Ik. apply Ns in Ik. rewrite map_map in Ik. cbn [fst] in Ik. apply in_map_iff in Ik as [g [Eg Ig]]. exists g. auto. }
    1-2: exfalso; destruct (ci_td (class_of w c)); cbn [rb_rel] in R; contradiction.
    destruct (ci_td (class_of w c)) as [rq|] eqn:E4; cbn [rb_rel] in R; [|discriminate]. destruct R as [_ N]. rewrite forget_none by exact N.
    injection H as <-. cbn [Rollback.shrink]. rewrite !map_map. reflexivity.
  Qed.

  (** sets and dictionaries *)
  Lemma shrink_same_map l : (forall x, In x l -> shrink x = x) -> map shrink l = l.
  Proof using. intro H. induction l as [|x l IH]; [reflexivity|]. cbn [map]. rewrite H by (left; reflexivity). f_equal. apply IH. intros y I. apply H. right. exact I. Qed.
  Lemma set_of_in l x : In x (set_of l) -> In x l.
  Proof using.
    unfold set_of. assert (X : forall acc, In x (fold_left (fun acc0 x0 => set_add x0 acc0) l acc) -> In x acc \/ In x l).
    { induction l as [|y l IH]; intros acc I; [left; exact I|]. cbn [fold_left] in I. destruct (IH _ I) as [J|J]; [|right; right; exact J].
      unfold set_add in J. destruct (py_in y acc); [left; exact J|]. apply in_app_or in J as [J|[<-|[]]]; [left; exact J|right; left; reflexivity]. }
    intro I. destruct (X [] I) as [[]|J]; exact J.
  Qed.
  Lemma dict_set_shrink k x d : shrink k = k -> (forall k', In k' (map fst d) -> shrink k' = k') ->
    dict_set k (shrink x) (map shrinks d) = map shrinks (dict_set k x d) /\ (forall k', In k' (map fst (dict_set k x d)) -> shrink k' = k').
  Proof using.
    intro K. induction d as [|[k' y] d IH]; intro H; cbn [map dict_set fst snd].
    - unfold Rollback.shrinks. cbn [fst snd]. rewrite K. split; [reflexivity|]. intros k' [<-|[]]. exact K.
    - assert (Hk : shrink k' = k') by (apply H; left; reflexivity). assert (Hs : forall z, shrinks (k', z) = (k', shrink z)) by (intro z; unfold Rollback.shrinks; cbn [fst snd]; rewrite Hk; reflexivity).
      rewrite Hs. destruct IH as [E I]; [intros q J; apply H; right; exact J|].
      destruct (py_eqb k k'); cbn [map fst snd]; rewrite Hs; (split; [|intros q [<-|J]; [exact Hk|]]).
      + reflexivity.
      + apply H. right. exact J.
      + f_equal. exact E.
      + apply I. exact J.
  Qed.
  Lemma dict_of_shrink kvs : (forall k, In k (map fst kvs) -> shrink k = k) -> dict_of (map shrinks kvs) = map shrinks (dict_of kvs).
  Proof using.
    unfold dict_of. intro H.
    assert (X : forall acc, (forall k, In k (map fst acc) -> shrink k = k) ->
      fold_left (fun acc kv => dict_set (fst kv) (snd kv) acc) (map shrinks kvs) (map shrinks acc) = map shrinks (fold_left (fun acc kv => dict_set (fst kv) (snd kv) acc) kvs acc)).
    { induction kvs as [|[k x] l IH]; intros acc Ha; [reflexivity|]. cbn [map fold_left]. cbn [Rollback.shrinks fst snd].
      assert (Hk : shrink k = k) by (apply H; left; reflexivity). rewrite Hk.
      destruct (dict_set_shrink k x acc Hk Ha) as [E I]. rewrite E. apply IH; [|exact I]. intros q J. apply H. right. exact J. }
    apply (X []). intros k [].
  Qed.

  (** the data *)
  Lemma map_fix {A} (f : A -> A) l x : map f l = l -> In x l -> f x = x.
  Proof using. induction l as [|y l IH]; intros E I; [destruct I|]. injection E as E1 E2. destruct I as [<-|I]; auto. Qed.
  Lemma part_shrink v x : shrink v = v -> part v x -> shrink x = x.
  Proof using.
    intros G Q. destruct Q as [v l x E I|d k x I|d k x I|d k x I].
    - destruct v; try discriminate E; cbn [iter] in E; injection E as <-; cbn [Rollback.shrink] in G; try (injection G as G; eapply map_fix; eassumption).
      + clear - I. induction s as [|a s IH]; [destruct I|]. cbn [chars] in I. destruct I as [<-|I]; [reflexivity|apply IH; exact I].
      + clear - I. induction s as [|a s IH]; [destruct I|]. cbn [bytes_of] in I. destruct I as [<-|I]; [reflexivity|apply IH; exact I].
      + injection G as G. apply in_map_iff in I as [[k y] [<- I]]. pose proof (map_fix _ _ _ G I) as E. injection E as E1 E2. exact E1.
      + injection G as G. apply in_map_iff in I as [[k y] [<- I]]. pose proof (map_fix _ _ _ G I) as E. injection E as E. exact E.
    - injection G as G. pose proof (map_fix _ _ _ G I) as E. injection E as E1 E2. exact E2.
    - reflexivity.
    - injection G as G. pose proof (map_fix _ _ _ G I) as E. injection E as E. exact E.
  Qed.
  Lemma in_part v x y : inside v x -> part x y -> inside v y.
  Proof using. intros I Q. induction I as [x|x z u Q' I IH]; [eapply rt1n_trans; [exact Q|apply rt1n_refl]|]. eapply rt1n_trans; [exact Q'|exact (IH Q)]. Qed.
  Notation here := (inside data).
  Lemma here_shrink v : here v -> shrink v = v.
  Proof using Data. intro H. clear Ap. revert Data. induction H as [x|x y z Q H IH]; intro G; [exact G|]. apply IH. eapply part_shrink; eassumption. Qed.
  Lemma at_item v l x : here v -> elements v l -> In x l -> here x.
  Proof using. intros H [_ E] I. eapply in_part; [exact H|]. eapply part_item; eassumption. Qed.
  Lemma at_dict c v d k x : here v -> dict_items c v d -> In (k, x) d -> here k /\ here x.
  Proof using.
    intros H [->|[_ [a [-> ->]]]] I.
    - split; (eapply in_part; [exact H|]); [|eapply part_value; exact I]. eapply part_item; [reflexivity|]. apply (in_map fst) in I. exact I.
    - apply in_map_iff in I as [[k0 x0] [[= <- <-] I]]. split; (eapply in_part; [exact H|]); [eapply part_ns_key|eapply part_ns_value]; exact I.
  Qed.
  Lemma rb_items v d : dict_items cfg' v d -> dict_items cfg v d.
  Proof using Same. unfold dict_items. destruct Same as [_ [_ [-> _]]]. auto. Qed.

  Lemma member_shrink c ms v r : shrink v = v -> ci_enum (class_of w c) = Some ms -> member_for c ms v r -> shrink r = r.
  Proof using Ol.
    intros G E [[Te ->]|[Te [pre [n [x [post [-> [Eq [N ->]]]]]]]]]; [exact G|]. cbn [Rollback.shrink]. f_equal.
    apply (ol_members _ _ _ Ol c _ n x E). apply in_or_app. right. left. reflexivity.
  Qed.
  Lemma rb_makes t v r : shrink v = v -> makes w' t v r -> makes w t v (shrink r).
  Proof using Ol.
    intros G M. assert (X : w_call w' t v = POk r -> w_call w t v = POk (shrink r)).
    { intro E. destruct (ol_call _ _ _ Ol t v r G E) as [E' ->]. exact E'. }
    unfold makes in *. destruct t; try exact (X M). rewrite (ol_enum _ _ _ Ol) in M.
    destruct (ci_enum (class_of w c)) as [ms|] eqn:E; [|exact (X M)]. rewrite (member_shrink c ms v r G E M). exact M.
  Qed.
  Lemma in_combine_map {A B C} (f : B -> C) (l : list A) l' x y : In (x, y) (combine l (map f l')) -> exists z, y = f z /\ In (x, z) (combine l l').
  Proof using.
    revert l'. induction l as [|a l IH]; intros [|b l'] I; cbn [map combine] in I; try contradiction.
    destruct I as [[= <- <-]|I]; [exists b; split; [reflexivity|left; reflexivity]|]. destruct (IH _ I) as [z [E I']]. exists z. split; [exact E|right; exact I'].
  Qed.
  Lemma combine_filter (q : string -> bool) (l l' : list (string * value)) : map fst l' = map fst l ->
    forall a b, In (a, b) (combine (filter (fun kx => q (fst kx)) l) (filter (fun kx => q (fst kx)) l')) -> In (a, b) (combine l l').
  Proof using.
    revert l'. induction l as [|[k x] l IH]; intros [|[k' y] l'] E a b I; try discriminate; [destruct I|]. cbn [map fst] in E. injection E as -> E.
    cbn [filter fst] in I. destruct (q k); cbn [combine] in *; [destruct I as [I|I]; [left; exact I|right]|right]; apply IH; assumption.
  Qed.
  Lemma kept_cases t x : kept w' basic t x \/ ~ kept w' basic t x.
  Proof using.
    unfold kept. destruct t as [c| | | | | | | ]; try (right; intros [c0 [E _]]; discriminate E).
    destruct (mem_cid c basic) eqn:B; [|right; intros [c0 [[= <-] [I _]]]; apply mem_cid_In in I; congruence].
    destruct (isinstance w' x c) eqn:I; [|right; intros [c0 [[= <-] [_ J]]]; congruence].
    left. exists c. split; [reflexivity|]. split; [apply mem_cid_In; exact B|exact I].
  Qed.

  Notation reached := (reach w' (pep563 cfg') env T).
  Theorem gives_shrink :
    (forall v t r, gives w' basic strcons cfg' env (fun _ => False) v t r -> here v -> reached t -> gives w basic strcons cfg env (fun _ => False) v t (shrink r)) /\
    (forall v t r, reads w' basic strcons cfg' env (fun _ => False) v t r -> here v -> reached t -> reads w basic strcons cfg env (fun _ => False) v t (shrink r)).
  Proof using Ol Hstd Hstd' Same Fe Data Ap.
    assert (Fe' : failonextra cfg' = false) by (destruct Same as [_ [-> _]]; exact Fe).
    apply (gives_reads_ind w' basic strcons cfg' env (fun _ => False)).
    - intros H Rc. apply gv_none.
    - intros v c B N Te H Rc. rewrite (here_shrink v H). apply gv_same; assumption.
    - intros v c r B N Te BC M H Rc. apply gv_cast; try assumption; [destruct Same as [<- _]; exact BC|]. apply rb_makes; [apply here_shrink; exact H|exact M].
    - intros v H Rc. rewrite (here_shrink v H). apply gv_any.
    - intros v vals I H Rc. rewrite (here_shrink v H). apply gv_literal. exact I.
    - intros k n t rest v l ys r Su El L Kp Gv IH Co H Rc.
      assert (Rt : reached t) by (eapply reach_step; [exact Rc|]; destruct k; left; reflexivity).
      apply (gv_collection w basic strcons cfg env (fun _ => False) k n t rest v l (map shrink ys)).
      + apply rb_supported. exact Su.
      + exact El.
      + rewrite map_length. exact L.
      + intros x y I K. apply in_combine_map in I as [z [-> I]]. apply rb_kept in K. rewrite (Kp x z I K).
        apply here_shrink. apply (at_item v l x H El). eapply in_combine_l. exact I.
      + intros x y I K. apply in_combine_map in I as [z [-> I]]. apply (IH x z I).
        * intro K'. apply K. apply rb_kept. exact K'.
        * apply (at_item v l x H El). eapply in_combine_l. exact I.
        * exact Rt.
      + assert (Sm : k = KoSet \/ k = KoFrozen -> map shrink ys = ys).
        { intro Hk. apply shrink_same_map. intros y Iy.
          assert (Z : exists x, In (x, y) (combine l ys)).
          { clear - L Iy. revert l L Iy. induction ys as [|y0 ys IHy]; intros [|x l] L Iy; try discriminate; [destruct Iy|].
            destruct Iy as [->|Iy]; [exists x; left; reflexivity|]. injection L as L. destruct (IHy l L Iy) as [z I]. exists z. right. exact I. }
          destruct Z as [x Ix]. assert (Hx : here x) by (apply (at_item v l x H El); eapply in_combine_l; exact Ix).
          destruct (kept_cases t x) as [K|K]; [rewrite (Kp x y Ix K); apply here_shrink; exact Hx|].
          destruct Hk as [-> | ->]; cbn [coll_type] in Rc.
          - exact (ap_set _ _ _ _ _ _ _ _ Ap n OSet t rest x y (or_introl eq_refl) Rc Hx (Gv x y Ix K)).
          - exact (ap_set _ _ _ _ _ _ _ _ Ap n OFrozen t rest x y (or_intror eq_refl) Rc Hx (Gv x y Ix K)). }
        assert (Hh : forallb (hashable w) ys = forallb (hashable w') ys).
        { clear - Ol. induction ys as [|y ys IH]; [reflexivity|]. cbn [forallb]. rewrite rb_hashable, IH. reflexivity. }
        assert (So : map shrink ys = ys -> map shrink (set_of ys) = set_of ys).
        { intro E. apply shrink_same_map. intros x Ix. apply set_of_in in Ix. eapply map_fix; eassumption. }
        unfold collect in *. destruct k; try (injection Co as <-; reflexivity); rewrite Sm by auto; rewrite Hh; destruct (forallb _ ys); try discriminate;
          injection Co as <-; cbn [Rollback.shrink]; rewrite So by auto; reflexivity.
    - intros n ts v l ys Fx El L Le Ly Gv IH H Rc.
      change (shrink (VTuple ys)) with (VTuple (map shrink ys)). eapply gv_tuple; try eassumption.
      + intro Q. congruence.
      + rewrite map_length. exact Ly.
      + intros t x y I.
        assert (X : exists z, y = shrink z /\ In (t, (x, z)) (combine ts (combine l ys))).
        { clear - I. revert l ys I. induction ts as [|t0 ts IH]; intros [|x0 l] [|y0 ys] I; cbn [map combine] in I; try contradiction.
          destruct I as [[= <- <- <-]|I]; [exists y0; split; [reflexivity|left; reflexivity]|].
          destruct (IH _ _ I) as [z [E I']]. exists z. split; [exact E|right; exact I']. }
        destruct X as [z [-> I']]. apply (IH t x z I').
        * apply (at_item v l x H El). apply in_combine_r in I'. eapply in_combine_l. exact I'.
        * eapply reach_step; [exact Rc|]. apply in_combine_l in I'. exact I'.
    - intros n kt vt v d kvs Sk Sv DI L Gk IHk _ IHv Hh H Rc.
      assert (Rk : reached kt) by (eapply reach_step; [exact Rc|]; left; reflexivity).
      assert (Rv : reached vt) by (eapply reach_step; [exact Rc|]; right; left; reflexivity).
      assert (Ks : forall k, In k (map fst kvs) -> shrink k = k).
      { intros k' Ik. apply in_map_iff in Ik as [[k0 y] [<- I]]. cbn [fst].
        assert (Z : exists k x, In ((k, x), (k0, y)) (combine d kvs)).
        { clear - L I. revert d L. induction kvs as [|p kvs IHy]; intros [|[k x] d] L; try discriminate; [destruct I|].
          destruct I as [->|I]; [exists k, x; left; reflexivity|]. injection L as L. destruct (IHy I d L) as [k1 [x1 J]]. exists k1, x1. right. exact J. }
        destruct Z as [k [x J]]. assert (Hk : here k) by (apply in_combine_l in J; apply (at_dict cfg' v d k x H DI J)).
        pose proof (Gk k x k0 y J) as Rd. inversion Rd as [a b c [E _] E1 E2 E3|a b c G E1 E2 E3]; subst.
        - apply here_shrink. exact Hk.
        - exact (ap_key _ _ _ _ _ _ _ _ Ap n kt vt k k0 Rc Hk G). }
      change (shrink (VDict (dict_of kvs))) with (VDict (map shrinks (dict_of kvs))). rewrite <- (dict_of_shrink kvs Ks).
      apply (gv_dict w basic strcons cfg env (fun _ => False) n kt vt v d (map shrinks kvs)).
      + apply rb_supported. exact Sk.
      + apply rb_supported. exact Sv.
      + apply rb_items. exact DI.
      + rewrite map_length. exact L.
      + intros k x k' y I. apply in_combine_map in I as [[k0 y0] [[= -> ->] I]]. cbn [fst snd].
        apply (IHk k x k0 y0 I); [|exact Rk]. apply in_combine_l in I. apply (at_dict cfg' v d k x H DI I).
      + intros k x k' y I. apply in_combine_map in I as [[k0 y0] [[= -> ->] I]]. cbn [fst snd].
        apply (IHv k x k0 y0 I); [|exact Rv]. apply in_combine_l in I. apply (at_dict cfg' v d k x H DI I).
      + intros k I. rewrite map_map in I. cbn [Rollback.shrinks fst] in I. apply in_map_iff in I as [[k0 y0] [<- I]]. cbn [fst].
        apply (in_map fst) in I. cbn [fst] in I. rewrite (Ks k0 I), rb_hashable. apply Hh. exact I.
    - intros v c d ps r OC Rs OD Rq Fx Mf Md _ IH Cn H Rc.
      assert (Mf' : map fst (filter (fun kx => negb (is_new c (fst kx))) (map shrinkf ps)) = map fst (filter (fun kx => negb (is_new c (fst kx))) ps)).
      { clear. induction ps as [|[k x] ps IH]; [reflexivity|]. cbn [map filter Rollback.shrinkf fst snd]. destruct (is_new c k); cbn [negb map fst]; [exact IH|f_equal; exact IH]. }
      assert (Mg : forall l l' : list (string * value), map fst l = map fst l' ->
        map fst (filter (fun kx => negb (is_new c (fst kx))) l) = map fst (filter (fun kx => negb (is_new c (fst kx))) l')).
      { clear. induction l as [|[k x] l IH]; intros [|[k' x'] l'] E; try discriminate; [reflexivity|]. cbn [map fst] in E. injection E as -> E.
        cbn [filter fst]. destruct (is_new c k'); cbn [negb map fst]; [apply IH; exact E|f_equal; apply IH; exact E]. }
      assert (Old : forall f, In f (map fst (forget c (map shrinkf ps))) -> In f (map fst ps) /\ is_new c f = false).
      { intros f I. apply in_map_iff in I as [[f0 x] [<- I]]. cbn [fst]. apply filter_In in I as [I N]. cbn [fst] in N. apply negb_true_iff in N.
        split; [|exact N]. apply in_map_iff in I as [[f1 x1] [[= -> _] I]]. apply (in_map fst) in I. exact I. }
      apply (gv_object w basic strcons cfg env (fun _ => False) v c d (forget c (map shrinkf ps))).
      + apply rb_object. exact OC.
      + apply rb_resolvable. exact Rs.
      + unfold obj_data in *. destruct OD as [->|[De [Rn [a [-> ->]]]]]; [left; reflexivity|right].
        split; [destruct Same as [_ [_ [<- _]]]; exact De|]. split; [apply rb_renames; exact Rn|exists a; auto].
      + intros e I. apply Rq. apply rb_required. exact I.
      + intro Q. congruence.
      + rewrite rb_given. rewrite <- (Mg _ _ Mf). exact Mf'.
      + intros f I. apply Old in I as [I N]. destruct (Md f I) as [t E]. exists t. apply rb_declared; assumption.
      + rewrite rb_given. intros f x y t I E.
        assert (I' : In ((f, x), (f, y)) (combine (given w' cfg' c d) (map shrinkf ps))).
        { revert I. apply (combine_filter (fun k => negb (is_new c k))). rewrite map_map. symmetry. rewrite <- Mf. reflexivity. }
        assert (If : In f (map fst ps) /\ is_new c f = false).
        { apply Old. apply in_combine_r in I. apply (in_map fst) in I. exact I. }
        destruct If as [If Nf]. apply in_combine_map in I' as [[f0 z] [[= E1 ->] I']]. cbn [fst] in E1. subst f0. cbn [snd].
        destruct (Md f If) as [t' E']. pose proof (rb_declared c f t' Nf Rs E') as E2.
        assert (t' = t) by congruence. subst t'. apply (IH f x z t I' E').
        * apply in_combine_l in I'. unfold given in I'. apply in_flat_map in I' as [[k x0] [J K]]. cbn [fst snd] in K.
          destruct (field_of w' cfg' c k); [|destruct K]. destruct K as [[= _ <-]|[]].
          eapply (at_dict cfg' v d k x0 H); [|exact J]. destruct OD as [->|[De [_ Q]]]; [left; reflexivity|right; auto].
        * eapply reach_step; [exact Rc|]. eapply declared_comp. exact E'.
      + apply rb_construct; [|exact Cn]. intros k I. rewrite Mf in I. apply in_map_iff in I as [[f x] [<- I]]. cbn [fst].
        unfold given in I. apply in_flat_map in I as [[k x0] [I J]]. cbn [fst snd] in J.
        destruct (field_of w' cfg' c k) as [f0|] eqn:Ef; [|destruct J]. destruct J as [[= <- _]|[]].
        unfold field_of in Ef. destruct k; try discriminate Ef. apply str_get_In in Ef. apply in_map_iff in Ef as [[f1 e] [[= <- <-] J]].
        apply (in_map fst) in J. exact J.
    - intros v c ms r E NB M H Rc. rewrite (ol_enum _ _ _ Ol) in E. rewrite (member_shrink c ms v r (here_shrink v H) E M). eapply gv_enum; eassumption.
    - intros v c ms hints n t y r E NB N Hh I Gv IH M H Rc. pose proof E as E'. rewrite (ol_enum _ _ _ Ol) in E.
      pose proof (rb_no_enum c ms E) as Nc.
      assert (Sy : shrink y = y) by exact (ap_enum _ _ _ _ _ _ _ _ Ap c ms hints n t v y Rc E' Hh I H Gv).
      rewrite (member_shrink c ms y r Sy E M).
      assert (Rt : reached t).
      { eapply reach_step; [exact Rc|]. unfold component, comps. apply in_or_app. right. rewrite E', Hh. apply (in_map snd) in I. exact I. }
      eapply gv_enum_hint; [exact E|exact NB|exact N|apply rb_hints; eassumption|exact I| |exact M].
      rewrite <- Sy. exact (IH H Rt).
    - intros c x r I Oc E H Rc. destruct (ol_iso _ _ _ Ol c x r E) as [E' ->]. apply gv_iso; [exact I|apply rb_other; exact Oc|exact E'].
    - intros c v l r I Oc Ns It E H Rc. destruct (ol_args _ _ _ Ol c l r) as [E' ->]; [|exact E|].
      + apply shrink_same_map. intros x Ix. apply here_shrink. eapply in_part; [exact H|]. eapply part_item; eassumption.
      + eapply gv_args; try eassumption. apply rb_other. exact Oc.
    - intros v r Oc E H Rc. destruct (ol_timedelta _ _ _ Ol v r (here_shrink v H) E) as [E' ->]. apply gv_timedelta; [apply rb_other; exact Oc|exact E'].
    - intros v t r Ht E H Rc. destruct (ol_compile _ _ _ Ol v r (here_shrink v H) E) as [E' ->]. eapply gv_pattern; [|exact E'].
      destruct Ht as [[-> Oc]|Ht]; [left; split; [reflexivity|apply rb_other; exact Oc]|right; exact Ht].
    - intros v c r I Oc Sp E H Rc. destruct (ol_call _ _ _ Ol _ v r (here_shrink v H) E) as [E' ->]. apply gv_string; try assumption. apply rb_other. exact Oc.
    - intros v n t r _ IH H Rc. apply gv_newtype. apply (IH H). eapply reach_step; [exact Rc|]. left. reflexivity.
    - intros v n t r E _ IH H Rc. eapply gv_forward; [exact E|]. apply (IH H). eapply reach_step; [exact Rc|]. unfold component, comps. rewrite E. left. reflexivity.
    - intros v n args Ob H Rc. rewrite (here_shrink v H). apply gv_union_own. exact Ob.
    - intros v n args t r Nb I _ IH H Rc. eapply gv_union; [exact Nb|exact I|]. apply (IH H). eapply reach_step; [exact Rc|]. exact I.
    - intros n kt c v d kvs B Un. destruct Un.
    - intros x t y [-> K] H Rc. rewrite (here_shrink _ H). apply rd_same. split; [reflexivity|]. apply rb_kept. exact K.
    - intros x t y _ IH H Rc. apply rd_gives. exact (IH H Rc).
  Qed.
End Rollback.
