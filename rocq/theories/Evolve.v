(** * Evolve: new versions of the classes (C63)

    A program is changed: to some of its dataclasses and attrs classes fields
    with a default are added.  What happens to the data which the program reads
    and writes? *)

From Verif Require Import Loader Spec Vocab Inv Std Obs Reference.

(** ** Vocabulary *)

Section Grow.
  (** the fields which are added to each class *)
  Variable new : cid -> list field.

  (** the new fields of an object which gets the defaults *)
  Definition added (c : cid) : list (string * value) :=
    flat_map (fun f => match f_default f with DValue d | DFactory d => [(f_name f, d)] | _ => [] end) (new c).

  (** the same value in the changed program: its objects have the new fields, with
      their defaults *)
  Fixpoint grow (v : value) : value :=
    match v with
    | VList l => VList (map grow l)
    | VTuple l => VTuple (map grow l)
    | VSet l => VSet (map grow l)
    | VFrozen l => VFrozen (map grow l)
    | VDict d => VDict (map (fun kx => (grow (fst kx), grow (snd kx))) d)
    | VNamespace d => VNamespace (map (fun kx => (fst kx, grow (snd kx))) d)
    | VNT c fs => VNT c (map (fun kx => (fst kx, grow (snd kx))) fs)
    | VObj c fs => VObj c (map (fun kx => (fst kx, grow (snd kx))) fs ++ added c)
    | VEnum c m x => VEnum c m (grow x)
    | VInst c x => VInst c (grow x)
    | _ => v
    end.
  Definition growf (kx : string * value) : string * value := (fst kx, grow (snd kx)).
  Definition grows (kx : value * value) : value * value := (grow (fst kx), grow (snd kx)).

  (** nothing but the objects in the default changes *)
  Record same_field (f f' : field) : Prop := mkSameField {
    sf_name : f_name f' = f_name f;
    sf_type : f_type f' = f_type f;
    sf_init : f_init f' = f_init f;
    sf_meta : f_meta f' = f_meta f;
    sf_conv : f_conv f' = f_conv f;
    sf_default : forall sofar, default_of (f_default f') (map growf sofar) = option_map grow (default_of (f_default f) sofar)
  }.
  (** the fields [fs], and the new fields of the class [c] after them *)
  Definition more_fields (c : cid) (fs fs' : option (list field)) : Prop :=
    match fs, fs' with
    | Some l, Some l' => exists l0, Forall2 same_field l l0 /\ l' = l0 ++ new c
    | None, None => True
    | _, _ => False
    end.

  (** a new field has a constant default, which is equal to itself (not NaN), and a
      name which no other field of the class has *)
  Definition optional_field (attrs : bool) (old : list field) (f : field) : Prop :=
    (exists d, (f_default f = DValue d \/ f_default f = DFactory d) /\ py_eqb d d = true) /\
    (attrs = true -> f_conv f = None) /\
    forall g, In g old -> (if attrs then strip_underscore (f_name f) else f_name f) <> f_name g.

  (** [w'] is [w] with the fields [new] *)
  Record upgrade (w w' : world) : Prop := mkUpgrade {
    up_bases : forall c, ci_bases (class_of w' c) = ci_bases (class_of w c);
    up_enum : forall c, ci_enum (class_of w' c) = option_map (map growf) (ci_enum (class_of w c));
    up_nt : forall c, ci_nt (class_of w' c) =
      option_map (map (fun kd => (fst kd, option_map grow (snd kd)))) (ci_nt (class_of w c));
    up_dc : forall c, more_fields c (ci_dc (class_of w c)) (ci_dc (class_of w' c));
    up_attrs : forall c, more_fields c (ci_attrs (class_of w c)) (ci_attrs (class_of w' c));
    up_td : forall c, ci_td (class_of w' c) = ci_td (class_of w c);
    up_ann : forall c, new c = [] -> ci_ann (class_of w' c) = ci_ann (class_of w c);
    up_hash : forall c, ci_hash (class_of w' c) = ci_hash (class_of w c);
    up_hints : forall c l, ci_hints (class_of w c) = POk l ->
      ci_hints (class_of w' c) = POk (l ++ map (fun f => (f_name f, f_type f)) (new c));
    up_hints_exc : forall c r, ci_hints (class_of w c) = PExc r -> exists r', ci_hints (class_of w' c) = PExc r';
    (* __post_init__ and the validators accept the default *)
    up_post : forall c fs fs', ci_post (class_of w c) fs = POk fs' ->
      ci_post (class_of w' c) (map growf fs ++ added c) = POk (map growf fs' ++ added c);
    (* fields are added only to dataclasses and attrs classes *)
    up_kind : forall c, new c <> [] -> ci_nt (class_of w c) = None /\ ci_td (class_of w c) = None /\ ci_enum (class_of w c) = None /\
      (ci_dc (class_of w c) <> None \/ ci_attrs (class_of w c) <> None);
    up_new : forall c fs, ci_dc (class_of w c) = Some fs -> Forall (optional_field false fs) (new c);
    up_new_attrs : forall c fs, ci_dc (class_of w c) = None -> ci_attrs (class_of w c) = Some fs -> Forall (optional_field true fs) (new c);
    (* the other classes, of the library, do the same with the data *)
    up_call : forall t v r, grow v = v -> w_call w t v = POk r -> w_call w' t v = POk r /\ grow r = r;
    up_iso : forall c x r, w_fromiso w c x = POk r -> w_fromiso w' c x = POk r /\ grow r = r;
    up_args : forall c l r, map grow l = l -> w_callargs w c l = POk r -> w_callargs w' c l = POk r /\ grow r = r;
    up_timedelta : forall v r, grow v = v -> w_timedelta w v = POk r -> w_timedelta w' v = POk r /\ grow r = r;
    up_compile : forall v r, grow v = v -> w_compile w v = POk r -> w_compile w' v = POk r /\ grow r = r
  }.

  (** the external name of a new field *)
  Definition new_name (cfg : config) (k : string) : Prop :=
    exists c f b, In f (new c) /\ k = external cfg b f.
  (** data written before the change: no objects of the changed classes, no key
      which is the name of a new field *)
  Definition old_data (cfg : config) (v : value) : Prop :=
    grow v = v /\
    (forall d k x, inside v (VDict d) -> In (VStr k, x) d -> ~ new_name cfg k) /\
    (forall a k x, inside v (VNamespace a) -> In (k, x) a -> ~ new_name cfg k) /\
    (* a Namespace is not accepted when a field has a name in its metadata, see C37 *)
    (forall a c f b, inside v (VNamespace a) -> In f (new c) -> given_name cfg b f = None).
End Grow.

(** both loaders have the same settings *)
Definition equal_settings (cfg cfg' : config) : Prop :=
  basiccast cfg' = basiccast cfg /\ failonextra cfg' = failonextra cfg /\ dictequivalence cfg' = dictequivalence cfg /\
  mangle_key cfg' = mangle_key cfg /\ pep563 cfg' = pep563 cfg.

(** ** Growing does not change equality *)
Section GrowFacts.
  Variable new : cid -> list field.
  Notation grow := (grow new).
  Notation growf := (growf new).
  Notation grows := (grows new).
  Notation added := (added new).

  Lemma type_grow v : type_of (grow v) = type_of v.
  Proof using. destruct v; reflexivity. Qed.

  Hypothesis Dself : forall c k d, In (k, d) (added c) -> py_eqb d d = true.

  Definition eqs_of := fix eqs (xs ys : list (string * value)) : bool :=
    match xs, ys with
    | [], [] => true
    | (k, x) :: xs', (k', y) :: ys' => String.eqb k k' && (py_eqb x y && eqs xs' ys')
    | _, _ => false
    end.
  Lemma eqs_len a : forall b, eqs_of a b = true -> List.length a = List.length b.
  Proof using.
    induction a as [|[] a IHa]; intros [|[] b] E; try discriminate; [reflexivity|]. cbn [eqs_of] in E.
    apply andb_true_iff in E as [_ E]. apply andb_true_iff in E as [_ E]. cbn [List.length]. f_equal. apply IHa. exact E.
  Qed.
  Lemma eqs_app xs ys zs : eqs_of zs zs = true -> eqs_of (xs ++ zs) (ys ++ zs) = eqs_of xs ys.
  Proof using.
    intro R. revert ys. induction xs as [|[k x] xs IH]; intros [|[k' y] ys].
    - exact R.
    - change (eqs_of [] ((k', y) :: ys)) with false. apply not_true_is_false. intro E. apply eqs_len in E.
      cbn [app List.length] in E. rewrite app_length in E. lia.
    - change (eqs_of ((k, x) :: xs) []) with false. apply not_true_is_false. intro E. apply eqs_len in E.
      cbn [app List.length] in E. rewrite app_length in E. lia.
    - cbn [app eqs_of]. rewrite IH. reflexivity.
  Qed.
  Lemma eqs_added c : eqs_of (added c) (added c) = true.
  Proof using Dself.
    assert (X : forall l, (forall k d, In (k, d) l -> py_eqb d d = true) -> eqs_of l l = true).
    { induction l as [|[k d] l IH]; intro H; [reflexivity|]. cbn [eqs_of]. rewrite String.eqb_refl, (H k d) by (left; reflexivity).
      apply IH. intros k' d' I. apply (H k' d'). right. exact I. }
    apply X. exact (Dself c).
  Qed.

  Lemma eq_grow a : forall b, py_eqb (grow a) (grow b) = py_eqb a b.
  Proof using Dself.
    induction a as [|ba|z|f|s|s|l IH|l IH|l IH|l IH|d IH|d IH|c d IH|c d IH|c m v IH|c v IH] using value_ind'; intro b.
    1-6: destruct b; reflexivity.
    - destruct b; try reflexivity. cbn [Evolve.grow py_eqb]. revert l0. induction IH as [|x l Hx _ IHl]; intros [|y l0]; try reflexivity. cbn [map]. rewrite Hx, IHl. reflexivity.
    - destruct b as [| | | | | | |l0| | | | |c fs| | | ]; try reflexivity; cbn [Evolve.grow py_eqb].
      + revert l0. induction IH as [|x l Hx _ IHl]; intros [|y l0]; try reflexivity. cbn [map]. rewrite Hx, IHl. reflexivity.
      + revert fs. induction IH as [|x l Hx _ IHl]; intros [|[k y] fs]; try reflexivity. cbn [map fst snd]. rewrite Hx, IHl. reflexivity.
    - destruct b as [| | | | | | | |l0|l0| | | | | | ]; try reflexivity; cbn [Evolve.grow py_eqb]; rewrite !map_length; f_equal;
        (induction IH as [|x l Hx _ IHl]; [reflexivity|]; cbn [map]; rewrite IHl; f_equal; clear - Hx;
         induction l0 as [|y l0 IH0]; [reflexivity|]; cbn [map existsb]; rewrite Hx, IH0; reflexivity).
    - destruct b as [| | | | | | | |l0|l0| | | | | | ]; try reflexivity; cbn [Evolve.grow py_eqb]; rewrite !map_length; f_equal;
        (induction IH as [|x l Hx _ IHl]; [reflexivity|]; cbn [map]; rewrite IHl; f_equal; clear - Hx;
         induction l0 as [|y l0 IH0]; [reflexivity|]; cbn [map existsb]; rewrite Hx, IH0; reflexivity).
    - destruct b as [| | | | | | | | | |d0| | | | | ]; try reflexivity; cbn [Evolve.grow py_eqb]; rewrite !map_length; f_equal.
      induction IH as [|[k x] l [Hk Hx] _ IHl]; [reflexivity|]. cbn [map fst snd] in *. rewrite IHl. f_equal. clear - Hk Hx.
      induction d0 as [|[k' y] l0 IH0]; [reflexivity|]. cbn [map existsb fst snd]. rewrite Hk, Hx, IH0. reflexivity.
    - destruct b as [| | | | | | | | | | |d0| | | | ]; try reflexivity; cbn [Evolve.grow py_eqb]; rewrite !map_length; f_equal.
      induction IH as [|[k x] l Hx _ IHl]; [reflexivity|]. cbn [map fst snd] in *. rewrite IHl. f_equal. clear - Hx.
      induction d0 as [|[k' y] l0 IH0]; [reflexivity|]. cbn [map existsb fst snd]. rewrite Hx, IH0. reflexivity.
    - destruct b as [| | | | | | |l0| | | | |c0 fs| | | ]; try reflexivity; cbn [Evolve.grow py_eqb].
      + revert l0. induction IH as [|[k x] l Hx _ IHl]; intros [|y l0]; try reflexivity. cbn [map fst snd] in *. rewrite Hx, IHl. reflexivity.
      + revert fs. induction IH as [|[k x] l Hx _ IHl]; intros [|[k' y] fs]; try reflexivity. cbn [map fst snd] in *. rewrite Hx, IHl. reflexivity.
    - destruct b as [| | | | | | | | | | | | |c0 d0| | ]; try reflexivity. cbn [Evolve.grow py_eqb].
      destruct (cid_eqb c c0) eqn:Ec; [|reflexivity]. apply cid_eqb_eq in Ec. subst c0. cbn [andb].
      change (eqs_of (map growf d ++ added c) (map growf d0 ++ added c) = eqs_of d d0).
      rewrite eqs_app by apply eqs_added. revert d0.
      induction IH as [|[k x] l Hx _ IHl]; intros [|[k' y] d0]; try reflexivity. cbn [map Evolve.growf fst snd eqs_of] in *. rewrite Hx, IHl. reflexivity.
    - destruct b; reflexivity.
    - destruct b; try reflexivity. cbn [Evolve.grow py_eqb]. rewrite IH. reflexivity.
  Qed.

  Lemma in_grow v l : py_in (grow v) (map grow l) = py_in v l.
  Proof using Dself. unfold py_in. induction l as [|y l IH]; [reflexivity|]. cbn [map existsb]. rewrite eq_grow, IH. reflexivity. Qed.
  Lemma set_add_grow x l : set_add (grow x) (map grow l) = map grow (set_add x l).
  Proof using Dself. unfold set_add. rewrite in_grow. destruct (py_in x l); [reflexivity|]. rewrite map_app. reflexivity. Qed.
  Lemma set_of_grow l : set_of (map grow l) = map grow (set_of l).
  Proof using Dself.
    unfold set_of. change (@nil value) with (map grow []) at 1. generalize (@nil value) as acc.
    induction l as [|x l IH]; intro acc; [reflexivity|]. cbn [map fold_left]. rewrite set_add_grow. apply IH.
  Qed.
  Lemma dict_set_grow k x d : dict_set (grow k) (grow x) (map grows d) = map grows (dict_set k x d).
  Proof using Dself.
    induction d as [|[k' y] d IH]; [reflexivity|]. cbn [map Evolve.grows fst snd dict_set]. rewrite eq_grow.
    destruct (py_eqb k k'); [reflexivity|]. cbn [map Evolve.grows fst snd]. f_equal. exact IH.
  Qed.
  Lemma dict_of_grow d : dict_of (map grows d) = map grows (dict_of d).
  Proof using Dself.
    unfold dict_of. change (@nil (value * value)) with (map grows []) at 1. generalize (@nil (value * value)) as acc.
    induction d as [|[k x] l IH]; intro acc; [reflexivity|]. cbn [map fold_left]. cbn [Evolve.grows fst snd]. rewrite dict_set_grow. apply IH.
  Qed.
End GrowFacts.

(** ** The readings of the old data in the new program *)
Section Evolution.
  Variable new : cid -> list field.
  Notation grow := (grow new).
  Notation growf := (growf new).
  Notation grows := (grows new).
  Notation added := (added new).
  Variables w w' : world.
  Hypothesis Up : upgrade new w w'.
  Variables basic strcons : list cid.
  Variables cfg cfg' : config.
  Hypothesis Hstd : is_std w basic strcons cfg.
  Hypothesis Hstd' : is_std w' basic strcons cfg'.
  Hypothesis Same : equal_settings cfg cfg'.
  Variable env : string -> option ty.

  Lemma ev_pep : pep563 cfg' = pep563 cfg. Proof using Same. apply Same. Qed.
  Lemma ev_mangle : mangle_key cfg' = mangle_key cfg. Proof using Same. apply Same. Qed.
  Lemma ev_external b f : external cfg' b f = external cfg b f.
  Proof using Same. unfold external, given_name. rewrite ev_mangle. reflexivity. Qed.
  Lemma ev_given_name b f : given_name cfg' b f = given_name cfg b f.
  Proof using Same. unfold given_name. rewrite ev_mangle. reflexivity. Qed.

  Lemma ev_mro c : mro w' c = mro w c.
  Proof using Up. destruct c; try reflexivity. cbn [mro]. f_equal. apply (up_bases _ _ _ Up (CUser _)). Qed.
  Lemma ev_isinstance v c : isinstance w' v c = isinstance w v c.
  Proof using Up. unfold isinstance. rewrite ev_mro. reflexivity. Qed.
  Lemma ev_kept t x : kept w' basic t x <-> kept w basic t x.
  Proof using Up. unfold kept. split; intros [c H]; exists c; [rewrite <- ev_isinstance|rewrite ev_isinstance]; exact H. Qed.

  (** kinds *)
  Lemma no_new_nt c fs : ci_nt (class_of w c) = Some fs -> new c = [].
  Proof using Up. intro E. destruct (new c) eqn:N; [reflexivity|]. destruct (up_kind _ _ _ Up c) as [H _]; congruence. Qed.
  Lemma no_new_td c fs : ci_td (class_of w c) = Some fs -> new c = [].
  Proof using Up. intro E. destruct (new c) eqn:N; [reflexivity|]. destruct (up_kind _ _ _ Up c) as [_ [H _]]; congruence. Qed.
  Lemma no_new_none c : kind_of_class w c = None -> new c = [].
  Proof using Up.
    intro K. destruct (new c) eqn:N; [reflexivity|]. destruct (up_kind _ _ _ Up c) as [H1 [H2 [_ H3]]]; [congruence|].
    unfold kind_of_class in K. rewrite H1, H2 in K. destruct (ci_dc (class_of w c)), (ci_attrs (class_of w c)); try discriminate K. destruct H3; contradiction.
  Qed.
  Definition kind_rel (c : cid) (k k' : option kind) : Prop :=
    match k, k' with
    | None, None => True
    | Some (KNT fs), Some (KNT fs') => fs' = map (fun kd => (fst kd, option_map grow (snd kd))) fs /\ new c = []
    | Some (KDC fs), Some (KDC fs') => (exists l0, Forall2 (same_field new) fs l0 /\ fs' = l0 ++ new c) /\ Forall (optional_field false fs) (new c)
    | Some (KAT fs), Some (KAT fs') => (exists l0, Forall2 (same_field new) fs l0 /\ fs' = l0 ++ new c) /\ Forall (optional_field true fs) (new c)
    | Some (KTD r), Some (KTD r') => r' = r /\ new c = []
    | _, _ => False
    end.
  Lemma ev_kind c : kind_rel c (kind_of_class w c) (kind_of_class w' c).
  Proof using Up.
    unfold kind_of_class. rewrite (up_nt _ _ _ Up), (up_td _ _ _ Up).
    destruct (ci_nt (class_of w c)) as [fs|] eqn:E1; cbn [option_map].
    { split; [reflexivity|]. eapply no_new_nt. exact E1. }
    pose proof (up_dc _ _ _ Up c) as D. destruct (ci_dc (class_of w c)) as [fs|] eqn:E2, (ci_dc (class_of w' c)) as [fs'|]; cbn [more_fields] in D; try contradiction.
    { split; [exact D|]. eapply up_new; eassumption. }
    pose proof (up_attrs _ _ _ Up c) as A. destruct (ci_attrs (class_of w c)) as [fs|] eqn:E3, (ci_attrs (class_of w' c)) as [fs'|]; cbn [more_fields] in A; try contradiction.
    { split; [exact A|]. eapply up_new_attrs; eassumption. }
    destruct (ci_td (class_of w c)) as [r|] eqn:E4; [|exact I]. split; [reflexivity|]. eapply no_new_td. exact E4.
  Qed.
  Lemma ev_none {A} (f : A -> A) (o : option A) : option_map f o = None <-> o = None.
  Proof using. destruct o; split; (discriminate || reflexivity). Qed.
  Lemma ev_other c : other_class w basic c -> other_class w' basic c.
  Proof using Up.
    intros [N [E [Nt [D T]]]]. split; [exact N|]. rewrite (up_enum _ _ _ Up), (up_nt _ _ _ Up), (up_td _ _ _ Up), E, Nt, T.
    repeat split. pose proof (up_dc _ _ _ Up c) as X. rewrite D in X. destruct (ci_dc (class_of w' c)); [contradiction|reflexivity].
  Qed.
  Lemma ev_object c : object_class w basic strcons c -> object_class w' basic strcons c.
  Proof using Up.
    intros [N [E K]]. split; [exact N|]. rewrite (up_enum _ _ _ Up), E. split; [reflexivity|].
    pose proof (ev_kind c) as R. destruct (kind_of_class w c) as [[]|], (kind_of_class w' c) as [[]|]; try contradiction; auto.
  Qed.
  Lemma ev_find t : find_handler cfg' t = find_handler cfg t.
  Proof using Hstd Hstd' Up.
    rewrite (find_std w basic strcons cfg t Hstd), (find_std w' basic strcons cfg' t Hstd'). unfold chain.
    assert (X : is_enum w' t = is_enum w t /\ is_namedtuple w' t = is_namedtuple w t /\ is_dataclass w' t = is_dataclass w t /\
                is_typeddict w' t = is_typeddict w t /\ is_attrs w' t = is_attrs w t).
    { destruct t as [c| | | | | | | ]; repeat split. 
      - unfold is_enum. rewrite (up_enum _ _ _ Up). destruct (ci_enum (class_of w c)); reflexivity.
      - unfold is_namedtuple. rewrite (up_nt _ _ _ Up). destruct (ci_nt (class_of w c)); reflexivity.
      - unfold is_dataclass. pose proof (up_dc _ _ _ Up c) as D. destruct (ci_dc (class_of w c)), (ci_dc (class_of w' c)); (contradiction || reflexivity).
      - unfold is_typeddict. rewrite (up_td _ _ _ Up). destruct (ci_td (class_of w c)); reflexivity.
      - unfold is_attrs. pose proof (up_attrs _ _ _ Up c) as D. destruct (ci_attrs (class_of w c)), (ci_attrs (class_of w' c)); (contradiction || reflexivity). }
    destruct X as [-> [-> [-> [-> ->]]]]. reflexivity.
  Qed.
  Lemma ev_supported t : supported cfg t -> supported cfg' t.
  Proof using Hstd Hstd' Up. rewrite !supported_find, ev_find. auto. Qed.

  (** fields *)
  Lemma str_get_app {A} k (l l' : list (string * A)) x : str_get k l = Some x -> str_get k (l ++ l') = Some x.
  Proof using. induction l as [|[k' y] l IH]; [discriminate|]. cbn [str_get app]. destruct (String.eqb k k'); auto. Qed.
  Lemma str_get_app_none {A} k (l l' : list (string * A)) : (forall x, ~ In (k, x) l') -> str_get k (l ++ l') = str_get k l.
  Proof using.
    intro N. induction l as [|[k' y] l IH].
    - cbn [app]. induction l' as [|[k' y] l' IH]; [reflexivity|]. cbn [str_get]. destruct (String.eqb k k') eqn:E.
      + apply String.eqb_eq in E. subst k'. destruct (N y). left. reflexivity.
      + apply IH. intros x I. apply (N x). right. exact I.
    - cbn [app str_get]. destruct (String.eqb k k'); [reflexivity|exact IH].
  Qed.
  Lemma ev_hints c l : ci_hints (class_of w c) = POk l -> new c = [] -> ci_hints (class_of w' c) = POk l.
  Proof using Up. intros E N. rewrite (up_hints _ _ _ Up c l E), N. cbn [map]. rewrite app_nil_r. reflexivity. Qed.
  Lemma ev_declared_same c as_written : new c = [] -> declared_types w' (pep563 cfg') c as_written = declared_types w (pep563 cfg) c as_written.
  Proof using Up Same.
    intro N. unfold declared_types. rewrite ev_pep. destruct (pep563 cfg); [|reflexivity].
    destruct (ci_hints (class_of w c)) as [l|r] eqn:E; [rewrite (ev_hints c l E N); reflexivity|].
    destruct (up_hints_exc _ _ _ Up c r E) as [r' ->]. reflexivity.
  Qed.
  Lemma ev_declared c f t : resolvable w cfg c ->
    str_get f (declared w (pep563 cfg) c) = Some t -> str_get f (declared w' (pep563 cfg') c) = Some t.
  Proof using Up Same.
    intros Rs H. unfold declared, resolvable in *. pose proof (ev_kind c) as R.
    destruct (kind_of_class w c) as [[fs|fs|fs|r]|], (kind_of_class w' c) as [[fs'|fs'|fs'|r']|]; cbn [kind_rel] in R; try contradiction.
    - destruct R as [_ N]. rewrite ev_declared_same, (up_ann _ _ _ Up) by exact N. exact H.
    - destruct R as [[l0 [F ->]] _]. unfold declared_types in *. rewrite ev_pep. destruct (pep563 cfg).
      + destruct (Rs eq_refl) as [l E]. rewrite E in H. rewrite (up_hints _ _ _ Up c l E). apply str_get_app. exact H.
      + rewrite map_app. apply str_get_app. rewrite <- H. f_equal. clear - F. induction F as [|f0 f1 fs l0 S _ IH]; [reflexivity|].
        cbn [map]. rewrite (sf_name _ _ _ S), (sf_type _ _ _ S), IH. reflexivity.
    - destruct R as [[l0 [F ->]] _]. rewrite map_app. apply str_get_app. rewrite <- H. f_equal. clear - F. induction F as [|f0 f1 fs l0 S _ IH]; [reflexivity|].
      assert (A : attr_type f1 = attr_type f0) by (unfold attr_type; rewrite (sf_type _ _ _ S), (sf_conv _ _ _ S); reflexivity).
      cbn [map]. rewrite (sf_name _ _ _ S), A, IH. reflexivity.
    - destruct R as [-> N]. rewrite ev_declared_same, (up_ann _ _ _ Up) by exact N. exact H.
    - discriminate.
  Qed.
  Lemma same_obj_fields b fs l0 : Forall2 (same_field new) fs l0 ->
    map (fun f => (f_name f, external cfg' b f)) l0 = map (fun f => (f_name f, external cfg b f)) fs.
  Proof using Same.
    intro F. induction F as [|f0 f1 fs l0 S _ IH]; [reflexivity|]. cbn [map]. rewrite IH. f_equal.
    unfold external, given_name. rewrite ev_mangle, (sf_name _ _ _ S), (sf_meta _ _ _ S). reflexivity.
  Qed.
  Lemma ev_fields c : exists b, obj_fields w' cfg' c = obj_fields w cfg c ++ map (fun f => (f_name f, external cfg b f)) (new c).
  Proof using Up Same.
    unfold obj_fields. pose proof (ev_kind c) as R. unfold declared.
    destruct (kind_of_class w c) as [[fs|fs|fs|r]|] eqn:K, (kind_of_class w' c) as [[fs'|fs'|fs'|r']|]; cbn [kind_rel] in R; try contradiction.
    - destruct R as [_ N]. exists false. rewrite N, ev_declared_same, (up_ann _ _ _ Up) by exact N. cbn [map]. rewrite app_nil_r. reflexivity.
    - destruct R as [[l0 [F ->]] _]. exists false. rewrite map_app, (same_obj_fields _ _ _ F). f_equal. apply map_ext. intro f. rewrite ev_external. reflexivity.
    - destruct R as [[l0 [F ->]] _]. exists true. rewrite map_app, (same_obj_fields _ _ _ F). f_equal. apply map_ext. intro f. rewrite ev_external. reflexivity.
    - destruct R as [_ N]. exists false. rewrite N, ev_declared_same, (up_ann _ _ _ Up) by exact N. cbn [map]. rewrite app_nil_r. reflexivity.
    - exists false. rewrite (no_new_none c K). reflexivity.
  Qed.
  Lemma ev_field_of c k : (forall x, k = VStr x -> ~ new_name new cfg x) -> field_of w' cfg' c k = field_of w cfg c k.
  Proof using Up Same.
    intro N. unfold field_of. destruct k; try reflexivity. destruct (ev_fields c) as [b ->]. rewrite map_app. apply str_get_app_none.
    intros f I. rewrite map_map in I. cbn [fst snd] in I. apply in_map_iff in I as [g [[= E _] I]]. apply (N s eq_refl).
    exists c, g, b. auto.
  Qed.
  Lemma ev_given c d : (forall k x, In (VStr k, x) d -> ~ new_name new cfg k) -> given w' cfg' c d = given w cfg c d.
  Proof using Up Same.
    intro N. unfold given. induction d as [|[k x] d IH]; [reflexivity|]. cbn [flat_map fst snd]. rewrite ev_field_of.
    - f_equal. apply IH. intros k' x' I. apply (N k' x'). right. exact I.
    - intros s ->. apply (N s x). left. reflexivity.
  Qed.
  Lemma needed_same fs l0 : Forall2 (same_field new) fs l0 ->
    Forall2 (same_field new) (filter (fun f => f_init f && match f_default f with DNo => true | _ => false end) fs)
      (filter (fun f => f_init f && match f_default f with DNo => true | _ => false end) l0).
  Proof using.
    intro F. induction F as [|f0 f1 fs l0 S _ IH]; [constructor|]. cbn [filter]. rewrite (sf_init _ _ _ S).
    assert (E : match f_default f1 with DNo => true | _ => false end = match f_default f0 with DNo => true | _ => false end).
    { pose proof (sf_default _ _ _ S []) as D. cbn [map] in D. destruct (f_default f0), (f_default f1); (reflexivity || discriminate D). }
    rewrite E. destruct (_ && _); [constructor; assumption|exact IH].
  Qed.
  Lemma needed_new b fs c : Forall (optional_field b fs) (new c) ->
    filter (fun f => f_init f && match f_default f with DNo => true | _ => false end) (new c) = [].
  Proof using.
    intro F. induction F as [|f l [[d [D _]] _] _ IH]; [reflexivity|]. cbn [filter].
    destruct D as [-> | ->]; rewrite andb_false_r; exact IH.
  Qed.
  Lemma ev_required c : required_names w' cfg' c = required_names w cfg c.
  Proof using Up Same.
    unfold required_names, obj_required. pose proof (ev_kind c) as R. unfold declared.
    destruct (kind_of_class w c) as [[fs|fs|fs|r]|] eqn:K, (kind_of_class w' c) as [[fs'|fs'|fs'|r']|]; cbn [kind_rel] in R; try contradiction.
    - destruct R as [-> N]. rewrite ev_declared_same, (up_ann _ _ _ Up) by exact N. 
      assert (E : forall fs0 : list (string * option value), map fst (filter (fun f => match snd f with Some _ => true | None => false end) (map (fun kd => (fst kd, option_map grow (snd kd))) fs0))
        = map fst (filter (fun f => match snd f with Some _ => true | None => false end) fs0)).
      { induction fs0 as [|[k [d|]] fs0 IH]; [reflexivity| |]; cbn [map filter fst snd option_map]; [f_equal|]; exact IH. }
      rewrite E. reflexivity.
    - destruct R as [[l0 [F ->]] O]. rewrite filter_app, (needed_new _ _ _ O), app_nil_r. apply needed_same in F.
      apply same_obj_fields with (b := false) in F. apply (f_equal (map snd)) in F. rewrite !map_map in F. exact F.
    - destruct R as [[l0 [F ->]] O]. rewrite filter_app, (needed_new _ _ _ O), app_nil_r. apply needed_same in F.
      apply same_obj_fields with (b := true) in F. apply (f_equal (map snd)) in F. rewrite !map_map in F. exact F.
    - destruct R as [-> N]. rewrite ev_declared_same, (up_ann _ _ _ Up), ev_pep by exact N. reflexivity.
    - reflexivity.
  Qed.
  Lemma ev_resolvable c : resolvable w cfg c -> resolvable w' cfg' c.
  Proof using Up Same.
    unfold resolvable. pose proof (ev_kind c) as R.
    assert (X : (pep563 cfg = true -> exists l, ci_hints (class_of w c) = POk l) -> pep563 cfg' = true -> exists l, ci_hints (class_of w' c) = POk l).
    { rewrite ev_pep. intros H Q. destruct (H Q) as [l E]. eexists. apply (up_hints _ _ _ Up c l E). }
    destruct (kind_of_class w c) as [[fs|fs|fs|r]|] eqn:K, (kind_of_class w' c) as [[fs'|fs'|fs'|r']|]; cbn [kind_rel] in R; try contradiction; try exact X.
    destruct R as [[l0 [F ->]] O]. intros H f hs I C. apply in_app_or in I as [I|I].
    - clear - F H I C. induction F as [|f0 f1 fs l0 S F IH]; [destruct I|]. destruct I as [<-|I].
      + apply (H f0); [left; reflexivity|]. rewrite <- (sf_conv _ _ _ S). exact C.
      + apply IH; [|exact I]. intros f' hs' I'. apply H. right. exact I'.
    - rewrite Forall_forall in O. destruct (O f I) as [_ [N _]]. rewrite (N eq_refl) in C. discriminate.
  Qed.
  Lemma ev_renames c : (forall f b, In f (new c) -> given_name cfg b f = None) -> renames w' cfg' c = renames w cfg c.
  Proof using Up Same.
    intro N. unfold renames. pose proof (ev_kind c) as R.
    assert (X : forall b fs l0, Forall2 (same_field new) fs l0 ->
      existsb (fun f => match given_name cfg' b f with Some _ => true | None => false end) (l0 ++ new c) =
      existsb (fun f => match given_name cfg b f with Some _ => true | None => false end) fs).
    { intros b fs l0 F. rewrite existsb_app.
      replace (existsb (fun f => match given_name cfg' b f with Some _ => true | None => false end) (new c)) with false.
      - rewrite orb_false_r. induction F as [|f0 f1 fs l0 S _ IH]; [reflexivity|]. cbn [existsb]. rewrite IH. f_equal.
        unfold given_name. rewrite ev_mangle, (sf_meta _ _ _ S). reflexivity.
      - symmetry. apply not_true_is_false. intro E. apply existsb_exists in E as [f [I E]]. rewrite ev_given_name, (N f b I) in E. discriminate. }
    destruct (kind_of_class w c) as [[fs|fs|fs|r]|] eqn:K, (kind_of_class w' c) as [[fs'|fs'|fs'|r']|]; cbn [kind_rel] in R; try contradiction; try reflexivity;
      destruct R as [[l0 [F ->]] _]; apply X; exact F.
  Qed.

  (** the constructor *)
  Lemma get_growf k l : str_get k (map growf l) = option_map grow (str_get k l).
  Proof using. induction l as [|[k' x] l IH]; [reflexivity|]. cbn [map Evolve.growf fst snd str_get]. destruct (String.eqb k k'); [reflexivity|exact IH]. Qed.
  Lemma bind_nt_grow fs ps : bind_nt (map (fun kd => (fst kd, option_map grow (snd kd))) fs) (map growf ps) = option_map (map growf) (bind_nt fs ps).
  Proof using.
    induction fs as [|[k d] fs IH]; [reflexivity|]. cbn [map bind_nt fst snd]. rewrite get_growf, IH.
    destruct (str_get k ps), d; cbn [option_map]; try reflexivity; destruct (bind_nt fs ps); reflexivity.
  Qed.
  Lemma bind_old an fs l0 ps : Forall2 (same_field new) fs l0 -> forall more sofar,
    bind_fields an (l0 ++ more) (map growf ps) (map growf sofar) =
    match bind_fields an fs ps sofar with Some l => bind_fields an more (map growf ps) (map growf l) | None => None end.
  Proof using.
    intro F. induction F as [|f0 f1 fs l0 S _ IH]; intros more sofar; [reflexivity|].
    cbn [app bind_fields]. rewrite (sf_init _ _ _ S), (sf_name _ _ _ S), get_growf, (sf_default _ _ _ S).
    assert (X : forall x, map growf sofar ++ [(f_name f0, grow x)] = map growf (sofar ++ [(f_name f0, x)])) by (intro; rewrite map_app; reflexivity).
    destruct (f_init f0); [destruct (str_get _ ps) as [x|]; cbn [option_map]; [rewrite X; apply IH|]|];
      (destruct (default_of (f_default f0) sofar) as [x|]; cbn [option_map]; [rewrite X; apply IH|]); [reflexivity|apply IH].
  Qed.
  Lemma bind_new an b old l ps : Forall (optional_field b old) l -> (forall f, In f l -> str_get (an (f_name f)) ps = None) -> forall sofar,
    bind_fields an l ps sofar = Some (sofar ++ flat_map (fun f => match f_default f with DValue d | DFactory d => [(f_name f, d)] | _ => [] end) l).
  Proof using.
    intro F. induction F as [|f l [[d [D _]] _] _ IH]; intros N sofar; [cbn [bind_fields flat_map]; rewrite app_nil_r; reflexivity|].
    cbn [bind_fields flat_map]. rewrite (N f) by (left; reflexivity).
    assert (IH' : forall sofar, bind_fields an l ps sofar = Some (sofar ++ flat_map (fun f => match f_default f with DValue d | DFactory d => [(f_name f, d)] | _ => [] end) l)).
    { apply IH. intros g I. apply N. right. exact I. }
    destruct D as [-> | ->]; cbn [default_of]; destruct (f_init f); rewrite IH', <- app_assoc; reflexivity.
  Qed.
  Lemma unexpected_more allowed more ps : unexpected allowed ps = false -> unexpected (allowed ++ more) (map growf ps) = false.
  Proof using.
    unfold unexpected. intro E. apply not_true_is_false. intro H. apply existsb_exists in H as [[k x] [I H]]. cbn [fst] in H.
    apply in_map_iff in I as [[k' x'] [[= -> _] I]].
    assert (Q : existsb (fun kv => negb (mem_str (fst kv) allowed)) ps = true); [|congruence].
    apply existsb_exists. exists (k, x'). split; [exact I|]. cbn [fst]. apply negb_true_iff in H. apply negb_true_iff. apply not_true_is_false. intro M.
    apply mem_str_In in M. assert (mem_str k (allowed ++ more) = true); [|congruence]. apply mem_str_In. apply in_or_app. left. exact M.
  Qed.
  Lemma same_args (an : string -> string) fs l0 : Forall2 (same_field new) fs l0 ->
    map (fun f => an (f_name f)) (filter f_init l0) = map (fun f => an (f_name f)) (filter f_init fs).
  Proof using.
    intro F. induction F as [|f0 f1 fs l0 S _ IH]; [reflexivity|]. cbn [filter]. rewrite (sf_init _ _ _ S).
    destruct (f_init f0); [|exact IH]. cbn [map]. rewrite (sf_name _ _ _ S), IH. reflexivity.
  Qed.
  Lemma fields_grow an b c fs l0 ps r : Forall2 (same_field new) fs l0 -> Forall (optional_field b fs) (new c) ->
    (forall f g, In f (new c) -> In g fs -> an (f_name f) <> f_name g) ->
    (forall k, In k (map fst ps) -> exists g, In g fs /\ f_name g = k) ->
    construct_fields w an c fs ps = POk r -> construct_fields w' an c (l0 ++ new c) (map growf ps) = POk (grow r).
  Proof using Up.
    intros F O Nn Ns H. unfold construct_fields in *. rewrite filter_app, map_app, (same_args an fs l0 F).
    destruct (unexpected _ ps) eqn:Un; [discriminate|]. rewrite (unexpected_more _ _ _ Un).
    change (@nil (string * value)) with (map growf []). rewrite (bind_old an fs l0 ps F).
    destruct (bind_fields an fs ps []) as [l|]; [|discriminate].
    rewrite (bind_new an b fs (new c) _ O).
    - destruct (ci_post (class_of w c) l) as [l'|] eqn:P; [|discriminate]. injection H as <-.
      change (flat_map _ (new c)) with (added c). rewrite (up_post _ _ _ Up c l l' P). reflexivity.
    - intros f I. rewrite get_growf. destruct (str_get (an (f_name f)) ps) as [x|] eqn:E; [|reflexivity]. exfalso.
      apply str_get_In in E. apply (in_map fst) in E. cbn [fst] in E. destruct (Ns _ E) as [g [Ig Eg]]. apply (Nn f g I Ig). symmetry. exact Eg.
  Qed.
  Lemma ev_construct c ps r : kind_of_class w c <> None ->
    (forall k, In k (map fst ps) -> In k (map fst (obj_fields w cfg c))) ->
    construct w (TClass c) ps = POk r -> construct w' (TClass c) (map growf ps) = POk (grow r).
  Proof using Up.
    intros K Ns H. pose proof (ev_kind c) as R. cbn [construct] in *. cbv zeta in *. unfold obj_fields in Ns. unfold kind_of_class in R, Ns.
    rewrite (up_nt _ _ _ Up), (up_td _ _ _ Up) in *.
    destruct (ci_nt (class_of w c)) as [fs|] eqn:E1; cbn [option_map] in *.
    { destruct (unexpected (map fst fs) ps) eqn:Un; [discriminate|].
      replace (map fst (map (fun kd => (fst kd, option_map grow (snd kd))) fs)) with (map fst fs) by (rewrite map_map; reflexivity).
      pose proof (unexpected_more _ [] _ Un) as Un'. rewrite app_nil_r in Un'. rewrite Un', bind_nt_grow.
      destruct (bind_nt fs ps) as [l|]; [|discriminate]. injection H as <-. reflexivity. }
    destruct (ci_dc (class_of w c)) as [fs|] eqn:E2, (ci_dc (class_of w' c)) as [fs'|]; cbn [kind_rel] in R; try contradiction; try (destruct R as [[l0 [F ->]] O]).
    { refine (fields_grow (fun s => s) false c fs l0 ps r F O _ _ H).
      - intros f g If Ig. rewrite Forall_forall in O. destruct (O f If) as [_ [_ N]]. exact (N g Ig).
      - intros k Ik. apply Ns in Ik. rewrite map_map in Ik. cbn [fst] in Ik. apply in_map_iff in Ik as [g [Eg Ig]]. exists g. auto. }
    1-2: exfalso; destruct (ci_attrs (class_of w c)), (ci_attrs (class_of w' c)), (ci_td (class_of w c)); cbn [kind_rel] in R; contradiction.
    destruct (ci_attrs (class_of w c)) as [fs|] eqn:E3, (ci_attrs (class_of w' c)) as [fs'|]; cbn [kind_rel] in R; try contradiction; try (destruct R as [[l0 [F ->]] O]).
    { refine (fields_grow strip_underscore true c fs l0 ps r F O _ _ H).
      - intros f g If Ig. rewrite Forall_forall in O. destruct (O f If) as [_ [_ N]]. exact (N g Ig).
      - intros k Ik. apply Ns in Ik. rewrite map_map in Ik. cbn [fst] in Ik. apply in_map_iff in Ik as [g [Eg Ig]]. exists g. auto. }
    1-2: exfalso; destruct (ci_td (class_of w c)); cbn [kind_rel] in R; contradiction.
    destruct (ci_td (class_of w c)) as [rq|] eqn:E4; [|discriminate]. injection H as <-. cbn [Evolve.grow]. rewrite !map_map. reflexivity.
  Qed.

  Lemma ev_self c k d : In (k, d) (added c) -> py_eqb d d = true.
  Proof using Up.
    intro I. unfold Evolve.added in I. apply in_flat_map in I as [f [If I]].
    assert (N : new c <> []) by (intro N; rewrite N in If; destruct If).
    destruct (up_kind _ _ _ Up c N) as [_ [_ [_ K]]].
    assert (O : exists b fs, optional_field b fs f).
    { destruct (ci_dc (class_of w c)) as [fs|] eqn:E; [|destruct K as [K|K]; [contradiction|destruct (ci_attrs (class_of w c)) as [fs|] eqn:E2; [|contradiction]]].
      - pose proof (up_new _ _ _ Up c fs E) as F. rewrite Forall_forall in F. exists false, fs. exact (F f If).
      - pose proof (up_new_attrs _ _ _ Up c fs E E2) as F. rewrite Forall_forall in F. exists true, fs. exact (F f If). }
    destruct O as [b [fs [[d' [[D|D] R]] _]]]; rewrite D in I; destruct I as [[= _ <-]|[]]; exact R.
  Qed.
  Lemma ev_hashable v : hashable w' (grow v) = hashable w v.
  Proof using Up.
    induction v as [|b|z|f|s|s|l F|l F|l F|l F|d F|d F|c d F|c d F|c m v IH|c v IH] using value_ind'; try reflexivity.
    - cbn [Evolve.grow hashable]. induction F as [|x l Hx _ IH]; [reflexivity|]. cbn [map forallb]. rewrite Hx, IH. reflexivity.
    - cbn [Evolve.grow hashable]. induction F as [|[k x] l Hx _ IH]; [reflexivity|]. cbn [map forallb fst snd] in *. rewrite Hx, IH. reflexivity.
    - cbn [Evolve.grow hashable]. apply (up_hash _ _ _ Up).
  Qed.
  Lemma ev_member c ms v r : member_for c ms v r -> member_for c (map growf ms) (grow v) (grow r).
  Proof using Up.
    intros [[T ->]|[T [pre [n [x [post [-> [E [N ->]]]]]]]]]; [left; rewrite type_grow; auto|]. right. rewrite type_grow. split; [exact T|].
    exists (map growf pre), n, (grow x), (map growf post). rewrite map_app. split; [reflexivity|].
    rewrite (eq_grow new ev_self). split; [exact E|]. split; [|reflexivity].
    intros n' x' I. apply in_map_iff in I as [[n0 x0] [[= <- <-] I]]. cbn [fst snd]. rewrite (eq_grow new ev_self). exact (N n0 x0 I).
  Qed.
  Lemma ev_no_member c ms v : no_member_for c ms v -> no_member_for c (map growf ms) (grow v).
  Proof using Up.
    intros [T N]. split; [rewrite type_grow; exact T|]. intros n x I. apply in_map_iff in I as [[n0 x0] [[= <- <-] I]]. cbn [fst snd].
    rewrite (eq_grow new ev_self). exact (N n0 x0 I).
  Qed.
  Lemma ev_makes t v r : grow v = v -> makes w t v r -> makes w' t v (grow r).
  Proof using Up.
    intros G M. assert (X : w_call w t v = POk r -> w_call w' t v = POk (grow r)).
    { intro E. destruct (up_call _ _ _ Up t v r G E) as [E' ->]. exact E'. }
    unfold makes in *. destruct t; try exact (X M). rewrite (up_enum _ _ _ Up).
    destruct (ci_enum (class_of w c)) as [ms|]; cbn [option_map]; [|exact (X M)].
    apply ev_member in M. rewrite G in M. exact M.
  Qed.

  (** old data consist of old data *)
  Lemma map_id_in {A} (f : A -> A) l x : map f l = l -> In x l -> f x = x.
  Proof using. induction l as [|y l IH]; intros E I; [destruct I|]. injection E as E1 E2. destruct I as [<-|I]; auto. Qed.
  Lemma part_grow v x : grow v = v -> part v x -> grow x = x.
  Proof using.
    intros G P. destruct P as [v l x E I|d k x I|d k x I|d k x I].
    - destruct v; try discriminate E; cbn [iter] in E; injection E as <-; cbn [Evolve.grow] in G; try (injection G as G; eapply map_id_in; eassumption).
      + clear - I. induction s as [|a s IH]; [destruct I|]. cbn [chars] in I. destruct I as [<-|I]; [reflexivity|apply IH; exact I].
      + clear - I. induction s as [|a s IH]; [destruct I|]. cbn [bytes_of] in I. destruct I as [<-|I]; [reflexivity|apply IH; exact I].
      + injection G as G. apply in_map_iff in I as [[k y] [<- I]]. pose proof (map_id_in _ _ _ G I) as E. injection E as E1 E2. exact E1.
      + injection G as G. apply in_map_iff in I as [[k y] [<- I]]. pose proof (map_id_in _ _ _ G I) as E. injection E as E. exact E.
    - injection G as G. pose proof (map_id_in _ _ _ G I) as E. injection E as E1 E2. exact E2.
    - reflexivity.
    - injection G as G. pose proof (map_id_in _ _ _ G I) as E. injection E as E. exact E.
  Qed.
  Notation old := (old_data new cfg).
  Lemma old_part v x : old v -> part v x -> old x.
  Proof using.
    intros [G [D [N M]]] P. split; [eapply part_grow; eassumption|]. split; [|split].
    - intros d k y I. apply D. eapply rt1n_trans; eassumption.
    - intros a k y I. apply N. eapply rt1n_trans; eassumption.
    - intros a c f b I. apply M with a. eapply rt1n_trans; eassumption.
  Qed.
  Lemma old_item v l x : old v -> elements v l -> In x l -> old x.
  Proof using. intros O [_ E] I. eapply old_part; [exact O|]. eapply part_item; eassumption. Qed.
  Lemma old_dict v d k x : old v -> dict_items cfg v d -> In (k, x) d -> old k /\ old x.
  Proof using.
    intros O [->|[_ [a [-> ->]]]] I.
    - split; (eapply old_part; [exact O|]); [|eapply part_value; exact I]. eapply part_item; [reflexivity|]. apply (in_map fst) in I. exact I.
    - apply in_map_iff in I as [[k0 x0] [[= <- <-] I]]. split; (eapply old_part; [exact O|]); [eapply part_ns_key|eapply part_ns_value]; exact I.
  Qed.
  Lemma ev_items v d : dict_items cfg v d -> dict_items cfg' v d.
  Proof using Same. unfold dict_items. destruct Same as [_ [_ [-> _]]]. auto. Qed.

  Lemma combine_map_r {A B C} (f : B -> C) (l : list A) l' x y : In (x, y) (combine l (map f l')) -> exists z, y = f z /\ In (x, z) (combine l l').
  Proof using.
    revert l'. induction l as [|a l IH]; intros [|b l'] I; cbn [map combine] in I; try contradiction.
    destruct I as [[= <- <-]|I]; [exists b; split; [reflexivity|left; reflexivity]|]. destruct (IH _ I) as [z [E I']]. exists z. split; [exact E|right; exact I'].
  Qed.

  Theorem gives_grow :
    (forall v t r, gives w basic strcons cfg env (fun _ => False) v t r -> old v -> gives w' basic strcons cfg' env (fun _ => False) v t (grow r)) /\
    (forall v t r, reads w basic strcons cfg env (fun _ => False) v t r -> old v -> reads w' basic strcons cfg' env (fun _ => False) v t (grow r)).
  Proof using Up Hstd Hstd' Same.
    pose proof ev_self as DS.
    apply (gives_reads_ind w basic strcons cfg env (fun _ => False)).
    - intro O. apply gv_none.
    - intros v c B N T O. rewrite (proj1 O). apply gv_same; assumption.
    - intros v c r B N T BC M O. apply gv_cast; try assumption; [destruct Same as [-> _]; exact BC|]. apply ev_makes; [apply O|exact M].
    - intros v O. rewrite (proj1 O). apply gv_any.
    - intros v vals I O. rewrite (proj1 O). apply gv_literal. exact I.
    - intros k n t rest v l ys r Su El L Kp _ IH Co O.
      apply (gv_collection w' basic strcons cfg' env (fun _ => False) k n t rest v l (map grow ys)).
      + apply ev_supported. exact Su.
      + exact El.
      + rewrite map_length. exact L.
      + intros x y I K. apply combine_map_r in I as [z [-> I]]. apply ev_kept in K. rewrite (Kp x z I K).
        apply (old_item v l x O El). eapply in_combine_l. exact I.
      + intros x y I K. apply combine_map_r in I as [z [-> I]]. apply (IH x z I).
        * intro K'. apply K. apply ev_kept. exact K'.
        * apply (old_item v l x O El). eapply in_combine_l. exact I.
      + assert (Hh : forallb (hashable w') (map grow ys) = forallb (hashable w) ys).
        { clear - Up. induction ys as [|y ys IH]; [reflexivity|]. cbn [map forallb]. rewrite ev_hashable, IH. reflexivity. }
        unfold collect in *. destruct k; try (injection Co as <-; reflexivity); rewrite Hh; destruct (forallb _ ys); try discriminate;
          injection Co as <-; rewrite (set_of_grow new DS); reflexivity.
    - intros n ts v l ys Fx El L Le Ly _ IH O.
      change (grow (VTuple ys)) with (VTuple (map grow ys)). eapply gv_tuple; try eassumption.
      + destruct Same as [_ [-> _]]. exact Le.
      + rewrite map_length. exact Ly.
      + intros t x y I.
        assert (X : exists z, y = grow z /\ In (t, (x, z)) (combine ts (combine l ys))).
        { clear - I. revert l ys I. induction ts as [|t0 ts IH]; intros [|x0 l] [|y0 ys] I; cbn [map combine] in I; try contradiction.
          destruct I as [[= <- <- <-]|I]; [exists y0; split; [reflexivity|left; reflexivity]|].
          destruct (IH _ _ I) as [z [E I']]. exists z. split; [exact E|right; exact I']. }
        destruct X as [z [-> I']]. apply (IH t x z I'). apply (old_item v l x O El). apply in_combine_r in I'. eapply in_combine_l. exact I'.
    - intros n kt vt v d kvs Sk Sv DI L _ IHk _ IHv Hh O.
      change (grow (VDict (dict_of kvs))) with (VDict (map grows (dict_of kvs))). rewrite <- (dict_of_grow new DS).
      apply (gv_dict w' basic strcons cfg' env (fun _ => False) n kt vt v d (map grows kvs)).
      + apply ev_supported. exact Sk.
      + apply ev_supported. exact Sv.
      + apply ev_items. exact DI.
      + rewrite map_length. exact L.
      + intros k x k' y I. apply combine_map_r in I as [[k0 y0] [[= -> ->] I]]. cbn [fst snd].
        apply (IHk k x k0 y0 I). apply in_combine_l in I. apply (old_dict v d k x O DI I).
      + intros k x k' y I. apply combine_map_r in I as [[k0 y0] [[= -> ->] I]]. cbn [fst snd].
        apply (IHv k x k0 y0 I). apply in_combine_l in I. apply (old_dict v d k x O DI I).
      + intros k I. rewrite map_map in I. cbn [Evolve.grows fst] in I. apply in_map_iff in I as [[k0 y0] [<- I]]. cbn [fst].
        rewrite ev_hashable. apply Hh. apply (in_map fst) in I. exact I.
    - intros v c d ps r OC Rs OD Rq Fe Mf Md _ IH Cn O.
      assert (Nd : forall k x, In (VStr k, x) d -> ~ new_name new cfg k).
      { destruct O as [_ [D [N _]]]. destruct OD as [->|[_ [_ [a [-> ->]]]]].
        - intros k x. apply D. apply rt1n_refl.
        - intros k x I. apply in_map_iff in I as [[k0 x0] [[= <- <-] I]]. apply (N a k0 x0); [apply rt1n_refl|exact I]. }
      apply (gv_object w' basic strcons cfg' env (fun _ => False) v c d (map growf ps)).
      + apply ev_object. exact OC.
      + apply ev_resolvable. exact Rs.
      + unfold obj_data. destruct OD as [->|[De [Rn [a [-> ->]]]]]; [left; reflexivity|right].
        split; [destruct Same as [_ [_ [-> _]]]; exact De|]. split; [|exists a; auto].
        rewrite ev_renames; [exact Rn|]. intros f b I. apply (proj2 (proj2 (proj2 O)) a c f b); [apply rt1n_refl|exact I].
      + rewrite ev_required. exact Rq.
      + intros Q k x I. rewrite ev_field_of.
        * apply (Fe ltac:(destruct Same as [_ [E _]]; rewrite <- E; exact Q) k x I).
        * intros s ->. exact (Nd s x I).
      + rewrite ev_given by exact Nd. rewrite <- Mf. rewrite map_map. reflexivity.
      + intros f I. rewrite map_map in I. cbn [Evolve.growf fst] in I. destruct (Md f I) as [t E]. exists t. apply ev_declared; assumption.
      + rewrite ev_given by exact Nd. intros f x y t I E. apply combine_map_r in I as [[f0 z] [[= E1 ->] I]]. subst f0. cbn [snd].
        assert (If : In f (map fst ps)) by (apply in_combine_r in I; apply (in_map fst) in I; exact I).
        destruct (Md f If) as [t' E']. pose proof (ev_declared c f t' Rs E') as E2.
        assert (t' = t) by congruence. subst t'. apply (IH f x z t I E').
        apply in_combine_l in I. unfold given in I. apply in_flat_map in I as [[k x0] [I J]]. cbn [fst snd] in J.
        destruct (field_of w cfg c k); [|destruct J]. destruct J as [[= _ <-]|[]].
        eapply (old_dict v d k x0 O); [|exact I]. destruct OD as [->|[De [_ Q]]]; [left; reflexivity|right; auto].
      + apply ev_construct; [|intros k I|exact Cn].
        * destruct OC as [_ [_ K]]. intro E. rewrite E in K. exact K.
        * rewrite Mf in I. apply in_map_iff in I as [[f x] [<- I]]. cbn [fst]. unfold given in I. apply in_flat_map in I as [[k x0] [I J]]. cbn [fst snd] in J.
          destruct (field_of w cfg c k) as [f0|] eqn:Ef; [|destruct J]. destruct J as [[= <- _]|[]].
          unfold field_of in Ef. destruct k; try discriminate Ef. apply str_get_In in Ef. apply in_map_iff in Ef as [[f1 e] [[= <- <-] J]].
          apply (in_map fst) in J. exact J.
    - intros v c ms r E NB M O. eapply gv_enum; [rewrite (up_enum _ _ _ Up), E; reflexivity|exact NB|].
      apply ev_member in M. rewrite (proj1 O) in M. exact M.
    - intros v c ms hints n t y r E NB N Hh I _ IH M O.
      assert (Nc : new c = []).
      { destruct (new c) eqn:Q; [reflexivity|]. destruct (up_kind _ _ _ Up c) as [_ [_ [H _]]]; congruence. }
      eapply gv_enum_hint; [rewrite (up_enum _ _ _ Up), E; reflexivity|exact NB| | | |exact (IH O)|apply ev_member; exact M].
      + apply ev_no_member in N. rewrite (proj1 O) in N. exact N.
      + apply ev_hints; eassumption.
      + exact I.
    - intros c x r I Oc E _. destruct (up_iso _ _ _ Up c x r E) as [E' ->]. apply gv_iso; [exact I|apply ev_other; exact Oc|exact E'].
    - intros c v l r I Oc Ns It E O. destruct (up_args _ _ _ Up c l r) as [E' ->]; [|exact E|].
      + rewrite <- (map_id l) at 2. apply map_ext_in. intros x Ix. apply (old_part v x O). eapply part_item; eassumption.
      + eapply gv_args; try eassumption. apply ev_other. exact Oc.
    - intros v r Oc E O. destruct (up_timedelta _ _ _ Up v r (proj1 O) E) as [E' ->]. apply gv_timedelta; [apply ev_other; exact Oc|exact E'].
    - intros v t r T E O. destruct (up_compile _ _ _ Up v r (proj1 O) E) as [E' ->]. eapply gv_pattern; [|exact E'].
      destruct T as [[-> Oc]|T]; [left; split; [reflexivity|apply ev_other; exact Oc]|right; exact T].
    - intros v c r I Oc Sp E O. destruct (up_call _ _ _ Up _ v r (proj1 O) E) as [E' ->]. apply gv_string; try assumption. apply ev_other. exact Oc.
    - intros v n t r _ IH O. apply gv_newtype. exact (IH O).
    - intros v n t r E _ IH O. eapply gv_forward; [exact E|exact (IH O)].
    - intros v n args Ob O. rewrite (proj1 O). apply gv_union_own. exact Ob.
    - intros v n args t r Nb I _ IH O. eapply gv_union; [exact Nb|exact I|exact (IH O)].
    - intros n kt c v d kvs B Un. destruct Un.
    - intros x t y [-> K] O. rewrite (proj1 O). apply rd_same. split; [reflexivity|]. apply ev_kept. exact K.
    - intros x t y _ IH O. apply rd_gives. exact (IH O).
  Qed.
End Evolution.
