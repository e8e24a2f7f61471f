(** * Wider: annotations which accept more (C65)

    A program is changed: the annotations of some fields are replaced by wider ones
    (X by Optional[X] or by a Union with X, a Literal gets more values), and
    fields which were required get a default. *)

From Verif Require Import Loader Spec Vocab Inv Std Obs Reference Evolve.

(** ** Vocabulary *)

Section Wider.
  (** the old program, its settings, the names of the forward references, and the data *)
  Variable w : world.
  Variables basic strcons : list cid.
  Variable cfg : config.
  Variable env : string -> option ty.
  Variable data : value.
  (** the readings of the old program (C43) *)
  Notation reading := (gives w basic strcons cfg env (fun _ => False)).

  (** Inside of a collection the values which List[t] keeps as they are (C10) are
      still kept: for example True in a List[int] which becomes List[Optional[int]]
      is not *)
  Definition still_kept (t t' : ty) : Prop :=
    forall x, inside data x -> kept w basic t x ->
    t' = t \/ t' = TAny \/ exists n args, t' = TGen n OUnion (Some args) /\ own_basic basic args x.

  (** [t'] accepts what [t] accepts *)
  Inductive wider : ty -> ty -> Prop :=
  | wi_same t : wider t t
  (** [t] becomes a union: the values of the other basic types in the union, which
      it leaves as they are (C12), were not read in another way as [t] *)
  | wi_member t t' n args : wider t t' -> In t' args ->
      (forall x r, inside data x -> own_basic basic args x -> reading x t r -> r = x) ->
      wider t (TGen n OUnion (Some args))
  (** a union gets more members *)
  | wi_union n args n' args' :
      (forall c, In c basic -> In (TClass c) args -> In (TClass c) args') ->
      (forall t, In t args -> wider t (TGen n' OUnion (Some args'))) ->
      wider (TGen n OUnion (Some args)) (TGen n' OUnion (Some args'))
  (** Any, if nothing was converted *)
  | wi_any t : (forall x r, inside data x -> reading x t r -> r = x) -> wider t TAny
  | wi_literal vals vals' : incl vals vals' -> wider (TLiteral vals) (TLiteral vals')
  | wi_collection k n t t' rest : wider t t' -> still_kept t t' -> wider (coll_type k n t rest) (coll_type k n t' rest)
  | wi_dict n kt kt' vt vt' : wider kt kt' -> still_kept kt kt' -> wider vt vt' -> still_kept vt vt' ->
      wider (TGen n ODict (Some [kt; vt])) (TGen n ODict (Some [kt'; vt']))
  | wi_tuple n ts ts' : fixed_size ts -> List.length ts' = List.length ts ->
      (forall i t t', nth_error ts i = Some t -> nth_error ts' i = Some t' -> wider t t') ->
      wider (TGen n OTuple (Some ts)) (TGen n OTuple (Some ts'))
  | wi_newtype n t t' : wider t t' -> wider (TNewType n t) (TNewType n t').

  (** the type may change; a required field may get a default *)
  Record wider_field (f f' : field) : Prop := mkWiderField {
    wf_name : f_name f' = f_name f;
    wf_init : f_init f' = f_init f;
    wf_meta : f_meta f' = f_meta f;
    wf_conv : f_conv f' = f_conv f;
    wf_default : f_default f' = f_default f \/ (f_default f = DNo /\ f_init f = true)
  }.
  Definition wider_fields (fs fs' : option (list field)) : Prop :=
    match fs, fs' with Some l, Some l' => Forall2 wider_field l l' | None, None => True | _, _ => False end.

  (** [w'] is the new program; nothing but the annotations and the defaults is new *)
  Record widened (w' : world) : Prop := mkWidened {
    wd_bases : forall c, ci_bases (class_of w' c) = ci_bases (class_of w c);
    wd_enum : forall c, ci_enum (class_of w' c) = ci_enum (class_of w c);
    wd_hash : forall c, ci_hash (class_of w' c) = ci_hash (class_of w c);
    wd_post : forall c fs, ci_post (class_of w' c) fs = ci_post (class_of w c) fs;
    wd_nt : forall c, match ci_nt (class_of w c), ci_nt (class_of w' c) with
      | Some l, Some l' => Forall2 (fun a b => fst b = fst a /\ (snd b = snd a \/ snd a = None)) l l'
      | None, None => True
      | _, _ => False
      end;
    wd_dc : forall c, wider_fields (ci_dc (class_of w c)) (ci_dc (class_of w' c));
    wd_attrs : forall c, wider_fields (ci_attrs (class_of w c)) (ci_attrs (class_of w' c));
    wd_td : forall c, ci_td (class_of w c) = None <-> ci_td (class_of w' c) = None;
    (** the fields have the same names, and wider types *)
    wd_declared : forall c, Forall2 (fun a b => fst b = fst a /\ wider (snd a) (snd b))
      (declared w (pep563 cfg) c) (declared w' (pep563 cfg) c);
    (** nothing else is required *)
    wd_required : forall c, incl (required_names w' cfg c) (required_names w cfg c);
    wd_hints : forall c l, ci_hints (class_of w c) = POk l ->
      exists l', ci_hints (class_of w' c) = POk l' /\ (ci_enum (class_of w c) <> None -> l' = l);
    wd_call : forall t v, w_call w' t v = w_call w t v;
    wd_iso : forall c x, w_fromiso w' c x = w_fromiso w c x;
    wd_args : forall c l, w_callargs w' c l = w_callargs w c l;
    wd_timedelta : forall v, w_timedelta w' v = w_timedelta w v;
    wd_compile : forall v, w_compile w' v = w_compile w v
  }.
End Wider.

(** ** The readings of the data in the new program *)
Section Widening.
  Variables w w' : world.
  Variables basic strcons : list cid.
  Variables cfg cfg' : config.
  Variable env : string -> option ty.
  Variable data : value.
  Hypothesis Wd : widened w basic strcons cfg env data w'.
  Hypothesis Hstd : is_std w basic strcons cfg.
  Hypothesis Hstd' : is_std w' basic strcons cfg'.
  Hypothesis Same : equal_settings cfg cfg'.
  Notation wider := (wider w basic strcons cfg env data).
  Notation still_kept := (still_kept w basic data).
  Notation old := (gives w basic strcons cfg env (fun _ => False)).
  Notation new := (gives w' basic strcons cfg' env (fun _ => False)).

  Lemma wd_isinstance v c : isinstance w' v c = isinstance w v c.
  Proof using Wd. unfold isinstance. f_equal. destruct (type_of v); try reflexivity. cbn [mro]. f_equal. apply (wd_bases _ _ _ _ _ _ _ Wd (CUser _)). Qed.
  Lemma wd_kept t x : kept w' basic t x <-> kept w basic t x.
  Proof using Wd. unfold kept. split; intros [c H]; exists c; [rewrite <- wd_isinstance|rewrite wd_isinstance]; exact H. Qed.
  Lemma wd_hashable v : hashable w' v = hashable w v.
  Proof using Wd.
    induction v as [|b|z|f|s|s|l F|l F|l F|l F|d F|d F|c d F|c d F|c m v IH|c v IH] using value_ind'; try reflexivity.
    - cbn [hashable]. induction F as [|x l Hx _ IH]; [reflexivity|]. cbn [forallb]. rewrite Hx, IH. reflexivity.
    - cbn [hashable]. induction F as [|[k x] l Hx _ IH]; [reflexivity|]. cbn [forallb fst snd] in *. rewrite Hx, IH. reflexivity.
    - cbn [hashable]. apply (wd_hash _ _ _ _ _ _ _ Wd).
  Qed.
  Lemma wd_makes t v r : makes w t v r -> makes w' t v r.
  Proof using Wd. unfold makes. destruct t; rewrite ?(wd_call _ _ _ _ _ _ _ Wd), ?(wd_enum _ _ _ _ _ _ _ Wd); auto. Qed.
  Lemma wd_collect k ys : collect w' k ys = collect w k ys.
  Proof using Wd.
    assert (Hh : forallb (hashable w') ys = forallb (hashable w) ys) by (induction ys as [|y ys IH]; [reflexivity|cbn [forallb]; rewrite wd_hashable, IH; reflexivity]).
    unfold collect. rewrite Hh. reflexivity.
  Qed.

  (** kinds *)
  Definition wkind_rel (k k' : option kind) : Prop :=
    match k, k' with
    | None, None => True
    | Some (KNT l), Some (KNT l') => Forall2 (fun a b => fst b = fst a /\ (snd b = snd a \/ snd a = None)) l l'
    | Some (KDC l), Some (KDC l') | Some (KAT l), Some (KAT l') => Forall2 wider_field l l'
    | Some (KTD _), Some (KTD _) => True
    | _, _ => False
    end.
  Lemma wd_kind c : wkind_rel (kind_of_class w c) (kind_of_class w' c).
  Proof using Wd.
    unfold kind_of_class. pose proof (wd_nt _ _ _ _ _ _ _ Wd c) as N.
    destruct (ci_nt (class_of w c)), (ci_nt (class_of w' c)); try contradiction; [exact N|].
    pose proof (wd_dc _ _ _ _ _ _ _ Wd c) as D. destruct (ci_dc (class_of w c)), (ci_dc (class_of w' c)); try contradiction; [exact D|].
    pose proof (wd_attrs _ _ _ _ _ _ _ Wd c) as A. destruct (ci_attrs (class_of w c)), (ci_attrs (class_of w' c)); try contradiction; [exact A|].
    pose proof (wd_td _ _ _ _ _ _ _ Wd c) as T. destruct (ci_td (class_of w c)), (ci_td (class_of w' c)); cbn; try exact I.
    - destruct T as [_ T]. discriminate (T eq_refl).
    - destruct T as [T _]. discriminate (T eq_refl).
  Qed.
  Lemma wd_other c : other_class w basic c -> other_class w' basic c.
  Proof using Wd.
    intros [N [E [Nt [D T]]]]. split; [exact N|]. rewrite (wd_enum _ _ _ _ _ _ _ Wd). split; [exact E|].
    pose proof (wd_nt _ _ _ _ _ _ _ Wd c) as X. rewrite Nt in X. destruct (ci_nt (class_of w' c)); [contradiction|].
    pose proof (wd_dc _ _ _ _ _ _ _ Wd c) as Y. rewrite D in Y. destruct (ci_dc (class_of w' c)); [contradiction|].
    apply (wd_td _ _ _ _ _ _ _ Wd) in T. auto.
  Qed.
  Lemma wd_object c : object_class w basic strcons c -> object_class w' basic strcons c.
  Proof using Wd.
    intros [N [E K]]. split; [exact N|]. rewrite (wd_enum _ _ _ _ _ _ _ Wd), E. split; [reflexivity|].
    pose proof (wd_kind c) as R. destruct (kind_of_class w c) as [[]|], (kind_of_class w' c) as [[]|]; try contradiction; auto.
  Qed.
  Lemma wd_find t : find_handler cfg' t = find_handler cfg t.
  Proof using Hstd Hstd' Wd.
    rewrite (find_std w basic strcons cfg t Hstd), (find_std w' basic strcons cfg' t Hstd'). unfold chain.
    assert (X : is_enum w' t = is_enum w t /\ is_namedtuple w' t = is_namedtuple w t /\ is_dataclass w' t = is_dataclass w t /\
                is_typeddict w' t = is_typeddict w t /\ is_attrs w' t = is_attrs w t).
    { destruct t as [c| | | | | | | ]; repeat split.
      - unfold is_enum. rewrite (wd_enum _ _ _ _ _ _ _ Wd). reflexivity.
      - unfold is_namedtuple. pose proof (wd_nt _ _ _ _ _ _ _ Wd c) as D. destruct (ci_nt (class_of w c)), (ci_nt (class_of w' c)); (contradiction || reflexivity).
      - unfold is_dataclass. pose proof (wd_dc _ _ _ _ _ _ _ Wd c) as D. destruct (ci_dc (class_of w c)), (ci_dc (class_of w' c)); (contradiction || reflexivity).
      - unfold is_typeddict. pose proof (wd_td _ _ _ _ _ _ _ Wd c) as [T T']. destruct (ci_td (class_of w c)), (ci_td (class_of w' c)); try reflexivity.
        + discriminate (T' eq_refl).
        + discriminate (T eq_refl).
      - unfold is_attrs. pose proof (wd_attrs _ _ _ _ _ _ _ Wd c) as D. destruct (ci_attrs (class_of w c)), (ci_attrs (class_of w' c)); (contradiction || reflexivity). }
    destruct X as [-> [-> [-> [-> ->]]]]. reflexivity.
  Qed.
  Lemma wd_supported t : supported cfg t -> supported cfg' t.
  Proof using Hstd Hstd' Wd. rewrite !supported_find, wd_find. auto. Qed.

  Lemma wider_supported t t' : wider t t' -> supported cfg t -> supported cfg' t'.
  Proof using Hstd Hstd' Wd.
    intros W Sp. destruct W as [t|t t' n args _ I _|n args n' args' _ _|t _|vals vals' _|k n t t' rest _ _|n kt kt' vt vt' _ _ _ _|n ts ts' _ _ _|n t t' _];
      [exact (wd_supported t Sp)|..]; apply supported_find; rewrite (find_std w' basic strcons cfg' _ Hstd'); try (destruct k); cbn; eexists; reflexivity.
  Qed.
  Lemma wider_kept t t' x : wider t t' -> kept w basic t' x -> t' = t.
  Proof using.
    intros W [c [-> [I E]]]. inversion W; subst; try reflexivity. destruct k; discriminate.
  Qed.

  (** fields *)
  Lemma wd_pep : pep563 cfg' = pep563 cfg. Proof using Same. apply Same. Qed.
  Lemma wd_given_name b f f' : wider_field f f' -> given_name cfg' b f' = given_name cfg b f.
  Proof using Same. intro F. unfold given_name. destruct Same as [_ [_ [_ [-> _]]]]. rewrite (wf_meta _ _ F). reflexivity. Qed.
  Lemma wd_external b f f' : wider_field f f' -> external cfg' b f' = external cfg b f.
  Proof using Same. intro F. unfold external. rewrite (wd_given_name b f f' F), (wf_name _ _ F). reflexivity. Qed.
  Lemma wd_external_cfg b f : external cfg' b f = external cfg b f.
  Proof using Same. unfold external, given_name. destruct Same as [_ [_ [_ [-> _]]]]. reflexivity. Qed.
  Lemma wd_ofields b l l' : Forall2 wider_field l l' -> map (fun f => (f_name f, external cfg' b f)) l' = map (fun f => (f_name f, external cfg b f)) l.
  Proof using Same. induction 1 as [|f f' l l' F _ IH]; [reflexivity|]. cbn [map]. rewrite IH, (wd_external b f f' F), (wf_name _ _ F). reflexivity. Qed.
  Lemma wd_names c : map fst (declared w' (pep563 cfg) c) = map fst (declared w (pep563 cfg) c).
  Proof using Wd. pose proof (wd_declared _ _ _ _ _ _ _ Wd c) as F. induction F as [|a b l l' [E _] _ IH]; [reflexivity|]. cbn [map]. rewrite E, IH. reflexivity. Qed.
  Lemma wd_fields c : obj_fields w' cfg' c = obj_fields w cfg c.
  Proof using Wd Same.
    unfold obj_fields. rewrite wd_pep. pose proof (wd_kind c) as K.
    assert (X : map (fun kt : string * ty => (fst kt, fst kt)) (declared w' (pep563 cfg) c) = map (fun kt => (fst kt, fst kt)) (declared w (pep563 cfg) c)).
    { rewrite <- (map_map fst (fun k => (k, k))), wd_names, map_map. reflexivity. }
    destruct (kind_of_class w c) as [[]|], (kind_of_class w' c) as [[]|]; try contradiction; try exact X; apply wd_ofields; exact K.
  Qed.
  Lemma wd_field_of c k : field_of w' cfg' c k = field_of w cfg c k.
  Proof using Wd Same. unfold field_of. rewrite wd_fields. reflexivity. Qed.
  Lemma wd_given c d : given w' cfg' c d = given w cfg c d.
  Proof using Wd Same. unfold given. induction d as [|[k x] d IH]; [reflexivity|]. cbn [flat_map]. rewrite wd_field_of, IH. reflexivity. Qed.
  Lemma wd_requires c e : In e (required_names w' cfg' c) -> In e (required_names w cfg c).
  Proof using Wd Same.
    intro I. apply (wd_required _ _ _ _ _ _ _ Wd c). revert I. unfold required_names, obj_required. rewrite wd_pep.
    destruct (kind_of_class w' c) as [[]|]; auto; intro I; apply in_map_iff in I as [f [E I]]; apply in_map_iff; exists f; rewrite <- wd_external_cfg; auto.
  Qed.
  Lemma wd_resolvable c : resolvable w cfg c -> resolvable w' cfg' c.
  Proof using Wd Same.
    unfold resolvable. rewrite wd_pep. pose proof (wd_kind c) as K.
    assert (X : (pep563 cfg = true -> exists l, ci_hints (class_of w c) = POk l) -> pep563 cfg = true -> exists l, ci_hints (class_of w' c) = POk l).
    { intros H P. destruct (H P) as [l E]. destruct (wd_hints _ _ _ _ _ _ _ Wd c l E) as [l' [E' _]]. exists l'. exact E'. }
    destruct (kind_of_class w c) as [[nt|fs|fs|q]|], (kind_of_class w' c) as [[nt'|fs'|fs'|q']|]; try contradiction; try exact X.
    intros H f' hs I E. assert (Y : exists f, In f fs /\ wider_field f f').
    { clear - K I. induction K as [|a b l l' F _ IH]; [destruct I|]. destruct I as [<-|I]; [exists a; split; [left; reflexivity|exact F]|].
      destruct (IH I) as [f [J Ff]]. exists f. split; [right; exact J|exact Ff]. }
    destruct Y as [f [J F]]. apply (H f hs J). rewrite <- (wf_conv _ _ F). exact E.
  Qed.
  Lemma wd_renames c : renames w' cfg' c = renames w cfg c.
  Proof using Wd Same.
    unfold renames. pose proof (wd_kind c) as K.
    assert (X : forall b l l', Forall2 wider_field l l' -> existsb (fun f => match given_name cfg' b f with Some _ => true | None => false end) l' =
      existsb (fun f => match given_name cfg b f with Some _ => true | None => false end) l).
    { intros b l l' F. induction F as [|f f' l l' F _ IH]; [reflexivity|]. cbn [existsb]. rewrite IH, (wd_given_name b f f' F). reflexivity. }
    destruct (kind_of_class w c) as [[]|], (kind_of_class w' c) as [[]|]; try contradiction; try reflexivity; apply X; exact K.
  Qed.
  Lemma wd_type c f t : str_get f (declared w (pep563 cfg) c) = Some t -> exists t', str_get f (declared w' (pep563 cfg') c) = Some t' /\ wider t t'.
  Proof using Wd Same.
    rewrite wd_pep. pose proof (wd_declared _ _ _ _ _ _ _ Wd c) as F. induction F as [|[k a] [k' b] l l' [E W] _ IH]; [discriminate|].
    cbn [fst snd] in E, W. subst k'. cbn [str_get]. destruct (String.eqb f k); [|exact IH]. intros [= <-]. exists b. auto.
  Qed.

  (** constructors *)
  Lemma bind_nt_wider l l' ps r : Forall2 (fun a b => fst b = fst a /\ (snd b = snd a \/ snd a = None)) l l' -> bind_nt l ps = Some r -> bind_nt l' ps = Some r.
  Proof using.
    intro F. revert r. induction F as [|[k d] [k' d'] l l' [E D] _ IH]; intros r B; [exact B|]. cbn [fst snd] in E, D. subst k'. cbn [bind_nt] in *.
    destruct (str_get k ps) as [x|].
    - destruct (bind_nt l ps) as [r0|]; [|discriminate B]. rewrite (IH r0 eq_refl). exact B.
    - destruct d as [x|]; [|discriminate B]. destruct D as [->|D]; [|discriminate D].
      destruct (bind_nt l ps) as [r0|]; [|discriminate B]. rewrite (IH r0 eq_refl). exact B.
  Qed.
  Lemma bind_wider an l l' ps r : Forall2 wider_field l l' -> forall sofar, bind_fields an l ps sofar = Some r -> bind_fields an l' ps sofar = Some r.
  Proof using.
    intro F. induction F as [|f f' l l' Ff _ IH]; intros sofar B; [exact B|]. cbn [bind_fields] in *. rewrite (wf_init _ _ Ff), (wf_name _ _ Ff).
    destruct (wf_default _ _ Ff) as [->|[D I]].
    - destruct (f_init f).
      + destruct (str_get (an (f_name f)) ps); [apply IH; exact B|]. destruct (default_of (f_default f) sofar); [apply IH; exact B|discriminate B].
      + destruct (default_of (f_default f) sofar); apply IH; exact B.
    - rewrite I in *. destruct (str_get (an (f_name f)) ps); [apply IH; exact B|]. rewrite D in B. discriminate B.
  Qed.
  Lemma args_wider (an : string -> string) l l' : Forall2 wider_field l l' -> map (fun f => an (f_name f)) (filter f_init l') = map (fun f => an (f_name f)) (filter f_init l).
  Proof using.
    induction 1 as [|f f' l l' F _ IH]; [reflexivity|]. cbn [filter]. rewrite (wf_init _ _ F). destruct (f_init f); [|exact IH].
    cbn [map]. rewrite (wf_name _ _ F), IH. reflexivity.
  Qed.
  Lemma fields_wider an c l l' ps r : Forall2 wider_field l l' -> construct_fields w an c l ps = POk r -> construct_fields w' an c l' ps = POk r.
  Proof using Wd.
    intros F. unfold construct_fields. rewrite (args_wider an l l' F). destruct (unexpected _ ps); [discriminate|].
    destruct (bind_fields an l ps []) as [vals|] eqn:B; [|discriminate]. rewrite (bind_wider an l l' ps vals F [] B), (wd_post _ _ _ _ _ _ _ Wd). auto.
  Qed.
  Lemma wd_construct c ps r : construct w (TClass c) ps = POk r -> construct w' (TClass c) ps = POk r.
  Proof using Wd.
    cbn [construct]. pose proof (wd_nt _ _ _ _ _ _ _ Wd c) as N.
    destruct (ci_nt (class_of w c)) as [l|], (ci_nt (class_of w' c)) as [l'|]; try contradiction.
    { assert (E : map fst l' = map fst l) by (clear - N; induction N as [|a b l l' [E _] _ IH]; [reflexivity|cbn [map]; rewrite E, IH; reflexivity]).
      rewrite E. destruct (unexpected _ ps); [discriminate|]. destruct (bind_nt l ps) as [x|] eqn:B; [|discriminate]. rewrite (bind_nt_wider l l' ps x N B). auto. }
    pose proof (wd_dc _ _ _ _ _ _ _ Wd c) as D. destruct (ci_dc (class_of w c)), (ci_dc (class_of w' c)); try contradiction; [apply fields_wider; exact D|].
    pose proof (wd_attrs _ _ _ _ _ _ _ Wd c) as A. destruct (ci_attrs (class_of w c)), (ci_attrs (class_of w' c)); try contradiction; [apply fields_wider; exact A|].
    pose proof (wd_td _ _ _ _ _ _ _ Wd c) as [T T']. destruct (ci_td (class_of w c)), (ci_td (class_of w' c)); auto.
    - discriminate (T' eq_refl).
    - discriminate.
  Qed.

  (** the data *)
  Lemma inside_part v x y : inside v x -> part x y -> inside v y.
  Proof using. intros I P. induction I as [x|x z u Q I IH]; [eapply rt1n_trans; [exact P|apply rt1n_refl]|]. eapply rt1n_trans; [exact Q|exact (IH P)]. Qed.
  Notation here := (inside data).
  Lemma here_item v l x : here v -> elements v l -> In x l -> here x.
  Proof using. intros H [_ E] I. eapply inside_part; [exact H|]. eapply part_item; eassumption. Qed.
  Lemma here_dict v d k x : here v -> dict_items cfg v d -> In (k, x) d -> here k /\ here x.
  Proof using.
    intros H [->|[_ [a [-> ->]]]] I.
    - split; (eapply inside_part; [exact H|]); [|eapply part_value; exact I]. eapply part_item; [reflexivity|]. apply (in_map fst) in I. exact I.
    - apply in_map_iff in I as [[k0 x0] [[= <- <-] I]]. split; (eapply inside_part; [exact H|]); [eapply part_ns_key|eapply part_ns_value]; exact I.
  Qed.
  Lemma wd_items v d : dict_items cfg v d -> dict_items cfg' v d.
  Proof using Same. unfold dict_items. destruct Same as [_ [_ [-> _]]]. auto. Qed.

  (** a value which was kept in a collection *)
  Lemma kept_now t t' x : here x -> still_kept t t' -> kept w basic t x -> kept w' basic t' x \/ new x t' x.
  Proof using Wd.
    intros H S K. destruct (S x H K) as [->|[->|[n [args [-> O]]]]].
    - left. apply wd_kept. exact K.
    - right. apply gv_any.
    - right. apply gv_union_own. exact O.
  Qed.

  (** [wider] without the rules for every type *)
  Inductive step : ty -> ty -> Prop :=
  | st_same t : step t t
  | st_union n args n' args' :
      (forall c, In c basic -> In (TClass c) args -> In (TClass c) args') ->
      (forall t, In t args -> wider t (TGen n' OUnion (Some args'))) ->
      step (TGen n OUnion (Some args)) (TGen n' OUnion (Some args'))
  | st_literal vals vals' : incl vals vals' -> step (TLiteral vals) (TLiteral vals')
  | st_collection k n t t' rest : wider t t' -> still_kept t t' -> step (coll_type k n t rest) (coll_type k n t' rest)
  | st_dict n kt kt' vt vt' : wider kt kt' -> still_kept kt kt' -> wider vt vt' -> still_kept vt vt' ->
      step (TGen n ODict (Some [kt; vt])) (TGen n ODict (Some [kt'; vt']))
  | st_tuple n ts ts' : fixed_size ts -> List.length ts' = List.length ts ->
      (forall i t t', nth_error ts i = Some t -> nth_error ts' i = Some t' -> wider t t') ->
      step (TGen n OTuple (Some ts)) (TGen n OTuple (Some ts'))
  | st_newtype n t t' : wider t t' -> step (TNewType n t) (TNewType n t').

  Lemma own_dec args v : own_basic basic args v \/ ~ own_basic basic args v.
  Proof using.
    unfold own_basic. destruct (mem_cid (type_of v) basic) eqn:E.
    - destruct (mem_ty (TClass (type_of v)) args) eqn:F.
      + left. split; [apply mem_cid_In; exact E|apply mem_ty_In; exact F].
      + right. intros [_ I]. apply mem_ty_In in I. congruence.
    - right. intros [I _]. apply mem_cid_In in I. congruence.
  Qed.

  Lemma widen v t r : old v t r -> here v -> (forall t', step t t' -> new v t' r) -> forall t', wider t t' -> new v t' r.
  Proof using.
    intros O H S t' W.
    induction W as [t|t t' n args W IH I C|n args n' args' B C _|t C|vals vals' C|k n t t' rest W _ K|n kt kt' vt vt' Wk _ Kk Wv _ Kv|n ts ts' Fx L C _|n t t' W _].
    - apply S. constructor.
    - specialize (IH O S). destruct (own_dec args v) as [Ow|Ow].
      + rewrite (C v r H Ow O). apply gv_union_own. exact Ow.
      + eapply gv_union; eassumption.
    - apply S. constructor; assumption.
    - rewrite (C v r H O). apply gv_any.
    - apply S. constructor; assumption.
    - apply S. constructor; assumption.
    - apply S. constructor; assumption.
    - apply S. constructor; assumption.
    - apply S. constructor; assumption.
  Qed.

  Lemma step_class c T : step (TClass c) T -> T = TClass c.
  Proof using. intro S. inversion S; subst; try reflexivity. destruct k; discriminate. Qed.
  Lemma step_any T : step TAny T -> T = TAny.
  Proof using. intro S. inversion S; subst; try reflexivity. destruct k; discriminate. Qed.
  Lemma step_forward n T : step (TForward n) T -> T = TForward n.
  Proof using. intro S. inversion S; subst; try reflexivity. destruct k; discriminate. Qed.
  Lemma step_pattern n a T : step (TGen n OPattern a) T -> T = TGen n OPattern a.
  Proof using. intro S. inversion S; subst; try reflexivity. destruct k; discriminate. Qed.
  Lemma step_literal vals T : step (TLiteral vals) T -> exists vals', T = TLiteral vals' /\ incl vals vals'.
  Proof using. intro S. inversion S; subst; [exists vals; split; [reflexivity|apply incl_refl]|eauto|destruct k; discriminate]. Qed.
  Lemma step_newtype n t T : step (TNewType n t) T -> exists t', T = TNewType n t' /\ wider t t'.
  Proof using. intro S. inversion S; subst; [exists t; split; [reflexivity|constructor]|destruct k; discriminate|eauto]. Qed.
  Lemma kept_same t : still_kept t t.
  Proof using. intros x _ _. left. reflexivity. Qed.
  Lemma step_dict n kt vt T : step (TGen n ODict (Some [kt; vt])) T -> exists kt' vt', T = TGen n ODict (Some [kt'; vt']) /\
    wider kt kt' /\ still_kept kt kt' /\ wider vt vt' /\ still_kept vt vt'.
  Proof using.
    intro S. inversion S; subst.
    - exists kt, vt. split; [reflexivity|]. repeat split; (apply kept_same || constructor).
    - destruct k; discriminate.
    - exists kt', vt'. auto.
  Qed.
  Lemma step_collection k n t rest T : step (coll_type k n t rest) T -> exists t', T = coll_type k n t' rest /\ wider t t' /\ still_kept t t'.
  Proof using.
    intro S. inversion S as [t0 E1 E2|n0 args n' args' B C E1 E2|vals vals' C E1 E2|k0 n0 t0 t' rest0 W K E1 E2|n0 kt kt' vt vt' Wk Kk Wv Kv E1 E2|n0 ts ts' Fx L C E1 E2|n0 t0 t' W E1 E2].
    - exists t. split; [reflexivity|]. split; [constructor|apply kept_same].
    - destruct k; discriminate.
    - destruct k; discriminate.
    - destruct k, k0; try discriminate E1; cbn [coll_type] in E1; injection E1; intros; subst; exists t'; (split; [reflexivity|split; assumption]).
    - destruct k; discriminate.
    - destruct k; try discriminate E1. cbn [coll_type] in E1. injection E1 as _ Et. destruct (Fx t Et).
    - destruct k; discriminate.
  Qed.
  Lemma step_tuple n ts T : fixed_size ts -> step (TGen n OTuple (Some ts)) T -> exists ts', T = TGen n OTuple (Some ts') /\ List.length ts' = List.length ts /\
    forall i t t', nth_error ts i = Some t -> nth_error ts' i = Some t' -> wider t t'.
  Proof using.
    intros Fx S. inversion S as [t0 E1 E2|n0 args n' args' B C E1 E2|vals vals' C E1 E2|k0 n0 t0 t' rest0 W K E1 E2|n0 kt kt' vt vt' Wk Kk Wv Kv E1 E2|n0 ts0 ts' Fx0 L C E1 E2|n0 t0 t' W E1 E2]; subst.
    - exists ts. split; [reflexivity|]. split; [reflexivity|]. intros i t t' E E'. assert (t' = t) by congruence. subst t'. constructor.
    - destruct k0; try discriminate E1. cbn [coll_type] in E1. injection E1 as _ Et. destruct (Fx t0 (eq_sym Et)).
    - exists ts'. auto.
  Qed.
  Lemma wider_ellipsis t : wider t TEllipsis -> t = TEllipsis.
  Proof using. intro W. inversion W; subst; try reflexivity. destruct k; discriminate. Qed.
  Lemma fixed_wider ts ts' : fixed_size ts -> List.length ts' = List.length ts ->
    (forall i t t', nth_error ts i = Some t -> nth_error ts' i = Some t' -> wider t t') -> fixed_size ts'.
  Proof using.
    intros Fx L C t E. subst ts'. destruct ts as [|a [|b [|]]]; try discriminate L. pose proof (C 1 b TEllipsis eq_refl eq_refl) as W. apply wider_ellipsis in W. subst b. exact (Fx a eq_refl).
  Qed.
  Lemma combine_nth {A B} (l : list A) (l' : list B) x y : In (x, y) (combine l l') -> exists i, nth_error l i = Some x /\ nth_error l' i = Some y.
  Proof using.
    revert l'. induction l as [|a l IH]; intros [|b l'] I; cbn [combine] in I; try contradiction.
    destruct I as [[= <- <-]|I]; [exists 0; split; reflexivity|]. destruct (IH l' I) as [i [E E']]. exists (S i). split; assumption.
  Qed.
  Lemma nth_combine {A B} (l : list A) (l' : list B) i x y : nth_error l i = Some x -> nth_error l' i = Some y -> In (x, y) (combine l l').
  Proof using.
    revert l' i. induction l as [|a l IH]; intros [|b l'] [|i] E E'; try discriminate.
    - injection E as <-. injection E' as <-. left. reflexivity.
    - right. exact (IH l' i E E').
  Qed.

  Lemma nth_error_Some_lt {A} (l : list A) i x : nth_error l i = Some x -> i < List.length l.
  Proof using. intro E. apply nth_error_Some. congruence. Qed.
  Lemma kept_dec t x : kept w basic t x \/ ~ kept w basic t x.
  Proof using.
    unfold kept. destruct t as [c| | | | | | | ]; try (right; intros [c0 [E _]]; discriminate E).
    destruct (mem_cid c basic) eqn:B; [|right; intros [c0 [[= <-] [I _]]]; apply mem_cid_In in I; congruence].
    destruct (isinstance w x c) eqn:I; [|right; intros [c0 [[= <-] [_ J]]]; congruence].
    left. exists c. split; [reflexivity|]. split; [apply mem_cid_In; exact B|exact I].
  Qed.

  Theorem gives_wider :
    (forall v t r, old v t r -> here v -> forall t', wider t t' -> new v t' r) /\
    (forall v t r, reads w basic strcons cfg env (fun _ => False) v t r -> here v -> forall t', wider t t' -> still_kept t t' ->
       reads w' basic strcons cfg' env (fun _ => False) v t' r).
  Proof using Wd Hstd Hstd' Same.
    assert (Bc : basiccast cfg' = basiccast cfg) by apply Same. assert (Fe : failonextra cfg' = failonextra cfg) by apply Same.
    apply gives_reads_ind.
    - intros H. apply widen; [constructor|exact H|]. intros T S. apply step_class in S as ->. constructor.
    - intros v c B N Ty H. apply widen; [constructor; assumption|exact H|]. intros T S. apply step_class in S as ->. constructor; assumption.
    - intros v c r B N Ty Ba M H. apply widen; [eapply gv_cast; eassumption|exact H|]. intros T S. apply step_class in S as ->.
      apply gv_cast; try assumption; [congruence|apply wd_makes; exact M].
    - intros v H. apply widen; [constructor|exact H|]. intros T S. apply step_any in S as ->. constructor.
    - intros v vals P H. apply widen; [constructor; exact P|exact H|]. intros T S. apply step_literal in S as [vals' [-> I]].
      constructor. unfold py_in in *. apply existsb_exists in P as [x [J E]]. apply existsb_exists. exists x. split; [apply I; exact J|exact E].
    - intros k n t rest v l ys r Sp El L Kp Gv IH Co H.
      apply widen; [eapply gv_collection; eassumption|exact H|]. intros T S. apply step_collection in S as [t' [-> [W K]]].
      apply (gv_collection w' basic strcons cfg' env (fun _ => False) k n t' rest v l ys r); try assumption.
      + eapply wider_supported; eassumption.
      + intros x y I Kx. apply wd_kept in Kx. pose proof (wider_kept t t' x W Kx) as ->. exact (Kp x y I Kx).
      + intros x y I Kx. assert (Hx : here x) by (eapply here_item; [exact H|exact El|eapply in_combine_l; exact I]).
        destruct (kept_dec t x) as [Ko|Ko].
        * rewrite (Kp x y I Ko). destruct (kept_now t t' x Hx K Ko) as [Kn|G]; [contradiction|exact G].
        * exact (IH x y I Ko Hx t' W).
      + rewrite wd_collect. exact Co.
    - intros n ts v l ys Fx El L Le Ly Gv IH H.
      apply widen; [eapply gv_tuple; eassumption|exact H|]. intros T S. apply (step_tuple n ts T Fx) in S as [ts' [-> [L' C]]].
      apply (gv_tuple w' basic strcons cfg' env (fun _ => False) n ts' v l ys); try (rewrite L'); try assumption.
      + eapply fixed_wider; eassumption.
      + rewrite Fe. exact Le.
      + intros t' x y I. destruct (combine_nth _ _ _ _ I) as [i [E1 E2]].
        destruct (nth_error ts i) as [t|] eqn:E; [|apply nth_error_None in E; apply nth_error_Some_lt in E1; lia].
        assert (J : In (t, (x, y)) (combine ts (combine l ys))) by (eapply nth_combine; eassumption).
        apply (IH t x y J); [|exact (C i t t' E E1)].
        eapply here_item; [exact H|exact El|]. apply in_combine_r in J. eapply in_combine_l. exact J.
    - intros n kt vt v d kvs Sk Sv DI L Gk IHk Gv IHv Hh H.
      apply widen; [eapply gv_dict; eassumption|exact H|]. intros T S. apply step_dict in S as [kt' [vt' [-> [Wk [Kk [Wv Kv]]]]]].
      apply (gv_dict w' basic strcons cfg' env (fun _ => False) n kt' vt' v d kvs); try assumption.
      + eapply wider_supported; eassumption.
      + eapply wider_supported; eassumption.
      + apply wd_items. exact DI.
      + intros k x k' y I. apply (IHk k x k' y I); try assumption. apply in_combine_l in I. apply (here_dict v d k x H DI I).
      + intros k x k' y I. apply (IHv k x k' y I); try assumption. apply in_combine_l in I. apply (here_dict v d k x H DI I).
      + intros k I. rewrite wd_hashable. exact (Hh k I).
    - intros v c d ps r OC Rs OD Rq Fx Mf Md Gv IH Cn H.
      apply widen; [eapply gv_object; eassumption|exact H|]. intros T S. apply step_class in S as ->.
      apply (gv_object w' basic strcons cfg' env (fun _ => False) v c d ps).
      + apply wd_object. exact OC.
      + apply wd_resolvable. exact Rs.
      + unfold obj_data. rewrite wd_renames. destruct Same as [_ [_ [-> _]]]. exact OD.
      + intros e I. apply Rq. apply wd_requires. exact I.
      + rewrite Fe. intros Q k x I. rewrite wd_field_of. exact (Fx Q k x I).
      + rewrite wd_given. exact Mf.
      + intros f I. destruct (Md f I) as [t E]. destruct (wd_type c f t E) as [t' [E' _]]. exists t'. exact E'.
      + rewrite wd_given. intros f x y t' I E'.
        assert (If : In f (map fst ps)) by (apply in_combine_r in I; apply (in_map fst) in I; exact I).
        destruct (Md f If) as [t E]. destruct (wd_type c f t E) as [t2 [E2 W]]. assert (t2 = t') by congruence. subst t2.
        apply (IH f x y t I E); [|exact W].
        apply in_combine_l in I. unfold given in I. apply in_flat_map in I as [[k x0] [I J]]. cbn [fst snd] in J.
        destruct (field_of w cfg c k); [|destruct J]. destruct J as [[= _ <-]|[]].
        eapply (here_dict v d k x0 H); [|exact I]. destruct OD as [->|[De [_ Q]]]; [left; reflexivity|right; auto].
      + apply wd_construct. exact Cn.
    - intros v c ms r E NB M H. apply widen; [eapply gv_enum; eassumption|exact H|]. intros T S. apply step_class in S as ->.
      eapply gv_enum; [rewrite (wd_enum _ _ _ _ _ _ _ Wd); exact E|exact NB|exact M].
    - intros v c ms hints n t y r E NB N Hh I Gv IH M H. apply widen; [eapply gv_enum_hint; eassumption|exact H|]. intros T S. apply step_class in S as ->.
      destruct (wd_hints _ _ _ _ _ _ _ Wd c hints Hh) as [l' [E' Q]]. rewrite Q in E' by congruence.
      eapply gv_enum_hint; [rewrite (wd_enum _ _ _ _ _ _ _ Wd); exact E|exact NB|exact N|exact E'|exact I|exact (IH H t (wi_same _ _ _ _ _ _ t))|exact M].
    - intros c x r I Oc E H. apply widen; [eapply gv_iso; eassumption|exact H|]. intros T S. apply step_class in S as ->.
      apply gv_iso; [exact I|apply wd_other; exact Oc|rewrite (wd_iso _ _ _ _ _ _ _ Wd); exact E].
    - intros c v l r I Oc Ns It E H. apply widen; [eapply gv_args; eassumption|exact H|]. intros T S. apply step_class in S as ->.
      eapply gv_args; try eassumption; [apply wd_other; exact Oc|rewrite (wd_args _ _ _ _ _ _ _ Wd); exact E].
    - intros v r Oc E H. apply widen; [eapply gv_timedelta; eassumption|exact H|]. intros T S. apply step_class in S as ->.
      apply gv_timedelta; [apply wd_other; exact Oc|rewrite (wd_timedelta _ _ _ _ _ _ _ Wd); exact E].
    - intros v t r Ht E H. apply widen; [eapply gv_pattern; eassumption|exact H|]. intros T S.
      assert (T = t) by (destruct Ht as [[-> _]|[n [a ->]]]; [apply step_class in S; exact S|apply step_pattern in S; exact S]). subst T.
      eapply gv_pattern; [|rewrite (wd_compile _ _ _ _ _ _ _ Wd); exact E].
      destruct Ht as [[-> Oc]|Ht]; [left; split; [reflexivity|apply wd_other; exact Oc]|right; exact Ht].
    - intros v c r I Oc Sp E H. apply widen; [eapply gv_string; eassumption|exact H|]. intros T S. apply step_class in S as ->.
      apply gv_string; try assumption; [apply wd_other; exact Oc|rewrite (wd_call _ _ _ _ _ _ _ Wd); exact E].
    - intros v n t r Gv IH H. apply widen; [eapply gv_newtype; eassumption|exact H|]. intros T S. apply step_newtype in S as [t' [-> W]].
      apply gv_newtype. exact (IH H t' W).
    - intros v n t r E Gv IH H. apply widen; [eapply gv_forward; eassumption|exact H|]. intros T S. apply step_forward in S as ->.
      eapply gv_forward; [exact E|exact (IH H t (wi_same _ _ _ _ _ _ t))].
    - intros v n args Ob H. apply widen; [eapply gv_union_own; eassumption|exact H|]. intros T S.
      inversion S as [t0 E1 E2|n0 args0 n' args' B C E1 E2|vals vals' C E1 E2|k0 n0 t0 t' rest0 W K E1 E2|n0 kt kt' vt vt' Wk Kk Wv Kv E1 E2|n0 ts ts' Fx L C E1 E2|n0 t0 t' W E1 E2]; subst.
      + apply gv_union_own. exact Ob.
      + apply gv_union_own. destruct Ob as [I J]. split; [exact I|exact (B _ I J)].
      + destruct k0; discriminate E1.
    - intros v n args t r Nb I Gv IH H. apply widen; [eapply gv_union; eassumption|exact H|]. intros T S.
      inversion S as [t0 E1 E2|n0 args0 n' args' B C E1 E2|vals vals' C E1 E2|k0 n0 t0 t' rest0 W K E1 E2|n0 kt kt' vt vt' Wk Kk Wv Kv E1 E2|n0 ts ts' Fx L C E1 E2|n0 t0 t' W E1 E2]; subst.
      + eapply gv_union; [exact Nb|exact I|exact (IH H t (wi_same _ _ _ _ _ _ t))].
      + exact (IH H _ (C t I)).
      + destruct k0; discriminate E1.
    - intros n kt c v d kvs B Un. destruct Un.
    - intros x t y [-> K] H t' W Kt. destruct (kept_now t t' x H Kt K) as [Kn|G]; [apply rd_same; split; [reflexivity|exact Kn]|apply rd_gives; exact G].
    - intros x t y _ IH H t' W _. apply rd_gives. exact (IH H t' W).
  Qed.
End Widening.
