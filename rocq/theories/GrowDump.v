(** * GrowDump: dumping the objects of an older version of the program (C72)

    The new version [w'] of the program has additional fields with defaults in some
    classes ([new], [grow]: Evolve.v).  With hidedefault the objects whose new fields
    have their default are dumped as before. *)

From Verif Require Import Loader Dumper Spec Vocab Inv Dumps DumpAny Seed Evolve.
From Verif Require Apart.

Section GrowDump.
  Variable new : cid -> list field.
  Notation grow := (grow new).
  Notation growf := (growf new).
  Notation added := (added new).

  (** the same default; the objects inside of it have the new fields *)
  Definition grown_default (d d' : dflt) : Prop :=
    match d with
    | DNo => d' = DNo
    | DValue x => d' = DValue (grow x)
    | DFactory x => d' = DFactory (grow x)
    | DFactorySelf _ => exists g, d' = DFactorySelf g
    end.
  Record same_dfield (f f' : field) : Prop := mkSameDfield {
    sd_fname : f_name f' = f_name f;
    sd_meta : f_meta f' = f_meta f;
    sd_repr : f_repr f' = f_repr f;
    sd_default : grown_default (f_default f) (f_default f')
  }.
  Definition more_dfields (c : cid) (fs fs' : option (list field)) : Prop :=
    match fs, fs' with
    | Some l, Some l' => exists l0, Forall2 same_dfield l l0 /\ l' = l0 ++ new c
    | None, None => True
    | _, _ => False
    end.

  (** [w'] is [w] with the fields [new], for the Dumper *)
  Record dump_upgrade (w w' : world) : Prop := mkDumpUpgrade {
    du_bases : forall c, ci_bases (class_of w' c) = ci_bases (class_of w c);
    du_hash : forall c, ci_hash (class_of w' c) = ci_hash (class_of w c);
    du_enum : forall c, ci_enum (class_of w' c) = option_map (map growf) (ci_enum (class_of w c));
    du_nt : forall c, ci_nt (class_of w' c) =
      option_map (map (fun kd => (fst kd, option_map grow (snd kd)))) (ci_nt (class_of w c));
    du_dc : forall c, more_dfields c (ci_dc (class_of w c)) (ci_dc (class_of w' c));
    du_attrs : forall c, more_dfields c (ci_attrs (class_of w c)) (ci_attrs (class_of w' c));
    du_hints : forall c, match ci_ihints (class_of w c), ci_ihints (class_of w' c) with
      | POk l, POk l' => l' = l ++ map (fun f => (f_name f, f_type f)) (new c)
      | PExc _, PExc _ => True
      | _, _ => False
      end;
    (* the new fields have a constant default, which is equal to itself (not NaN) *)
    du_new : forall c f, In f (new c) -> exists d, (f_default f = DValue d \/ f_default f = DFactory d) /\ py_eqb d d = true;
    du_objects : forall c f d, In f (new c) -> f_default f = DValue d \/ f_default f = DFactory d -> python_value w' d
  }.

  (** [v] is a value of the old version: the instances of the classes with new fields are
      objects, which do not have the new attributes; values of the basic types, and of the
      library, do not contain such objects, and the library writes them as before *)
  Record old_value (w w' : world) (basic strcons : list cid) (v : value) : Prop := mkOldValue {
    ov_objects : forall x, within v x -> new (type_of x) <> [] -> exists c fs, x = VObj c fs;
    ov_attrs : forall c fs f, within v (VObj c fs) -> In f (new c) -> ~ In (f_name f) (map fst fs);
    ov_basic : forall x, within v x -> In (type_of x) basic -> grow x = x;
    ov_inst : forall c p, within v (VInst c p) -> grow p = p;
    ov_str : forall x, within v x -> In (type_of x) strcons -> w_str w' (grow x) = w_str w x;
    ov_iso : forall x, within v x -> is_date_or_time w x = true -> w_iso w' (grow x) = w_iso w x;
    ov_seconds : forall x, within v x -> isinstance w x CTimedelta = true -> w_seconds w' (grow x) = w_seconds w x
  }.

  Variables w w' : world.
  Variables basic strcons : list cid.
  Variables cfg cfg' : dconfig.
  Hypothesis Hstd : is_dstd w basic strcons cfg.
  Hypothesis Hstd' : is_dstd w' basic strcons cfg'.
  Hypothesis Hset : same_dsettings cfg' cfg.
  Hypothesis Up : dump_upgrade w w'.
  Hypothesis Hide : d_hide cfg = true.

  Lemma in_added c f d : In f (new c) -> f_default f = DValue d \/ f_default f = DFactory d -> In (f_name f, d) (added c).
  Proof using All. intros I H. unfold Evolve.added. apply in_flat_map. exists f. split; [exact I|]. destruct H as [-> | ->]; left; reflexivity. Qed.
  Lemma added_in c k d : In (k, d) (added c) -> exists f, In f (new c) /\ f_name f = k /\ (f_default f = DValue d \/ f_default f = DFactory d).
  Proof using All.
    unfold Evolve.added. intro H. apply in_flat_map in H as [f [I H]]. exists f. split; [exact I|].
    destruct (f_default f); try contradiction; destruct H as [[= <- <-]|[]]; auto.
  Qed.
  Lemma Dself c k d : In (k, d) (added c) -> py_eqb d d = true.
  Proof using All.
    intro H. apply added_in in H as [f [I [_ H]]]. destruct (du_new _ _ Up c f I) as [d0 [E P]].
    destruct E as [E|E], H as [H|H]; congruence.
  Qed.
  Lemma gr_eq a b : py_eqb (grow a) (grow b) = py_eqb a b.
  Proof using All. apply eq_grow. exact Dself. Qed.

  Lemma mro_grow c : mro w' c = mro w c.
  Proof using All. destruct c; try reflexivity. pose proof (du_bases _ _ Up (CUser n)) as E. cbn [class_of] in E. cbn [mro]. rewrite E. reflexivity. Qed.
  Lemma isin_grow v c : isinstance w' (grow v) c = isinstance w v c.
  Proof using All. unfold isinstance. rewrite mro_grow, type_grow. reflexivity. Qed.
  Lemma hash_grow v : hashable w' v = hashable w v.
  Proof using All. apply Apart.hashable_same. apply (du_hash _ _ Up). Qed.

  Lemma choice_grow v : dchoice w' basic strcons (grow v) = dchoice w basic strcons v.
  Proof using All.
    unfold dchoice, is_date_or_time. rewrite !isin_grow, type_grow.
    assert (E1 : has_dc w' (grow v) = has_dc w v).
    { unfold has_dc. rewrite type_grow. pose proof (du_dc _ _ Up (type_of v)) as H. unfold more_dfields in H.
      destruct (ci_dc (class_of w (type_of v))), (ci_dc (class_of w' (type_of v))); try contradiction; reflexivity. }
    assert (E2 : has_attrs w' (grow v) = has_attrs w v).
    { unfold has_attrs. rewrite type_grow. pose proof (du_attrs _ _ Up (type_of v)) as H. unfold more_dfields in H.
      destruct (ci_attrs (class_of w (type_of v))), (ci_attrs (class_of w' (type_of v))); try contradiction; reflexivity. }
    rewrite E1, E2. destruct v; reflexivity.
  Qed.

  (** the attributes *)
  Lemma get_map (f : string) (fs : list (string * value)) : str_get f (map growf fs) = option_map grow (str_get f fs).
  Proof using All. induction fs as [|[k x] fs IH]; [reflexivity|]. cbn [map str_get Evolve.growf fst snd]. destruct (String.eqb f k); [reflexivity|exact IH]. Qed.
  Lemma attr_old v k : (forall c fs f, v = VObj c fs -> In f (new c) -> f_name f <> k) ->
    getattr (grow v) k = match getattr v k with POk x => POk (grow x) | PExc r => PExc r end.
  Proof using All.
    intro N. destruct v; try reflexivity.
    - cbn [Evolve.grow getattr]. change (map (fun kx => (fst kx, grow (snd kx))) fs) with (map growf fs). rewrite get_map.
      destruct (str_get k fs); reflexivity.
    - cbn [Evolve.grow getattr]. change (map (fun kx => (fst kx, grow (snd kx))) fs) with (map growf fs).
      destruct (str_get k fs) as [x|] eqn:E.
      + assert (E1 : str_get k (map growf fs) = Some (grow x)) by (rewrite get_map, E; reflexivity).
        rewrite (Local.get_app_l _ _ _ _ E1). reflexivity.
      + rewrite (Local.get_app_r _ _ _ ltac:(rewrite get_map, E; reflexivity)).
        destruct (str_get k (added c)) as [d|] eqn:E2; [|reflexivity]. apply str_get_In in E2. apply added_in in E2 as [f [I [Q _]]].
        destruct (N c fs f eq_refl I Q).
  Qed.
  Lemma get_added c f d : NoDup (map f_name (new c)) -> In f (new c) -> f_default f = DValue d \/ f_default f = DFactory d ->
    str_get (f_name f) (added c) = Some d.
  Proof using All.
    unfold Evolve.added. intros N I E. induction (new c) as [|g l IH]; [contradiction|]. cbn [map] in N. apply NoDup_cons_iff in N as [N1 N2].
    cbn [flat_map]. destruct I as [->|I].
    - destruct E as [-> | ->]; cbn; rewrite String.eqb_refl; reflexivity.
    - assert (Q : String.eqb (f_name f) (f_name g) = false).
      { apply String.eqb_neq. intro Q. apply N1. rewrite <- Q. apply in_map. exact I. }
      destruct (f_default g); cbn [app str_get]; rewrite ?Q; apply IH; assumption.
  Qed.
  Lemma attr_new c fs f d : NoDup (map f_name (new c)) -> ~ In (f_name f) (map fst fs) -> In f (new c) ->
    f_default f = DValue d \/ f_default f = DFactory d -> getattr (grow (VObj c fs)) (f_name f) = POk d.
  Proof using All.
    intros N A I E. cbn [Evolve.grow getattr]. change (map (fun kx => (fst kx, grow (snd kx))) fs) with (map growf fs).
    rewrite Local.get_app_r.
    - rewrite (get_added c f d N I E). reflexivity.
    - destruct (str_get (f_name f) (map growf fs)) as [x|] eqn:Q; [|reflexivity]. exfalso. apply A. apply str_get_In in Q.
      apply (in_map fst) in Q. rewrite map_map in Q. exact Q.
  Qed.

  (** the annotation does not promise more than the items are *)
  Definition fits (v : value) (t : ty) : Prop :=
    forall l y, collection_of v l -> in_classes basic (Dumper.item_type t) = true -> In y l -> In (type_of y) basic.

  Lemma name_grow f f' : same_dfield f f' -> dump_name cfg f' = dump_name cfg f.
  Proof using All. intros [E1 E2 _ _]. unfold dump_name. rewrite E1, E2. reflexivity. Qed.

  Definition defaults_of (fs : list field) : list (string * value) :=
    flat_map (fun f => match f_default f with DValue d | DFactory d => [(f_name f, d)] | _ => [] end) fs.
  Lemma defaults_old l l0 k : Forall2 same_dfield l l0 -> str_get k (defaults_of l0) = option_map grow (str_get k (defaults_of l)).
  Proof using All.
    intro H. unfold defaults_of. induction H as [|f f' l l0 [E1 E2 E3 E4] _ IH]; [reflexivity|]. cbn [flat_map].
    destruct (f_default f) as [|x|x|g]; cbn [grown_default] in E4; [rewrite E4|rewrite E4|rewrite E4|destruct E4 as [g' ->]]; cbn [app str_get];
      rewrite ?E1; try destruct (String.eqb k (f_name f)); try exact IH; reflexivity.
  Qed.
  Lemma names_old l l0 : Forall2 same_dfield l l0 -> map f_name l0 = map f_name l.
  Proof using All. intro H. induction H as [|f f' l l0 [E1 _ _ _] _ IH]; [reflexivity|]. cbn [map]. rewrite E1, IH. reflexivity. Qed.
  Lemma defaults_name fs k d : str_get k (defaults_of fs) = Some d -> In k (map f_name fs).
  Proof using All.
    intro H. apply str_get_In in H. unfold defaults_of in H. apply in_flat_map in H as [f [I H]].
    destruct (f_default f); try contradiction; destruct H as [[= <- _]|[]]; apply in_map; exact I.
  Qed.
  Lemma find_old l l0 k : Forall2 same_dfield l l0 ->
    match find (fun f => String.eqb (f_name f) k) l, find (fun f => String.eqb (f_name f) k) l0 with
    | Some f, Some f' => same_dfield f f' | None, None => True | _, _ => False end.
  Proof using All.
    intro H. induction H as [|f f' l l0 S _ IH]; [exact I|]. cbn [find]. rewrite (sd_fname _ _ S). destruct (String.eqb (f_name f) k); [exact S|exact IH].
  Qed.

  Section Body.
    Variables D D' : value -> ty -> res value.
    Hypothesis OD : forall x t, D x t <> OOF.
    Hypothesis OD' : forall x t, D' x t <> OOF.
    Variable v : value.
    Hypothesis Ov : old_value w w' basic strcons v.
    Hypothesis HD : forall x t, holds v x -> fits x t -> same_dump (D x t) (D' (grow x) t).
    Hypothesis Ann : forall k x hs t, dfind cfg v = inl DDataclass -> ci_ihints (class_of w (type_of v)) = POk hs -> str_get k hs = Some t -> getattr v k = POk x -> fits x t.
    Lemma fits_any x : fits x TAny.
    Proof using All. intros l y _ H. discriminate H. Qed.
    Lemma HDa x : holds v x -> same_dump (D x TAny) (D' (grow x) TAny).
    Proof using All. intro H. apply HD; [exact H|apply fits_any]. Qed.

    Lemma attr_grow fs fs' c vs acc acc' : v = VObj c vs \/ new c = [] -> type_of v = c ->
      (forall f, In f fs -> ~ In (f_name f) (map f_name (new c))) -> NoDup (map f_name (new c)) ->
      Forall2 same_dfield fs fs' -> alike acc acc' ->
      same_dump (pattr_loop cfg D v fs acc) (pattr_loop cfg D' (grow v) (fs' ++ new c) acc').
    Proof using All.
      intros Vc Tc Nn Nd F A. revert acc acc' A. induction F as [|f f' fs fs' S F IH]; intros acc acc' A.
      - cbn [pattr_loop app].
        assert (X : forall l, (forall f, In f l -> In f (new c)) -> pattr_loop cfg D' (grow v) l acc' = Ok (VDict acc')).
        { induction l as [|f l IH]; intro H; [reflexivity|]. cbn [pattr_loop].
          assert (If : In f (new c)) by (apply H; left; reflexivity).
          destruct Vc as [->|E]; [|rewrite E in If; contradiction].
          destruct (du_new _ _ Up c f If) as [d [Ed Pd]].
          rewrite (attr_new c vs f d Nd (ov_attrs _ _ _ _ _ Ov c vs f (rt1n_refl _ _ _) If) If Ed). cbn [rlift rbind].
          destruct (negb (f_repr f)); [apply IH; intros g I; apply H; right; exact I|].
          unfold attr_hidden. rewrite Hide. destruct Ed as [-> | ->]; cbn [rlift rbind]; rewrite Pd; apply IH; intros g I; apply H; right; exact I. }
        rewrite X by auto. apply same_dict. exact A.
      - cbn [pattr_loop app]. rewrite (sd_fname _ _ S).
        rewrite attr_old.
        2:{ intros c0 fs0 g -> Ig E. cbn [type_of] in Tc. subst c0. apply (Nn f (or_introl eq_refl)). rewrite <- E. apply in_map. exact Ig. }
        destruct (getattr v (f_name f)) as [x|] eqn:G; cbn [rlift rbind]; [|exact I].
        rewrite (sd_repr _ _ S). assert (IH' := IH (fun g I => Nn g (or_intror I))).
        destruct (negb (f_repr f)); [apply IH'; exact A|].
        assert (Eh : attr_hidden cfg f' (grow x) = attr_hidden cfg f x).
        { unfold attr_hidden. rewrite Hide. pose proof (sd_default _ _ S) as E.
          destruct (f_default f); cbn [grown_default] in E; [rewrite E|rewrite E|rewrite E|destruct E as [g' ->]]; rewrite ?gr_eq; reflexivity. }
        rewrite Eh. destruct (attr_hidden cfg f x) as [[|]|]; cbn [rlift rbind]; [apply IH'; exact A| |exact I].
        apply same_rbind; [apply HDa; eapply getattr_holds; exact G|]. intros y y' Sy. apply IH'.
        change (ext_name cfg f) with (dump_name cfg f). change (ext_name cfg f') with (dump_name cfg f').
        rewrite (name_grow _ _ S). apply alike_set; assumption.
    Qed.

    Lemma adds_grow fs fs' c vs hs k : dfind cfg v = inl DDataclass -> v = VObj c vs \/ new c = [] -> type_of v = c ->
      NoDup (map f_name (fs' ++ new c)) -> Forall2 same_dfield fs fs' ->
      ci_ihints (class_of w c) = POk hs ->
      let A := adds cfg D v fs (defaults_of fs) hs k in
      let A' := adds cfg D' (grow v) (fs' ++ new c) (defaults_of (fs' ++ new c)) (hs ++ map (fun f => (f_name f, f_type f)) (new c)) k in
      (In k (map f_name fs) -> is_ok A = is_ok A' /\ alike (items_of A) (items_of A')) /\
      (In k (map f_name (new c)) -> items_of A = [] /\ A' = Ok []).
    Proof using All.
      intros Fd Vc Tc Nd F EH A A'. rewrite map_app, (names_old _ _ F) in Nd.
      assert (Nn : NoDup (map f_name (new c))).
      { clear - Nd. induction (map f_name fs); [exact Nd|]. cbn in Nd. apply NoDup_cons_iff in Nd. apply IHl, Nd. }
      assert (Dj : forall k, In k (map f_name fs) -> In k (map f_name (new c)) -> False).
      { clear - Nd. induction (map f_name fs) as [|a l IH]; intros k; [contradiction|]. cbn in Nd. apply NoDup_cons_iff in Nd as [N1 N2].
        intros [->|H] H'; [apply N1; apply in_or_app; right; exact H'|exact (IH N2 k H H')]. }
      pose proof (find_old fs fs' k F) as FO.
      assert (FA : forall l1 l2 : list field, find (fun f => String.eqb (f_name f) k) (l1 ++ l2) =
        match find (fun f => String.eqb (f_name f) k) l1 with Some f => Some f | None => find (fun f => String.eqb (f_name f) k) l2 end).
      { induction l1 as [|g l1 IH]; intro l2; [reflexivity|]. cbn [app find]. destruct (String.eqb (f_name g) k); [reflexivity|apply IH]. }
      assert (GA : forall A (l1 l2 : list (string * A)), str_get k (l1 ++ l2) = match str_get k l1 with Some x => Some x | None => str_get k l2 end).
      { clear. intros A l1 l2. induction l1 as [|[k' x] l1 IH]; [reflexivity|]. cbn [app str_get]. destruct (String.eqb k k'); [reflexivity|exact IH]. }
      assert (DA : defaults_of (fs' ++ new c) = defaults_of fs' ++ defaults_of (new c)) by (unfold defaults_of; apply flat_map_app).
      split; intro K.
      - assert (Kn : str_get k (map (fun f => (f_name f, f_type f)) (new c)) = None /\ str_get k (defaults_of (new c)) = None).
        { split.
          - destruct (str_get k (map _ (new c))) as [x|] eqn:Q; [|reflexivity]. exfalso. apply (Dj k K). apply str_get_In in Q.
            apply (in_map fst) in Q. rewrite map_map in Q. exact Q.
          - destruct (str_get k (defaults_of (new c))) as [x|] eqn:Q; [|reflexivity]. exfalso. apply (Dj k K). apply defaults_name in Q. exact Q. }
        subst A A'. unfold adds. rewrite FA. destruct (find _ fs) as [f|] eqn:E1; destruct (find _ fs') as [f'|] eqn:E2; try contradiction.
        2:{ exfalso. apply in_map_iff in K as [g [Q I]]. apply (find_none _ _ E1) in I. rewrite Q, String.eqb_refl in I. discriminate. }
        rewrite attr_old.
        2:{ intros c0 fs0 g -> Ig E. cbn [type_of] in Tc. subst c0. apply (Dj k K). rewrite <- E. apply in_map. exact Ig. }
        destruct (getattr v k) as [x|] eqn:G; cbn [rlift rbind]; [|split; [reflexivity|constructor]].
        rewrite !GA, (proj1 Kn). rewrite DA, GA, (proj2 Kn), (defaults_old _ _ k F).
        assert (Eh : match match option_map grow (str_get k (defaults_of fs)) with Some x0 => Some x0 | None => None end with Some d => py_eqb d (grow x) | None => false end
          = match str_get k (defaults_of fs) with Some d => py_eqb d x | None => false end).
        { destruct (str_get k (defaults_of fs)); cbn [option_map]; [apply gr_eq|reflexivity]. }
        rewrite Eh. destruct (_ && _); [split; [reflexivity|constructor]|].
        assert (Et : match match str_get k hs with Some x0 => Some x0 | None => None end with Some h => h | None => TAny end = match str_get k hs with Some h => h | None => TAny end).
        { destruct (str_get k hs); reflexivity. }
        rewrite Et. set (t := match str_get k hs with Some h => h | None => TAny end).
        assert (Ft : fits x t).
        { subst t. destruct (str_get k hs) as [h|] eqn:Q; [|apply fits_any]. subst c. eapply Ann; eassumption. }
        specialize (HD x t (getattr_holds _ _ _ G) Ft). rewrite (name_grow _ _ FO).
        destruct (D x t), (D' (grow x) t); cbn in *; try contradiction; split; try reflexivity; repeat constructor. exact HD.
      - assert (E1 : find (fun f => String.eqb (f_name f) k) fs = None).
        { destruct (find _ fs) as [f|] eqn:E; [|reflexivity]. apply find_some in E as [I Q]. apply String.eqb_eq in Q.
          exfalso. apply (Dj k); [rewrite <- Q; apply in_map; exact I|exact K]. }
        subst A A'. unfold adds. rewrite E1 in *. split; [reflexivity|].
        destruct (find _ fs') as [f'|] eqn:E2; [contradiction|]. rewrite FA, E2.
        destruct (find (fun f => String.eqb (f_name f) k) (new c)) as [f|] eqn:E3.
        2:{ exfalso. apply in_map_iff in K as [g [Q I]]. apply (find_none _ _ E3) in I. rewrite Q, String.eqb_refl in I. discriminate. }
        apply find_some in E3 as [If Q]. apply String.eqb_eq in Q. subst k.
        destruct Vc as [->|E]; [|rewrite E in If; contradiction].
        destruct (du_new _ _ Up c f If) as [d [Ed Pd]].
        rewrite (attr_new c vs f d Nn (ov_attrs _ _ _ _ _ Ov c vs f (rt1n_refl _ _ _) If) If Ed). cbn [rlift rbind].
        rewrite DA, GA.
        assert (E4 : str_get (f_name f) (defaults_of fs') = None).
        { rewrite (defaults_old _ _ _ F). destruct (str_get (f_name f) (defaults_of fs)) as [x|] eqn:Q; [|reflexivity].
          exfalso. apply defaults_name in Q. exact (Dj _ Q K). }
        rewrite E4. change (defaults_of (new c)) with (added c). rewrite (get_added c f d Nn If Ed), Hide, Pd. reflexivity.
    Qed.

    Lemma pdc_OOF D0 x fs info ns acc : (forall x t, D0 x t <> OOF) -> pdc_loop cfg D0 x fs info ns acc <> OOF.
    Proof using All.
      intro O0. revert acc. induction ns as [|k ns IH]; intro acc; cbn [pdc_loop]; [discriminate|].
      destruct (find _ fs); [|discriminate]. apply rbind_OOF; [apply rlift_OOF|]. intro y. destruct (_ && _); [apply IH|].
      apply rbind_OOF; [apply O0|]. intro. apply IH.
    Qed.
    Lemma nodup_l {A} (l1 l2 : list A) : NoDup (l1 ++ l2) -> NoDup l1.
    Proof using All.
      induction l1 as [|a l1 IH]; intro N; [constructor|]. cbn in N. apply NoDup_cons_iff in N as [N1 N2]. constructor; [|exact (IH N2)].
      intro H. apply N1. apply in_or_app. left. exact H.
    Qed.
    Lemma ext_old l l0 : Forall2 same_dfield l l0 -> map (dump_name cfg) l0 = map (dump_name cfg) l.
    Proof using All. intro H. induction H as [|f f' l l0 S _ IH]; [reflexivity|]. cbn [map]. rewrite (name_grow _ _ S), IH. reflexivity. Qed.

    Lemma pdc_grow fs fs' c vs hs : dfind cfg v = inl DDataclass -> v = VObj c vs \/ new c = [] -> type_of v = c ->
      NoDup (map f_name (fs' ++ new c)) -> NoDup (map (dump_name cfg) (fs' ++ new c)) -> Forall2 same_dfield fs fs' ->
      ci_ihints (class_of w c) = POk hs ->
      let names := set_iter w (map f_name fs) in
      let names' := set_iter w' (map f_name (fs' ++ new c)) in
      same_dump (pdc_loop cfg D v fs (mkDcinfo names (defaults_of fs) hs) names [])
        (pdc_loop cfg D' (grow v) (fs' ++ new c)
           (mkDcinfo names' (defaults_of (fs' ++ new c)) (hs ++ map (fun f => (f_name f, f_type f)) (new c))) names' []).
    Proof using All.
      intros Fd Vc Tc Nd Ne F EH names names'.
      assert (Nd1 : NoDup (map f_name fs)).
      { pose proof Nd as Q. rewrite map_app, (names_old _ _ F) in Q. exact (nodup_l _ _ Q). }
      assert (Ne1 : NoDup (map (dump_name cfg) fs)).
      { pose proof Ne as Q. rewrite map_app, (ext_old _ _ F) in Q. exact (nodup_l _ _ Q). }
      assert (Pn : Permutation names (map f_name fs)) by apply set_iter_perm.
      assert (Pn' : Permutation names' (map f_name fs ++ map f_name (new c))).
      { subst names'. rewrite set_iter_perm, map_app, (names_old _ _ F). reflexivity. }
      assert (Nn : NoDup names) by exact (Permutation_NoDup (Permutation_sym Pn) Nd1).
      assert (Nn' : NoDup names') by exact (Permutation_NoDup (Permutation_sym (set_iter_perm w' _)) Nd).
      set (hs' := hs ++ map (fun f => (f_name f, f_type f)) (new c)).
      assert (AG := fun k => adds_grow fs fs' c vs hs k Fd Vc Tc Nd F EH). cbv zeta in AG. fold hs' in AG.
      assert (X := pdc_adds cfg D v fs (mkDcinfo names (defaults_of fs) hs) names [] Ne1 Nn (fun kv I => match I with end)).
      assert (X' := pdc_adds cfg D' (grow v) (fs' ++ new c) (mkDcinfo names' (defaults_of (fs' ++ new c)) hs') names' [] Ne Nn' (fun kv I => match I with end)).
      cbn [dc_defaults dc_hints app] in X, X'. cbv zeta in X, X'.
      set (A := adds cfg D v fs (defaults_of fs) hs) in *.
      set (A' := adds cfg D' (grow v) (fs' ++ new c) (defaults_of (fs' ++ new c)) hs') in *.
      assert (Q : forallb (fun k => is_ok (A k)) names = forallb (fun k => is_ok (A' k)) names').
      { rewrite (forallb_perm _ _ _ Pn), (forallb_perm _ _ _ Pn'). rewrite forallb_app.
        assert (Q2 : forallb (fun k => is_ok (A' k)) (map f_name (new c)) = true).
        { apply forallb_forall. intros k Ik. destruct (proj2 (AG k) Ik) as [_ ->]. reflexivity. }
        rewrite Q2, andb_true_r.
        assert (G : forall k, In k (map f_name fs) -> is_ok (A k) = is_ok (A' k)) by (intros k Ik; exact (proj1 (proj1 (AG k) Ik))).
        clear - G. induction (map f_name fs) as [|k l IH]; [reflexivity|]. cbn [forallb]. rewrite (G k) by (left; reflexivity).
        rewrite IH; [reflexivity|]. intros. apply G. right. assumption. }
      destruct X as [[T ->]|[Fl E]], X' as [[T' ->]|[Fl' E']]; try congruence.
      - cbn. apply (sm_dict _ (flat_map (fun k => items_of (A k)) names')).
        + transitivity (flat_map (fun k => items_of (A k)) (map f_name fs ++ map f_name (new c))).
          * rewrite flat_map_app.
            assert (Z : flat_map (fun k => items_of (A k)) (map f_name (new c)) = []).
            { assert (G : forall k, In k (map f_name (new c)) -> items_of (A k) = []) by (intros k Ik; exact (proj1 (proj2 (AG k) Ik))).
              clear - G. induction (map f_name (new c)) as [|k l IH]; [reflexivity|]. cbn [flat_map]. rewrite (G k) by (left; reflexivity).
              apply IH. intros. apply G. right. assumption. }
            rewrite Z, app_nil_r. apply Permutation_flat_map. exact Pn.
          * apply Permutation_flat_map. symmetry. exact Pn'.
        + apply flat_alike. intros k Ik. apply (Permutation_in _ Pn') in Ik. apply in_app_or in Ik as [Ik|Ik].
          * exact (proj2 (proj1 (AG k) Ik)).
          * destruct (proj2 (AG k) Ik) as [Z ->]. fold A in Z. rewrite Z. constructor.
      - pose proof (pdc_OOF D v fs (mkDcinfo names (defaults_of fs) hs) names [] OD) as N1.
        pose proof (pdc_OOF D' (grow v) (fs' ++ new c) (mkDcinfo names' (defaults_of (fs' ++ new c)) hs') names' [] OD') as N2.
        destruct (pdc_loop cfg D _ _ _ _ _); [exfalso; eapply E; reflexivity| |contradiction].
        destruct (pdc_loop cfg D' _ _ _ _ _); [exfalso; eapply E'; reflexivity| |contradiction]. exact I.
    Qed.

    Lemma v_object : exists vs, v = VObj (type_of v) vs \/ new (type_of v) = [].
    Proof using All.
      destruct (new (type_of v)) as [|f l] eqn:E; [exists []; right; reflexivity|].
      destruct (ov_objects _ _ _ _ _ Ov v (rt1n_refl _ _ _)) as [c [fs Q]]; [rewrite E; discriminate|].
      exists fs. left. rewrite Q. reflexivity.
    Qed.

    Lemma pbody_grow h t :
      dfind cfg v = inl h ->
      (forall fs, ci_dc (class_of w' (type_of v)) = Some fs \/ ci_attrs (class_of w' (type_of v)) = Some fs ->
         NoDup (map f_name fs) /\ NoDup (map (dump_name cfg) fs)) ->
      fits v t ->
      same_dump (pbody w cfg D h v t) (pbody w' cfg D' h (grow v) t).
    Proof using All.
      intros Fh Nd Ft. pose proof Fh as Ch. rewrite (dfind_choice w basic strcons cfg Hstd) in Ch.
      destruct v_object as [vs Vc].
      destruct h; cbn [pbody].
      - (* DIdent *)
        rewrite (ov_basic _ _ _ _ _ Ov v (rt1n_refl _ _ _)); [apply same_refl|].
        unfold dchoice in Ch. apply mem_cid_In. destruct (mem_cid (type_of v) basic); [reflexivity|].
        repeat match type of Ch with context [if ?b then _ else _] => destruct b; [discriminate Ch|] end. discriminate Ch.
      - (* DNamedTuple *)
        set (u := v); assert (Eu : u = v) by reflexivity; clearbody u. destruct u as [| | | | | | | | | | | |c fs| | |]; try exact I. cbn [Evolve.grow].
        rewrite (du_nt _ _ Up c).
        set (ds := match ci_nt (class_of w c) with Some l => l | None => [] end).
        assert (Eds : match option_map (map (fun kd : string * option value => (fst kd, option_map grow (snd kd)))) (ci_nt (class_of w c)) with Some l => l | None => [] end
          = map (fun kd => (fst kd, option_map grow (snd kd))) ds) by (subst ds; destruct (ci_nt (class_of w c)); reflexivity).
        rewrite Eds. clear Eds.
        assert (H' : forall f x, In (f, x) fs -> same_dump (D x TAny) (D' (grow x) TAny)) by (intros f x Ix; apply HDa; rewrite <- Eu; eapply holds_nt; exact Ix).
        assert (Gd : forall k, str_get k (map (fun kd => (fst kd, option_map grow (snd kd))) ds) = option_map (option_map grow) (str_get k ds)).
        { intro k. induction ds as [|[k' d] l IH]; [reflexivity|]. cbn [map str_get fst snd]. destruct (String.eqb k k'); [reflexivity|exact IH]. }
        assert (Ge : forall a b, py_eqb (grow a) (grow b) = py_eqb a b) by exact gr_eq.
        clear - H' Gd Ge. assert (A : alike [] []) by constructor. revert A. generalize (@nil (value * value)) at 1 3 as acc. generalize (@nil (value * value)) as acc'.
        induction fs as [|[k x] fs IH]; intros acc' acc A; cbn [pnt_loop map fst snd]; [apply same_dict; exact A|].
        assert (IH' := IH (fun f x I => H' f x (or_intror I))). rewrite Gd.
        assert (Eq : match option_map (option_map grow) (str_get k ds) with Some (Some d) => py_eqb d (grow x) | _ => false end
          = match str_get k ds with Some (Some d) => py_eqb d x | _ => false end).
        { destruct (str_get k ds) as [[d|]|]; cbn [option_map]; try reflexivity. apply Ge. }
        rewrite Eq. destruct (_ && _); [apply IH'; exact A|]. apply same_rbind; [apply (H' k); left; reflexivity|].
        intros y y' Sy. apply IH'. apply alike_set; assumption.
      - (* DDataclass *)
        rewrite type_grow. pose proof (du_dc _ _ Up (type_of v)) as M. unfold more_dfields in M.
        destruct (ci_dc (class_of w (type_of v))) as [fs|] eqn:E1; destruct (ci_dc (class_of w' (type_of v))) as [fs2|] eqn:E2; try contradiction; [|exact I].
        destruct M as [fs' [F ->]]. destruct (Nd _ (or_introl eq_refl)) as [N1 N2].
        unfold dc_info. pose proof (du_hints _ _ Up (type_of v)) as Hh.
        destruct (ci_ihints (class_of w (type_of v))) as [hs|] eqn:EH in Hh |- *; destruct (ci_ihints (class_of w' (type_of v))) as [hs'|] in Hh |- *; try contradiction; [|exact I].
        subst hs'. cbn [rlift rbind dc_fields].
        exact (pdc_grow fs fs' (type_of v) vs hs Fh Vc eq_refl N1 N2 F EH).
      - (* DIter *)
        assert (Kind : exists l, iter v = Some l /\ collection_of v l).
        { clear - Ch. unfold dchoice in Ch. destruct v; cbn in Ch;
            try (repeat match type of Ch with context [if ?b then _ else _] => destruct b; [discriminate|] end; discriminate);
            eexists; (split; [reflexivity|]); unfold collection_of; auto. }
        destruct Kind as [l [El Kl]].
        assert (El' : iter (grow v) = Some (map grow l)).
        { destruct Kl as [-> | [-> | [-> | ->]]]; reflexivity. }
        rewrite El, El'.
        assert (Hh : forall x, In x l -> holds v x) by (intros x Ix; destruct Kl as [-> | [-> | [-> | ->]]]; constructor; exact Ix).
        assert (I1 : ident_first cfg = true) by (unfold ident_first; rewrite (proj1 Hstd); reflexivity). rewrite I1, andb_true_r.
        rewrite (proj2 Hstd). destruct (in_classes basic (Dumper.item_type t)) eqn:B.
        + assert (Eg : map grow l = l).
          { assert (G : forall x, In x l -> grow x = x).
            { intros x Ix. apply (ov_basic _ _ _ _ _ Ov); [|exact (Ft l x Kl B Ix)]. econstructor; [apply Hh; exact Ix|constructor]. }
            clear - G. induction l as [|x l IH]; [reflexivity|]. cbn [map]. rewrite (G x) by (left; reflexivity). f_equal. apply IH. intros. apply G. right. assumption. }
          rewrite Eg. apply same_refl.
        + assert (H' : forall x, In x l -> same_dump (D x TAny) (D' (grow x) TAny)) by (intros x Ix; apply HDa; apply Hh; exact Ix).
          clear - H'. assert (A : Forall2 same_data [] []) by constructor. revert A. generalize (@nil value) at 1 3 as acc. generalize (@nil value) as acc'.
          induction l as [|x l IH]; intros acc' acc A; cbn [pdump_list map]; [apply sm_list; exact A|].
          apply same_rbind; [apply H'; left; reflexivity|]. intros y y' Sy. apply IH.
          * intros z Iz. apply H'. right. exact Iz.
          * apply Forall2_app; [exact A|]. constructor; [exact Sy|constructor].
      - (* DEnum *)
        set (u := v); assert (Eu : u = v) by reflexivity; clearbody u. destruct u; try exact I. cbn [Evolve.grow]. apply HDa. rewrite <- Eu. constructor.
      - (* DDict *)
        set (u := v); assert (Eu : u = v) by reflexivity; clearbody u. destruct u as [| | | | | | | | | |d| | | | |]; try exact I. cbn [Evolve.grow].
        assert (H' : forall k x, In (k, x) d -> same_dump (D k TAny) (D' (grow k) TAny) /\ same_dump (D x TAny) (D' (grow x) TAny)).
        { intros k x Ix; split; apply HDa; rewrite <- Eu; [eapply holds_key|eapply holds_value]; exact Ix. }
        assert (Hw : forall x, hashable w' x = hashable w x) by exact hash_grow.
        clear - H' Hw. assert (A : alike [] []) by constructor. revert A. generalize (@nil (value * value)) at 1 3 as acc. generalize (@nil (value * value)) as acc'.
        induction d as [|[k x] d IH]; intros acc' acc A; cbn [pdict_loop map fst snd]; [apply same_dict; exact A|].
        destruct (H' k x) as [Hk Hx]; [left; reflexivity|]. apply same_rbind; [exact Hk|]. intros k1 k2 Sk.
        apply same_rbind; [exact Hx|]. intros y y' Sy. rewrite Hw.
        destruct (same_hash w k1 k2 Sk) as [Eh Ek]. rewrite <- Eh. destruct (hashable w k1); [|exact I].
        rewrite <- (Ek eq_refl). apply IH; [intros k0 x0 I0; apply H'; right; exact I0|]. apply alike_set; assumption.
      - (* DAttrs *)
        rewrite type_grow. pose proof (du_attrs _ _ Up (type_of v)) as M. unfold more_dfields in M.
        destruct (ci_attrs (class_of w (type_of v))) as [fs|] eqn:E1; destruct (ci_attrs (class_of w' (type_of v))) as [fs2|] eqn:E2; try contradiction; [|exact I].
        destruct M as [fs' [F ->]]. destruct (Nd _ (or_intror eq_refl)) as [N1 _].
        rewrite map_app, (names_old _ _ F) in N1.
        apply (attr_grow fs fs' (type_of v) vs); try assumption; [reflexivity| | |constructor].
        + intros f If In2. apply (in_map f_name) in If. clear - N1 If In2. induction (map f_name fs) as [|a l IH]; [contradiction|].
          cbn in N1. apply NoDup_cons_iff in N1 as [N1 N2]. destruct If as [->|If]; [apply N1; apply in_or_app; right; exact In2|exact (IH N2 If)].
        + clear - N1. induction (map f_name fs) as [|a l IH]; [exact N1|]. cbn in N1. apply NoDup_cons_iff in N1 as [_ N2]. exact (IH N2).
      - (* DDatetime *)
        assert (Ch' : is_date_or_time w v = true).
        { clear - Ch. unfold dchoice in Ch. repeat match type of Ch with context [if ?b then _ else _] => destruct b eqn:?; [first [discriminate Ch|reflexivity]|] end; discriminate Ch. }
       
        destruct (d_iso cfg); [rewrite (ov_iso _ _ _ _ _ Ov v (rt1n_refl _ _ _) Ch'); apply same_refl|].
        set (u := v); assert (Eu : u = v) by reflexivity; clearbody u. destruct u as [| | | | | | | | | | | | | | |c p]; try exact I.
        assert (Wp : within v (VInst c p)) by (rewrite <- Eu; constructor). 
        assert (Eg : grow (VInst c p) = VInst c p) by (cbn [Evolve.grow]; rewrite (ov_inst _ _ _ _ _ Ov c p Wp); reflexivity).
        assert (Ei : forall k, isinstance w' (VInst c p) k = isinstance w (VInst c p) k) by (intro k; rewrite <- Eg at 1; apply isin_grow).
        rewrite Eg. destruct p; try exact I. rewrite !Ei. apply same_refl.
      - (* DTimedelta *)
        assert (Ch' : isinstance w v CTimedelta = true).
        { clear - Ch. unfold dchoice in Ch. repeat match type of Ch with context [if ?b then _ else _] => destruct b eqn:?; [first [discriminate Ch|reflexivity]|] end; discriminate Ch. }
        rewrite (ov_seconds _ _ _ _ _ Ov v (rt1n_refl _ _ _) Ch'). apply same_refl.
      - (* DPattern *)
        set (u := v); assert (Eu : u = v) by reflexivity; clearbody u. destruct u as [| | | | | | | | | | | | | | |c p]; try exact I.
        assert (Wp : within v (VInst c p)) by (rewrite <- Eu; constructor). cbn [Evolve.grow].
        rewrite (ov_inst _ _ _ _ _ Ov c p Wp). apply same_refl.
      - (* DStr *)
        assert (Ch' : In (type_of v) strcons).
        { clear - Ch. unfold dchoice in Ch. repeat match type of Ch with context [if ?b then _ else _] => destruct b eqn:?; [first [discriminate Ch|apply mem_cid_In; assumption]|] end; discriminate Ch. }
        rewrite (ov_str _ _ _ _ _ Ov v (rt1n_refl _ _ _) Ch'). apply same_refl.
      - exact I.
    Qed.
  End Body.

  Lemma old_holds v x : old_value w w' basic strcons v -> holds v x -> old_value w w' basic strcons x.
  Proof using All.
    intros [A B C E F G H] Hx. assert (W : forall y, within x y -> within v y) by (intros y Wy; econstructor; eassumption).
    constructor; intros; eauto.
  Qed.

  Lemma dval_grow n : forall v t, depth v <= n -> old_value w w' basic strcons v ->
    annotations_hold w basic v -> fits v t ->
    (forall x fs, within v x -> ci_dc (class_of w' (type_of x)) = Some fs \/ ci_attrs (class_of w' (type_of x)) = Some fs ->
       NoDup (map f_name fs) /\ NoDup (map (dump_name cfg) fs)) ->
    same_dump (dval w cfg v t) (dval w' cfg' (grow v) t).
  Proof using All.
    induction n as [|n IH]; intros v t L Ov AH Ft Nd; [destruct v; cbn in L; lia|].
    rewrite (dval_eq w' basic strcons cfg' Hstd'), (dval_eq w basic strcons cfg Hstd).
    assert (Fd : match dfind cfg v, dfind cfg' (grow v) with inl h, inl h' => h = h' | inr _, inr _ => True | _, _ => False end).
    { rewrite (dfind_choice w' basic strcons cfg' Hstd'), (dfind_choice w basic strcons cfg Hstd), choice_grow.
      destruct (dchoice w basic strcons v); [reflexivity|exact I]. }
    destruct (dfind cfg v) as [h|e] eqn:Fh; destruct (dfind cfg' (grow v)) as [h'|e'] eqn:Fh'; try contradiction; [|exact I]. subst h'.
    assert (E : pbody w' cfg' (dval w' cfg') h (grow v) t = pbody w' cfg (dval w' cfg') h (grow v) t).
    { destruct (match h with DIter => true | _ => false end) eqn:Q.
      - destruct h; try discriminate Q. cbn [pbody]. destruct (iter (grow v)) as [l|]; [|reflexivity].
        assert (I1 : ident_first cfg = true) by (unfold ident_first; rewrite (proj1 Hstd); reflexivity).
        assert (I2 : ident_first cfg' = true) by (unfold ident_first; rewrite (proj1 Hstd'); reflexivity).
        rewrite I1, I2. rewrite (proj2 Hstd), (proj2 Hstd'). reflexivity.
      - apply (pbody_settings w' cfg' cfg Hset). intros ->. discriminate. }
    rewrite E. apply pbody_grow; try assumption.
    - intros x t'. apply (dval_OOF w basic strcons cfg Hstd).
    - intros x t'. apply (dval_OOF w' basic strcons cfg' Hstd').
    - intros x t' Hx Fx. apply IH; [apply depth_holds in Hx; lia|eapply old_holds; eassumption| |exact Fx|].
      + intros c fs hs f t0 b k o z l y W. apply AH. eapply rt1n_trans; eassumption.
      + intros y fs W. apply Nd. eapply rt1n_trans; eassumption.
    - intros k x hs t' HD EH K G l y Kx B Iy.
      destruct (Dumper.item_type t') as [b| | | | | | |] eqn:IT; try discriminate B.
      assert (Sh : exists n o, t' = TGen n o (Some [TClass b]) \/ t' = TGen n o (Some [TClass b; TEllipsis])).
      { clear - IT. destruct t'; cbn in IT; try discriminate. destruct args as [[|x1 [|x2 [|]]]|]; try discriminate IT; [|destruct x2; try discriminate IT|destruct x2; discriminate IT]; subst; eauto. }
      destruct Sh as [n0 [o Sh]]. destruct v as [| | | | | | | | | | | |c fs|c fs| |]; cbn in G; try discriminate G.
      + rewrite (dfind_choice w basic strcons cfg Hstd) in HD. unfold dchoice in HD.
        destruct (mem_cid _ basic); discriminate HD.
      + refine (AH c fs hs k t' b n0 o x l y (rt1n_refl _ _ _) EH K Sh (proj1 (mem_cid_In b basic) B) _ Kx Iy).
        destruct (str_get k fs) as [x'|] eqn:SG; [|discriminate]. injection G as ->. apply str_get_In. exact SG.
    - intro fs. apply Nd. constructor.
  Qed.

  (** the objects stay objects *)
  Lemma object_grow x : python_object w x -> python_object w' (grow x).
  Proof using All.
    assert (N : forall c, ci_nt (class_of w c) = None -> ci_nt (class_of w' c) = None) by (intros c E; rewrite (du_nt _ _ Up), E; reflexivity).
    assert (N2 : forall c, ci_nt (class_of w c) <> None -> ci_nt (class_of w' c) <> None).
    { intros c E. rewrite (du_nt _ _ Up). destruct (ci_nt (class_of w c)); [discriminate|congruence]. }
    assert (M : forall c, ci_enum (class_of w c) = None -> ci_enum (class_of w' c) = None) by (intros c E; rewrite (du_enum _ _ Up), E; reflexivity).
    assert (M2 : forall c, ci_enum (class_of w c) <> None -> ci_enum (class_of w' c) <> None).
    { intros c E. rewrite (du_enum _ _ Up). destruct (ci_enum (class_of w c)); [discriminate|congruence]. }
    destruct x; cbn [Evolve.grow python_object]; auto.
    - intros [A B]. split; [apply N2|apply M]; assumption.
    - intros [A [B C]]. split; [apply N|split; [apply M|]]; try assumption.
      destruct C as [C|C]; [left|right].
      + pose proof (du_dc _ _ Up c) as H. unfold more_dfields in H. destruct (ci_dc (class_of w c)), (ci_dc (class_of w' c)); try contradiction; discriminate.
      + pose proof (du_attrs _ _ Up c) as H. unfold more_dfields in H. destruct (ci_attrs (class_of w c)), (ci_attrs (class_of w' c)); try contradiction; discriminate.
    - intros [A B]. split; [apply N|apply M2]; assumption.
    - intros [A [B C]]. split; [apply N|split; [apply M|]]; assumption.
  Qed.
  Lemma pv_grow n : forall v, depth v <= n -> python_value w v -> python_value w' (grow v).
  Proof using All.
    induction n as [|n IH]; intros v L P; [destruct v; cbn in L; lia|].
    intros y W. inversion W as [|z ? Hz Wz]; subst; [apply object_grow; apply P; constructor|].
    assert (G : forall x, holds v x -> within (grow x) y -> python_object w' y).
    { intros x Hx Wy. refine (IH x _ _ y Wy); [apply depth_holds in Hx; lia|eapply pv_holds; eassumption]. }
    clear W L. destruct v; cbn [Evolve.grow] in Hz; inversion Hz; subst.
    1-4: (match goal with H : In _ (map grow _) |- _ => apply in_map_iff in H as [x [<- Ix]] end; apply (G x); [constructor; exact Ix|exact Wz]).
    1-2: (match goal with H : In _ (map _ _) |- _ => apply in_map_iff in H as [[k0 x0] [Q Ix]] end; cbn [fst snd] in Q; injection Q as <- <-).
    - apply (G k0); [eapply holds_key; exact Ix|exact Wz].
    - apply (G x0); [eapply holds_value; exact Ix|exact Wz].
    - match goal with H : In _ (map _ _) |- _ => apply in_map_iff in H as [[k0 x0] [Q Ix]] end. cbn [fst snd] in Q. injection Q as <- <-.
      apply (G x0); [eapply holds_nt; exact Ix|exact Wz].
    - match goal with H : In _ (_ ++ _) |- _ => apply in_app_or in H as [Ix|Ix] end.
      + apply in_map_iff in Ix as [[k0 x0] [Q Ix]]. cbn [fst snd] in Q. injection Q as <- <-. apply (G x0); [eapply holds_obj; exact Ix|exact Wz].
      + apply added_in in Ix as [g [Ig [_ Eg]]]. exact (du_objects _ _ Up _ _ _ Ig Eg y Wz).
    - eapply G; [constructor|exact Wz].
  Qed.

  Lemma dump_grow s s' v : dhistory w cfg s -> dhistory w' cfg' s' -> python_value w v -> old_value w w' basic strcons v ->
    annotations_hold w basic v ->
    (forall x fs, within v x -> ci_dc (class_of w' (type_of x)) = Some fs \/ ci_attrs (class_of w' (type_of x)) = Some fs ->
       NoDup (map f_name fs) /\ NoDup (map (dump_name cfg) fs)) ->
    forall r r', dumps w cfg s v r -> dumps w' cfg' s' (grow v) r' -> same_dump r r'.
  Proof using All.
    intros H H' P Ov AH Nd r r' Dm Dm'.
    apply (dumps_dval w basic strcons cfg Hstd s v r H P) in Dm.
    apply (dumps_dval w' basic strcons cfg' Hstd' s' (grow v) r' H' (pv_grow (depth v) v (le_n _) P)) in Dm'.
    subst. apply (dval_grow (depth v)); auto. intros l y _ X. discriminate X.
  Qed.
End GrowDump.
