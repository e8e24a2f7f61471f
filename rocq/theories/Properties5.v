(** * Properties, fifth part: the dumper (C25, C26, C28, C29, C30)

    [is_dstd w basic strcons cfg]: the default handlers, any other setting.
    [dhistory w cfg s]: the state of a Dumper after any sequence of dumps.
    [dumps w cfg s v r]: dump(v) on it ends with the outcome [r]. *)

From Verif Require Import Loader Dumper Spec Vocab Fuel Dumps Facts5 Examples Ground.

Lemma D0_std : is_dstd W0 default_basic default_dstrcons D0. Proof. split; reflexivity. Qed.
(** Dumper(hidedefault=False, isodates=True) *)
Definition D1 : dconfig := dstd W0 default_basic default_dstrcons false true true "name".
Lemma D1_std : is_dstd W0 default_basic default_dstrcons D1. Proof. split; reflexivity. Qed.

Ltac within_now n :=
  let x := fresh "x" in let H := fresh "H" in intros x H;
  lazymatch type of H with within ?v _ =>
    let l := eval vm_compute in (all_within n [v]) in
    apply (within_closed l) in H; [|vm_compute; reflexivity|vm_compute; reflexivity]
  end;
  repeat (destruct H as [<-|H]; [|]); [..|contradiction].

Definition VP (x y : Z) : value := VObj (CUser "Point") [("x", VInt x); ("y", VInt y)].
(** [NT(1, "z"), {Color.GREEN: (1, datetime.date(2020, 1, 2))}, Recs([1], Point(1, 0)), Path("/a")] *)
Definition V25 : value :=
  VList [VNT (CUser "NT") [("a", VInt 1); ("b", VStr "z")];
         VDict [(VEnum (CUser "Color") "GREEN" (VStr "g"), VTuple [VInt 1; VInst CDate (VTuple [VInt 2020; VInt 1; VInt 2])])];
         VObj (CUser "Recs") [("l", VList [VInt 1]); ("p", VP 1 3)];
         VInst (CUser "Path") (VStr "/a")].
Lemma V25_py : python_value W0 V25.
Proof.
  within_now 6; cbn; repeat split; try discriminate; try (left; discriminate);
    intro K; repeat (destruct K as [K|K]; [discriminate|]); contradiction.
Qed.
Definition SD1 : dstate := snd (dump_ann W0 D0 9 V25 TAny dfresh).
Lemma SD1_used : dhistory W0 D0 SD1. Proof. unfold SD1. apply dhistory_again; [apply dhistory_new|apply V25_py]. Qed.

(** C25 What dump returns contains only basic types, lists and dictionaries.
    [annotations_hold] excludes dataclass fields whose content is not what
    their annotation says, [library_values] excludes patterns of bytes: see
    the counterexamples. *)
Theorem C25_shape : forall w basic strcons cfg, is_dstd w basic strcons cfg ->
  In CInt basic -> In CFloat basic -> In CStr basic ->
  forall s v r, dhistory w cfg s -> python_value w v -> library_values w basic v -> annotations_hold w basic v ->
  dumps w cfg s v (Ok r) -> json_like w basic r.
Proof. exact c25. Qed.
Print Assumptions C25_shape.
Lemma V25_lib : library_values W0 default_basic V25.
Proof.
  split.
  - within_now 6; cbn; try exact I.
    + split; [intros [Q|Q]; discriminate|]. split; discriminate.
    + split; [intros _; exists [2020%Z; 1%Z; 2%Z], VNone; reflexivity|]. split; discriminate.
  - intros c p H. exfalso. revert H. 
    assert (K : forall x, within V25 x -> x <> VInst c (VBytes p)) by (within_now 6; discriminate).
    intro H. exact (K _ H eq_refl).
Qed.
Lemma V25_ann : annotations_hold W0 default_basic V25.
Proof.
  intros c fs hs f t b n o x l y H Eh Ef Et Ib If Ex Iy.
  assert (K : forall z, within V25 z -> z = VObj c fs -> In z [VObj (CUser "Recs") [("l", VList [VInt 1]); ("p", VP 1 3)]; VP 1 3]).
  { within_now 6; intro Q; try discriminate; cbn; auto. }
  specialize (K _ H eq_refl). destruct K as [K|[K|[]]]; injection K as <- <-.
  - destruct If as [Q|[Q|[]]]; injection Q as <- <-.
    + destruct Ex as [Q|[Q|[Q|Q]]]; try discriminate. injection Q as <-. destruct Iy as [<-|[]]. cbn. auto.
    + destruct Ex as [Q|[Q|[Q|Q]]]; discriminate.
  - destruct If as [Q|[Q|[]]]; injection Q as <- <-; destruct Ex as [Q|[Q|[Q|Q]]]; discriminate.
Qed.
Example C25_ex : dhistory W0 D0 SD1 /\ python_value W0 V25 /\ library_values W0 default_basic V25 /\
  annotations_hold W0 default_basic V25 /\
  dumps W0 D0 SD1 V25 (Ok (VList [dict [("a", VInt 1)]; dict [("g", VList [VInt 1; VList [VInt 2020; VInt 1; VInt 2]])];
     dict [("p", dict [("y", VInt 3); ("x", VInt 1)]); ("l", VList [VInt 1])]; VStr "/a"])).
Proof.
  split; [exact SD1_used|]. split; [exact V25_py|]. split; [exact V25_lib|]. split; [exact V25_ann|].
  split; [discriminate|]. exists 9. vm_compute. reflexivity.
Qed.
(** the items of a field annotated List[int] are copied without dumping them:
    paths are returned as they are; the same for the bytes of a pattern *)
Theorem C25_refuted :
  (let v := VObj (CUser "Recs") [("l", VList [VInst (CUser "Path") (VStr "/a")]); ("p", VP 1 0)] in
   exists r, dumps W0 D0 dfresh v (Ok r) /\ ~ json_like W0 default_basic r) /\
  (let v := VInst CPattern (VBytes "x") in
   exists r, dumps W0 D0 dfresh v (Ok r) /\ ~ json_like W0 default_basic r).
Proof.
  split.
  - eexists. split; [split; [|exists 9; vm_compute; reflexivity]; discriminate|].
    intro J. inversion J as [v0 I0|l0 H0|d0 H1 H2 H3]; subst.
    + cbn in I0. repeat (destruct I0 as [I0|I0]; [discriminate|]). contradiction.
    + specialize (H2 _ _ (or_introl eq_refl)). inversion H2 as [v0 I0|l0 H4|]; subst.
      * cbn in I0. repeat (destruct I0 as [I0|I0]; [discriminate|]). contradiction.
      * specialize (H4 _ (or_introl eq_refl)). inversion H4 as [v0 I0|l0 H5|]; subst.
        cbn in I0. repeat (destruct I0 as [I0|I0]; [discriminate|]). contradiction.
  - eexists. split; [split; [|exists 9; vm_compute; reflexivity]; discriminate|].
    intro J. inversion J as [v0 I0|l0 H0|d0 H1 H2 H3]; subst.
    cbn in I0. repeat (destruct I0 as [I0|I0]; [discriminate|]). contradiction.
Qed.
Print Assumptions C25_refuted.

(** C26 An object is dumped as the dictionary of its fields, under their
    external names; with hidedefault without those equal to their default.
    [dump_fields], [dump_shows], [dump_ready] are in Vocab.v. *)
Theorem C26_fields : forall w basic strcons cfg, is_dstd w basic strcons cfg ->
  forall s v r, dhistory w cfg s -> python_value w v -> dump_object w basic cfg v ->
  let fs := filter (dump_shows w cfg v) (dump_fields w cfg v) in
  (dumps w cfg s v (Ok r) <->
   dump_ready w cfg v /\
   exists ys, Forall2 (fun f y => exists x, getattr v (df_name f) = POk x /\ dumps_as w cfg s x (df_ann f) (Ok y)) fs ys /\
              r = VDict (combine (map (fun f => VStr (df_ext f)) fs) ys)).
Proof. exact c26. Qed.
Print Assumptions C26_fields.
(** the fields of a dataclass are a set: all of them are there, once, in an
    order which is not specified *)
Theorem C26_order : forall w cfg c fs vs, ci_dc (class_of w c) = Some fs ->
  Permutation (map df_name (dump_fields w cfg (VObj c vs))) (map f_name fs).
Proof.
  intros w cfg c fs vs E. cbn [dump_fields]. rewrite E, map_map. cbn [df_name]. rewrite in_set_order_names. apply set_iter_perm.
Qed.
Print Assumptions C26_order.
(** with hidedefault=False no field is hidden *)
Theorem C26_all : forall w cfg v, d_hide cfg = false ->
  filter (dump_shows w cfg v) (dump_fields w cfg v) = dump_fields w cfg v.
Proof. exact c26_all. Qed.
Print Assumptions C26_all.
Definition VR : value := VObj (CUser "Ren") [("field", VInt 1); ("other", VStr "")].
Example C26_ex :
  python_value W0 VR /\ dump_object W0 default_basic D0 VR /\
  filter (dump_shows W0 D0 VR) (dump_fields W0 D0 VR) = [mkDfield "field" "external" TInt None] /\
  dumps W0 D0 SD1 VR (Ok (dict [("external", VInt 1)])) /\
  dumps W0 D1 dfresh VR (Ok (dict [("other", VStr ""); ("external", VInt 1)])).
Proof.
  split.
  { within_now 3; cbn; repeat split; try discriminate. left. discriminate. }
  split.
  { split; [cbn; intro K; repeat (destruct K as [K|K]; [discriminate|]); contradiction|]. split; [exact I|].
    split; cbn; repeat constructor; cbn; intro K; repeat (destruct K as [K|K]; try discriminate); contradiction. }
  split; [reflexivity|]. split; (split; [discriminate|exists 9; vm_compute; reflexivity]).
Qed.
(** with hidedefault a default computed from the object (attrs,
    takes_self=True) makes dump fail with a TypeError *)
Theorem C26_refuted :
  let v := VObj (CUser "Slf") [("a", VInt 1); ("b", VInt 2)] in
  dumps W0 D0 dfresh v (Exc (XRaw RType)) /\
  dumps W0 D1 dfresh v (Ok (dict [("a", VInt 1); ("b", VInt 2)])).
Proof. split; (split; [discriminate|exists 9; vm_compute; reflexivity]). Qed.
Print Assumptions C26_refuted.

(** C28 dump finishes on every object, with a recursion not deeper than the
    object *)
Theorem C28_terminates : forall w basic strcons cfg, is_dstd w basic strcons cfg ->
  forall s v t n, dhistory w cfg s -> python_value w v -> depth v <= n ->
  fst (dump_ann w cfg n v t s) <> OOF.
Proof. exact c28. Qed.
Print Assumptions C28_terminates.
Example C28_ex : python_value W0 V25 /\ depth V25 = 4 /\ exists r, fst (dump_ann W0 D0 4 V25 TAny SD1) = Ok r.
Proof. split; [exact V25_py|]. split; [reflexivity|]. eexists. vm_compute. reflexivity. Qed.

(** C29 The result does not depend on what was dumped before *)
Theorem C29_reuse : forall w basic strcons cfg, is_dstd w basic strcons cfg ->
  forall s1 s2 v t r, dhistory w cfg s1 -> dhistory w cfg s2 -> python_value w v ->
  (dumps_as w cfg s1 v t r <-> dumps_as w cfg s2 v t r).
Proof. exact c29. Qed.
Print Assumptions C29_reuse.
Example C29_ex : dhistory W0 D0 SD1 /\ dhistory W0 D0 dfresh /\ ds_dc SD1 <> [] /\ ds_cache SD1 <> [] /\ python_value W0 VR.
Proof.
  split; [exact SD1_used|]. split; [apply dhistory_new|]. split; [vm_compute; discriminate|]. split; [vm_compute; discriminate|exact (proj1 C26_ex)].
Qed.

(** C30 dump is the identity on JSON-like data, and is idempotent *)
Theorem C30_identity : forall w basic strcons cfg, is_dstd w basic strcons cfg ->
  forall s v r, dhistory w cfg s -> python_value w v -> json_like w basic v -> (dumps w cfg s v r <-> r = Ok v).
Proof. exact c30. Qed.
Print Assumptions C30_identity.
Theorem C30_idempotent : forall w basic strcons cfg, is_dstd w basic strcons cfg ->
  In CInt basic -> In CFloat basic -> In CStr basic ->
  forall s v d r, dhistory w cfg s -> python_value w v -> library_values w basic v -> annotations_hold w basic v ->
  dumps w cfg s v (Ok d) -> (dumps w cfg s d r <-> r = Ok d).
Proof. exact c30_idempotent. Qed.
Print Assumptions C30_idempotent.
Definition V30 : value := VList [dict [("a", VNone); ("b", VList [VInt 1; VBool true])]; VDict [(VInt 2, VFloat (FFin 1 1))]].
Example C30_ex : python_value W0 V30 /\ json_like W0 default_basic V30 /\ dumps W0 D0 SD1 V30 (Ok V30).
Proof.
  split; [within_now 5; exact I|]. split; [|split; [discriminate|exists 9; vm_compute; reflexivity]].
  assert (B : forall v, mem_cid (type_of v) default_basic = true -> json_like W0 default_basic v).
  { intros v M. apply json_basic. apply Inv.mem_cid_In. exact M. }
  apply json_list. intros x [<-|[<-|[]]].
  - apply json_dict.
    + intros k x [Q|[Q|[]]]; injection Q as <- <-; (split; [cbn; auto 6|reflexivity]).
    + intros k x [Q|[Q|[]]]; injection Q as <- <-; [apply B; reflexivity|].
      apply json_list. intros y [<-|[<-|[]]]; apply B; reflexivity.
    + repeat constructor.
  - apply json_dict.
    + intros k x [Q|[]]; injection Q as <- <-; (split; [cbn; auto 6|reflexivity]).
    + intros k x [Q|[]]; injection Q as <- <-; apply B; reflexivity.
    + repeat constructor.
Qed.
