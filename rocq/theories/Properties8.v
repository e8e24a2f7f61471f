(** * Properties, eighth part: round trips (C27) *)

From Verif Require Import Loader Dumper Spec Vocab Fuel Inv Std Obs Hist Reuse Dumps Facts5 Examples Ground
  Properties1 Properties2 Properties3 Properties5 RoundTrip.

(** C27 load is a left inverse of dump.

    [serial w basic strcons dstrcons cfg dcfg s env v t x] (Vocab.v): [x] is
    the serialised form of the value [v] of type [t], and not of some other
    value of that type.  Collections and dictionaries are not basic types. *)
Definition collections : list cid := [CList; CTuple; CSet; CFrozen; CDict].

Theorem C27_round_trip : forall w basic strcons dstrcons cfg dcfg,
  is_std w basic strcons cfg -> is_dstd w basic dstrcons dcfg -> wf_reflect w ->
  (forall c, In c collections -> ~ In c basic) ->
  forall env s ds v t x,
  used w cfg s -> dhistory w dcfg ds -> python_value w v -> annotations_hold w basic v ->
  serial w basic strcons dstrcons cfg dcfg s env v t x ->
  steady w basic cfg env s x t ->
  (forall r, dumps w dcfg ds v r <-> r = Ok x) /\ (forall r, loads w cfg s x t r <-> r = Ok v).
Proof.
  intros w basic strcons dstrcons cfg dcfg Hs Hd Hw Hp env s ds v t x U D P A S St. split; intro r.
  - unfold dumps. rewrite (dumps_as_dval w basic dstrcons dcfg Hd ds v TAny r D P).
    rewrite (ser_dump w basic strcons dstrcons cfg dcfg Hd s env Hp v t x S P A TAny (ann_any basic v)). reflexivity.
  - pose proof (ser_load w basic strcons dstrcons cfg dcfg Hs Hd Hw s env Hp U v t x S St) as L. split.
    + intro R. exact (loads_det _ _ _ _ _ _ _ R L).
    + intros ->. exact L.
Qed.
Print Assumptions C27_round_trip.

(** any other loader with the same settings loads the dumped data back, also a
    new one, which does not know the name of the class *)
Theorem C27_any_loader : forall w basic strcons dstrcons cfg dcfg,
  is_std w basic strcons cfg -> is_dstd w basic dstrcons dcfg -> wf_reflect w ->
  (forall c, In c collections -> ~ In c basic) ->
  forall env s s' ds v t x,
  used w cfg s -> dhistory w dcfg ds -> python_value w v -> annotations_hold w basic v ->
  serial w basic strcons dstrcons cfg dcfg s env v t x ->
  steady w basic cfg env s x t ->
  used w cfg s' -> resolves w cfg env s' t ->
  (forall n kt vt, reach w (pep563 cfg) env t (TGen n ODict (Some [kt; vt])) ->
      (seen s vt /\ seen s' vt) \/ det_dict w basic (inside x) kt vt) ->
  forall x', dumps w dcfg ds v (Ok x') -> forall r, loads w cfg s' x' t r <-> r = Ok v.
Proof.
  intros w basic strcons dstrcons cfg dcfg Hs Hd Hw Hp env s s' ds v t x U D P A S St U' R' Di x' Dx r.
  destruct (C27_round_trip w basic strcons dstrcons cfg dcfg Hs Hd Hw Hp env s ds v t x U D P A S St) as [Du Lo].
  apply Du in Dx. injection Dx as ->.
  rewrite <- (C20_any_two_loaders w basic strcons cfg Hs Hw env s s' x t U U'); [apply Lo| |exact R'|exact Di|exact (sd_union _ _ _ _ _ _ _ St)].
  intros n Rn. left. exact (sd_names _ _ _ _ _ _ _ St n Rn).
Qed.
Print Assumptions C27_any_loader.

(** ** A value with everything in it *)
Definition T27 : ty :=
  TUPLE [LIST (CLS "ANode"); UNION [CLS "TagA"; CLS "TagB"]; CLS "NT"; CLS "TD"; CLS "Color"; CLS "Path"; TClass CDate;
         SET TInt; DICT TStr (CLS "Swap"); CLS "Ren"; OPT TInt].
Definition an (z : Z) (next : value) : value := VObj (CUser "ANode") [("v", VInt z); ("next", next)].
Definition V27 : value :=
  VTuple [VList [an 1 (an 2 VNone); an 3 VNone]; VObj (CUser "TagB") [("type", VStr "b"); ("n", VInt 3)];
          VNT (CUser "NT") [("a", VInt 1); ("b", VStr "z")]; dict [("k", VInt 1); ("o", VStr "x")];
          VEnum (CUser "Color") "GREEN" (VStr "g"); VInst (CUser "Path") (VStr "/a");
          VInst CDate (VTuple [VInt 2020; VInt 1; VInt 2]);
          VSet [VInt 1; VInt 2]; VDict [(VStr "s", VObj (CUser "Swap") [("a", VInt 2); ("b", VInt 1)])];
          VObj (CUser "Ren") [("field", VInt 1); ("other", VStr "")]; VNone].
Definition X27 : value :=
  VList [VList [dict [("v", VInt 1); ("next", dict [("v", VInt 2)])]; dict [("v", VInt 3)]];
         dict [("n", VInt 3); ("type", VStr "b")];
         dict [("a", VInt 1)]; dict [("k", VInt 1); ("o", VStr "x")]; VStr "g"; VStr "/a"; VList [VInt 2020; VInt 1; VInt 2];
         VList [VInt 1; VInt 2]; VDict [(VStr "s", dict [("a", VInt 1); ("b", VInt 2)])]; dict [("external", VInt 1)]; VNone].
(** a Loader() which loaded an ANode and a Swap before *)
Definition S27 : lstate :=
  snd (load W0 C0 50 (dict [("a", VInt 1); ("b", VInt 1)]) (CLS "Swap") (snd (load W0 C0 50 (dict [("v", VInt 1)]) (CLS "ANode") S0))).
Lemma S27_used : used W0 C0 S27. Proof. unfold S27. repeat constructor. Qed.
Definition env27 : string -> option ty := names_of S27.
Definition L27 : list ty := 
  [T27; LIST (CLS "ANode"); UNION [CLS "TagA"; CLS "TagB"]; CLS "NT"; CLS "TD"; CLS "Color"; CLS "Path"; TClass CDate;
         SET TInt; DICT TStr (CLS "Swap"); CLS "Ren"; OPT TInt; CLS "ANode"; TInt; TStr; OPT (TForward "ANode"); TForward "ANode"; TNone;
   CLS "TagA"; CLS "TagB"; TLiteral [VStr "a"]; TLiteral [VStr "b"]; CLS "Swap"].
Lemma steady27 : steady W0 default_basic C0 env27 S27 X27 T27.
Proof. apply (steady_by W0 C0 env27 S27 L27); vm_compute; reflexivity. Qed.

Ltac in_cases := 
  repeat match goal with
  | H : In _ _ |- _ => progress cbn in H
  | H : _ \/ _ |- _ => destruct H as [H|H]
  | H : False |- _ => contradiction
  | H : (_, _) = (_, _) |- _ => injection H; clear H; intros; subst
  end.
Notation ser := (serial W0 default_basic default_strcons default_dstrcons C0 D0 S27 env27).
Ltac basic_now := apply sr_basic; [cbn; tauto|discriminate|reflexivity].
(** [xts]: the values and types of the fields which are shown, [ys]: their serialised forms *)
Lemma ser_object v xts ys t x :
  let c := type_of v in let shown := filter (dump_shows W0 D0 v) (dump_fields W0 D0 v) in
  t = TClass c -> x = VDict (combine (map (fun f => VStr (df_ext f)) shown) ys) ->
  obj_ok c -> dump_object W0 default_basic D0 v -> dump_ready W0 D0 v -> rebuilds W0 D0 v ->
  Permutation (obj_fields W0 C0 c) (map (fun g => (df_name g, df_ext g)) (dump_fields W0 D0 v)) ->
  Forall (fun f => str_get (df_name f) (declared W0 (pep563 C0) c) <> None) (dump_fields W0 D0 v) ->
  map (fun f => (getattr v (df_name f), str_get (df_name f) (declared W0 (pep563 C0) c))) shown = map (fun xt => (POk (fst xt), Some (snd xt))) xts ->
  Forall2 (fun xt y => ser (fst xt) (snd xt) y) xts ys ->
  ser v t x.
Proof.
  intros c shown -> -> [O1 [O2 O3]] D1_ D2 D3 E1 E2 E3 F. apply sr_object; try assumption.
  - reflexivity.
  - intros f e. fold c. split; apply Permutation_in; [exact E1|apply Permutation_sym; exact E1].
  - intros f I. rewrite Forall_forall in E2. specialize (E2 f I). fold c. destruct (str_get _ _); [eauto|congruence].
  - fold shown. rewrite <- (map_length (fun f => (getattr v (df_name f), str_get (df_name f) (declared W0 (pep563 C0) c))) shown), E3, map_length.
    clear -F. induction F; cbn; congruence.
  - fold shown. intros f y x t I Ex Et. fold c in Et. clearbody shown. revert shown E3 I. clear - F Ex Et. induction F as [|[x' t'] y' xts ys Q _ IH]; intros [|f' l] E3 I; try discriminate; [contradiction|].
    cbn [map fst snd] in E3. injection E3 as Q1 Q2 E3. destruct I as [[= -> ->]|I]; [|exact (IH _ E3 I)].
    cbn [fst snd] in Q. change (declared W0 false c) with (declared W0 (pep563 C0) c) in Q2. rewrite Ex in Q1. rewrite Et in Q2.
    injection Q1 as ->. injection Q2 as ->. exact Q.
Qed.
Ltac dobj := split; [cbn; intuition discriminate|split; [exact I|split; vm_compute; nodup]].
Ltac obj ok_ xts_ ys_ := apply (ser_object _ xts_ ys_); [reflexivity|vm_compute; reflexivity|exact ok_|dobj| | |vm_compute; first [reflexivity|apply perm_swap]|
  vm_compute; repeat constructor; discriminate|vm_compute; reflexivity| ].
Lemma hides v : Forall (fun f => dump_shows W0 D0 v f = false -> forall d x, df_default f = Some d -> getattr v (df_name f) = POk x -> x = d) (dump_fields W0 D0 v) ->
  forall f d x, In f (dump_fields W0 D0 v) -> dump_shows W0 D0 v f = false -> df_default f = Some d -> getattr v (df_name f) = POk x -> x = d.
Proof. intros F f d x I S. rewrite Forall_forall in F. apply F; assumption. Qed.
Lemma ok_ANode : obj_ok (CUser "ANode"). Proof. obj_now. Qed.
Lemma ok_Ren : obj_ok (CUser "Ren"). Proof. obj_now. Qed.

Ltac fields_now := repeat (apply Forall2_cons; [cbn [fst snd]|]); [..|apply Forall2_nil].
Ltac dc_ready := split; [eexists; reflexivity|]; let f := fresh in let J := fresh in intros f J; in_cases; subst; eexists; reflexivity.
Ltac at_ready := let f := fresh in let J := fresh in intros f J; in_cases; subst; (split; [eexists; reflexivity|discriminate]).
Ltac hides_now := apply hides; cbn; repeat constructor; cbn; congruence.
Ltac dc_rebuilds := split; [split; [reflexivity|eexists; split; [left; reflexivity|split; [|split; reflexivity]];
  let f := fresh in let J := fresh in intros f J; in_cases; subst; reflexivity]|hides_now].
Ltac at_rebuilds := split; [split; [reflexivity|eexists; split; [right; split; [reflexivity|split; [reflexivity|]]|split; [|split; reflexivity]];
  let f := fresh in let J := fresh in intros f J; in_cases; subst; try split; reflexivity]|hides_now].

(** an optional field which is not None *)
Lemma ser_opt v t x : ser v t x -> ~ own_basic default_basic [t; TNone] x -> x <> VNone -> tags_hashable W0 [t; TNone] x -> ser v (OPT t) x.
Proof.
  intros S NO NN Tg. apply (sr_union _ _ _ _ _ _ _ _ v false [] t [TNone] x S NO Tg). intros t' [<-|[]].
  assert (L : loads W0 C0 S27 x TNone (Exc (XTL KValue MNotNone [(x, TClass CNone, None)] (Some x) (Some (TClass CNone)) []))).
  { apply (C05_none W0 default_basic default_strcons C0 C0_std S27 S27_used). auto. }
  split.
  - eexists. split; [exact L|]. right. eexists _, _, _, _, _, _. reflexivity.
  - intros [r L']. pose proof (loads_det _ _ _ _ _ _ _ L L'). discriminate.
Qed.
Lemma ser_node z next y : next = VNone /\ y = [] \/ next <> VNone /\ ser next (OPT (TForward "ANode")) (snd (hd ("", VNone) y)) /\ y = [("next", snd (hd ("", VNone) y))] ->
  ser (an z next) (CLS "ANode") (dict (("v", VInt z) :: y)).
Proof.
  intros [[-> ->]|[NN [S ->]]].
  - obj ok_ANode [(VInt z, TInt)] [VInt z]; [at_ready|at_rebuilds|]. fields_now. basic_now.
  - set (x := snd (hd ("", VNone) y)) in *. assert (N : dump_shows W0 D0 (an z next) (mkDfield "next" "next" TAny (Some VNone)) = true).
    { vm_compute. destruct next; try reflexivity. congruence. }
    assert (Sh : filter (dump_shows W0 D0 (an z next)) (dump_fields W0 D0 (an z next)) =
      [mkDfield "v" "v" TAny None; mkDfield "next" "next" TAny (Some VNone)]).
    { change (dump_fields W0 D0 (an z next)) with [mkDfield "v" "v" TAny None; mkDfield "next" "next" TAny (Some VNone)].
      cbn [filter]. rewrite N. reflexivity. }
    apply (ser_object _ [(VInt z, TInt); (next, OPT (TForward "ANode"))] [VInt z; x]); [reflexivity|rewrite Sh; reflexivity|exact ok_ANode|dobj|at_ready| |vm_compute; reflexivity|
      vm_compute; repeat constructor; discriminate|rewrite Sh; reflexivity|].
    + split; [split; [reflexivity|eexists; split; [right; split; [reflexivity|split; [reflexivity|]]|split; [|split; reflexivity]];
        intros f J; in_cases; subst; try split; reflexivity]|].
      apply hides. constructor; [|constructor; [|constructor]]; intros E d0 x0 E1 E2; [discriminate|]. change (dump_shows W0 D0 (an z next) (mkDfield "next" "next" TAny (Some VNone)) = false) in E. congruence.
    + fields_now; [basic_now|exact S].
Qed.
Lemma ser_next v x : ser v (CLS "ANode") x -> In (type_of x) [CDict] -> ser v (OPT (TForward "ANode")) x.
Proof.
  intros S [T|[]]. apply ser_opt.
  - apply (sr_forward _ _ _ _ _ _ _ _ _ _ (CLS "ANode")); [vm_compute; reflexivity|exact S].
  - intros [B _]. rewrite <- T in B. cbn in B. intuition discriminate.
  - intros ->. discriminate.
  - intros d k y -> Lf. destruct (Lf TNone) as [c [t0 [vals [[= <-] [J _]]]]]; [right; left; reflexivity|contradiction].
Qed.

Lemma ser27 : ser V27 T27 X27.
Proof.
  apply sr_tuple; [discriminate|reflexivity|reflexivity|]. intros t v x I.
  repeat (destruct I as [I|I]; [injection I; clear I; intros; subst|]); [..|contradiction].
  - apply sr_list; [eexists; vm_compute; reflexivity|reflexivity|]. intros v x I.
    destruct I as [[= <- <-]|[[= <- <-]|[]]].
    + apply (ser_node 1 _ [("next", dict [("v", VInt 2)])]). right. split; [discriminate|]. split; [|reflexivity].
      apply ser_next; [|left; reflexivity]. apply (ser_node 2 _ []). left. auto.
    + apply (ser_node 3 _ []). left. auto.
  - apply (sr_union _ _ _ _ _ _ _ _ _ false [CLS "TagA"] (CLS "TagB") [] _).
    + obj ok_TagB [(VInt 3, TInt); (VStr "b", TLiteral [VStr "b"])] [VInt 3; VStr "b"]; [dc_ready|dc_rebuilds|]. fields_now.
      * basic_now.
      * apply sr_literal; [constructor; cbn; tauto|reflexivity].
    + intros [B _]. cbn in B. intuition discriminate.
    + intros d k y [= <-] Lf G. destruct (Lf (CLS "TagA")) as [c [t0 [vals [[= <-] [J E]]]]]; [left; reflexivity|].
      in_cases; subst; try discriminate E. vm_compute in G. injection G as <-. reflexivity.
    + intros t' [<-|[]]. split.
      * eexists. split; [split; [|exists 50; vm_compute; reflexivity]; discriminate|]. right. eexists _, _, _, _, _, _. reflexivity.
      * intros [r L]. assert (L2 : exists e, loads W0 C0 S27 (dict [("n", VInt 3); ("type", VStr "b")]) (CLS "TagA") (Exc e)).
        { eexists. split; [|exists 50; vm_compute; reflexivity]. discriminate. }
        destruct L2 as [e L2]. pose proof (loads_det _ _ _ _ _ _ _ L L2). discriminate.
  - obj ok_NT [(VInt 1, TInt)] [VInt 1].
    + exact I.
    + split; [eexists; split; reflexivity|hides_now].
    + fields_now. basic_now.
  - eapply sr_typeddict; try apply ok_TD; try reflexivity.
    + cbn. tauto.
    + repeat constructor.
    + intros e I. in_cases; subst. cbn. tauto.
    + intros k I. in_cases; subst; eexists _, _; split; reflexivity.
    + intros f v x t I Et. in_cases; vm_compute in Et; injection Et as <-; basic_now.
  - eapply sr_enum; try reflexivity.
    + cbn. intuition discriminate.
    + constructor. cbn. tauto.
    + discriminate.
    + right. split; [discriminate|]. exists [("RED", VInt 1)], "GREEN", (VStr "g"), [("PAIR", VTuple [VInt 1; VInt 2])].
      split; [reflexivity|]. split; [reflexivity|]. split; [|reflexivity]. intros n x' I. in_cases. subst. reflexivity.
  - apply sr_library; [apply lf_string| |reflexivity|reflexivity]; try reflexivity.
    + cbn. tauto.
    + cbn. tauto.
    + intros c' I. in_cases; subst; reflexivity.
    + cbn. intuition discriminate.
  - apply sr_library; [apply lf_date; reflexivity| |reflexivity|reflexivity]. cbn. intuition discriminate.
  - apply sr_set; [eexists; vm_compute; reflexivity|reflexivity| | |].
    + intros v x I. in_cases; basic_now.
    + intros v I. in_cases; subst; reflexivity.
    + repeat constructor.
  - apply sr_dict; try (eexists; vm_compute; reflexivity); try reflexivity.
    + intros k v k' x I. in_cases. basic_now.
    + intros k v k' x I. destruct I as [[= <- <- <- <-]|[]]. obj ok_Swap [(VInt 1, TInt); (VInt 2, TInt)] [VInt 1; VInt 2]; [dc_ready|dc_rebuilds|].
      fields_now; basic_now.
    + repeat constructor.
    + repeat constructor.
    + intros k I. in_cases. subst. reflexivity.
    + intros k I. in_cases. subst. reflexivity.
  - obj ok_Ren [(VInt 1, TInt)] [VInt 1]; [dc_ready|dc_rebuilds|]. fields_now. basic_now.
  - apply sr_union_basic; cbn; tauto.
Qed.
Lemma py27 : python_value W0 V27.
Proof. within_now 9; cbn; try exact I; repeat split; try reflexivity; try discriminate; cbn; intuition discriminate. Qed.
Lemma ann27 : annotations_hold W0 default_basic V27.
Proof.
  intros c fs hs f t b n o x l y H. revert x l y f t. pattern (VObj c fs) in H.
  assert (K : In (VObj c fs) (all_within 9 [V27])) by (apply (within_closed _ V27); [vm_compute; reflexivity|vm_compute; reflexivity|exact H]).
  vm_compute in K. intros x l y f t Hh Hf Ht Hb If Hx Iy.
  repeat (destruct K as [K|K]; [try discriminate K; injection K as <- <-; cbn in If; in_cases; subst; intuition discriminate|]). contradiction.
Qed.
(** [V27] meets all the hypotheses, with the loader [S27], with a new loader, and with a dumper which was already used *)
Example C27_ex :
  is_std W0 default_basic default_strcons C0 /\ is_dstd W0 default_basic default_dstrcons D0 /\
  (forall c, In c collections -> ~ In c default_basic) /\
  used W0 C0 S27 /\ dhistory W0 D0 SD1 /\ python_value W0 V27 /\ annotations_hold W0 default_basic V27 /\
  serial W0 default_basic default_strcons default_dstrcons C0 D0 S27 env27 V27 T27 X27 /\
  steady W0 default_basic C0 env27 S27 X27 T27 /\ d_hide D0 = true.
Proof.
  split; [exact C0_std|]. split; [exact D0_std|]. split.
  { intros c I. cbn in I. in_cases; subst; cbn; intuition discriminate. }
  split; [exact S27_used|]. split; [exact SD1_used|]. split; [exact py27|]. split; [exact ann27|].
  split; [exact ser27|]. split; [exact steady27|reflexivity].
Qed.
(** a new loader and the recursive class *)
Example C27_ex_new :
  ser (an 1 (an 2 VNone)) (CLS "ANode") (dict [("v", VInt 1); ("next", dict [("v", VInt 2)])]) /\
  used W0 C0 S0 /\ resolves W0 C0 env27 S0 (CLS "ANode") /\
  (forall n kt vt, ~ reach W0 (pep563 C0) env27 (CLS "ANode") (TGen n ODict (Some [kt; vt]))).
Proof.
  split; [|split; [apply used_new|split]].
  - apply (ser_node 1 _ [("next", dict [("v", VInt 2)])]). right. split; [discriminate|]. split; [|reflexivity].
    apply ser_next; [|left; reflexivity]. apply (ser_node 2 _ []). left. auto.
  - intros n R. right. apply (reach_closed W0 C0 env27 L27) in R; [|vm_compute; reflexivity|vm_compute; reflexivity].
    assert (n = "ANode") as ->.
    { unfold L27 in R. repeat (destruct R as [R|R]; [try discriminate R; try (injection R as <-; reflexivity)|]). contradiction. }
    split; [reflexivity|]. split; [vm_compute; reflexivity|]. split; [vm_compute; tauto|]. split; [discriminate|reflexivity].
  - intros n kt vt R. apply (reach_closed W0 C0 env27 [CLS "ANode"; TInt; OPT (TForward "ANode"); TForward "ANode"; TNone]) in R; [|vm_compute; reflexivity|vm_compute; reflexivity].
    repeat (destruct R as [R|R]; [discriminate R|]). contradiction.
Qed.

(** What [serial] excludes.  Each case: a value [v] which conforms to the type
    [t] is dumped as [x], which is not loaded back as [v]. *)
Definition not_back (v : value) (t : ty) (x : value) : Prop :=
  conforms W0 true (fun _ => None) v t /\ dumps W0 D0 dfresh v (Ok x) /\
  exists r, loads W0 C0 S0 x t r /\ r <> Ok v.
Theorem C27_refuted :
  (* hidedefault compares with ==: Point(1, False) comes back as Point(1, 0) *)
  not_back (VObj (CUser "Point") [("x", VInt 1); ("y", VBool false)]) (CLS "Point") (dict [("x", VInt 1)]) /\
  (* Union[Color, str]: the value of the member is itself a string *)
  not_back (VEnum (CUser "Color") "GREEN" (VStr "g")) (UNION [CLS "Color"; TStr]) (VStr "g") /\
  (* an Enum whose member has a tuple as value, which is dumped as a list *)
  not_back (VEnum (CUser "Color") "PAIR" (VTuple [VInt 1; VInt 2])) (CLS "Color") (VList [VInt 1; VInt 2]) /\
  (* attrs: the constructor knows the field _p as p *)
  not_back (VObj (CUser "Priv") [("_p", VInt 1)]) (CLS "Priv") (dict [("_p", VInt 1)]).
Proof.
  assert (LD : forall v t x r, dumps W0 D0 dfresh v (Ok x) -> fst (load W0 C0 50 x t S0) = r -> r <> OOF -> r <> Ok v ->
    conforms W0 true (fun _ => None) v t -> not_back v t x).
  { intros v t x r D L NO N C. split; [exact C|]. split; [exact D|]. exists r. split; [split; [exact NO|exists 50; exact L]|exact N]. }
  split; [|split; [|split]]; (eapply LD; [split; [discriminate|exists 50; vm_compute; reflexivity]|vm_compute; reflexivity|discriminate|discriminate|]).
  - apply (cf_object _ _ _ (CUser "Point") [f0 "x" TInt DNo; f0 "y" TInt (DValue (VInt 0))] [("x", VInt 1); ("y", VBool false)]); [left; reflexivity|reflexivity|reflexivity|].
    intros k x I. right. exists TInt. in_cases; subst; (split; [cbn; tauto|apply cf_class; reflexivity]).
  - apply (cf_union _ _ _ _ _ (CLS "Color")); [left; reflexivity|]. apply cf_class; reflexivity.
  - apply cf_class; reflexivity.
  - apply (cf_object _ _ _ (CUser "Priv") [f0 "_p" TInt DNo] [("_p", VInt 1)]); [right; reflexivity|reflexivity|reflexivity|].
    intros k x I. right. exists TInt. in_cases; subst; (split; [cbn; tauto|apply cf_class; reflexivity]).
Qed.
Print Assumptions C27_refuted.
