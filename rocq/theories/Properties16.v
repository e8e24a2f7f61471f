(** * Properties, sixteenth part: data models round trip (C55) *)

From Verif Require Import Loader Dumper Spec Vocab Fuel Inv Std Obs Hist Reuse Dumps Facts5 Examples Ground
  Properties1 Properties2 Properties3 Properties5 Schema Plain Plain2 Plain3 RoundTrip Properties8.

(** C55 Values of a data model always round trip.

    [typed w basic strcons dstrcons cfg dcfg env v t] (Schema.v): [v] is a
    value of the data model [t].  Unlike [serial] (C27) it does not mention
    any state of a loader, nor what the loader does: it is only about the value,
    the annotations and the declarations of the classes.

    [env] is what the forward references mean; the loader knows the names, or
    it is new and the only name is the one of the type which is loaded. *)
Definition names_ready (w : world) (env : string -> option ty) (s : lstate) (t : ty) : Prop :=
  forall n t', env n = Some t' ->
    knows s n t' \/ (t' = t /\ w_name w t = Some n /\ ~ seen s t /\ st_frefs s <> None /\ names_of s n = None).

Theorem C55_round_trip : forall w basic strcons dstrcons cfg dcfg,
  is_std w basic strcons cfg -> is_dstd w basic dstrcons dcfg -> wf_reflect w ->
  (forall c, In c collections -> ~ In c basic) -> (forall c, In c basic -> ci_ann (class_of w c) = []) ->
  uniondebugconflict cfg = false ->
  forall env s ds v t,
  used w cfg s -> names_ready w env s t -> dhistory w dcfg ds -> python_value w v ->
  typed w basic strcons dstrcons cfg dcfg env v t ->
  exists x, (forall r, dumps w dcfg ds v r <-> r = Ok x) /\ (forall r, loads w cfg s x t r <-> r = Ok v).
Proof.
  intros w basic strcons dstrcons cfg dcfg Hs Hd Hw Hp Ha Hu env s ds v t U En D P T.
  destruct (typed_good w basic strcons dstrcons cfg dcfg Hs Hd Hw env Hp Ha Hu v t T P) as [x [E [L _]]].
  exists x. split.
  - intro r. rewrite (dumps_dval w basic dstrcons dcfg Hd ds v r D P), (E TAny (ann_any basic v)). reflexivity.
  - exact (LT_loads w cfg env s x t v U En L).
Qed.
Print Assumptions C55_round_trip.

(** the loader and the dumper of the sender and those of the receiver can be
    different ones: the data written by any dumper is read by any loader, and
    dumped again it is the same data *)
Theorem C55_exchange : forall w basic strcons dstrcons cfg dcfg,
  is_std w basic strcons cfg -> is_dstd w basic dstrcons dcfg -> wf_reflect w ->
  (forall c, In c collections -> ~ In c basic) -> (forall c, In c basic -> ci_ann (class_of w c) = []) ->
  uniondebugconflict cfg = false ->
  forall env s ds ds' v t,
  used w cfg s -> names_ready w env s t -> dhistory w dcfg ds -> dhistory w dcfg ds' -> python_value w v ->
  typed w basic strcons dstrcons cfg dcfg env v t ->
  forall x, dumps w dcfg ds v (Ok x) ->
  exists v', loads w cfg s x t (Ok v') /\ v' = v /\ forall r, dumps w dcfg ds' v' r <-> r = Ok x.
Proof.
  intros w basic strcons dstrcons cfg dcfg Hs Hd Hw Hp Ha Hu env s ds ds' v t U En D D' P T x X.
  destruct (C55_round_trip w basic strcons dstrcons cfg dcfg Hs Hd Hw Hp Ha Hu env s ds v t U En D P T) as [x1 [X1 L1]].
  apply X1 in X. injection X as ->. exists v. split; [apply L1; reflexivity|]. split; [reflexivity|].
  intro r. rewrite (dumps_dval w basic dstrcons dcfg Hd ds' v r D' P).
  rewrite <- (dumps_dval w basic dstrcons dcfg Hd ds v r D P). apply X1.
Qed.
Print Assumptions C55_exchange.

(** in a data model two different values never have the same data *)
Theorem C55_no_collision : forall w basic strcons dstrcons cfg dcfg,
  is_std w basic strcons cfg -> is_dstd w basic dstrcons dcfg -> wf_reflect w ->
  (forall c, In c collections -> ~ In c basic) -> (forall c, In c basic -> ci_ann (class_of w c) = []) ->
  uniondebugconflict cfg = false ->
  forall env s ds v1 v2 t,
  used w cfg s -> names_ready w env s t -> dhistory w dcfg ds -> python_value w v1 -> python_value w v2 ->
  typed w basic strcons dstrcons cfg dcfg env v1 t -> typed w basic strcons dstrcons cfg dcfg env v2 t ->
  forall x, dumps w dcfg ds v1 (Ok x) -> dumps w dcfg ds v2 (Ok x) -> v1 = v2.
Proof.
  intros w basic strcons dstrcons cfg dcfg Hs Hd Hw Hp Ha Hu env s ds v1 v2 t U En D P1 P2 T1 T2 x X1 X2.
  destruct (C55_exchange w basic strcons dstrcons cfg dcfg Hs Hd Hw Hp Ha Hu env s ds ds v1 t U En D D P1 T1 x X1) as [u1 [L1 [-> _]]].
  destruct (C55_exchange w basic strcons dstrcons cfg dcfg Hs Hd Hw Hp Ha Hu env s ds ds v2 t U En D D P2 T2 x X2) as [u2 [L2 [-> _]]].
  pose proof (loads_det _ _ _ _ _ _ _ L1 L2) as E. injection E as ->. reflexivity.
Qed.
Print Assumptions C55_no_collision.

(** ** [V27] is a value of the data model [T27] *)
(** the only forward reference is ANode *)
Definition env55 (n : string) : option ty := if String.eqb n "ANode" then Some (CLS "ANode") else None.
Notation td := (typed W0 default_basic default_strcons default_dstrcons C0 D0 env55).
Ltac scalar_now := apply td_scalar; [cbn; tauto|discriminate|reflexivity].
Lemma dumped_is v x : python_value W0 v -> dumped W0 D0 v x -> Ok x = dval W0 D0 v TAny.
Proof. intros P [ds [H X]]. exact (proj1 (dumps_dval W0 default_basic default_dstrcons D0 D0_std ds v (Ok x) H P) X). Qed.

Lemma td_obj v t :
  let c := type_of v in let shown := filter (dump_shows W0 D0 v) (dump_fields W0 D0 v) in
  t = TClass c -> obj_ok c -> dump_object W0 default_basic D0 v -> dump_ready W0 D0 v -> rebuilds W0 D0 v ->
  Permutation (obj_fields W0 C0 c) (map (fun g => (df_name g, df_ext g)) (dump_fields W0 D0 v)) ->
  Forall (fun f => exists t, str_get (df_name f) (declared W0 (pep563 C0) c) = Some t /\ (df_ann f = TAny \/ df_ann f = t)) (dump_fields W0 D0 v) ->
  Forall (fun f => forall x t, getattr v (df_name f) = POk x -> str_get (df_name f) (declared W0 (pep563 C0) c) = Some t -> td x t) shown ->
  td v t.
Proof.
  intros c shown -> O D1_ D2 D3 E1 E2 E3. apply td_object; try assumption.
  - intros f e. fold c. split; apply Permutation_in; [exact E1|apply Permutation_sym; exact E1].
  - intros f I. rewrite Forall_forall in E2. exact (E2 f I).
  - intros f t x I Sh Et Ex. rewrite Forall_forall in E3. apply (E3 f); [|exact Ex|exact Et]. apply filter_In. auto.
Qed.
Ltac field_types := vm_compute; repeat (apply Forall_cons; [eexists; split; [reflexivity|first [left; reflexivity|right; reflexivity]]|]); apply Forall_nil.
Ltac field_vals := match goal with |- Forall _ ?l => let l' := eval vm_compute in l in change l with l' end;
  repeat (apply Forall_cons; [let x := fresh in let t := fresh in let E1 := fresh in let E2 := fresh in
    intros x t E1 E2; vm_compute in E1, E2; injection E1 as <-; injection E2 as <-|]); [..|apply Forall_nil].
Ltac tobj ok_ := apply td_obj; [reflexivity|exact ok_|dobj| | |vm_compute; first [reflexivity|apply perm_swap]|field_types|field_vals].

Lemma td_next v : td v (CLS "ANode") -> python_value W0 v -> (forall x, Ok x = dval W0 D0 v TAny -> type_of x = CDict) -> td v (OPT (TForward "ANode")).
Proof.
  intros T P K. apply (td_union _ _ _ _ _ _ _ v false [] (TForward "ANode") [TNone]).
  - apply (td_forward _ _ _ _ _ _ _ _ _ (CLS "ANode")); [vm_compute; reflexivity|exact T].
  - reflexivity.
  - intros x Dx. specialize (K x (dumped_is v x P Dx)). split; [|split].
    + intros [B _]. rewrite K in B. cbn in B. intuition discriminate.
    + intros d k y -> Lf. destruct (Lf TNone) as [c [t0 [vals [[= <-] [J _]]]]]; [right; left; reflexivity|contradiction].
    + intros t' [<-|[]]. left. reflexivity.
Qed.
Lemma td_node z : td (an z VNone) (CLS "ANode").
Proof. tobj ok_ANode; [at_ready|at_rebuilds|]. scalar_now. Qed.
Lemma py_node : python_value W0 (an 2 VNone).
Proof. within_now 9; cbn; try exact I; repeat split; try reflexivity; try discriminate; cbn; intuition discriminate. Qed.
Lemma td_chain : td (an 1 (an 2 VNone)) (CLS "ANode").
Proof.
  tobj ok_ANode; [at_ready|at_rebuilds| |].
  - scalar_now.
  - apply td_next; [apply td_node|exact py_node|]. intros x E. vm_compute in E. injection E as ->. reflexivity.
Qed.
Definition tags55 : list (cid * list value) := [(CUser "TagA", [VStr "a"]); (CUser "TagB", [VStr "b"])].
Lemma disc55 : discriminated W0 default_basic default_strcons C0 "type" tags55.
Proof.
  split; [|split].
  - split.
    + intros c vals [[= <- <-]|[[= <- <-]|[]]]; [exact ok_TagA|exact ok_TagB].
    + intros c vals [[= <- <-]|[[= <- <-]|[]]]; (split; [left; reflexivity|split; [reflexivity|repeat constructor]]).
    + vm_compute. nodup.
    + intros c1 l1 c2 l2 x y [[= <- <-]|[[= <- <-]|[]]] [[= <- <-]|[[= <- <-]|[]]] N [<-|[]] [<-|[]]; try congruence; reflexivity.
  - intros k' Lf. destruct (Lf (CLS "TagA")) as [c [t0 [vals [[= <-] [J E]]]]]; [left; reflexivity|].
    in_cases; subst; try discriminate E. reflexivity.
  - intros c vals [[= <- <-]|[[= <- <-]|[]]]; reflexivity.
Qed.
Lemma py55_tag : python_value W0 (VObj (CUser "TagB") [("type", VStr "b"); ("n", VInt 3)]).
Proof. within_now 9; cbn; try exact I; repeat split; try reflexivity; try discriminate; cbn; intuition discriminate. Qed.

Lemma td55 : td V27 T27.
Proof.
  apply td_tuple; [vm_compute; discriminate || (vm_compute; reflexivity)|reflexivity|]. intros t v I.
  repeat (destruct I as [I|I]; [injection I; clear I; intros; subst|]); [..|contradiction].
  - apply td_list; [eexists; vm_compute; reflexivity|]. intros v [<-|[<-|[]]] _; [exact td_chain|apply td_node].
  - apply (td_tagged _ _ _ _ _ _ _ _ false "type" tags55 (CUser "TagB") [VStr "b"]).
    + exact disc55.
    + right. left. reflexivity.
    + tobj ok_TagB; [dc_ready|dc_rebuilds| |].
      * scalar_now.
      * apply td_literal; [cbn; tauto|reflexivity].
    + intros x Dx. apply (dumped_is _ _ py55_tag) in Dx. vm_compute in Dx. injection Dx as ->. eexists _, _.
      split; [reflexivity|]. split; [reflexivity|left; reflexivity].
  - tobj ok_NT.
    + exact I.
    + split; [eexists; split; reflexivity|hides_now].
    + scalar_now.
  - eapply td_typeddict; try apply ok_TD; try reflexivity.
    + cbn. tauto.
    + repeat constructor.
    + intros e I. in_cases; subst. cbn. tauto.
    + intros k v I. in_cases; subst; eexists _, _; split; reflexivity.
    + intros f v t I Et. in_cases; vm_compute in Et; injection Et as <-; scalar_now.
  - eapply td_enum; try reflexivity.
    + cbn. intuition discriminate.
    + constructor. cbn. tauto.
    + discriminate.
    + right. split; [discriminate|]. exists [("RED", VInt 1)], "GREEN", (VStr "g"), [("PAIR", VTuple [VInt 1; VInt 2])].
      split; [reflexivity|]. split; [reflexivity|]. split; [|reflexivity]. intros n x' I. in_cases. subst. reflexivity.
  - eapply td_library; [apply lf_string| |reflexivity|reflexivity]; try reflexivity.
    + cbn. tauto.
    + cbn. tauto.
    + intros c' I. in_cases; subst; reflexivity.
    + cbn. intuition discriminate.
  - eapply td_library; [apply lf_date; reflexivity| |reflexivity|reflexivity]. cbn. intuition discriminate.
  - apply td_set; [eexists; vm_compute; reflexivity| | |].
    + intros v I _. in_cases; subst; scalar_now.
    + intros v I. in_cases; subst; reflexivity.
    + repeat constructor.
  - apply td_dict; [cbn; tauto|discriminate|eexists; vm_compute; reflexivity| | |].
    + intros k v I. in_cases. subst. split; reflexivity.
    + intros k v I _. destruct I as [[= <- <-]|[]]. tobj ok_Swap; [dc_ready|dc_rebuilds| |]; scalar_now.
    + repeat constructor.
  - tobj ok_Ren; [dc_ready|dc_rebuilds|]. scalar_now.
  - apply td_union_basic; cbn; tauto.
Qed.
(** a union with neither basic types only nor a discriminator: the data of a
    Point is not a list, has no field "a" and no field "type" *)
Definition U55 : ty := UNION [LIST TInt; CLS "NT"; CLS "Point"; CLS "TagA"; TInt].
Definition P55 : value := VObj (CUser "Point") [("x", VInt 1); ("y", VInt 2)].
Lemma py55_point : python_value W0 P55.
Proof. within_now 9; cbn; try exact I; repeat split; try reflexivity; try discriminate; cbn; intuition discriminate. Qed.
Lemma td55_union : td P55 U55.
Proof.
  apply (td_union _ _ _ _ _ _ _ P55 false [LIST TInt; CLS "NT"] (CLS "Point") [CLS "TagA"; TInt]).
  - tobj ok_Point; [dc_ready|dc_rebuilds| |]; scalar_now.
  - reflexivity.
  - intros x Dx. apply (dumped_is _ _ py55_point) in Dx. vm_compute in Dx. injection Dx as ->. split; [|split].
    + intros [B _]. cbn in B. intuition discriminate.
    + intros d k y _ Lf. destruct (Lf TInt) as [c [t0 [vals [[= <-] [J _]]]]]; [cbn; tauto|contradiction].
    + intros t' It. cbn in It. destruct It as [<-|[<-|[<-|[<-|[]]]]].
      * right. apply wd_dict. left. reflexivity.
      * right. apply (wd_missing _ _ _ _ _ _ _ "a"); [exact ok_NT|repeat constructor|left; reflexivity|cbn; intuition discriminate].
      * right. apply (wd_missing _ _ _ _ _ _ _ "type"); [exact ok_TagA|repeat constructor|left; reflexivity|cbn; intuition discriminate].
      * left. reflexivity.
Qed.

Lemma env55_name n t' : env55 n = Some t' -> n = "ANode" /\ t' = CLS "ANode".
Proof. unfold env55. destruct (String.eqb_spec n "ANode") as [->|_]; [intros [= <-]; auto|discriminate]. Qed.
Lemma knows55 n t' : env55 n = Some t' -> knows S27 n t'.
Proof. intro E. destruct (env55_name n t' E) as [-> ->]. eexists. split; vm_compute; reflexivity. Qed.
(** a loader which was used before, and a new one *)
Example C55_ex :
  is_std W0 default_basic default_strcons C0 /\ is_dstd W0 default_basic default_dstrcons D0 /\ wf_reflect W0 /\
  (forall c, In c collections -> ~ In c default_basic) /\ (forall c, In c default_basic -> ci_ann (class_of W0 c) = []) /\
  uniondebugconflict C0 = false /\ dhistory W0 D0 SD1 /\
  used W0 C0 S27 /\ names_ready W0 env55 S27 T27 /\ python_value W0 V27 /\ td V27 T27 /\
  names_ready W0 env55 S27 U55 /\ python_value W0 P55 /\ td P55 U55 /\
  used W0 C0 S0 /\ names_ready W0 env55 S0 (CLS "ANode") /\ td (an 1 (an 2 VNone)) (CLS "ANode").
Proof.
  split; [exact C0_std|]. split; [exact D0_std|]. split; [exact wr0|]. split; [exact (proj1 (proj2 (proj2 C27_ex)))|].
  split; [intros c I; cbn in I; in_cases; subst; reflexivity|]. split; [reflexivity|]. split; [exact SD1_used|]. split; [exact S27_used|].
  split; [intros n t' E; left; exact (knows55 n t' E)|]. split; [exact py27|]. split; [exact td55|].
  split; [intros n t' E; left; exact (knows55 n t' E)|]. split; [exact py55_point|]. split; [exact td55_union|].
  split; [apply used_new|]. split; [|exact td_chain].
  intros n t' E. destruct (env55_name n t' E) as [-> ->]. right.
  split; [reflexivity|]. split; [vm_compute; reflexivity|]. split; [vm_compute; tauto|]. split; [discriminate|reflexivity].
Qed.
(** in a collection True stays True, also if it is declared with int *)
Example C55_ex_stays : td (VList [VInt 1; VBool true]) (LIST TInt) /\
  loads W0 C0 S27 (VList [VInt 1; VBool true]) (LIST TInt) (Ok (VList [VInt 1; VBool true])).
Proof.
  split; [|split; [discriminate|exists 5; vm_compute; reflexivity]].
  apply td_list; [eexists; vm_compute; reflexivity|]. intros v [<-|[<-|[]]] N; [scalar_now|].
  exfalso. apply N. split; [|cbn; tauto]. exists CInt. split; [reflexivity|]. split; [cbn; tauto|reflexivity].
Qed.
