(** * Properties, third part: objects, unions, enums (C06, C07, C08, C13, C14,
      C15, C16, C24, C34, C37) *)

From Verif Require Import Loader Dumper Spec Vocab Inv Std Sound Fuel Obs Scalars Index Simple Transparent Hist Reuse
  Items Eval Tuples Dicts Objects ObjFacts Unions Tagged Enums Facts2 Facts3 Examples Ground Properties1 Properties2.

Ltac nodup := repeat (constructor; [cbn; intuition discriminate|]); constructor.
(** the hypotheses about the class, for the classes of the examples *)
Ltac obj_class := repeat split; cbn; try (intuition discriminate).
Ltac loads_now := split; [discriminate|exists 50; vm_compute; reflexivity].
Ltac rejects_now := eexists; split; [|exists 50; vm_compute; reflexivity]; discriminate.

Definition obj_ok (c : cid) : Prop :=
  object_class W0 default_basic default_strcons c /\ resolvable W0 C0 c /\ distinct_names W0 C0 c.
Definition obj_oks (c : cid) : Prop :=
  object_class W0 default_basic default_strcons c /\ resolvable W0 (strict C0) c /\ distinct_names W0 (strict C0) c.
Ltac obj_now := split; [obj_class|split; [try discriminate; try (refine (proj1 (attr_hints_iff _) _); eexists; reflexivity)|split; vm_compute; nodup]].
Lemma ok_Point : obj_ok (CUser "Point"). Proof. obj_now. Qed.
Lemma ok_Swap : obj_ok (CUser "Swap"). Proof. obj_now. Qed.
Lemma ok_Atr : obj_ok (CUser "Atr"). Proof. obj_now. Qed.
Lemma ok_NT : obj_ok (CUser "NT"). Proof. obj_now. Qed.
Lemma ok_TD : obj_ok (CUser "TD"). Proof. obj_now. Qed.
Lemma ok_TagA : obj_ok (CUser "TagA"). Proof. obj_now. Qed.
Lemma ok_TagB : obj_ok (CUser "TagB"). Proof. obj_now. Qed.
Lemma oks_Swap : obj_oks (CUser "Swap"). Proof. obj_now. Qed.
Lemma oks_Ren : obj_oks (CUser "Ren"). Proof. obj_now. Qed.

(** C06 Missing required fields are always rejected *)
Theorem C06_missing : forall w basic strcons cfg, is_std w basic strcons cfg -> wf_reflect w ->
  forall c v d e,
  object_class w basic strcons c -> resolvable w cfg c -> distinct_names w cfg c ->
  proper_data v -> obj_data w cfg c v d ->
  In e (required_names w cfg c) -> ~ In (VStr e) (map fst d) ->
  exists x, raises KValue x /\ forall s, used w cfg s -> forall r, loads w cfg s v (TClass c) r <-> r = x.
Proof. exact c06. Qed.
Print Assumptions C06_missing.
Theorem C06_present : forall w basic strcons cfg, is_std w basic strcons cfg -> wf_reflect w ->
  forall s v c d,
  used w cfg s -> object_class w basic strcons c -> resolvable w cfg c -> distinct_names w cfg c ->
  proper_data v -> obj_data w cfg c v d -> accepts w cfg s v (TClass c) ->
  forall e, In e (required_names w cfg c) -> In (VStr e) (map fst d).
Proof.
  intros w basic strcons cfg Hs Hw s v c d U OC R DN PV OD [r L] e He.
  destruct (in_dec value_eq_dec (VStr e) (map fst d)) as [I|N]; [exact I|exfalso].
  destruct (c06 w basic strcons cfg Hs Hw c v d e OC R DN PV OD He N) as [x [[m [tr [v0 [t [subs ->]]]]] H]].
  apply (H s U) in L. discriminate.
Qed.
Print Assumptions C06_present.
Example C06_ex : obj_ok (CUser "Atr") /\ required_names W0 C0 (CUser "Atr") = ["A"]
  /\ ~ In (VStr "A") (map fst [(VStr "a", VInt 1)]) /\ proper_data (dict [("a", VInt 1)])
  /\ obj_ok (CUser "NT") /\ required_names W0 C0 (CUser "NT") = ["a"]
  /\ obj_ok (CUser "TD") /\ required_names W0 C0 (CUser "TD") = ["k"]
  /\ obj_ok (CUser "Point") /\ required_names W0 C0 (CUser "Point") = ["x"].
Proof.
  split; [exact ok_Atr|]. split; [reflexivity|]. split; [cbn; intuition discriminate|]. split; [repeat constructor|].
  split; [exact ok_NT|]. split; [reflexivity|]. split; [exact ok_TD|]. split; [reflexivity|]. split; [exact ok_Point|reflexivity].
Qed.

(** C07 failonextra never lets an unknown key through.  The exception is a
    TypedloadValueError when all the keys are strings, see C07_refuted *)
Theorem C07_extra : forall w basic strcons cfg, is_std w basic strcons cfg -> wf_reflect w ->
  forall c v d k x0,
  object_class w basic strcons c -> resolvable w cfg c -> distinct_names w cfg c ->
  proper_data v -> obj_data w cfg c v d ->
  failonextra cfg = true -> In (k, x0) d -> field_of w cfg c k = None ->
  exists e, (forall s, used w cfg s -> forall r, loads w cfg s v (TClass c) r <-> r = Exc e) /\
    ((forall k' x, In (k', x) d -> exists n, k' = VStr n) -> raises KValue (Exc e)).
Proof. exact c07. Qed.
Print Assumptions C07_extra.
(** "b" is the python name of a renamed field of Ren-like classes: "field" is not an external name *)
Example C07_ex : obj_oks (CUser "Ren") /\ failonextra (strict C0) = true /\
  field_of W0 (strict C0) (CUser "Ren") (VStr "external") = Some "field" /\
  field_of W0 (strict C0) (CUser "Ren") (VStr "field") = None /\
  accepts W0 (strict C0) S1s (dict [("external", VInt 1)]) (CLS "Ren") /\
  rejects W0 (strict C0) S1s (dict [("external", VInt 1); ("field", VInt 1)]) (CLS "Ren").
Proof.
  split; [exact oks_Ren|]. split; [reflexivity|]. split; [reflexivity|]. split; [reflexivity|].
  split; [eexists; loads_now|rejects_now].
Qed.
(** with keys which are not strings the message cannot be built: a raw
    TypeError, so an AssertionError *)
Theorem C07_refuted : exists w basic strcons cfg s v c d e,
  is_std w basic strcons cfg /\ wf_world w basic strcons /\ used w cfg s /\
  object_class w basic strcons c /\ resolvable w cfg c /\ distinct_names w cfg c /\
  proper_data v /\ obj_data w cfg c v d /\ failonextra cfg = true /\
  (exists k x, In (k, x) d /\ field_of w cfg c k = None) /\
  loads w cfg s v (TClass c) (Exc e) /\ ~ raises_tl (Exc e).
Proof.
  exists W0, default_basic, default_strcons, (strict C0), S1s, (VDict [(VStr "x", VInt 1); (VInt 7, VInt 1)]), (CUser "Point"),
    [(VStr "x", VInt 1); (VInt 7, VInt 1)], (XRaw RAssert).
  split; [exact C0s_std|]. split; [exact wf0|]. split; [exact S1s_used|]. split; [obj_class|]. split; [discriminate|].
  split; [split; vm_compute; nodup|]. split; [repeat constructor|]. split; [left; reflexivity|]. split; [reflexivity|].
  split; [exists (VInt 7), (VInt 1); split; [right; left; reflexivity|reflexivity]|].
  split; [loads_now|]. intros [k [m [tr [v [t [subs H]]]]]]. discriminate.
Qed.
Print Assumptions C07_refuted.

(** C08 Without failonextra, extra keys have no influence *)
Theorem C08_drop : forall w basic strcons cfg, is_std w basic strcons cfg -> wf_reflect w ->
  forall c d keep s,
  used w cfg s -> object_class w basic strcons c -> resolvable w cfg c -> distinct_names w cfg c ->
  required_are_fields w cfg c -> py_dict d -> failonextra cfg = false ->
  (forall k x, In (k, x) d -> keep (k, x) = false -> field_of w cfg c k = None) ->
  load_alike w cfg s (VDict d) (VDict (filter keep d)) (TClass c).
Proof. exact c08_drop. Qed.
Print Assumptions C08_drop.
(** more generally, only the data of the fields matters, at any position *)
Theorem C08_given : forall w basic strcons cfg, is_std w basic strcons cfg -> wf_reflect w ->
  forall c d1 d2 s,
  used w cfg s -> object_class w basic strcons c -> resolvable w cfg c -> distinct_names w cfg c ->
  required_are_fields w cfg c -> py_dict d1 -> py_dict d2 -> failonextra cfg = false ->
  given w cfg c d1 = given w cfg c d2 -> load_alike w cfg s (VDict d1) (VDict d2) (TClass c).
Proof. exact c08. Qed.
Print Assumptions C08_given.
Example C08_ex : let d := [(VInt 3, VNone); (VStr "b", VInt 1); (VStr "c", VNone); (VStr "a", VInt 2)] in
  let keep := fun kx : value * value => match fst kx with VStr "a" | VStr "b" => true | _ => false end in
  obj_ok (CUser "Swap") /\ required_are_fields W0 C0 (CUser "Swap") /\ py_dict d /\ failonextra C0 = false /\
  (forall k x, In (k, x) d -> keep (k, x) = false -> field_of W0 C0 (CUser "Swap") k = None) /\
  loads W0 C0 S1 (VDict d) (CLS "Swap") (Ok (VObj (CUser "Swap") [("a", VInt 1); ("b", VInt 2)])).
Proof.
  intros d keep. split; [exact ok_Swap|]. split; [intros f H; exact H|]. split; [repeat constructor|]. split; [reflexivity|].
  split; [|loads_now].
  intros k x H K. cbn in H. repeat (destruct H as [H|H]; [injection H as <- <-; cbn in K; try discriminate K; reflexivity|]). contradiction.
Qed.

(** C24 Name mangling maps external names to fields *)
Theorem C24_fields : forall w basic strcons cfg,
  is_std w basic strcons cfg -> wf_reflect w -> wf_world w basic strcons ->
  forall env s v c,
  used w cfg s -> steady w basic cfg env s v (TClass c) ->
  object_class w basic strcons c -> resolvable w cfg c -> distinct_names w cfg c -> proper_data v ->
  forall r, loads w cfg s v (TClass c) (Ok r) ->
  exists d fs, obj_data w cfg c v d /\ bound_fields w c r fs /\
    (* the data under the external name [e] is what the field [f] gets *)
    (forall f e x, In (f, e) (obj_fields w cfg c) -> In (VStr e, x) d ->
       exists t y, str_get f (declared w (pep563 cfg) c) = Some t /\ loads w cfg s x t (Ok y) /\ str_get f fs = Some y) /\
    (* without such data, the default *)
    (forall f e y, In (f, e) (obj_fields w cfg c) -> ~ In (VStr e) (map fst d) -> str_get f fs = Some y -> is_default w c f y).
Proof. exact c24. Qed.
Print Assumptions C24_fields.
Theorem C24_loads_iff : forall w basic strcons cfg,
  is_std w basic strcons cfg -> wf_reflect w ->
  forall env s v c,
  used w cfg s -> steady w basic cfg env s v (TClass c) ->
  object_class w basic strcons c -> resolvable w cfg c -> distinct_names w cfg c -> proper_data v ->
  forall r, loads w cfg s v (TClass c) (Ok r) <->
    exists d, obj_data w cfg c v d /\
      (forall e, In e (required_names w cfg c) -> In (VStr e) (map fst d)) /\
      (failonextra cfg = true -> forall k x, In (k, x) d -> exists f, field_of w cfg c k = Some f) /\
      exists ps, Forall2 (field_loads w cfg s (declared w (pep563 cfg) c)) (given w cfg c d) ps /\
        construct w (TClass c) ps = POk r.
Proof.
  intros w basic strcons cfg Hs Hw env s v c U St OC R DN PV r.
  exact (object w basic strcons cfg Hs Hw env s v _ U St c eq_refl OC R DN PV r).
Qed.
Print Assumptions C24_loads_iff.
(** data under the python name of a renamed field *)
Theorem C24_python_name_ignored : forall w basic strcons cfg, is_std w basic strcons cfg -> wf_reflect w ->
  forall c d1 d2 s f x,
  used w cfg s -> object_class w basic strcons c -> resolvable w cfg c -> distinct_names w cfg c ->
  required_are_fields w cfg c -> py_dict (d1 ++ (VStr f, x) :: d2) -> failonextra cfg = false ->
  ~ In f (map snd (obj_fields w cfg c)) ->
  load_alike w cfg s (VDict (d1 ++ (VStr f, x) :: d2)) (VDict (d1 ++ d2)) (TClass c).
Proof.
  intros w basic strcons cfg Hs Hw c d1 d2 s f x U OC R DN RF PD FE NI.
  assert (FO : field_of w cfg c (VStr f) = None).
  { destruct (field_of w cfg c (VStr f)) as [g|] eqn:E; [|reflexivity]. apply field_of_In in E as [e [[= <-] H]].
    apply (in_map snd) in H. contradiction. }
  apply (c08 w basic strcons cfg Hs Hw c); try assumption.
  - clear -PD. unfold py_dict in *. induction d1 as [|a d1 IH]; cbn in *; inversion PD as [|? ? F P]; subst; [assumption|].
    constructor; [|auto]. apply Forall_app in F as [F1 F2]. inversion F2; subst. apply Forall_app. auto.
  - unfold given. rewrite !flat_map_app. cbn [flat_map fst snd]. rewrite FO. reflexivity.
Qed.
Print Assumptions C24_python_name_ignored.
Theorem C24_python_name_refused : forall w basic strcons cfg, is_std w basic strcons cfg -> wf_reflect w ->
  forall c v d f x0,
  object_class w basic strcons c -> resolvable w cfg c -> distinct_names w cfg c ->
  proper_data v -> obj_data w cfg c v d ->
  failonextra cfg = true -> In (VStr f, x0) d -> ~ In f (map snd (obj_fields w cfg c)) ->
  exists e, forall s, used w cfg s -> forall r, loads w cfg s v (TClass c) r <-> r = Exc e.
Proof.
  intros w basic strcons cfg Hs Hw c v d f x0 OC R DN PV OD FE HI NI.
  assert (FO : field_of w cfg c (VStr f) = None).
  { destruct (field_of w cfg c (VStr f)) as [g|] eqn:E; [|reflexivity]. apply field_of_In in E as [e [[= <-] H]].
    apply (in_map snd) in H. contradiction. }
  destruct (c07 w basic strcons cfg Hs Hw c v d (VStr f) x0 OC R DN PV OD FE HI FO) as [e [H _]]. eauto.
Qed.
Print Assumptions C24_python_name_refused.
(** a class which swaps the names of its fields *)
Example C24_ex : let v := dict [("a", VInt 1); ("b", VStr "2")] in
  steady W0 default_basic C0 env2 S2 v (CLS "Swap") /\ obj_ok (CUser "Swap") /\ proper_data v /\
  obj_fields W0 C0 (CUser "Swap") = [("a", "b"); ("b", "a")] /\
  loads W0 C0 S2 v (CLS "Swap") (Ok (VObj (CUser "Swap") [("a", VInt 2); ("b", VInt 1)])) /\
  ~ In "field" (map snd (obj_fields W0 (strict C0) (CUser "Ren"))).
Proof.
  intro v. split; [steady_in [CLS "Swap"; TInt]|]. split; [exact ok_Swap|]. split; [repeat constructor|]. split; [reflexivity|].
  split; [loads_now|vm_compute; intuition discriminate].
Qed.

(** C37 argparse.Namespace loads like the equivalent dictionary.  With fields
    renamed by the metadata it does not: C37_refuted, C37_renamed *)
Theorem C37_object : forall w basic strcons cfg, is_std w basic strcons cfg -> wf_reflect w ->
  forall c a s,
  used w cfg s -> object_class w basic strcons c -> resolvable w cfg c -> distinct_names w cfg c ->
  dictequivalence cfg = true -> renames w cfg c = false ->
  load_alike w cfg s (VNamespace a) (VDict (map (fun kv => (VStr (fst kv), snd kv)) a)) (TClass c).
Proof. exact c37_object. Qed.
Print Assumptions C37_object.
Theorem C37_object_off : forall w basic strcons cfg, is_std w basic strcons cfg -> wf_reflect w ->
  forall c a s,
  used w cfg s -> object_class w basic strcons c -> resolvable w cfg c ->
  dictequivalence cfg = false ->
  exists x, raises KAttr x /\ forall r, loads w cfg s (VNamespace a) (TClass c) r <-> r = x.
Proof. exact c37_object_off. Qed.
Print Assumptions C37_object_off.
Theorem C37_renamed : forall w basic strcons cfg, is_std w basic strcons cfg -> wf_reflect w ->
  forall c a s,
  used w cfg s -> object_class w basic strcons c -> resolvable w cfg c -> distinct_names w cfg c ->
  renames w cfg c = true ->
  exists x, raises KAttr x /\ forall r, loads w cfg s (VNamespace a) (TClass c) r <-> r = x.
Proof. exact c37_renamed. Qed.
Print Assumptions C37_renamed.
Theorem C37_dict : forall w basic strcons cfg, is_std w basic strcons cfg ->
  forall n kt vt a s,
  used w cfg s -> dictequivalence cfg = true ->
  load_alike w cfg s (VNamespace a) (VDict (map (fun kv => (VStr (fst kv), snd kv)) a)) (TGen n ODict (Some [kt; vt])).
Proof. exact c37_dict. Qed.
Print Assumptions C37_dict.
Theorem C37_dict_off : forall w basic strcons cfg, is_std w basic strcons cfg ->
  forall n kt vt a s,
  used w cfg s -> dictequivalence cfg = false -> supported cfg kt -> supported cfg vt ->
  exists x, raises KAttr x /\ forall r, loads w cfg s (VNamespace a) (TGen n ODict (Some [kt; vt])) r <-> r = x.
Proof. exact c37_dict_off. Qed.
Print Assumptions C37_dict_off.
Theorem C37_refuted : exists w basic strcons cfg s a c,
  is_std w basic strcons cfg /\ wf_world w basic strcons /\ used w cfg s /\
  object_class w basic strcons c /\ resolvable w cfg c /\ distinct_names w cfg c /\ dictequivalence cfg = true /\
  accepts w cfg s (VDict (map (fun kv => (VStr (fst kv), snd kv)) a)) (TClass c) /\ rejects w cfg s (VNamespace a) (TClass c).
Proof.
  exists W0, default_basic, default_strcons, C0, S1, [("A", VInt 1)], (CUser "Atr").
  destruct ok_Atr as [A [B C]]. repeat (split; [first [exact C0_std|exact wf0|exact S1_used|assumption|reflexivity]|]).
  split; [eexists; loads_now|rejects_now].
Qed.
Print Assumptions C37_refuted.
Example C37_ex : obj_ok (CUser "Point") /\ dictequivalence C0 = true /\ renames W0 C0 (CUser "Point") = false /\
  accepts W0 C0 S1 (VNamespace [("x", VInt 1)]) (CLS "Point") /\ renames W0 C0 (CUser "Atr") = true /\
  supported C0 TStr /\ accepts W0 C0 S1 (VNamespace [("x", VInt 1)]) (DICT TStr TInt).
Proof.
  split; [exact ok_Point|]. split; [reflexivity|]. split; [reflexivity|]. split; [eexists; loads_now|].
  split; [reflexivity|]. split; [eexists; reflexivity|eexists; loads_now].
Qed.

(** C13 A union result is the result of one member; non basic members are preferred *)
Theorem C13_member : forall w basic strcons cfg, is_std w basic strcons cfg -> wf_reflect w ->
  forall env s v n args,
  used w cfg s -> steady w basic cfg env s v (TGen n OUnion (Some args)) ->
  forall r, loads w cfg s v (TGen n OUnion (Some args)) (Ok r) ->
  (own_basic basic args v /\ r = v) \/
  exists x, In x args /\ loads w cfg s v x (Ok r) /\
    (* basic types have no annotations of their own *)
    ((forall c, In c basic -> ci_ann (class_of w c) = []) ->
     (exists c, x = TClass c /\ In c basic) ->
     forall z, In z args -> ~ (exists c, z = TClass c /\ In c basic) -> rejects w cfg s v z).
Proof. exact c13. Qed.
Print Assumptions C13_member.
Lemma basic0 : forall c, In c default_basic -> ci_ann (class_of W0 c) = [].
Proof. intros c H. cbn in H. repeat (destruct H as [<-|H]; [reflexivity|]). contradiction. Qed.
Example C13_ex : let t := UNION [TInt; CLS "Point"; LIST TInt] in
  (forall v, steady W0 default_basic C0 env2 S2 v t) /\
  (forall c, In c default_basic -> ci_ann (class_of W0 c) = []) /\
  loads W0 C0 S2 (VList [VStr "3"]) t (Ok (VList [VInt 3])) /\
  loads W0 C0 S2 (VBool true) t (Ok (VInt 1)).
Proof.
  intro t. split; [intro v; steady_in [t; TInt; CLS "Point"; LIST TInt]|]. split; [exact basic0|]. split; loads_now.
Qed.

(** C14 A union accepts whatever one of its members accepts, and otherwise
    reports one exception per member *)
Theorem C14_accepts : forall w basic strcons cfg, is_std w basic strcons cfg -> wf_reflect w ->
  forall env s v n args,
  used w cfg s -> steady w basic cfg env s v (TGen n OUnion (Some args)) ->
  uniondebugconflict cfg = false ->
  tags_hashable w args v ->
  (* no member raises something else than a TypedloadException: C14_refuted *)
  (forall x, In x args -> settles w cfg s v x) ->
  (exists x, In x args /\ accepts w cfg s v x) ->
  accepts w cfg s v (TGen n OUnion (Some args)).
Proof. exact c14_accept. Qed.
Print Assumptions C14_accepts.
Theorem C14_refuses : forall w basic strcons cfg, is_std w basic strcons cfg -> wf_reflect w ->
  forall env s v n args,
  used w cfg s -> steady w basic cfg env s v (TGen n OUnion (Some args)) ->
  tags_hashable w args v ->
  ~ own_basic basic args v ->
  (forall x, In x args -> settles w cfg s v x /\ ~ accepts w cfg s v x) ->
  exists l es m,
    Permutation l args /\
    Forall2 (failed w cfg s v n args) l es /\
    forall r, loads w cfg s v (TGen n OUnion (Some args)) r <->
      r = Exc (XTL KValue m [(v, TGen n OUnion (Some args), None)] (Some v) (Some (TGen n OUnion (Some args))) es).
Proof. exact c14_refuse. Qed.
Print Assumptions C14_refuses.
Lemma tags_none w args v : (forall k, ~ literal_field w args k) -> tags_hashable w args v.
Proof. intros H d k x _ L. destruct (H k L). Qed.
Example C14_ex : let t := [CLS "Point"; LIST TInt; CLS "Color"] in
  (forall v, steady W0 default_basic C0 env2 S2 v (UNION t)) /\
  (forall v, tags_hashable W0 t v) /\ uniondebugconflict C0 = false /\
  (forall x, In x t -> settles W0 C0 S2 (VInt 1) x) /\ accepts W0 C0 S2 (VInt 1) (CLS "Color") /\
  ~ own_basic default_basic t (VInt 7) /\
  (forall x, In x t -> settles W0 C0 S2 (VInt 7) x /\ rejects W0 C0 S2 (VInt 7) x).
Proof.
  intro t. split; [intro v; steady_in [UNION t; CLS "Point"; LIST TInt; CLS "Color"; TInt]|].
  split; [|split; [reflexivity|split; [|split; [eexists; loads_now|split]]]].
  - intro v. apply tags_none. intros k H. destruct (H (LIST TInt)) as [c [tk [vals [E _]]]]; [right; left; reflexivity|discriminate].
  - intros x Hx. cbn in Hx. repeat (destruct Hx as [<-|Hx]; [|]); try contradiction;
      (eexists; split; [split; [|exists 50; vm_compute; reflexivity]; discriminate|]; try (right; repeat eexists; fail); left; eexists; reflexivity).
  - intros [_ H]. cbn in H. intuition discriminate.
  - intros x Hx. cbn in Hx. repeat (destruct Hx as [<-|Hx]; [|]); try contradiction;
      (split; [eexists; split; [split; [|exists 50; vm_compute; reflexivity]; discriminate|]; right; repeat eexists|rejects_now]).
Qed.
(** load(1, Union[Tuple[int, int], Color]): len(1) raises in the handler of
    Tuple, and Color, which accepts 1, is not tried *)
Theorem C14_refuted : exists w basic strcons cfg s v n args,
  is_std w basic strcons cfg /\ wf_world w basic strcons /\ used w cfg s /\ uniondebugconflict cfg = false /\
  tags_hashable w args v /\
  (exists x, In x args /\ accepts w cfg s v x) /\ loads w cfg s v (TGen n OUnion (Some args)) (Exc (XRaw RAssert)).
Proof.
  exists W0, default_basic, default_strcons, C0, S2, (VInt 1), false, [TUPLE [TInt; TInt]; CLS "Color"].
  repeat (split; [first [exact C0_std|exact wf0|exact S2_used|reflexivity]|]). split; [|split].
  - apply tags_none. intros k H. destruct (H (TUPLE [TInt; TInt])) as [c [tk [vals [E _]]]]; [left; reflexivity|discriminate].
  - exists (CLS "Color"). split; [right; left; reflexivity|eexists; loads_now].
  - loads_now.
Qed.
Print Assumptions C14_refuted.
(** a list under the tag: a raw TypeError *)
Theorem C14_refuted_tag : exists w basic strcons cfg s v n args,
  is_std w basic strcons cfg /\ wf_world w basic strcons /\ used w cfg s /\ uniondebugconflict cfg = false /\
  (forall x, In x args -> rejects w cfg s v x) /\ loads w cfg s v (TGen n OUnion (Some args)) (Exc (XRaw RAssert)).
Proof.
  exists W0, default_basic, default_strcons, C0, S2, (dict [("type", VList [])]), false, [CLS "TagA"; CLS "TagB"].
  repeat (split; [first [exact C0_std|exact wf0|exact S2_used|reflexivity]|]). split.
  - intros x Hx. cbn in Hx. repeat (destruct Hx as [<-|Hx]; [rejects_now|]). contradiction.
  - loads_now.
Qed.
Print Assumptions C14_refuted_tag.

(** C15 uniondebugconflict succeeds exactly when one member matches *)
Theorem C15_one : forall w basic strcons cfg, is_std w basic strcons cfg -> wf_reflect w ->
  forall env s v n args,
  used w cfg s -> steady w basic cfg env s v (TGen n OUnion (Some args)) ->
  uniondebugconflict cfg = true -> tags_hashable w args v -> ~ own_basic basic args v ->
  (forall x, In x args -> settles w cfg s v x) ->
  forall r, loads w cfg s v (TGen n OUnion (Some args)) (Ok r) <-> exactly_one w cfg s v args r.
Proof. exact c15_one. Qed.
Print Assumptions C15_one.
Theorem C15_two : forall w basic strcons cfg, is_std w basic strcons cfg -> wf_reflect w ->
  forall env s v n args,
  used w cfg s -> steady w basic cfg env s v (TGen n OUnion (Some args)) ->
  uniondebugconflict cfg = true -> tags_hashable w args v -> ~ own_basic basic args v ->
  (forall x, In x args -> settles w cfg s v x) ->
  two_or_more w cfg s v args ->
  exists x, raises KType x /\ forall r, loads w cfg s v (TGen n OUnion (Some args)) r <-> r = x.
Proof. exact c15_two. Qed.
Print Assumptions C15_two.
Theorem C15_same : forall w basic strcons cfg, is_std w basic strcons cfg -> wf_reflect w ->
  forall env s1 s2 v n args,
  used w (set_conflict true cfg) s1 -> used w (set_conflict false cfg) s2 ->
  steady w basic (set_conflict true cfg) env s1 v (TGen n OUnion (Some args)) ->
  steady w basic (set_conflict false cfg) env s2 v (TGen n OUnion (Some args)) ->
  (* see C15_refuted *)
  no_union_inside w (pep563 cfg) env args ->
  tags_hashable w args v ->
  (forall x, In x args -> settles w (set_conflict true cfg) s1 v x) ->
  forall r, loads w (set_conflict true cfg) s1 v (TGen n OUnion (Some args)) (Ok r) ->
            loads w (set_conflict false cfg) s2 v (TGen n OUnion (Some args)) (Ok r).
Proof. exact c15_same. Qed.
Print Assumptions C15_same.
Definition CD0 : config := set_conflict true C0.
Definition S2d : lstate := snd (load W0 CD0 50 NODE2 (CLS "Node") S0).
Lemma S2d_used : used W0 CD0 S2d. Proof. unfold S2d. repeat constructor. Qed.
Example C15_ex : let t := [CLS "Point"; CLS "Recs"; LIST TInt] in let v1 := dict [] in let v2 := dict [("x", VInt 1)] in
  (forall v, steady W0 default_basic CD0 (names_of S2d) S2d v (UNION t)) /\
  (forall v, tags_hashable W0 t v) /\ uniondebugconflict CD0 = true /\
  (forall x, In x t -> settles W0 CD0 S2d v1 x) /\ (forall x, In x t -> settles W0 CD0 S2d v2 x) /\
  (exists r, exactly_one W0 CD0 S2d v1 t r) /\ two_or_more W0 CD0 S2d v2 t /\
  no_union_inside W0 (pep563 C0) (names_of S2d) t.
Proof.
  intros t v1 v2.
  assert (RJ : forall v x, (exists e, loads W0 CD0 S2d v x (Exc e)) -> ~ accepts W0 CD0 S2d v x).
  { intros v x [e [N1 [n1 E1]]] [r [N2 [n2 E2]]].
    assert (loads W0 CD0 S2d v x (Exc e)) as L1 by (split; eauto). assert (loads W0 CD0 S2d v x (Ok r)) as L2 by (split; eauto).
    pose proof (loads_det _ _ _ _ _ _ _ L1 L2). discriminate. }
  split; [intro v; apply (steady_by W0 CD0 (names_of S2d) S2d [UNION t; CLS "Point"; CLS "Recs"; LIST TInt; TInt]); vm_compute; reflexivity|].
  split; [|split; [reflexivity|split; [|split; [|split; [|split]]]]].
  - intro v. apply tags_none. intros k H. destruct (H (LIST TInt)) as [c [tk [vals [E _]]]]; [right; right; left; reflexivity|discriminate].
  - intros x Hx. cbn in Hx. repeat (destruct Hx as [<-|Hx]; [|]); try contradiction;
      (eexists; split; [split; [|exists 50; vm_compute; reflexivity]; discriminate|]; try (right; repeat eexists; fail); left; eexists; reflexivity).
  - intros x Hx. cbn in Hx. repeat (destruct Hx as [<-|Hx]; [|]); try contradiction;
      (eexists; split; [split; [|exists 50; vm_compute; reflexivity]; discriminate|]; try (right; repeat eexists; fail); left; eexists; reflexivity).
  - eexists. exists [CLS "Point"], (CLS "Recs"), [LIST TInt]. split; [reflexivity|]. split; [loads_now|].
    intros z Hz. apply RJ. cbn in Hz. repeat (destruct Hz as [<-|Hz]; [rejects_now|]). contradiction.
  - exists [], (CLS "Point"), [], (CLS "Recs"), [LIST TInt]. split; [reflexivity|]. split; eexists; loads_now.
  - intros x n us Hx R.
    apply (reach_closed W0 C0 (names_of S2d) [CLS "Point"; CLS "Recs"; LIST TInt; TInt]) in R;
      [|vm_compute; reflexivity|cbn in Hx; repeat (destruct Hx as [<-|Hx]; [vm_compute; reflexivity|]); contradiction].
    cbn in R. repeat (destruct R as [R|R]; try discriminate). contradiction.
Qed.
(** with a union inside a member, the option changes which member accepts *)
Theorem C15_refuted : exists w basic strcons cfg s1 s2 v n args r1 r2,
  is_std w basic strcons cfg /\ wf_world w basic strcons /\
  used w (set_conflict true cfg) s1 /\ used w (set_conflict false cfg) s2 /\ tags_hashable w args v /\
  (forall x, In x args -> settles w (set_conflict true cfg) s1 v x) /\
  loads w (set_conflict true cfg) s1 v (TGen n OUnion (Some args)) (Ok r1) /\
  loads w (set_conflict false cfg) s2 v (TGen n OUnion (Some args)) (Ok r2) /\ r1 <> r2.
Proof.
  exists W0, default_basic, default_strcons, C0, S0, S0, (VList [dict [("x", VInt 1)]]), false,
    [LIST (UNION [CLS "Point"; CLS "Recs"]); LIST TAny]. eexists. eexists.
  repeat (split; [first [exact C0_std|exact wf0|apply used_new]|]). split; [|split; [|split; [loads_now|split; [loads_now|discriminate]]]].
  - apply tags_none. intros k H. destruct (H (LIST TAny)) as [c [tk [vals [E _]]]]; [right; left; reflexivity|discriminate].
  - intros x Hx. cbn in Hx. repeat (destruct Hx as [<-|Hx]; [|]); try contradiction;
      (eexists; split; [split; [|exists 50; vm_compute; reflexivity]; discriminate|]; try (right; repeat eexists; fail); left; eexists; reflexivity).
Qed.
Print Assumptions C15_refuted.

(** C16 Tagged unions select the class whose Literal matches *)
Theorem C16_tagged : forall w basic strcons cfg, is_std w basic strcons cfg -> wf_reflect w ->
  forall env s d n tags k,
  let t := TGen n OUnion (Some (map (fun cl => TClass (fst cl)) tags)) in
  used w cfg s -> steady w basic cfg env s (VDict d) t ->
  tagged_union w basic strcons cfg k tags -> py_dict d ->
  forall c vals tag r,
  In (c, vals) tags -> In (VStr k, tag) d -> py_in tag vals = true ->
  loads w cfg s (VDict d) t (Ok r) ->
  loads w cfg s (VDict d) (TClass c) (Ok r) /\
  match kind_of_class w c with
  | Some (KTD _) => exists d', r = VDict d'
  | Some _ => type_of r = c
  | None => False
  end.
Proof. exact c16. Qed.
Print Assumptions C16_tagged.
(** ... and the union accepts the data exactly when the selected class does *)
Theorem C16_iff : forall w basic strcons cfg, is_std w basic strcons cfg -> wf_reflect w ->
  forall env s d n tags k,
  let args := map (fun cl => TClass (fst cl)) tags in
  let t := TGen n OUnion (Some args) in
  used w cfg s -> steady w basic cfg env s (VDict d) t ->
  tagged_union w basic strcons cfg k tags -> py_dict d ->
  uniondebugconflict cfg = false -> tags_hashable w args (VDict d) ->
  (forall x, In x args -> settles w cfg s (VDict d) x) ->
  forall c vals tag,
  In (c, vals) tags -> In (VStr k, tag) d -> py_in tag vals = true ->
  forall r, loads w cfg s (VDict d) t (Ok r) <-> loads w cfg s (VDict d) (TClass c) (Ok r).
Proof.
  intros w basic strcons cfg Hs Hw env s d n tags k args t U St Tg Py Ud Th Se c vals tag Ic It Iv r. split; intro L.
  - exact (proj1 (C16_tagged w basic strcons cfg Hs Hw env s d n tags k U St Tg Py c vals tag r Ic It Iv L)).
  - assert (A : accepts w cfg s (VDict d) t).
    { apply (C14_accepts w basic strcons cfg Hs Hw env s (VDict d) n args U St Ud Th Se).
      exists (TClass c). split; [apply (in_map (fun cl => TClass (fst cl)) tags (c, vals) Ic)|exists r; exact L]. }
    destruct A as [r' L'].
    pose proof (proj1 (C16_tagged w basic strcons cfg Hs Hw env s d n tags k U St Tg Py c vals tag r' Ic It Iv L')) as L2.
    pose proof (loads_det _ _ _ _ _ _ _ L L2) as Q. injection Q as ->. exact L'.
Qed.
Print Assumptions C16_iff.
Example C16_iff_ex : let args := [CLS "TagA"; CLS "TagB"] in
  let d := [(VStr "n", VInt 3); (VStr "type", VStr "b")] in
  uniondebugconflict C0 = false /\ tags_hashable W0 args (VDict d) /\
  (forall x, In x args -> settles W0 C0 S2 (VDict d) x).
Proof.
  intros args d. split; [reflexivity|split].
  - intros d0 k x E _ G. injection E as <-. unfold d in G. cbn [dict_get] in G.
    destruct (py_eqb (VStr k) (VStr "n")); [injection G as <-; reflexivity|].
    destruct (py_eqb (VStr k) (VStr "type")); [injection G as <-; reflexivity|discriminate G].
  - intros x Hx. cbn in Hx. repeat (destruct Hx as [<-|Hx]; [|]); try contradiction;
      (eexists; split; [split; [|exists 50; vm_compute; reflexivity]; discriminate|]; try (right; repeat eexists; fail); left; eexists; reflexivity).
Qed.
Example C16_ex : let tags := [(CUser "TagA", [VStr "a"]); (CUser "TagB", [VStr "b"])] in
  let d := [(VStr "n", VInt 3); (VStr "type", VStr "b")] in
  let t := UNION (map (fun cl => TClass (fst cl)) tags) in
  steady W0 default_basic C0 env2 S2 (VDict d) t /\ tagged_union W0 default_basic default_strcons C0 "type" tags /\ py_dict d /\
  loads W0 C0 S2 (VDict d) t (Ok (VObj (CUser "TagB") [("type", VStr "b"); ("n", VInt 3)])).
Proof.
  intros tags d t. split; [steady_in [t; CLS "TagA"; CLS "TagB"; TLiteral [VStr "a"]; TLiteral [VStr "b"]; TInt]|].
  split; [|split; [repeat constructor|loads_now]]. split.
  - intros c vals [[= <- <-]|[[= <- <-]|[]]]; [exact ok_TagA|exact ok_TagB].
  - intros c vals [[= <- <-]|[[= <- <-]|[]]]; (split; [left; reflexivity|split; [reflexivity|repeat constructor]]).
  - vm_compute. nodup.
  - intros c1 l1 c2 l2 x y [[= <- <-]|[[= <- <-]|[]]] [[= <- <-]|[[= <- <-]|[]]] N [<-|[]] [<-|[]]; try congruence; reflexivity.
Qed.

(** C34 Enums load by value *)
Theorem C34_value : forall w basic strcons cfg, is_std w basic strcons cfg ->
  forall s v c ms, ci_enum (class_of w c) = Some ms -> ~ In c basic -> used w cfg s ->
  forall x r, member_for c ms v x -> (loads w cfg s v (TClass c) r <-> r = Ok x).
Proof. exact c34_value. Qed.
Print Assumptions C34_value.
Theorem C34_hint : forall w basic strcons cfg, is_std w basic strcons cfg -> wf_reflect w ->
  forall env s v c ms, ci_enum (class_of w c) = Some ms -> ~ In c basic -> used w cfg s ->
  steady w basic cfg env s v (TClass c) ->
  forall hints, ci_hints (class_of w c) = POk hints -> no_member_for c ms v ->
  forall r, loads w cfg s v (TClass c) (Ok r) <->
    exists pre t post, map snd hints = pre ++ t :: post /\
      (forall x, In x pre -> hint_fails w cfg s v c ms x) /\ hint_gives w cfg s v c ms t r.
Proof. exact c34_hint. Qed.
Print Assumptions C34_hint.
Theorem C34_refuse : forall w basic strcons cfg, is_std w basic strcons cfg -> wf_reflect w ->
  forall env s v c ms, ci_enum (class_of w c) = Some ms -> ~ In c basic -> used w cfg s ->
  steady w basic cfg env s v (TClass c) ->
  forall hints, ci_hints (class_of w c) = POk hints -> no_member_for c ms v ->
  (forall t, In t (map snd hints) -> hint_fails w cfg s v c ms t) ->
  exists x, raises KValue x /\ forall r, loads w cfg s v (TClass c) r <-> r = x.
Proof. exact c34_refuse. Qed.
Print Assumptions C34_refuse.
Theorem C34_result : forall w basic strcons cfg, is_std w basic strcons cfg -> wf_reflect w ->
  forall env s v c ms, ci_enum (class_of w c) = Some ms -> ~ In c basic -> used w cfg s ->
  steady w basic cfg env s v (TClass c) ->
  forall hints, ci_hints (class_of w c) = POk hints ->
  forall r, loads w cfg s v (TClass c) (Ok r) -> exists x, member_for c ms x r.
Proof. exact c34_result. Qed.
Print Assumptions C34_result.
Example C34_ex : let ms := [("P", VTuple [VInt 1; VInt 2])] in let v := VList [VInt 1; VStr "2"] in
  ci_enum (class_of W0 (CUser "AEnum")) = Some ms /\ ~ In (CUser "AEnum") default_basic /\
  steady W0 default_basic C0 env2 S2 v (CLS "AEnum") /\
  ci_hints (class_of W0 (CUser "AEnum")) = POk [("_", TUPLE [TInt; TInt])] /\
  no_member_for (CUser "AEnum") ms v /\
  hint_gives W0 C0 S2 v (CUser "AEnum") ms (TUPLE [TInt; TInt]) (VEnum (CUser "AEnum") "P" (VTuple [VInt 1; VInt 2])) /\
  member_for (CUser "Color") [("RED", VInt 1); ("GREEN", VStr "g")] (VFloat (FFin 1 0)) (VEnum (CUser "Color") "RED" (VInt 1)).
Proof.
  intros ms v. split; [reflexivity|]. split; [cbn; intuition discriminate|]. split; [steady_in [CLS "AEnum"; TUPLE [TInt; TInt]; TInt]|].
  split; [reflexivity|]. split; [split; [discriminate|intros n x [[= <- <-]|[]]; reflexivity]|]. split.
  - exists (VTuple [VInt 1; VInt 2]). split; [loads_now|]. right. split; [discriminate|].
    exists [], "P", (VTuple [VInt 1; VInt 2]), []. repeat split; intros ? ? [].
  - right. split; [discriminate|]. exists [], "RED", (VInt 1), [("GREEN", VStr "g")]. repeat split; intros ? ? [].
Qed.
