(** * Properties, thirtieth part: the texts of the errors (C70)

    [description w cfg p e] (Messages.v): the text e.args[0] of the exception [e]; None
    when it is the text of an exception raised by Python.
    [honest w basic cfg p s k v t text] (Says.v): the text may be that of an exception of
    the class [k] whose attributes are value=[v] and type_=[t]: what it says is the case.
    [p]: how Python prints values, types and sets. *)

From Verif Require Import Loader Render Messages Spec Vocab Inv Std Obs Objects ObjFacts Trace Examples Ground Properties1 Properties2 Properties3 Says.

(** C70 What an exception says is true, and so is what the exceptions inside of it say *)
Theorem C70_true : forall w basic strcons cfg, is_std w basic strcons cfg -> wf_reflect w ->
  forall p, (forall l, Permutation l (q_order p l)) ->
  forall s v t e, used w cfg s -> loads w cfg s v t (Exc e) ->
  forall k m tr ve te subs text,
  nested e (XTL k m tr ve te subs) -> description w cfg p (XTL k m tr ve te subs) = Some text ->
  (exists v' t', ve = Some v' /\ te = Some t' /\ honest w basic cfg p s k v' t' text) \/
  (ve = None /\ te = None /\ k = KType /\
   text = "Exception is not a subclass of TypedloadException. Make sure all handlers only raise TypedloadException"%string).
Proof.
  intros w basic strcons cfg Hs Wr p Hp s v t e U [_ [n L]] k m tr ve te subs text N D.
  assert (T : Says.te w basic cfg s e).
  { destruct (load w cfg n v t s) as [r s'] eqn:E. cbn [fst] in L. subst r. eapply load_te; eauto. apply used_coh in U. exact U. }
  apply (te_nested _ _ _ _ _ _ N) in T.
  destruct (te_honest w basic strcons cfg Hs s p Hp _ _ _ _ _ _ _ T D) as [H|[-> [-> [-> ->]]]]; [left; exact H|right].
  cbn [description] in D. injection D as <-. auto.
Qed.
Print Assumptions C70_true.

(** how the examples print *)
Definition P70 : printing :=
  mkPrinting (fun v => match v with VStr s => "'" ++ s ++ "'" | VInt z => zdec z | _ => "?" end)%string
    (fun t => match t with TClass (CUser n) => Some n | TClass CInt => Some "int"%string | TClass CStr => Some "str"%string | TClass CDict => Some "dict"%string | _ => None end)
    (fun t => match t with TGen _ OUnion _ => "Union" | _ => "?" end)%string
    (fun l => rev l).
Lemma P70_ok : forall l, Permutation l (q_order P70 l).
Proof. intro l. apply Permutation_rev. Qed.

(** load({"x": "q"}, Union[Point, int]) with basiccast off: the exception, and the one about
    the field x of Point inside of it *)
Example C70_ex : exists e k m tr v' t' subs,
  loads W0 (strict C0) S0 (dict [("x", VStr "q")]) (UNION [CLS "Point"; TInt]) (Exc e) /\ used W0 (strict C0) S0 /\
  description W0 (strict C0) P70 e = Some "Value of dict could not be loaded into Union"%string /\
  nested e (XTL k m tr (Some v') (Some t') subs) /\
  description W0 (strict C0) P70 (XTL k m tr (Some v') (Some t') subs) = Some "Got 'q' of type str, expected int"%string.
Proof.
  eexists _, _, _, _, _, _, _. split; [split; [|exists 50; vm_compute; reflexivity]; discriminate|].
  split; [apply used_new; vm_compute; discriminate|]. split; [reflexivity|].
  split; [eapply nested_sub; [left; reflexivity|apply nested_here]|reflexivity].
Qed.

(** C70 When fields are missing the text lists all of them *)
Theorem C70_missing : forall w basic strcons cfg, is_std w basic strcons cfg -> wf_reflect w ->
  forall p, (forall l, Permutation l (q_order p l)) ->
  forall c v d e,
  object_class w basic strcons c -> resolvable w cfg c -> distinct_names w cfg c -> required_are_fields w cfg c ->
  failonextra cfg = false \/ renames w cfg c = false ->
  proper_data v -> obj_data w cfg c v d ->
  In e (required_names w cfg c) -> ~ In (VStr e) (map fst d) ->
  exists names x,
    (forall f, In f names <-> In f (obj_required w cfg c) /\ forall n, In (f, n) (obj_fields w cfg c) -> ~ In (VStr n) (map fst d)) /\
    description w cfg p x = Some ("Value does not contain fields: {" ++ String.concat ", " (map (fun f => q_repr p (VStr f)) names)
           ++ "} which are necessary for type " ++ tname p (TClass c))%string /\
    forall s, used w cfg s -> forall r, loads w cfg s v (TClass c) r <-> r = Exc x.
Proof.
  intros w basic strcons cfg Hs Wr p Hp c v d e OC R DN RF NX PV OD Hreq Hmiss. pose proof (proper_data_dict w cfg c v d PV OD) as PD.
  pose proof (obj_table w cfg c DN) as TB.
  assert (NR : exists f, In f (obj_required w cfg c) /\ has_key (ren (obj_names w cfg c) d) f = false).
  { destruct (existsb (fun f => negb (has_key (ren (obj_names w cfg c) d) f)) (obj_required w cfg c)) eqn:EX.
    - apply existsb_exists in EX as [f [Hf Q]]. exists f. split; [exact Hf|]. apply negb_true_iff. exact Q.
    - exfalso. apply Hmiss. apply (required_ren w cfg c d DN); [|exact Hreq]. intros f Hf.
      destruct (has_key (ren (obj_names w cfg c) d) f) eqn:Q; [reflexivity|].
      assert (X : existsb (fun f => negb (has_key (ren (obj_names w cfg c) d) f)) (obj_required w cfg c) = true)
        by (apply existsb_exists; exists f; rewrite Q; auto). congruence. }
  destruct NR as [f [Hf Hk]].
  assert (FD : find (fun kx => failonextra cfg && skipped (obj_names w cfg c) (fst kx)) d = None).
  { destruct (find _ d) as [kx|] eqn:F; [|reflexivity]. apply find_some in F as [_ F]. apply andb_true_iff in F as [F1 F2].
    destruct NX as [NX|NX]; [congruence|]. apply (names_renames w cfg c DN) in NX. rewrite NX in F2.
    destruct (fst kx); discriminate F2. }
  set (miss := filter (fun s => negb (has_key (ren (obj_names w cfg c) d) s)) (obj_required w cfg c)).
  exists (q_order p miss). eexists. split; [|split].
  - intro g. transitivity (In g miss); [split; apply Permutation_in; [apply Permutation_sym|]; apply Hp|]. unfold miss. rewrite filter_In. split.
    + intros [I0 N]. split; [exact I0|]. intros n I1 X. apply (ren_has _ _ TB d g n I1) in X. rewrite X in N. discriminate.
    + intros [I0 N]. split; [exact I0|]. destruct (has_key _ g) eqn:HK; [exfalso|reflexivity].
      pose proof (RF g I0) as Ig. apply in_map_iff in Ig as [[g' n] [Eg Ig]]. cbn [fst] in Eg. subst g'.
      apply (N n Ig). apply (ren_has _ _ TB d g n Ig). exact HK.
  - instantiate (1 := XTL KValue (MMissing miss (TClass c)) [(v, TClass c, None)] (Some (VDict (ren (obj_names w cfg c) d))) (Some (TClass c)) []).
    cbn [description]. unfold set_text. f_equal. cbn [String.append]. rewrite !str_app_assoc. reflexivity.
  - intros s U. apply (obj_stops w basic strcons cfg Hs Wr c v s (XTL KValue (MMissing miss (TClass c)) [] (Some (VDict (ren (obj_names w cfg c) d))) (Some (TClass c)) []) U OC R).
    intros call s2. rewrite (mangle_obj_data w cfg c v d call s2 DN OD PD), FD.
    destruct (objloader_missing w cfg call (map fst (obj_fields w cfg c)) (obj_required w cfg c) (declared w (pep563 cfg) c) _ (TClass c) s2 f Hf Hk) as [ms [E ->]].
    exact E.
Qed.
Print Assumptions C70_missing.

(** for the class Atr of the examples, whose attribute a is known as A *)
Example C70_missing_ex : let d := [(VStr "l", VList [])] in
  obj_ok (CUser "Atr") /\ required_are_fields W0 C0 (CUser "Atr") /\ failonextra C0 = false /\
  proper_data (VDict d) /\ obj_data W0 C0 (CUser "Atr") (VDict d) d /\ In "A"%string (required_names W0 C0 (CUser "Atr")) /\ ~ In (VStr "A") (map fst d) /\
  obj_required W0 C0 (CUser "Atr") = ["a"%string].
Proof.
  split; [exact ok_Atr|]. split; [intros f [<-|[]]; left; reflexivity|]. split; [reflexivity|]. split; [repeat constructor|]. split; [left; reflexivity|].
  split; [left; reflexivity|]. split; [|reflexivity]. cbn. intuition discriminate.
Qed.

(** Not all the texts help.  The names in the text about the missing fields are those
    of the attributes, and not those which the data must have: when the data are
    changed to contain the name in the text, they are refused again, because of that name. *)
Theorem C70_refuted_names : exists w basic strcons cfg s c f e e' v',
  is_std w basic strcons cfg /\ wf_reflect w /\ used w cfg s /\
  loads w cfg s (VDict []) (TClass c) (Exc e) /\
  description w cfg P70 e = Some ("Value does not contain fields: {'" ++ f ++ "'} which are necessary for type Atr")%string /\
  v' = VDict [(VStr f, VInt 1)] /\ loads w cfg s v' (TClass c) (Exc e') /\
  description w cfg P70 e' = Some ("Extra field: " ++ f)%string /\
  exists f' r, loads w cfg s (VDict [(VStr f', VInt 1)]) (TClass c) (Ok r).
Proof.
  exists W0, default_basic, default_strcons, (strict C0), S0, (CUser "Atr"), "a"%string. eexists _, _, _.
  split; [split; reflexivity|]. split; [exact wr0|]. split; [apply used_new; vm_compute; discriminate|].
  split; [split; [|exists 50; vm_compute; reflexivity]; discriminate|]. split; [reflexivity|]. split; [reflexivity|].
  split; [split; [|exists 50; vm_compute; reflexivity]; discriminate|]. split; [reflexivity|].
  exists "A"%string. eexists. split; [|exists 50; vm_compute; reflexivity]; discriminate.
Qed.
Print Assumptions C70_refuted_names.

(** A member of a Union without handler is called a key in the text (line 725, copied from the handler of Dict) *)
Theorem C70_refuted_key : exists w basic strcons cfg s v n args t e sub,
  is_std w basic strcons cfg /\ wf_reflect w /\ used w cfg s /\
  loads w cfg s v (TGen n OUnion (Some args)) (Exc e) /\ In t args /\ nested e sub /\
  description w cfg P70 sub = Some ("Cannot deal with value of type " ++ tname P70 t ++ " (key of Union)")%string.
Proof.
  exists W0, default_basic, default_strcons, (strict C0), S0, (VStr "q"), true, [CLS "nosuch"; TInt], (CLS "nosuch"). eexists _, _.
  split; [split; reflexivity|]. split; [exact wr0|]. split; [apply used_new; vm_compute; discriminate|].
  split; [split; [|exists 50; vm_compute; reflexivity]; discriminate|]. split; [left; reflexivity|].
  split; [econstructor; [left; reflexivity|apply nested_here]|]. reflexivity.
Qed.
Print Assumptions C70_refuted_key.
