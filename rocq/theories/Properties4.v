(** * Properties, fourth part: exceptions (C17, C18, C19, C40) *)

From Verif Require Import Loader Render Spec Vocab Inv Std Fuel Trace Hist Facts4 Examples Ground Properties1 Properties2 Properties3.

(** ** The cases used to show that the hypotheses can be met *)

Lemma hr0 : hashable_results W0 default_basic default_strcons.
Proof.
  split.
  - intros c v r [H|H] E; cbn in H.
    + destruct H as [<-|[<-|[<-|[<-|[<-|[]]]]]]; cbn in E.
      * destruct v; try discriminate; try (injection E as <-; reflexivity).
        -- destruct f; try discriminate; injection E as <-; reflexivity.
        -- destruct (parse_int s); [injection E as <-; reflexivity|discriminate].
      * injection E as <-. reflexivity.
      * destruct v; try discriminate; try (injection E as <-; reflexivity).
        destruct (parse_int s); [injection E as <-; reflexivity|discriminate].
      * destruct v; injection E as <-; reflexivity.
      * destruct v; discriminate.
    + repeat (destruct H as [<-|H]; [cbn in E; try discriminate; destruct v; try discriminate; injection E as <-; reflexivity|]).
      contradiction.
  - intros c s r. cbn [W0 w_fromiso]. destruct (String.eqb s "2020-01-02"); [intros [= <-]; reflexivity|discriminate].
  - intros c l r. cbn [W0 w_callargs]. destruct c; try (intros [= <-]; reflexivity).
    destruct (Nat.eqb (List.length l) 3); [intros [= <-]; reflexivity|discriminate].
  - intros v r. cbn [W0 w_timedelta]. destruct v; try discriminate; try (intros [= <-]; reflexivity).
    destruct f; try discriminate; intros [= <-]; reflexivity.
  - intros v r. cbn [W0 w_compile]. destruct v as [|b|z|f|s|s|l|l|l|l|d|d|c fs|c fs|c m x|c x]; try discriminate; [|intros [= <-]; reflexivity].
    destruct s as [|a s]; [intros [= <-]; reflexivity|].
    destruct a as [[] [] [] [] [] [] [] []]; destruct s; try discriminate; intros [= <-]; reflexivity.
Qed.

(** what is met is reached *)
Lemma meets_reach w cfg env v t x t' : meets w cfg env v t x t' -> reach w (pep563 cfg) env t t'.
Proof.
  intro H. induction H as [v t|v t i x t1 v' t' Mv _ IH|v t t1 v' t' A _ IH]; [apply rt1n_refl| |];
    (apply rt1n_trans with t1; [|exact IH]); unfold component.
  - inversion Mv as [v0 t0 l i0 x0 et E1 E2 E3|v0 c d d' e f x0 ft E1 E2 E3 E4 E5 E6|v0 d n kt vt k x0 E1 E2|v0 d n kt vt k x0 E1 E2|v0 n t0 E1|v0 n t0]; subst; cbn [comps].
    + destruct t; try discriminate. destruct args as [a|]; [|destruct o; discriminate]. 
      assert (N : forall j, nth_error a j = Some t1 -> In t1 a) by (intro j; apply nth_error_In).
      destruct o; cbn in E3; try discriminate; try (destruct a as [|e0 a]; [discriminate|injection E3 as <-; left; reflexivity]).
      revert E3. destruct a as [|e0 a]; [destruct i0; discriminate|].
      destruct a as [|e1 a]; [apply N|]. destruct a as [|e2 a]; [|destruct e1; apply N].
      destruct e1; try apply N. intros [= <-]. left. reflexivity.
    + apply in_or_app. left. apply in_map_iff. exists (f, t1). split; [reflexivity|exact E6].
    + left. reflexivity.
    + right. left. reflexivity.
    + rewrite E1. left. reflexivity.
    + left. reflexivity.
  - inversion A as [n args t0 I|c ms l t0 E1 E2 I]; subst; cbn [comps]; [exact I|].
    apply in_or_app. right. rewrite E1, E2. exact I.
Qed.

(** C17 Every failure is a TypedloadException.  [hazard] (Vocab.v) lists the
    places where the code raises something else; each of them is a case where
    it does, see the theorems below. *)
Theorem C17_typed : forall w basic strcons cfg, is_std w basic strcons cfg -> wf_reflect w ->
  forall s v t r s',
  hashable_results w basic strcons -> used w cfg s ->
  (* sets and dictionaries contain hashable objects *)
  (forall x, inside v x -> hashed w x) ->
  (forall x t', meets w cfg (names_of s') v t x t' -> ~ hazard w cfg (names_of s') x t') ->
  ends w cfg s v t r s' -> (exists y, r = Ok y) \/ raises_tl r.
Proof. exact c17. Qed.
Print Assumptions C17_typed.

Definition T17 : ty := DICT TStr (LIST (UNION [CLS "Point"; OPT TInt])).
Definition V17 : value := dict [("a", VList [dict [("x", VInt 1)]; VNone; dict [("x", VStr "q")]])].
Definition S17 : lstate := snd (load W0 C0 50 V17 T17 S2).
Example C17_ex : hashable_results W0 default_basic default_strcons /\
  (forall x, inside V17 x -> hashed W0 x) /\
  (forall x t', meets W0 C0 (names_of S17) V17 T17 x t' -> ~ hazard W0 C0 (names_of S17) x t') /\
  exists r, ends W0 C0 S2 V17 T17 r S17 /\ raises_tl r.
Proof.
  split; [exact hr0|]. split; [|split].
  - apply (hashed_inside W0 5). vm_compute. reflexivity.
  - generalize (names_of S17) as env. intro env.
    assert (C : forall t, reach W0 (pep563 C0) env T17 t ->
        In t [T17; TStr; LIST (UNION [CLS "Point"; OPT TInt]); UNION [CLS "Point"; OPT TInt]; CLS "Point"; OPT TInt; TInt; TNone]).
    { intro t. apply (reach_closed W0 C0 env); vm_compute; reflexivity. }
    assert (Cs : forall t, reach W0 (pep563 C0) env TStr t -> t = TStr).
    { intros t H. apply (reach_closed W0 C0 env [TStr]) in H; [|vm_compute; reflexivity|vm_compute; reflexivity].
      destruct H as [<-|[]]. reflexivity. }
    intros x t' M0. apply meets_reach in M0. apply C in M0. clear C. cbn [In] in M0.
    repeat destruct M0 as [<-|M0]; try contradiction; intro Hz;
    inversion Hz as [v0 n0 o0 a0 I0 J0|v0 n0 a0 J0|v0 n0 ts0 J0 K0|v0 n0 kt0 vt0 n1 o1 a1 R0 O0|v0 n0 a0 J0|v0 c0 d0 k0 x0 A0 B0
      |v0 c0 r0 A0 B0|v0 c0 fs0 r0 A0 B0|v0 c0 fs0 f1 A0|v0 c0 fs0 r0 A0|v0 c0 x0 r0 I0|v0 c0 l0 r0 I0|v0 r0 A0|v0 t0 r0 Q0]; subst;
      try discriminate; try (cbn in I0; intuition discriminate);
      try (destruct Q0 as [Q0|[n9 [a9 Q0]]]; discriminate).
    + exact (J0 _ _ eq_refl).
    + apply Cs in R0. discriminate.
    + apply J0. intros d k x0 _ L _. destruct (L (OPT TInt)) as [c [tk [vals [Q _]]]]; [right; left; reflexivity|discriminate].
    + apply J0. intros d k x0 _ L _. destruct (L TInt) as [c [tk [vals [Q [Q1 _]]]]]; [left; reflexivity|]. injection Q as <-. contradiction.
  - eexists. split; [split; [|exists 50; reflexivity]|]; vm_compute; [discriminate|repeat eexists].
Qed.

(** the cases excluded: something else than a TypedloadException escapes (the
    assert in line 303 turns it into an AssertionError).  In this order: a
    tuple from something without len(); list keys in a Dict; an unhashable
    discriminator; a key which is not a string with failonextra; a timedelta
    of infinite length; a converter annotated only with its result; a bare
    List *)
Theorem C17_refuted : exists w basic strcons cfg s,
  is_std w basic strcons cfg /\ wf_world w basic strcons /\ hashable_results w basic strcons /\ used w cfg s /\
  Forall (fun vt => (forall x, inside (fst vt) x -> hashed w x) /\
                    exists e, loads w cfg s (fst vt) (snd vt) (Exc e) /\ ~ raises_tl (Exc e))
    [ (VInt 5, TUPLE [TInt; TInt]);
      (VDict [(VTuple [VInt 1], VList [])], DICT (LIST TInt) (LIST TInt));
      (dict [("type", VList [])], UNION [CLS "TagA"; CLS "TagB"]);
      (VDict [(VStr "x", VInt 1); (VInt 7, VInt 1)], CLS "Point");
      (VFloat (FInf true), TClass CTimedelta);
      (dict [("a", VInt 1)], CLS "Conv");
      (VList [VInt 1], TGen false OList None) ].
Proof.
  exists W0, default_basic, default_strcons, (strict C0), S1s.
  split; [exact C0s_std|]. split; [exact wf0|]. split; [exact hr0|]. split; [exact S1s_used|].
  repeat (constructor; [split; [apply (hashed_inside W0 5); vm_compute; reflexivity|];
    exists (XRaw RAssert); split; [loads_now|intros [k [m [tr [v [t [subs H]]]]]]; discriminate]|]).
  constructor.
Qed.
Print Assumptions C17_refuted.

(** C18 The error trace starts at the root and its path leads to the offending
    value *)
Theorem C18_trace : forall w basic strcons cfg, is_std w basic strcons cfg -> wf_reflect w ->
  forall s v t k m tr ve te subs s',
  used w cfg s -> ends w cfg s v t (Exc (XTL k m tr ve te subs)) s' ->
  (* the type is not supported: no trace at all *)
  (~ supported cfg t /\ tr = [] /\ ve = Some v /\ te = Some t /\ subs = []) \/
  (* following the trace leads to a value and type, which the exception
     reports; and so do the exceptions of the alternatives *)
  exists tr', tr = (v, t, None) :: tr' /\ explains w cfg (names_of s') v t (XTL k m tr' ve te subs).
Proof. exact c18. Qed.
Print Assumptions C18_trace.
(** the same without the exceptions of the alternatives *)
Theorem C18_path : forall w basic strcons cfg, is_std w basic strcons cfg -> wf_reflect w ->
  forall s v t k m tr ve te subs s',
  used w cfg s -> supported cfg t -> ends w cfg s v t (Exc (XTL k m tr ve te subs)) s' ->
  exists tr' v' t', tr = (v, t, None) :: tr' /\
    walk w cfg (names_of s') v t tr' v' t' /\ reported w cfg (names_of s') v' t' ve te.
Proof.
  intros w basic strcons cfg Hs Hw s v t k m tr ve te subs s' U Sp E.
  destruct (c18 w basic strcons cfg Hs Hw _ _ _ _ _ _ _ _ _ _ U E) as [[N _]|[tr' [Q X]]]; [contradiction|].
  inversion X as [v0 t0 k0 m0 tr0 ve0 te0 subs0 v' t' Wk Rp]; subst. exists tr', v', t'. auto.
Qed.
Print Assumptions C18_path.
Example C18_ex :
  supported C0 T17 /\
  exists m ve subs, ends W0 C0 S2 V17 T17 (Exc (XTL KValue m
    [ (V17, T17, None);
      (VList [dict [("x", VInt 1)]; VNone; dict [("x", VStr "q")]], LIST (UNION [CLS "Point"; OPT TInt]),
         Some (AnValue (VList [dict [("x", VInt 1)]; VNone; dict [("x", VStr "q")]])));
      (VList [dict [("x", VInt 1)]; VNone; dict [("x", VStr "q")]], LIST (UNION [CLS "Point"; OPT TInt]), Some (AnIndex 2)) ]
    ve (Some (UNION [CLS "Point"; OPT TInt])) subs)) S17 /\ ve = Some (dict [("x", VStr "q")]) /\ List.length subs = 2.
Proof.
  split; [eexists; reflexivity|].
  eexists. eexists. eexists. split; [split; [discriminate|exists 50; vm_compute; reflexivity]|]. split; reflexivity.
Qed.
(** Without the hypothesis that the type is supported the trace is empty *)
Theorem C18_refuted : exists w basic strcons cfg s v t k m ve te,
  is_std w basic strcons cfg /\ wf_world w basic strcons /\ used w cfg s /\
  loads w cfg s v t (Exc (XTL k m [] ve te [])).
Proof.
  exists W0, default_basic, default_strcons, C0, S2, (VList []), (TClass CBytes). do 4 eexists.
  split; [exact C0_std|]. split; [exact wf0|]. split; [exact S2_used|]. loads_now.
Qed.
Print Assumptions C18_refuted.
(** A value which is not a dictionary inside a Dict: the handler in line 422
    catches the exception about it, and reports the outer dictionary, without
    saying at which key the error is *)
Theorem C18_refuted_dict : exists w basic strcons cfg s d k x n kt n' kt' vt' kd m,
  is_std w basic strcons cfg /\ wf_world w basic strcons /\ used w cfg s /\
  In (k, x) d /\ accepts w cfg s k kt /\ rejects w cfg s x (TGen n' ODict (Some [kt'; vt'])) /\
  let t := TGen n ODict (Some [kt; TGen n' ODict (Some [kt'; vt'])]) in
  List.length d = 2 /\
  loads w cfg s (VDict d) t (Exc (XTL kd m [(VDict d, t, None)] (Some (VDict d)) (Some t) [])).
Proof.
  exists W0, default_basic, default_strcons, C0, S2, [(VStr "a", dict []); (VStr "b", VInt 5)], (VStr "b"), (VInt 5), false, TStr, false, TStr, TInt.
  do 2 eexists. split; [exact C0_std|]. split; [exact wf0|]. split; [exact S2_used|].
  split; [right; left; reflexivity|]. split; [eexists; loads_now|]. split; [rejects_now|]. split; [reflexivity|]. loads_now.
Qed.
Print Assumptions C18_refuted_dict.
(** The item of the trace for a value of a Dict contains the value, and not its
    key: the traces, and the text, are the same when the wrong value is under
    another key.  (Dict[str, List[int]] with the list ['x'] under "a", or under "b") *)
Theorem C18_refuted_key : exists w basic strcons cfg s k1 k2 good bad kt vt n kd m tr ve te subs,
  is_std w basic strcons cfg /\ wf_world w basic strcons /\ used w cfg s /\ k1 <> k2 /\
  accepts w cfg s good vt /\ rejects w cfg s bad vt /\
  let t := TGen n ODict (Some [kt; vt]) in
  let d1 := VDict [(k1, bad); (k2, good)] in
  let d2 := VDict [(k1, good); (k2, bad)] in
  loads w cfg s d1 t (Exc (XTL kd m ((d1, t, None) :: tr) ve te subs)) /\
  loads w cfg s d2 t (Exc (XTL kd m ((d2, t, None) :: tr) ve te subs)) /\
  forall P, path P ((d1, t, None) :: tr) = path P ((d2, t, None) :: tr).
Proof.
  exists W0, default_basic, default_strcons, C0, S2, (VStr "a"), (VStr "b"), (VList [VInt 1]), (VList [VStr "x"]), TStr, (LIST TInt), false.
  do 6 eexists. split; [exact C0_std|]. split; [exact wf0|]. split; [exact S2_used|]. split; [discriminate|].
  split; [eexists; loads_now|]. split; [rejects_now|]. cbv zeta.
  split; [loads_now|]. split; [loads_now|]. intro P. reflexivity.
Qed.
Print Assumptions C18_refuted_key.

(** C19 Every exception can be rendered: when no Enum with annotations is met *)
Theorem C19_renders : forall w basic strcons cfg, is_std w basic strcons cfg -> wf_reflect w ->
  forall P s v t e s',
  used w cfg s -> ends w cfg s v t (Exc e) s' -> is_tl e = true ->
  (forall x c, meets w cfg (names_of s') v t x (TClass c) -> ~ annotated_enum w c) ->
  exists text, str_exn P e = POk text.
Proof. exact c19. Qed.
Print Assumptions C19_renders.
(** in general: when all the exceptions nested in it are TypedloadExceptions *)
Theorem C19_exact : forall P e,
  (forall r, ~ nested e (XRaw r)) <-> exists text, str_exn P e = POk text.
Proof. exact c19_raw. Qed.
Print Assumptions C19_exact.
Example C19_ex : (forall x c, meets W0 C0 (names_of S17) V17 T17 x (TClass c) -> ~ annotated_enum W0 c) /\
  exists e, ends W0 C0 S2 V17 T17 (Exc e) S17 /\ is_tl e = true.
Proof.
  split.
  - generalize (names_of S17) as env. intros env x c M0 [A _]. apply meets_reach in M0.
    apply (reach_closed W0 C0 env [T17; TStr; LIST (UNION [CLS "Point"; OPT TInt]); UNION [CLS "Point"; OPT TInt]; CLS "Point"; OPT TInt; TInt; TNone]) in M0;
      [|vm_compute; reflexivity|vm_compute; reflexivity].
    cbn [In] in M0. repeat destruct M0 as [M0|M0]; try discriminate; try contradiction; injection M0 as <-; apply A; reflexivity.
  - eexists. split; [split; [discriminate|exists 50; vm_compute; reflexivity]|reflexivity].
Qed.
(** load((3, 4), E) for an Enum E with annotation Tuple[int, int]: str(e)
    raises AttributeError *)
Theorem C19_refuted : exists w basic strcons cfg s v t k m tr ve te subs,
  is_std w basic strcons cfg /\ wf_world w basic strcons /\ used w cfg s /\
  loads w cfg s v t (Exc (XTL k m tr ve te subs)) /\
  forall P, str_exn P (XTL k m tr ve te subs) = PExc RAttr.
Proof.
  exists W0, default_basic, default_strcons, C0, S2, (VList [VInt 3; VInt 4]), (CLS "AEnum"). do 6 eexists.
  split; [exact C0_std|]. split; [exact wf0|]. split; [exact S2_used|]. split; [loads_now|]. reflexivity.
Qed.
Print Assumptions C19_refuted.

(** C40 Path strings have the documented form: '.' for the root, then the
    items of the trace, separated by dots *)
Theorem C40_path : forall P (v : value) (t : ty) tr,
  path P ((v, t, None) :: tr) = ("." ++ dotted (map (fun i => path_item P (snd i)) tr))%string.
Proof. exact path_root. Qed.
Print Assumptions C40_path.
(** fields, names and strings are written as they are, positions and integers
    as [n] *)
Theorem C40_items : forall P,
  (forall k, path_item P (Some (AnField k)) = k) /\
  (forall n, path_item P (Some (AnForward n)) = n) /\
  (forall i, exists n, numeral n i /\ path_item P (Some (AnIndex i)) = ("[" ++ n ++ "]")%string) /\
  (forall k, path_item P (Some (AnKey (VStr k))) = k /\ path_item P (Some (AnValue (VStr k))) = k) /\
  (forall z, exists n, signed_numeral n z /\ path_item P (Some (AnKey (VInt z))) = ("[" ++ n ++ "]")%string /\
                       path_item P (Some (AnValue (VInt z))) = ("[" ++ n ++ "]")%string).
Proof.
  intro P. split; [reflexivity|]. split; [reflexivity|].
  split; [intro i; exists (dec i); split; [apply dec_numeral|reflexivity]|].
  split; [split; reflexivity|]. intro z. exists (zdec z). split; [apply zdec_numeral|split; reflexivity].
Qed.
Print Assumptions C40_items.
(** the text starts with the message and the path *)
Theorem C40_text : forall P e text,
  str_exn P e = POk text ->
  exists k m tr ve te subs rest, e = XTL k m tr ve te subs /\
    text = (p_msg P m ++ nl ++ "Path: " ++ path P tr ++ rest)%string /\
    (rest = EmptyString <-> subs = []).
Proof. exact first_lines. Qed.
Print Assumptions C40_text.
Example C40_ex : signed_numeral "-12" (-12) /\ numeral "0" 0 /\ numeral "107" 107 /\ ~ numeral "07" 7 /\
  path P0 [(VNone, TAny, None)] = "." /\
  path P0 [(VNone, TAny, None); (VNone, TAny, Some (AnField "a")); (VNone, TAny, Some (AnIndex 12)); (VNone, TAny, Some (AnField "b"))] = ".a.[12].b".
Proof.
  split; [exists "12"; split; [split; [reflexivity|do 2 eexists; split; [reflexivity|discriminate]]|reflexivity]|].
  split; [split; [reflexivity|do 2 eexists; split; [reflexivity|reflexivity]]|].
  split; [split; [reflexivity|do 2 eexists; split; [reflexivity|discriminate]]|].
  split; [intros [_ [c [s' [Q H]]]]; injection Q as <- <-; specialize (H eq_refl); discriminate|]. split; reflexivity.
Qed.
