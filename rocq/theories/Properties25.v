(** * Properties, twenty-fifth part: what was loaded can be dumped and loaded again (C64)

    [data_model ... env T] (Model.v): conditions on the annotations and the
    classes reached from [T] only: nothing about the data and the loader.
    [different_forms], [tagged_classes] (Model.v): the unions which satisfy these
    conditions, as it can be seen from the declarations of their members. *)

From Verif Require Import Loader Dumper Spec Vocab Fuel Inv Std Obs Hist Reuse Dumps Facts5 Examples Ground
  Properties1 Properties2 Properties3 Properties5 Schema Plain Plain2 Plain3 RoundTrip Properties8 Reference RefSound Properties9
  Properties16 Model Model2 Model3.

(** what json.loads gives for the scalars *)
Definition scalars : list cid := [CNone; CBool; CInt; CFloat; CStr].

Lemma document_data v : document v -> python_data v.
Proof.
  intro D. split.
  - destruct D; cbn; try exact I; assumption.
  - destruct D; cbn; intro E; try discriminate; reflexivity.
Qed.
Lemma inside_document v : document v -> forall x, inside v x -> python_data x.
Proof.
  intros D x I. induction I as [v|v y z P I IH]; [exact (document_data v D)|]. exact (IH (document_part v y D P)).
Qed.

(** C64 Whatever comes out of a JSON document is a value of the data model; so
    (C55) it can be dumped, and what is dumped gives the same value again, on the
    same loader and on all those which know the names. *)
Theorem C64_typed : forall w basic strcons dstrcons cfg dcfg,
  is_std w basic strcons cfg -> wf_reflect w ->
  (forall c, In c scalars -> In c basic) ->
  forall s v t r s',
  used w cfg s -> document v -> ends w cfg s v t (Ok r) s' ->
  never_stops w (pep563 cfg) (names_of s') t ->
  data_model w basic strcons dstrcons cfg dcfg (names_of s') t ->
  typed w basic strcons dstrcons cfg dcfg (names_of s') r t /\ python_value w r.
Proof.
  intros w basic strcons dstrcons cfg dcfg Hs Wr Hsc s v t r s' U Dv En Ns Dm.
  refine (proj1 (loaded_all w basic strcons dstrcons cfg dcfg (names_of s') (fun t => ~ seen s t) Hs Hsc) v t r _ Dv Dm).
  apply (C43_sound w basic strcons cfg Hs Wr s v t r s' U En); [|exact (inside_document v Dv)|exact Ns].
  intros c R OC. exact (mc_names _ _ _ _ _ _ _ _ (Dm _ R) OC).
Qed.
Print Assumptions C64_typed.

(** What was loaded can be dumped by any dumper, with one result; loaded again
    that is the same value, on the loader that was used and on all those which know
    the names ([names_ready]); dumped again it is the same data. *)
Theorem C64_again : forall w basic strcons dstrcons cfg dcfg,
  is_std w basic strcons cfg -> is_dstd w basic dstrcons dcfg -> wf_reflect w ->
  (forall c, In c collections -> ~ In c basic) -> (forall c, In c basic -> ci_ann (class_of w c) = []) ->
  (forall c, In c scalars -> In c basic) -> uniondebugconflict cfg = false ->
  forall s v t r s',
  used w cfg s -> document v -> ends w cfg s v t (Ok r) s' ->
  never_stops w (pep563 cfg) (names_of s') t ->
  data_model w basic strcons dstrcons cfg dcfg (names_of s') t ->
  exists x,
    (forall ds, dhistory w dcfg ds -> forall r0, dumps w dcfg ds r r0 <-> r0 = Ok x) /\
    (forall r0, loads w cfg s' x t r0 <-> r0 = Ok r) /\
    (forall s2, used w cfg s2 -> names_ready w (names_of s') s2 t -> forall r0, loads w cfg s2 x t r0 <-> r0 = Ok r).
Proof.
  intros w basic strcons dstrcons cfg dcfg Hs Hd Wr Hc Ha Hsc Hu s v t r s' U Dv En Ns Dm.
  destruct (C64_typed w basic strcons dstrcons cfg dcfg Hs Wr Hsc s v t r s' U Dv En Ns Dm) as [T P].
  assert (U' : used w cfg s') by (destruct En as [_ [n En]]; replace s' with (snd (load w cfg n v t s)) by (rewrite En; reflexivity); apply used_again; exact U).
  assert (N' : names_ready w (names_of s') s' t)
    by (intros n t' E; left; unfold names_of in E; destruct (st_frefs s') as [fr|] eqn:F; [exists fr; auto|discriminate]).
  assert (D0' : dhistory w dcfg dfresh) by constructor.
  destruct (C55_round_trip w basic strcons dstrcons cfg dcfg Hs Hd Wr Hc Ha Hu _ s' _ r t U' N' D0' P T) as [x [X L]].
  assert (Same : forall ds, dhistory w dcfg ds -> forall r0, dumps w dcfg ds r r0 <-> r0 = Ok x).
  { intros ds D. destruct (C55_round_trip w basic strcons dstrcons cfg dcfg Hs Hd Wr Hc Ha Hu _ s' ds r t U' N' D P T) as [x' [X' L']].
    destruct (C55_exchange w basic strcons dstrcons cfg dcfg Hs Hd Wr Hc Ha Hu _ s' _ ds r t U' N' D0' D P T x (proj2 (X _) eq_refl)) as [v' [_ [-> Y]]].
    exact Y. }
  exists x. split; [exact Same|]. split; [exact L|].
  intros s2 U2 N2. destruct (C55_round_trip w basic strcons dstrcons cfg dcfg Hs Hd Wr Hc Ha Hu _ s2 _ r t U2 N2 D0' P T) as [x2 [X2 L2]].
  assert (E : Ok x = Ok x2) by (apply X2; apply X; reflexivity). injection E as ->. exact L2.
Qed.
Print Assumptions C64_again.

(** ** How the condition on the unions can be seen in the declarations *)
Theorem C64_forms : forall w basic strcons dstrcons cfg dcfg env,
  is_dstd w basic dstrcons dcfg -> (forall c, In c collections -> ~ In c basic) ->
  forall n args, different_forms w basic strcons cfg env args ->
  model_type w basic strcons dstrcons cfg dcfg env (TGen n OUnion (Some args)).
Proof. intros w basic strcons dstrcons cfg dcfg env Hd Hc n args F. left. exact (forms_apart w basic strcons dstrcons cfg dcfg env Hd Hc args F). Qed.
Print Assumptions C64_forms.
Theorem C64_tags : forall w basic strcons dstrcons cfg dcfg env,
  is_dstd w basic dstrcons dcfg -> (forall c, In c collections -> ~ In c basic) ->
  forall n args, tagged_classes w basic strcons cfg dcfg args ->
  model_type w basic strcons dstrcons cfg dcfg env (TGen n OUnion (Some args)).
Proof. intros w basic strcons dstrcons cfg dcfg env Hd Hc n args F. right. exact (tags_apart w basic strcons dstrcons cfg dcfg env Hd Hc args F). Qed.
Print Assumptions C64_tags.

(** ** A data model *)
Definition T64 : ty :=
  TUPLE [LIST (CLS "ANode"); UNION [CLS "TagA"; CLS "TagB"]; CLS "NT"; CLS "TD"; CLS "Hue"; CLS "Path"; TClass CTimedelta; TClass CPattern;
         TClass CDate; SET TInt; DICT TStr (CLS "Swap"); CLS "Ren"; OPT TInt; UNION [LIST TInt; CLS "Point"; CLS "NT"; TInt]; CLS "Atr";
         TLiteral [VInt 1; VStr "x"]; TAny; DICT TInt TStr].
Definition X64 : value :=
  VList [VList [dict [("v", VInt 1); ("next", dict [("v", VStr "2")])]]; dict [("type", VStr "b"); ("n", VBool true)]; dict [("a", VInt 1)];
         dict [("k", VInt 1)]; VStr "c"; VStr "/tmp"; VInt 3; VStr "a.*"; VStr "2020-01-02"; VList [VInt 1; VInt 1; VInt 2];
         dict [("k", dict [("b", VInt 1); ("a", VInt 2)])]; dict [("external", VInt 1)]; VNone; dict [("x", VInt 1)]; dict [("A", VStr "1")];
         VStr "x"; VList [VNone; dict [("q", VFloat (FFin 1 0))]]; dict [("1", VInt 1)]].
Definition R64 : value :=
  VTuple [VList [an 1 (an 2 VNone)]; VObj (CUser "TagB") [("type", VStr "b"); ("n", VInt 1)]; VNT (CUser "NT") [("a", VInt 1); ("b", VStr "z")];
          dict [("k", VInt 1)]; VEnum (CUser "Hue") "COLD" (VStr "c"); VInst (CUser "Path") (VStr "/tmp"); VInst CTimedelta (VInt 3);
          VInst CPattern (VStr "a.*"); VInst CDate (VTuple [VInt 2020; VInt 1; VInt 2]); VSet [VInt 1; VInt 2];
          VDict [(VStr "k", VObj (CUser "Swap") [("a", VInt 1); ("b", VInt 2)])]; VObj (CUser "Ren") [("field", VInt 1); ("other", VStr "")]; VNone;
          VObj (CUser "Point") [("x", VInt 1); ("y", VInt 0)]; VObj (CUser "Atr") [("a", VInt 1); ("l", VList [])];
          VStr "x"; VList [VNone; dict [("q", VFloat (FFin 1 0))]]; VDict [(VInt 1, VStr "1")]].
Definition S64 : lstate := snd (load W0 C0 50 X64 T64 S27).
Definition L64 : list ty :=
  [T64; LIST (CLS "ANode"); UNION [CLS "TagA"; CLS "TagB"]; CLS "NT"; CLS "TD"; CLS "Hue"; CLS "Path"; TClass CTimedelta; TClass CPattern;
   TClass CDate; SET TInt; DICT TStr (CLS "Swap"); CLS "Ren"; OPT TInt; UNION [LIST TInt; CLS "Point"; CLS "NT"; TInt]; CLS "Atr";
   TLiteral [VInt 1; VStr "x"]; TAny; DICT TInt TStr;
   CLS "ANode"; CLS "TagA"; CLS "TagB"; TInt; TStr; TNone; LIST TInt; CLS "Point"; CLS "Swap"; OPT (TForward "ANode"); TForward "ANode";
   TLiteral [VStr "a"]; TLiteral [VStr "b"]].
Notation E64 := (names_of S64).
Notation mc := (model_class W0 default_basic default_strcons default_dstrcons C0 D0 E64).
Notation mt := (model_type W0 default_basic default_strcons default_dstrcons C0 D0 E64).
Notation td64 := (typed W0 default_basic default_strcons default_dstrcons C0 D0 E64).
Lemma leaf64 v : python_object W0 v -> (forall x, ~ holds v x) -> python_value W0 v.
Proof. exact (pv_leaf W0 v). Qed.
Ltac leaf := apply leaf64; [cbn; repeat split; try discriminate; intuition discriminate|let z := fresh in let H := fresh in intros z H; inversion H].
(** basic types *)
Lemma doc_mro x c : document x -> In c default_basic -> isinstance W0 x c = true -> In (type_of x) default_basic.
Proof. intros D I E. destruct D; cbn; try tauto; exfalso; in_cases; subst; discriminate E. Qed.
Lemma call0_basic c v r : In c default_basic -> document v -> call0 (TClass c) v = POk r -> type_of r = c /\ python_value W0 r.
Proof.
  intros I D E. in_cases; subst; cbn in E.
  - destruct D as [|b|z|f|q|l Q|d Q Pd]; try discriminate E; [| |destruct f|destruct (parse_int q)]; try discriminate E; injection E as <-; (split; [reflexivity|leaf]).
  - injection E as <-. split; [reflexivity|leaf].
  - destruct D as [|b|z|f|q|l Q|d Q Pd]; try discriminate E; [| | |destruct (parse_int q)]; try discriminate E; injection E as <-; (split; [reflexivity|leaf]).
  - destruct D as [|b|z|f|q|l Q|d Q Pd]; injection E as <-; (split; [reflexivity|leaf]).
  - discriminate E.
Qed.
(** the conditions which do not concern a class are met *)
Ltac other := let H := fresh in 
  first [ intro H; exfalso; in_cases; discriminate
        | let ms := fresh in intros ms H; discriminate H
        | let ms := fresh in let O := fresh in intros ms H O; discriminate H
        | let ms := fresh in let O := fresh in intros ms [H|H] O; discriminate H
        | let O := fresh in intro O; exfalso; destruct O as [_ [_ H]]; exact H
        | let O := fresh in let r := fresh in let M := fresh in
            intros O r M; exfalso; inversion M; subst; try discriminate; in_cases; try discriminate;
            match goal with Q : _ \/ _ |- _ => destruct Q as [Q|[? [? Q]]]; discriminate Q | _ => idtac end ].
Lemma mc_scalar c : In c default_basic -> mc c.
Proof.
  intro I. constructor; intros; try (exfalso; in_cases; subst; discriminate).
  - split; [in_cases; subst; reflexivity|]. intros v r D E. exact (call0_basic c v r I D E).
  - apply (doc_mro x c); assumption.
  - destruct H as [H _]. contradiction.
  - destruct H as [H _]. contradiction.
Qed.
(** Hue *)
Lemma mc_Hue : mc (CUser "Hue").
Proof.
  constructor; try (now other).
  - intros ms E N. injection E as <-. split; [cbn; intuition discriminate|]. split; [reflexivity|]. split.
    + intros m x I. in_cases; subst; (split; [leaf|]); (split; [apply json_basic; cbn; tauto|]); (split; [discriminate|]); right; (split; [discriminate|]).
      * exists [], "WARM", (VInt 1). eexists. split; [reflexivity|]. split; [reflexivity|]. split; [intros n' x' []|reflexivity].
      * exists [("WARM", VInt 1)], "COLD", (VStr "c"). eexists. split; [reflexivity|]. split; [reflexivity|]. split; [|reflexivity].
        intros n' x' I. in_cases. reflexivity.
    + intros hints n t y E I. injection E as <-. destruct I.
  - intros [_ [E _]]. discriminate E.
Qed.
(** objects of the standard library *)
Ltac no_object := let O := fresh in intro O; exfalso; destruct O as [_ [_ O]]; exact O.
Lemma mc_Date : mc CDate.
Proof.
  constructor; try (now other).
  intros _ r M.
  assert (Q : exists l, r = VInst CDate (VTuple l) /\ List.length l = 3).
  { inversion M as [c x r' I E|c l r' I Dl E|v r' Dv E|t v r' Ht Dv E|c v r' I Sp Dv E]; subst.
    - cbn in E. destruct (String.eqb x "2020-01-02"); [|discriminate E]. injection E as <-. eexists. split; reflexivity.
    - cbn in E. destruct (Nat.eqb (List.length l) 3) eqn:N; [|discriminate E]. injection E as <-. exists l. split; [reflexivity|]. apply Nat.eqb_eq. exact N.
    - destruct Ht as [Ht|[? [? Ht]]]; discriminate Ht.
    - discriminate Sp. }
  destruct Q as [l [-> N]]. split; [leaf|]. split; [cbn; intuition discriminate|]. split; [reflexivity|]. split; [reflexivity|].
  exists (VList l). apply lf_date; [reflexivity|]. cbn. rewrite N. reflexivity.
Qed.
Lemma mc_Timedelta : mc CTimedelta.
Proof.
  constructor; try (now other).
  intros _ r M. inversion M as [c x r' I E|c l r' I Dl E|v r' Dv E|t v r' Ht Dv E|c v r' I Sp Dv E]; subst.
  - in_cases; discriminate.
  - in_cases; discriminate.
  - assert (Q : r = VInst CTimedelta v /\ w_timedelta W0 v = POk (VInst CTimedelta v)).
    { destruct Dv as [|b|z|[m e|b|]|q|l Q|d Q Pd]; try discriminate E; injection E as <-; split; reflexivity. }
    destruct Q as [-> Q]. split; [leaf|]. split; [cbn; intuition discriminate|]. split; [reflexivity|]. split; [reflexivity|].
    eexists. apply lf_timedelta. exact Q.
  - destruct Ht as [Ht|[? [? Ht]]]; discriminate Ht.
  - discriminate Sp.
Qed.
Lemma mc_Pattern : mc CPattern.
Proof.
  constructor; try (now other).
  intros _ r M. inversion M as [c x r' I E|c l r' I Dl E|v r' Dv E|t v r' Ht Dv E|c v r' I Sp Dv E]; subst.
  - in_cases; discriminate.
  - in_cases; discriminate.
  - assert (Q : r = VInst CPattern v /\ w_compile W0 v = POk (VInst CPattern v)).
    { assert (r = VInst CPattern v); [|subst; split; [reflexivity|exact E]].
      destruct Dv as [|b|z|f|q|l Q|d Q Pd]; try discriminate E. cbn in E.
      repeat match type of E with context [match ?x with _ => _ end] => destruct x end; try discriminate E; injection E as <-; reflexivity. }
    destruct Q as [-> Q]. split; [leaf|]. split; [cbn; intuition discriminate|]. split; [reflexivity|]. split; [reflexivity|].
    eexists. apply lf_pattern; [left; reflexivity|exact Q].
  - discriminate Sp.
Qed.
Lemma mc_Path : mc (CUser "Path").
Proof.
  constructor; try (now other).
  intros _ r M. inversion M as [c x r' I E|c l r' I Dl E|v r' Dv E|t v r' Ht Dv E|c v r' I Sp Dv E]; subst.
  - in_cases; discriminate.
  - in_cases; discriminate.
  - destruct Ht as [Ht|[? [? Ht]]]; discriminate Ht.
  - destruct Dv as [|b|z|f|q|l Q|d Q Pd]; try discriminate E. injection E as <-.
    split; [leaf|]. split; [cbn; intuition discriminate|]. split; [reflexivity|]. split; [reflexivity|].
    eexists. apply lf_string; [cbn; tauto|cbn; tauto|reflexivity|reflexivity|reflexivity| |reflexivity].
    intros c' Ic. in_cases; subst; reflexivity.
Qed.
(** objects: no other value of the annotation is equal to the default *)
Lemma fits_int z : default_fits W0 default_basic default_strcons default_dstrcons C0 D0 E64 TInt (VInt z).
Proof.
  split; [leaf|]. split; [left; apply td_scalar; [cbn; tauto|discriminate|reflexivity]|].
  intros _ x T E. assert (Q : type_of x = CInt) by (apply (typed_exact _ _ _ _ _ _ _ x CInt T); cbn; tauto).
  destruct x; try discriminate Q; destruct E as [E|E]; try discriminate E; cbn in E; apply Z.eqb_eq in E; f_equal; lia.
Qed.
Lemma fits_str q : default_fits W0 default_basic default_strcons default_dstrcons C0 D0 E64 TStr (VStr q).
Proof.
  split; [leaf|]. split; [left; apply td_scalar; [cbn; tauto|discriminate|reflexivity]|].
  intros _ x T E. destruct x; cbn in E; destruct E as [E|E]; try discriminate E; apply String.eqb_eq in E; congruence.
Qed.
Lemma fits_none t : default_fits W0 default_basic default_strcons default_dstrcons C0 D0 E64 (OPT t) VNone.
Proof.
  split; [leaf|]. split; [right; split; reflexivity|].
  intros _ x T E. destruct x; cbn in E; destruct E as [E|E]; try discriminate E; reflexivity.
Qed.
Lemma fits_nil t : default_fits W0 default_basic default_strcons default_dstrcons C0 D0 E64 (LIST t) (VList []).
Proof.
  split; [apply leaf64; [exact I|intros z H; inversion H; subst; contradiction]|]. split; [right; split; reflexivity|].
  intros _ x T E. destruct x; cbn in E; destruct E as [E|E]; try discriminate E; destruct l; try discriminate E; reflexivity.
Qed.
Ltac fit := first [exact (fits_int _)|exact (fits_str _)|exact (fits_none _)|exact (fits_nil _)].
Ltac fields64 := 
  let fs := fresh in let K := fresh in let O := fresh in
  intros fs K O; (destruct K as [K|K]; try discriminate K); injection K as <-;
  split; [intros; reflexivity|]; split;
  [let f := fresh in let I := fresh in intros f I; in_cases; subst; (split; [reflexivity|intros; discriminate])
  |let f := fresh in let I := fresh in let d := fresh in let Q := fresh in intros f I; in_cases; subst; eexists; (split; [reflexivity|]); intros d Q; try discriminate Q; injection Q as <-; fit].
Ltac dc64 :=
  let fs := fresh in let K := fresh in let O := fresh in
  intros fs K O; injection K as <-; split;
  [let f := fresh in let I := fresh in intros f I; in_cases; subst; reflexivity
  |eexists; split; [reflexivity|let f := fresh in let t := fresh in let Q := fresh in intros f t Q; right; exact Q]].
Ltac at64 :=
  let fs := fresh in let K := fresh in let O := fresh in let f := fresh in let I := fresh in
  intros fs K O f I; injection K as <-; in_cases; subst; repeat split; reflexivity.
Lemma no_library n : ~ In (CUser n) default_strcons -> written_back W0 default_basic default_strcons default_dstrcons D0 (TClass (CUser n)).
Proof.
  intros N r M. exfalso. inversion M as [c x r' I E|c l r' I Dl E|v r' Dv E|t v r' Ht Dv E|c v r' I Sp Dv E]; subst.
  - in_cases; discriminate.
  - in_cases; discriminate.
  - destruct Ht as [Ht|[? [? Ht]]]; discriminate Ht.
  - contradiction.
Qed.
Ltac mc64 ok_ := constructor; [try (now other)|try (now other)|try (now other)|intros _; apply no_library; cbn; intuition discriminate|intros _; exact (proj2 (proj2 ok_))
  |try (now other)|try fields64; try (now other)|try (now dc64); try (now other)|try (now at64); try (now other)|try (now other)].
Lemma mc_Point : mc (CUser "Point"). Proof. mc64 ok_Point. Qed.
Lemma mc_TagA : mc (CUser "TagA"). Proof. mc64 ok_TagA. Qed.
Lemma mc_TagB : mc (CUser "TagB"). Proof. mc64 ok_TagB. Qed.
Lemma mc_Swap : mc (CUser "Swap"). Proof. mc64 ok_Swap. Qed.
Lemma mc_Ren : mc (CUser "Ren"). Proof. mc64 ok_Ren. Qed.
Lemma mc_ANode : mc (CUser "ANode"). Proof. mc64 ok_ANode. Qed.
Lemma mc_Atr : mc (CUser "Atr"). Proof. mc64 ok_Atr. Qed.
Lemma mc_NT : mc (CUser "NT").
Proof.
  mc64 ok_NT. intros nt K O. injection K as <-. split; [intro f; reflexivity|]. split; [vm_compute; nodup|].
  intros f d t I E. in_cases; try discriminate. vm_compute in E. injection E as <-. fit.
Qed.
Lemma mc_TD : mc (CUser "TD").
Proof. mc64 ok_TD. intros req K O f I. vm_compute in I |- *. tauto. Qed.
(** unions *)

Lemma tagged64 : mt (UNION [CLS "TagA"; CLS "TagB"]).
Proof.
  apply C64_tags; [exact D0_std|cbn; intuition (subst; discriminate)|].
  exists "type", tags55. split; [reflexivity|]. split; [exact disc55|].
  intros c vals I. in_cases; subst; (split; [right; intros f J Q; in_cases; subst; try discriminate Q; reflexivity|]); intros x J; in_cases; subst; eexists; reflexivity.
Qed.
Lemma basic_optional : mt (OPT TInt).
Proof.
  apply C64_forms; [exact D0_std|cbn; intuition (subst; discriminate)|]. split.
  - intros k L. destruct (L TInt) as [c [tk [vals [Q [J _]]]]]; [left; reflexivity|]. injection Q as <-. destruct J.
  - split; [intros t I B; in_cases; subst; discriminate B|]. intros pre t post t' a b E I B. exfalso.
    assert (J : In t [TInt; TNone]) by (rewrite E; apply in_or_app; right; left; reflexivity). in_cases; subst; discriminate B.
Qed.
Lemma optional_ref : mt (OPT (TForward "ANode")).
Proof.
  apply C64_forms; [exact D0_std|cbn; intuition (subst; discriminate)|]. split.
  - intros k L. destruct (L TNone) as [c [tk [vals [Q [J _]]]]]; [right; left; reflexivity|]. injection Q as <-. destruct J.
  - split.
    + intros t I B. in_cases; subst; try discriminate B. eexists. eapply hf_forward; [vm_compute; reflexivity|]. apply hf_object. exact ok_ANode.
    + intros pre t post t' a b E I B B'. exfalso.
      destruct pre as [|t0 [|t1 pre]]; cbn in E.
      * injection E as <- <-. in_cases; subst; discriminate B'.
      * injection E as <- <- <-. discriminate B.
      * injection E as <- <- E. destruct pre; discriminate E.
Qed.
Lemma form_list n o args a : In o [OList; OTuple; OSet; OFrozen] -> has_form W0 default_basic default_strcons C0 E64 (TGen n o (Some args)) a -> a = FoList.
Proof. intros I H. inversion H; subst; [reflexivity|in_cases; discriminate]. Qed.
Lemma form_class n a : has_form W0 default_basic default_strcons C0 E64 (CLS n) a -> a = FoObject (CUser n).
Proof. intro H. inversion H; reflexivity. Qed.
Lemma union64 : mt (UNION [LIST TInt; CLS "Point"; CLS "NT"; TInt]).
Proof.
  apply C64_forms; [exact D0_std|cbn; intuition (subst; discriminate)|]. split.
  - intros k L. destruct (L TInt) as [c [tk [vals [Q [J _]]]]]; [cbn; tauto|]. injection Q as <-. destruct J.
  - split.
    + intros t I B. in_cases; subst; try discriminate B; eexists; [apply hf_list; cbn; tauto|apply hf_object; exact ok_Point|apply hf_object; exact ok_NT].
    + intros pre t post t' a b E I B B' Ha Hb.
      assert (N : NoDup (pre ++ t :: post)) by (rewrite <- E; nodup).
      assert (Q : In t [LIST TInt; CLS "Point"; CLS "NT"; TInt]) by (rewrite E; apply in_or_app; right; left; reflexivity).
      assert (Q' : In t' [LIST TInt; CLS "Point"; CLS "NT"; TInt]) by (rewrite E; apply in_app_iff in I; apply in_app_iff; cbn; tauto).
      assert (D : t <> t') by (intros ->; apply NoDup_remove_2 in N; contradiction). clear N I E.
      cbn in Q, Q'.
      destruct Q as [<-|[<-|[<-|[<-|[]]]]]; try discriminate B; destruct Q' as [<-|[<-|[<-|[<-|[]]]]]; try discriminate B'; try (exfalso; apply D; reflexivity);
      repeat match goal with
      | H : has_form _ _ _ _ _ (LIST _) ?a |- _ => apply form_list in H; [subst a|cbn; tauto]
      | H : has_form _ _ _ _ _ (CLS _) ?a |- _ => apply form_class in H; subst a
      end; cbn; try exact I.
      * exists "a". vm_compute. intuition discriminate.
      * exists "x". vm_compute. intuition discriminate.
Qed.
Lemma dict64 c vt : In c [CInt; CStr] -> mt (DICT (TClass c) vt).
Proof.
  intro I. exists c, vt. split; [reflexivity|]. split; [cbn in *; tauto|]. split; [cbn in I; intuition (subst; discriminate)|].
  intros k E. in_cases; subst; [discriminate E|reflexivity].
Qed.
Lemma model64 : data_model W0 default_basic default_strcons default_dstrcons C0 D0 E64 T64.
Proof.
  intros t R. assert (I : In t L64) by (revert R; apply reach_closed; vm_compute; reflexivity). clear R.
  unfold L64 in I. cbn [In] in I.
  repeat match type of I with _ \/ _ => destruct I as [<-|I] end; [..|contradiction].
  all: try exact Logic.I.
  all: try reflexivity.
  all: try exact tagged64; try exact basic_optional; try exact optional_ref; try exact union64.
  all: try (apply mc_scalar; cbn; tauto).
  all: first [exact mc_NT|exact mc_TD|exact mc_Hue|exact mc_Path|exact mc_Timedelta|exact mc_Pattern|exact mc_Date|exact mc_Ren|exact mc_Atr|exact mc_ANode
       |exact mc_TagA|exact mc_TagB|exact mc_Point|exact mc_Swap|apply dict64; cbn; tauto|cbn; repeat (apply Forall_cons; [exact Logic.I|]); apply Forall_nil].
Qed.
(** X64 is loaded into R64; D64 is what R64 is dumped into, by a dumper which was
    used before; it is loaded into R64 again, also by a loader which knows the name
    ANode and never saw these types *)
Definition D64 : value :=
  VList [VList [dict [("v", VInt 1); ("next", dict [("v", VInt 2)])]]; dict [("n", VInt 1); ("type", VStr "b")]; dict [("a", VInt 1)];
         dict [("k", VInt 1)]; VStr "c"; VStr "/tmp"; VInt 3; VStr "a.*"; VList [VInt 2020; VInt 1; VInt 2]; VList [VInt 1; VInt 2];
         dict [("k", dict [("a", VInt 2); ("b", VInt 1)])]; dict [("external", VInt 1)]; VNone; dict [("x", VInt 1)]; dict [("A", VInt 1)];
         VStr "x"; VList [VNone; dict [("q", VFloat (FFin 1 0))]]; VDict [(VInt 1, VStr "1")]].
Ltac doc64 := repeat first [ exact doc_null | apply doc_bool | apply doc_int | apply doc_float | apply doc_str
  | apply doc_list; let x := fresh "x" in let I := fresh "I" in intros x I; in_cases; subst
  | apply doc_dict; [let k := fresh "k" in let x := fresh "x" in let I := fresh "I" in intros k x I; in_cases; subst; (split; [eexists; reflexivity|])|repeat constructor] ].
Example C64_ex :
  is_std W0 default_basic default_strcons C0 /\ is_dstd W0 default_basic default_dstrcons D0 /\ wf_reflect W0 /\
  (forall c, In c collections -> ~ In c default_basic) /\ (forall c, In c default_basic -> ci_ann (class_of W0 c) = []) /\
  (forall c, In c scalars -> In c default_basic) /\ uniondebugconflict C0 = false /\
  used W0 C0 S27 /\ document X64 /\ ends W0 C0 S27 X64 T64 (Ok R64) S64 /\
  never_stops W0 (pep563 C0) (names_of S64) T64 /\
  data_model W0 default_basic default_strcons default_dstrcons C0 D0 (names_of S64) T64 /\
  dhistory W0 D0 SD1 /\ names_ready W0 (names_of S64) S27 T64 /\
  dumps W0 D0 SD1 R64 (Ok D64) /\ loads W0 C0 S27 D64 T64 (Ok R64) /\ D64 <> X64.
Proof.
  split; [exact C0_std|]. split; [exact D0_std|]. split; [exact wr0|]. split; [cbn; intuition (subst; discriminate)|].
  split; [intros c I; in_cases; subst; reflexivity|]. split; [cbn; tauto|]. split; [reflexivity|]. split; [exact S27_used|].
  split; [unfold X64, dict; cbn [map fst snd]; doc64|]. split; [split; [discriminate|exists 50; vm_compute; reflexivity]|].
  split; [apply (W0_never C0 (names_of S64) L64); vm_compute; reflexivity|]. split; [exact model64|]. split; [exact SD1_used|].
  split; [intros n t' E; left; unfold names_of in E; destruct (st_frefs S64) as [fr|] eqn:F; [|discriminate E];
    vm_compute in F; injection F as <-; exists [("ANode", CLS "ANode"); ("Swap", CLS "Swap")]; (split; [vm_compute; reflexivity|exact E])|].
  split; [loads_now|]. split; [loads_now|discriminate].
Qed.

(** The condition that the discriminator is always written matters.  With
    class KA: type: Literal["a"] = "a"; class KB: type: Literal["b"] = "b"
    the dumper omits the tag, because it is the default; so what was a KB is
    loaded as a KA, without an error *)
Definition W64 : world :=
  mkWorld (fun n => if String.eqb n "KA" then dcls [f0 "type" (TLiteral [VStr "a"]) (DValue (VStr "a"))]
                    else if String.eqb n "KB" then dcls [f0 "type" (TLiteral [VStr "b"]) (DValue (VStr "b"))] else no_class)
    (w_call W0) (w_fromiso W0) (w_callargs W0) (w_timedelta W0) (w_compile W0) (w_name W0) (w_pick W0) (w_setorder W0) (w_str W0) (w_iso W0) (w_seconds W0).
Definition C64c : config := default_config W64.
Definition D64c : dconfig := default_dconfig W64.
Theorem C64_refuted_tag :
  let t := UNION [CLS "KA"; CLS "KB"] in let v := dict [("type", VStr "b")] in
  is_std W64 default_basic default_strcons C64c /\ is_dstd W64 default_basic default_dstrcons D64c /\ wf_reflect W64 /\ document v /\
  exists s', ends W64 C64c S0 v t (Ok (VObj (CUser "KB") [("type", VStr "b")])) s' /\
    dumps W64 D64c dfresh (VObj (CUser "KB") [("type", VStr "b")]) (Ok (VDict [])) /\
    loads W64 C64c s' (VDict []) t (Ok (VObj (CUser "KA") [("type", VStr "a")])).
Proof.
  intros t v.
  split; [split; reflexivity|]. split; [split; reflexivity|]. split.
  { assert (Cl : forall c, ci_td (class_of W64 c) = None).
    { intros []; try reflexivity. cbn [class_of W64 w_class]. destruct (String.eqb n "KA"); [reflexivity|]. destruct (String.eqb n "KB"); reflexivity. }
    constructor; intro c; rewrite Cl; intros; try contradiction; try discriminate. }
  split; [unfold v, dict; cbn [map fst snd]; doc64|].
  eexists. split; [split; [discriminate|exists 50; vm_compute; reflexivity]|]. split; [split; [discriminate|exists 50; vm_compute; reflexivity]|].
  split; [discriminate|exists 50; vm_compute; reflexivity].
Qed.
Print Assumptions C64_refuted_tag.
