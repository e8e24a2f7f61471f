(** * Properties, sixth part: JSON data (C03) *)

From Verif Require Import Loader Spec Vocab Fuel Json Examples Ground.

Definition CS : config := strict C0.
Lemma CS_std : is_std W0 default_basic default_strcons CS. Proof. split; reflexivity. Qed.

(** C03 With basiccast=False, loading a value into a JSON-shaped type (basic
    types, None, Any, Literal, List, Dict, Union of these, any nesting,
    recursion through ForwardRefs) either fails or returns exactly the value
    that was passed.  [converts] excludes the data which List and Dict types
    do convert: a string given for a List type, a Namespace for a Dict type. *)
Theorem C03_identity : forall w basic strcons cfg, is_std w basic strcons cfg -> basiccast cfg = false ->
  forall s v t r s', used w cfg s -> ends w cfg s v t (Ok r) s' ->
  (forall t', reach w (pep563 cfg) (names_of s') t t' -> json_type basic t') ->
  (forall x, inside v x -> proper_data x) ->
  ~ converts basic (names_of s') v t ->
  r = v.
Proof. intros w basic strcons cfg. exact (c03 w basic strcons cfg). Qed.
Print Assumptions C03_identity.

(** the type of all JSON documents:
    J = Union[int, bool, float, str, None, List['J'], Dict[str, 'J']] *)
Definition JT : ty := UNION [TInt; TBool; TFloat; TStr; TNone; LIST (TForward "J"); DICT TStr (TForward "J")].
Definition SJ : lstate := fresh (Some [("J", JT)]) [].

Definition JPart (v : value) (t : ty) : Prop :=
  t = JT \/ t = TForward "J" \/ (exists c, t = TClass c) \/
  (t = LIST (TForward "J") \/ t = DICT TStr (TForward "J")) /\ ~ In (type_of v) default_basic.
Lemma JT_safe env v : env "J" = Some JT -> document v -> ~ converts default_basic env v JT.
Proof.
  intros EJ. assert (K : forall v t, converts default_basic env v t -> document v -> JPart v t -> False).
  { intros v0 t C. induction C as [v0 n args N1 N2 N3|a n args|l x n et rest I C IH|d k x n kt vt I C IH|d k x n kt vt I C IH|v0 n args t NO I C IH|v0 n t C IH|v0 n t E C IH];
      intros J [H|[H|[[c H]|[[H|H] NB]]]]; try discriminate H; unfold LIST, DICT in H; try injection H as -> -> ->; try injection H as -> ->; try injection H as ->.
    - inversion J as [| | | | |l HL|d HX HP]; subst; try (apply NB; cbn; tauto); [eapply N2; reflexivity|eapply N3; reflexivity].
    - inversion J.
    - inversion J as [| | | | |l0 HL|]; subst. apply IH; [apply HL; exact I|right; left; reflexivity].
    - apply IH; [|right; right; left; eexists; reflexivity]. inversion J as [| | | | | |d0 HX HP]; subst. destruct (HX _ _ I) as [[q ->] _]. constructor.
    - apply IH; [|right; left; reflexivity]. inversion J as [| | | | | |d0 HX HP]; subst. eapply HX. exact I.
    - assert (NB : ~ In (type_of v0) default_basic).
      { intro B. apply NO. split; [exact B|]. cbn in B. cbn. repeat (destruct B as [<-|B]; [auto 10|]). contradiction. }
      apply IH; [exact J|]. unfold JPart. cbn in I. repeat (destruct I as [<-|I]; [try (right; right; left; eexists; reflexivity); right; right; right; auto|]). contradiction.
    - rewrite EJ in E. injection E as <-. apply IH; [exact J|left; reflexivity]. }
  intros J C. exact (K _ _ C J (or_introl eq_refl)).
Qed.
Lemma SJ_used : used W0 CS SJ. Proof. apply used_new. Qed.

(** every JSON document loads as itself into the type of JSON documents, or
    not at all *)
Theorem C03_documents : forall s v r s',
  used W0 CS s -> names_of s' "J" = Some JT -> ends W0 CS s v JT (Ok r) s' ->
  document v -> r = v.
Proof.
  intros s v r s' U EJ E J. apply (C03_identity W0 default_basic default_strcons CS CS_std eq_refl s v JT r s' U E).
  - intros t' R. apply (reach_closed W0 CS (names_of s') [JT; TInt; TBool; TFloat; TStr; TNone; LIST (TForward "J"); DICT TStr (TForward "J"); TForward "J"]) in R.
    + cbn in R. repeat (destruct R as [<-|R]; [cbn; auto 10; fail|]). contradiction.
    + revert EJ. generalize (names_of s'). intros e EJ. unfold closedb. cbn. rewrite EJ. reflexivity.
    + reflexivity.
  - intros x I. clear E. revert J. induction I as [v0|v0 y x P I IH]; intro J.
    + destruct J; cbn; auto.
    + apply IH. clear IH I. inversion J as [|b|z|f|q|l HL|d HX HP]; subst; inversion P as [? l0 z0 Q I|d0 k z0 I| |]; subst; try discriminate; try (injection Q as <-); eauto.
      * clear - I. induction q as [|a q IHs]; cbn in I; [contradiction|]. destruct I as [<-|I]; [constructor|auto].
      * apply in_map_iff in I as [[k z] [<- I]]. destruct (HX _ _ I) as [[q ->] _]. constructor.
      * eapply HX. exact I.
  - apply JT_safe; assumption.
Qed.
Print Assumptions C03_documents.

(** {"a": [1, null, "x", {"b": 1.5}], "c": true} on a loader which already
    loaded it *)
Definition VJ : value :=
  dict [("a", VList [VInt 1; VNone; VStr "x"; dict [("b", VFloat (FFin 3 (-1)))]]); ("c", VBool true)].
Definition SJ1 : lstate := snd (load W0 CS 30 VJ JT SJ).
Example C03_example : exists s',
  used W0 CS SJ1 /\ ends W0 CS SJ1 VJ JT (Ok VJ) s' /\ names_of s' "J" = Some JT /\ document VJ.
Proof.
  exists (snd (load W0 CS 30 VJ JT SJ1)). split; [unfold SJ1; apply used_again; apply SJ_used|]. split.
  { split; [discriminate|]. exists 30. rewrite (surjective_pairing (load W0 CS 30 VJ JT SJ1)). f_equal. }
  split; [vm_compute; reflexivity|].
  assert (D : forall l, (forall k x, In (k, x) l -> document x) -> py_dict (map (fun kv => (VStr (fst kv), snd kv)) l) -> document (dict l)).
  { intros l H P. apply doc_dict; [|exact P]. intros k x I. apply in_map_iff in I as [[q y] [E I]]. injection E as <- <-. cbn [fst snd]. split; eauto. }
  apply D; [|repeat constructor]. intros k x I. cbn in I. repeat (destruct I as [I|I]; [injection I as <- <-|]); [|constructor|contradiction].
  apply doc_list. intros y I. cbn in I. repeat (destruct I as [<-|I]; [first [apply D|apply doc_int|apply doc_null|apply doc_str]|]); [| |contradiction].
  - intros k x [I|[]]. injection I as <- <-. constructor.
  - repeat constructor.
Qed.

(** A string given for a List is converted even with basiccast=False:
    load("ab", List[str], basiccast=False) is ["a", "b"]. *)
Theorem C03_refuted : exists s', ends W0 CS S0 (VStr "ab") (LIST TStr) (Ok (VList [VStr "a"; VStr "b"])) s'.
Proof.
  eexists. split; [discriminate|]. exists 30. rewrite (surjective_pairing (load W0 CS 30 _ _ _)). f_equal.
Qed.
Print Assumptions C03_refuted.
