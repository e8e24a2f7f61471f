(** * Properties, seventh part: termination (C22, C23) *)

From Verif Require Import Loader Spec Vocab Fuel Inv Std Trace Hist Facts4 Total Term Examples Ground.

(** C22 Loading into a type which is not recursive terminates on every value;
    the depth of the recursion is bounded by the type, whatever the data. *)
Theorem C22_terminates : forall w basic strcons cfg, is_std w basic strcons cfg ->
  forall names t, not_recursive w names t -> has_involved w names t ->
  exists n, forall s v, used w cfg s -> has_registered names s -> fst (load w cfg n v t s) <> OOF.
Proof. exact c22. Qed.
Print Assumptions C22_terminates.

(** Dict[str, Tuple[List[Union[Point, AEnum]], Recs]] *)
Definition T22 : ty := DICT TStr (TUPLE [LIST (UNION [CLS "Point"; CLS "AEnum"]); CLS "Recs"]).
Definition L22 : list ty :=
  [T22; TUPLE [LIST (UNION [CLS "Point"; CLS "AEnum"]); CLS "Recs"]; LIST (UNION [CLS "Point"; CLS "AEnum"]); CLS "Recs";
   UNION [CLS "Point"; CLS "AEnum"]; CLS "Point"; CLS "AEnum"; LIST TInt; TUPLE [TInt; TInt]; TInt; TStr].
Example C22_example :
  let names := by_name W0 L22 in
  not_recursive W0 names T22 /\ has_involved W0 names T22 /\ used W0 C0 S0 /\ has_registered names S0.
Proof.
  cbv zeta. split; [|split; [|split]].
  - apply (acc_by (mentions W0 (by_name W0 L22)) (mentioned W0 (by_name W0 L22)) L22); [auto|vm_compute; reflexivity|left; reflexivity].
  - apply has_involved_by; vm_compute; reflexivity.
  - apply used_new.
  - intros n t [fr [[= <-] E]]. discriminate.
Qed.

(** C23 Loading terminates on every value also for the recursive types whose
    recursion goes through the fields of objects, or the keys or values of a
    Dict. *)
Theorem C23_terminates : forall w basic strcons cfg, is_std w basic strcons cfg ->
  forall names t s v, used w cfg s -> has_registered names s -> has_involved w names t ->
  object_recursive w names t -> finishes w cfg s v t.
Proof. exact c23. Qed.
Print Assumptions C23_terminates.

(** List[Node], the class Node being recursive, and a new loader *)
Definition L23 : list ty :=
  [LIST (CLS "Node"); OPT (TForward "Node"); TForward "Node"; OPT (CLS "Node"); CLS "Node"; TInt; TNone].
Example C23_example :
  let names := by_name W0 L23 in
  used W0 C0 S0 /\ has_registered names S0 /\ has_involved W0 names (LIST (CLS "Node")) /\
  object_recursive W0 names (LIST (CLS "Node")).
Proof.
  cbv zeta. split; [apply used_new|]. split; [intros n t [fr [[= <-] E]]; discriminate|].
  split; [apply has_involved_by; vm_compute; reflexivity|].
  intros t1 I. apply (acc_by (passed_on W0 (by_name W0 L23)) (passed_list W0 (by_name W0 L23)) L23).
  - apply passed_list_spec.
  - vm_compute; reflexivity.
  - apply (involves_closed W0 (by_name W0 L23) L23 (LIST (CLS "Node"))); [vm_compute; reflexivity|vm_compute; reflexivity|exact I].
Qed.
(** and the class Node is recursive *)
Example C23_recursive : ~ not_recursive W0 (by_name W0 L23) (CLS "Node").
Proof.
  assert (K : forall t, not_recursive W0 (by_name W0 L23) t -> t <> CLS "Node" /\ t <> OPT (CLS "Node")).
  { intros t A. induction A as [t A IH]. split; intros ->.
    - destruct (IH (OPT (CLS "Node"))) as [_ H]; [vm_compute; tauto|apply H; reflexivity].
    - destruct (IH (CLS "Node")) as [H _]; [vm_compute; tauto|apply H; reflexivity]. }
  intro A. destruct (K _ A) as [H _]. apply H. reflexivity.
Qed.

(** Recursion through List only: for J = Union[int, List['J']], loading a
    string never ends (RecursionError in CPython). *)
Definition JJ : ty := UNION [TInt; LIST (TForward "J")].
Theorem C23_refuted : forall s, used W0 C0 s -> knows s "J" JJ -> ~ finishes W0 C0 s (VStr "a") JJ.
Proof.
  assert (D : forall n s, coh W0 C0 s -> knows s "J" JJ ->
    fst (run W0 C0 n HUnion (VStr "a") JJ s) = OOF /\
    fst (run W0 C0 n HList (VStr "a") (LIST (TForward "J")) s) = OOF /\
    fst (run W0 C0 n HForward (VStr "a") (TForward "J") s) = OOF).
  { induction n as [|n IH]; intros s C K; [auto|].
    assert (LK : forall t h nf s, coh W0 C0 s -> knows s "J" JJ -> find_handler C0 t = POk h ->
      exists s', lookup_handler C0 nf t s = (Ok h, s') /\ coh W0 C0 s' /\ knows s' "J" JJ).
    { clear. intros t h nf s C K F. unfold lookup_handler. destruct (ty_get t (st_index s)) as [h0|] eqn:E.
      - pose proof (coh_index _ _ _ C _ _ E) as F0. rewrite F in F0. injection F0 as <-. eauto.
      - rewrite F. exists (set_index (cons (t, h)) s). split; [reflexivity|]. split; [apply coh_set_index; assumption|exact K]. }
    split; [|split].
    - cbn [run body]. unfold unionload. cbn [ty_args JJ UNION type_of].
      change (basicb C0 (TClass CStr) && mem_ty (TClass CStr) [TInt; LIST (TForward "J")]) with false. cbv iota.
      change (filter (fun x => negb (basicb C0 x)) [TInt; LIST (TForward "J")] ++ filter (basicb C0) [TInt; LIST (TForward "J")]) with [LIST (TForward "J"); TInt].
      cbv zeta. cbn [prefer]. unfold bind at 1, ret at 1. cbn [try_members]. unfold bind, attempt.
      match goal with |- context [lookup_handler C0 ?nf ?t s] => destruct (LK t HList nf s C K eq_refl) as [s1 [E1 [C1 K1]]]; rewrite E1 end.
      destruct (IH s1 C1 K1) as [_ [H _]]. destruct (run W0 C0 n HList _ _ s1) as [[| |] s2]; try discriminate H. reflexivity.
    - cbn [run body]. unfold iterload. cbn [ty_args LIST iter chars]. unfold bind.
      match goal with |- context [lookup_handler C0 ?nf ?t s] => destruct (LK t HForward nf s C K eq_refl) as [s1 [E1 [C1 K1]]]; rewrite E1 end.
      cbn [iter_loop]. unfold iter_item. change (basicb C0 (TForward "J")) with false. cbv iota. unfold bind, attempt.
      destruct (IH s1 C1 K1) as [_ [_ H]]. destruct (run W0 C0 n HForward _ _ s1) as [[| |] s2]; try discriminate H. reflexivity.
    - cbn [run body]. unfold forwardrefload, bind, get_st. destruct K as [fr [F G]]. rewrite F, G. unfold load_with, bind, catch.
      assert (K : knows s "J" JJ) by (exists fr; auto).
      assert (X : exists s1, (match ty_get JJ (st_index s) with
            | Some h => (@Ok handler h, s)
            | None => match find_handler C0 JJ with
                | POk h => (Ok h, register W0 JJ (set_index (cons (JJ, h)) s))
                | PExc RValue => (Exc (XTL KType (MCannotDeal JJ) [] (Some (VStr "a")) (Some JJ) []), s)
                | PExc r => (Exc (XRaw r), s)
                end
            end) = (Ok HUnion, s1) /\ coh W0 C0 s1 /\ knows s1 "J" JJ).
      { destruct (ty_get JJ (st_index s)) as [h0|] eqn:E.
        - pose proof (coh_index _ _ _ C _ _ E) as F0. change (find_handler C0 JJ) with (POk HUnion) in F0. injection F0 as <-. eauto.
        - change (find_handler C0 JJ) with (@POk handler HUnion). cbv iota beta.
          exists (set_index (cons (JJ, HUnion)) s). split.
          + unfold register. cbn [set_index st_frefs]. rewrite F. reflexivity.
          + split; [apply coh_set_index; [reflexivity|exact C]|exact K]. }
      destruct X as [s1 [-> [C1 K1]]].
      destruct (IH s1 C1 K1) as [H _]. destruct (run W0 C0 n HUnion _ _ s1) as [[| |] s2]; try discriminate H. reflexivity. }
  intros s U K [r [Nr [n E]]]. apply Nr. rewrite <- E. unfold load, load_ann, load_with, bind, catch.
  pose proof (used_coh W0 C0 s U) as C.
  assert (X : exists s1, (match ty_get JJ (st_index s) with
            | Some h => (@Ok handler h, s)
            | None => match find_handler C0 JJ with
                | POk h => (Ok h, register W0 JJ (set_index (cons (JJ, h)) s))
                | PExc RValue => (Exc (XTL KType (MCannotDeal JJ) [] (Some (VStr "a")) (Some JJ) []), s)
                | PExc r => (Exc (XRaw r), s)
                end
            end) = (Ok HUnion, s1) /\ coh W0 C0 s1 /\ knows s1 "J" JJ).
  { destruct (ty_get JJ (st_index s)) as [h0|] eqn:E0.
    - pose proof (coh_index _ _ _ C _ _ E0) as F0. change (find_handler C0 JJ) with (POk HUnion) in F0. injection F0 as <-. eauto.
    - change (find_handler C0 JJ) with (@POk handler HUnion). cbv iota beta.
      exists (set_index (cons (JJ, HUnion)) s). split.
      + unfold register. cbn [set_index st_frefs]. destruct (st_frefs s); reflexivity.
      + split; [apply coh_set_index; [reflexivity|exact C]|exact K]. }
  destruct X as [s1 [-> [C1 K1]]].
  destruct (D n s1 C1 K1) as [H _]. destruct (run W0 C0 n HUnion _ _ s1) as [[| |] s2]; try discriminate H. reflexivity.
Qed.
Print Assumptions C23_refuted.
(** such a loader: Loader(frefs={'J': J}) *)
Example C23_refuted_example : used W0 C0 (fresh (Some [("J", JJ)]) []) /\ knows (fresh (Some [("J", JJ)]) []) "J" JJ.
Proof. split; [apply used_new|]. exists [("J", JJ)]. split; reflexivity. Qed.
