(** * Properties, twenty-ninth part: loading again (C69)

    [reloadable w … t] (Again.v): there are no dates, and no classes with fields
    other than TypedDict, in the type [t]; the constructors of the basic types
    return instances of them, and those of paths, addresses and regular
    expressions return the same object when they are called with one. *)

From Verif Require Import Loader Dumper Spec Vocab Inv Std Obs Hist Reuse Transparent Examples Ground
  Properties1 Properties2 Properties3 RefSound RefComplete RefUse Properties9 Properties17 Again.

(** C69 What has been loaded can be loaded again, into the same type, and this
    does not change it *)
Theorem C69_again : forall w basic strcons cfg,
  is_std w basic strcons cfg -> wf_reflect w -> uniondebugconflict cfg = false ->
  forall env s s' v r t,
  reloadable w basic strcons cfg env t ->
  used w cfg s -> steady w basic cfg env s v t -> well_formed w basic strcons cfg env v t ->
  used w cfg s' -> steady w basic cfg env s' r t -> well_formed w basic strcons cfg env r t ->
  no_choice w basic strcons cfg env r t -> trials_end w basic cfg env s' r t ->
  loads w cfg s v t (Ok r) -> loads w cfg s' r t (Ok r).
Proof.
  intros w basic strcons cfg Hs Wr Ud env s s' v r t Rl U St Wl U' St' Wl' Nc Te L.
  apply (C44_exact w basic strcons cfg Hs Wr Ud env s' r t U' St' Wl' Nc Te).
  apply (proj1 (gives_again w basic strcons cfg env t Rl) v t r); [|apply rt1n_refl].
  exact (C43_steady w basic strcons cfg Hs Wr env s v t r U St Wl L).
Qed.
Print Assumptions C69_again.

(** in particular, when there are neither unions nor annotated Enums in the type *)
Theorem C69_plain : forall w basic strcons cfg,
  is_std w basic strcons cfg -> wf_reflect w -> uniondebugconflict cfg = false ->
  forall env s s' v r t,
  reloadable w basic strcons cfg env t ->
  used w cfg s -> steady w basic cfg env s v t -> well_formed w basic strcons cfg env v t ->
  used w cfg s' -> steady w basic cfg env s' r t -> well_formed w basic strcons cfg env r t ->
  nothing_to_try w basic cfg env r t ->
  loads w cfg s v t (Ok r) -> loads w cfg s' r t (Ok r).
Proof.
  intros w basic strcons cfg Hs Wr Ud env s s' v r t Rl U St Wl U' St' Wl' [Nu [Ne Nd]].
  apply (C69_again w basic strcons cfg Hs Wr Ud env s s' v r t Rl U St Wl U' St' Wl'); constructor.
  - intros n args x t1 t2 r1 r2 R. destruct (Nu n args R).
  - intros c ms hints x t1 t2 y1 y2 r1 r2 R _ E _ H I1. rewrite (Ne c ms R E) in H. injection H as <-. destruct I1.
  - exact Nd.
  - intros n args x R. destruct (Nu n args R).
  - intros c ms hints x t' R _ E _ H I1. rewrite (Ne c ms R E) in H. injection H as <-. destruct I1.
Qed.
Print Assumptions C69_plain.

(** ** A tuple of a dictionary of lists of TypedDict, a set and an Enum, on loaders with a history *)
Definition T69 : ty := TUPLE [DICT TStr (LIST (CLS "TD")); SET TInt; CLS "Hue"].
Definition L69 : list ty := [T69; DICT TStr (LIST (CLS "TD")); SET TInt; CLS "Hue"; TStr; LIST (CLS "TD"); CLS "TD"; TInt].
Definition v69 : value := VList [dict [("a", VList [dict [("k", VStr "7"); ("more", VNone)]]); ("b", VTuple [])]; VTuple [VStr "1"; VInt 2; VInt 1]; VStr "c"].
Definition r69 : value := VTuple [dict [("a", VList [dict [("k", VInt 7)]]); ("b", VList [])]; VSet [VInt 1; VInt 2]; VEnum (CUser "Hue") "COLD" (VStr "c")].
Definition S69 : lstate := snd (load W0 C0 50 v69 T69 S2).
Definition S69' : lstate := snd (load W0 C0 50 r69 T69 S69).
Definition env69 : string -> option ty := names_of S69.
Lemma reach69 t : reach W0 (pep563 C0) env69 T69 t -> In t L69.
Proof. apply reach_closed; vm_compute; reflexivity. Qed.
Lemma wf69 v : (forall x, inside v x -> data_okb x = true \/ x = VEnum (CUser "Hue") "COLD" (VStr "c")) -> well_formed W0 default_basic default_strcons C0 env69 v T69.
Proof.
  intro D. constructor.
  - intros c R _. apply reach69 in R. cbn in R. repeat (destruct R as [R|R]; [try discriminate R; injection R as <-; split; cbn; repeat constructor; cbn; intuition discriminate|]). destruct R.
  - intros x I. destruct (D x I) as [B| ->]; [apply data_okb_spec; exact B|]. split; [split; [exact Logic.I|discriminate]|]. intros d k y E. discriminate E.
  - apply (W0_never C0 _ L69); vm_compute; reflexivity.
Qed.
Lemma reload69 : reloadable W0 default_basic default_strcons C0 env69 T69.
Proof.
  constructor.
  - intros c R O. apply reach69 in R. cbn in R. repeat (destruct R as [R|R]; [try discriminate R; injection R as <-|]); try destruct R.
    + destruct O as [_ [O _]]. discriminate O.
    + destruct O as [O _]. exfalso. apply O. cbn; auto 10.
    + split; [eexists; reflexivity|]. intros f I. vm_compute in I |- *. tauto.
    + destruct O as [O _]. exfalso. apply O. cbn; auto 10.
  - intros c R I. apply reach69 in R. cbn in R. repeat (destruct R as [R|R]; [try discriminate R; injection R as <-; cbn in I; exfalso; repeat (destruct I as [I|I]; [discriminate I|]); destruct I|]). destruct R.
  - intros c v r R B E M. apply reach69 in R. cbn in R. repeat (destruct R as [R|R]; [try discriminate R; injection R as <-|]); try destruct R; try discriminate E.
    + cbn [w_call W0 call0 TStr] in M. destruct v; injection M as <-; reflexivity.
    + exfalso. cbn in B. repeat (destruct B as [B|B]; [discriminate B|]). destruct B.
    + cbn [w_call W0 call0] in M. repeat match type of M with
        | POk _ = POk _ => injection M as <-; reflexivity
        | PExc _ = POk _ => discriminate M
        | match ?x with _ => _ end = _ => destruct x end.
  - intros c v r R B E. apply reach69 in R. cbn in R. exfalso.
    repeat (destruct R as [R|R]; [try discriminate R; injection R as <-; cbn in B; repeat (destruct B as [B|B]; [discriminate B|]); destruct B|]). destruct R.
  - intros t v r R Ht. apply reach69 in R. cbn in R. exfalso. destruct Ht as [-> |[n [a ->]]]; repeat (destruct R as [R|R]; [discriminate R|]); destruct R.
Qed.
Example C69_ex :
  reloadable W0 default_basic default_strcons C0 env69 T69 /\
  used W0 C0 S69 /\ steady W0 default_basic C0 env69 S69 v69 T69 /\ well_formed W0 default_basic default_strcons C0 env69 v69 T69 /\
  used W0 C0 S69' /\ steady W0 default_basic C0 env69 S69' r69 T69 /\ well_formed W0 default_basic default_strcons C0 env69 r69 T69 /\
  nothing_to_try W0 default_basic C0 env69 r69 T69 /\
  loads W0 C0 S69 v69 T69 (Ok r69) /\ loads W0 C0 S69' r69 T69 (Ok r69).
Proof.
  assert (Iv : forall x, inside v69 x -> In x (all_inside 9 [v69])) by (intro x; apply inside_closed; vm_compute; reflexivity).
  assert (Ir : forall x, inside r69 x -> In x (all_inside 9 [r69])) by (intro x; apply inside_closed; vm_compute; reflexivity).
  split; [exact reload69|].
  split; [unfold S69; constructor; exact S2_used|]. split; [apply (steady_by W0 C0 env69 S69 L69); vm_compute; reflexivity|].
  split.
  { apply wf69. intros x I. left. apply Iv in I. revert x I. apply forallb_forall. vm_compute. reflexivity. }
  split; [unfold S69', S69; repeat constructor|]. split; [apply (steady_by W0 C0 env69 S69' L69); vm_compute; reflexivity|].
  split.
  { apply wf69. intros x I. apply Ir in I.
    assert (F : forallb (fun y => data_okb y || if value_eq_dec y (VEnum (CUser "Hue") "COLD" (VStr "c")) then true else false) (all_inside 9 [r69]) = true) by (vm_compute; reflexivity).
    rewrite forallb_forall in F. specialize (F x I). apply orb_true_iff in F as [F|F]; [left; exact F|right].
    destruct (value_eq_dec x (VEnum (CUser "Hue") "COLD" (VStr "c"))); [assumption|discriminate]. }
  split.
  { split; [|split].
    - intros n args R. apply reach69 in R. cbn in R. repeat (destruct R as [R|R]; [discriminate R|]). destruct R.
    - intros c ms R E. apply reach69 in R. cbn in R. repeat (destruct R as [R|R]; [try discriminate R; injection R as <-; (discriminate E || reflexivity)|]). destruct R.
    - intros n kt vt c x R I B E J. apply reach69 in R. cbn in R. repeat (destruct R as [R|R]; [try discriminate R; injection R as <- <- <-|]); [|destruct R].
      destruct E as [[= ->]|E]; [|discriminate E]. apply Ir in I.
      assert (Ty : forallb (fun x => implb (isinstance W0 x CStr) (cid_eqb (type_of x) CStr)) (all_inside 9 [r69]) = true) by (vm_compute; reflexivity).
      rewrite forallb_forall in Ty. specialize (Ty x I). rewrite J in Ty. apply cid_eqb_eq. exact Ty. }
  split; (split; [discriminate|exists 50; vm_compute; reflexivity]).
Qed.

(** ** The conditions are needed: objects and dates cannot be loaded again *)
Example C69_refuted_object : let r := VObj (CUser "Point") [("x", VInt 1); ("y", VInt 0)] in
  loads W0 C0 S2 (dict [("x", VInt 1)]) (CLS "Point") (Ok r) /\ rejects W0 C0 S2 r (CLS "Point").
Proof. cbv zeta. split; [loads_now|rejects_now]. Qed.
Example C69_refuted_date : let r := VInst CDate (VTuple [VInt 2020; VInt 1; VInt 2]) in
  loads W0 C0 S2 (VStr "2020-01-02") (TClass CDate) (Ok r) /\ rejects W0 C0 S2 r (TClass CDate).
Proof. cbv zeta. split; [loads_now|rejects_now]. Qed.
