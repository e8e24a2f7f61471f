(** * Properties, twenty-eighth part: the order of the keys (C68)

    [reordered v v'] (KeyOrder.v): [v'] is [v] with the items of its dictionaries
    (and the attributes of its Namespaces), at any depth, in a different order.
    [order_blind w … v t]: loading [v] into [t], nothing looks at the order: no
    dictionary is passed to a constructor such as str, and different keys of a
    dictionary are read as different keys. *)

From Verif Require Import Loader Dumper Spec Vocab Inv Std Obs Hist Reuse Transparent Examples Ground
  Properties1 Properties2 Properties3 RefSound RefComplete RefUse Properties9 Properties17 Evolve Properties24 KeyOrder.
From Coq Require Import Permutation.

(** C68 The order of the keys in the data does not matter: the results are equal,
    and differ at most in the order of the keys of their dictionaries *)
Theorem C68_key_order : forall w basic strcons cfg,
  is_std w basic strcons cfg -> wf_reflect w -> uniondebugconflict cfg = false ->
  forall env s s' v v' t,
  reordered v v' -> order_blind w basic strcons cfg env v t ->
  used w cfg s -> steady w basic cfg env s v t -> well_formed w basic strcons cfg env v t ->
  used w cfg s' -> steady w basic cfg env s' v' t -> well_formed w basic strcons cfg env v' t ->
  no_choice w basic strcons cfg env v' t -> trials_end w basic cfg env s' v' t ->
  forall r, loads w cfg s v t (Ok r) ->
  exists r', loads w cfg s' v' t (Ok r') /\ reordered r r' /\ (py_eqb r r = true -> py_eqb r r' = true).
Proof.
  intros w basic strcons cfg Hs Wr Ud env s s' v v' t R Ob U St Wl U' St' Wl' Nc Te r L.
  destruct (proj1 (gives_ro w basic strcons cfg env v t Ob (wl_names _ _ _ _ _ _ _ Wl) (fun x I => proj1 (wl_data _ _ _ _ _ _ _ Wl x I))) v t r) with (v' := v')
    as [r' [G Rr]].
  - exact (C43_steady w basic strcons cfg Hs Wr env s v t r U St Wl L).
  - exact R.
  - constructor.
  - apply rt1n_refl.
  - apply rt1n_refl.
  - exists r'. split; [|split; [exact Rr|]].
    + apply (C44_exact w basic strcons cfg Hs Wr Ud env s' v' t U' St' Wl' Nc Te). exact G.
    + rewrite <- (eq_ro r r r r' (ro_same r) Rr). auto.
Qed.
Print Assumptions C68_key_order.

(** so both are accepted, or none *)
Theorem C68_accepted : forall w basic strcons cfg,
  is_std w basic strcons cfg -> wf_reflect w -> uniondebugconflict cfg = false ->
  forall env s s' v v' t,
  reordered v v' -> order_blind w basic strcons cfg env v t -> order_blind w basic strcons cfg env v' t ->
  used w cfg s -> steady w basic cfg env s v t -> well_formed w basic strcons cfg env v t ->
  no_choice w basic strcons cfg env v t -> trials_end w basic cfg env s v t ->
  used w cfg s' -> steady w basic cfg env s' v' t -> well_formed w basic strcons cfg env v' t ->
  no_choice w basic strcons cfg env v' t -> trials_end w basic cfg env s' v' t ->
  (accepts w cfg s v t <-> accepts w cfg s' v' t).
Proof.
  intros w basic strcons cfg Hs Wr Ud env s s' v v' t R Ob Ob' U St Wl Nc Te U' St' Wl' Nc' Te'. split; intros [r L].
  - destruct (C68_key_order w basic strcons cfg Hs Wr Ud env s s' v v' t R Ob U St Wl U' St' Wl' Nc' Te' r L) as [r' [L' _]]. exists r'. exact L'.
  - destruct (C68_key_order w basic strcons cfg Hs Wr Ud env s' s v' v t (ro_sym _ _ R) Ob' U' St' Wl' U St Wl Nc Te r L) as [r' [L' _]]. exists r'. exact L'.
Qed.
Print Assumptions C68_accepted.

(** in particular: the keys in the data are strings, the keys of the Dict types
    are [str], nothing is cast, and there are neither unions nor annotated Enums *)
Theorem C68_json : forall w basic strcons cfg,
  is_std w basic strcons cfg -> wf_reflect w -> uniondebugconflict cfg = false -> In CStr basic -> basiccast cfg = false ->
  forall env s s' v v' t,
  reordered v v' -> string_keys v -> classes_flat w strcons (pep563 cfg) env v t -> code_blind w (pep563 cfg) env t ->
  (forall n kt vt x, meets w cfg env v t x (TGen n ODict (Some [kt; vt])) -> kt = TClass CStr) ->
  used w cfg s -> steady w basic cfg env s v t -> well_formed w basic strcons cfg env v t ->
  used w cfg s' -> steady w basic cfg env s' v' t -> well_formed w basic strcons cfg env v' t ->
  nothing_to_try w basic cfg env v' t ->
  forall r, loads w cfg s v t (Ok r) ->
  exists r', loads w cfg s' v' t (Ok r') /\ reordered r r' /\ (py_eqb r r = true -> py_eqb r r' = true).
Proof.
  intros w basic strcons cfg Hs Wr Ud Bs Bc env s s' v v' t R Sk Cf Cb Kt U St Wl U' St' Wl' [Nu [Ne Nd]].
  apply (C68_key_order w basic strcons cfg Hs Wr Ud env s s' v v' t R); try assumption.
  - apply blind_json; try assumption. intros x I. exact (proj1 (wl_data _ _ _ _ _ _ _ Wl x I)).
  - constructor.
    + intros n args x t1 t2 r1 r2 Rc. destruct (Nu n args Rc).
    + intros c ms hints x t1 t2 y1 y2 r1 r2 Rc _ E _ H I1. rewrite (Ne c ms Rc E) in H. injection H as <-. destruct I1.
    + exact Nd.
  - constructor.
    + intros n args x Rc. destruct (Nu n args Rc).
    + intros c ms hints x t' Rc _ E _ H I1. rewrite (Ne c ms Rc E) in H. injection H as <-. destruct I1.
Qed.
Print Assumptions C68_json.

(** ** A dictionary of objects, in two orders, on loaders with different histories *)
Definition v68 : value := dict [("a", dict [("x", VInt 1); ("y", VInt 2)]); ("b", dict [("y", VInt 5); ("x", VInt 3)])].
Definition w68 : value := dict [("b", dict [("x", VInt 3); ("y", VInt 5)]); ("a", dict [("x", VInt 1); ("y", VInt 2)])].
Definition T68 : ty := DICT TStr (CLS "Point").
Definition L68 : list ty := [T68; TStr; CLS "Point"; TInt].
Definition C68 : config := Examples.strict C0.
Definition S68 : lstate := snd (load W0 C68 50 w68 T68 (fresh (Some []) [])).
Definition S68' : lstate := snd (load W0 C68 50 (VList []) (LIST T68) S68).
Lemma re68 : reordered v68 w68.
Proof.
  eapply ro_dict; [apply perm_swap|]. repeat (apply Forall2_cons; [split; [reflexivity|]|]); [|apply ro_same|apply Forall2_nil].
  eapply ro_dict; [apply perm_swap|]. repeat (apply Forall2_cons; [split; [reflexivity|apply ro_same]|]). apply Forall2_nil.
Qed.
Lemma in68 v x : v = v68 \/ v = w68 -> inside v x -> In x (all_inside 9 [v68]) \/ In x (all_inside 9 [w68]).
Proof. intros [-> | ->] I; [left|right]; revert I; apply inside_closed; vm_compute; reflexivity. Qed.
Lemma reach68 t : reach W0 (pep563 C68) env63 T68 t -> In t L68.
Proof. apply reach_closed; vm_compute; reflexivity. Qed.
Lemma wf68 v : v = v68 \/ v = w68 -> well_formed W0 default_basic default_strcons C68 env63 v T68.
Proof.
  intro V. constructor.
  - intros c R _. apply reach68 in R. cbn in R. destruct R as [R|[R|[R|[R|[]]]]]; try discriminate R; injection R as <-;
      split; cbn; repeat constructor; cbn; intuition discriminate.
  - intros x I. apply data_okb_spec. assert (F : forallb data_okb (all_inside 9 [v68]) = true) by (vm_compute; reflexivity).
    assert (F' : forallb data_okb (all_inside 9 [w68]) = true) by (vm_compute; reflexivity).
    rewrite forallb_forall in F, F'. destruct (in68 v x V I) as [J|J]; [exact (F x J)|exact (F' x J)].
  - apply (W0_never C68 _ L68); vm_compute; reflexivity.
Qed.
Example C68_ex :
  reordered v68 w68 /\ is_std W0 default_basic default_strcons C68 /\ wf_reflect W0 /\ uniondebugconflict C68 = false /\ In CStr default_basic /\ basiccast C68 = false /\
  string_keys v68 /\ classes_flat W0 default_strcons (pep563 C68) env63 v68 T68 /\ code_blind W0 (pep563 C68) env63 T68 /\
  (forall n kt vt x, meets W0 C68 env63 v68 T68 x (TGen n ODict (Some [kt; vt])) -> kt = TClass CStr) /\
  used W0 C68 S68 /\ steady W0 default_basic C68 env63 S68 v68 T68 /\ well_formed W0 default_basic default_strcons C68 env63 v68 T68 /\
  used W0 C68 S68' /\ steady W0 default_basic C68 env63 S68' w68 T68 /\ well_formed W0 default_basic default_strcons C68 env63 w68 T68 /\
  nothing_to_try W0 default_basic C68 env63 w68 T68 /\
  (* so C68_key_order applies as well *)
  order_blind W0 default_basic default_strcons C68 env63 v68 T68 /\
  loads W0 C68 S68 v68 T68 (Ok (dict [("a", VObj (CUser "Point") [("x", VInt 1); ("y", VInt 2)]); ("b", VObj (CUser "Point") [("x", VInt 3); ("y", VInt 5)])])) /\
  loads W0 C68 S68' w68 T68 (Ok (dict [("b", VObj (CUser "Point") [("x", VInt 3); ("y", VInt 5)]); ("a", VObj (CUser "Point") [("x", VInt 1); ("y", VInt 2)])])).
Proof.
  assert (Sk : string_keys v68).
  { intros x d k y I -> J. destruct (in68 v68 _ (or_introl eq_refl) I) as [H|H]; vm_compute in H;
      repeat (destruct H as [H|H]; [try discriminate H; injection H as <-; cbn in J; repeat (destruct J as [[= <- _]|J]; [eauto|]); destruct J|]); destruct H. }
  assert (Cf : classes_flat W0 default_strcons (pep563 C68) env63 v68 T68).
  { constructor.
    - intros c x r R B _ E. apply reach68 in R. cbn in R. destruct R as [R|[R|[R|[R|[]]]]]; try discriminate R; injection R as <-;
        cbn in B; exfalso; repeat (destruct B as [B|B]; [discriminate B|]); destruct B.
    - intros c x l r R B. apply reach68 in R. cbn in R. destruct R as [R|[R|[R|[R|[]]]]]; try discriminate R; injection R as <-;
        cbn in B; exfalso; repeat (destruct B as [B|B]; [discriminate B|]); destruct B.
    - intros x r R. apply reach68 in R. cbn in R. destruct R as [R|[R|[R|[R|[]]]]]; discriminate R.
    - intros x t r R Ht. apply reach68 in R. cbn in R. destruct Ht as [-> |[n [a ->]]]; destruct R as [R|[R|[R|[R|[]]]]]; discriminate R. }
  assert (Cb : code_blind W0 (pep563 C68) env63 T68).
  { split.
    - intros c fs f g a a' R E I D. apply reach68 in R. cbn in R. destruct R as [R|[R|[R|[R|[]]]]]; try discriminate R; injection R as <-;
        vm_compute in E; destruct E as [E|E]; try discriminate E; injection E as <-; cbn in I; repeat (destruct I as [<-|I]; [discriminate D|]); destruct I.
    - intros c fs fs1 r _ F E. rewrite W0_post in *. injection E as <-. exists fs1. auto. }
  assert (Kt : forall n kt vt x, meets W0 C68 env63 v68 T68 x (TGen n ODict (Some [kt; vt])) -> kt = TClass CStr).
  { intros n kt vt x M. apply meets_ty in M. apply reach68 in M. cbn in M. destruct M as [M|[M|[M|[M|[]]]]]; try discriminate M. injection M as <- <- <-. reflexivity. }
  split; [exact re68|]. split; [split; reflexivity|]. split; [exact wr0|]. split; [reflexivity|]. split; [cbn; auto 10|]. split; [reflexivity|].
  split; [exact Sk|]. split; [exact Cf|]. split; [exact Cb|]. split; [exact Kt|].
  split; [unfold S68; repeat constructor|]. split; [apply (steady_by W0 C68 env63 S68 L68); vm_compute; reflexivity|]. split; [apply wf68; auto|].
  split; [unfold S68', S68; repeat constructor|]. split; [apply (steady_by W0 C68 env63 S68' L68); vm_compute; reflexivity|]. split; [apply wf68; auto|].
  split.
  { split; [|split].
    - intros n args R. apply reach68 in R. cbn in R. destruct R as [R|[R|[R|[R|[]]]]]; discriminate R.
    - intros c ms R E. apply reach68 in R. cbn in R. destruct R as [R|[R|[R|[R|[]]]]]; try discriminate R; injection R as <-; discriminate E.
    - intros n kt vt c x R I B E J. apply reach68 in R. cbn in R. destruct R as [R|[R|[R|[R|[]]]]]; try discriminate R. injection R as <- <- <-.
      destruct E as [[= ->]|[= ->]].
      + assert (Ty : forallb (fun x => implb (isinstance W0 x CStr) (cid_eqb (type_of x) CStr)) (all_inside 9 [v68] ++ all_inside 9 [w68]) = true) by (vm_compute; reflexivity).
        rewrite forallb_forall in Ty. specialize (Ty x). rewrite J in Ty. apply cid_eqb_eq. apply Ty. apply in_or_app. exact (in68 w68 x (or_intror eq_refl) I).
      + cbn in B. repeat (destruct B as [B|B]; [discriminate B|]). destruct B. }
  split; [apply blind_json; try assumption; try reflexivity; [cbn; auto 10|]; intros x I; exact (proj1 (wl_data _ _ _ _ _ _ _ (wf68 v68 (or_introl eq_refl)) x I))|].
  split; (split; [discriminate|exists 50; vm_compute; reflexivity]).
Qed.

(** ** The conditions are needed *)

(** equal keys: of ["1"] and [1], read as int, the last one counts *)
Example C68_refuted_keys : let d := [(VStr "1", VInt 5); (VInt 1, VInt 6)] in let t := DICT TInt TInt in
  reordered (VDict d) (VDict (rev d)) /\
  loads W0 C0 S2 (VDict d) t (Ok (VDict [(VInt 1, VInt 6)])) /\ loads W0 C0 S2 (VDict (rev d)) t (Ok (VDict [(VInt 1, VInt 5)])).
Proof.
  cbv zeta. split; [eapply ro_dict; [apply Permutation_rev|]; apply rekeys_refl|].
  split; (split; [discriminate|exists 50; vm_compute; reflexivity]).
Qed.
(** casts: str(d) shows the order *)
Definition W68 : world :=
  mkWorld (w_class W0) (fun t v => match t, v with TClass CStr, VDict ((VStr k, _) :: _) => POk (VStr ("{'" ++ k ++ "': ...")) | _, _ => w_call W0 t v end)
    (w_fromiso W0) (w_callargs W0) (w_timedelta W0) (w_compile W0) (w_name W0) (w_pick W0) (w_setorder W0) (w_str W0) (w_iso W0) (w_seconds W0).
Example C68_refuted_cast : reordered v68 w68 /\
  loads W68 C0 S2 v68 TStr (Ok (VStr "{'a': ...")) /\ loads W68 C0 S2 w68 TStr (Ok (VStr "{'b': ...")).
Proof. split; [exact re68|]. split; (split; [discriminate|exists 50; vm_compute; reflexivity]). Qed.
