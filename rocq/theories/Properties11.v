(** * Properties, eleventh part: additional handlers (C49) *)

From Verif Require Import Loader Dumper Spec Vocab Inv Std Obs Hist Reuse Transparent Examples Ground Index
  Properties1 Properties2 Local.

(** C49 Custom handlers are local: where both select the same handler for
    every type met while loading t, a loader with other handlers behaves as one
    with the default handlers -- the same outcome, and the same effect on the
    loader *)
Theorem C49_local : forall w basic strcons cfg1 cfg2,
  is_std w basic strcons cfg2 -> same_settings cfg1 cfg2 -> wf_reflect w ->
  forall env s v t, used w cfg1 s ->
  (forall t', reach w (pep563 cfg2) env t t' -> find_handler cfg1 t' = find_handler cfg2 t') ->
  (* the names which t refers to: what the loader knows is what they mean *)
  (forall n t', reach w (pep563 cfg2) env t (TForward n) -> knows s n t' -> env n = Some t') ->
  (forall n t', reach w (pep563 cfg2) env t (TForward n) -> reach w (pep563 cfg2) env t t' ->
     w_name w t' = Some n -> env n = Some t') ->
  (* line 396: the handler of the values of a Dict may be run on the type of
     its keys, which looks at the annotations of that class *)
  (forall n o c vt t', reach w (pep563 cfg2) env t (TGen n o (Some [TClass c; vt])) -> annotated w c t' ->
     reach w (pep563 cfg2) env t t') ->
  (forall r, loads w cfg1 s v t r <-> loads w cfg2 s v t r) /\
  (forall r s', ends w cfg1 s v t r s' <-> ends w cfg2 s v t r s').
Proof.
  intros w basic strcons cfg1 cfg2 Hs Sm Hw env s v t U Ag Kn Nm Mi.
  pose proof (c49 w basic strcons cfg1 cfg2 Hs Sm Hw env s v t U Ag Kn Nm Mi) as E. split.
  - apply c49_loads. exact E.
  - intros r s'. unfold ends. split; intros [N [n X]]; (split; [exact N|]); exists n; rewrite <- X; auto.
Qed.
Print Assumptions C49_local.

(** in particular: handlers inserted at any place, whose conditions hold for
    none of the types met while loading t *)
Theorem C49_inserted : forall w basic strcons cfg1 cfg2 l1 extra l2,
  is_std w basic strcons cfg2 -> same_settings cfg1 cfg2 -> wf_reflect w ->
  handlers cfg2 = l1 ++ l2 -> handlers cfg1 = l1 ++ extra ++ l2 ->
  raiseconditionerrors cfg1 = raiseconditionerrors cfg2 ->
  forall env s v t, used w cfg1 s ->
  (forall t' c h, reach w (pep563 cfg2) env t t' -> In (c, h) extra -> c t' = POk false) ->
  (forall n t', reach w (pep563 cfg2) env t (TForward n) -> knows s n t' -> env n = Some t') ->
  (forall n t', reach w (pep563 cfg2) env t (TForward n) -> reach w (pep563 cfg2) env t t' ->
     w_name w t' = Some n -> env n = Some t') ->
  (forall n o c vt t', reach w (pep563 cfg2) env t (TGen n o (Some [TClass c; vt])) -> annotated w c t' ->
     reach w (pep563 cfg2) env t t') ->
  forall r, loads w cfg1 s v t r <-> loads w cfg2 s v t r.
Proof.
  intros w basic strcons cfg1 cfg2 l1 extra l2 Hs Sm Hw H2 H1 RC env s v t U Ex Kn Nm Mi.
  apply (C49_local w basic strcons cfg1 cfg2 Hs Sm Hw env s v t U); try assumption.
  intros t' R. rewrite <- !pick_find, H1, H2, RC. apply pick_extra. intros c h I. eapply Ex; eassumption.
Qed.
Print Assumptions C49_inserted.

(** C33 with the default handlers the setting has no effect *)
Theorem C33_default : forall w basic strcons cfg1 cfg2,
  is_std w basic strcons cfg1 -> is_std w basic strcons cfg2 -> same_settings cfg1 cfg2 -> wf_reflect w ->
  forall env s v t, used w cfg1 s ->
  (forall n t', reach w (pep563 cfg2) env t (TForward n) -> knows s n t' -> env n = Some t') ->
  (forall n t', reach w (pep563 cfg2) env t (TForward n) -> reach w (pep563 cfg2) env t t' ->
     w_name w t' = Some n -> env n = Some t') ->
  (forall n o c vt t', reach w (pep563 cfg2) env t (TGen n o (Some [TClass c; vt])) -> annotated w c t' ->
     reach w (pep563 cfg2) env t t') ->
  forall r, loads w cfg1 s v t r <-> loads w cfg2 s v t r.
Proof.
  intros w basic strcons cfg1 cfg2 H1 Hs Sm Hw env s v t U Kn Nm Mi.
  apply (C49_local w basic strcons cfg1 cfg2 Hs Sm Hw env s v t U); try assumption.
  intros t' R. rewrite (find_std w basic strcons cfg1 t' H1), (find_std w basic strcons cfg2 t' Hs). reflexivity.
Qed.
Print Assumptions C33_default.

(** a handler for int, and a type without int: a recursive class, in a loader
    which has loaded int before *)
Definition C49a : config := with_handlers C0 ((fun t => POk (ty_eqb t TBool), HCustom (fun _ _ => HPRet (VStr "mine"))) :: handlers C0).
Definition S49 : lstate := snd (load W0 C49a 50 (VInt 1) TBool S0).
Definition env49 (n : string) : option ty := if String.eqb n "Node" then Some (CLS "Node") else None.
Example C49_ex : let t := CLS "Node" in
  is_std W0 default_basic default_strcons C0 /\ same_settings C49a C0 /\ used W0 C49a S49 /\
  loads W0 C49a S49 (VInt 1) TBool (Ok (VStr "mine")) /\
  (forall t' c h, reach W0 (pep563 C0) env49 t t' -> In (c, h) [(fun t => POk (ty_eqb t TBool), HCustom (fun _ _ => HPRet (VStr "mine")))] -> c t' = POk false) /\
  (forall n t', reach W0 (pep563 C0) env49 t (TForward n) -> knows S49 n t' -> env49 n = Some t') /\
  (forall n t', reach W0 (pep563 C0) env49 t (TForward n) -> reach W0 (pep563 C0) env49 t t' ->
     w_name W0 t' = Some n -> env49 n = Some t') /\
  (forall n o c vt, ~ reach W0 (pep563 C0) env49 t (TGen n o (Some [TClass c; vt]))) /\
  (exists r, loads W0 C49a S49 NODE2 t (Ok r)).
Proof.
  intro t.
  set (L := [CLS "Node"; TInt; OPT (TForward "Node"); TForward "Node"; TNone]).
  assert (R : forall x, reach W0 (pep563 C0) env49 t x -> In x L).
  { intro x. apply (reach_closed W0 C0 env49 L); vm_compute; reflexivity. }
  split; [split; reflexivity|]. split; [repeat split|]. split; [unfold S49; repeat constructor|].
  split; [split; [discriminate|]; exists 2; reflexivity|]. split; [|split; [|split; [|split]]].
  - intros t' c h H [I|[]]. injection I as <- <-. apply R in H. cbn in H.
    destruct H as [H|[H|[H|[H|[H|[]]]]]]; subst t'; reflexivity.
  - intros n t' H [fr [F S]]. apply R in H. cbn in H. destruct H as [H|[H|[H|[H|[H|[]]]]]]; try discriminate H.
    injection H as <-. vm_compute in F. injection F as <-. vm_compute in S. discriminate S.
  - intros n t' H H' N. apply R in H. apply R in H'. cbn in H, H'.
    destruct H as [H|[H|[H|[H|[H|[]]]]]]; try discriminate H. injection H as <-.
    destruct H' as [H|[H|[H|[H|[H|[]]]]]]; subst t'; try discriminate N. reflexivity.
  - intros n o c vt H. apply R in H. cbn in H. destruct H as [H|[H|[H|[H|[H|[]]]]]]; discriminate H.
  - eexists. split; [discriminate|]. exists 50. vm_compute. reflexivity.
Qed.
