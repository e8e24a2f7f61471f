(** * Properties, fourteenth part: changing the settings (C53)

    [adjusted cfg cfg']: the settings differ in basiccast, failonextra,
    dictequivalence or uniondebugconflict only; [dadjusted] in hidedefault,
    isodates or mangle_key only.  In all the theorems on loaders and dumpers
    with a history, [used], [later] and [dhistory] include such changes between
    the calls. *)

From Verif Require Import Loader Dumper Spec Vocab Inv Std Obs Hist Reuse Transparent Simple Examples Ground Dumps Facts5
  Properties1 Properties2 Properties5.

(** C53 The settings can be changed at any time: the loader then behaves as a
    new one with the new settings.  [s] is the state of a Loader whose settings
    are now [cfg], after loads with any other values of them *)
Theorem C53_load : forall w basic strcons cfg0 cfg,
  is_std w basic strcons cfg -> wf_reflect w -> adjusted cfg0 cfg ->
  forall fr st st' s v t,
  later w cfg0 (fresh (Some fr) st) s ->
  let env := fun n => str_get n fr in
  (forall n, reach w (pep563 cfg) env t (TForward n) -> env n <> None) ->
  (* see C20_refuted_dict, C20_refuted_tag *)
  (forall n kt vt, reach w (pep563 cfg) env t (TGen n ODict (Some [kt; vt])) -> det_dict w basic (inside v) kt vt) ->
  (forall n args, reach w (pep563 cfg) env t (TGen n OUnion (Some args)) -> plain_tags w args) ->
  forall r, loads w cfg s v t r <-> loads w cfg (fresh (Some fr) st') v t r.
Proof.
  intros w basic strcons cfg0 cfg St Wr A fr st st' s v t L env.
  assert (L' : later w cfg (fresh (Some fr) st) s).
  { clear -L A. induction L as [|cfg' n v t s' L IH B]; [constructor|]. apply later_load; [exact IH|].
    destruct A as [A1 [A2 [A3 [A4 A5]]]], B as [B1 [B2 [B3 [B4 B5]]]]. repeat split; congruence. }
  apply (C20_as_fresh w basic strcons cfg St Wr fr st st' s v t L').
Qed.
Print Assumptions C53_load.

Theorem C53_dump : forall w basic strcons cfg0 cfg, is_dstd w basic strcons cfg -> dadjusted cfg0 cfg ->
  forall s v t r, dhistory w cfg0 s -> python_value w v ->
  (dumps_as w cfg s v t r <-> dumps_as w cfg dfresh v t r).
Proof.
  intros w basic strcons cfg0 cfg St A s v t r H P. eapply C29_reuse; [exact St| |constructor|exact P].
  eapply dhistory_set; eassumption.
Qed.
Print Assumptions C53_dump.

(** loads with and without basiccast and failonextra, in turn *)
Definition C53a : config :=
  mkConfig (basictypes C0) false true (raiseconditionerrors C0) true (mangle_key C0) true (pep563 C0) (handlers C0).
Definition S53 : lstate :=
  snd (load W0 C0 50 (dict [("a", VInt 1)]) (CLS "Point") (snd (load W0 C53a 50 (VStr "1") TInt S2))).
Example C53_ex : let t := CLS "Point" in let v := dict [("x", VStr "1")] in
  let v2 := dict [("x", VInt 1); ("q", VInt 1)] in
  adjusted C0 C53a /\ later W0 C0 (fresh (Some []) []) S53 /\
  (forall n, ~ reach W0 (pep563 C53a) (fun n => str_get n []) t (TForward n)) /\
  (forall n o args, ~ reach W0 (pep563 C53a) (fun n => str_get n []) t (TGen n o args)) /\
  accepts W0 C0 S53 v t /\ rejects W0 C53a S53 v t /\ accepts W0 C0 S53 v2 t /\ rejects W0 C53a S53 v2 t.
Proof.
  intros t v v2. split; [repeat split|]. split.
  { unfold S53. apply later_load; [|apply adjusted_refl]. apply later_load; [unfold S2; repeat constructor|repeat split]. }
  assert (R : forall x, reach W0 (pep563 C53a) (fun n => str_get n []) t x -> In x [t; TInt]).
  { intro x. apply (reach_closed W0 C53a (fun n => str_get n []) [t; TInt]); vm_compute; reflexivity. }
  split; [intros n H; apply R in H; cbn in H; repeat (destruct H as [H|H]; try discriminate); contradiction|].
  split; [intros n o args H; apply R in H; cbn in H; repeat (destruct H as [H|H]; try discriminate); contradiction|].
  repeat split; eexists; (split; [discriminate|]); exists 50; vm_compute; reflexivity.
Qed.
Example C53_ex_dump : dadjusted D0 D1 /\ dhistory W0 D0 SD1 /\ python_value W0 VR /\
  dumps W0 D0 SD1 VR (Ok (dict [("external", VInt 1)])) /\
  dumps W0 D1 SD1 VR (Ok (dict [("other", VStr ""); ("external", VInt 1)])).
Proof.
  split; [repeat split|]. split; [exact SD1_used|]. split; [within_now 6; cbn; repeat split; try discriminate; left; discriminate|].
  split; (split; [discriminate|exists 9; vm_compute; reflexivity]).
Qed.

(** mangle_key, pep563, the handlers and the basic types are not among them:
    a Loader which has loaded a dataclass keeps the names it found then, and a
    type keeps its handler *)
Definition C53m : config :=
  mkConfig (basictypes C0) (basiccast C0) (failonextra C0) (raiseconditionerrors C0) (dictequivalence C0) "other key"
           (uniondebugconflict C0) (pep563 C0) (handlers C0).
Definition C53h : config :=
  mkConfig (basictypes C0) (basiccast C0) (failonextra C0) (raiseconditionerrors C0) (dictequivalence C0) (mangle_key C0)
           (uniondebugconflict C0) (pep563 C0)
           ((fun t => POk (ty_eqb t TInt), HCustom (fun _ _ => HPRet (VStr "mine"))) :: handlers C0).
Theorem C53_refuted :
  (let s := snd (load W0 C0 50 (dict [("external", VInt 1)]) (CLS "Ren") S0) in
   let v := dict [("field", VInt 1)] in
   used W0 C0 s /\ accepts W0 C53m S0 v (CLS "Ren") /\ rejects W0 C53m s v (CLS "Ren")) /\
  (let s := snd (load W0 C0 50 (VInt 1) TInt S0) in
   used W0 C0 s /\ loads W0 C53h S0 (VInt 1) TInt (Ok (VStr "mine")) /\ loads W0 C53h s (VInt 1) TInt (Ok (VInt 1))).
Proof.
  split; (split; [repeat constructor|]); (split; [|]);
    try (split; [discriminate|exists 50; vm_compute; reflexivity]);
    eexists; (split; [discriminate|]); exists 50; vm_compute; reflexivity.
Qed.
Print Assumptions C53_refuted.
