(** * Properties, thirty-third part: custom handlers which call the Loader (C73)

    [performs w cfg s p r s'] (Callback.v): running the program [p] of a custom handler, when
    the loader is in the state [s], gives [r] and leaves the loader in the state [s']: each
    load(v, t, annotation=a) which it asks for does what load(v, t) does.
    [noted a r]: the outcome [r], the first item of the trace of an exception carries the
    annotation [a].
    [handler_outcome v t r]: what load(v, t) makes of the outcome of the handler.
    [after_lookup w t h s]: the loader, once it has selected the handler [h] for [t]. *)

From Verif Require Import Loader Dumper Spec Vocab Inv Std Obs Hist Reuse Examples Ground Dumps DumpAny Callback
  Properties1 Properties2 Properties5 Properties13.

(** C73 load(v, t) is what the custom handler of t makes of v and t; the loads it asks for are
    loads of the same loader, one after the other *)
Theorem C73_callback : forall w cfg s v t f, used w cfg s -> find_handler cfg t = POk (HCustom f) ->
  forall r s', ends w cfg s v t r s' <->
    exists r0, performs w cfg (after_lookup w t (HCustom f) s) (f v t) r0 s' /\ r = handler_outcome v t r0.
Proof. exact custom_ends. Qed.
Print Assumptions C73_callback.

(** in particular a handler which asks for another load, and changes the result: exceptions
    have both positions, and the annotation *)
Theorem C73_delegate : forall w cfg s v t f v1 t1 a g, used w cfg s -> find_handler cfg t = POk (HCustom f) ->
  f v t = HPLoad v1 t1 a (fun o => match o with inl x => HPRet (g x) | inr e => HPRaise e end) ->
  let s1 := after_lookup w t (HCustom f) s in
  (forall y, loads w cfg s v t (Ok y) <-> exists x, loads w cfg s1 v1 t1 (Ok x) /\ y = g x) /\
  (forall k m tr ve te subs, loads w cfg s v t (Exc (XTL k m tr ve te subs)) <->
     (exists tr1 a1 v2 t2, loads w cfg s1 v1 t1 (Exc (XTL k m ((v2, t2, a1) :: tr1) ve te subs)) /\ tr = (v, t, None) :: (v2, t2, a) :: tr1) \/
     (* t1 is not supported *)
     (loads w cfg s1 v1 t1 (Exc (XTL k m [] ve te subs)) /\ tr = [(v, t, None)])).
Proof.
  intros w cfg s v t f v1 t1 a g U F E s1.
  assert (LE : forall s v t r, loads w cfg s v t r <-> exists s', ends w cfg s v t r s').
  { intros s0 v0 t0 r. unfold loads, ends. split.
    - intros [NO [n L]]. exists (snd (load w cfg n v0 t0 s0)). split; [exact NO|]. exists n. rewrite <- L. apply surjective_pairing.
    - intros [s' [NO [n L]]]. split; [exact NO|]. exists n. rewrite L. reflexivity. }
  assert (PR : forall r s', performs w cfg s1 (f v t) r s' <->
    (exists x, ends w cfg s1 v1 t1 (Ok x) s' /\ r = Ok (g x)) \/ (exists r0 e, ends w cfg s1 v1 t1 r0 s' /\ noted a r0 = Exc e /\ r = Exc e)).
  { intros r s'. rewrite E. split.
    - intro P. inversion P as [| |s0 v0 t0 a0 k0 x s2 r1 s3 En Pk|s0 v0 t0 a0 k0 r0 e s2 r1 s3 En Nt Pk]; subst.
      + left. exists x. inversion Pk; subst. auto.
      + right. exists r0, e. inversion Pk; subst. auto.
    - intros [[x [En ->]]|[r0 [e [En [Nt ->]]]]]; [eapply performs_loaded; [exact En|constructor]|eapply performs_failed; [exact En|exact Nt|constructor]]. }
  split.
  - intro y. rewrite LE. split.
    + intros [s' H]. apply (C73_callback w cfg s v t f U F) in H as [r0 [P Q]]. apply PR in P as [[x [En ->]]|[r1 [e [En [Nt ->]]]]].
      * injection Q as ->. exists x. split; [apply LE; eauto|reflexivity].
      * destruct e; discriminate Q.
    + intros [x [L ->]]. apply LE in L as [s' En]. exists s'. apply (C73_callback w cfg s v t f U F). exists (Ok (g x)).
      split; [apply PR; left; eauto|reflexivity].
  - intros k m tr ve te subs. rewrite LE. split.
    + intros [s' H]. apply (C73_callback w cfg s v t f U F) in H as [r0 [P Q]]. apply PR in P as [[x [En ->]]|[r1 [e [En [Nt ->]]]]]; [discriminate Q|].
      destruct r1 as [x|[k1 m1 [|[[v2 t2] a2] tr1] ve1 te1 subs1|e1]|]; cbn in Nt; try discriminate Nt; injection Nt as <-; cbn in Q; try discriminate Q;
        injection Q as -> -> -> -> -> ->.
      * right. split; [apply LE; eauto|reflexivity].
      * left. exists tr1, a2, v2, t2. split; [apply LE; eauto|reflexivity].
    + intros [[tr1 [a1 [v2 [t2 [L ->]]]]]|[L ->]]; apply LE in L as [s' En]; exists s'; apply (C73_callback w cfg s v t f U F).
      * exists (Exc (XTL k m ((v2, t2, a) :: tr1) ve te subs)). split; [|reflexivity]. apply PR. right. do 2 eexists. split; [exact En|split; reflexivity].
      * exists (Exc (XTL k m [] ve te subs)). split; [|reflexivity]. apply PR. right. do 2 eexists. split; [exact En|split; reflexivity].
Qed.
Print Assumptions C73_delegate.

(** the same for the Dumper; the state does not matter (C52), nor are there annotations *)
Theorem C73_dump : forall w cfg, class_handlers w cfg -> sane_handlers w cfg ->
  forall s, dhistory w cfg s -> forall v t f, python_value w v -> dselects cfg v (DCustom f) ->
  forall r, dumps_as w cfg s v t r <-> dperforms w cfg s (f v t) r.
Proof. exact custom_dumps. Qed.
Print Assumptions C73_dump.

(** a handler for Point which reads the pair of the coordinates, in a loader which has been
    used: it reads a point in an attrs class, and says where the error is *)
Definition f73 (v : value) (t : ty) : hprog :=
  HPLoad v (TUPLE [TInt; TInt]) (Some (AnField "xy"))
    (fun o => match o with inl x => HPRet (match x with VTuple [a; b] => VObj (CUser "Point") [("x", a); ("y", b)] | _ => x end) | inr e => HPRaise e end).
Definition C73c : config := with_handlers C0 ((fun t => POk (ty_eqb t (CLS "Point")), HCustom f73) :: handlers C0).
Definition S73 : lstate := snd (load W0 C73c 50 (VList [VInt 1; VInt 2]) (CLS "Point") S0).
Example C73_ex : used W0 C73c S73 /\ find_handler C73c (CLS "Point") = POk (HCustom f73) /\
  loads W0 C73c S73 (VList [VInt 3; VInt 4]) (CLS "Point") (Ok (VObj (CUser "Point") [("x", VInt 3); ("y", VInt 4)])) /\
  loads W0 C73c S73 (VList [VList [VInt 3; VInt 4]]) (LIST (CLS "Point")) (Ok (VList [VObj (CUser "Point") [("x", VInt 3); ("y", VInt 4)]])) /\
  exists m ve te, loads W0 C73c S73 (VList [VInt 3; VStr "q"]) (CLS "Point")
    (Exc (XTL KValue m [(VList [VInt 3; VStr "q"], CLS "Point", None); (VList [VInt 3; VStr "q"], TUPLE [TInt; TInt], Some (AnField "xy"));
                        (VList [VInt 3; VStr "q"], TUPLE [TInt; TInt], Some (AnIndex 1))] ve te [])).
Proof.
  split; [unfold S73; repeat constructor|]. split; [reflexivity|].
  split; [split; [discriminate|exists 50; vm_compute; reflexivity]|].
  split; [split; [discriminate|exists 50; vm_compute; reflexivity]|].
  do 3 eexists. split; [discriminate|exists 50; vm_compute; reflexivity].
Qed.
Example C73_dump_ex : class_handlers W0 D52 /\ sane_handlers W0 D52 /\ dhistory W0 D52 S52 /\ python_value W0 (VInst (CUser "Path") (VStr "/a")) /\
  (exists c f, dselects D52 (VInst (CUser "Path") (VStr "/a")) (DCustom f) /\ In (c, DCustom f) X52) /\
  dumps_as W0 D52 S52 (VInst (CUser "Path") (VStr "/a")) TAny (Ok (VList [VStr "path"; VStr "/a"])).
Proof.
  split; [exact D52_class|]. split; [exact D52_sane|]. split; [exact S52_used|].
  split.
  { within_now 3; cbn; repeat split; intro K; repeat (destruct K as [K|K]; [discriminate|]); contradiction. }
  split.
  - do 2 eexists. split; [apply dselects_find; reflexivity|left; reflexivity].
  - split; [discriminate|exists 9; vm_compute; reflexivity].
Qed.
