(** * Properties, seventeenth part: failures inside a load or a dump (C56)

    [troubled_load] (Faults.v), [troubled_dump] (DFaults.v): any call of a
    handler can fail with any exception (RecursionError, MemoryError...), after
    any of its writes, while other threads use the same object.
    [limited_load n]: the handlers can be nested [n] deep, after that Python
    raises RecursionError. *)

From Verif Require Import Loader Dumper Spec Vocab Inv Std Fuel Obs Hist Reuse Transparent Dumps DumpAny DThreads Facts5 Examples Ground
  Properties1 Properties2 Properties3 Properties5 RefSound RefComplete RefUse Threads Faults DFaults Properties9 Properties10 Properties13.

(** C56 A load in which something broke and which nevertheless returns a value
    returns a reading of the data *)
Theorem C56_reading : forall w basic strcons cfg,
  is_std w basic strcons cfg -> wf_reflect w ->
  forall env s v t r s',
  used w cfg s -> steady w basic cfg env s v t -> well_formed w basic strcons cfg env v t ->
  troubled_load w cfg s v t (Ok r) s' -> gives w basic strcons cfg env (fun _ => False) v t r.
Proof. exact c56_reading. Qed.
Print Assumptions C56_reading.

(** where one reading is possible, it returns what the load without the
    trouble returns *)
Theorem C56_exact : forall w basic strcons cfg,
  is_std w basic strcons cfg -> wf_reflect w -> uniondebugconflict cfg = false ->
  forall env s v t,
  used w cfg s -> steady w basic cfg env s v t -> well_formed w basic strcons cfg env v t ->
  no_choice w basic strcons cfg env v t -> trials_end w basic cfg env s v t ->
  forall r s', troubled_load w cfg s v t (Ok r) s' -> loads w cfg s v t (Ok r).
Proof.
  intros w basic strcons cfg Hstd Hwr Hud env s v t U St Wl Nc Te r s' T.
  apply (C44_exact w basic strcons cfg Hstd Hwr Hud env s v t U St Wl Nc Te).
  exact (c56_reading w basic strcons cfg Hstd Hwr env s v t r s' U St Wl T).
Qed.
Print Assumptions C56_exact.

(** in particular, when there are neither unions nor annotated Enums in the
    type, and the Dicts in it do not have values of a subclass of the declared
    basic type (True for int) *)
Definition nothing_to_try (w : world) (basic : list cid) (cfg : config) (env : string -> option ty) (v : value) (t : ty) : Prop :=
  (forall n args, ~ reach w (pep563 cfg) env t (TGen n OUnion (Some args))) /\
  (forall c ms, reach w (pep563 cfg) env t (TClass c) -> ci_enum (class_of w c) = Some ms -> ci_hints (class_of w c) = POk []) /\
  (forall n kt vt c x, reach w (pep563 cfg) env t (TGen n ODict (Some [kt; vt])) -> inside v x -> In c basic ->
     TClass c = kt \/ TClass c = vt -> isinstance w x c = true -> type_of x = c).
Theorem C56_plain : forall w basic strcons cfg,
  is_std w basic strcons cfg -> wf_reflect w -> uniondebugconflict cfg = false ->
  forall env s v t,
  used w cfg s -> steady w basic cfg env s v t -> well_formed w basic strcons cfg env v t ->
  nothing_to_try w basic cfg env v t ->
  forall r s', troubled_load w cfg s v t (Ok r) s' -> loads w cfg s v t (Ok r).
Proof.
  intros w basic strcons cfg Hstd Hwr Hud env s v t U St Wl [Nu [Ne Nd]].
  apply (C56_exact w basic strcons cfg Hstd Hwr Hud env s v t U St Wl); constructor.
  - intros n args x t1 t2 r1 r2 R. destruct (Nu n args R).
  - intros c ms hints x t1 t2 y1 y2 r1 r2 R _ E _ H I1. rewrite (Ne c ms R E) in H. injection H as <-. destruct I1.
  - exact Nd.
  - intros n args x R. destruct (Nu n args R).
  - intros c ms hints x t' R _ E _ H I1. rewrite (Ne c ms R E) in H. injection H as <-. destruct I1.
Qed.
Print Assumptions C56_plain.

(** whatever happened, later loads with the same loader are not affected *)
Theorem C56_after : forall w basic strcons cfg,
  is_std w basic strcons cfg -> wf_reflect w ->
  forall env s s' v t v' t' r',
  used w cfg s -> steady w basic cfg env s v t -> troubled_load w cfg s v' t' r' s' ->
  forall r, loads w cfg s v t r <-> loads w cfg s' v t r.
Proof.
  intros w basic strcons cfg Hstd Hwr env s s' v t v' t' r' U St T.
  exact (C47_abandoned w basic strcons cfg Hstd Hwr env s s' v t U St (c56_writes w cfg s v' t' r' s' T)).
Qed.
Print Assumptions C56_after.

(** the recursion limit: every load has a depth from which on the limit plays
    no part; below, the result is right or there is an exception *)
Theorem C56_limit : forall w basic strcons cfg,
  is_std w basic strcons cfg -> wf_reflect w -> uniondebugconflict cfg = false ->
  forall env s v t,
  used w cfg s -> steady w basic cfg env s v t -> well_formed w basic strcons cfg env v t ->
  no_choice w basic strcons cfg env v t -> trials_end w basic cfg env s v t ->
  forall r, loads w cfg s v t r ->
  (exists n, forall m, n <= m -> fst (limited_load w cfg m v t s) = r) /\
  (forall n x, fst (limited_load w cfg n v t s) = Ok x -> r = Ok x).
Proof.
  intros w basic strcons cfg Hstd Hwr Hud env s v t U St Wl Nc Te r L. split; [exact (c56_enough w cfg s v t r L)|].
  intros n x E. pose proof (limited_load_troubled w cfg n v t s) as T. rewrite E in T. specialize (T ltac:(discriminate)).
  pose proof (C56_exact w basic strcons cfg Hstd Hwr Hud env s v t U St Wl Nc Te x _ T) as L'.
  exact (loads_det _ _ _ _ _ _ _ L L').
Qed.
Print Assumptions C56_limit.

(** a dump: nothing is ever caught, so that the value is right or there is an
    exception; also with handlers of the user which do not catch the exceptions
    of the dumps they ask for *)
Theorem C56_dump : forall w basic strcons cfg, is_dstd w basic strcons cfg ->
  forall s v t x s', dhistory w cfg s -> python_value w v ->
  troubled_dump w cfg s v t (Ok x) s' -> dumps_as w cfg s v t (Ok x).
Proof.
  intros w basic strcons cfg H s v t x s'.
  exact (c56_dump w cfg (std_class w basic strcons cfg H) (std_sane w basic strcons cfg H) (std_pass w basic strcons cfg H) s v t x s').
Qed.
Print Assumptions C56_dump.
Theorem C56_dump_any : forall w cfg, class_handlers w cfg -> sane_handlers w cfg -> passing_handlers cfg ->
  forall s v t x s', dhistory w cfg s -> python_value w v ->
  troubled_dump w cfg s v t (Ok x) s' -> dumps_as w cfg s v t (Ok x).
Proof. exact c56_dump. Qed.
Print Assumptions C56_dump_any.
Theorem C56_dump_after : forall w cfg, class_handlers w cfg -> sane_handlers w cfg -> passing_handlers cfg ->
  forall s s' v t v' t' r', dhistory w cfg s -> python_value w v -> python_value w v' -> troubled_dump w cfg s v' t' r' s' ->
  forall r, dumps_as w cfg s v t r <-> dumps_as w cfg s' v t r.
Proof.
  intros w cfg Hc Hs Hp s s' v t v' t' r' H P P' T r.
  exact (c54_abandoned w cfg Hc Hs s s' v t r H P (c56_dump_writes w cfg Hc Hs Hp s v' t' r' s' H P' T)).
Qed.
Print Assumptions C56_dump_after.

(** ** Without such conditions it is not true.  Line 943 makes a
    TypedloadTypeError of the RecursionError, and line 735 takes it for a sign
    that the data is not of that member of the union:
    load([{"p": {"x": 1}}], Union[List[Recs], List[Any]]) is a list of Recs, and
    near the limit a list of dictionaries. *)
Definition v56 : value := VList [dict [("p", dict [("x", VInt 1)])]].
Definition t56 : ty := UNION [LIST (CLS "Recs"); LIST TAny].
Theorem C56_refuted : exists w basic strcons cfg s v t r r' n,
  is_std w basic strcons cfg /\ wf_world w basic strcons /\ used w cfg s /\
  loads w cfg s v t (Ok r) /\ fst (limited_load w cfg n v t s) = Ok r' /\ r <> r'.
Proof.
  exists W0, default_basic, default_strcons, C0, S0, v56, t56. eexists _, _, 3.
  split; [exact C0_std|]. split; [exact wf0|]. split; [apply used_new|].
  split; [split; [discriminate|exists 50; vm_compute; reflexivity]|]. split; [vm_compute; reflexivity|discriminate].
Qed.
Print Assumptions C56_refuted.

(** ** Cases which meet the hypotheses

    Every attempt at a dataclass breaks; Union[Point, List[int]] of a list *)
Definition breakdown : exn := XTL KType (MCustom "no memory") [] None None [].
Fixpoint breaking (n : nat) (h : handler) (v : value) (t : ty) {struct n} : M value :=
  match n with
  | 0 => fun s => (OOF, s)
  | S n' => match h with HDataclass => raise breakdown | _ => body W0 C0 (breaking n') h v t end
  end.
Lemma breaking_troubled n : troubled W0 C0 n (breaking n).
Proof.
  induction n as [|n IH]; cbn [troubled]; [reflexivity|]. intros h v t s.
  destruct h; try (right; exists (breaking n), s; eexists; split; [exact IH|]; split; [apply wr_nothing|];
    split; [apply surjective_pairing|apply wr_nothing]).
  left. exists breakdown. split; [discriminate|]. split; [reflexivity|apply wr_nothing].
Qed.
Example C56_ex : let t := UNION U10 in exists s',
  used W0 C0 S2 /\
  steady W0 default_basic C0 env2 S2 v10 t /\ well_formed W0 default_basic default_strcons C0 env2 v10 t /\
  no_choice W0 default_basic default_strcons C0 env2 v10 t /\ trials_end W0 default_basic C0 env2 S2 v10 t /\
  troubled_load W0 C0 S2 v10 t (Ok (VList [VInt 3; VInt 4])) s'.
Proof.
  cbv zeta. destruct C45_ex as [_ [St [Wl [Nc [Te _]]]]].
  exists (snd (load_with W0 C0 (breaking 5) v10 (UNION U10) None S2)).
  split; [exact S2_used|]. split; [exact St|]. split; [exact Wl|]. split; [exact Nc|]. split; [exact Te|].
  split; [discriminate|]. exists 5, (breaking 5), S2. eexists. split; [apply breaking_troubled|]. split; [apply wr_nothing|].
  split; [|apply wr_nothing].
  assert (E : fst (load_with W0 C0 (breaking 5) v10 (UNION U10) None S2) = Ok (VList [VInt 3; VInt 4])) by (vm_compute; reflexivity).
  rewrite <- E. apply surjective_pairing.
Qed.
(** a type with nothing to try; the limit is reached, or it is not *)
Definition v57 : value := VList [dict [("l", VList [VStr "1"]); ("p", dict [("x", VInt 1)])]].
Definition L57 : list ty := [LIST (CLS "Recs"); CLS "Recs"; LIST TInt; TInt; CLS "Point"].
Lemma L57_spec t : reach W0 (pep563 C0) env2 (LIST (CLS "Recs")) t -> In t L57.
Proof. apply reach_closed; vm_compute; reflexivity. Qed.
Example C56_ex_plain : let t := LIST (CLS "Recs") in
  used W0 C0 S2 /\ steady W0 default_basic C0 env2 S2 v57 t /\ well_formed W0 default_basic default_strcons C0 env2 v57 t /\
  nothing_to_try W0 default_basic C0 env2 v57 t /\
  (exists e, fst (limited_load W0 C0 3 v57 t S2) = Exc e) /\ (exists x, fst (limited_load W0 C0 4 v57 t S2) = Ok x).
Proof.
  cbv zeta. split; [exact S2_used|]. split; [steady_in L57|]. split; [|split; [|split; [eexists; vm_compute; reflexivity|eexists; vm_compute; reflexivity]]].
  - constructor.
    + intros c R _. apply L57_spec in R. cbn in R. destruct R as [R|[R|[R|[R|[R|[]]]]]]; try discriminate R; injection R as <-;
        split; cbn; repeat constructor; cbn; intuition discriminate.
    + intros x I. assert (J : In x (all_inside 9 [v57])) by (apply (inside_closed _ v57); [vm_compute; reflexivity|vm_compute; reflexivity|exact I]).
      apply data_okb_spec. assert (F : forallb data_okb (all_inside 9 [v57]) = true) by (vm_compute; reflexivity).
      rewrite forallb_forall in F. exact (F x J).
    + apply (W0_never C0 _ L57); vm_compute; reflexivity.
  - split; [|split].
    + intros n args R. apply L57_spec in R. cbn in R. destruct R as [R|[R|[R|[R|[R|[]]]]]]; discriminate R.
    + intros c ms R E. apply L57_spec in R. cbn in R. destruct R as [R|[R|[R|[R|[R|[]]]]]]; try discriminate R; injection R as <-; discriminate E.
    + intros n kt vt c x R. apply L57_spec in R. cbn in R. destruct R as [R|[R|[R|[R|[R|[]]]]]]; discriminate R.
Qed.
(** a dump *)
Example C56_ex_dump : exists r s',
  is_dstd W0 default_basic default_dstrcons D0 /\ dhistory W0 D0 SD1 /\ python_value W0 V25 /\
  troubled_dump W0 D0 SD1 V25 TAny (Ok r) s' /\
  exists e s'', troubled_dump W0 D0 SD1 V25 TAny (Exc e) s''.
Proof.
  eexists _, _. split; [exact D0_std|]. split; [exact SD1_used|]. split; [exact V25_py|]. split.
  - split; [|exists 51, (dlimited W0 D0 50), SD1; eexists; split; [apply dlimited_troubled|]; split; [apply dw_nothing|]; split; [vm_compute; reflexivity|apply dw_nothing]].
    discriminate.
  - eexists _, _. split; [|exists 2, (dlimited W0 D0 1), SD1; eexists; split; [apply dlimited_troubled|]; split; [apply dw_nothing|]; split; [vm_compute; reflexivity|apply dw_nothing]].
    discriminate.
Qed.
