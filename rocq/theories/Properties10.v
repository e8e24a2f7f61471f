(** * Properties, tenth part: threads (C47) and the functions of the package (C48) *)

From Verif Require Import Loader Dumper Spec Vocab Inv Std Obs Hist Reuse Transparent Examples Ground
  Properties1 Properties2 Properties3 Properties5 Threads Quick.

(** C47 A Loader can be shared by threads: the outcome of a load is what it
    would be if no other thread used the loader.  ([shared_load], [writes]:
    Threads.v) *)
Theorem C47_threads : forall w basic strcons cfg,
  is_std w basic strcons cfg -> wf_reflect w ->
  forall env s v t r s',
  used w cfg s ->
  (* in particular, the names in t are known to the loader: see C47_refuted *)
  steady w basic cfg env s v t ->
  shared_load w cfg s v t r s' -> loads w cfg s v t r.
Proof. exact c47. Qed.
Print Assumptions C47_threads.
(** a load, itself disturbed, does nothing but the writes by which others may
    be disturbed *)
Theorem C47_guarantee : forall w cfg s v t r s',
  shared_load w cfg s v t r s' -> writes w cfg s s'.
Proof. exact c47_guarantee. Qed.
Print Assumptions C47_guarantee.
(** a load abandoned after any of its writes (an exception from outside, a
    killed thread) leaves a loader which works as before *)
Theorem C47_abandoned : forall w basic strcons cfg,
  is_std w basic strcons cfg -> wf_reflect w ->
  forall env s s' v t,
  used w cfg s -> steady w basic cfg env s v t -> writes w cfg s s' ->
  forall r, loads w cfg s v t r <-> loads w cfg s' v t r.
Proof. exact c47_before. Qed.
Print Assumptions C47_abandoned.

(** other threads meet bool before each handler, and Point and TD after it *)
Definition before (s : lstate) : lstate :=
  match ty_get TBool (st_index s) with None => set_index (cons (TBool, HBasic)) s | Some _ => s end.
Definition after (s : lstate) : lstate := set_stripped (cons (CUser "TD")) (register W0 (CLS "Point") s).
Fixpoint noisy (n : nat) (h : handler) (v : value) (t : ty) (s : lstate) {struct n} : res value * lstate :=
  match n with
  | 0 => (OOF, s)
  | S n' => let (r, s1) := body W0 C0 (noisy n') h v t (before s) in (r, after s1)
  end.
Lemma noisy_disturbed n : disturbed W0 C0 n (noisy n).
Proof.
  induction n as [|n IH]; cbn [disturbed]; [reflexivity|]. intros h v t s.
  exists (noisy n), (before s), (snd (body W0 C0 (noisy n) h v t (before s))).
  split; [exact IH|]. cbn [noisy].
  destruct (body W0 C0 (noisy n) h v t (before s)) as [r s1]. cbn [fst snd].
  split; [|split; [reflexivity|]].
  - unfold before. destruct (ty_get TBool (st_index s)) eqn:E; [apply wr_nothing|].
    apply wr_handler; [exact E|reflexivity].
  - unfold after. eapply wr_then; [apply wr_names|]. apply wr_strip. discriminate.
Qed.
Example C47_ex : exists r s',
  used W0 C0 S2 /\ steady W0 default_basic C0 env2 S2 NODE2 (CLS "Node") /\
  shared_load W0 C0 S2 NODE2 (CLS "Node") (Ok r) s' /\
  loads W0 C0 S2 NODE2 (CLS "Node") (Ok r) /\
  (* what the others did is there *)
  ty_get TBool (st_index S2) = None /\ ty_get TBool (st_index s') = Some HBasic.
Proof.
  eexists. eexists. split; [exact S2_used|].
  split; [steady_in [CLS "Node"; TInt; OPT (TForward "Node"); TForward "Node"; TNone]|].
  split; [|split].
  - split; [discriminate|]. exists 50, (noisy 50), S2. eexists. split; [apply noisy_disturbed|].
    split; [apply wr_nothing|]. split; [vm_compute; reflexivity|apply wr_nothing].
  - split; [discriminate|]. exists 50. vm_compute. reflexivity.
  - split; vm_compute; reflexivity.
Qed.
(** The handler of a type is cached (line 290) before its name is registered
    (line 296).  A thread which comes in between finds the type in the cache and
    does not register the name either: the reference of Node to itself is not
    resolved, and the load fails which succeeds on its own. *)
Theorem C47_refuted : exists w basic strcons cfg s v t r e s',
  is_std w basic strcons cfg /\ wf_world w basic strcons /\ used w cfg s /\
  loads w cfg s v t (Ok r) /\ shared_load w cfg s v t (Exc e) s'.
Proof.
  exists W0, default_basic, default_strcons, C0, S0, NODE2, (CLS "Node").
  eexists. eexists. eexists.
  split; [split; reflexivity|]. split; [exact wf0|]. split; [apply used_new|]. split.
  - split; [discriminate|]. exists 50. vm_compute. reflexivity.
  - split; [|exists 50, (noisy 50), (set_index (cons (CLS "Node", HDataclass)) S0)].
    2:{ eexists. split; [apply noisy_disturbed|]. split; [apply wr_handler; reflexivity|].
        split; [vm_compute; reflexivity|apply wr_nothing]. }
    discriminate.
Qed.
Print Assumptions C47_refuted.

(** C48 typedload.load gives what a Loader with the same settings gives,
    whatever has been loaded before in the process, and whatever that Loader
    has loaded before *)
Theorem C48_load : forall w basic strcons cfg,
  is_std w basic strcons cfg -> wf_reflect w ->
  forall s ps v t, used w cfg s -> process w ps ->
  (* the type refers by name at most to itself *)
  (forall n, reach w (pep563 cfg) (own_name w t) t (TForward n) -> w_name w t = Some n) ->
  resolves w cfg (own_name w t) s t ->
  (* see C20_refuted_dict *)
  (forall n kt vt, reach w (pep563 cfg) (own_name w t) t (TGen n ODict (Some [kt; vt])) -> det_dict w basic (inside v) kt vt) ->
  (* see C20_refuted_tag *)
  (forall n args, reach w (pep563 cfg) (own_name w t) t (TGen n OUnion (Some args)) -> plain_tags w args) ->
  forall r, quick_loads w cfg ps v t r <-> loads w cfg s v t r.
Proof. intros w basic strcons cfg Hs Hw s ps v t U _. exact (c48_load w basic strcons cfg Hs Hw s ps v t U). Qed.
Print Assumptions C48_load.
(** in particular, it is a function of the data, the type and the settings *)
Theorem C48_function : forall w basic strcons cfg,
  is_std w basic strcons cfg -> wf_reflect w ->
  forall ps1 ps2 v t, process w ps1 -> process w ps2 ->
  (forall n, reach w (pep563 cfg) (own_name w t) t (TForward n) -> w_name w t = Some n) ->
  (forall n kt vt, reach w (pep563 cfg) (own_name w t) t (TGen n ODict (Some [kt; vt])) -> det_dict w basic (inside v) kt vt) ->
  (forall n args, reach w (pep563 cfg) (own_name w t) t (TGen n OUnion (Some args)) -> plain_tags w args) ->
  forall r1 r2, quick_loads w cfg ps1 v t r1 -> quick_loads w cfg ps2 v t r2 -> r1 = r2.
Proof.
  intros w basic strcons cfg Hs Hw ps1 ps2 v t _ _ N D U r1 r2 L1 L2.
  rewrite (c48_load w basic strcons cfg Hs Hw (fresh (Some []) ps2) ps1 v t (used_new _ _ _ _) N (own_resolves _ _ _ _ N) D U) in L1.
  rewrite quick_loads_iff in L2. eapply loads_det; eassumption.
Qed.
Print Assumptions C48_function.
Theorem C48_process : forall w cfg n v t ps, process w ps -> process w (snd (quick_load w cfg n v t ps)).
Proof. exact process_quick. Qed.
Print Assumptions C48_process.
Theorem C48_dump : forall w basic strcons cfg, is_dstd w basic strcons cfg ->
  forall s v r, dhistory w cfg s -> python_value w v -> (quick_dumps w cfg v r <-> dumps w cfg s v r).
Proof.
  intros w basic strcons cfg Hs s v r H P.
  exact (C29_reuse w basic strcons cfg Hs dfresh s v TAny r (dhistory_new _ _) H P).
Qed.
Print Assumptions C48_dump.
(** a recursive class, after loads of TD have removed its NotRequired, and with
    a loader which has seen Node before *)
Example C48_ex : let t := CLS "Node" in
  process W0 [CUser "TD"] /\ used W0 C0 S2 /\
  (forall n, reach W0 (pep563 C0) (own_name W0 t) t (TForward n) -> w_name W0 t = Some n) /\
  resolves W0 C0 (own_name W0 t) S2 t /\
  (forall n kt vt, ~ reach W0 (pep563 C0) (own_name W0 t) t (TGen n ODict (Some [kt; vt]))) /\
  (forall n args c, reach W0 (pep563 C0) (own_name W0 t) t (TGen n OUnion (Some args)) -> ~ In (TClass (CUser c)) args) /\
  (exists r, quick_loads W0 C0 [CUser "TD"] NODE2 t (Ok r)).
Proof.
  intro t.
  set (L := [CLS "Node"; TInt; OPT (TForward "Node"); TForward "Node"; TNone]).
  assert (R : forall x, reach W0 (pep563 C0) (own_name W0 t) t x -> In x L).
  { intro x. apply (reach_closed W0 C0 (own_name W0 t) L); vm_compute; reflexivity. }
  split; [|split; [exact S2_used|split; [|split; [|split; [|split]]]]].
  - exact (process_load W0 C0 50 (dict [("k", VInt 1)]) (CLS "TD") S0 (process_start W0)).
  - intros n H. apply R in H. cbn in H.
    destruct H as [H|[H|[H|[H|[H|[]]]]]]; try discriminate H. injection H as <-. reflexivity.
  - intros n H. apply R in H. cbn in H.
    destruct H as [H|[H|[H|[H|[H|[]]]]]]; try discriminate H. injection H as <-. left.
    exists (CLS "Node"). split; [reflexivity|]. apply names_knows. vm_compute. reflexivity.
  - intros n kt vt H. apply R in H. cbn in H. destruct H as [H|[H|[H|[H|[H|[]]]]]]; discriminate H.
  - intros n args c H I. apply R in H. cbn in H.
    destruct H as [H|[H|[H|[H|[H|[]]]]]]; try discriminate H. injection H as <- <-.
    destruct I as [I|[I|[]]]; discriminate I.
  - eexists. split; [discriminate|]. exists 50. vm_compute. reflexivity.
Qed.
Example C48_ex_dump : dhistory W0 D0 SD1 /\ python_value W0 VR.
Proof. split; [exact SD1_used|exact (proj1 C26_ex)]. Qed.
