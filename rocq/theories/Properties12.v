(** * Properties, twelfth part: the place an exception points at (C50) *)

From Verif Require Import Loader Spec Vocab Inv Std Obs Hist Reuse Transparent Examples Ground Index
  Properties1 Properties2 Properties4 Properties8 Blame.

(** C50 The place an exception points at is where the error is: loading the
    value found there, with the type found there, by the same loader, raises
    the same exception; and so for each of the exceptions of an Union *)
Theorem C50_blame : forall w basic strcons cfg,
  is_std w basic strcons cfg -> wf_reflect w ->
  forall env s v t k m tr ve te subs s',
  used w cfg s -> supported cfg t ->
  (* the names which t refers to *)
  resolves w cfg env s t ->
  (* the defect in line 396 of dataloader.py, see C01_refuted *)
  (forall n kt vt, reach w (pep563 cfg) env t (TGen n ODict (Some [kt; vt])) ->
      seen s vt \/ det_dict w basic (inside v) kt vt) ->
  (* an Union of a class where a Literal is inside Required[] or NotRequired[] *)
  (forall n args, reach w (pep563 cfg) env t (TGen n OUnion (Some args)) -> plain_tags w args) ->
  ends w cfg s v t (Exc (XTL k m tr ve te subs)) s' ->
  exists tr', tr = (v, t, None) :: tr' /\
    reproduces w cfg s' v t (XTL k m tr' ve te subs) /\
    blames w cfg (names_of s') (reproduces w cfg s') v t (XTL k m tr' ve te subs).
Proof. exact c50. Qed.
Print Assumptions C50_blame.

(** C50, a loader for which nothing changes: the exceptions are raised again
    by the loader as it was *)
Theorem C50_same : forall w basic strcons cfg,
  is_std w basic strcons cfg -> wf_reflect w ->
  forall env s v t k m tr ve te subs s',
  used w cfg s -> supported cfg t -> steady w basic cfg env s v t ->
  ends w cfg s v t (Exc (XTL k m tr ve te subs)) s' ->
  exists tr', tr = (v, t, None) :: tr' /\
    reproduces w cfg s v t (XTL k m tr' ve te subs) /\
    blames w cfg (names_of s') (reproduces w cfg s) v t (XTL k m tr' ve te subs).
Proof. exact c50_same. Qed.
Print Assumptions C50_same.

(** C50, spelled out for the trace: wherever the trace is cut, the first part
    leads from the value which was loaded to a part of it, and loading this
    part raises the same exception, with the rest of the trace *)
Theorem C50_path : forall w basic strcons cfg,
  is_std w basic strcons cfg -> wf_reflect w ->
  forall env s v t k m tr ve te subs s',
  used w cfg s -> supported cfg t -> steady w basic cfg env s v t ->
  ends w cfg s v t (Exc (XTL k m tr ve te subs)) s' ->
  exists tr' v' t', tr = (v, t, None) :: tr' /\
    reported w cfg (names_of s') v' t' ve te /\
    forall tr1 tr2, tr' = tr1 ++ tr2 ->
      exists x t1, walk w cfg (names_of s') v t tr1 x t1 /\ walk w cfg (names_of s') x t1 tr2 v' t' /\
        reproduces w cfg s x t1 (XTL k m tr2 ve te subs).
Proof. exact c50_path. Qed.
Print Assumptions C50_path.

(** The exception of [C18_ex]: two levels below the root, with the two
    exceptions of an Union *)
Example C50_ex :
  used W0 C0 S17 /\ supported C0 T17 /\ steady W0 default_basic C0 (names_of S17) S17 V17 T17 /\
  exists m tr ve subs, ends W0 C0 S17 V17 T17 (Exc (XTL KValue m tr ve (Some (UNION [CLS "Point"; OPT TInt])) subs)) S17 /\
    List.length tr = 3 /\ List.length subs = 2.
Proof.
  split; [unfold S17; constructor; exact S2_used|]. split; [eexists; reflexivity|]. split.
  { apply (steady_by W0 C0 (names_of S17) S17 [T17; TStr; LIST (UNION [CLS "Point"; OPT TInt]); UNION [CLS "Point"; OPT TInt]; CLS "Point"; OPT TInt; TInt; TNone]); vm_compute; reflexivity. }
  do 4 eexists. split; [split; [discriminate|exists 50; vm_compute; reflexivity]|]. split; reflexivity.
Qed.

(** a new loader, and a class which refers to itself *)
Definition V50 : value := dict [("v", VInt 1); ("next", dict [("v", VInt 2); ("next", dict [("v", VStr "no")])])].
Definition S50 : lstate := snd (load W0 C0 50 V50 (CLS "ANode") S0).
Example C50_ex_new :
  used W0 C0 S0 /\ supported C0 (CLS "ANode") /\ resolves W0 C0 env27 S0 (CLS "ANode") /\
  (forall n kt vt, ~ reach W0 (pep563 C0) env27 (CLS "ANode") (TGen n ODict (Some [kt; vt]))) /\
  (forall n args c, reach W0 (pep563 C0) env27 (CLS "ANode") (TGen n OUnion (Some args)) -> ~ In (TClass (CUser c)) args) /\
  exists k m tr ve te subs, ends W0 C0 S0 V50 (CLS "ANode") (Exc (XTL k m tr ve te subs)) S50 /\ List.length tr = 2 /\ List.length subs = 2.
Proof.
  split; [apply used_new|]. split; [eexists; reflexivity|].
  split; [exact (proj1 (proj2 (proj2 C27_ex_new)))|]. split; [exact (proj2 (proj2 (proj2 C27_ex_new)))|]. split.
  - intros n args c R I. apply (reach_closed W0 C0 env27 [CLS "ANode"; TInt; OPT (TForward "ANode"); TForward "ANode"; TNone]) in R; [|vm_compute; reflexivity|vm_compute; reflexivity].
    repeat (destruct R as [R|R]; [try discriminate R; try (injection R as <- <-; repeat (destruct I as [I|I]; [discriminate I|]); contradiction)|]). contradiction.
  - do 6 eexists. split; [split; [discriminate|exists 50; vm_compute; reflexivity]|]. split; reflexivity.
Qed.
