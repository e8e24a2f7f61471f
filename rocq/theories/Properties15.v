(** * Properties, fifteenth part: threads sharing a Dumper (C54), and fields of
    a dataclass which are not fields (C06, C27)

    [dwrites] (Vocab.v): the writes which dumps do to the state of a Dumper.
    [shared_dump] (DThreads.v): a dump while other threads do such writes before
    and after each call of a handler. *)

From Verif Require Import Loader Dumper Spec Vocab Inv Fuel Index Dumps DumpAny DThreads Facts5 Examples Ground
  Properties1 Properties5 Properties13.

(** C54 A Dumper can be shared by threads: the outcome of a dump is what it
    would be if no other thread used the dumper -- with the default handlers *)
Theorem C54_threads : forall w basic strcons cfg, is_dstd w basic strcons cfg ->
  forall s v t r s', dhistory w cfg s -> python_value w v ->
  shared_dump w cfg s v t r s' -> dumps_as w cfg s v t r.
Proof.
  intros w basic strcons cfg St s v t r s' H P Sh.
  apply (c54_threads w cfg (std_class _ _ _ _ St) (std_sane _ _ _ _ St) s v t r s' H P Sh).
Qed.
Print Assumptions C54_threads.
(** and with any handlers which are selected by the class of the object *)
Theorem C54_threads_any : forall w cfg, class_handlers w cfg -> sane_handlers w cfg ->
  forall s v t r s', dhistory w cfg s -> python_value w v ->
  shared_dump w cfg s v t r s' -> dumps_as w cfg s v t r.
Proof. intros w cfg C S s v t r s' H P Sh. apply (c54_threads w cfg C S s v t r s' H P Sh). Qed.
Print Assumptions C54_threads_any.
(** a dump, itself disturbed, does nothing but the writes by which others may
    be disturbed *)
Theorem C54_guarantee : forall w cfg, class_handlers w cfg -> sane_handlers w cfg ->
  forall s v t r s', dhistory w cfg s -> python_value w v ->
  shared_dump w cfg s v t r s' -> dwrites w cfg s s'.
Proof. intros w cfg C S s v t r s' H P Sh. apply (c54_threads w cfg C S s v t r s' H P Sh). Qed.
Print Assumptions C54_guarantee.
(** a dump abandoned after any of its writes leaves a dumper which works as
    before *)
Theorem C54_abandoned : forall w cfg, class_handlers w cfg -> sane_handlers w cfg ->
  forall s s' v t r, dhistory w cfg s -> python_value w v -> dwrites w cfg s s' ->
  (dumps_as w cfg s v t r <-> dumps_as w cfg s' v t r).
Proof. exact c54_abandoned. Qed.
Print Assumptions C54_abandoned.

(** another thread dumps a set before each handler, and a Ren after it *)
Definition dbefore (s : dstate) : dstate := mkDState ((CSet, DIter) :: ds_cache s) (ds_dc s).
Definition RENI : dcinfo :=
  match ci_dc (class_of W0 (CUser "Ren")) with
  | Some fs => match dc_info W0 (CUser "Ren") fs with POk i => i | PExc _ => mkDcinfo [] [] [] end
  | None => mkDcinfo [] [] []
  end.
Definition dafter (s : dstate) : dstate := mkDState (ds_cache s) ((CUser "Ren", RENI) :: ds_dc s).
Fixpoint dnoisy (n : nat) (h : dhandler) (v : value) (t : ty) (s : dstate) {struct n} : res value * dstate :=
  match n with
  | 0 => (OOF, s)
  | S n' => let (r, s1) := dbody W0 D0 (dnoisy n') h v t (dbefore s) in (r, dafter s1)
  end.
Lemma dnoisy_disturbed n : ddisturbed W0 D0 n (dnoisy n).
Proof.
  induction n as [|n IH]; cbn [ddisturbed dnoisy]; [reflexivity|]. intros h v t s.
  destruct (dbody W0 D0 (dnoisy n) h v t (dbefore s)) as [r s1] eqn:B. exists (dnoisy n), (dbefore s), s1. cbn [fst snd].
  split; [exact IH|]. split; [|split; [exact B|]].
  - apply (dw_handler W0 D0 s (VSet []) DIter); [exact I|reflexivity].
  - eapply (dw_fields W0 D0 s1 (CUser "Ren")); reflexivity.
Qed.
Example C54_ex : exists r s', dhistory W0 D0 SD1 /\ python_value W0 V25 /\
  shared_dump W0 D0 SD1 V25 TAny (Ok r) s' /\
  cid_get CSet (ds_cache SD1) = None /\ cid_get CSet (ds_cache s') = Some DIter /\
  dumps W0 D0 SD1 V25 (Ok r).
Proof.
  eexists. eexists. split; [exact SD1_used|]. split; [exact V25_py|]. split.
  { split; [discriminate|]. exists 9, (dnoisy 9), SD1. eexists. split; [apply dnoisy_disturbed|]. split; [constructor|].
    split; [vm_compute; reflexivity|constructor]. }
  split; [vm_compute; reflexivity|]. split; [reflexivity|]. split; [discriminate|]. exists 9. vm_compute. reflexivity.
Qed.

(** ** ClassVar and InitVar

    [__dataclass_fields__], which typedload reads, also has the annotations
    ClassVar and InitVar: they are fields of a type ([TObj]) for which there is
    no handler.  class CV: a: int; k: ClassVar[int] = 3 *)
Definition W15 : world :=
  mkWorld (fun n => if String.eqb n "CV" then dcls [f0 "a" TInt DNo; f0 "k" (TObj "ClassVar[int]") (DValue (VInt 3))]
                    else if String.eqb n "CW" then dcls [f0 "a" TInt DNo; f0 "k" (TObj "ClassVar[int]") DNo]
                    else w_class W0 n)
          (w_call W0) (w_fromiso W0) (w_callargs W0) (w_timedelta W0) (w_compile W0) (w_name W0) (w_pick W0)
          (w_setorder W0) (w_str W0) (w_iso W0) (w_seconds W0).
Definition show_all (d : dconfig) : dconfig :=
  mkDConfig (d_basic d) false (d_iso d) (d_rce d) (d_mk d) (d_handlers d).

(** C06: a ClassVar without a value, which is not an argument of the
    constructor, is a required key: no dictionary can be loaded, with or
    without it *)
Theorem C06_refuted_classvar : let C := default_config W15 in
  required_names W15 C (CUser "CW") = ["a"; "k"] /\
  rejects W15 C S0 (dict [("a", VInt 1)]) (CLS "CW") /\
  rejects W15 C S0 (dict [("a", VInt 1); ("k", VInt 3)]) (CLS "CW").
Proof.
  split; [reflexivity|].
  split; (eexists; split; [discriminate|exists 50; vm_compute; reflexivity]).
Qed.
Print Assumptions C06_refuted_classvar.

(** C07: a key with the name of a ClassVar is not refused as unrecognised by
    failonextra, and without failonextra it is not ignored *)
Theorem C07_refuted_classvar : let C := default_config W15 in
  accepts W15 (strict C) S0 (dict [("a", VInt 1)]) (CLS "CV") /\
  accepts W15 C S0 (dict [("a", VInt 1); ("zzz", VInt 3)]) (CLS "CV") /\
  exists r, raises KType r /\
    loads W15 C S0 (dict [("a", VInt 1); ("k", VInt 3)]) (CLS "CV") r /\
    loads W15 (strict C) S0 (dict [("a", VInt 1); ("k", VInt 3)]) (CLS "CV") r.
Proof.
  split; [eexists; split; [discriminate|exists 50; vm_compute; reflexivity]|].
  split; [eexists; split; [discriminate|exists 50; vm_compute; reflexivity]|].
  eexists. split; [do 5 eexists; reflexivity|].
  split; (split; [discriminate|exists 50; vm_compute; reflexivity]).
Qed.
Print Assumptions C07_refuted_classvar.

(** C27: with hidedefault=False the value of a ClassVar is dumped, and the dump
    cannot be loaded; with hidedefault=True it can *)
Definition CV1 : value := VObj (CUser "CV") [("a", VInt 1); ("k", VInt 3)].
Theorem C27_refuted_classvar : let C := default_config W15 in let D := default_dconfig W15 in
  (exists x, dumps W15 (show_all D) dfresh CV1 (Ok x) /\ py_eqb x (dict [("a", VInt 1); ("k", VInt 3)]) = true /\
     rejects W15 C S0 x (CLS "CV")) /\
  dumps W15 D dfresh CV1 (Ok (dict [("a", VInt 1)])) /\
  loads W15 C S0 (dict [("a", VInt 1)]) (CLS "CV") (Ok CV1).
Proof.
  split.
  { eexists. split; [split; [discriminate|exists 50; vm_compute; reflexivity]|]. split; [vm_compute; reflexivity|].
    eexists. split; [discriminate|exists 50; vm_compute; reflexivity]. }
  split; (split; [discriminate|exists 50; vm_compute; reflexivity]).
Qed.
Print Assumptions C27_refuted_classvar.
