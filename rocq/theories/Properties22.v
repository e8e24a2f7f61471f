(** * Properties, twenty-second part: how many handlers a dump calls (C61)

    [dump_calls w cfg s v t r k]: dump(v, annotated_type=t) by a dumper in the
    state [s] ends with [r] after [k] calls of handler functions, counted with
    marks in the state (Cost2.v): C61_counted says that counting changes
    nothing.  [objects v]: the objects which [v] is made of; an object which is
    at two places of [v] counts twice. *)

From Verif Require Import Loader Dumper Spec Vocab Dumps Fuel Examples Ground Properties5 Properties10 Cost2.

(** every dump has a number of calls: exactly the dumps which end *)
Theorem C61_counted : forall w cfg s v t r, dumps_as w cfg s v t r <-> exists! k, dump_calls w cfg s v t r k.
Proof. exact dcounted_dumps. Qed.
Print Assumptions C61_counted.

(** the fields of a class have different names *)
Definition distinct_names (w : world) : Prop :=
  forall c fs, ci_dc (class_of w c) = Some fs \/ ci_attrs (class_of w c) = Some fs -> NoDup (map f_name fs).

(** C61 A dump ends, and calls at most one handler for each object in the value,
    whether the value is dumped or refused, whatever was dumped before. *)
Theorem C61_linear : forall w basic strcons cfg, is_dstd w basic strcons cfg -> distinct_names w ->
  forall s v t, dhistory w cfg s -> python_value w v ->
  exists r k, dump_calls w cfg s v t r k /\ k <= objects v.
Proof.
  intros w basic strcons cfg H N s v t U P. set (r := fst (dump_ann w cfg (depth v) v t s)).
  assert (D : dumps_as w cfg s v t r). { split; [exact (C28_terminates w basic strcons cfg H s v t (depth v) U P (le_n _))|]. exists (depth v). reflexivity. }
  destruct (proj1 (C61_counted w cfg s v t r) D) as [k [K _]]. exists r, k. split; [exact K|]. exact (dump_linear w basic strcons cfg H N s v t r k U P K).
Qed.
Print Assumptions C61_linear.

Lemma names61 : distinct_names W0.
Proof.
  intro c. apply (classes0_all (fun ci => forall fs, ci_dc ci = Some fs \/ ci_attrs ci = Some fs -> NoDup (map f_name fs))); [intros fs [E|E]; discriminate E|].
  cbn. repeat constructor; cbn; intros fs [E|E]; try discriminate E; injection E as <-; cbn; repeat constructor; cbn; intuition discriminate.
Qed.
(** [NT(1, 'z'), {Color.GREEN: (1, date)}, Recs([1], Point(1, 3)), Path('/a')]:
    17 objects and 15 calls; the 1 in Recs.l: List[int] is copied without a call,
    the b of the NamedTuple is its default and hidden *)
Example C61_example : is_dstd W0 default_basic default_dstrcons D0 /\ distinct_names W0 /\ dhistory W0 D0 SD1 /\ python_value W0 V25 /\
  exists r k, dump_calls W0 D0 SD1 V25 TAny r k /\ objects V25 = 17 /\ k = 15.
Proof.
  split; [exact D0_std|]. split; [exact names61|]. split; [exact SD1_used|]. split; [exact V25_py|].
  eexists. eexists. split; [split; [|exists 9; eexists; split; [vm_compute; reflexivity|]]; [discriminate|]|split; [vm_compute; reflexivity|]].
  - instantiate (1 := 15). vm_compute. reflexivity.
  - reflexivity.
Qed.
