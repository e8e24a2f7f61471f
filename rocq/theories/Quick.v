(** * Quick: the functions of the package, typedload.load and typedload.dump (C48) *)

From Verif Require Import Loader Dumper Spec Vocab Inv Hist Reuse.

(** Between two calls of typedload.load nothing is kept but what the process
    keeps: the annotations of the TypedDict classes, from which earlier loads
    have removed NotRequired (dataloader.py 646-650).  [process w ps] : [ps] are
    the classes where this has happened, after any loads with any Loaders in
    any state. *)
Inductive process (w : world) : list cid -> Prop :=
| process_start : process w []
| process_load cfg n v t s : process w (st_stripped s) -> process w (st_stripped (snd (load w cfg n v t s))).

(** __init__.py 192-203: typedload.load(value, type_, **kwargs); [cfg] are the
    settings which the arguments and the defaults of Loader give *)
Definition quick_load (w : world) (cfg : config) (n : nat) (v : value) (t : ty) (ps : list cid) : res value * list cid :=
  let (r, s) := load w cfg n v t (fresh (Some []) ps) in (r, st_stripped s).

(** __init__.py 206-217: typedload.dump(value, **kwargs) *)
Definition quick_dump (w : world) (cfg : dconfig) (n : nat) (v : value) : res value :=
  fst (dump w cfg n v dfresh).

(** typedload.load(v, t) finishes with [r] *)
Definition quick_loads (w : world) (cfg : config) (ps : list cid) (v : value) (t : ty) (r : res value) : Prop :=
  r <> OOF /\ exists n, fst (quick_load w cfg n v t ps) = r.
Definition quick_dumps (w : world) (cfg : dconfig) (v : value) (r : res value) : Prop :=
  r <> OOF /\ exists n, quick_dump w cfg n v = r.

Lemma quick_loads_iff w cfg ps v t r : quick_loads w cfg ps v t r <-> loads w cfg (fresh (Some []) ps) v t r.
Proof.
  unfold quick_loads, loads, quick_load. split; intros [N [n E]]; split; auto; exists n;
    destruct (load w cfg n v t (fresh (Some []) ps)); exact E.
Qed.

Lemma process_quick w cfg n v t ps : process w ps -> process w (snd (quick_load w cfg n v t ps)).
Proof.
  intro P. unfold quick_load. pose proof (process_load w cfg n v t (fresh (Some []) ps) P) as H.
  destruct (load w cfg n v t (fresh (Some []) ps)). exact H.
Qed.

(** the name of [t] itself, and no other *)
Definition own_name (w : world) (t : ty) (n : string) : option ty :=
  match w_name w t with Some n' => if String.eqb n n' then Some t else None | None => None end.

Lemma own_resolves w cfg ps t :
  (forall n, reach w (pep563 cfg) (own_name w t) t (TForward n) -> w_name w t = Some n) ->
  resolves w cfg (own_name w t) (fresh (Some []) ps) t.
Proof.
  intros H n R. right. specialize (H n R). split; [exact H|]. split; [unfold own_name; rewrite H, String.eqb_refl; reflexivity|].
  split; [cbn; intro X; apply X; reflexivity|]. split; [discriminate|reflexivity].
Qed.

Lemma c48_load w basic strcons cfg :
  is_std w basic strcons cfg -> wf_reflect w ->
  forall s ps v t, used w cfg s ->
  (forall n, reach w (pep563 cfg) (own_name w t) t (TForward n) -> w_name w t = Some n) ->
  resolves w cfg (own_name w t) s t ->
  (forall n kt vt, reach w (pep563 cfg) (own_name w t) t (TGen n ODict (Some [kt; vt])) -> det_dict w basic (inside v) kt vt) ->
  (forall n args, reach w (pep563 cfg) (own_name w t) t (TGen n OUnion (Some args)) -> plain_tags w args) ->
  forall r, quick_loads w cfg ps v t r <-> loads w cfg s v t r.
Proof.
  intros Hs Hw s ps v t U N R D Q r. rewrite quick_loads_iff.
  apply (c20 w basic strcons cfg Hs Hw (own_name w t)).
  - apply used_new.
  - exact U.
  - apply own_resolves. exact N.
  - exact R.
  - intros n kt vt H. right. eapply D. exact H.
  - exact Q.
Qed.
