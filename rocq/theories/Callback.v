(** * Callback: custom handlers which call the Loader, or the Dumper (C73)

    A custom handler is a program ([hprog], [dprog]: Loader.v, Dumper.v) which returns, raises,
    or asks for a load (a dump) and goes on with its outcome. *)

From Verif Require Import Loader Dumper Spec Vocab Inv Fuel Obs Dumps DumpAny.

(** the outcome of load(v, t, annotation=a), from the outcome of load(v, t): the first item of
    the trace carries the annotation *)
Definition noted (a : option ann) (r : res value) : res value :=
  match r with
  | Exc (XTL k m ((v, t, _) :: tr) ve te subs) => Exc (XTL k m ((v, t, a) :: tr) ve te subs)
  | _ => r
  end.

(** running the program [p] of a custom handler when the loader is in the state [s]: each load
    it asks for does what load does *)
Inductive performs (w : world) (cfg : config) : lstate -> hprog -> res value -> lstate -> Prop :=
| performs_ret s x : performs w cfg s (HPRet x) (Ok x) s
| performs_raise s e : performs w cfg s (HPRaise e) (Exc e) s
| performs_loaded s v t a k x s1 r s' :
    ends w cfg s v t (Ok x) s1 -> performs w cfg s1 (k (inl x)) r s' -> performs w cfg s (HPLoad v t a k) r s'
| performs_failed s v t a k r0 e s1 r s' :
    ends w cfg s v t r0 s1 -> noted a r0 = Exc e -> performs w cfg s1 (k (inr e)) r s' -> performs w cfg s (HPLoad v t a k) r s'.

(** what load makes of the outcome of a handler: exceptions get the position, and those
    which are not from the library become an AssertionError *)
Definition handler_outcome (v : value) (t : ty) (r : res value) : res value :=
  match r with
  | Exc (XTL k m tr ve te subs) => Exc (XTL k m ((v, t, None) :: tr) ve te subs)
  | Exc (XRaw _) => Exc (XRaw RAssert)
  | _ => r
  end.

(** the loader, once it knows the handler [h] of [t] *)
Definition after_lookup (w : world) (t : ty) (h : handler) (s : lstate) : lstate :=
  match ty_get t (st_index s) with
  | Some _ => s
  | None => register w t (set_index (cons (t, h)) s)
  end.

Section Callback.
  Variable w : world.
  Variable cfg : config.

  Lemma load_noted n v t a s : load_ann w cfg n v t a s = (noted a (fst (load w cfg n v t s)), snd (load w cfg n v t s)).
  Proof using.
    unfold load, load_ann, load_with, bind, catch.
    assert (X : forall h s1,
      (match run w cfg n h v t s1 with
       | (Ok x, s') => (Ok x, s')
       | (Exc e, s') => (if is_tl e then raise (push_trace (v, t, a) e) else raise (XRaw RAssert)) s'
       | (OOF, s') => (OOF, s')
       end) =
      (noted a (fst (match run w cfg n h v t s1 with
       | (Ok x, s') => (Ok x, s')
       | (Exc e, s') => (if is_tl e then raise (push_trace (v, t, None) e) else raise (XRaw RAssert)) s'
       | (OOF, s') => (OOF, s')
       end)), snd (match run w cfg n h v t s1 with
       | (Ok x, s') => (Ok x, s')
       | (Exc e, s') => (if is_tl e then raise (push_trace (v, t, None) e) else raise (XRaw RAssert)) s'
       | (OOF, s') => (OOF, s')
       end))).
    { intros h s1. destruct (run w cfg n h v t s1) as [[x|e|] s2]; try reflexivity. destruct e; reflexivity. }
    destruct (ty_get t (st_index s)) as [h|]; [apply X|].
    destruct (find_handler cfg t) as [h|[]]; try reflexivity. apply X.
  Qed.
  Lemma noted_ok a r x : noted a r = Ok x -> r = Ok x.
  Proof using. destruct r as [y|[k m [|[[v0 t0] a0] tr] ve te subs|]|]; cbn; congruence. Qed.
  Lemma noted_oof a r : noted a r = OOF -> r = OOF.
  Proof using. destruct r as [y|[k m [|[[v0 t0] a0] tr] ve te subs|]|]; cbn; congruence. Qed.

  Lemma prog_performs n p s r s' : r <> OOF -> run_prog w cfg (run w cfg n) p s = (r, s') -> performs w cfg s p r s'.
  Proof using.
    intro NO. revert s. induction p as [x|e|v t a k IH]; intro s; cbn [run_prog].
    - intros [= <- <-]. constructor.
    - intros [= <- <-]. constructor.
    - unfold bind, attempt. change (load_with w cfg (run w cfg n) v t a s) with (load_ann w cfg n v t a s).
      rewrite load_noted. destruct (load w cfg n v t s) as [r0 s1] eqn:L. cbn [fst snd].
      destruct (noted a r0) as [x|e|] eqn:Nt; intro E.
      + apply noted_ok in Nt. subst r0. eapply performs_loaded; [|apply IH; exact E]. split; [discriminate|]. exists n. exact L.
      + eapply performs_failed; [|exact Nt|apply IH; exact E]. split; [|exists n; exact L]. intros ->. discriminate Nt.
      + congruence.
  Qed.
  Lemma ends_from s v t r s' : ends w cfg s v t r s' -> exists n, forall m, n <= m -> load w cfg m v t s = (r, s').
  Proof using.
    intros [NO [n L]]. exists n. intros m Lm. destruct (load_mono w cfg n m v t None Lm s) as [E|E].
    - change (load_ann w cfg n v t None s) with (load w cfg n v t s) in E. rewrite L in E. contradiction.
    - change (load_ann w cfg n v t None s) with (load w cfg n v t s) in E. rewrite L in E. symmetry. exact E.
  Qed.
  Lemma performs_prog s p r s' : performs w cfg s p r s' ->
    r <> OOF /\ exists n, forall m, n <= m -> run_prog w cfg (run w cfg m) p s = (r, s').
  Proof using.
    intro H. induction H as [s x|s e|s v t a k x s1 r s' E _ [NO [n IH]]|s v t a k r0 e s1 r s' E Nt _ [NO [n IH]]].
    - split; [discriminate|]. exists 0. reflexivity.
    - split; [discriminate|]. exists 0. reflexivity.
    - split; [exact NO|]. apply ends_from in E as [n1 E]. exists (Nat.max n n1). intros m L. cbn [run_prog]. unfold bind, attempt.
      change (load_with w cfg (run w cfg m) v t a s) with (load_ann w cfg m v t a s). rewrite load_noted, E by lia. cbn [fst snd noted].
      apply IH. lia.
    - split; [exact NO|]. apply ends_from in E as [n1 E]. exists (Nat.max n n1). intros m L. cbn [run_prog]. unfold bind, attempt.
      change (load_with w cfg (run w cfg m) v t a s) with (load_ann w cfg m v t a s). rewrite load_noted, E by lia. cbn [fst snd].
      rewrite Nt. apply IH. lia.
  Qed.

  Lemma load_custom n v t f s : coh w cfg s -> find_handler cfg t = POk (HCustom f) ->
    load w cfg (Datatypes.S n) v t s =
    (handler_outcome v t (fst (run_prog w cfg (run w cfg n) (f v t) (after_lookup w t (HCustom f) s))),
     snd (run_prog w cfg (run w cfg n) (f v t) (after_lookup w t (HCustom f) s))).
  Proof using.
    intros C F. unfold load, load_ann, load_with, bind, catch, after_lookup.
    destruct (ty_get t (st_index s)) as [h|] eqn:G.
    - pose proof (coh_index _ _ _ C _ _ G) as E. rewrite F in E. injection E as <-. cbn [run body].
      destruct (run_prog _ _ _ _ _) as [[x|[]|] s1]; reflexivity.
    - rewrite F. cbn [run body]. destruct (run_prog _ _ _ _ _) as [[x|[]|] s1]; reflexivity.
  Qed.
  Lemma custom_ends s v t f : used w cfg s -> find_handler cfg t = POk (HCustom f) ->
    forall r s', ends w cfg s v t r s' <->
      exists r0, performs w cfg (after_lookup w t (HCustom f) s) (f v t) r0 s' /\ r = handler_outcome v t r0.
  Proof using.
    intros U F r s'. pose proof (used_coh _ _ _ U) as C. split.
    - intro E. pose proof E as [NO _]. apply ends_from in E as [n E]. specialize (E (Datatypes.S n) (Nat.le_succ_diag_r n)).
      rewrite (load_custom n v t f s C F) in E. destruct (run_prog w cfg (run w cfg n) (f v t) _) as [r0 s1] eqn:R. cbn [fst snd] in E.
      injection E as <- <-. exists r0. split; [|reflexivity]. eapply prog_performs; [|exact R]. intros ->. apply NO. reflexivity.
    - intros [r0 [H ->]]. apply performs_prog in H as [NO [n H]]. split; [destruct r0 as [x|[]|]; cbn; congruence|].
      exists (Datatypes.S n). rewrite (load_custom n v t f s C F), (H n (le_n _)). reflexivity.
  Qed.
End Callback.

(** ** The Dumper *)
Inductive dperforms (w : world) (cfg : dconfig) (s : dstate) : dprog -> res value -> Prop :=
| dperforms_ret x : dperforms w cfg s (DPRet x) (Ok x)
| dperforms_raise e : dperforms w cfg s (DPRaise e) (Exc e)
| dperforms_dumped v t k x r : dumps_as w cfg s v t (Ok x) -> dperforms w cfg s (k (inl x)) r -> dperforms w cfg s (DPDump v t k) r
| dperforms_failed v t k e r : dumps_as w cfg s v t (Exc e) -> dperforms w cfg s (k (inr e)) r -> dperforms w cfg s (DPDump v t k) r.

Section DumpCallback.
  Variable w : world.
  Variable cfg : dconfig.
  Hypothesis Hcls : class_handlers w cfg.
  Hypothesis Hsane : sane_handlers w cfg.
  Variable s : dstate.
  Hypothesis Hs : dhistory w cfg s.

  Lemma gprog_dperforms n p r : sane_prog w p -> r <> OOF -> gprog (gdump w cfg n) p = r -> dperforms w cfg s p r.
  Proof using All.
    intros Sp NO. revert r NO. induction Sp as [v|e|v t k P _ IH]; intros r NO; cbn [gprog].
    - intros <-. constructor.
    - intros <-. constructor.
    - destruct (gdump w cfg n v t) as [x|e|] eqn:E; intro G.
      + eapply dperforms_dumped; [|apply IH; eassumption]. rewrite (dumps_as_gdump w cfg Hcls Hsane s v t _ Hs P). split; [discriminate|eauto].
      + eapply dperforms_failed; [|apply IH; eassumption]. rewrite (dumps_as_gdump w cfg Hcls Hsane s v t _ Hs P). split; [discriminate|eauto].
      + congruence.
  Qed.
  Lemma dperforms_gprog p r : sane_prog w p -> dperforms w cfg s p r ->
    r <> OOF /\ exists n, forall m, n <= m -> gprog (gdump w cfg m) p = r.
  Proof using All.
    intros Sp H. induction H as [x|e|v t k x r D H IH|v t k e r D H IH].
    - split; [discriminate|]. exists 0. reflexivity.
    - split; [discriminate|]. exists 0. reflexivity.
    - inversion Sp as [| |v0 t0 k0 P Sk]; subst. destruct (IH (Sk _)) as [NO [n Q]]. split; [exact NO|].
      apply (dumps_as_gdump w cfg Hcls Hsane s v t _ Hs P) in D as [_ [n1 D]].
      exists (Nat.max n n1). intros m L. cbn [gprog].
      rewrite (gdump_mono w cfg Hcls Hsane n1 m v t (Ok x) P ltac:(lia) ltac:(discriminate) D). apply Q. lia.
    - inversion Sp as [| |v0 t0 k0 P Sk]; subst. destruct (IH (Sk _)) as [NO [n Q]]. split; [exact NO|].
      apply (dumps_as_gdump w cfg Hcls Hsane s v t _ Hs P) in D as [_ [n1 D]].
      exists (Nat.max n n1). intros m L. cbn [gprog].
      rewrite (gdump_mono w cfg Hcls Hsane n1 m v t (Exc e) P ltac:(lia) ltac:(discriminate) D). apply Q. lia.
  Qed.
  Lemma custom_dumps v t f : python_value w v -> dselects cfg v (DCustom f) ->
    forall r, dumps_as w cfg s v t r <-> dperforms w cfg s (f v t) r.
  Proof using All.
    intros P Sel r. rewrite (dumps_as_gdump w cfg Hcls Hsane s v t r Hs P). apply dselects_find in Sel.
    assert (Sp : sane_prog w (f v t)) by (destruct (dfind_In _ _ _ Sel) as [c I]; eapply Hsane; eassumption).
    split.
    - intros [NO [[|n] Q]]; cbn [gdump] in Q; rewrite Sel in Q; [congruence|]. cbn [gbody] in Q. eapply gprog_dperforms; eassumption.
    - intro H. apply (dperforms_gprog _ _ Sp) in H as [NO [n Q]]. split; [exact NO|]. exists (Datatypes.S n).
      cbn [gdump]. rewrite Sel. cbn [gbody]. apply Q. apply le_n.
  Qed.
End DumpCallback.
