(** * Obs: what a caller of the API observes

    [used s]: [s] is the state of a Loader with settings [cfg] after any
    sequence of calls of load.  [loads s v t r]: calling load(v, t) on it
    finishes, and [r] is what it returns or raises.  The recursion budget of
    the model disappears: see C41.  Same for the Dumper. *)

From Verif Require Import Loader Dumper Spec Inv Fuel.
From Verif Require Export Vocab.





(** ** Facts *)
Lemma adjusted_refl cfg : adjusted cfg cfg.
Proof. repeat split. Qed.
Lemma adjusted_sym cfg cfg' : adjusted cfg cfg' -> adjusted cfg' cfg.
Proof. intros [A [B [C [D E]]]]. repeat split; congruence. Qed.
Lemma adjusted_find cfg cfg' t : adjusted cfg cfg' -> find_handler cfg' t = find_handler cfg t.
Proof.
  intros [A [_ [C _]]]. unfold find_handler, loader_index. rewrite A, C. reflexivity.
Qed.
Lemma adjusted_info w cfg cfg' c fs : adjusted cfg cfg' -> dataclass_info w cfg' c fs = dataclass_info w cfg c fs.
Proof. intros [_ [_ [_ [D E]]]]. unfold dataclass_info, dc_transforms, dc_table, dc_name. rewrite D, E. reflexivity. Qed.
(** what the caches hold does not depend on the settings which can be changed *)
Lemma coh_adjusted w cfg cfg' s : adjusted cfg cfg' -> coh w cfg s -> coh w cfg' s.
Proof.
  intros A [H1 H2 H3]. split; [|intros t oi E; destruct (H2 t oi E) as [c [fs [T [F I]]]]; exists c, fs|exact H3].
  - intros t h E. rewrite (adjusted_find cfg cfg' t A). auto.
  - rewrite (adjusted_info w cfg cfg' c fs A). auto.
Qed.
Lemma used_coh w cfg s : used w cfg s -> coh w cfg s.
Proof.
  induction 1 as [| |cfg cfg' s U IH A]; [apply coh_fresh| |].
  - unfold load. apply coh_load. assumption.
  - apply (coh_adjusted w cfg cfg' s A). exact IH.
Qed.

Lemma loads_fuel w cfg s v t r :
  loads w cfg s v t r -> exists N, forall n, N <= n -> fst (load w cfg n v t s) = r.
Proof.
  intros [NO [N E]]. exists N. intros n L. destruct (load_mono w cfg N n v t None L s) as [O|O].
  - unfold load in E. congruence.
  - unfold load in *. rewrite <- O. exact E.
Qed.

Lemma loads_det w cfg s v t r1 r2 : loads w cfg s v t r1 -> loads w cfg s v t r2 -> r1 = r2.
Proof.
  intros H1 H2. destruct (loads_fuel _ _ _ _ _ _ H1) as [N1 E1].
  destruct (loads_fuel _ _ _ _ _ _ H2) as [N2 E2].
  rewrite <- (E1 (N1 + N2)) by lia. apply E2. lia.
Qed.

Lemma loads_intro w cfg s v t n : fst (load w cfg n v t s) <> OOF -> loads w cfg s v t (fst (load w cfg n v t s)).
Proof. intro H. split; [exact H|exists n; reflexivity]. Qed.

(** [load] after finding the handler *)
Lemma load_eq w cfg n v t a s h :
  coh w cfg s -> find_handler cfg t = POk h ->
  exists s', coh w cfg s' /\
    load_ann w cfg n v t a s =
      catch (run w cfg n h v t)
        (fun e => if is_tl e then raise (push_trace (v, t, a) e) else raise (XRaw RAssert)) s'.
Proof.
  intros C F. unfold load_ann, load_with, bind.
  destruct (ty_get t (st_index s)) as [h'|] eqn:E.
  - pose proof (coh_index _ _ _ C _ _ E) as F'. assert (h' = h) by congruence. subst h'.
    exists s. split; [exact C|reflexivity].
  - rewrite F. exists (register w t (set_index (cons (t, h)) s)).
    split; [apply coh_register; apply coh_set_index; assumption|reflexivity].
Qed.

(** what load makes of the outcome of a handler *)
Definition wrap (v : value) (t : ty) (a : option ann) (r : res value) : res value :=
  match r with
  | Exc e => if is_tl e then Exc (push_trace (v, t, a) e) else Exc (XRaw RAssert)
  | _ => r
  end.

Lemma load_run w cfg n v t a s h :
  coh w cfg s -> find_handler cfg t = POk h ->
  exists s', coh w cfg s' /\
    fst (load_ann w cfg n v t a s) = wrap v t a (fst (run w cfg n h v t s')).
Proof.
  intros C F. destruct (load_eq w cfg n v t a s h C F) as [s' [C' E]].
  exists s'. split; [exact C'|]. rewrite E. unfold catch, wrap.
  destruct (run w cfg n h v t s') as [[r|e|] s2]; cbn [fst]; try reflexivity.
  destruct (is_tl e); reflexivity.
Qed.

(** a handler whose outcome does not depend on the state or on other handlers *)
Lemma loads_pure w cfg s v t h r :
  coh w cfg s -> find_handler cfg t = POk h ->
  (forall call s', fst (body w cfg call h v t s') = r) -> r <> OOF ->
  loads w cfg s v t (wrap v t None r).
Proof.
  intros C F B NO. split.
  - unfold wrap. destruct r; try congruence. destruct (is_tl e); discriminate.
  - exists 1. destruct (load_run w cfg 1 v t None s h C F) as [s' [_ E]].
    unfold load. rewrite E. cbn [run]. rewrite B. reflexivity.
Qed.
Lemma load_pure w cfg n s v t h r :
  coh w cfg s -> find_handler cfg t = POk h ->
  (forall call s', fst (body w cfg call h v t s') = r) ->
  fst (load w cfg (S n) v t s) = wrap v t None r.
Proof.
  intros C F B. destruct (load_run w cfg (S n) v t None s h C F) as [s' [_ E]].
  unfold load. rewrite E. cbn [run]. rewrite B. reflexivity.
Qed.

(** no handler *)
Lemma load_nohandler w cfg n v t a s :
  coh w cfg s -> find_handler cfg t = PExc RValue ->
  fst (load_ann w cfg n v t a s) = Exc (XTL KType (MCannotDeal t) [] (Some v) (Some t) []).
Proof.
  intros C F. unfold load_ann, load_with, bind.
  destruct (ty_get t (st_index s)) as [h'|] eqn:E.
  - pose proof (coh_index _ _ _ C _ _ E). congruence.
  - rewrite F. reflexivity.
Qed.

(** ** Vocabulary for outcomes *)


Lemma loads_all w cfg s v t r0 :
  r0 <> OOF -> (forall n, fst (load w cfg (S n) v t s) = r0) ->
  forall r, loads w cfg s v t r <-> r = r0.
Proof.
  intros NO H r. split.
  - intros L. apply (loads_det w cfg s v t r r0 L). split; [exact NO|exists 1; apply H].
  - intros ->. split; [exact NO|exists 1; apply H].
Qed.

Lemma index_from_bound rce hs t i j :
  index_from rce hs t i = POk j ->
  i <= j /\ exists c h, nth_error hs (j - i) = Some (c, h) /\ c t = POk true /\
    forall k c' h', k < j - i -> nth_error hs k = Some (c', h') -> c' t <> POk true.
Proof.
  revert i. induction hs as [|[c h] hs IH]; intros i; cbn [index_from]; [discriminate|].
  destruct (c t) as [[]|r] eqn:E.
  - intros [= <-]. split; [lia|]. rewrite Nat.sub_diag. exists c, h.
    split; [reflexivity|]. split; [exact E|]. intros k c' h' L. lia.
  - intro H. destruct (IH (S i) H) as [L [c1 [h1 [N [T M]]]]].
    replace (j - i) with (S (j - S i)) by lia. split; [lia|]. exists c1, h1. split; [exact N|].
    split; [exact T|]. intros [|k] c' h' Lk Nk; cbn in Nk.
    + injection Nk as <- <-. congruence.
    + eapply M; [|exact Nk]. lia.
  - destruct rce; [discriminate|]. intro H. destruct (IH (S i) H) as [L [c1 [h1 [N [T M]]]]].
    replace (j - i) with (S (j - S i)) by lia. split; [lia|]. exists c1, h1. split; [exact N|].
    split; [exact T|]. intros [|k] c' h' Lk Nk; cbn in Nk.
    + injection Nk as <- <-. congruence.
    + eapply M; [|exact Nk]. lia.
Qed.

Lemma supported_find cfg t : supported cfg t <-> exists h, find_handler cfg t = POk h.
Proof.
  unfold supported, find_handler. split.
  - intros [i E]. rewrite E. pose proof E as E'. unfold loader_index in E'.
    destruct (index_from_bound _ _ _ _ _ E') as [_ [c [h [N _]]]].
    rewrite Nat.sub_0_r in N. rewrite N. exists h. reflexivity.
  - intros [h E]. destruct (loader_index cfg t) as [i|r]; [|discriminate]. exists i. reflexivity.
Qed.
