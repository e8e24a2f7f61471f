(** * Cost2: how many handlers a dump calls (C61)

    As in Cost.v the calls are counted with marks in the state, which nothing in
    the code looks at: entries for the class int in the cache of what is known
    about dataclasses (int is not a dataclass).  [dcounted] is [drun] which adds
    a mark for every call of a handler; [dcounted_same]: without the marks both
    do the same. *)

From Verif Require Import Loader Dumper Spec Vocab Dumps Fuel.

Definition dmarks (s : dstate) : nat := List.length (filter (fun ci => cid_eqb CInt (fst ci)) (ds_dc s)).
Definition dunmarked (s : dstate) : dstate := mkDState (ds_cache s) (filter (fun ci => negb (cid_eqb CInt (fst ci))) (ds_dc s)).
Definition dmark (s : dstate) : dstate := mkDState (ds_cache s) ((CInt, mkDcinfo [] [] []) :: ds_dc s).
Fixpoint dcounted (w : world) (cfg : dconfig) (n : nat) (h : dhandler) (v : value) (t : ty) {struct n} : DM value :=
  match n with
  | 0 => fun s => (OOF, s)
  | S n' => fun s => dbody w cfg (dcounted w cfg n') h v t (dmark s)
  end.
Definition dcounted_dump (w : world) (cfg : dconfig) (n : nat) (v : value) (t : ty) : DM value :=
  dump_with cfg (dcounted w cfg n) v t.
(** dump(v, annotated_type=t), in the state [s], ends with [r] after [k] calls of handlers *)
Definition dump_calls (w : world) (cfg : dconfig) (s : dstate) (v : value) (t : ty) (r : res value) (k : nat) : Prop :=
  r <> OOF /\ exists n s', dcounted_dump w cfg n v t s = (r, s') /\ dmarks s' = dmarks s + k.

(** ** The marks change nothing *)
Section Same.
  Variable w : world.
  Variable cfg : dconfig.
  Definition dcom {A} (m m' : DM A) : Prop := forall s, m (dunmarked s) = (fst (m' s), dunmarked (snd (m' s))).
  Lemma dcom_ret {A} (a : A) : dcom (ret a) (ret a). Proof using. intro s. reflexivity. Qed.
  Lemma dcom_raise {A} e : dcom (raise (A := A) e) (raise e). Proof using. intro s. reflexivity. Qed.
  Lemma dcom_lift {A} (r : pyres A) : dcom (lift r) (lift r). Proof using. destruct r; intro s; reflexivity. Qed.
  Lemma dcom_bind {A B} (m m' : DM A) (f f' : A -> DM B) : dcom m m' -> (forall a, dcom (f a) (f' a)) -> dcom (bind m f) (bind m' f').
  Proof using. intros H F s. unfold bind. rewrite H. destruct (m' s) as [[a|e|] s1]; cbn [fst snd]; [apply F|reflexivity|reflexivity]. Qed.
  Lemma dcom_attempt {A} (m m' : DM A) : dcom m m' -> dcom (attempt m) (attempt m').
  Proof using. intros H s. unfold attempt. rewrite H. destruct (m' s) as [[a|e|] s1]; reflexivity. Qed.
  Lemma dc_get_un c s : c <> CInt -> cid_get c (ds_dc (dunmarked s)) = cid_get c (ds_dc s).
  Proof using.
    intro N. cbn [dunmarked ds_dc]. induction (ds_dc s) as [|[a i] l IH]; [reflexivity|]. cbn [filter fst cid_get]. destruct (cid_eqb CInt a) eqn:E.
    - cbn [negb]. rewrite IH. destruct (cid_eqb c a) eqn:E2; [|reflexivity]. exfalso. apply N.
      apply cid_eqb_eq in E. apply cid_eqb_eq in E2. congruence.
    - cbn [negb cid_get]. rewrite IH. reflexivity.
  Qed.
  Variables call call' : dhandler -> value -> ty -> DM value.
  Hypothesis Hc : forall h v t, dcom (call h v t) (call' h v t).
  Lemma dcom_with v t : dcom (dump_with cfg call v t) (dump_with cfg call' v t).
  Proof using Hc.
    apply dcom_bind; [|intro h; apply Hc].
    intro s. cbn [dunmarked ds_cache]. destruct (cid_get (type_of v) (ds_cache s)); [reflexivity|]. destruct (dfind cfg v); reflexivity.
  Qed.
  Ltac cm := repeat first
    [ apply dcom_ret | apply dcom_raise | apply dcom_lift | apply dcom_with | apply Hc | apply dcom_attempt
    | match goal with IH : context [dcom] |- _ => apply IH end
    | apply dcom_bind; [|intro]
    | match goal with |- context [match ?x with _ => _ end] => destruct x end ].
  Lemma dcom_attr v fs : forall acc, dcom (attr_loop cfg call v fs acc) (attr_loop cfg call' v fs acc).
  Proof using Hc. induction fs as [|f fs IH]; intro acc; cbn [attr_loop]; cm. Qed.
  Lemma dcom_nt ds fs : forall acc, dcom (nt_loop cfg call ds fs acc) (nt_loop cfg call' ds fs acc).
  Proof using Hc. induction fs as [|[k x] fs IH]; intro acc; cbn [nt_loop]; cm. Qed.
  Lemma dcom_dc v fs i ns : forall acc, dcom (dc_loop cfg call v fs i ns acc) (dc_loop cfg call' v fs i ns acc).
  Proof using Hc. induction ns as [|k ns IH]; intro acc; cbn [dc_loop]; cm. Qed.
  Lemma dcom_list l : forall acc, dcom (dump_list cfg call l acc) (dump_list cfg call' l acc).
  Proof using Hc. induction l as [|x l IH]; intro acc; cbn [dump_list]; cm. Qed.
  Lemma dcom_dict d : forall acc, dcom (dict_loop w cfg call d acc) (dict_loop w cfg call' d acc).
  Proof using Hc. induction d as [|[k x] d IH]; intro acc; cbn [dict_loop]; cm. Qed.
  Lemma dcom_prog p : dcom (run_dprog cfg call p) (run_dprog cfg call' p).
  Proof using Hc. induction p as [v|e|v t k IH]; cbn [run_dprog]; cm. Qed.
  Lemma dcom_body h v t : dcom (dbody w cfg call h v t) (dbody w cfg call' h v t).
  Proof using Hc.
    destruct h; cbn [dbody]; try apply dcom_prog; try apply dcom_ret.
    - unfold namedtupledump. destruct v; try apply dcom_raise. apply dcom_nt.
    - unfold dataclassdump. destruct (ci_dc (class_of w (type_of v))) as [fs|] eqn:E; [|apply dcom_raise]. apply dcom_bind; [|intro i; apply dcom_dc].
      assert (N : type_of v <> CInt) by (intro Q; rewrite Q in E; discriminate E).
      intro s. rewrite dc_get_un by exact N. destruct (cid_get (type_of v) (ds_dc s)); [reflexivity|]. destruct (dc_info w (type_of v) fs); [|reflexivity].
      unfold dunmarked. cbn [fst snd ds_cache ds_dc filter]. destruct (cid_eqb CInt (type_of v)) eqn:Q; [apply cid_eqb_eq in Q; congruence|]. reflexivity.
    - unfold iteratordump. destruct (iter v); [|apply dcom_raise]. destruct (_ && _); [apply dcom_ret|apply dcom_list].
    - destruct v; try apply dcom_raise. apply dcom_with.
    - destruct v; try apply dcom_raise. apply dcom_dict.
    - unfold attrdump. destruct (ci_attrs _); [apply dcom_attr|apply dcom_raise].
    - unfold datetimedump. cm.
    - unfold patterndump. cm.
  Qed.
End Same.
Lemma dcom_counted w cfg n : forall h v t, dcom (drun w cfg n h v t) (dcounted w cfg n h v t).
Proof. induction n as [|n IH]; intros h v t s; [reflexivity|]. cbn [drun dcounted]. change (dunmarked s) with (dunmarked (dmark s)). apply dcom_body, IH. Qed.
Lemma dcounted_same w cfg n v t s : dump_ann w cfg n v t (dunmarked s) = (fst (dcounted_dump w cfg n v t s), dunmarked (snd (dcounted_dump w cfg n v t s))).
Proof. apply dcom_with, dcom_counted. Qed.

(** ** How many calls *)

(** objects in a value, those which dump treats as atomic being one *)
Fixpoint objects (v : value) : nat :=
  S (match v with
     | VList l | VTuple l | VSet l | VFrozen l => list_sum (map objects l)
     | VDict d => list_sum (map (fun kx => objects (fst kx) + objects (snd kx)) d)
     | VNT _ fs | VObj _ fs => list_sum (map (fun kx => objects (snd kx)) fs)
     | VEnum _ _ x => objects x
     | _ => 0
     end).

Lemma objects_pos v : 1 <= objects v. Proof. destruct v; cbn [objects]; lia. Qed.
(** the attributes with distinct names *)
Definition attr_objects (v : value) (ns : list string) : nat :=
  list_sum (map (fun n => match getattr v n with POk x => objects x | PExc _ => 0 end) ns).
Lemma get_without n k (fs : list (string * value)) : n <> k -> str_get n (filter (fun kx => negb (String.eqb k (fst kx))) fs) = str_get n fs.
Proof.
  intro N. induction fs as [|[a x] fs IH]; [reflexivity|]. cbn [filter fst str_get]. destruct (String.eqb_spec k a) as [<-|E]; cbn [negb].
  - rewrite IH. destruct (String.eqb_spec n k); [contradiction|reflexivity].
  - cbn [str_get]. rewrite IH. reflexivity.
Qed.
Lemma sum_without k (fs : list (string * value)) :
  match str_get k fs with Some x => objects x | None => 0 end + list_sum (map (fun kx => objects (snd kx)) (filter (fun kx => negb (String.eqb k (fst kx))) fs))
  <= list_sum (map (fun kx => objects (snd kx)) fs).
Proof.
  unfold list_sum. induction fs as [|[a x] fs IH]; [apply le_n|]. cbn [filter fst str_get]. destruct (String.eqb_spec k a) as [<-|E]; cbn [negb map fold_right snd] in *.
  - destruct (str_get k fs); lia.
  - lia.
Qed.
Lemma distinct_sum ns : NoDup ns -> forall fs : list (string * value),
  list_sum (map (fun n => match str_get n fs with Some x => objects x | None => 0 end) ns) <= list_sum (map (fun kx => objects (snd kx)) fs).
Proof.
  induction ns as [|k ns IH]; intros ND fs; [cbn; lia|]. inversion ND as [|k0 ns0 NI ND']; subst. pose proof (sum_without k fs) as L. specialize (IH ND' (filter (fun kx => negb (String.eqb k (fst kx))) fs)).
  cbn [map list_sum fold_right]. fold (list_sum (map (fun n => match str_get n fs with Some x => objects x | None => 0 end) ns)).
  replace (map (fun n => match str_get n fs with Some x => objects x | None => 0 end) ns)
    with (map (fun n => match str_get n (filter (fun kx => negb (String.eqb k (fst kx))) fs) with Some x => objects x | None => 0 end) ns); [lia|].
  apply map_ext_in. intros n I. rewrite get_without; [reflexivity|]. intros ->. contradiction.
Qed.
Lemma attrs_below v ns : NoDup ns -> S (attr_objects v ns) <= objects v.
Proof.
  intro ND. assert (Z : forall ns0 : list string, list_sum (map (fun _ => 0) ns0) = 0) by (induction ns0; [reflexivity|exact IHns0]).
  unfold attr_objects. destruct v as [| | | | | | | | | | | |c fs|c fs| |]; cbn [getattr objects]; try (rewrite Z; lia);
    apply le_n_S; (eapply Nat.le_trans; [|apply (distinct_sum ns ND)]); apply Nat.eq_le_incl; f_equal; apply map_ext; intro n; destruct (str_get n fs); reflexivity.
Qed.

Section Spend.
  Variable w : world.
  Variables basic strcons : list cid.
  Variable cfg : dconfig.
  Hypothesis Hstd : is_dstd w basic strcons cfg.
  Hypothesis Names : forall c fs, ci_dc (class_of w c) = Some fs \/ ci_attrs (class_of w c) = Some fs -> NoDup (map f_name fs).
  Definition dsp {A} (m : DM A) (k : nat) : Prop :=
    forall s, dcoh w cfg (dunmarked s) -> dcoh w cfg (dunmarked (snd (m s))) /\ dmarks (snd (m s)) <= dmarks s + k.
  Lemma dsp_ret {A} (a : A) k : dsp (ret a) k. Proof using. intros s C. split; [exact C|cbn; lia]. Qed.
  Lemma dsp_raise {A} e k : dsp (raise e : DM A) k. Proof using. intros s C. split; [exact C|cbn; lia]. Qed.
  Lemma dsp_bind {A B} (m : DM A) (f : A -> DM B) k1 k2 k : dsp m k1 -> (forall a, dsp (f a) k2) -> k1 + k2 <= k -> dsp (bind m f) k.
  Proof using.
    intros Hm Hf L s C. unfold bind. destruct (Hm s C) as [C1 L1]. destruct (m s) as [[a|e|] s1]; cbn [fst snd] in *; [|split; [exact C1|lia]|split; [exact C1|lia]].
    destruct (Hf a s1 C1) as [C2 L2]. split; [exact C2|lia].
  Qed.
  Lemma dsp_lift {A B} (r : pyres A) (f : A -> DM B) k : (forall a, r = POk a -> dsp (f a) k) -> dsp (bind (lift r) f) k.
  Proof using. intros H. destruct r as [a|e]; [exact (H a eq_refl)|intros s C; split; [exact C|cbn; lia]]. Qed.
  Variable call : dhandler -> value -> ty -> DM value.
  Lemma dsp_with v t k : python_object w v -> (forall h, dfind cfg v = inl h -> dsp (call h v t) k) -> dsp (dump_with cfg call v t) k.
  Proof using Hstd.
    intros P H s C. unfold dump_with, bind. destruct (cid_get (type_of v) (ds_cache s)) as [h|] eqn:E.
    - apply H; [exact (proj1 C v h P E)|exact C].
    - destruct (dfind cfg v) as [h|e] eqn:F; [|split; [exact C|cbn; lia]].
      apply (H h eq_refl (mkDState ((type_of v, h) :: ds_cache s) (ds_dc s))). split; [|apply C]. cbn [ds_cache dunmarked]. intros v0 h0 Pv. cbn [cid_get].
      destruct (cid_eqb (type_of v0) (type_of v)) eqn:Q; [|apply (proj1 C v0 h0 Pv)].
      apply cid_eqb_eq in Q. intros [= <-]. rewrite (dfind_choice w basic strcons cfg Hstd) in *. rewrite (dchoice_class w basic strcons v0 v Pv P Q).
      destruct (dchoice w basic strcons v); [exact F|discriminate].
  Qed.
  Definition each (x : value) : Prop := forall t, dsp (dump_with cfg call x t) (objects x).
  Lemma dsp_attr v : (forall f x, getattr v f = POk x -> each x) -> forall fs acc, dsp (attr_loop cfg call v fs acc) (attr_objects v (map f_name fs)).
  Proof using.
    intros H fs. unfold attr_objects, list_sum. induction fs as [|f fs IH]; intro acc; cbn [attr_loop map fold_right]; [apply dsp_ret|]. apply dsp_lift. intros x G. rewrite G.
    assert (L : forall acc, dsp (attr_loop cfg call v fs acc) (objects x + fold_right Nat.add 0 (map (fun n => match getattr v n with POk x => objects x | PExc _ => 0 end) (map f_name fs)))).
    { intros acc0 s C. destruct (IH acc0 s C). split; [assumption|lia]. }
    destruct (negb (f_repr f)); [apply L|]. apply dsp_lift. intros [] _; [apply L|]. eapply dsp_bind; [apply (H _ _ G)|intro; apply IH|apply le_n].
  Qed.
  Lemma dsp_nt ds fs : (forall n x, In (n, x) fs -> each x) -> forall acc, dsp (nt_loop cfg call ds fs acc) (list_sum (map (fun kx => objects (snd kx)) fs)).
  Proof using.
    unfold list_sum. induction fs as [|[n x] fs IH]; intros H acc; cbn [nt_loop map fold_right snd]; [apply dsp_ret|].
    assert (H' : forall n x, In (n, x) fs -> each x) by (intros n0 x0 I0; apply (H n0); right; exact I0).
    destruct (_ && _); [intros s C; destruct (IH H' acc s C); split; [assumption|lia]|]. eapply dsp_bind; [apply (H n x); left; reflexivity|intro; apply IH, H'|apply le_n].
  Qed.
  Lemma dsp_dc v fs i : (forall f x, getattr v f = POk x -> each x) -> forall ns acc, dsp (dc_loop cfg call v fs i ns acc) (attr_objects v ns).
  Proof using.
    intros H ns. unfold attr_objects, list_sum. induction ns as [|k ns IH]; intro acc; cbn [dc_loop map fold_right]; [apply dsp_ret|]. destruct (find _ fs) as [f|]; [|apply dsp_raise].
    apply dsp_lift. intros x G. rewrite G. destruct (_ && _); [intros s C; destruct (IH acc s C); split; [assumption|lia]|]. eapply dsp_bind; [apply (H _ _ G)|intro; apply IH|apply le_n].
  Qed.
  Lemma dsp_list l : (forall x, In x l -> each x) -> forall acc, dsp (dump_list cfg call l acc) (list_sum (map objects l)).
  Proof using.
    unfold list_sum. induction l as [|x l IH]; intros H acc; cbn [dump_list map fold_right]; [apply dsp_ret|]. eapply dsp_bind; [apply H; left; reflexivity| |apply le_n].
    intro y. apply IH. intros z I. apply H. right. exact I.
  Qed.
  Lemma dsp_dict d : (forall k x, In (k, x) d -> each k /\ each x) -> forall acc, dsp (dict_loop w cfg call d acc) (list_sum (map (fun kx => objects (fst kx) + objects (snd kx)) d)).
  Proof using.
    unfold list_sum. induction d as [|[k x] d IH]; intros H acc; cbn [dict_loop map fold_right fst snd]; [apply dsp_ret|]. destruct (H k x (or_introl eq_refl)) as [Hk Hx].
    eapply dsp_bind; [apply Hk| |rewrite <- Nat.add_assoc; apply le_n]. intro k'. eapply dsp_bind; [apply Hx| |apply le_n]. intro x'.
    destruct (hashable w k'); [|apply dsp_raise]. apply IH. intros k0 x0 I. apply H. right. exact I.
  Qed.
  Lemma dsp_less {A} (m : DM A) k k' : dsp m k -> k <= k' -> dsp m k'.
  Proof using. intros H L s C. destruct (H s C). split; [assumption|lia]. Qed.
  Lemma dsp_body h v t : dfind cfg v = inl h -> (forall x, holds v x -> each x) -> dsp (dbody w cfg call h v t) (pred (objects v)).
  Proof using Hstd Names.
    intros F H. assert (G : forall f x, getattr v f = POk x -> each x) by (intros f x E; apply H; exact (getattr_holds v f x E)).
    destruct h; cbn [dbody]; try apply dsp_ret.
    - unfold namedtupledump. destruct v; try apply dsp_raise. apply dsp_nt. intros n x I. apply H. eapply holds_nt. exact I.
    - unfold dataclassdump. destruct (ci_dc (class_of w (type_of v))) as [fs|] eqn:E; [|apply dsp_raise].
      assert (N : type_of v <> CInt) by (intro Q; rewrite Q in E; discriminate E).
      assert (ND : forall i, dc_info w (type_of v) fs = POk i -> NoDup (dc_fields i)).
      { intros i. unfold dc_info. destruct (ci_ihints _); [|discriminate]. intros [= <-]. cbn [dc_fields].
        exact (Permutation_NoDup (Permutation_sym (set_iter_perm w _)) (Names _ _ (or_introl E))). }
      intros s C. unfold bind.
      assert (L : forall i s0, dc_info w (type_of v) fs = POk i -> dcoh w cfg (dunmarked s0) -> dcoh w cfg (dunmarked (snd (dc_loop cfg call v fs i (dc_fields i) [] s0))) /\
        dmarks (snd (dc_loop cfg call v fs i (dc_fields i) [] s0)) <= dmarks s0 + pred (objects v)).
      { intros i s0 I C0. pose proof (attrs_below v (dc_fields i) (ND i I)). apply (dsp_less _ _ (pred (objects v)) (dsp_dc v fs i G (dc_fields i) [])); [lia|exact C0]. }
      destruct (cid_get (type_of v) (ds_dc s)) as [i|] eqn:Q.
      + rewrite <- dc_get_un in Q by exact N. destruct (proj2 C _ _ Q) as [fs' [E' I]]. rewrite E in E'. injection E' as <-. exact (L i s I C).
      + destruct (dc_info w (type_of v) fs) as [i|r] eqn:I; [|split; [exact C|cbn; lia]].
        set (s1 := mkDState (ds_cache s) ((type_of v, i) :: ds_dc s)).
        assert (Qn : cid_eqb CInt (type_of v) = false). { destruct (cid_eqb CInt (type_of v)) eqn:Qn; [|reflexivity]. apply cid_eqb_eq in Qn. congruence. }
        assert (M1 : dmarks s1 = dmarks s). { unfold dmarks, s1. cbn [ds_dc filter fst]. rewrite Qn. reflexivity. }
        assert (C1 : dcoh w cfg (dunmarked s1)).
        { split; [apply C|]. unfold s1, dunmarked. cbn [ds_dc filter fst]. rewrite Qn. cbn [negb cid_get]. intros c j.
          destruct (cid_eqb c (type_of v)) eqn:Q'; [|apply (proj2 C)]. apply cid_eqb_eq in Q'. subst c. intros [= <-]. eauto. }
        destruct (L i s1 eq_refl C1) as [A B]. rewrite M1 in B. split; assumption.
    - unfold iteratordump. destruct (iter v) as [l|] eqn:E; [|apply dsp_raise]. destruct (_ && _); [apply dsp_ret|].
      apply dsp_less with (k := list_sum (map objects l)).
      + apply dsp_list. intros x I. apply H. eapply iter_holds; eassumption.
      + rewrite (dfind_choice w basic strcons cfg Hstd) in F. revert F E. unfold dchoice. destruct v; cbn;
        try (repeat match goal with |- context [if ?b then _ else _] => destruct b; [discriminate|] end; discriminate); intros _ [= <-]; try apply le_n.
    - destruct v; try apply dsp_raise. apply H. constructor.
    - destruct v; try apply dsp_raise. apply dsp_dict. intros k x I. split; apply H; [eapply holds_key|eapply holds_value]; exact I.
    - unfold attrdump. destruct (ci_attrs (class_of w (type_of v))) as [fs|] eqn:E; [|apply dsp_raise].
      pose proof (attrs_below v (map f_name fs) (Names _ _ (or_intror E))). apply dsp_less with (k := attr_objects v (map f_name fs)); [apply dsp_attr, G|lia].
    - unfold datetimedump. destruct (d_iso cfg); [apply dsp_ret|]. destruct v as [| | | | | | | | | | | | | | |c p]; try apply dsp_raise.
      destruct p; try apply dsp_raise. destruct (_ && _); [apply dsp_ret|]. destruct (last l VNone); try apply dsp_raise. apply dsp_ret.
    - unfold patterndump. destruct v; try apply dsp_raise. apply dsp_ret.
    - exfalso. exact (dfind_not_custom w basic strcons cfg Hstd _ _ F f eq_refl).
  Qed.
End Spend.

Lemma dsp_counted w basic strcons cfg : is_dstd w basic strcons cfg ->
  (forall c fs, ci_dc (class_of w c) = Some fs \/ ci_attrs (class_of w c) = Some fs -> NoDup (map f_name fs)) ->
  forall n v t, python_value w v -> dsp w cfg (dcounted_dump w cfg n v t) (objects v).
Proof.
  intros Hstd Names. induction n as [|n IH]; intros v t P; unfold dcounted_dump; apply (dsp_with w basic strcons cfg Hstd); try (apply pv_head; exact P); intros h F s C.
  - split; [exact C|cbn; lia].
  - cbn [dcounted]. assert (B : dsp w cfg (dbody w cfg (dcounted w cfg n) h v t) (pred (objects v))).
    { apply (dsp_body w basic strcons cfg Hstd Names); [exact F|]. intros x Hx t'. apply IH. eapply pv_holds; eassumption. }
    destruct (B (dmark s) C) as [B1 B2]. split; [exact B1|]. change (dmarks (dmark s)) with (S (dmarks s)) in B2. pose proof (objects_pos v). lia.
Qed.

(** ** Every dump has a number of calls *)
Section Mono.
  Variable w : world.
  Variable cfg : dconfig.
  Definition up {A} (m : DM A) : Prop := forall s, dmarks s <= dmarks (snd (m s)).
  Lemma up_ret {A} (a : A) : up (ret a). Proof using. intro s. apply le_n. Qed.
  Lemma up_raise {A} e : up (raise e : DM A). Proof using. intro s. apply le_n. Qed.
  Lemma up_lift {A} (r : pyres A) : up (lift r). Proof using. destruct r; intro s; apply le_n. Qed.
  Lemma up_bind {A B} (m : DM A) (f : A -> DM B) : up m -> (forall a, up (f a)) -> up (bind m f).
  Proof using. intros H F s. unfold bind. specialize (H s). destruct (m s) as [[a|e|] s1]; cbn [snd] in *; [|exact H|exact H]. specialize (F a s1). lia. Qed.
  Lemma up_attempt {A} (m : DM A) : up m -> up (attempt m).
  Proof using. intros H s. unfold attempt. specialize (H s). destruct (m s) as [[a|e|] s1]; exact H. Qed.
  Variable call : dhandler -> value -> ty -> DM value.
  Hypothesis Hc : forall h v t, up (call h v t).
  Lemma up_with v t : up (dump_with cfg call v t).
  Proof using Hc. apply up_bind; [|intro h; apply Hc]. intro s. destruct (cid_get _ _); [apply le_n|]. destruct (dfind cfg v); apply le_n. Qed.
  Ltac cm := repeat first
    [ apply up_ret | apply up_raise | apply up_lift | apply up_with | apply Hc | apply up_attempt
    | match goal with IH : context [up] |- _ => apply IH end
    | apply up_bind; [|intro]
    | match goal with |- context [match ?x with _ => _ end] => destruct x end ].
  Lemma up_attr v fs : forall acc, up (attr_loop cfg call v fs acc). Proof using Hc. induction fs as [|f fs IH]; intro acc; cbn [attr_loop]; cm. Qed.
  Lemma up_nt ds fs : forall acc, up (nt_loop cfg call ds fs acc). Proof using Hc. induction fs as [|[k x] fs IH]; intro acc; cbn [nt_loop]; cm. Qed.
  Lemma up_dc v fs i ns : forall acc, up (dc_loop cfg call v fs i ns acc). Proof using Hc. induction ns as [|k ns IH]; intro acc; cbn [dc_loop]; cm. Qed.
  Lemma up_list l : forall acc, up (dump_list cfg call l acc). Proof using Hc. induction l as [|x l IH]; intro acc; cbn [dump_list]; cm. Qed.
  Lemma up_dict d : forall acc, up (dict_loop w cfg call d acc). Proof using Hc. induction d as [|[k x] d IH]; intro acc; cbn [dict_loop]; cm. Qed.
  Lemma up_prog p : up (run_dprog cfg call p). Proof using Hc. induction p as [v|e|v t k IH]; cbn [run_dprog]; cm. Qed.
  Lemma up_body h v t : up (dbody w cfg call h v t).
  Proof using Hc.
    destruct h; cbn [dbody]; try apply up_prog; try apply up_ret.
    - unfold namedtupledump. destruct v; try apply up_raise. apply up_nt.
    - unfold dataclassdump. destruct (ci_dc _); [|apply up_raise]. apply up_bind; [|intro i; apply up_dc].
      intro s. destruct (cid_get _ _); [apply le_n|]. destruct (dc_info _ _ _); [|apply le_n].
      unfold dmarks. cbn [snd ds_dc filter fst]. destruct (cid_eqb CInt (type_of v)); cbn [List.length]; lia.
    - unfold iteratordump. destruct (iter v); [|apply up_raise]. destruct (_ && _); [apply up_ret|apply up_list].
    - destruct v; try apply up_raise. apply up_with.
    - destruct v; try apply up_raise. apply up_dict.
    - unfold attrdump. destruct (ci_attrs _); [apply up_attr|apply up_raise].
    - unfold datetimedump. cm.
    - unfold patterndump. cm.
  Qed.
End Mono.
Lemma up_counted w cfg n : forall h v t, up (dcounted w cfg n h v t).
Proof. induction n as [|n IH]; intros h v t s; [apply le_n|]. cbn [dcounted]. pose proof (up_body w cfg _ IH h v t (dmark s)) as L. change (dmarks (dmark s)) with (S (dmarks s)) in L. lia. Qed.
Lemma ext_dcounted w cfg n m : n <= m -> forall h v t, ext (dcounted w cfg n h v t) (dcounted w cfg m h v t).
Proof.
  intro L. induction L as [|m L IH]; intros h v t; [apply ext_refl|]. eapply ext_trans; [apply IH|]. clear.
  revert h v t. induction m as [|m IH]; intros h v t s; [left; reflexivity|]. exact (dbody_ext w cfg _ _ IH h v t (dmark s)).
Qed.
Lemma dcounted_dumps w cfg s v t r : dumps_as w cfg s v t r <-> exists! k, dump_calls w cfg s v t r k.
Proof.
  assert (Same : forall n, fst (dump_ann w cfg n v t s) = fst (dcounted_dump w cfg n v t s)).
  { intro n. pose proof (dcounted_same w cfg n v t s) as E1.
    assert (R : forall m h x t0, dcom (drun w cfg m h x t0) (drun w cfg m h x t0)).
    { induction m as [|m IH]; intros h x t0; [intro; reflexivity|]. cbn [drun]. apply dcom_body. exact IH. }
    pose proof (dcom_with cfg _ _ (R n) v t s) as E2. unfold dump_ann in *. rewrite E1 in E2. injection E2 as E2 _. symmetry. exact E2. }
  split.
  - intros [N [n E]]. rewrite Same in E. destruct (dcounted_dump w cfg n v t s) as [r' s'] eqn:C. cbn [fst] in E. subst r'.
    exists (dmarks s' - dmarks s). split.
    + split; [exact N|]. exists n, s'. split; [exact C|]. pose proof (up_with cfg _ (up_counted w cfg n) v t s) as L. unfold dcounted_dump in C. rewrite C in L. cbn [snd] in L. lia.
    + intros k [_ [m [s2 [C2 M]]]].
      assert (X : forall a b ra sa rb sb, a <= b -> ra <> OOF -> dcounted_dump w cfg a v t s = (ra, sa) -> dcounted_dump w cfg b v t s = (rb, sb) -> sa = sb).
      { intros a b ra sa rb sb L Na Ea Eb. destruct (dump_with_ext cfg _ _ (ext_dcounted w cfg a b L) v t s) as [O|O]; unfold dcounted_dump in *; rewrite Ea in O; [contradiction|]. rewrite Eb in O. congruence. }
      assert (E2 : s2 = s'). { destruct (Nat.le_ge_cases n m) as [L|L]; [symmetry|]; [exact (X n m _ _ _ _ L N C C2)|exact (X m n _ _ _ _ L N C2 C)]. }
      subst s2. lia.
  - intros [k [[N [n [s' [E _]]]] _]]. split; [exact N|]. exists n. rewrite Same, E. reflexivity.
Qed.

Lemma no_marks s : cid_get CInt (ds_dc (dunmarked s)) = None.
Proof.
  cbn [dunmarked ds_dc]. induction (ds_dc s) as [|[a j] l IH]; [reflexivity|]. cbn [filter fst]. destruct (cid_eqb CInt a) eqn:Q; cbn [negb]; [exact IH|]. cbn [cid_get]. rewrite Q. exact IH.
Qed.
Lemma dump_linear w basic strcons cfg : is_dstd w basic strcons cfg ->
  (forall c fs, ci_dc (class_of w c) = Some fs \/ ci_attrs (class_of w c) = Some fs -> NoDup (map f_name fs)) ->
  forall s v t r k, dhistory w cfg s -> python_value w v -> dump_calls w cfg s v t r k -> k <= objects v.
Proof.
  intros Hstd Names s v t r k H P [_ [n [s' [E M]]]].
  assert (C : dcoh w cfg (dunmarked s)).
  { destruct (dhistory_coh w basic strcons cfg s Hstd H) as [C1 C2]. split; [exact C1|]. intros c i. destruct (cid_eqb c CInt) eqn:Q.
    - apply cid_eqb_eq in Q as ->. rewrite no_marks. discriminate.
    - intro G. rewrite dc_get_un in G; [exact (C2 c i G)|]. intros ->. discriminate Q. }
  pose proof (dsp_counted w basic strcons cfg Hstd Names n v t P s C) as [_ L]. rewrite E in L. cbn [snd] in L. lia.
Qed.
