(** * Index: the choice of the handler (C31, C32, C33) *)

From Verif Require Import Loader Dumper Spec Inv Obs.
From Verif Require Export Vocab.

(** ** Lists of handlers *)
Lemma index_from_shift rce hs t i j :
  index_from rce hs t (i + j) = match index_from rce hs t i with POk k => POk (k + j) | PExc r => PExc r end.
Proof.
  revert i. induction hs as [|[c h] hs IH]; intro i; cbn [index_from]; [reflexivity|].
  destruct (c t) as [[]|r]; [reflexivity| |destruct rce; [reflexivity|]].
  all: change (S (i + j)) with (S i + j); apply IH.
Qed.
Lemma index_from_S rce hs t i :
  index_from rce hs t (S i) = match index_from rce hs t i with POk k => POk (S k) | PExc r => PExc r end.
Proof.
  replace (S i) with (i + 1) by lia. rewrite index_from_shift.
  destruct (index_from rce hs t i); [f_equal; lia|reflexivity].
Qed.


Lemma index_least rce hs t i : index_from rce hs t 0 = POk i <-> least_match rce hs t i.
Proof.
  revert i. induction hs as [|[c h] hs IH]; intro i.
  - cbn. split; [discriminate|]. intros [[c [h [N _]]] _]. destruct i; discriminate.
  - cbn [index_from]. destruct (c t) as [[]|r] eqn:E.
    + split.
      * intros [= <-]. split; [exists c, h; split; [reflexivity|exact E]|]. intros k c' h' L. lia.
      * intros [[c' [h' [N T]]] M]. destruct i as [|i]; [reflexivity|exfalso].
        destruct (M 0 c h) as [F|[_ [r F]]]; [lia|reflexivity|congruence|congruence].
    + rewrite index_from_S. split.
      * destruct (index_from rce hs t 0) as [k|] eqn:F; [|discriminate]. intros [= <-].
        pose proof (proj1 (IH _) eq_refl) as F'. destruct F' as [[c' [h' [N T]]] M].
        split; [exists c', h'; split; [exact N|exact T]|].
        intros [|k'] c1 h1 L N1; cbn in N1; [injection N1 as <- <-; left; exact E|].
        apply (M k' c1 h1); [lia|exact N1].
      * intros [[c' [h' [N T]]] M]. destruct i as [|i]; [cbn in N; injection N as <- <-; congruence|].
        assert (L : least_match rce hs t i).
        { split; [exists c', h'; split; assumption|]. intros k c1 h1 L1 N1. apply (M (S k) c1 h1); [lia|exact N1]. }
        apply IH in L. rewrite L. reflexivity.
    + destruct rce.
      * split; [discriminate|]. intros [[c' [h' [N T]]] M].
        destruct i as [|i]; [cbn in N; injection N as <- <-; congruence|].
        destruct (M 0 c h) as [F|[F _]]; [lia|reflexivity|congruence|discriminate].
      * rewrite index_from_S. split.
        -- destruct (index_from false hs t 0) as [k|] eqn:F; [|discriminate]. intros [= <-].
           pose proof (proj1 (IH _) eq_refl) as F'. destruct F' as [[c' [h' [N T]]] M].
           split; [exists c', h'; split; [exact N|exact T]|].
           intros [|k'] c1 h1 L N1; cbn in N1.
           ++ injection N1 as <- <-. right. split; [reflexivity|]. exists r. exact E.
           ++ apply (M k' c1 h1); [lia|exact N1].
        -- intros [[c' [h' [N T]]] M]. destruct i as [|i]; [cbn in N; injection N as <- <-; congruence|].
           assert (L : least_match false hs t i).
           { split; [exists c', h'; split; assumption|]. intros k c1 h1 L1 N1. apply (M (S k) c1 h1); [lia|exact N1]. }
           apply IH in L. rewrite L. reflexivity.
Qed.

(** the handler found in a list *)
Definition pick (rce : bool) (hs : list (cond * handler)) (t : ty) : pyres handler :=
  match index_from rce hs t 0 with
  | PExc r => PExc r
  | POk i => match nth_error hs i with Some (_, h) => POk h | None => PExc RIndex end
  end.
Lemma pick_find cfg t : pick (raiseconditionerrors cfg) (handlers cfg) t = find_handler cfg t.
Proof. reflexivity. Qed.
Lemma pick_cons rce c h hs t :
  pick rce ((c, h) :: hs) t =
    match c t with
    | POk true => POk h
    | POk false => pick rce hs t
    | PExc r => if rce then PExc r else pick rce hs t
    end.
Proof.
  unfold pick. cbn [index_from]. destruct (c t) as [[]|r]; [reflexivity| |destruct rce; [reflexivity|]].
  all: rewrite index_from_S; destruct (index_from _ hs t 0) as [k|]; reflexivity.
Qed.
Lemma pick_nil rce t : pick rce [] t = PExc RValue. Proof. reflexivity. Qed.

Lemma pick_app rce l1 l2 t :
  pick rce (l1 ++ l2) t =
    match pick rce l1 t with
    | POk h => POk h
    | PExc r => if existsb (fun ch => match fst ch t with PExc _ => true | POk _ => false end) l1 && rce
                then PExc r else pick rce l2 t
    end.
Proof.
  induction l1 as [|[c h] l1 IH]; [cbn [app existsb]; rewrite pick_nil; reflexivity|].
  cbn [app existsb fst]. rewrite !pick_cons. destruct (c t) as [[]|r]; [reflexivity| |].
  - rewrite IH. reflexivity.
  - destruct rce; [reflexivity|]. rewrite IH. destruct (pick false l1 t); [reflexivity|].
    rewrite !andb_false_r. reflexivity.
Qed.

Lemma pick_appended rce l1 l2 t h : pick rce l1 t = POk h -> pick rce (l1 ++ l2) t = POk h.
Proof. intro H. rewrite pick_app, H. reflexivity. Qed.

Lemma pick_insert_no rce l1 c h l2 t :
  c t = POk false -> pick rce (l1 ++ (c, h) :: l2) t = pick rce (l1 ++ l2) t.
Proof.
  intro E. induction l1 as [|[c' h'] l1 IH]; cbn [app]; rewrite !pick_cons.
  - rewrite E. reflexivity.
  - destruct (c' t) as [[]|r]; [reflexivity|exact IH|destruct rce; [reflexivity|exact IH]].
Qed.
Lemma pick_insert_yes rce l1 c h l2 t :
  c t = POk true -> (forall c' h', In (c', h') l1 -> c' t = POk false) ->
  pick rce (l1 ++ (c, h) :: l2) t = POk h.
Proof.
  intros E N. induction l1 as [|[c' h'] l1 IH]; cbn [app]; rewrite pick_cons.
  - rewrite E. reflexivity.
  - rewrite (N c' h' (or_introl eq_refl)). apply IH. intros c1 h1 I. apply (N c1 h1). right. exact I.
Qed.
Lemma pick_insert_later rce l1 c h l2 t h' :
  pick rce l1 t = POk h' -> pick rce (l1 ++ (c, h) :: l2) t = POk h'.
Proof. apply pick_appended. Qed.


Lemma index_quiet hs t i rce : index_from false hs t i = index_from rce (quiet hs) t i.
Proof.
  revert i. induction hs as [|[c h] hs IH]; intro i; [reflexivity|].
  cbn [quiet map index_from fst snd]. fold (quiet hs). destruct (c t) as [[]|r]; auto.
Qed.
Lemma index_quiet_total hs t i r : index_from false hs t i = PExc r -> r = RValue.
Proof.
  revert i. induction hs as [|[c h] hs IH]; intro i; cbn [index_from]; [congruence|].
  destruct (c t) as [[]|r']; [discriminate|apply IH|apply IH].
Qed.
Lemma index_loud l1 c h l2 t r :
  (forall c' h', In (c', h') l1 -> c' t = POk false) -> c t = PExc r ->
  forall i, index_from true (l1 ++ (c, h) :: l2) t i = PExc r.
Proof.
  intros N E. induction l1 as [|[c' h'] l1 IH]; intro i; cbn [app index_from].
  - rewrite E. reflexivity.
  - rewrite (N c' h' (or_introl eq_refl)). apply IH. intros c1 h1 I. apply (N c1 h1). right. exact I.
Qed.


(** ** The dumper *)

Lemma dindex_from_S cfg hs v i :
  dindex_from cfg hs v (S i) = match dindex_from cfg hs v i with inl k => inl (S k) | inr r => inr r end.
Proof.
  revert i. induction hs as [|[c h] hs IH]; intro i; cbn [dindex_from]; [reflexivity|].
  destruct (c v) as [[]|r]; [reflexivity| |destruct (d_rce cfg); [reflexivity|]]; apply IH.
Qed.
Lemma dindex_least cfg hs v i : dindex_from cfg hs v 0 = inl i <-> dleast_match (d_rce cfg) hs v i.
Proof.
  revert i. induction hs as [|[c h] hs IH]; intro i.
  - cbn. split; [discriminate|]. intros [[c [h [N _]]] _]. destruct i; discriminate.
  - cbn [dindex_from].
    assert (K : (c v = POk false \/ (d_rce cfg = false /\ exists r, c v = PExc r)) ->
       (match dindex_from cfg hs v 0 with inl k => inl (S k) | inr r => inr r end = inl i
        <-> dleast_match (d_rce cfg) ((c, h) :: hs) v i)).
    { intro NM. split.
      - destruct (dindex_from cfg hs v 0) as [k|] eqn:F; [|discriminate]. intros [= <-].
        pose proof (proj1 (IH _) eq_refl) as F'. destruct F' as [[c' [h' [N T]]] M].
        split; [exists c', h'; split; [exact N|exact T]|].
        intros [|k'] c1 h1 L N1; cbn in N1; [injection N1 as <- <-; exact NM|].
        apply (M k' c1 h1); [lia|exact N1].
      - intros [[c' [h' [N T]]] M]. destruct i as [|i].
        { cbn in N; injection N as <- <-. destruct NM as [NM|[_ [r NM]]]; congruence. }
        assert (L : dleast_match (d_rce cfg) hs v i).
        { split; [exists c', h'; split; assumption|]. intros k c1 h1 L1 N1. apply (M (S k) c1 h1); [lia|exact N1]. }
        apply IH in L. rewrite L. reflexivity. }
    destruct (c v) as [[]|r] eqn:E.
    + split.
      * intros [= <-]. split; [exists c, h; split; [reflexivity|exact E]|]. intros k c' h' L. lia.
      * intros [[c' [h' [N T]]] M]. destruct i as [|i]; [reflexivity|exfalso].
        destruct (M 0 c h) as [F|[_ [r F]]]; [lia|reflexivity|congruence|congruence].
    + rewrite dindex_from_S. apply K. left. reflexivity.
    + destruct (d_rce cfg) eqn:R.
      * split; [discriminate|]. intros [[c' [h' [N T]]] M].
        destruct i as [|i]; [cbn in N; injection N as <- <-; congruence|].
        destruct (M 0 c h) as [F|[F _]]; [lia|reflexivity|congruence|discriminate].
      * rewrite dindex_from_S. apply K. right. split; [reflexivity|]. exists r. reflexivity.
Qed.

Lemma dindex_none cfg hs v i :
  (forall c h, In (c, h) hs -> c v = POk false \/ (d_rce cfg = false /\ exists r, c v = PExc r)) ->
  dindex_from cfg hs v i = inr (cannot_dump v).
Proof.
  revert i. induction hs as [|[c h] hs IH]; intros i N; cbn [dindex_from]; [reflexivity|].
  destruct (N c h (or_introl eq_refl)) as [E|[R [r E]]]; rewrite E; [|rewrite R];
    apply IH; intros c' h' I; apply (N c' h'); right; exact I.
Qed.
Lemma index_none rce hs t i :
  (forall c h, In (c, h) hs -> c t = POk false \/ (rce = false /\ exists r, c t = PExc r)) ->
  index_from rce hs t i = PExc RValue.
Proof.
  revert i. induction hs as [|[c h] hs IH]; intros i N; cbn [index_from]; [reflexivity|].
  destruct (N c h (or_introl eq_refl)) as [E|[R [r E]]]; rewrite E; [|subst rce];
    apply IH; intros c' h' I; apply (N c' h'); right; exact I.
Qed.

(** the caches of the dumper *)
Definition dcoh (w : world) (cfg : dconfig) (s : dstate) : Prop :=
  (forall c h, cid_get c (ds_cache s) = Some h -> exists v, type_of v = c /\ dfind cfg v = inl h) /\
  (forall c i, cid_get c (ds_dc s) = Some i -> exists fs, ci_dc (class_of w c) = Some fs /\ dc_info w c fs = POk i).

Section DPreorder.
  Variable w : world.
  Variable cfg : dconfig.
  Variable R : dstate -> dstate -> Prop.
  Hypothesis Rrefl : forall s, R s s.
  Hypothesis Rtrans : forall a b c, R a b -> R b c -> R a c.
  Hypothesis Rcache : forall s v h, cid_get (type_of v) (ds_cache s) = None -> dfind cfg v = inl h ->
      R s (mkDState ((type_of v, h) :: ds_cache s) (ds_dc s)).
  Hypothesis Rdc : forall s c fs i, cid_get c (ds_dc s) = None -> ci_dc (class_of w c) = Some fs ->
      dc_info w c fs = POk i -> R s (mkDState (ds_cache s) ((c, i) :: ds_dc s)).

  Definition dpr {A} (m : DM A) : Prop := forall s, R s (snd (m s)).
  Lemma dpr_ret {A} (a : A) : dpr (ret a). Proof using Rrefl. intro s. apply Rrefl. Qed.
  Lemma dpr_raise {A} e : dpr (@raise dstate A e). Proof using Rrefl. intro s. apply Rrefl. Qed.
  Lemma dpr_lift {A} (r : pyres A) : dpr (lift r).
  Proof using Rrefl. destruct r; [apply dpr_ret|apply dpr_raise]. Qed.
  Lemma dpr_bind {A B} (m : DM A) (f : A -> DM B) : dpr m -> (forall a, dpr (f a)) -> dpr (bind m f).
  Proof using Rtrans.
    intros H Hf s. unfold bind. specialize (H s). destruct (m s) as [[a|e|] s1]; cbn in *; auto.
    eapply Rtrans; [exact H|apply Hf].
  Qed.
  Lemma dpr_attempt {A} (m : DM A) : dpr m -> dpr (attempt m).
  Proof using.
    intros H s. unfold attempt. specialize (H s). destruct (m s) as [[a|e|] s1]; cbn in *; auto.
  Qed.
  Hint Resolve dpr_ret dpr_raise dpr_lift : dprdb.
  Ltac dpr_step :=
    first
      [ match goal with H : forall h v t, dpr _ |- _ => apply H end
      | solve [auto with dprdb]
      | apply dpr_bind; [|intro]
      | apply dpr_attempt
      | match goal with |- dpr (match ?x with _ => _ end) => destruct x end ].
  Ltac dpr_auto := repeat (cbv beta; dpr_step).

  Variable call : dhandler -> value -> ty -> DM value.
  Hypothesis Hcall : forall h v t, dpr (call h v t).
  Lemma dpr_dump_with v t : dpr (dump_with cfg call v t).
  Proof using Rrefl Rtrans Rcache Hcall.
    unfold dump_with. apply dpr_bind; [|intro; apply Hcall].
    intro s. destruct (cid_get (type_of v) (ds_cache s)) eqn:E; [apply Rrefl|].
    destruct (dfind cfg v) eqn:F; cbn; auto.
  Qed.
  Hint Resolve dpr_dump_with : dprdb.
  Lemma dpr_attr_loop v fs acc : dpr (attr_loop cfg call v fs acc).
  Proof using Rrefl Rtrans Rcache Hcall.
    revert acc. induction fs as [|f fs IH]; intro acc; cbn [attr_loop]; dpr_auto. all: apply IH.
  Qed.
  Lemma dpr_nt_loop ds fs acc : dpr (nt_loop cfg call ds fs acc).
  Proof using Rrefl Rtrans Rcache Hcall.
    revert acc. induction fs as [|[k x] fs IH]; intro acc; cbn [nt_loop]; dpr_auto. all: apply IH.
  Qed.
  Lemma dpr_dc_loop v fs i ns acc : dpr (dc_loop cfg call v fs i ns acc).
  Proof using Rrefl Rtrans Rcache Hcall.
    revert acc. induction ns as [|k ns IH]; intro acc; cbn [dc_loop]; dpr_auto. all: apply IH.
  Qed.
  Lemma dpr_dump_list l acc : dpr (dump_list cfg call l acc).
  Proof using Rrefl Rtrans Rcache Hcall.
    revert acc. induction l as [|x l IH]; intro acc; cbn [dump_list]; dpr_auto. all: apply IH.
  Qed.
  Lemma dpr_dict_loop d acc : dpr (dict_loop w cfg call d acc).
  Proof using Rrefl Rtrans Rcache Hcall.
    revert acc. induction d as [|[k x] d IH]; intro acc; cbn [dict_loop]; dpr_auto. all: apply IH.
  Qed.
  Lemma dpr_run_dprog p : dpr (run_dprog cfg call p).
  Proof using Rrefl Rtrans Rcache Hcall.
    induction p as [v|e|v t k IH]; cbn [run_dprog]; dpr_auto. all: apply IH.
  Qed.
  Hint Resolve dpr_attr_loop dpr_nt_loop dpr_dc_loop dpr_dump_list dpr_dict_loop dpr_run_dprog : dprdb.
  Lemma dpr_dbody h v t : dpr (dbody w cfg call h v t).
  Proof using Rrefl Rtrans Rcache Rdc Hcall.
    destruct h; cbn [dbody]; auto with dprdb.
    - unfold namedtupledump. dpr_auto.
    - unfold dataclassdump. destruct (ci_dc (class_of w (type_of v))) as [fs|] eqn:D; dpr_auto.
      intro s. destruct (cid_get (type_of v) (ds_dc s)) eqn:E; [apply Rrefl|].
      destruct (dc_info w (type_of v) fs) eqn:F; cbn; auto. eapply Rdc; eassumption.
    - unfold iteratordump. dpr_auto.
    - dpr_auto.
    - dpr_auto.
    - unfold attrdump. dpr_auto.
    - unfold datetimedump. dpr_auto.
    - unfold patterndump. dpr_auto.
  Qed.
End DPreorder.

Section DPreorderRun.
  Variable w : world.
  Variable cfg : dconfig.
  Variable R : dstate -> dstate -> Prop.
  Hypothesis Rrefl : forall s, R s s.
  Hypothesis Rtrans : forall a b c, R a b -> R b c -> R a c.
  Hypothesis Rcache : forall s v h, cid_get (type_of v) (ds_cache s) = None -> dfind cfg v = inl h ->
      R s (mkDState ((type_of v, h) :: ds_cache s) (ds_dc s)).
  Hypothesis Rdc : forall s c fs i, cid_get c (ds_dc s) = None -> ci_dc (class_of w c) = Some fs ->
      dc_info w c fs = POk i -> R s (mkDState (ds_cache s) ((c, i) :: ds_dc s)).
  Lemma dpr_drun n h v t s : R s (snd (drun w cfg n h v t s)).
  Proof using Rrefl Rtrans Rcache Rdc.
    revert h v t s. induction n as [|n IH]; intros h v t s; cbn [drun]; [apply Rrefl|].
    apply (dpr_dbody w cfg R); auto.
  Qed.
  Lemma dpr_dump n v t s : R s (snd (dump_ann w cfg n v t s)).
  Proof using Rrefl Rtrans Rcache Rdc.
    apply (dpr_dump_with cfg R); auto. intros h v' t' s'. apply dpr_drun.
  Qed.
End DPreorderRun.

Lemma cid_get_cons {A} c c' (a : A) l : cid_get c ((c', a) :: l) = if cid_eqb c c' then Some a else cid_get c l.
Proof. reflexivity. Qed.

Lemma dcoh_fresh w cfg : dcoh w cfg dfresh.
Proof. split; cbn; discriminate. Qed.
Lemma dcoh_cache w cfg s v h :
  dfind cfg v = inl h -> dcoh w cfg s -> dcoh w cfg (mkDState ((type_of v, h) :: ds_cache s) (ds_dc s)).
Proof.
  intros F [H1 H2]. split; [|exact H2]. intros c h'. cbn [ds_cache]. rewrite cid_get_cons.
  destruct (cid_eqb c (type_of v)) eqn:E; [|apply H1]. intros [= <-]. apply cid_eqb_eq in E. exists v. auto.
Qed.
Lemma dcoh_dc w cfg s c fs i :
  ci_dc (class_of w c) = Some fs -> dc_info w c fs = POk i ->
  dcoh w cfg s -> dcoh w cfg (mkDState (ds_cache s) ((c, i) :: ds_dc s)).
Proof.
  intros D F [H1 H2]. split; [exact H1|]. intros c' i'. cbn [ds_dc]. rewrite cid_get_cons.
  destruct (cid_eqb c' c) eqn:E; [|apply H2]. intros [= <-]. apply cid_eqb_eq in E. subst c'. exists fs. auto.
Qed.
Lemma dcoh_dump w cfg n v t s : dcoh w cfg s -> dcoh w cfg (snd (dump_ann w cfg n v t s)).
Proof.
  apply (dpr_dump w cfg (fun a b => dcoh w cfg a -> dcoh w cfg b)); auto.
  - intros s0 v0 h _ F. apply dcoh_cache. exact F.
  - intros s0 c fs i _ D F. eapply dcoh_dc; eassumption.
Qed.
Lemma dcoh_drun w cfg n h v t s : dcoh w cfg s -> dcoh w cfg (snd (drun w cfg n h v t s)).
Proof.
  apply (dpr_drun w cfg (fun a b => dcoh w cfg a -> dcoh w cfg b)); auto.
  - intros s0 v0 h0 _ F. apply dcoh_cache. exact F.
  - intros s0 c fs i _ D F. eapply dcoh_dc; eassumption.
Qed.
Lemma dindex_rce cfg cfg' hs v i : d_rce cfg = d_rce cfg' -> dindex_from cfg hs v i = dindex_from cfg' hs v i.
Proof.
  intro E. revert i. induction hs as [|[c h] hs IH]; intro i; cbn [dindex_from]; [reflexivity|]. rewrite E, IH. reflexivity.
Qed.
Lemma dused_dcoh w cfg s : dused w cfg s -> dcoh w cfg s.
Proof.
  induction 1 as [| |cfg cfg' s U IH A]; [apply dcoh_fresh|apply dcoh_dump; assumption|].
  destruct IH as [H1 H2]. split; [|exact H2]. intros c h E. destruct (H1 c h E) as [v [T F]]. exists v. split; [exact T|].
  destruct A as [A [_ C]]. unfold dfind, dindex in *. rewrite A. rewrite (dindex_rce cfg' cfg) by exact C. exact F.
Qed.
