(** * Trace: what an exception says, and when it is not a TypedloadException
      (towards C17, C18, C19) *)

From Verif Require Import Loader Spec Inv Std Sound Objects Unions.
From Verif Require Export Vocab.

Lemma meets_trans w cfg env v t x t1 y t2 :
  meets w cfg env v t x t1 -> meets w cfg env x t1 y t2 -> meets w cfg env v t y t2.
Proof.
  intro M. revert y t2. induction M as [v t|v t i x t1 v' t' Mv M IH|v t t1 v' t' A M IH]; intros y t2 M2.
  - exact M2.
  - eapply meets_move; eauto.
  - eapply meets_alt; eauto.
Qed.

(** the elementary updates *)
Section Good.
  Variable w : world.
  Variable cfg : config.
  Definition gd {A} (m : M A) : Prop := forall s, good_step w cfg s (snd (m s)).
  Lemma good_refl s : good_step w cfg s s.
  Proof using. split; [auto|apply st_le_refl]. Qed.
  Lemma good_trans a b c : good_step w cfg a b -> good_step w cfg b c -> good_step w cfg a c.
  Proof using. intros [A1 A2] [B1 B2]. split; [auto|eapply st_le_trans; eassumption]. Qed.
  Lemma good_index s t h :
    ty_get t (st_index s) = None -> find_handler cfg t = POk h -> good_step w cfg s (set_index (cons (t, h)) s).
  Proof using.
    intros N F. split; [intro; apply coh_set_index; assumption|split; cbn [st_index st_frefs st_fields st_disc st_stripped set_index]; try apply frefs_refl; auto].
    intros; apply ty_get_cons_None; assumption.
  Qed.
  Lemma good_reg s t : good_step w cfg s (register w t s).
  Proof using. split; [apply coh_register|apply register_le]. Qed.
  Lemma good_fields s c fs oi :
    ty_get (TClass c) (st_fields s) = None -> ci_dc (class_of w c) = Some fs ->
    dataclass_info w cfg c fs = POk oi ->
    good_step w cfg s (set_fields (cons (TClass c, oi)) s).
  Proof using.
    intros. split; [intro; eapply coh_set_fields; eassumption|split; cbn [st_index st_frefs st_fields st_disc st_stripped set_fields]; try apply frefs_refl; auto].
    intros; apply ty_get_cons_None; assumption.
  Qed.
  Lemma good_disc s t args :
    same_get t (st_disc s) = None -> ty_args t = Some args ->
    good_step w cfg s (set_disc (cons (t, build_disc w s args)) s).
  Proof using.
    intros. split; [intro; eapply coh_set_disc; eassumption|split; cbn [st_index st_frefs st_fields st_disc st_stripped set_disc]; try apply frefs_refl; auto].
    intros; apply same_get_cons_None; assumption.
  Qed.
  Lemma good_strip s c : ci_td (class_of w c) <> None -> good_step w cfg s (set_stripped (cons c) s).
  Proof using.
    intros. split; [apply coh_set_stripped|split; cbn [st_index st_frefs st_fields st_disc st_stripped set_stripped]; try apply frefs_refl; auto].
    intros; right; assumption.
  Qed.

  Lemma gd_ret {A} (a : A) : gd (ret a). Proof using. intro s. apply good_refl. Qed.
  Lemma gd_raise {A} e : gd (@raise lstate A e). Proof using. intro s. apply good_refl. Qed.
  Lemma gd_get : gd get_st. Proof using. intro s. apply good_refl. Qed.
  Lemma gd_lift {A} (r : pyres A) : gd (lift r). Proof using. destruct r; [apply gd_ret|apply gd_raise]. Qed.
  Lemma gd_bind {A B} (m : M A) (f : A -> M B) : gd m -> (forall a, gd (f a)) -> gd (bind m f).
  Proof using. apply (pr_bind (good_step w cfg) good_trans). Qed.
  Lemma gd_catch {A} (m : M A) f : gd m -> (forall e, gd (f e)) -> gd (catch m f).
  Proof using. apply (pr_catch (good_step w cfg) good_trans). Qed.
  Lemma gd_attempt {A} (m : M A) : gd m -> gd (attempt m).
  Proof using. apply (pr_attempt (good_step w cfg)). Qed.
  Lemma gd_lookup nf t : gd (lookup_handler cfg nf t).
  Proof using. apply (pr_lookup cfg (good_step w cfg)); auto using good_refl, good_index. Qed.
  Lemma gd_item_error {A} v t i e : gd (@item_error A v t i e).
  Proof using. apply (pr_item_error (good_step w cfg)); auto using good_refl. Qed.
  Lemma gd_mangle names v t : gd (mangle cfg names v t).
  Proof using. apply (pr_mangle cfg (good_step w cfg)); auto using good_refl. Qed.

  Variable call : handler -> value -> ty -> M value.
  Hypothesis Gcall : forall h v t, gd (call h v t).
  Lemma gd_load_with v t a : gd (load_with w cfg call v t a).
  Proof using Gcall.
    apply (pr_load_with w cfg (good_step w cfg)); auto using good_refl, good_index, good_reg. exact good_trans.
  Qed.
  Lemma gd_dict_fast kt vt kf vf d acc : gd (dict_fast w cfg call kt vt kf vf d acc).
  Proof using Gcall.
    apply (pr_dict_fast w cfg (good_step w cfg)); auto using good_refl. exact good_trans.
  Qed.
  Lemma gd_dict_slow kt vt d acc : gd (dict_slow w cfg call kt vt d acc).
  Proof using Gcall.
    apply (pr_dict_slow w cfg (good_step w cfg)); auto using good_refl, good_index, good_reg. exact good_trans.
  Qed.
  Lemma gd_iter_loop k mp f v t l i acc : (forall x, gd (f x)) -> gd (iter_loop w k mp f v t l i acc).
  Proof using. apply (pr_iter_loop w (good_step w cfg)); auto using good_refl. exact good_trans. Qed.
  Lemma gd_iter_item h et x : gd (iter_item w cfg call h et x).
  Proof using Gcall.
    unfold iter_item. repeat match goal with |- gd (match ?x with _ => _ end) => destruct x end; auto using gd_ret.
  Qed.
  Lemma gd_tuple_loop v t l ts i acc : gd (tuple_loop cfg call v t l ts i acc).
  Proof using Gcall. apply (pr_tuple_loop cfg (good_step w cfg)); auto using good_refl. exact good_trans. Qed.
  Lemma gd_fields_loop fs hints v t d acc : gd (fields_loop cfg call fs hints v t d acc).
  Proof using Gcall. apply (pr_fields_loop cfg (good_step w cfg)); auto using good_refl, good_index. exact good_trans. Qed.
  Lemma gd_try_members v t ts n r exs : gd (try_members cfg call v t ts n r exs).
  Proof using Gcall. apply (pr_try_members cfg (good_step w cfg)); auto using good_refl, good_index. exact good_trans. Qed.
  Lemma gd_enum_hints v t ts exs : gd (enum_hints w cfg call v t ts exs).
  Proof using Gcall. apply (pr_enum_hints w cfg (good_step w cfg)); auto using good_refl, good_index, good_reg. exact good_trans. Qed.
  Lemma gd_objloader fs nec hints v t : gd (objloader w cfg call fs nec hints v t).
  Proof using Gcall. apply (pr_objloader w cfg (good_step w cfg)); auto using good_refl, good_index. exact good_trans. Qed.
End Good.
Lemma gd_run w cfg n h v t : gd w cfg (run w cfg n h v t).
Proof. intro s. apply good_run. Qed.

#[export] Hint Resolve gd_ret gd_raise gd_get gd_lift gd_lookup gd_item_error gd_mangle gd_load_with gd_dict_fast gd_dict_slow
  gd_iter_loop gd_iter_item gd_tuple_loop gd_fields_loop gd_try_members gd_enum_hints gd_objloader : gddb.
Ltac gd_auto :=
  repeat (cbv beta; first
    [ solve [auto with gddb]
    | apply gd_bind; [|intro]
    | apply gd_catch; [|intro]
    | apply gd_attempt
    | match goal with
      | |- gd _ _ (match ?x with _ => _ end) => destruct x
      | |- gd _ _ (let _ := _ in _) => cbv zeta
      end ]).

Section Trace.
  Variable w : world.
  Variables basic strcons : list cid.
  Variable cfg : config.
  Hypothesis Hstd : is_std w basic strcons cfg.
  Hypothesis Hwf : wf_reflect w.
  (** the state at the start, and the state at the end: names are never rebound *)
  Variables S0 SF : lstate.
  Notation p := (pep563 cfg).
  Notation env := (names_of SF).
  Notation move := (move w cfg env).
  Notation meets := (meets w cfg env).
  Notation reported := (reported w cfg env).
  (** what holds of the places where load fails *)
  Variable bad : value -> ty -> exn -> Prop.
  Notation explains := (blames w cfg env bad).
  Notation sub_explains := (sub_blames w cfg env bad).
  Notation hazard := (hazard w cfg env).
  Notation reach := (reach w p env).

  (** ** A Hoare logic: coherent states, monotone, ending below [SF] *)
  Notation gd := (gd w cfg).
  Definition from_start (s : lstate) : Prop := coh w cfg s /\ good_step w cfg S0 s.
  Lemma from_step s s' : from_start s -> good_step w cfg s s' -> from_start s'.
  Proof using. intros [C G0] G1. split; [apply G1; exact C|eapply good_trans; eassumption]. Qed.
  Definition hx {A} (m : M A) (Q : A -> Prop) (E : exn -> Prop) : Prop :=
    forall s, from_start s -> st_le (snd (m s)) SF ->
      match fst (m s) with Ok a => Q a | Exc e => E e | OOF => True end.

  Lemma hx_ret {A} (a : A) (Q : A -> Prop) E : Q a -> hx (ret a) Q E.
  Proof using. intros H s C L. exact H. Qed.
  Lemma hx_raise {A} e (Q : A -> Prop) (E : exn -> Prop) : E e -> hx (raise e) Q E.
  Proof using. intros H s C L. exact H. Qed.
  Lemma hx_lift {A} (r : pyres A) (Q : A -> Prop) (E : exn -> Prop) :
    (forall a, r = POk a -> Q a) -> (forall k, r = PExc k -> E (XRaw k)) -> hx (lift r) Q E.
  Proof using. intros HQ HE. destruct r; [apply hx_ret; auto|apply hx_raise; auto]. Qed.
  Lemma hx_bind {A B} (m : M A) (f : A -> M B) Q1 Q E :
    gd m -> (forall a, gd (f a)) -> hx m Q1 E -> (forall a, Q1 a -> hx (f a) Q E) -> hx (bind m f) Q E.
  Proof using.
    intros Gm Gf Hm Hf s C. unfold bind. specialize (Hm s C). specialize (Gm s).
    destruct (m s) as [[a|e|] s1]; cbn [fst snd] in *; intro L; try (apply Hm; exact L).
    assert (C1 : from_start s1) by exact (from_step _ _ C Gm).
    assert (L1 : st_le s1 SF) by (eapply st_le_trans; [apply Gf|exact L]).
    exact (Hf a (Hm L1) s1 C1 L).
  Qed.
  Lemma hx_catch {A} (m : M A) f Q E1 E :
    gd m -> (forall e, gd (f e)) -> hx m Q E1 -> (forall e, E1 e -> hx (f e) Q E) -> hx (catch m f) Q E.
  Proof using.
    intros Gm Gf Hm Hf s C. unfold catch. specialize (Hm s C). specialize (Gm s).
    destruct (m s) as [[a|e|] s1]; cbn [fst snd] in *; intro L; try (apply Hm; exact L).
    assert (C1 : from_start s1) by exact (from_step _ _ C Gm).
    assert (L1 : st_le s1 SF) by (eapply st_le_trans; [apply Gf|exact L]).
    exact (Hf e (Hm L1) s1 C1 L).
  Qed.
  Lemma hx_attempt {A} (m : M A) (Q : A -> Prop) (E1 E : exn -> Prop) :
    hx m Q E1 -> hx (attempt m) (fun r => match r with inl a => Q a | inr e => E1 e end) E.
  Proof using.
    intros Hm s C. unfold attempt. specialize (Hm s C).
    destruct (m s) as [[a|e|] s1]; cbn [fst snd] in *; exact Hm.
  Qed.
  Lemma hx_weak {A} (m : M A) (Q Q' : A -> Prop) (E E' : exn -> Prop) :
    hx m Q E -> (forall a, Q a -> Q' a) -> (forall e, E e -> E' e) -> hx m Q' E'.
  Proof using.
    intros Hm HQ HE s C L. specialize (Hm s C L). destruct (fst (m s)); auto.
  Qed.
  Lemma hx_any {A} (m : M A) : hx m (fun _ => True) (fun _ => True).
  Proof using. intros s C L. destruct (fst (m s)); exact I. Qed.

  Variable call : handler -> value -> ty -> M value.
  Hypothesis Gcall : forall h v t, gd (call h v t).


  (** ** What is claimed of a call *)
  Definition pyv (v : value) : Prop := forall x, inside v x -> hashed w x.
  Definition keyable (t : ty) : Prop := forall n o a, reach t (TGen n o a) -> o <> OList /\ o <> OSet.
  Definition risky (v : value) (t : ty) : Prop :=
    hashable_results w basic strcons -> pyv v -> (forall x t', meets v t x t' -> ~ hazard x t') -> False.
  Definition EX (v : value) (t : ty) (e : exn) : Prop :=
    match e with XRaw _ => risky v t | XTL _ _ _ _ _ _ => explains v t e end.
  Definition EXB (v : value) (t : ty) (e : exn) : Prop := EX v t e /\ bad v t e.
  Definition QV (v : value) (t : ty) (r : value) : Prop :=
    hashable_results w basic strcons -> pyv v -> hashable w v = true -> keyable t -> hashable w r = true.

  Lemma pyv_part v x : part v x -> pyv v -> pyv x.
  Proof using. intros P H y I. apply H. econstructor; eassumption. Qed.
  Lemma keyable_comp t t' : component w p env t t' -> keyable t -> keyable t'.
  Proof using. intros C K n o a R. apply (K n o a). econstructor; eassumption. Qed.
  Lemma dict_items_part v d k x : dict_items cfg v d -> In (k, x) d -> part v k /\ part v x.
  Proof using.
    intros [->|[_ [a [-> ->]]]] I.
    - split; [|eapply part_value; exact I]. eapply part_item; [reflexivity|]. apply (in_map fst) in I. exact I.
    - apply in_map_iff in I as [[k0 x0] [[= <- <-] I]]. split; [eapply part_ns_key; exact I|eapply part_ns_value; exact I].
  Qed.
  Lemma iter_part v l i x : iter v = Some l -> nth_error l i = Some x -> part v x.
  Proof using. intros I N. eapply part_item; [exact I|eapply nth_error_In; exact N]. Qed.
  Lemma move_part v t i x t1 : move v t i x t1 -> x = v \/ part v x.
  Proof using.
    intros []; auto; right.
    - eapply iter_part; eassumption.
    - match goal with D : dict_items _ _ _, I : In (VStr _, _) _ |- _ => apply (dict_items_part _ _ _ _ D I) end.
    - match goal with D : dict_items _ _ _, I : In _ _ |- _ => apply (dict_items_part _ _ _ _ D I) end.
    - match goal with D : dict_items _ _ _, I : In _ _ |- _ => apply (dict_items_part _ _ _ _ D I) end.
  Qed.
  Lemma move_pyv v t i x t1 : move v t i x t1 -> pyv v -> pyv x.
  Proof using. intros M H. destruct (move_part _ _ _ _ _ M) as [->|P]; [exact H|eapply pyv_part; eassumption]. Qed.

  Lemma risky_here v t : hazard v t -> risky v t.
  Proof using. intros Z _ _ N. exact (N v t (meets_here _ _ _ _ _) Z). Qed.
  Lemma risky_move v t i x t1 : move v t i x t1 -> risky x t1 -> risky v t.
  Proof using.
    intros M R HR P N. apply R; [exact HR|eapply move_pyv; eassumption|].
    intros y t2 M2. apply N. eapply meets_move; eassumption.
  Qed.
  Lemma risky_alt v t t1 : alternative w t t1 -> risky v t1 -> risky v t.
  Proof using. intros A R HR P N. apply R; [exact HR|exact P|]. intros y t2 M2. apply N. eapply meets_alt; eassumption. Qed.

  Lemma explains_move v t i x t1 e : move v t i x t1 -> bad x t1 e -> explains x t1 e -> explains v t (push_trace i e).
  Proof using.
    intros M B X. inversion X as [v0 t0 k m tr ve te subs v' t' Wk Rp Su Fs]; subst. cbn [push_trace].
    econstructor; [econstructor; [exact M|exact B|exact Wk]|exact Rp|exact Su|exact Fs].
  Qed.
  Lemma EX_move v t i x t1 e : move v t i x t1 -> EXB x t1 e -> EX v t (push_trace i e).
  Proof using.
    intros M [X B]. destruct e; cbn [push_trace EX] in *; [|exact (risky_move _ _ _ _ _ M X)].
    exact (explains_move _ _ _ _ _ _ M B X).
  Qed.
  Lemma shown_refl v : shown cfg v v. Proof using. left. reflexivity. Qed.
  Lemma EX_here v t k m x t' :
    shown cfg v x -> t' = t \/ component w p env t t' -> EX v t (XTL k m [] (Some x) (Some t') []).
  Proof using.
    intros S C. cbn [EX]. econstructor; [apply bwalk_here| |intros []; reflexivity|constructor].
    right. exists x, t'. auto.
  Qed.
  Lemma EX_none v t k m : EX v t (XTL k m [] None None []).
  Proof using. cbn [EX]. econstructor; [apply bwalk_here|left; auto|intros []; reflexivity|constructor]. Qed.
  Hint Resolve EX_here EX_none shown_refl : core.

  Hypothesis Hcall : forall h v t, find_handler cfg t = POk h -> hx (call h v t) (QV v t) (EXB v t).
  Hypothesis Hbad : forall v t e, find_handler cfg t = PExc RValue -> bad v t e.
  Hint Resolve Gcall : core.
  Hint Resolve Gcall : gddb.

  Lemma hx_lookup nf t :
    hx (lookup_handler cfg nf t) (fun h => find_handler cfg t = POk h) (fun e => e = nf /\ find_handler cfg t = PExc RValue).
  Proof using Hstd.
    intros s C _. unfold lookup_handler. destruct (ty_get t (st_index s)) eqn:E; cbn [fst].
    - apply (coh_index _ _ _ (proj1 C)). exact E.
    - destruct (find_handler cfg t) as [h|r] eqn:F; cbn [fst]; [reflexivity|].
      pose proof (std_exc w basic strcons cfg t r Hstd F) as ->. cbn [fst]. auto.
  Qed.

  Definition LE (v : value) (t : ty) (a : option ann) (e : exn) : Prop :=
    match e with
    | XRaw _ => risky v t
    | XTL _ _ _ _ _ _ =>
        (find_handler cfg t = PExc RValue /\ e = XTL KType (MCannotDeal t) [] (Some v) (Some t) []) \/
        (exists e0, is_tl e0 = true /\ (explains v t e0 /\ bad v t e0) /\ e = push_trace (v, t, a) e0)
    end.

  Lemma hx_load_with v t a : hx (load_with w cfg call v t a) (QV v t) (LE v t a).
  Proof using Hstd Hcall Gcall Hbad.
    unfold load_with. apply hx_bind with (Q1 := fun h => find_handler cfg t = POk h).
    - intro s. destruct (ty_get t (st_index s)) eqn:E; [apply good_refl|].
      destruct (find_handler cfg t) as [h|[]] eqn:F; cbn [snd]; try apply good_refl.
      eapply good_trans; [apply (good_index w cfg s t h E F)|apply good_reg].
    - intro h. gd_auto.
    - intros s C _. destruct (ty_get t (st_index s)) eqn:E; cbn [fst].
      + apply (coh_index _ _ _ (proj1 C)). exact E.
      + destruct (find_handler cfg t) as [h|r] eqn:F; cbn [fst]; [reflexivity|].
        pose proof (std_exc w basic strcons cfg t r Hstd F) as ->. cbn [fst LE]. left. auto.
    - intros h F. eapply hx_catch; [apply Gcall|intro; gd_auto|exact (Hcall h v t F)|].
      intros e X. destruct e as [k m tr ve te subs|r]; cbn [is_tl]; apply hx_raise; [|exact (proj1 X)].
      cbn [push_trace LE]. right. eexists. split; [|split; [exact X|reflexivity]]. reflexivity.
  Qed.

  (** ** Dictionaries *)
  Lemma not_hashable_dict v d : dict_items cfg v d -> hashable w v = true -> False.
  Proof using. intros [->|[_ [a [-> _]]]]; discriminate. Qed.
  Lemma as_dict_items v d : as_dict cfg v = VDict d -> dict_items cfg v d.
  Proof using.
    destruct v; cbn; try discriminate; [intros [= ->]; left; reflexivity|].
    destruct (dictequivalence cfg) eqn:D; [|discriminate]. intros [= <-]. right. split; [exact D|]. eauto.
  Qed.
  Lemma dict_shown v d : dict_items cfg v d -> shown cfg v (VDict d).
  Proof using. intro D. right. exists d, d. split; [exact D|]. split; [reflexivity|]. intros k y I. eauto. Qed.

  Lemma hx_dict_slow v n kt vt kh vh d0 d acc :
    find_handler cfg kt = POk kh -> find_handler cfg vt = POk vh ->
    dict_items cfg v d0 -> (forall k x, In (k, x) d -> In (k, x) d0) ->
    hx (dict_slow w cfg call kt vt d acc) (fun _ => True) (EX v (TGen n ODict (Some [kt; vt]))).
  Proof using Hstd Hcall Gcall Hbad.
    intros Fk Fv D0. revert acc. induction d as [|[k x] d IH]; intros acc Hd; cbn [dict_slow]; [apply hx_ret; exact I|].
    assert (In0 : In (k, x) d0) by (apply Hd; left; reflexivity).
    assert (MK : move v (TGen n ODict (Some [kt; vt])) (k, kt, Some (AnKey k)) k kt) by (eapply mv_key; eassumption).
    assert (MV : move v (TGen n ODict (Some [kt; vt])) (x, vt, Some (AnValue x)) x vt) by (eapply mv_value; eassumption).
    assert (XK : forall e, LE k kt (Some (AnKey k)) e -> EX v (TGen n ODict (Some [kt; vt])) e).
    { intros [? ? ? ? ? ?|r] L; cbn [LE] in L; [|exact (risky_move _ _ _ _ _ MK L)].
      destruct L as [[F _]|[e0 [T [[X B] ->]]]]; [congruence|].
      change (explains k kt e0) in X. destruct e0; [|discriminate]. exact (explains_move _ _ _ _ _ _ MK B X). }
    assert (XV : forall e, LE x vt (Some (AnValue x)) e -> EX v (TGen n ODict (Some [kt; vt])) e).
    { intros [? ? ? ? ? ?|r] L; cbn [LE] in L; [|exact (risky_move _ _ _ _ _ MV L)].
      destruct L as [[F _]|[e0 [T [[X B] ->]]]]; [congruence|].
      change (explains x vt e0) in X. destruct e0; [|discriminate]. exact (explains_move _ _ _ _ _ _ MV B X). }
    eapply hx_bind; [auto with gddb|intro; gd_auto| |].
    { eapply hx_weak; [apply hx_load_with|intros a Q; exact Q|exact XK]. }
    intros k' Qk. cbv beta in Qk.
    eapply hx_bind; [auto with gddb|intro; gd_auto| |].
    { eapply hx_weak; [apply hx_load_with|intros a Q; exact I|exact XV]. }
    intros x' _. destruct (hashable w k') eqn:Hk; [apply IH; intros; apply Hd; right; assumption|].
    apply hx_raise. cbn [EX]. intros HR PV N.
    assert (K : hashable w k' = true); [|congruence].
    apply Qk; [exact HR|eapply move_pyv; eassumption| |].
    - assert (HV : hashed w v) by (apply PV; constructor).
      destruct D0 as [->|[_ [a [-> ->]]]]; [exact (HV k x In0)|].
      apply in_map_iff in In0 as [[k0 x0] [[= <- <-] _]]. reflexivity.
    - intros n' o a R. split; intros ->; apply (N v (TGen n ODict (Some [kt; vt])) (meets_here _ _ _ _ _));
        eapply hz_key; eauto.
  Qed.

  Lemma hx_dictload v n args :
    hx (dictload w cfg call v (TGen n ODict args)) (QV v (TGen n ODict args)) (EX v (TGen n ODict args)).
  Proof using Hstd Hcall Gcall Hbad.
    unfold dictload. cbn [ty_args].
    assert (BAD : (forall kt vt, args <> Some [kt; vt]) -> forall r, EX v (TGen n ODict args) (XRaw r)).
    { intros B r. apply risky_here. apply hz_bare_dict. exact B. }
    destruct args as [[|kt [|vt [|? ?]]]|]; try (apply hx_raise; apply BAD; discriminate).
    clear BAD. set (T := TGen n ODict (Some [kt; vt])).
    eapply hx_bind; [auto with gddb| | |].
    - intro kf0. apply gd_bind; [|intros [kf vf]; gd_auto].
      intro s. destruct (ty_get vt (st_index s)) eqn:E; [apply good_refl|].
      destruct (find_handler cfg vt) as [h|[]] eqn:F; cbn [snd]; try apply good_refl. apply good_index; assumption.
    - eapply hx_weak; [apply hx_lookup|intros a Q; exact Q|].
      intros e [-> _]. apply EX_here; [auto|]. right. left. reflexivity.
    - intros kf0 F0. cbv beta in F0.
      apply hx_bind with (Q1 := fun _ => exists vh, find_handler cfg vt = POk vh).
      + intro s. destruct (ty_get vt (st_index s)) eqn:E; [apply good_refl|].
        destruct (find_handler cfg vt) as [h|[]] eqn:F; cbn [snd]; try apply good_refl. apply good_index; assumption.
      + intros [kf vf]. gd_auto.
      + intros s C _. destruct (ty_get vt (st_index s)) eqn:E; cbn [fst].
        * eexists. apply (coh_index _ _ _ (proj1 C)). exact E.
        * destruct (find_handler cfg vt) as [h|r] eqn:F; cbn [fst]; [eauto|].
          pose proof (std_exc w basic strcons cfg vt r Hstd F) as ->. cbn [fst].
          apply EX_here; [auto|]. right. right. left. reflexivity.
      + intros [kf vf] [vh Fv]. cbv zeta.
        assert (QD : forall d, as_dict cfg v = VDict d -> forall r, QV v T r).
        { intros d D r _ _ HV. exfalso. eapply not_hashable_dict; [apply as_dict_items; exact D|exact HV]. }
        assert (SD : forall x, as_dict cfg v = x -> shown cfg v x).
        { intros x <-. destruct v; cbn [as_dict]; try apply shown_refl.
          destruct (dictequivalence cfg) eqn:DE; [|apply shown_refl]. apply dict_shown. right. split; [exact DE|]. eauto. }
        destruct (as_dict cfg v) as [ | | | | | | | | | |d| | | | | ] eqn:D;
          try (apply hx_catch with (E1 := fun _ => True); [gd_auto|intro; gd_auto|apply hx_raise; exact I|intros e _];
               apply hx_catch with (E1 := fun e => e = XRaw RAttr); [gd_auto|intro; gd_auto|apply hx_raise; reflexivity|];
               intros ? ->; apply hx_raise; apply EX_here; [apply SD; reflexivity|left; reflexivity]).
        apply hx_catch with (E1 := fun _ => True); [gd_auto|intro; gd_auto| |].
        { eapply hx_weak; [apply hx_any|intros r _; apply (QD d eq_refl)|auto]. }
        intros e _. eapply hx_catch; [gd_auto|intro; gd_auto| |].
        { eapply hx_weak; [eapply (hx_dict_slow v n kt vt kf0 vh d d); eauto; apply as_dict_items; exact D|intros r _; apply (QD d eq_refl)|intros e1 X; exact X]. }
        intros e1 X. cbv beta in X.
        assert (R : forall k m, EX v T (XTL k m [] (Some (VDict d)) (Some T) [])).
        { intros. apply EX_here; [apply SD; reflexivity|left; reflexivity]. }
        destruct e1 as [[] m tr ve te subs|[]]; apply hx_raise; auto.
  Qed.

  (** ** Iterables *)
  Lemma hx_item_error {A} v t i l x et (Q : A -> Prop) e :
    iter v = Some l -> nth_error l i = Some x -> item_type t i = Some et -> EXB x et e \/ is_tl e = false ->
    hx (item_error v t i e) Q (EX v t).
  Proof using.
    intros Hi Hn Ht X. destruct e as [k m tr ve te subs|r]; cbn [item_error].
    - destruct X as [[X B]|X]; [|discriminate]. apply hx_raise. cbn [push_trace EX].
      exact (explains_move _ _ _ _ _ (XTL k m tr ve te subs) (mv_index _ _ _ _ _ _ _ _ _ Hi Hn Ht) B X).
    - destruct r; apply hx_raise; auto.
  Qed.

  Lemma hashable_items v l x : iter v = Some l -> In x l -> pyv v -> hashable w v = true -> hashable w x = true.
  Proof using.
    intros Hi Hx P HV. destruct v; cbn in Hi, HV; try discriminate; injection Hi as <-.
    - clear HV P. induction s as [|a s IH]; cbn in Hx; [contradiction|]. destruct Hx as [<-|Hx]; [reflexivity|auto].
    - clear HV P. induction s as [|a s IH]; cbn in Hx; [contradiction|]. destruct Hx as [<-|Hx]; [reflexivity|auto].
    - rewrite forallb_forall in HV. auto.
    - pose proof (P (VFrozen l0) (rt1n_refl _ _ _)) as H. exact (H x Hx).
    - rewrite forallb_forall in HV. apply in_map_iff in Hx as [[k y] [<- Hx]]. exact (HV _ Hx).
  Qed.

  Lemma hx_iter_item h et x :
    find_handler cfg et = POk h -> hx (iter_item w cfg call h et x) (QV x et) (EXB x et).
  Proof using Hcall.
    intro F. unfold iter_item.
    assert (R : hx (ret x) (QV x et) (EXB x et)) by (apply hx_ret; intros _ _ HV _; exact HV).
    pose proof (Hcall h x et F) as C.
    destruct (basicb cfg et); [destruct (isinst w x et); assumption|].
    destruct et as [|n o [us|]| | | | | | ]; try exact C; destruct o; try exact C.
    destruct (_ && _); assumption.
  Qed.

  Lemma hx_iter_loop k mp f v t et l0 l i acc :
    (forall x, gd (f x)) -> (forall x, hx (f x) (QV x et) (EXB x et)) ->
    iter v = Some l0 -> (forall j x, nth_error l j = Some x -> nth_error l0 (i + j) = Some x) ->
    (forall j, item_type t j = Some et) ->
    hx (iter_loop w k mp f v t l i acc)
       (fun r => exists l', r = mk_coll k l' /\
          (hashable_results w basic strcons -> pyv v -> hashable w v = true -> keyable et ->
           forallb (hashable w) acc = true -> forallb (hashable w) l' = true)) (EX v t).
  Proof using.
    intros Gf Hf Hi. revert i acc. induction l as [|x l IH]; intros i acc Hn Ht; cbn [iter_loop].
    { apply hx_ret. exists acc. auto. }
    assert (Nx : nth_error l0 i = Some x) by (rewrite <- (Nat.add_0_r i); apply Hn; reflexivity).
    eapply hx_bind; [apply gd_attempt; apply gd_bind; [apply Gf|intro; auto with gddb]|intros [|e]; [auto with gddb|destruct (stops mp e); auto with gddb]| |].
    { apply hx_attempt with (Q := fun acc' => hashable_results w basic strcons -> pyv v -> hashable w v = true -> keyable et ->
           forallb (hashable w) acc = true -> forallb (hashable w) acc' = true)
        (E1 := fun e => EXB x et e \/ is_tl e = false).
      eapply hx_bind; [apply Gf|intro; auto with gddb| |].
      - eapply hx_weak; [apply Hf|intros a Q; exact Q|auto].
      - intros y Qy. cbv beta in Qy. apply hx_lift; [|intros r _; right; reflexivity].
        intros acc' C HR P HV K HA. apply forallb_forall. intros z Hz.
        destruct (coll_add_In w k y acc acc' C z Hz) as [->|Hz'].
        + apply Qy; auto; [eapply pyv_part; [eapply iter_part; eassumption|exact P]|].
          eapply hashable_items; try eassumption. eapply nth_error_In. exact Nx.
        + rewrite forallb_forall in HA. auto. }
    intros [acc'|e] X.
    - cbv beta iota in X. eapply hx_weak; [apply IH; [|exact Ht]| |auto].
      + intros j y Hj. rewrite Nat.add_succ_comm. apply Hn. exact Hj.
      + cbv beta. intros r [l' [-> HL]]. exists l'. split; [reflexivity|]. intros; apply HL; auto.
    - cbv beta iota in X. destruct (stops mp e); [apply hx_ret; exists acc; auto|]. eapply hx_item_error; eauto.
  Qed.

  Lemma hx_iterload k v n o et rest (Q : value -> Prop) :
    (forall j, item_type (TGen n o (Some (et :: rest))) j = Some et) ->
    (forall l', (hashable_results w basic strcons -> pyv v -> hashable w v = true -> keyable et -> forallb (hashable w) l' = true) -> Q (mk_coll k l')) ->
    hx (iterload w cfg call k v (TGen n o (Some (et :: rest)))) Q (EX v (TGen n o (Some (et :: rest)))).
  Proof using Hstd Hcall Gcall Hbad.
    intros Ht HQ. set (T := TGen n o (Some (et :: rest))).
    assert (D : forall d, hx (iterload w cfg call k (VDict d) T) Q (EX (VDict d) T)).
    { intro d. cbn [iterload]. apply hx_raise. apply EX_here; auto. }
    assert (N : hx (h <- lookup_handler cfg (XTL KType (MCannotDeal et) [] (Some v) (Some et) []) et ;;
            match iter v with
            | None => raise (XTL KType (MPy RType) [] (Some v) (Some T) [])
            | Some l => iter_loop w k (mapped cfg et) (iter_item w cfg call h et) v T l 0 []
            end) Q (EX v T)); [|destruct v; try exact N; apply D].
    eapply hx_bind; [auto with gddb| | |].
    - intro h. destruct (iter v); [apply gd_iter_loop; intro; auto with gddb|auto with gddb].
    - eapply hx_weak; [apply hx_lookup|intros a Hq; exact Hq|].
      intros e [-> _]. apply EX_here; [auto|]. right. left. reflexivity.
    - intros h F. cbv beta in F. destruct (iter v) as [l|] eqn:Hi; [|apply hx_raise; apply EX_here; auto].
      eapply hx_weak; [eapply hx_iter_loop with (et := et)| |auto].
      + intro x. auto with gddb.
      + intro x. apply hx_iter_item. exact F.
      + exact Hi.
      + intros j x Hj. exact Hj.
      + exact Ht.
      + cbv beta. intros r [l' [-> HL]]. apply HQ. intros; apply HL; auto.
  Qed.

  Lemma hx_iterload_bare k v n o args (Q : value -> Prop) :
    In o [OList; OSet; OFrozen; OTuple] -> args = None \/ (args = Some [] /\ o <> OTuple) ->
    hx (iterload w cfg call k v (TGen n o args)) Q (EX v (TGen n o args)).
  Proof using.
    intros O A. assert (R : forall r, EX v (TGen n o args) (XRaw r)).
    { intro r. apply risky_here. apply hz_bare; assumption. }
    unfold iterload. destruct A as [->|[-> _]]; cbn [ty_args]; destruct v; apply hx_raise; auto.
  Qed.

  Lemma item_type_fixed n ts i : fixed_size ts -> item_type (TGen n OTuple (Some ts)) i = nth_error ts i.
  Proof using.
    intro F. cbn [item_type]. destruct ts as [|a [|b [|c ts]]]; try reflexivity.
    - destruct b; reflexivity || (exfalso; apply (F a); reflexivity).
    - destruct b; reflexivity.
  Qed.

  Lemma hx_tuple_loop v n ts0 l0 l ts i acc :
    fixed_size ts0 -> iter v = Some l0 ->
    (forall j x, nth_error l j = Some x -> nth_error l0 (i + j) = Some x) ->
    (forall j x, nth_error ts j = Some x -> nth_error ts0 (i + j) = Some x) ->
    hx (tuple_loop cfg call v (TGen n OTuple (Some ts0)) l ts i acc)
       (fun r => exists l', r = VTuple l' /\
          (hashable_results w basic strcons -> pyv v -> hashable w v = true -> keyable (TGen n OTuple (Some ts0)) ->
           forallb (hashable w) acc = true -> forallb (hashable w) l' = true)) (EX v (TGen n OTuple (Some ts0))).
  Proof using Hstd Hcall Gcall Hbad.
    intros Fx Hi. revert l i acc. induction ts as [|et ts IH]; intros l i acc Hl Ht.
    { destruct l; apply hx_ret; exists acc; auto. }
    destruct l as [|x l]; [apply hx_ret; exists acc; auto|]. cbn [tuple_loop].
    assert (Nx : nth_error l0 i = Some x) by (rewrite <- (Nat.add_0_r i); apply Hl; reflexivity).
    assert (Nt : nth_error ts0 i = Some et) by (rewrite <- (Nat.add_0_r i); apply Ht; reflexivity).
    assert (GL : gd (fun s => match ty_get et (st_index s) with
                               | Some h => (Ok h, s)
                               | None => lift (find_handler cfg et) s
                               end)).
    { intro s. destruct (ty_get et (st_index s)); [apply good_refl|apply gd_lift]. }
    eapply hx_bind; [apply gd_attempt; apply gd_bind; [exact GL|intro; gd_auto]|intros [|]; auto with gddb| |].
    { apply hx_attempt with (Q := QV x et) (E1 := fun e => EXB x et e \/ is_tl e = false).
      apply hx_bind with (Q1 := fun h => find_handler cfg et = POk h); [exact GL|intro; gd_auto| |].
      - intros s C _. destruct (ty_get et (st_index s)) eqn:E; cbn [fst].
        + apply (coh_index _ _ _ (proj1 C)). exact E.
        + destruct (find_handler cfg et); cbn; [reflexivity|right; reflexivity].
      - intros h F. destruct (_ && _); [apply hx_ret; intros _ _ HV _; exact HV|].
        eapply hx_weak; [apply (Hcall h x et F)|auto|auto]. }
    intros [y|e] X; cbv beta iota in X.
    - eapply hx_weak; [apply IH| |auto].
      + intros j z Hj. rewrite Nat.add_succ_comm. apply Hl. exact Hj.
      + intros j z Hj. rewrite Nat.add_succ_comm. apply Ht. exact Hj.
      + cbv beta. intros r [l' [-> HL]]. exists l'. split; [reflexivity|]. intros HR P HV K HA. apply HL; auto.
        rewrite forallb_app, HA. cbn [forallb andb]. rewrite andb_true_r. apply X; auto.
        * eapply pyv_part; [eapply iter_part; eassumption|exact P].
        * eapply hashable_items; try eassumption. eapply nth_error_In. exact Nx.
        * eapply keyable_comp; [|exact K]. eapply nth_error_In. exact Nt.
    - eapply hx_item_error; eauto. rewrite item_type_fixed by exact Fx. exact Nt.
  Qed.

  Lemma hx_tupleload v n args :
    hx (tupleload w cfg call v (TGen n OTuple args)) (QV v (TGen n OTuple args)) (EX v (TGen n OTuple args)).
  Proof using Hstd Hcall Gcall Hbad.
    destruct args as [ts|]; [|apply hx_raise; apply risky_here; apply hz_bare; cbn; auto].
    assert (CASE : (exists a, ts = [a; TEllipsis]) \/ fixed_size ts).
    { destruct ts as [|a [|b [|c ts]]]; try (right; intros t; discriminate).
      destruct b; try (right; intros t; discriminate). left. eauto. }
    destruct CASE as [[a ->]|Fx].
    { cbn [tupleload ty_args]. apply hx_iterload; [intro; reflexivity|].
      intros l' HL HR P HV K. cbn [mk_coll hashable]. apply HL; auto. eapply keyable_comp; [|exact K]. left. reflexivity. }
    set (T := TGen n OTuple (Some ts)).
    assert (D : forall d, hx (raise (XTL KType MDictTuple [] (Some (VDict d)) (Some T) [])) (QV (VDict d) T) (EX (VDict d) T)).
    { intro d. apply hx_raise. apply EX_here; auto. }
    assert (N : hx (match iter v with
            | None => raise (XRaw RType)
            | Some l =>
                if failonextra cfg && Nat.ltb (List.length ts) (List.length l)
                then raise (XTL KValue (MTooLong T) [] (Some v) (Some T) [])
                else if Nat.ltb (List.length l) (List.length ts)
                then raise (XTL KValue (MTooShort T) [] (Some v) (Some T) [])
                else tuple_loop cfg call v T l ts 0 []
            end) (QV v T) (EX v T)).
    { destruct (iter v) as [l|] eqn:Hi.
      - destruct (_ && _); [apply hx_raise; apply EX_here; auto|].
        destruct (Nat.ltb _ _); [apply hx_raise; apply EX_here; auto|].
        eapply hx_weak; [apply hx_tuple_loop with (l0 := l); auto| |auto].
        cbv beta. intros r [l' [-> HL]] HR P HV K. cbn [hashable]. apply HL; auto.
      - apply hx_raise. apply risky_here. apply hz_tuple; assumption. }
    unfold tupleload. cbn [ty_args T].
    destruct ts as [|a [|b [|c ts]]]; try (destruct v; exact N || apply D).
    all: destruct b; try (destruct v; exact N || apply D). exfalso. apply (Fx a). reflexivity.
  Qed.

  (** ** Objects *)
  Definition nonstr (k : value) : Prop := forall x, k <> VStr x.
  Definition renamed (c : cid) (d d' : list (value * value)) : Prop :=
    forall k x, In (k, x) d' ->
      (exists f e, k = VStr f /\ In (VStr e, x) d /\ (In (f, e) (obj_fields w cfg c) \/ e = f)) \/
      (nonstr k /\ (exists k0, In (k0, x) d) /\ exists k1 x1, In (k1, x1) d /\ nonstr k1).
  Lemma renamed_refl c d : renamed c d d.
  Proof using.
    intros k x I. destruct k; try (right; split; [intro; discriminate|split; [eauto|eexists; eexists; split; [exact I|intro; discriminate]]]).
    left. exists s, s. auto.
  Qed.
  Lemma eqb_str_str x k : py_eqb (VStr x) k = true -> k = VStr x.
  Proof using. destruct k; cbn; try discriminate. intro E. apply String.eqb_eq in E. congruence. Qed.
  Lemma eqb_nonstr k k' : nonstr k -> py_eqb k k' = true -> nonstr k'.
  Proof using.
    intros N E x ->. destruct k; cbn in E; try discriminate. exact (N s eq_refl).
  Qed.
  (** dict_set keeps the old key object *)
  Lemma renamed_set c d0 acc k x :
    renamed c d0 acc ->
    (exists f e, k = VStr f /\ In (VStr e, x) d0 /\ (In (f, e) (obj_fields w cfg c) \/ e = f)) \/ (nonstr k /\ In (k, x) d0) ->
    renamed c d0 (dict_set k x acc).
  Proof using.
    intros R H. assert (NEW : forall k2, k2 = k \/ py_eqb k k2 = true ->
      (exists f e, k2 = VStr f /\ In (VStr e, x) d0 /\ (In (f, e) (obj_fields w cfg c) \/ e = f)) \/
      (nonstr k2 /\ (exists k0, In (k0, x) d0) /\ exists k1 x1, In (k1, x1) d0 /\ nonstr k1)).
    { intros k2 K. destruct H as [[f [e [-> [I J]]]]|[N I]].
      - left. exists f, e. split; [|auto]. destruct K as [->|K]; [reflexivity|]. apply eqb_str_str. exact K.
      - right. split; [destruct K as [->|K]; [exact N|eapply eqb_nonstr; eassumption]|]. split; eauto. }
    clear H. intros k2 x2 I2. induction acc as [|[k0 x0] acc IH]; cbn [dict_set] in I2.
    - destruct I2 as [[= <- <-]|[]]. apply NEW. auto.
    - destruct (py_eqb k k0) eqn:E.
      + destruct I2 as [[= <- <-]|I2]; [apply NEW; auto|]. apply R. right. exact I2.
      + destruct I2 as [[= <- <-]|I2]; [apply R; left; reflexivity|].
        apply IH; [|exact I2]. intros k3 x3 I3. apply R. right. exact I3.
  Qed.
  Lemma mangle_renamed c names skip d0 d acc d' :
    (forall e f, str_get e names = Some f -> In (f, e) (obj_fields w cfg c)) ->
    (forall k x, In (k, x) d -> In (k, x) d0) -> renamed c d0 acc ->
    mangle_loop cfg names skip d acc = inl d' -> renamed c d0 d'.
  Proof using.
    intro HN. revert acc. induction d as [|[k x] d IH]; intros acc Hd R; cbn [mangle_loop]; [intros [= <-]; exact R|].
    assert (I0 : In (k, x) d0) by (apply Hd; left; reflexivity).
    assert (Hd' : forall k x, In (k, x) d -> In (k, x) d0) by (intros; apply Hd; right; assumption).
    destruct k; try (apply IH; [exact Hd'|apply renamed_set; [exact R|]; right; split; [intro; discriminate|exact I0]]).
    destruct (str_get s names) as [s'|] eqn:G.
    { apply IH; [exact Hd'|]. apply renamed_set; [exact R|]. left. exists s', s. auto. }
    destruct (mem_str s skip).
    { destruct (failonextra cfg); [discriminate|]. apply IH; assumption. }
    apply IH; [exact Hd'|]. apply renamed_set; [exact R|]. left. exists s, s. auto.
  Qed.

  (** what is given to _objloader, for the value [v] *)
  Definition rn (c : cid) (v v' : value) : Prop :=
    v' = v \/ exists d d', v = VDict d /\ v' = VDict d' /\ renamed c d d'.
  Lemma hx_mangle c names v :
    (forall e f, str_get e names = Some f -> In (f, e) (obj_fields w cfg c)) ->
    hx (mangle cfg names v (TClass c)) (rn c v) (EX v (TClass c)).
  Proof using.
    intro HN. unfold mangle. destruct names as [|nm names]; [apply hx_ret; left; reflexivity|].
    destruct v; try (apply hx_raise; apply EX_here; auto).
    destruct (mangle_loop _ _ _ _ _) as [d'|k] eqn:E; [|apply hx_raise; apply EX_here; auto].
    apply hx_ret. right. exists d, d'. split; [reflexivity|]. split; [reflexivity|].
    eapply mangle_renamed with (acc := []); [exact HN|intros k x H; exact H|intros k x []|exact E].
  Qed.

  Lemma rn_dict c v v' d : rn c v v' -> as_dict cfg v' = VDict d -> exists d0, dict_items cfg v d0 /\ renamed c d0 d.
  Proof using.
    intros [->|[d0 [d' [-> [-> R]]]]] E.
    - exists d. split; [apply as_dict_items; exact E|apply renamed_refl].
    - cbn in E. injection E as <-. exists d0. split; [left; reflexivity|exact R].
  Qed.
  Lemma renamed_shown c v d0 d : dict_items cfg v d0 -> renamed c d0 d -> shown cfg v (VDict d).
  Proof using.
    intros D R. right. exists d0, d. split; [exact D|]. split; [reflexivity|]. intros k y I.
    destruct (R _ _ I) as [[f [e [_ [J _]]]]|[_ [[k0 J] _]]]; eauto.
  Qed.

  Lemma construct_post c ps r :
    construct w (TClass c) ps = PExc r -> r = RType \/ exists fs, ci_post (class_of w c) fs = PExc r.
  Proof using.
    unfold construct, construct_fields.
    destruct (ci_nt (class_of w c)).
    { destruct (unexpected _ _); [intros [= <-]; auto|]. destruct (bind_nt _ _); [discriminate|intros [= <-]; auto]. }
    destruct (ci_dc (class_of w c)).
    { destruct (unexpected _ _); [intros [= <-]; auto|]. destruct (bind_fields _ _ _ _) as [vals|]; [|intros [= <-]; auto].
      destruct (ci_post (class_of w c) vals) eqn:P; [discriminate|]. intros [= <-]. eauto. }
    destruct (ci_attrs (class_of w c)).
    { destruct (unexpected _ _); [intros [= <-]; auto|]. destruct (bind_fields _ _ _ _) as [vals|]; [|intros [= <-]; auto].
      destruct (ci_post (class_of w c) vals) eqn:P; [discriminate|]. intros [= <-]. eauto. }
    destruct (ci_td (class_of w c)); [discriminate|intros [= <-]; auto].
  Qed.

  Lemma hx_fields_loop c v fields hints d0 d0' d acc :
    dict_items cfg v d0 -> renamed c d0 d0' ->
    (forall k x, In (k, x) d -> In (k, x) d0') ->
    (forall k ft, str_get k hints = Some ft -> In (k, ft) (declared w p c)) ->
    (forall k, In k fields -> str_get k hints = None -> risky v (TClass c)) ->
    hx (fields_loop cfg call fields hints (VDict d0') (TClass c) d acc) (fun _ => True) (EX v (TClass c)).
  Proof using Hstd Hcall Gcall Hbad.
    intros D R. revert acc. induction d as [|[k x] d IH]; intros acc Hd Hh Hk; cbn [fields_loop]; [apply hx_ret; exact I|].
    assert (I0 : In (k, x) d0') by (apply Hd; left; reflexivity).
    assert (Hd' : forall k x, In (k, x) d -> In (k, x) d0') by (intros; apply Hd; right; assumption).
    pose proof (renamed_shown c v d0 d0' D R) as SH.
    destruct k; try (apply IH; assumption).
    destruct (mem_str s fields) eqn:Mf; [|apply IH; assumption].
    destruct (str_get s hints) as [ft|] eqn:G.
    2: { apply hx_raise. cbn [EX]. apply (Hk s); [apply mem_str_In; exact Mf|exact G]. }
    assert (MV : move v (TClass c) (VDict d0', TClass c, Some (AnField s)) x ft).
    { destruct (R _ _ I0) as [[f [e [[= <-] [J K]]]]|[N _]]; [|exfalso; exact (N s eq_refl)].
      eapply mv_field; eauto. }
    eapply hx_bind; [auto with gddb|intro; gd_auto| |].
    { eapply hx_weak; [apply hx_lookup|intros h Q; exact Q|].
      intros e [-> _]. apply EX_here; [exact SH|]. right. unfold component, comps. apply in_or_app. left.
      apply (in_map snd) with (x := (s, ft)). auto. }
    intros h F. cbv beta in F.
    eapply hx_bind; [gd_auto|intro; auto with gddb| |].
    { eapply hx_catch; [apply Gcall|intro; auto with gddb| |].
      - eapply hx_weak; [apply (Hcall h x ft F)|intros a _; exact I|intros e X; exact X].
      - intros e X. apply hx_raise. exact (EX_move _ _ _ _ _ _ MV X). }
    intros y _. apply IH; assumption.
  Qed.

  Lemma hx_objloader c v v' fields nec hints :
    rn c v v' -> kind_of_class w c <> None ->
    (forall k ft, str_get k hints = Some ft -> In (k, ft) (declared w p c)) ->
    (forall k, In k fields -> str_get k hints = None -> risky v (TClass c)) ->
    hx (objloader w cfg call fields nec hints v' (TClass c)) (QV v (TClass c)) (EX v (TClass c)).
  Proof using Hstd Hcall Gcall Hbad.
    intros RN K Hh Hk. unfold objloader.
    destruct (as_dict cfg v') as [ | | | | | | | | | |d| | | | | ] eqn:D;
      try (destruct RN as [->|[d1 [d2 [_ [-> _]]]]]; [|discriminate D]; apply hx_raise; apply EX_here; auto).
    destruct (rn_dict _ _ _ _ RN D) as [d0 [D0 R]]. pose proof (renamed_shown _ _ _ _ D0 R) as SH.
    destruct (filter _ nec); [|apply hx_raise; apply EX_here; auto].
    cbv zeta. destruct (failonextra cfg && _) eqn:FE.
    { destruct (all_str _) eqn:AS; apply hx_raise; [apply EX_here; auto|].
      apply andb_prop in FE as [FE _]. apply risky_here.
      assert (X : exists k x, In (k, x) d /\ nonstr k).
      { clear - AS. induction d as [|[k x] d IH]; [discriminate|]. cbn [filter] in AS.
        assert (ST : (exists q, k = VStr q) \/ nonstr k) by (destruct k; eauto; right; intro; discriminate).
        destruct ST as [[q ->]|N]; [|exists k, x; split; [left; reflexivity|exact N]].
        destruct IH as [k2 [x2 [I2 N2]]]; [|exists k2, x2; split; [right; exact I2|exact N2]].
        destruct (negb (key_in fields (VStr q, x))); exact AS. }
      destruct X as [k [x [Ix Nk]]]. destruct (R _ _ Ix) as [[f [e [-> _]]]|[_ [_ [k1 [x1 [I1 N1]]]]]]; [exfalso; exact (Nk f eq_refl)|].
      eapply hz_extra; eauto. }
    eapply hx_bind; [auto with gddb|intro; gd_auto| |].
    { eapply hx_fields_loop; eauto. }
    intros ps _. destruct (construct w (TClass c) ps) as [r|r] eqn:C.
    { apply hx_ret. intros _ _ HV _. exfalso. eapply not_hashable_dict; eassumption. }
    assert (RK : r <> RType -> r <> RValue -> risky v (TClass c)).
    { intros N1 N2. apply risky_here. destruct (construct_post _ _ _ C) as [->|[fs P]]; [congruence|].
      eapply hz_post; eauto. }
    destruct r; apply hx_raise; auto; cbn [EX]; apply RK; discriminate.
  Qed.

  Lemma names_fold_in g fs acc e f :
    str_get e (names_fold g fs acc) = Some f -> str_get e acc = Some f \/ exists fl, In fl fs /\ g fl = Some e /\ f_name fl = f.
  Proof using.
    unfold names_fold. revert acc. induction fs as [|f0 fs IH]; intros acc; cbn [fold_left]; [auto|].
    intro H. destruct (IH _ H) as [G|[fl [I [G N]]]]; [|right; exists fl; split; [right; exact I|auto]].
    destruct (g f0) as [nm|] eqn:G0; [|auto].
    destruct (String.eqb e nm) eqn:Q.
    - apply String.eqb_eq in Q. subst nm. right. exists f0. split; [left; reflexivity|]. split; [exact G0|].
      assert (ST : forall acc : list (string * string), str_get e (str_set e (f_name f0) acc) = Some (f_name f0)).
      { clear. induction acc as [|[a b] acc IH]; cbn; [rewrite String.eqb_refl; reflexivity|].
        destruct (String.eqb e a) eqn:Q; cbn; rewrite Q; [reflexivity|exact IH]. }
      rewrite ST in G. congruence.
    - left. revert G. clear - Q. induction acc as [|[a b] acc IH]; cbn; [rewrite Q; discriminate|].
      destruct (String.eqb nm a) eqn:Q2; cbn; destruct (String.eqb e a) eqn:Q3; auto.
      apply String.eqb_eq in Q2, Q3. subst. rewrite String.eqb_refl in Q. discriminate.
  Qed.
  Lemma external_given b f e : given_name cfg b f = Some e -> external cfg b f = e.
  Proof using. unfold external. intros ->. reflexivity. Qed.

  Lemma hx_dataclassload v c fs :
    ci_dc (class_of w c) = Some fs -> ci_nt (class_of w c) = None ->
    hx (dataclassload w cfg call v (TClass c)) (QV v (TClass c)) (EX v (TClass c)).
  Proof using Hstd Hcall Gcall Hbad.
    intros D N. assert (K : kind_of_class w c = Some (KDC fs)) by (unfold kind_of_class; rewrite N, D; reflexivity).
    unfold dataclassload. apply hx_bind with (Q1 := fun oi => dataclass_info w cfg c fs = POk oi).
    - intro s. destruct (ty_get (TClass c) (st_fields s)) eqn:E; [apply good_refl|]. rewrite D.
      destruct (dataclass_info w cfg c fs) eqn:O; [eapply good_fields; eassumption|apply good_refl].
    - intro oi. gd_auto.
    - intros s C _. destruct (ty_get (TClass c) (st_fields s)) as [oi|] eqn:E; cbn [fst].
      + destruct (coh_fields _ _ _ (proj1 C) _ _ E) as [c' [fs' [[= <-] [D' O]]]]. congruence.
      + rewrite D. destruct (dataclass_info w cfg c fs) as [oi|r] eqn:O; cbn [fst]; [reflexivity|].
        apply risky_here. unfold dataclass_info in O.
        assert (P : p = true \/ p = false) by (case p; auto). destruct P as [P|P]; rewrite P in O; [|discriminate].
        destruct (ci_hints (class_of w c)) eqn:CH; [discriminate|]. injection O as ->. eapply hz_annotations; eauto.
    - intros oi O. eapply hx_bind; [auto with gddb|intro; auto with gddb| |].
      + apply hx_mangle. intros e f G.
        assert (oi_names oi = dc_transforms w cfg fs) as ON.
        { unfold dataclass_info in O. destruct (if p then _ else _); [|discriminate]. injection O as <-. reflexivity. }
        rewrite ON in G. apply str_get_In in G. destruct (dc_transforms_in w cfg fs _ _ G) as [fl [I [G' Nm]]].
        unfold obj_fields. rewrite K. apply in_map_iff. exists fl. rewrite (external_given _ _ _ G'), Nm. auto.
      + intros v' RN. apply hx_objloader; [exact RN|congruence| |].
        * rewrite (dataclass_info_hints w cfg _ _ _ K O). intros k ft G. apply str_get_In. exact G.
        * rewrite (dataclass_info_hints w cfg _ _ _ K O). intros k Hk G. apply risky_here.
          assert (OF : oi_fields oi = map f_name fs).
          { unfold dataclass_info in O. destruct (if p then _ else _); [|discriminate]. injection O as <-. reflexivity. }
          rewrite OF in Hk.
          assert (P : p = true \/ p = false) by (case p; auto). destruct P as [P|P].
          -- eapply hz_hint; eauto. apply str_get_None. exact G.
          -- exfalso. apply str_get_None in G. apply G. unfold declared, declared_types. rewrite K, P, map_map. exact Hk.
  Qed.

  Lemma hx_namedtupleload v c nt :
    ci_nt (class_of w c) = Some nt ->
    hx (namedtupleload w cfg call v (TClass c)) (QV v (TClass c)) (EX v (TClass c)).
  Proof using Hstd Hcall Gcall Hbad.
    intros N. assert (K : kind_of_class w c = Some (KNT nt)) by (unfold kind_of_class; rewrite N; reflexivity).
    unfold namedtupleload. rewrite N.
    apply hx_bind with (Q1 := fun hints => hints = declared w p c); [auto with gddb|intro; auto with gddb| |].
    - apply hx_lift.
      + intros a. unfold declared, declared_types. rewrite K. case p; intro E; [rewrite E; reflexivity|congruence].
      + intros r E. apply risky_here. assert (P : p = true \/ p = false) by (case p; auto).
        destruct P as [P|P]; rewrite P in E; [|discriminate]. eapply hz_annotations; eauto.
    - intros hints ->. apply hx_objloader; [left; reflexivity|congruence| |].
      + intros k ft E. apply str_get_In. exact E.
      + intros k Hk E. exfalso. apply str_get_None in E. contradiction.
  Qed.

  Lemma hx_attrload v c fs :
    ci_attrs (class_of w c) = Some fs -> ci_nt (class_of w c) = None -> ci_dc (class_of w c) = None ->
    hx (attrload w cfg call v (TClass c)) (QV v (TClass c)) (EX v (TClass c)).
  Proof using Hstd Hcall Gcall Hbad.
    intros A N D.
    assert (K : kind_of_class w c = Some (KAT fs)) by (unfold kind_of_class; rewrite N, D, A; reflexivity).
    unfold attrload. rewrite A.
    apply hx_bind with (Q1 := fun hints => hints = declared w p c); [auto with gddb|intro; gd_auto| |].
    - apply hx_lift.
      + intros a E. unfold declared. rewrite K. apply attr_hints_spec. exact E.
      + intros r E. apply risky_here. destruct (attr_hints_exc _ _ E) as [f [hs [I [C R]]]]. eapply hz_converter; eauto.
    - intros hints ->. cbv zeta. eapply hx_bind; [auto with gddb|intro; auto with gddb| |].
      + apply hx_mangle. intros e f G. rewrite names_fold_at in G.
        destruct (names_fold_in _ _ _ _ _ G) as [G'|[fl [I [G' Nm]]]]; [discriminate|].
        unfold obj_fields. rewrite K. apply in_map_iff. exists fl. rewrite (external_given _ _ _ G'), Nm. auto.
      + intros v' RN. apply hx_objloader; [exact RN|congruence| |].
        * intros k ft E. apply str_get_In. exact E.
        * intros k Hk E. exfalso. apply str_get_None in E. apply E. unfold declared. rewrite K, map_map. exact Hk.
  Qed.

  Lemma hx_typeddictload v c req :
    ci_td (class_of w c) = Some req -> ci_nt (class_of w c) = None -> ci_dc (class_of w c) = None ->
    hx (typeddictload w cfg call v (TClass c)) (QV v (TClass c)) (EX v (TClass c)).
  Proof using Hstd Hwf Hcall Gcall Hbad.
    intros T N D.
    assert (A : ci_attrs (class_of w c) = None) by (apply (wr_td _ Hwf); congruence).
    assert (K : kind_of_class w c = Some (KTD req)) by (unfold kind_of_class; rewrite N, D, A, T; reflexivity).
    unfold typeddictload. rewrite T.
    assert (GM : gd (mod_st (fun s => if p then s else set_stripped (cons c) s))).
    { intro s. unfold mod_st. cbn [snd]. case p; [apply good_refl|apply good_strip; congruence]. }
    apply hx_bind with (Q1 := fun _ => True);
      [auto with gddb|intro; apply gd_bind; [auto with gddb|intro; cbv zeta; apply gd_bind; [exact GM|intro; auto with gddb]]|intros s C _; exact I|].
    intros s _.
    apply hx_bind with (Q1 := fun hints => map (fun kt => (fst kt, strip_notrequired (snd kt))) hints = declared w p c);
      [auto with gddb|intro; cbv zeta; apply gd_bind; [exact GM|intro; auto with gddb]| |].
    - apply hx_lift.
      + intros a. unfold declared, declared_types. rewrite K. case p; intro E; [rewrite E; reflexivity|].
        injection E as <-. unfold annotations. destruct (mem_cid c (st_stripped s)); [|reflexivity].
        rewrite map_map. apply map_ext_in. intros [k t] Hin. cbn [fst snd]. f_equal.
        rewrite !unwrap_strip. apply (wr_nested _ Hwf c k); [congruence|exact Hin].
      + intros r E. apply risky_here. assert (P : p = true \/ p = false) by (case p; auto).
        destruct P as [P|P]; rewrite P in E; [|discriminate]. eapply hz_annotations; eauto.
    - intros hints Eh. cbv zeta.
      apply hx_bind with (Q1 := fun _ => True); [exact GM|intro; auto with gddb|intros s' C _; exact I|].
      intros _ _. apply hx_objloader; [left; reflexivity|congruence| |]; rewrite Eh.
      + intros k ft E. apply str_get_In. exact E.
      + intros k Hk E. exfalso. apply str_get_None in E. apply E. rewrite <- Eh, map_map. exact Hk.
  Qed.

  (** ** Unions *)
  Lemma hx_prefer v n args sorted :
    (forall x, In x sorted -> In x args) ->
    hx (prefer w v (TGen n OUnion (Some args)) args sorted) (fun l => forall x, In x l -> In x args) (EX v (TGen n OUnion (Some args))).
  Proof using.
    intro Hs. unfold prefer. destruct v; try (apply hx_ret; exact Hs).
    set (T := TGen n OUnion (Some args)).
    apply hx_bind with (Q1 := fun dc => forall key cd, dc = Some (key, cd) -> literal_field w args key /\ forall x, In x (map snd cd) -> In x args).
    - intro s. destruct (same_get T (st_disc s)) eqn:E; [apply good_refl|]. apply good_disc; [exact E|reflexivity].
    - intros [[key [|lt cd]]|]; gd_auto.
    - intros s C _.
      assert (B : forall s' key cd, build_disc w s' args = Some (key, cd) -> literal_field w args key /\ forall x, In x (map snd cd) -> In x args).
      { intros s' key cd E. split; [eapply build_disc_literal; exact E|]. intros x. eapply build_disc_types; exact E. }
      destruct (same_get T (st_disc s)) as [dc|] eqn:E; cbn [fst]; [|apply B].
      destruct (coh_disc _ _ _ (proj1 C) _ _ E) as [args0 [args' [s' [A [Sm ->]]]]]. cbn in A. injection A as <-.
      intros key cd Q. split; [|intros x Ix; apply Sm; eapply build_disc_types; [exact Q|exact Ix]].
      intros x Ix. apply (build_disc_literal w s' args' key cd Q). apply Sm. exact Ix.
    - intros [[key [|lt cd]]|] Hd; try (apply hx_ret; exact Hs).
      destruct (Hd _ _ eq_refl) as [LF Hcd].
      destruct (dict_get (VStr key) d) as [x|] eqn:DG; [destruct (hashable w x) eqn:HX|].
      + destruct (disc_get x (lt :: cd)) as [pt|] eqn:G; apply hx_ret; [|exact Hs].
        intros y [<-|Hy]; [apply Hcd; eapply disc_get_types; exact G|]. apply Hs. eapply remove_first_In. exact Hy.
      + apply hx_raise. apply risky_here. apply hz_tag. intro TH. rewrite (TH d key x eq_refl LF DG) in HX. discriminate.
      + cbn [hashable]. destruct (disc_get VNone (lt :: cd)) as [pt|] eqn:G; apply hx_ret; [|exact Hs].
        intros y [<-|Hy]; [apply Hcd; eapply disc_get_types; exact G|]. apply Hs. eapply remove_first_In. exact Hy.
  Qed.

  Lemma hx_try_members v n args ts k r exs :
    (forall x, In x ts -> In x args) ->
    (k = 0 \/ QV v (TGen n OUnion (Some args)) r) ->
    Forall (sub_explains v (TGen n OUnion (Some args))) exs ->
    hx (try_members cfg call v (TGen n OUnion (Some args)) ts k r exs)
       (fun nre => (fst (fst nre) = 0 \/ QV v (TGen n OUnion (Some args)) (snd (fst nre))) /\
                   Forall (sub_explains v (TGen n OUnion (Some args))) (snd nre))
       (EX v (TGen n OUnion (Some args))).
  Proof using Hstd Hcall Gcall Hbad.
    set (T := TGen n OUnion (Some args)).
    revert k r exs. induction ts as [|x ts IH]; intros k r exs Hts Hr Hx; cbn [try_members].
    { apply hx_ret. cbn [fst snd]. auto. }
    assert (Ix : In x args) by (apply Hts; left; reflexivity).
    assert (AL : alternative w T x) by (constructor; exact Ix).
    eapply hx_bind; [gd_auto|intros [?|[? ? ? ? ? ?|?]]; gd_auto| |].
    { apply hx_attempt with (Q := QV v x) (E1 := EXB v x).
      eapply hx_bind; [auto with gddb|intro; auto with gddb| |].
      - eapply hx_weak; [apply hx_lookup|intros h Q; exact Q|].
        intros e [-> F]. split; [apply EX_here; auto|exact (Hbad v x _ F)].
      - intros h F. exact (Hcall h v x F). }
    intros [r'|e] X; cbv beta iota in X.
    - assert (Q' : QV v T r').
      { intros HR P HV K. apply X; auto. eapply keyable_comp; [|exact K]. exact Ix. }
      destruct (uniondebugconflict cfg); [apply IH; auto; intros; apply Hts; right; assumption|].
      apply hx_ret. cbn [fst snd]. auto.
    - destruct X as [X B]. destruct e as [k0 m tr ve te subs|r0]; [|apply hx_raise; exact (risky_alt _ _ _ AL X)].
      apply IH; [intros; apply Hts; right; assumption|exact Hr|].
      apply Forall_app. split; [exact Hx|]. constructor; [|constructor].
      exact (subb_union w cfg env bad v n args x _ k0 m tr ve te subs Ix B eq_refl X).
  Qed.

  Lemma hx_unionload v n args :
    hx (unionload w cfg call v (TGen n OUnion (Some args))) (QV v (TGen n OUnion (Some args))) (EX v (TGen n OUnion (Some args))).
  Proof using Hstd Hcall Gcall Hbad.
    unfold unionload. cbn [ty_args]. set (T := TGen n OUnion (Some args)).
    destruct (_ && _); [apply hx_ret; intros _ _ HV _; exact HV|]. cbv zeta.
    assert (GP : forall sorted, gd (prefer w v T args sorted)).
    { intro sorted. unfold prefer. destruct v; auto with gddb. apply gd_bind; [|intros [[key [|lt cd]]|]; gd_auto].
      intro s. destruct (same_get T (st_disc s)) eqn:E; [apply good_refl|]. apply good_disc; [exact E|reflexivity]. }
    assert (GE : forall ts, gd ('(n0, r, exs) <- try_members cfg call v T ts 0 VNone [] ;;
          match n0 with
          | 1 => ret r
          | 0 => raise (XTL KValue (MUnion (type_of v) T) [] (Some v) (Some T) exs)
          | _ => raise (XTL KType (MConflict (type_of v) T n0) [] (Some v) (Some T) exs)
          end)).
    { intro ts. apply gd_bind; [auto with gddb|]. intros [[[|[|n0]] r] exs]; auto with gddb. }
    eapply hx_bind; [apply GP|exact GE| |].
    - apply hx_prefer. intros x Hx. apply in_app_or in Hx as [Hx|Hx]; apply filter_In in Hx; apply Hx.
    - intros ts Hts. cbv beta in Hts. eapply hx_bind; [auto with gddb|intros [[[|[|n0]] r] exs]; auto with gddb| |].
      + apply hx_try_members; auto.
      + intros [[k r] exs] [Hr Hx]. cbn [fst snd] in Hr, Hx.
        assert (R : forall k m, EX v T (XTL k m [] (Some v) (Some T) exs)).
        { intros k0 m. cbn [EX]. econstructor; [apply bwalk_here| |reflexivity|exact Hx].
          right. exists v, T. auto. }
        destruct k as [|[|k]]; try (apply hx_raise; apply R). destruct Hr as [Hr|Hr]; [discriminate|]. apply hx_ret. exact Hr.
  Qed.

  (** ** Enums *)
  Lemma hx_enum_hints v c ts exs :
    (forall x, In x ts -> alternative w (TClass c) x) ->
    Forall (sub_explains v (TClass c)) exs ->
    hx (enum_hints w cfg call v (TClass c) ts exs)
       (fun o => match o with inl r => exists x y, alternative w (TClass c) x /\ QV v x y /\ call_type w (TClass c) y = POk r | inr exs => Forall (sub_explains v (TClass c)) exs end)
       (EX v (TClass c)).
  Proof using Hstd Hcall Gcall Hbad.
    revert exs. induction ts as [|x ts IH]; intros exs Hts Hx; cbn [enum_hints]; [apply hx_ret; exact Hx|].
    assert (AL : alternative w (TClass c) x) by (apply Hts; left; reflexivity).
    eapply hx_bind; [gd_auto|intros [?|?]; gd_auto| |].
    { apply hx_attempt with (Q := fun r => exists x y, alternative w (TClass c) x /\ QV v x y /\ call_type w (TClass c) y = POk r) (E1 := sub_explains v (TClass c)).
      eapply hx_bind; [auto with gddb|intro; auto with gddb| |].
      - eapply hx_weak; [apply hx_load_with|intros a Q; exact Q|].
        intros [k m tr ve te subs|r] L; cbn [LE] in L; [|apply subb_raw with (t := x); exact AL].
        destruct L as [[F ->]|[e0 [T [[X B] ->]]]]; [apply subb_unsupported; [exact AL|exact (Hbad v x _ F)]|].
        destruct e0 as [k0 m0 tr0 ve0 te0 subs0|]; [|discriminate].
        exact (subb_enum w cfg env bad v c x _ k0 m0 tr0 ve0 te0 subs0 AL B eq_refl X).
      - intros y Qy. cbv beta in Qy. apply hx_lift; [intros r Y; exists x, y; auto|]. intros k _. apply subb_raw with (t := x). exact AL. }
    intros [r|e] X; cbv beta iota in X; [apply hx_ret; exact X|].
    apply IH; [intros; apply Hts; right; assumption|]. apply Forall_app. auto.
  Qed.

  Lemma hx_enumload v c ms :
    ci_enum (class_of w c) = Some ms ->
    hx (enumload w cfg call v (TClass c)) (QV v (TClass c)) (EX v (TClass c)).
  Proof using Hstd Hcall Gcall Hbad.
    intro E. unfold enumload.
    destruct (call_type w (TClass c) v) as [r|r] eqn:C.
    { apply hx_ret. intros _ _ HV _. cbn [call_type] in C. rewrite E in C. unfold enum_call in C.
      destruct (cid_eqb _ _); [injection C as <-; exact HV|]. destruct (find _ ms) as [[nm x]|]; [|discriminate].
      injection C as <-. reflexivity. }
    eapply hx_bind; [auto with gddb|intro; gd_auto| |].
    { apply hx_lift with (Q := fun hints => ci_hints (class_of w c) = POk hints); [auto|].
      intros k H. apply risky_here. eapply hz_annotations; [exact H|right; congruence]. }
    intros hints H. cbv beta in H. eapply hx_bind; [auto with gddb|intros [?|?]; auto with gddb| |].
    { apply hx_enum_hints; [|constructor]. intros x Hx. eapply alt_enum; eassumption. }
    intros [r'|exs] X; cbv beta iota in X.
    - apply hx_ret. intros HR P HV K. destruct X as [x [y [AL [Qy Y]]]]. cbn [call_type] in Y. rewrite E in Y. unfold enum_call in Y.
      destruct (cid_eqb (type_of y) c) eqn:TY.
      + injection Y as <-. apply Qy; auto. eapply keyable_comp; [|exact K].
        inversion AL; subst. unfold component, comps. apply in_or_app. right.
        match goal with H1 : ci_enum _ = Some _, H2 : ci_hints _ = POk _ |- _ => rewrite H1, H2 end. assumption.
      + destruct (find _ ms) as [[nm z]|]; [|discriminate]. injection Y as <-. reflexivity.
    - apply hx_raise. cbn [EX]. econstructor; [apply bwalk_here| |reflexivity|exact X].
      right. exists v, (TClass c). auto.
  Qed.

  (** ** The remaining handlers *)
  Lemma call_hashable c v r :
    hashable_results w basic strcons -> In c basic \/ In c strcons -> hashable w v = true ->
    call_type w (TClass c) v = POk r -> hashable w r = true.
  Proof using.
    intros HR I HV. cbn [call_type]. destruct (ci_enum (class_of w c)) as [ms|]; [|eapply hr_call; eauto].
    unfold enum_call. destruct (cid_eqb _ _); [intros [= <-]; exact HV|].
    destruct (find _ ms) as [[nm x]|]; [|discriminate]. intros [= <-]. reflexivity.
  Qed.

  Lemma hx_basicload v c : In c basic -> hx (basicload w cfg v (TClass c)) (QV v (TClass c)) (EX v (TClass c)).
  Proof using.
    intro B. unfold basicload. destruct (exact v (TClass c)); [apply hx_ret; intros _ _ HV _; exact HV|].
    destruct (basiccast cfg); [|apply hx_raise; apply EX_here; auto].
    destruct (call_type w (TClass c) v) as [r|[]] eqn:C; try (apply hx_raise; apply EX_here; auto).
    apply hx_ret. intros HR _ HV _. eapply call_hashable; eauto.
  Qed.
  Lemma hx_strconsload v c : In c strcons -> hx (strconsload w v (TClass c)) (QV v (TClass c)) (EX v (TClass c)).
  Proof using.
    intro B. unfold strconsload.
    destruct (call_type w (TClass c) v) as [r|[]] eqn:C; try (apply hx_raise; apply EX_here; auto).
    apply hx_ret. intros HR _ HV _. eapply call_hashable; eauto.
  Qed.
  Lemma hx_datetimeload v c : In c [CDate; CTime; CDatetime] -> hx (datetimeload w v (TClass c)) (QV v (TClass c)) (EX v (TClass c)).
  Proof using.
    intro B. unfold datetimeload.
    set (R := match v with VStr s => w_fromiso w c s | _ => match iter v with Some l => w_callargs w c l | None => PExc RType end end).
    assert (D : forall r, R = POk r -> hashable_results w basic strcons -> hashable w r = true).
    { intros r E HR. unfold R in E. destruct v; cbn in E; try discriminate;
        try (eapply hr_callargs; eassumption); eapply hr_fromiso; eassumption. }
    assert (X : forall r, R = PExc r -> r <> RType -> r <> RValue -> risky v (TClass c)).
    { intros r E N1 N2. apply risky_here. unfold R in E.
      destruct v; cbn [iter] in E; try congruence;
        try (eapply hz_args; [exact B|reflexivity|exact E|exact N1|exact N2]).
      eapply hz_iso; [exact B|reflexivity|exact E|exact N1|exact N2]. }
    destruct R as [r|r]; [apply hx_ret; intros HR _ _ _; apply (D r eq_refl HR)|].
    destruct r; apply hx_raise; try (apply EX_here; auto); apply (X _ eq_refl); discriminate.
  Qed.
  Lemma hx_patternload v t :
    t = TClass CPattern \/ (exists n a, t = TGen n OPattern a) -> hx (patternload w v t) (QV v t) (EX v t).
  Proof using.
    intro B. unfold patternload. destruct (w_compile w v) as [r|r] eqn:C.
    - apply hx_ret. intros HR _ _ _. eapply hr_compile; eauto.
    - destruct r; apply hx_raise; try (apply EX_here; auto); apply risky_here; eapply hz_pattern; eauto; discriminate.
  Qed.
  Lemma hx_timedeltaload v : hx (timedeltaload w v (TClass CTimedelta)) (QV v (TClass CTimedelta)) (EX v (TClass CTimedelta)).
  Proof using.
    unfold timedeltaload. destruct (w_timedelta w v) as [r|r] eqn:C.
    - apply hx_ret. intros HR _ _ _. eapply hr_timedelta; eauto.
    - destruct r; apply hx_raise; try (apply EX_here; auto); apply risky_here; eapply hz_timedelta; eauto; discriminate.
  Qed.

  Lemma LE_move v t i t1 a e :
    i = (v, t1, a) -> move v t i v t1 -> component w p env t t1 -> LE v t1 a e -> EX v t e.
  Proof using.
    intros -> M C L. destruct e as [k m tr ve te subs|r]; cbn [LE] in L; [|exact (risky_move _ _ _ _ _ M L)].
    destruct L as [[_ ->]|[e0 [T [[X B] ->]]]]; [apply EX_here; auto|].
    destruct e0 as [k0 m0 tr0 ve0 te0 subs0|]; [|discriminate]. exact (explains_move _ _ _ _ _ _ M B X).
  Qed.

  Lemma hx_forwardrefload v n : hx (forwardrefload w cfg call v (TForward n)) (QV v (TForward n)) (EX v (TForward n)).
  Proof using Hstd Hcall Gcall Hbad.
    intros s C L. unfold forwardrefload, bind, get_st in *. cbn [fst snd] in *.
    destruct (st_frefs s) as [fr|] eqn:F; [|apply EX_here; auto].
    destruct (str_get n fr) as [t'|] eqn:G; [|apply EX_here; auto].
    assert (LS : st_le s SF).
    { eapply st_le_trans; [|exact L]. apply (gd_load_with w cfg call Gcall v t' (Some (AnForward n)) s). }
    assert (E : env n = Some t').
    { unfold names_of. pose proof (le_frefs _ _ LS) as LF. rewrite F in LF. destruct (st_frefs SF); [|contradiction]. auto. }
    assert (CP : component w p env (TForward n) t') by (unfold component, comps; rewrite E; left; reflexivity).
    pose proof (hx_load_with v t' (Some (AnForward n)) s C L) as H.
    destruct (fst (load_with w cfg call v t' (Some (AnForward n)) s)) as [r|e|]; [| |exact I].
    - intros HR P HV K. apply H; auto. eapply keyable_comp; eassumption.
    - eapply LE_move; [reflexivity|apply mv_forward; exact E|exact CP|exact H].
  Qed.
  Lemma hx_newtypeload v n t : hx (newtypeload w cfg call v (TNewType n t)) (QV v (TNewType n t)) (EX v (TNewType n t)).
  Proof using Hstd Hcall Gcall Hbad.
    cbn [newtypeload]. assert (CP : component w p env (TNewType n t) t) by (left; reflexivity).
    eapply hx_weak; [apply hx_load_with| |].
    - intros r H HR P HV K. apply H; auto. eapply keyable_comp; eassumption.
    - intros e H. eapply LE_move; [reflexivity|apply mv_newtype|exact CP|exact H].
  Qed.

  Lemma hx_body h v t : find_handler cfg t = POk h -> hx (body w cfg call h v t) (QV v t) (EX v t).
  Proof using Hstd Hwf Hcall Gcall Hbad.
    intro F. pose proof (std_selected w basic strcons cfg t h Hstd F) as Sel.
    assert (NK : forall k n o, o = OList \/ o = OSet -> forall r, QV v (TGen n o k) r).
    { intros k n o Ho r _ _ _ K. destruct (K n o k (rt1n_refl _ _ _)). destruct Ho; contradiction. }
    destruct h; cbn [selected] in Sel; cbn [body].
    - subst t. unfold noneload. destruct v; try (apply hx_raise; apply EX_here; auto). apply hx_ret. intros _ _ _ _. reflexivity.
    - destruct Sel as [n [args ->]]. apply hx_unionload.
    - destruct Sel as [c [-> [B _]]]. apply hx_basicload. exact B.
    - destruct Sel as [c [ms [-> [E _]]]]. eapply hx_enumload; eauto.
    - destruct Sel as [n [args ->]]. apply hx_tupleload.
    - destruct Sel as [n [args ->]].
      destruct args as [[|et rest]|]; try (apply hx_iterload_bare; [cbn; tauto|first [left; reflexivity|right; split; [reflexivity|discriminate]]]; fail).
      apply hx_iterload; [intro; reflexivity|]. intros l' _. apply NK. auto.
    - destruct Sel as [n [args ->]]. apply hx_dictload.
    - destruct Sel as [n [args ->]].
      destruct args as [[|et rest]|]; try (apply hx_iterload_bare; [cbn; tauto|first [left; reflexivity|right; split; [reflexivity|discriminate]]]; fail).
      apply hx_iterload; [intro; reflexivity|]. intros l' _. apply NK. auto.
    - destruct Sel as [n [args ->]].
      destruct args as [[|et rest]|]; try (apply hx_iterload_bare; [cbn; tauto|first [left; reflexivity|right; split; [reflexivity|discriminate]]]; fail).
      apply hx_iterload; [intro; reflexivity|]. intros l' _ _ _ _ _. reflexivity.
    - destruct Sel as [c [nt [-> [N _]]]]. eapply hx_namedtupleload; eauto.
    - destruct Sel as [c [fs [-> [D [N _]]]]]. eapply hx_dataclassload; eauto.
    - destruct Sel as [n ->]. apply hx_forwardrefload.
    - destruct Sel as [vals ->]. unfold literalload. destruct (py_in v vals); [|apply hx_raise; apply EX_here; auto].
      apply hx_ret. intros _ _ HV _. exact HV.
    - destruct Sel as [c [req [-> [T [N [D _]]]]]]. eapply hx_typeddictload; eauto.
    - destruct Sel as [->|[->| ->]]; apply hx_datetimeload; cbn; auto.
    - apply hx_patternload. exact Sel.
    - subst t. apply hx_timedeltaload.
    - destruct Sel as [c [-> [SC _]]]. apply hx_strconsload. exact SC.
    - destruct Sel as [c [fs [-> [A [N [D _]]]]]]. eapply hx_attrload; eauto.
    - subst t. apply hx_ret. intros _ _ HV _. exact HV.
    - destruct Sel as [n [su ->]]. apply hx_newtypeload.
    - contradiction.
  Qed.
End Trace.

(** loading [v] into [t] failed at some point after [S0] *)
Definition failed_run (w : world) (cfg : config) (S0 : lstate) (v : value) (t : ty) (e : exn) : Prop :=
  find_handler cfg t = PExc RValue \/
  exists n h s, find_handler cfg t = POk h /\ coh w cfg s /\ good_step w cfg S0 s /\ fst (run w cfg n h v t s) = Exc e.

Section TraceRun.
  Variable w : world.
  Variables basic strcons : list cid.
  Variable cfg : config.
  Hypothesis Hstd : is_std w basic strcons cfg.
  Hypothesis Hwf : wf_reflect w.

  Lemma hx_run S0 SF n h v t : find_handler cfg t = POk h ->
    hx w cfg S0 SF (run w cfg n h v t) (QV w basic strcons cfg SF v t) (EXB w basic strcons cfg SF (failed_run w cfg S0) v t).
  Proof using Hstd Hwf.
    revert h v t. induction n as [|n IH]; intros h v t F.
    - intros s C L. exact I.
    - intros s C L.
      assert (H : hx w cfg S0 SF (run w cfg (S n) h v t) (QV w basic strcons cfg SF v t) (EX w basic strcons cfg SF (failed_run w cfg S0) v t)).
      { cbn [run]. apply hx_body; auto; [intros; apply gd_run|]. intros v0 t0 e0 F0. left. exact F0. }
      specialize (H s C L). destruct (fst (run w cfg (S n) h v t s)) as [a|e|] eqn:E; [exact H| |exact I].
      split; [exact H|]. right. exists (S n), h, s. destruct C as [C G0]. auto.
  Qed.

  (** every exception of load *)
  Lemma blame_load n v t s e :
    coh w cfg s -> fst (load w cfg n v t s) = Exc e ->
    (find_handler cfg t = PExc RValue /\ e = XTL KType (MCannotDeal t) [] (Some v) (Some t) []) \/
    exists h e0, find_handler cfg t = POk h /\
      let s1 := if ty_get t (st_index s) then s else register w t (set_index (cons (t, h)) s) in
      fst (run w cfg n h v t s1) = Exc e0 /\ good_step w cfg s s1 /\
      EXB w basic strcons cfg (snd (load w cfg n v t s)) (failed_run w cfg s1) v t e0 /\
      e = (if is_tl e0 then push_trace (v, t, None) e0 else XRaw RAssert).
  Proof using Hstd Hwf.
    intros C E. unfold load, load_ann, load_with, bind, catch in *.
    assert (X : forall h s1, find_handler cfg t = POk h -> good_step w cfg s s1 ->
      forall R, R = (let (r, s') := run w cfg n h v t s1 in
                match r with
                | Ok a => (Ok a, s')
                | Exc e => (if is_tl e then raise (push_trace (v, t, None) e) else raise (XRaw RAssert)) s'
                | OOF => (OOF, s')
                end) -> fst R = Exc e ->
      exists e0, fst (run w cfg n h v t s1) = Exc e0 /\
        EXB w basic strcons cfg (snd R) (failed_run w cfg s1) v t e0 /\
        e = (if is_tl e0 then push_trace (v, t, None) e0 else XRaw RAssert)).
    { intros h s1 F G0 R -> ER.
      pose proof (hx_run s1 (snd (run w cfg n h v t s1)) n h v t F s1
        (conj (proj1 G0 C) (good_refl w cfg s1)) (st_le_refl _)) as H.
      destruct (run w cfg n h v t s1) as [[a|e0|] s']; cbn [fst snd] in *; try discriminate ER.
      exists e0. split; [reflexivity|]. destruct (is_tl e0); cbn [fst snd raise] in *; injection ER as <-; auto. }
    destruct (ty_get t (st_index s)) as [h|] eqn:E1.
    - right. pose proof (coh_index _ _ _ C _ _ E1) as F. exists h.
      destruct (X h s F (good_refl w cfg s) _ eq_refl E) as [e0 [E0 [X0 Q]]]. exists e0.
      split; [exact F|]. cbv zeta. auto using good_refl.
    - destruct (find_handler cfg t) as [h|r] eqn:F.
      + right. exists h.
        assert (G0 : good_step w cfg s (register w t (set_index (cons (t, h)) s))).
        { eapply good_trans; [apply (good_index w cfg s t h E1 F)|apply good_reg]. }
        destruct (X h _ eq_refl G0 _ eq_refl E) as [e0 [E0 [X0 Q]]]. exists e0.
        split; [reflexivity|]. cbv zeta. auto.
      + left. pose proof (std_exc w basic strcons cfg t r Hstd F) as ->. cbn [fst] in E. injection E as <-. auto.
  Qed.
  Lemma trace_load n v t s e :
    coh w cfg s -> fst (load w cfg n v t s) = Exc e ->
    exists s1, LE w basic strcons cfg (snd (load w cfg n v t s)) (failed_run w cfg s1) v t None e.
  Proof using Hstd Hwf.
    intros C E. destruct (blame_load n v t s e C E) as [[F ->]|[h [e0 [F [E0 [_ [[X B] ->]]]]]]].
    - exists s. left. auto.
    - eexists. destruct e0 as [k m tr ve te subs|r]; cbn [is_tl push_trace LE]; [|exact X].
      right. exists (XTL k m tr ve te subs). split; [reflexivity|]. split; [|reflexivity]. split; [exact X|exact B].
  Qed.
End TraceRun.

(** ** Forgetting and weakening the predicate *)
Lemma bad_walk_walk w cfg env bad E v t tr v' t' : bad_walk w cfg env bad E v t tr v' t' -> walk w cfg env v t tr v' t'.
Proof. induction 1; [constructor|econstructor; eassumption]. Qed.

Section Forget.
  Variable w : world.
  Variable cfg : config.
  Variable env : string -> option ty.
  Variable bad : value -> ty -> exn -> Prop.
  Fixpoint blames_explains v t e (H : blames w cfg env bad v t e) {struct H} : explains w cfg env v t e
  with sub_blames_explains v t e (H : sub_blames w cfg env bad v t e) {struct H} : sub_explains w cfg env v t e.
  Proof using.
    - destruct H as [v t k m tr ve te subs v' t' Wk Rp Su Fs].
      apply (explain w cfg env v t k m tr ve te subs v' t' (bad_walk_walk _ _ _ _ _ _ _ _ _ _ Wk) Rp Su).
      exact ((fix go l (F : Forall (sub_blames w cfg env bad v' t') l) : Forall (sub_explains w cfg env v' t') l :=
            match F with
            | Forall_nil _ => Forall_nil _
            | Forall_cons x P F' => Forall_cons x (sub_blames_explains v' t' x P) (go _ F')
            end) subs Fs).
    - destruct H as [v n args t e k m tr ve te subs I _ E X|v c t e k m tr ve te subs I _ E X|v c t k m I _|v c t r I].
      + exact (sub_union w cfg env v n args t e k m tr ve te subs I E (blames_explains v t e X)).
      + exact (sub_enum w cfg env v c t e k m tr ve te subs I E (blames_explains v t e X)).
      + exact (sub_unsupported w cfg env v c t k m I).
      + exact (sub_raw w cfg env v c t r I).
  Qed.
End Forget.
