(** * Apart: the classes which are not involved have no influence (C71)

    The program [w2] differs from [w] in its classes, but not in those which the
    types met while loading [t] mention.  The two loaders run in lock step, in
    equal states (as in Local.v). *)

From Verif Require Import Loader Spec Vocab Inv Std Sound Fuel Obs Scalars Simple Transparent Hist Reuse Index Dumper Dumps DumpAny.
From Verif Require Local.
Import Local(annotated, get_app_l, get_app_r).

(** ** The annotation of an attrs field with a converter

    [converted a b]: the attrs classes [a] and [b] are equal except that fields
    which have a converter can be annotated with another type; Literals, which
    load() uses to tell the alternatives of a Union apart, stay. *)
Definition same_but_type (f f' : field) : Prop :=
  f_name f' = f_name f /\ f_default f' = f_default f /\ f_init f' = f_init f /\ f_repr f' = f_repr f /\
  f_meta f' = f_meta f /\ f_conv f' = f_conv f /\ (f_conv f = None -> f_type f' = f_type f).
Definition a_literal (t : ty) : Prop := exists l, strip_notrequired t = TLiteral l.
Definition same_annotation (x y : string * ty) : Prop :=
  fst y = fst x /\ (snd y = snd x \/ (~ a_literal (snd x) /\ ~ a_literal (snd y))).
Record converted (a b : classinfo) : Prop := mkConverted {
  cv_attrs : ci_enum a = None /\ ci_nt a = None /\ ci_dc a = None /\ ci_td a = None;
  cv_fields : exists fs fs', ci_attrs a = Some fs /\ ci_attrs b = Some fs' /\ Forall2 same_but_type fs fs';
  cv_annotations : Forall2 same_annotation (ci_ann a) (ci_ann b);
  cv_kind : ci_enum b = None /\ ci_nt b = None /\ ci_dc b = None /\ ci_td b = None;
  cv_bases : ci_bases b = ci_bases a;
  cv_hash : ci_hash b = ci_hash a;
  cv_post : forall l, ci_post b l = ci_post a l
}.

Lemma sbt_map {A} (g : field -> A) fs fs' : Forall2 same_but_type fs fs' ->
  (forall f f', same_but_type f f' -> g f' = g f) -> map g fs' = map g fs.
Proof. intros F H. induction F as [|f f' fs fs' S _ IH]; [reflexivity|]. cbn. rewrite (H _ _ S), IH. reflexivity. Qed.
Lemma sbt_map_filter {A} (g : field -> A) (p : field -> bool) fs fs' : Forall2 same_but_type fs fs' ->
  (forall f f', same_but_type f f' -> g f' = g f /\ p f' = p f) -> map g (filter p fs') = map g (filter p fs).
Proof.
  intros F H. induction F as [|f f' fs fs' S _ IH]; [reflexivity|]. cbn. destruct (H _ _ S) as [E1 E2]. rewrite E2.
  destruct (p f); cbn; [rewrite E1|]; rewrite IH; reflexivity.
Qed.
Lemma sbt_hints fs fs' : Forall2 same_but_type fs fs' -> attr_hints fs' = attr_hints fs.
Proof.
  intro F. induction F as [|f f' fs fs' S _ IH]; [reflexivity|]. cbn [attr_hints]. destruct S as [N [_ [_ [_ [_ [C T]]]]]].
  rewrite C, IH, N. destruct (f_conv f); [reflexivity|]. rewrite (T eq_refl). reflexivity.
Qed.
Lemma sbt_bind an ps fs fs' : Forall2 same_but_type fs fs' -> forall acc, bind_fields an fs' ps acc = bind_fields an fs ps acc.
Proof.
  intro F. induction F as [|f f' fs fs' S _ IH]; intro acc; [reflexivity|]. cbn [bind_fields].
  destruct S as [N [D [I _]]]. rewrite N, D, I. destruct (f_init f).
  - destruct (str_get (an (f_name f)) ps); [apply IH|]. destruct (default_of (f_default f) acc); [apply IH|reflexivity].
  - destruct (default_of (f_default f) acc); apply IH.
Qed.
Lemma sbt_fold {A} (g : A -> field -> A) fs fs' : Forall2 same_but_type fs fs' ->
  (forall a f f', same_but_type f f' -> g a f' = g a f) -> forall a, fold_left g fs' a = fold_left g fs a.
Proof. intros F H. induction F as [|f f' fs fs' S _ IH]; intro a; [reflexivity|]. cbn. rewrite (H _ _ _ S). apply IH. Qed.

Section Apart.
  Variable w : world.
  Variable w2 : world.
  Variables basic strcons : list cid.
  Variables (b : list cid) (cast extra rce1 rce2 deq : bool) (mk : string) (ud p563 : bool).
  Variables hs1 hs2 : list (cond * handler).
  Definition k1 : config := mkConfig b cast extra rce1 deq mk ud p563 hs1.
  Definition k2 : config := mkConfig b cast extra rce2 deq mk ud p563 hs2.
  Hypothesis Hstd : is_std w basic strcons k1.
  Hypothesis Hwr : wf_reflect w.
  Variable env : string -> option ty.
  Variable G : ty -> Prop.
  Hypothesis Gcomp : forall t t', G t -> component w p563 env t t' -> G t'.
  Hypothesis Agree : forall t, G t -> find_handler k1 t = find_handler k2 t.
  (** the second program: on the types in [G] it is the same *)
  Hypothesis Hbas : forall v c, In c b -> isinstance w2 v c = isinstance w v c.
  Hypothesis Hhash : forall v, hashable w2 v = hashable w v.
  Definition alike (c : cid) : Prop :=
    class_of w2 c = class_of w c \/
    (converted (class_of w c) (class_of w2 c) /\ forall n o vt, ~ G (TGen n o (Some [TClass c; vt]))).
  Hypothesis Hcls : forall c, G (TClass c) -> alike c.
  Hypothesis Hcall_ : forall t v, G t -> w_call w2 t v = w_call w t v.
  Hypothesis Hname : forall t, G t -> w_name w2 t = w_name w t.
  Hypothesis Hfrom : forall c x, w_fromiso w2 c x = w_fromiso w c x.
  Hypothesis Hargs : forall c l, w_callargs w2 c l = w_callargs w c l.
  Hypothesis Htd : forall v, w_timedelta w2 v = w_timedelta w v.
  Hypothesis Hcomp : forall v, w_compile w2 v = w_compile w v.
  Hypothesis Hpick : forall l, w_pick w2 l = w_pick w l.
  Hypothesis Hord : forall l, w_setorder w2 l = w_setorder w l.
  Hypothesis Gname : forall n t, G (TForward n) -> G t -> w_name w t = Some n -> env n = Some t.

  (** by line 396 the handler of the values may be run on the type of the keys *)
  Hypothesis Gmis : forall n o c vt t, G (TGen n o (Some [TClass c; vt])) -> annotated w c t -> G t.

  Definition names_ok (s : lstate) : Prop :=
    forall n fr t, G (TForward n) -> st_frefs s = Some fr -> str_get n fr = Some t -> env n = Some t.
  Definition inv (s : lstate) : Prop := coh w k1 s /\ names_ok s.

  Definition eqp {A} (m1 m2 : M A) (Q : A -> Prop) : Prop :=
    forall s, inv s -> m1 s = m2 s /\ inv (snd (m1 s)) /\ (forall a, fst (m1 s) = Ok a -> Q a).
  Definition eqm {A} (m1 m2 : M A) : Prop := eqp m1 m2 (fun _ => True).

  Lemma eqp_ret {A} (a : A) (Q : A -> Prop) : Q a -> eqp (ret a) (ret a) Q.
  Proof using. intros H s I. split; [reflexivity|]. split; [exact I|]. cbn. intros a' [= <-]. exact H. Qed.
  Lemma eqp_raise {A} e (Q : A -> Prop) : eqp (raise e) (raise e) Q.
  Proof using. intros s I. split; [reflexivity|]. split; [exact I|]. discriminate. Qed.
  Lemma eqp_lift {A} (r : pyres A) (Q : A -> Prop) : (forall a, r = POk a -> Q a) -> eqp (lift r) (lift r) Q.
  Proof using. destruct r; intro H; [apply eqp_ret; auto|apply eqp_raise]. Qed.
  Lemma eqp_bind {A B} (m1 m2 : M A) (f1 f2 : A -> M B) Q Q' :
    eqp m1 m2 Q -> (forall a, Q a -> eqp (f1 a) (f2 a) Q') -> eqp (bind m1 f1) (bind m2 f2) Q'.
  Proof using.
    intros H K s I. destruct (H s I) as [E [I1 O]]. unfold bind. rewrite <- E.
    destruct (m1 s) as [[a|e|] s1]; cbn [fst snd] in *.
    - apply (K a); auto.
    - split; [reflexivity|]. split; [exact I1|discriminate].
    - split; [reflexivity|]. split; [exact I1|discriminate].
  Qed.
  Lemma eqp_catch {A} (m1 m2 : M A) f1 f2 Q :
    eqp m1 m2 Q -> (forall e, eqp (f1 e) (f2 e) Q) -> eqp (catch m1 f1) (catch m2 f2) Q.
  Proof using.
    intros H K s I. destruct (H s I) as [E [I1 O]]. unfold catch. rewrite <- E.
    destruct (m1 s) as [[a|e|] s1]; cbn [fst snd] in *.
    - split; [reflexivity|]. split; [exact I1|exact O].
    - apply (K e); auto.
    - split; [reflexivity|]. split; [exact I1|discriminate].
  Qed.
  Lemma eqp_attempt {A} (m1 m2 : M A) Q :
    eqp m1 m2 Q -> eqp (attempt m1) (attempt m2) (fun o => match o with inl a => Q a | inr _ => True end).
  Proof using.
    intros H s I. destruct (H s I) as [E [I1 O]]. unfold attempt. rewrite <- E.
    destruct (m1 s) as [[a|e|] s1]; cbn [fst snd] in *; (split; [reflexivity|]); (split; [exact I1|]).
    - intros o [= <-]. auto.
    - intros o [= <-]. exact Logic.I.
    - discriminate.
  Qed.
  Lemma eqp_weak {A} (m1 m2 : M A) (Q Q' : A -> Prop) : (forall a, Q a -> Q' a) -> eqp m1 m2 Q -> eqp m1 m2 Q'.
  Proof using. intros W H s I. destruct (H s I) as [E [I1 O]]. auto. Qed.
  Lemma eqm_ret {A} (a : A) : eqm (ret a) (ret a). Proof using. apply eqp_ret. exact I. Qed.
  Lemma eqm_bind {A B} (m1 m2 : M A) (f1 f2 : A -> M B) Q :
    eqp m1 m2 Q -> (forall a, Q a -> eqm (f1 a) (f2 a)) -> eqm (bind m1 f1) (bind m2 f2).
  Proof using. apply eqp_bind. Qed.

  Lemma inv_index s t h : find_handler k1 t = POk h -> inv s -> inv (set_index (cons (t, h)) s).
  Proof using. intros F [C N]. split; [apply coh_set_index; assumption|exact N]. Qed.
  Lemma inv_register s t : G t -> inv s -> inv (register w t s).
  Proof using Gname.
    intros Gt [C N]. split; [apply coh_register; exact C|].
    unfold register. destruct (st_frefs s) as [fr|] eqn:F; [|exact N].
    destruct (w_name w t) as [nm|] eqn:W; [|exact N].
    destruct (str_get nm fr) eqn:E; [exact N|].
    intros n fr' t' Gn. cbn [st_frefs set_frefs]. intros [= <-] S.
    destruct (str_get n fr) as [t0|] eqn:S0.
    - assert (str_get n (fr ++ [(nm, t)]) = Some t0) by (apply get_app_l; exact S0).
      assert (t' = t0) by congruence. subst. eapply N; eassumption.
    - rewrite get_app_r in S by exact S0. cbn in S. destruct (String.eqb n nm) eqn:Q; [|discriminate].
      apply String.eqb_eq in Q. subst nm. injection S as <-. apply Gname; assumption.
  Qed.
  Lemma inv_good s s' : inv s -> good_step w k1 s s' -> names_ok s' -> inv s'.
  Proof using. intros [C _] [GC _] N. split; auto. Qed.

  Lemma eqp_lookup nf t : G t ->
    eqp (lookup_handler k1 nf t) (lookup_handler k2 nf t) (fun h => find_handler k1 t = POk h).
  Proof using All.
    intros Gt s I. unfold lookup_handler. rewrite <- (Agree t Gt).
    destruct (ty_get t (st_index s)) as [h|] eqn:E.
    - split; [reflexivity|]. split; [exact I|]. cbn. intros a [= <-]. eapply coh_index; [apply I|exact E].
    - destruct (find_handler k1 t) as [h|r] eqn:F.
      + split; [reflexivity|]. split; [apply inv_index; assumption|]. cbn. intros a [= <-]. reflexivity.
      + split; [destruct r; reflexivity|]. split; [destruct r; exact I|]. destruct r; discriminate.
  Qed.

  (** the handler [h] is run on the type [t]: it is its handler, or, by line 396
      of dataloader.py, the one of the values when the keys are of type [t] *)
  Definition runs (h : handler) (t : ty) : Prop :=
    find_handler k1 t = POk h \/
    exists n o vt, G (TGen n o (Some [t; vt])) /\ find_handler k1 vt = POk h.


  Lemma s_isinst v t : basicb k1 t = true -> isinst w2 v t = isinst w v t.
  Proof using Hbas. destruct t; try reflexivity. cbn. intro H. apply Hbas. apply mem_cid_In. exact H. Qed.
  Lemma s_binst v t : basicb k1 t && isinst w2 v t = basicb k1 t && isinst w v t.
  Proof using Hbas. destruct (basicb k1 t) eqn:E; [cbn; apply s_isinst; exact E|reflexivity]. Qed.
  Lemma s_add k x acc : coll_add w2 k x acc = coll_add w k x acc.
  Proof using Hhash. destruct k; cbn; rewrite ?Hhash; reflexivity. Qed.
  Lemma a_enum c : G (TClass c) -> ci_enum (class_of w2 c) = ci_enum (class_of w c).
  Proof using Hcls. intro Gt. destruct (Hcls c Gt) as [->|[K _]]; [reflexivity|]. destruct (cv_attrs _ _ K) as [-> _], (cv_kind _ _ K) as [-> _]. reflexivity. Qed.
  Lemma s_calltype t v : G t -> call_type w2 t v = call_type w t v.
  Proof using Hcls Hcall_. intro Gt. unfold call_type. destruct t; try (apply Hcall_; exact Gt). rewrite a_enum, Hcall_ by exact Gt. reflexivity. Qed.
  Lemma s_construct t ps : G t -> construct w2 t ps = construct w t ps.
  Proof using Hcls Hcall_.
    intro Gt. unfold construct, construct_fields. destruct t as [c| | | | | | | ]; try reflexivity. cbv zeta.
    destruct (Hcls _ Gt) as [->|[K _]]; [reflexivity|].
    destruct (cv_attrs _ _ K) as [_ [-> [-> _]]], (cv_kind _ _ K) as [_ [-> [-> _]]].
    destruct (cv_fields _ _ K) as [fs [fs' [-> [-> F]]]].
    rewrite (sbt_map_filter _ _ _ _ F).
    - destruct (unexpected _ ps); [reflexivity|]. rewrite (sbt_bind _ _ _ _ F). destruct (bind_fields _ fs ps []) as [l|]; [|reflexivity].
      rewrite (cv_post _ _ K). reflexivity.
    - intros f f' [N [_ [I _]]]. rewrite N, I. auto.
  Qed.
  Lemma s_register t s : G t -> register w2 t s = register w t s.
  Proof using Hname. intro Gt. unfold register. rewrite Hname by exact Gt. reflexivity. Qed.
  Lemma s_ann c s : G (TClass c) -> ci_td (class_of w c) <> None -> annotations w2 s c = annotations w s c.
  Proof using Hcls.
    intros Gt T. unfold annotations. destruct (Hcls c Gt) as [->|[K _]]; [reflexivity|]. destruct (cv_attrs _ _ K) as [_ [_ [_ Q]]]. contradiction.
  Qed.
  Lemma s_lits c s : G (TClass c) -> discriminatorliterals w2 s (TClass c) = discriminatorliterals w s (TClass c).
  Proof using Hcls.
    intros Gt. unfold discriminatorliterals, annotations. destruct (Hcls c Gt) as [->|[K _]]; [reflexivity|].
    pose proof (cv_annotations _ _ K) as F.
    assert (Z : forall x, ~ a_literal x -> match x with TLiteral vals => False | _ => True end).
    { intros x H. destruct x; try exact Logic.I. apply H. exists vals. reflexivity. }
    assert (Z' : forall x, ~ a_literal x -> match strip_notrequired x with TLiteral vals => False | _ => True end).
    { intros x H. destruct (strip_notrequired x) eqn:E; try exact Logic.I. apply H. exists vals. exact E. }
    destruct (mem_cid c (st_stripped s)).
    - induction F as [|[k x] [k' y] l l' [E S] _ IH]; [reflexivity|]. cbn [flat_map map fst snd] in *. rewrite IH. clear IH. subst k'.
      destruct S as [->|[S1 S2]]; [reflexivity|]. apply Z' in S1. apply Z' in S2.
      destruct (strip_notrequired x); try contradiction; destruct (strip_notrequired y); try contradiction; reflexivity.
    - induction F as [|[k x] [k' y] l l' [E S] _ IH]; [reflexivity|]. cbn [flat_map map fst snd] in *. rewrite IH. clear IH. subst k'.
      destruct S as [->|[S1 S2]]; [reflexivity|]. apply Z in S1. apply Z in S2.
      destruct x; try contradiction; destruct y; try contradiction; reflexivity.
  Qed.
  Lemma s_dci c fs : class_of w2 c = class_of w c -> dataclass_info w2 k2 c fs = dataclass_info w k1 c fs.
  Proof using Hord.
    intro E. unfold dataclass_info. rewrite E.
    assert (T : dc_transforms w2 k2 fs = dc_transforms w k1 fs); [|rewrite T; reflexivity].
    unfold dc_transforms, dc_table, dc_order, set_iter. rewrite Hord. reflexivity.
  Qed.
  Lemma s_disc t args s : G t -> ty_args t = Some args -> build_disc w2 s args = build_disc w s args.
  Proof using Hcls Hpick Gcomp.
    intros Gt A. unfold build_disc.
    assert (E : map (fun t => (t, discriminatorliterals w2 s t)) args = map (fun t => (t, discriminatorliterals w s t)) args).
    { apply map_ext_in. intros x Hx. f_equal. destruct x as [c| | | | | | | ]; try reflexivity. apply s_lits.
      destruct t as [|n o a| | | | | | ]; try discriminate A. cbn in A. subst a. eapply Gcomp; [exact Gt|exact Hx]. }
    rewrite E. rewrite Hpick. reflexivity.
  Qed.

  Variables call1 call2 : handler -> value -> ty -> M value.
  Hypothesis Hcall : forall h v t, G t -> runs h t -> eqm (call1 h v t) (call2 h v t).
  Lemma runs_own h t : find_handler k1 t = POk h -> runs h t.
  Proof using. left. assumption. Qed.

  Lemma eqm_load_with v t a : G t -> eqm (load_with w k1 call1 v t a) (load_with w2 k2 call2 v t a).
  Proof using All.
    intros Gt. unfold load_with.
    apply (eqm_bind _ _ _ _ (fun h => find_handler k1 t = POk h)).
    - intros s I. rewrite <- (Agree t Gt). destruct (ty_get t (st_index s)) as [h|] eqn:E.
      + split; [reflexivity|]. split; [exact I|]. cbn. intros h' [= <-]. eapply coh_index; [apply I|exact E].
      + destruct (find_handler k1 t) as [h|r] eqn:F.
        * rewrite s_register by exact Gt. split; [reflexivity|]. split; [apply inv_register; [exact Gt|]; apply inv_index; assumption|].
          cbn. intros h' [= <-]. reflexivity.
        * split; [destruct r; reflexivity|]. split; [destruct r; exact I|]. destruct r; discriminate.
    - intros h F. apply eqp_catch; [apply Hcall; [assumption|apply runs_own; assumption]|]. intro e. destruct (is_tl e); apply eqp_raise.
  Qed.

  Lemma eqm_forward v n : G (TForward n) ->
    eqm (forwardrefload w k1 call1 v (TForward n)) (forwardrefload w2 k2 call2 v (TForward n)).
  Proof using All.
    intros Gt s I. unfold forwardrefload, bind, get_st.
    destruct (st_frefs s) as [fr|] eqn:F; [|apply eqp_raise; exact I].
    destruct (str_get n fr) as [t'|] eqn:E; [|apply eqp_raise; exact I].
    apply eqm_load_with; [|exact I]. eapply Gcomp; [exact Gt|]. unfold component, comps.
    rewrite (proj2 I n fr t' Gt F E). left. reflexivity.
  Qed.

  Lemma eqm_iter_loop k mp f1 f2 v t l i acc :
    (forall x, eqm (f1 x) (f2 x)) -> eqm (iter_loop w k mp f1 v t l i acc) (iter_loop w2 k mp f2 v t l i acc).
  Proof using All.
    intro Hf. revert i acc. induction l as [|x l IH]; intros i acc; cbn [iter_loop]; [apply eqm_ret|].
    eapply eqm_bind.
    - apply eqp_attempt. eapply eqp_bind; [apply Hf|]. intros y _. rewrite s_add. apply eqp_lift. intros a _. exact (I : (fun _ => True) a).
    - intros [acc'|e] _; [apply IH|]. destruct (stops mp e); [apply eqm_ret|]. destruct e as [| []]; apply eqp_raise.
  Qed.

  Lemma G_args t args x : G t -> ty_args t = Some args -> In x args -> G x.
  Proof using All.
    intros Gt E H. destruct t as [|n o a| | | | | | ]; try discriminate E. cbn in E. subst a.
    eapply Gcomp; [exact Gt|exact H].
  Qed.

  Lemma eqm_iterload k v t : G t -> eqm (iterload w k1 call1 k v t) (iterload w2 k2 call2 k v t).
  Proof using All.
    intro Gt. unfold iterload.
    destruct (ty_args t) as [[|et rest]|] eqn:A; [destruct v; apply eqp_raise| |destruct v; apply eqp_raise].
    assert (Ge : G et) by (eapply G_args; [exact Gt|exact A|left; reflexivity]).
    assert (X : eqm (bind (lookup_handler k1 (XTL KType (MCannotDeal et) [] (Some v) (Some et) []) et) (fun h =>
               match iter v with
               | None => raise (XTL KType (MPy RType) [] (Some v) (Some t) [])
               | Some l => iter_loop w k (mapped k1 et) (iter_item w k1 call1 h et) v t l 0 []
               end))
             (bind (lookup_handler k2 (XTL KType (MCannotDeal et) [] (Some v) (Some et) []) et) (fun h =>
               match iter v with
               | None => raise (XTL KType (MPy RType) [] (Some v) (Some t) [])
               | Some l => iter_loop w2 k (mapped k2 et) (iter_item w2 k2 call2 h et) v t l 0 []
               end))).
    { eapply eqm_bind; [apply eqp_lookup; exact Ge|]. intros h F. cbv beta in F.
      destruct (iter v) as [l|]; [|apply eqp_raise]. apply eqm_iter_loop. intro x.
      unfold iter_item. change (basicb k2) with (basicb k1).
      pose proof (Hcall h x et Ge (runs_own _ _ F)) as HC.
      destruct (basicb k1 et) eqn:Eb; [rewrite (s_isinst _ _ Eb); destruct (isinst w x et); [apply eqm_ret|exact HC]|].
      destruct et as [|n' o' a'| | | | | | ]; try exact HC. destruct o'; try exact HC. destruct a'; try exact HC.
      destruct (_ && _); [apply eqm_ret|exact HC]. }
    destruct v; try exact X. apply eqp_raise.
  Qed.

  Lemma eqm_tuple_loop v t l ts i acc : (forall x, In x ts -> G x) ->
    eqm (tuple_loop k1 call1 v t l ts i acc) (tuple_loop k2 call2 v t l ts i acc).
  Proof using All.
    revert l i acc. induction ts as [|et ts IH]; intros l i acc HG.
    { cbn [tuple_loop]. destruct l; apply eqm_ret. }
    destruct l as [|x l]; cbn [tuple_loop]; [apply eqm_ret|].
    assert (Ge : G et) by (apply HG; left; reflexivity).
    eapply eqm_bind.
    - apply eqp_attempt. eapply (eqp_bind _ _ _ _ (fun h => find_handler k1 et = POk h)).
      + intros s I. rewrite <- (Agree et Ge). destruct (ty_get et (st_index s)) as [h|] eqn:E.
        * split; [reflexivity|]. split; [exact I|]. cbn. intros h' [= <-]. eapply coh_index; [apply I|exact E].
        * apply eqp_lift; [|exact I]. auto.
      + intros h F. change (basicb k2) with (basicb k1). destruct (basicb k1 et && exact x et); [apply eqm_ret|].
        apply Hcall; [assumption|apply runs_own; assumption].
    - intros [y|e] _; [apply IH; intros z Hz; apply HG; right; exact Hz|]. destruct e as [| []]; apply eqp_raise.
  Qed.

  Lemma eqm_tupleload v t : G t ->
    eqm (tupleload w k1 call1 v t) (tupleload w2 k2 call2 v t).
  Proof using All.
    intro Gt. unfold tupleload. destruct (ty_args t) as [args|] eqn:A; [|apply eqp_raise].
    assert (X : eqm
      match v with
      | VDict _ => raise (XTL KType MDictTuple [] (Some v) (Some t) [])
      | _ => match iter v with
          | None => raise (XRaw RType)
          | Some l =>
              if failonextra k1 && Nat.ltb (List.length args) (List.length l)
              then raise (XTL KValue (MTooLong t) [] (Some v) (Some t) [])
              else if Nat.ltb (List.length l) (List.length args)
              then raise (XTL KValue (MTooShort t) [] (Some v) (Some t) [])
              else tuple_loop k1 call1 v t l args 0 []
          end
      end
      match v with
      | VDict _ => raise (XTL KType MDictTuple [] (Some v) (Some t) [])
      | _ => match iter v with
          | None => raise (XRaw RType)
          | Some l =>
              if failonextra k2 && Nat.ltb (List.length args) (List.length l)
              then raise (XTL KValue (MTooLong t) [] (Some v) (Some t) [])
              else if Nat.ltb (List.length l) (List.length args)
              then raise (XTL KValue (MTooShort t) [] (Some v) (Some t) [])
              else tuple_loop k2 call2 v t l args 0 []
          end
      end).
    { change (failonextra k2) with (failonextra k1).
      assert (Y : forall l, eqm (tuple_loop k1 call1 v t l args 0 [])
                                (tuple_loop k2 call2 v t l args 0 [])).
      { intro l. apply eqm_tuple_loop. intros x Hx. eapply G_args; [exact Gt|exact A|exact Hx]. }
      destruct v; try apply eqp_raise; destruct (iter _); try apply eqp_raise;
        (destruct (_ && _); [apply eqp_raise|]; destruct (Nat.ltb _ _); [apply eqp_raise|apply Y]). }
    destruct args as [|a1 [|a2 [|a3 rest]]]; try exact X; destruct a2; try exact X.
    apply eqm_iterload. exact Gt.
  Qed.

  Lemma eqm_fast kt vt kf vf d acc : G kt -> G vt ->
    (forall x, eqm (call1 kf x kt) (call2 kf x kt)) ->
    (forall h, vf = Some h -> find_handler k1 vt = POk h) ->
    eqm (dict_fast w k1 call1 kt vt kf vf d acc) (dict_fast w2 k2 call2 kt vt kf vf d acc).
  Proof using All.
    intros Gk Gv Hk Hv. revert acc. induction d as [|[k x] d IH]; intro acc; cbn [dict_fast]; [apply eqm_ret|].
    change (basicb k2) with (basicb k1). rewrite !s_binst.
    eapply eqm_bind.
    - destruct (basicb k1 kt && isinst w k kt); [apply eqm_ret|apply Hk].
    - intros k' _. eapply eqm_bind.
      + destruct (basicb k1 vt && isinst w x vt); [apply eqm_ret|].
        destruct vf as [h|]; [apply Hcall; [assumption|apply runs_own; auto]|apply eqp_raise].
      + intros x' _. rewrite Hhash. destruct (hashable w k'); [apply IH|apply eqp_raise].
  Qed.
  Lemma eqm_slow kt vt d acc : G kt -> G vt ->
    eqm (dict_slow w k1 call1 kt vt d acc) (dict_slow w2 k2 call2 kt vt d acc).
  Proof using All.
    intros Gk Gv. revert acc. induction d as [|[k x] d IH]; intro acc; cbn [dict_slow]; [apply eqm_ret|].
    eapply eqm_bind; [apply eqm_load_with; exact Gk|]. intros k' _.
    eapply eqm_bind; [apply eqm_load_with; exact Gv|]. intros x' _. rewrite Hhash.
    destruct (hashable w k'); [apply IH|apply eqp_raise].
  Qed.

  Lemma eqm_dictload v t : G t -> eqm (dictload w k1 call1 v t) (dictload w2 k2 call2 v t).
  Proof using All.
    intros Gt. unfold dictload. destruct (ty_args t) as [args|] eqn:A; [|apply eqp_raise].
    destruct args as [|kt [|vt [|x rest]]]; try apply eqp_raise.
    assert (Gk : G kt) by (eapply G_args; [exact Gt|exact A|left; reflexivity]).
    assert (Gv : G vt) by (eapply G_args; [exact Gt|exact A|right; left; reflexivity]).
    eapply eqm_bind; [apply eqp_lookup; exact Gk|]. intros kf0 Fk. cbv beta in Fk.
    apply (eqm_bind _ _ _ _ (fun kv => runs (fst kv) kt /\ forall h, snd kv = Some h -> find_handler k1 vt = POk h)).
    - intros s I. rewrite <- (Agree vt Gv). destruct (ty_get vt (st_index s)) as [h|] eqn:E.
      + split; [reflexivity|]. split; [exact I|]. cbn. intros a [= <-]. cbn. split; [left; exact Fk|].
        intros h' [= <-]. eapply coh_index; [apply I|exact E].
      + destruct (find_handler k1 vt) as [h|r] eqn:F.
        * split; [reflexivity|]. split; [apply inv_index; assumption|]. cbn. intros a [= <-]. cbn. split; [|discriminate].
          right. destruct t as [|n o a| | | | | | ]; try discriminate A. cbn in A. subst a.
          exists n, o, vt. split; assumption.
        * split; [destruct r; reflexivity|]. split; [destruct r; exact I|]. destruct r; discriminate.
    - intros [kf vf] [Rk Hv]. cbn [fst snd] in Rk, Hv. change (as_dict k2 v) with (as_dict k1 v). cbv zeta.
      apply eqp_catch.
      + destruct (as_dict k1 v); try apply eqp_raise. apply eqm_fast; auto.
      + intros _. apply eqp_catch.
        * destruct (as_dict k1 v); try apply eqp_raise. apply eqm_slow; assumption.
        * intros [[] m tr ve te subs|[]]; apply eqp_raise.
  Qed.

  Lemma eqm_fields_loop fields hints v t d acc : (forall k ft, In (k, ft) hints -> G ft) ->
    eqm (fields_loop k1 call1 fields hints v t d acc) (fields_loop k2 call2 fields hints v t d acc).
  Proof using All.
    intro HG. revert acc. induction d as [|[k x] d IH]; intro acc; cbn [fields_loop]; [apply eqm_ret|].
    destruct k; try apply IH. destruct (mem_str s fields); [|apply IH].
    destruct (str_get s hints) as [ft|] eqn:E; [|apply eqp_raise].
    assert (Gf : G ft) by (eapply HG; apply str_get_In; exact E).
    eapply eqm_bind; [apply eqp_lookup; exact Gf|]. intros h F. cbv beta in F.
    eapply eqm_bind.
    - apply eqp_catch; [apply Hcall; [exact Gf|apply runs_own; exact F]|]. intro e. apply eqp_raise.
    - intros y _. apply IH.
  Qed.
  Lemma eqm_objloader fields nec hints v t : (forall k ft, In (k, ft) hints -> G ft) ->
    G t -> eqm (objloader w k1 call1 fields nec hints v t) (objloader w2 k2 call2 fields nec hints v t).
  Proof using All.
    intros HG Gt. unfold objloader. change (as_dict k2 v) with (as_dict k1 v). change (failonextra k2) with (failonextra k1).
    destruct (as_dict k1 v); try apply eqp_raise. cbv zeta.
    destruct (filter _ nec); [|apply eqp_raise].
    destruct (_ && _); [destruct (all_str _); apply eqp_raise|].
    eapply eqm_bind; [apply eqm_fields_loop; exact HG|]. intros ps _.
    rewrite (s_construct _ _ Gt). destruct (construct w t ps) as [r|[]]; try apply eqp_raise. apply eqm_ret.
  Qed.
  Lemma mangle_same names v t : mangle k2 names v t = mangle k1 names v t.
  Proof using. reflexivity. Qed.
  Lemma eqm_mangle names v t : eqm (mangle k1 names v t) (mangle k2 names v t).
  Proof using All.
    rewrite mangle_same. unfold mangle. destruct names; [apply eqm_ret|]. destruct v; try apply eqp_raise.
    destruct (mangle_loop _ _ _ _ _); [apply eqm_ret|apply eqp_raise].
  Qed.

  Lemma eqm_dataclassload v t :
    (forall c fs oi k ft, t = TClass c -> ci_dc (class_of w c) = Some fs -> dataclass_info w k1 c fs = POk oi ->
       In (k, ft) (oi_hints oi) -> G ft) ->
    G t -> eqm (dataclassload w k1 call1 v t) (dataclassload w2 k2 call2 v t).
  Proof using All.
    intros HG Gt. unfold dataclassload.
    apply (eqm_bind _ _ _ _ (fun oi => forall k ft, In (k, ft) (oi_hints oi) -> G ft)).
    - intros s I. destruct (ty_get t (st_fields s)) as [oi|] eqn:E.
      + split; [reflexivity|]. split; [exact I|]. cbn. intros a [= <-] k ft H.
        destruct (coh_fields _ _ _ (proj1 I) _ _ E) as [c [fs [-> [D O]]]]. eapply HG; eauto.
      + destruct t as [c| | | | | | | ]; try (split; [reflexivity|]; split; [exact I|discriminate]).
        destruct (Hcls _ Gt) as [Ec|[K _]].
        2: { destruct (cv_attrs _ _ K) as [_ [_ [-> _]]], (cv_kind _ _ K) as [_ [_ [-> _]]]. split; [reflexivity|]; split; [exact I|discriminate]. }
        rewrite Ec. destruct (ci_dc (class_of w c)) as [fs|] eqn:D; [|split; [reflexivity|]; split; [exact I|discriminate]].
        rewrite (s_dci c fs Ec).
        destruct (dataclass_info w k1 c fs) as [oi|r] eqn:O; (split; [reflexivity|]); [|split; [exact I|discriminate]].
        split; [split; [eapply coh_set_fields; [exact D|exact O|apply I]|exact (proj2 I)]|].
        cbn. intros a [= <-] k ft H. eapply HG; eauto.
    - intros oi HO. eapply eqm_bind; [apply eqm_mangle|]. intros v' _. apply eqm_objloader; [exact HO|exact Gt].
  Qed.
  Lemma eqm_namedtupleload v t :
    (forall c hints k ft, t = TClass c -> ci_nt (class_of w c) <> None ->
       (if p563 then ci_hints (class_of w c) else POk (ci_ann (class_of w c))) = POk hints ->
       In (k, ft) hints -> G ft) ->
    G t -> eqm (namedtupleload w k1 call1 v t) (namedtupleload w2 k2 call2 v t).
  Proof using All.
    intros HG Gt. unfold namedtupleload. destruct t as [c| | | | | | | ]; try apply eqp_raise.
    destruct (Hcls _ Gt) as [Ec|[K _]].
    2: { destruct (cv_attrs _ _ K) as [_ [-> _]], (cv_kind _ _ K) as [_ [-> _]]. apply eqp_raise. }
    rewrite !Ec. destruct (ci_nt (class_of w c)) as [nt|] eqn:N; [|apply eqp_raise].
    change (pep563 k2) with p563. change (pep563 k1) with p563.
    eapply (eqm_bind _ _ _ _ (fun hints => forall k ft, In (k, ft) hints -> G ft)).
    - apply eqp_lift. intros hints E k ft H. eapply HG; [reflexivity|congruence|exact E|exact H].
    - intros hints HO. apply eqm_objloader; [exact HO|exact Gt].
  Qed.
  Lemma eqm_attrload v t :
    (forall c fs hints k ft, t = TClass c -> ci_attrs (class_of w c) = Some fs -> attr_hints fs = POk hints ->
       In (k, ft) hints -> G ft) ->
    G t -> eqm (attrload w k1 call1 v t) (attrload w2 k2 call2 v t).
  Proof using All.
    intros HG Gt. unfold attrload. destruct t as [c| | | | | | | ]; try apply eqp_raise.
    assert (X : match ci_attrs (class_of w c), ci_attrs (class_of w2 c) with
                | Some fs, Some fs' => Forall2 same_but_type fs fs' | None, None => True | _, _ => False end).
    { destruct (Hcls _ Gt) as [->|[K _]].
      - destruct (ci_attrs (class_of w c)) as [fs|]; [|exact Logic.I]. induction fs as [|f fs IH]; constructor; [|exact IH]. repeat split.
      - destruct (cv_fields _ _ K) as [fs [fs' [-> [-> F]]]]. exact F. }
    destruct (ci_attrs (class_of w c)) as [fs|] eqn:N, (ci_attrs (class_of w2 c)) as [fs'|]; try contradiction; [|apply eqp_raise].
    rewrite (sbt_hints _ _ X).
    assert (X1 : map f_name (filter required_field fs') = map f_name (filter required_field fs)).
    { apply sbt_map_filter; [exact X|]. intros f f' [N1 [D1 [I1 _]]]. unfold required_field. rewrite N1, D1, I1. auto. }
    assert (X2 : map f_name fs' = map f_name fs).
    { apply sbt_map; [exact X|]. intros f f' [N1 _]. exact N1. }
    assert (X3 : forall mk0 a, fold_left (fun acc f => match str_get mk0 (f_meta f) with Some name => str_set name (f_name f) acc | None => acc end) fs' a =
       fold_left (fun acc f => match str_get mk0 (f_meta f) with Some name => str_set name (f_name f) acc | None => acc end) fs a).
    { intro mk0. apply sbt_fold; [exact X|]. intros a f f' [N1 [_ [_ [_ [M1 _]]]]]. rewrite N1, M1. reflexivity. }
    rewrite X1, X2.
    eapply (eqm_bind _ _ _ _ (fun hints => forall k ft, In (k, ft) hints -> G ft)).
    - apply eqp_lift. intros hints E k ft H. eapply HG; [reflexivity|exact N|exact E|exact H].
    - intros hints HO. cbv zeta. change (mangle_key k2) with (mangle_key k1). rewrite X3.
      eapply eqm_bind; [apply eqm_mangle|]. intros v' _. apply eqm_objloader; [exact HO|exact Gt].
  Qed.
  Lemma eqm_typeddictload v t :
    (forall c s hints k ft, t = TClass c -> ci_td (class_of w c) <> None ->
       (if p563 then ci_hints (class_of w c) else POk (annotations w s c)) = POk hints ->
       In (k, ft) hints -> G (strip_notrequired ft)) ->
    G t -> eqm (typeddictload w k1 call1 v t) (typeddictload w2 k2 call2 v t).
  Proof using All.
    intros HG Gt. unfold typeddictload. destruct t as [c| | | | | | | ]; try apply eqp_raise.
    assert (ET : ci_td (class_of w2 c) = ci_td (class_of w c) /\ (ci_td (class_of w c) <> None -> class_of w2 c = class_of w c)).
    { destruct (Hcls _ Gt) as [Ec|[K _]]; [rewrite Ec; auto|].
      destruct (cv_attrs _ _ K) as [_ [_ [_ ->]]], (cv_kind _ _ K) as [_ [_ [_ ->]]]. split; [reflexivity|contradiction]. }
    destruct ET as [ET EC]. rewrite ET. destruct (ci_td (class_of w c)) as [req|] eqn:N; [|apply eqp_raise].
    rewrite !EC by discriminate.
    change (pep563 k2) with p563. change (pep563 k1) with p563.
    apply (eqm_bind get_st get_st _ _ (fun _ => True)).
    { intros s I. split; [reflexivity|]. split; [exact I|auto]. }
    intros s0 _. rewrite s_ann by (try exact Gt; congruence).
    eapply (eqm_bind _ _ _ _ (fun hints => forall k ft, In (k, ft) hints -> G (strip_notrequired ft))).
    - apply eqp_lift. intros hints E k ft H. eapply HG; [reflexivity|congruence|exact E|exact H].
    - intros hints HO. cbv zeta. eapply (eqm_bind _ _ _ _ (fun _ => True)).
      + intros s I. split; [reflexivity|]. split; [|auto]. cbn.
        assert (X : forall q : bool, inv (if q then s else set_stripped (cons c) s)).
        { intros []; [exact I|]. split; [apply coh_set_stripped; apply I|exact (proj2 I)]. }
        apply X.
      + intros _ _. apply eqm_objloader; [|exact Gt]. intros k ft H. apply in_map_iff in H as [[k' ft'] [[= <- <-] H]]. eapply HO. exact H.
  Qed.

  Lemma eqp_prefer v t args sorted :
    G t -> ty_args t = Some args -> (forall x, In x sorted -> In x args) ->
    eqp (prefer w v t args sorted) (prefer w2 v t args sorted) (fun l => forall x, In x l -> In x args).
  Proof using All.
    intros Gt A Hs. unfold prefer. destruct v; try (apply eqp_ret; exact Hs).
    apply eqp_bind with (Q := fun dc => forall key cd x, dc = Some (key, cd) -> In x (map snd cd) -> In x args).
    { intros s I0. rewrite (s_disc t args s Gt A). destruct (same_get t (st_disc s)) as [dc|] eqn:E; (split; [reflexivity|]).
      - split; [exact I0|]. cbn. intros a [= <-]. destruct (coh_disc _ _ _ (proj1 I0) _ _ E) as [args0 [args' [s' [A' [Sm ->]]]]].
        assert (args0 = args) by congruence. subst args0. intros key cd x B Ix. apply Sm. revert B Ix. apply build_disc_types.
      - split; [|cbn; intros a [= <-] key cd x; apply build_disc_types].
        destruct I0 as [C R]. split; [apply coh_set_disc; assumption|exact R]. }
    intros [[key [|lt cd]]|] Hd; try (apply eqp_ret; exact Hs).
    rewrite Hhash. destruct (hashable w _); [|apply eqp_raise].
    destruct (disc_get _ (lt :: cd)) as [pt|] eqn:DG; apply eqp_ret; [|exact Hs].
    intros x [<-|Hin]; [|apply Hs; eapply remove_first_In; exact Hin].
    eapply Hd; [reflexivity|]. eapply disc_get_types. exact DG.
  Qed.
  Lemma eqm_try_members v t ts n r exs : (forall x, In x ts -> G x) ->
    eqm (try_members k1 call1 v t ts n r exs) (try_members k2 call2 v t ts n r exs).
  Proof using All.
    revert n r exs. induction ts as [|x ts IH]; intros n r exs HG; cbn [try_members]; [apply eqm_ret|].
    assert (Gx : G x) by (apply HG; left; reflexivity).
    assert (IH' : forall n r exs, eqm (try_members k1 call1 v t ts n r exs) (try_members k2 call2 v t ts n r exs)).
    { intros. apply IH. intros y Hy. apply HG. right. exact Hy. }
    eapply eqm_bind.
    - apply eqp_attempt. eapply eqp_bind; [apply eqp_lookup; exact Gx|]. intros h F. cbv beta in F.
      apply (Hcall h v x Gx (runs_own _ _ F)).
    - intros [r'|[k m tr v0 t0 subs|k]] _; [|apply IH'|apply eqp_raise].
      change (uniondebugconflict k2) with (uniondebugconflict k1).
      destruct (uniondebugconflict k1); [apply IH'|apply eqm_ret].
  Qed.
  Lemma eqm_unionload v t : G t -> eqm (unionload w k1 call1 v t) (unionload w2 k2 call2 v t).
  Proof using All.
    intros Gt. unfold unionload. destruct (ty_args t) as [args|] eqn:A; [|apply eqp_raise]. cbv zeta.
    change (basicb k2) with (basicb k1). destruct (_ && _); [apply eqm_ret|].
    eapply eqm_bind.
    - apply eqp_prefer; [exact Gt|exact A|]. intros x Hx. apply in_app_iff in Hx as [Hx|Hx]; apply filter_In in Hx; apply Hx.
    - intros l HL. cbv beta in HL. eapply eqm_bind.
      + apply eqm_try_members. intros x Hx. eapply G_args; [exact Gt|exact A|]. apply HL. exact Hx.
      + intros [[n0 r0] exs] _. destruct n0 as [|[|n0]]; try apply eqp_raise. apply eqm_ret.
  Qed.

  Lemma eqm_enum_hints v t ts exs : (forall x, In x ts -> G x) ->
    G t -> eqm (enum_hints w k1 call1 v t ts exs) (enum_hints w2 k2 call2 v t ts exs).
  Proof using All.
    revert exs. induction ts as [|x ts IH]; intros exs HG Gt; cbn [enum_hints]; [apply eqm_ret|].
    eapply eqm_bind.
    - apply eqp_attempt. eapply eqp_bind; [apply eqm_load_with; apply HG; left; reflexivity|]. intros y _.
      rewrite (s_calltype _ _ Gt). apply eqp_lift. intros a _. exact (I : (fun _ => True) a).
    - intros [r|e] _; [apply eqm_ret|]. apply IH; [|exact Gt]. intros y Hy. apply HG. right. exact Hy.
  Qed.
  Lemma eqm_enumload v t :
    (forall c hints x, t = TClass c -> ci_hints (class_of w c) = POk hints -> In x (map snd hints) -> G x) ->
    (forall c, t = TClass c -> class_of w2 c = class_of w c) ->
    G t -> eqm (enumload w k1 call1 v t) (enumload w2 k2 call2 v t).
  Proof using All.
    intros HG Ec Gt. unfold enumload. rewrite (s_calltype _ _ Gt). destruct (call_type w t v); [apply eqm_ret|].
    destruct t as [c| | | | | | | ]; try apply eqp_raise. rewrite !(Ec c eq_refl).
    eapply (eqm_bind _ _ _ _ (fun hints => forall x, In x (map snd hints) -> G x)).
    - apply eqp_lift. intros hints E x H. eapply HG; [reflexivity|exact E|exact H].
    - intros hints HO. eapply eqm_bind; [apply eqm_enum_hints; [exact HO|exact Gt]|].
      intros [y|exs] _; [apply eqm_ret|apply eqp_raise].
  Qed.

  Lemma declared_in c k ft : G (TClass c) -> In (k, ft) (declared w p563 c) -> G ft.
  Proof using All.
    intros Gt H. eapply Gcomp; [exact Gt|]. unfold component, comps. apply in_or_app. left.
    apply (in_map snd) in H. exact H.
  Qed.
  Lemma strip_unwrap ft : strip_notrequired ft = unwrap ft.
  Proof using. reflexivity. Qed.

  Lemma eqm_body h v t : G t -> runs h t -> eqm (body w k1 call1 h v t) (body w2 k2 call2 h v t).
  Proof using All.
    intros Gt R.
    assert (NC : forall f, h <> HCustom f).
    { intros f ->. destruct R as [F|[n [o [vt [Gg F]]]]].
      - apply (std_selected w basic strcons k1 t _ Hstd F).
      - apply (std_selected w basic strcons k1 vt _ Hstd F). }
    assert (Own : find_handler k1 t = POk h \/ forall c x, t = TClass c -> annotated w c x -> G x).
    { destruct R as [F|[n [o [vt [Gg F]]]]]; [left; exact F|right]. intros c x -> A. eapply Gmis; eassumption. }
    assert (Sel : selected w basic strcons h t \/ forall c x, t = TClass c -> annotated w c x -> G x).
    { destruct Own as [F|X]; [left|right; exact X]. 
      exact (std_selected w basic strcons k1 t _ Hstd F). }
    clear Own.
    assert (En : h = HEnum -> forall c, t = TClass c -> class_of w2 c = class_of w c).
    { intros -> c ->. destruct (Hcls _ Gt) as [Ec|[K NG]]; [exact Ec|exfalso]. destruct R as [F|[n [o [vt [Gg _]]]]]; [|exact (NG _ _ _ Gg)].
      pose proof (std_selected w basic strcons k1 _ _ Hstd F) as [c' [ms [[= <-] [E' _]]]]. destruct (cv_attrs _ _ K) as [Z _]. congruence. }
    destruct h; cbn [selected] in Sel; cbn [body].
    - unfold noneload. destruct v; try apply eqp_raise. apply eqm_ret.
    - apply eqm_unionload; exact Gt.
    - unfold basicload. change (basiccast k2) with (basiccast k1).
      destruct (exact v t); [apply eqm_ret|]. destruct (basiccast k1); [|apply eqp_raise].
      rewrite (s_calltype _ _ Gt). destruct (call_type w t v) as [r|[]]; try apply eqp_raise. apply eqm_ret.
    - apply eqm_enumload; [|exact (En eq_refl)|exact Gt]. intros c hints x -> E H. destruct Sel as [[c' [ms [[= <-] [E' _]]]]|X].
      + eapply Gcomp; [exact Gt|]. unfold component, comps. apply in_or_app. right. rewrite E', E. exact H.
      + apply (X c x eq_refl). left. exists hints. auto.
    - apply eqm_tupleload. exact Gt.
    - apply eqm_iterload. exact Gt.
    - apply eqm_dictload. exact Gt.
    - apply eqm_iterload. exact Gt.
    - apply eqm_iterload. exact Gt.
    - apply eqm_namedtupleload; [|exact Gt]. intros c hints k ft -> N E H. destruct Sel as [[c' [nt [[= <-] [N' _]]]]|X].
      + eapply declared_in; [exact Gt|]. unfold declared, kind_of_class, declared_types. rewrite N'.
        revert E. case p563; intro E; [rewrite E; exact H|]. injection E as ->. exact H.
      + apply (X c ft eq_refl). apply (in_map snd) in H. revert E. case p563; intro E.
        * left. exists hints. auto.
        * injection E as <-. right. left. exact H.
    - apply eqm_dataclassload; [|exact Gt]. intros c fs oi k ft -> D O H. destruct Sel as [[c' [fs' [[= <-] [D' [N' _]]]]]|X].
      + eapply declared_in; [exact Gt|]. assert (fs' = fs) by congruence. subst fs'.
        assert (KK : kind_of_class w c = Some (KDC fs)) by (unfold kind_of_class; rewrite N', D; reflexivity).
        change p563 with (pep563 k1). rewrite <- (dataclass_info_hints w k1 c fs oi KK O). exact H.
      + apply (X c ft eq_refl). unfold dataclass_info in O. cbn [pep563 k1] in O. apply (in_map snd) in H.
        revert O. case p563.
        * destruct (ci_hints (class_of w c)) as [l|] eqn:E; [|discriminate]. intros [= <-]. left. exists l. auto.
        * intros [= <-]. cbn [oi_hints] in H. rewrite map_map in H. right. right. right. left. exists fs. auto.
    - assert (T : (exists n, t = TForward n) \/ forall n, t <> TForward n) by (destruct t; eauto; right; discriminate).
      destruct T as [[n ->]|T]; [apply eqm_forward; exact Gt|].
      assert (E : forall w' k call, forwardrefload w' k call v t = bind get_st (fun s => match st_frefs s with
         | None => raise (XTL KBase MFrefDisabled [] (Some v) (Some t) []) | Some _ => raise (XRaw RAttr) end)).
      { intros w' k call. destruct t as [| | | |nm| | | ]; try reflexivity. contradiction (T nm eq_refl). }
      rewrite !E. apply (eqm_bind get_st get_st _ _ (fun _ => True)).
      { intros s I. split; [reflexivity|]. split; [exact I|auto]. }
      intros s _. destruct (st_frefs s); apply eqp_raise.
    - unfold literalload. destruct t; try apply eqp_raise. destruct (py_in v vals); [apply eqm_ret|apply eqp_raise].
    - apply eqm_typeddictload; [|exact Gt]. intros c s hints k ft -> T E H. rewrite strip_unwrap.
      assert (A : ci_attrs (class_of w c) = None) by (eapply wr_td; eassumption).
      assert (UU : forall k' x, In (k', x) (ci_ann (class_of w c)) -> unwrap (unwrap x) = unwrap x).
      { intros k' x Hx. eapply wr_nested; eassumption. }
      assert (Y : forall x, In x (map (fun kt => unwrap (snd kt)) (match p563 with true => match ci_hints (class_of w c) with POk l => l | PExc _ => [] end | false => ci_ann (class_of w c) end)) -> G x).
      { intros x Hx. destruct Sel as [[c' [req [[= <-] [T' [N' [D' _]]]]]]|X].
        - apply in_map_iff in Hx as [[k0 x0] [<- Hx]]. apply (declared_in c k0); [exact Gt|].
          unfold declared, kind_of_class. rewrite N', D', A, T'. unfold declared_types.
          apply in_map_iff. exists (k0, x0). split; [reflexivity|exact Hx].
        - apply (X c x eq_refl). revert Hx. case p563.
          + destruct (ci_hints (class_of w c)) as [l|] eqn:EH; [|contradiction]. intro Hx. left. exists l. auto.
          + intro Hx. right. right. left. exact Hx. }
      apply Y. clear Y. revert E. case p563; intro E.
      + rewrite E. apply in_map_iff. exists (k, ft). auto.
      + injection E as <-. unfold annotations in H. destruct (mem_cid c (st_stripped s)).
        * apply in_map_iff in H as [[k0 x0] [[= <- <-] H]]. apply in_map_iff. exists (k0, x0). split; [|exact H].
          cbn [snd]. symmetry. exact (UU _ _ H).
        * apply in_map_iff. exists (k, ft). auto.
    - unfold datetimeload. destruct t as [c| | | | | | | ]; try apply eqp_raise.
      assert (E0 : (match v with VStr x => w_fromiso w2 c x | _ => match iter v with Some l => w_callargs w2 c l | None => PExc RType end end) = (match v with VStr x => w_fromiso w c x | _ => match iter v with Some l => w_callargs w c l | None => PExc RType end end)).
      { destruct v; try apply Hfrom; destruct (iter _); try reflexivity; apply Hargs. }
      rewrite E0. destruct (match v with VStr s => w_fromiso w c s | _ => _ end) as [r|[]]; try apply eqp_raise. apply eqm_ret.
    - unfold patternload. rewrite Hcomp. destruct (w_compile w v) as [r|[]]; try apply eqp_raise. apply eqm_ret.
    - unfold timedeltaload. rewrite Htd. destruct (w_timedelta w v) as [r|[]]; try apply eqp_raise. apply eqm_ret.
    - unfold strconsload. rewrite (s_calltype _ _ Gt). destruct (call_type w t v) as [r|[]]; try apply eqp_raise. apply eqm_ret.
    - apply eqm_attrload; [|exact Gt]. intros c fs hints k ft -> A E H. destruct Sel as [[c' [fs' [[= <-] [A' [N' [D' _]]]]]]|X].
      + eapply declared_in; [exact Gt|]. unfold declared, kind_of_class. rewrite N', D', A.
        apply attr_hints_spec in E. rewrite <- E. exact H.
      + apply (X c ft eq_refl). apply attr_hints_spec in E. subst hints. apply (in_map snd) in H. rewrite map_map in H.
        right. right. right. right. exists fs. auto.
    - apply eqm_ret.
    - unfold newtypeload. destruct t; try apply eqp_raise. apply eqm_load_with.
      eapply Gcomp; [exact Gt|]. left. reflexivity.
    - contradiction (NC _ eq_refl).
  Qed.
End Apart.

Section ApartRun.
  Variables w w2 : world.
  Variables basic strcons : list cid.
  Variables (b : list cid) (cast extra rce1 rce2 deq : bool) (mk : string) (ud p563 : bool).
  Variables hs1 hs2 : list (cond * handler).
  Notation K1 := (k1 b cast extra rce1 deq mk ud p563 hs1).
  Notation K2 := (k2 b cast extra rce2 deq mk ud p563 hs2).
  Hypothesis Hstd : is_std w basic strcons K1.
  Hypothesis Hwr : wf_reflect w.
  Variable env : string -> option ty.
  Variable G : ty -> Prop.
  Hypothesis Gcomp : forall t t', G t -> component w p563 env t t' -> G t'.
  Hypothesis Agree : forall t, G t -> find_handler K1 t = find_handler K2 t.
  Hypothesis Hbas : forall v c, In c b -> isinstance w2 v c = isinstance w v c.
  Hypothesis Hhash : forall v, hashable w2 v = hashable w v.
  Hypothesis Hcls : forall c, G (TClass c) -> alike w w2 G c.
  Hypothesis Hcall_ : forall t v, G t -> w_call w2 t v = w_call w t v.
  Hypothesis Hname : forall t, G t -> w_name w2 t = w_name w t.
  Hypothesis Hfrom : forall c x, w_fromiso w2 c x = w_fromiso w c x.
  Hypothesis Hargs : forall c l, w_callargs w2 c l = w_callargs w c l.
  Hypothesis Htd : forall v, w_timedelta w2 v = w_timedelta w v.
  Hypothesis Hcomp : forall v, w_compile w2 v = w_compile w v.
  Hypothesis Hpick : forall l, w_pick w2 l = w_pick w l.
  Hypothesis Hord : forall l, w_setorder w2 l = w_setorder w l.
  Hypothesis Gname : forall n t, G (TForward n) -> G t -> w_name w t = Some n -> env n = Some t.
  Hypothesis Gmis : forall n o c vt t, G (TGen n o (Some [TClass c; vt])) -> annotated w c t -> G t.

  Lemma eqm_run n : forall h v t, G t -> runs b cast extra rce1 deq mk ud p563 hs1 G h t ->
    eqm w b cast extra rce1 deq mk ud p563 hs1 env G (run w K1 n h v t) (run w2 K2 n h v t).
  Proof using All.
    induction n as [|n IH]; intros h v t Gt R.
    { intros s I. split; [reflexivity|]. split; [exact I|auto]. }
    cbn [run]. eapply eqm_body; eassumption.
  Qed.
  Lemma apart_load n v t s : G t -> coh w K1 s -> names_ok env G s -> load w K1 n v t s = load w2 K2 n v t s.
  Proof using All.
    intros Gt C N. unfold load, load_ann.
    assert (X : eqm w b cast extra rce1 deq mk ud p563 hs1 env G (load_with w K1 (run w K1 n) v t None) (load_with w2 K2 (run w2 K2 n) v t None)).
    { eapply eqm_load_with; try eassumption. apply eqm_run. }
    destruct (X s (conj C N)) as [E _]. exact E.
  Qed.
End ApartRun.

(** The two programs agree about the types which load(_, t) can meet: the
    classes themselves, what calling them does, their names; about the library;
    and about which objects are hashable and which are instances of the basic
    types.  Every other class can be added, removed, or changed: its fields,
    defaults, constructors, enum members, annotations... *)
Record same_for (w w' : world) (basic : list cid) (p563 : bool) (env : string -> option ty) (t : ty) : Prop := mkSameFor {
  sf_class : forall c, reach w p563 env t (TClass c) -> class_of w' c = class_of w c;
  sf_call : forall t' v, reach w p563 env t t' -> w_call w' t' v = w_call w t' v;
  sf_name : forall t', reach w p563 env t t' -> w_name w' t' = w_name w t';
  sf_hash : forall c, ci_hash (class_of w' c) = ci_hash (class_of w c);
  sf_basic : forall c b, In b basic -> (In b (mro w' c) <-> In b (mro w c));
  sf_iso : forall c x, w_fromiso w' c x = w_fromiso w c x;
  sf_args : forall c l, w_callargs w' c l = w_callargs w c l;
  sf_timedelta : forall v, w_timedelta w' v = w_timedelta w v;
  sf_compile : forall v, w_compile w' v = w_compile w v;
  sf_pick : forall l, w_pick w' l = w_pick w l;
  sf_order : forall l, w_setorder w' l = w_setorder w l
}.

Fixpoint hashable_same w w' (H : forall c, ci_hash (class_of w' c) = ci_hash (class_of w c)) (v : value) {struct v} :
  hashable w' v = hashable w v.
Proof.
  destruct v; cbn; try reflexivity; [ | |apply H].
  - induction l as [|x l IH]; [reflexivity|]. cbn. rewrite (hashable_same w w' H x). f_equal. exact IH.
  - induction fs as [|[k x] l IH]; [reflexivity|]. cbn. rewrite (hashable_same w w' H x). f_equal. exact IH.
Qed.

(** the same, and the annotations of the fields with a converter can differ
    too, of the classes which are met *)
Record same_upto_converted (w w' : world) (basic : list cid) (p563 : bool) (env : string -> option ty) (t : ty) : Prop := mkSameUpto {
  sc_class : forall c, reach w p563 env t (TClass c) ->
    class_of w' c = class_of w c \/
    (converted (class_of w c) (class_of w' c) /\
     (* it is not the type of the keys of a Dict: line 396 *)
     forall n o vt, ~ reach w p563 env t (TGen n o (Some [TClass c; vt])));
  sc_call : forall t' v, reach w p563 env t t' -> w_call w' t' v = w_call w t' v;
  sc_name : forall t', reach w p563 env t t' -> w_name w' t' = w_name w t';
  sc_hash : forall c, ci_hash (class_of w' c) = ci_hash (class_of w c);
  sc_basic : forall c b, In b basic -> (In b (mro w' c) <-> In b (mro w c));
  sc_iso : forall c x, w_fromiso w' c x = w_fromiso w c x;
  sc_args : forall c l, w_callargs w' c l = w_callargs w c l;
  sc_timedelta : forall v, w_timedelta w' v = w_timedelta w v;
  sc_compile : forall v, w_compile w' v = w_compile w v;
  sc_pick : forall l, w_pick w' l = w_pick w l;
  sc_order : forall l, w_setorder w' l = w_setorder w l
}.

Lemma chain_same w w' basic strcons t :
  (forall c, t = TClass c -> class_of w' c = class_of w c \/ converted (class_of w c) (class_of w' c)) ->
  chain w' basic strcons t = chain w basic strcons t.
Proof.
  intro H. destruct t as [c| | | | | | | ]; try reflexivity.
  unfold chain, is_enum, is_namedtuple, is_dataclass, is_typeddict, is_attrs. destruct (H c eq_refl) as [->|K]; [reflexivity|].
  destruct (cv_attrs _ _ K) as [-> [-> [-> ->]]], (cv_kind _ _ K) as [-> [-> [-> ->]]].
  destruct (cv_fields _ _ K) as [fs [fs' [-> [-> _]]]]. reflexivity.
Qed.

Lemma c74 w w' basic strcons cfg cfg' :
  is_std w basic strcons cfg -> is_std w' basic strcons cfg' -> Local.same_settings cfg cfg' -> wf_reflect w ->
  forall env s v t, same_upto_converted w w' basic (pep563 cfg) env t -> used w cfg s ->
  (forall n t', reach w (pep563 cfg) env t (TForward n) -> knows s n t' -> env n = Some t') ->
  (forall n t', reach w (pep563 cfg) env t (TForward n) -> reach w (pep563 cfg) env t t' -> w_name w t' = Some n -> env n = Some t') ->
  (forall n o c vt t', reach w (pep563 cfg) env t (TGen n o (Some [TClass c; vt])) -> annotated w c t' -> reach w (pep563 cfg) env t t') ->
  forall n, load w cfg n v t s = load w' cfg' n v t s.
Proof.
  intros Hs Hs' Sm Hwr env s v t F U Kn Nm Mi n. pose proof (used_coh _ _ _ U) as C.
  assert (Ag : forall t', reach w (pep563 cfg) env t t' -> find_handler cfg t' = find_handler cfg' t').
  { intros t' R. rewrite (find_std w basic strcons cfg t' Hs), (find_std w' basic strcons cfg' t' Hs').
    symmetry. apply chain_same. intros c ->. destruct (sc_class _ _ _ _ _ _ F c R) as [E|[K _]]; auto. }
  assert (Bs : basictypes cfg = basic) by apply Hs.
  destruct cfg as [b1 ca1 ex1 rc1 dq1 mk1 ud1 p1 h1], cfg' as [b2 ca2 ex2 rc2 dq2 mk2 ud2 p2 h2].
  destruct Sm as [E1 [E2 [E3 [E4 [E5 [E6 E7]]]]]].
  cbn [basictypes basiccast failonextra dictequivalence mangle_key uniondebugconflict pep563] in *. subst.
  apply (apart_load w w' basic strcons basic ca2 ex2 rc1 rc2 dq2 mk2 ud2 p2 h1 h2 Hs Hwr env (reach w p2 env t)
     (fun a b => reach_step w p2 env t a b) Ag); try apply F; try assumption.
  - intros x c I. unfold isinstance. pose proof (sc_basic _ _ _ _ _ _ F (type_of x) c I) as E. rewrite <- !mem_cid_In in E.
    destruct (mem_cid c (mro w' (type_of x))), (mem_cid c (mro w (type_of x))); try reflexivity;
      [symmetry; apply E; reflexivity|apply E; reflexivity].
  - apply hashable_same. apply F.
  - apply reach_refl.
  - intros m fr t' R Fr Sg. apply (Kn m t' R). exists fr. auto.
Qed.

Lemma same_upto w w' basic p563 env t : same_for w w' basic p563 env t -> same_upto_converted w w' basic p563 env t.
Proof. intros [H1 H2 H3 H4 H5 H6 H7 H8 H9 H10 H11]. constructor; auto. Qed.

Lemma c71 w w' basic strcons cfg cfg' :
  is_std w basic strcons cfg -> is_std w' basic strcons cfg' -> Local.same_settings cfg cfg' -> wf_reflect w ->
  forall env s v t, same_for w w' basic (pep563 cfg) env t -> used w cfg s ->
  (forall n t', reach w (pep563 cfg) env t (TForward n) -> knows s n t' -> env n = Some t') ->
  (forall n t', reach w (pep563 cfg) env t (TForward n) -> reach w (pep563 cfg) env t t' -> w_name w t' = Some n -> env n = Some t') ->
  (forall n o c vt t', reach w (pep563 cfg) env t (TGen n o (Some [TClass c; vt])) -> annotated w c t' -> reach w (pep563 cfg) env t t') ->
  forall n, load w cfg n v t s = load w' cfg' n v t s.
Proof.
  intros Hs Hs' Sm Hwr env s v t F. apply (c74 w w' basic strcons cfg cfg' Hs Hs' Sm Hwr). apply same_upto. exact F.
Qed.

(** ** The same for dump: the classes of the objects inside [v] *)
Record same_for_dump (w w' : world) (v : value) : Prop := mkSameForDump {
  sd_class : forall x, within v x -> class_of w' (type_of x) = class_of w (type_of x);
  sd_str : forall x, within v x -> w_str w' x = w_str w x;
  sd_hash : forall c, ci_hash (class_of w' c) = ci_hash (class_of w c);
  sd_iso : forall x, w_iso w' x = w_iso w x;
  sd_seconds : forall x, w_seconds w' x = w_seconds w x;
  sd_order : forall l, w_setorder w' l = w_setorder w l
}.

(** the same up to the annotations of the fields with a converter *)
Record same_for_dump_upto (w w' : world) (v : value) : Prop := mkSameForDumpUpto {
  su_class : forall x, within v x ->
    class_of w' (type_of x) = class_of w (type_of x) \/ converted (class_of w (type_of x)) (class_of w' (type_of x));
  su_str : forall x, within v x -> w_str w' x = w_str w x;
  su_hash : forall c, ci_hash (class_of w' c) = ci_hash (class_of w c);
  su_iso : forall x, w_iso w' x = w_iso w x;
  su_seconds : forall x, w_seconds w' x = w_seconds w x;
  su_order : forall l, w_setorder w' l = w_setorder w l
}.
Lemma dump_upto w w' v : same_for_dump w w' v -> same_for_dump_upto w w' v.
Proof. intros [H1 H2 H3 H4 H5 H6]. constructor; auto. Qed.

(** what the Dumper sees of the two classes *)
Definition dlike (a b : classinfo) : Prop := b = a \/ converted a b.
Lemma dl_enum a b : dlike a b -> ci_enum b = ci_enum a.
Proof. intros [->|K]; [reflexivity|]. destruct (cv_attrs _ _ K) as [-> _], (cv_kind _ _ K) as [-> _]. reflexivity. Qed.
Lemma dl_nt a b : dlike a b -> ci_nt b = ci_nt a.
Proof. intros [->|K]; [reflexivity|]. destruct (cv_attrs _ _ K) as [_ [-> _]], (cv_kind _ _ K) as [_ [-> _]]. reflexivity. Qed.
Lemma dl_dc a b : dlike a b -> ci_dc b = ci_dc a.
Proof. intros [->|K]; [reflexivity|]. destruct (cv_attrs _ _ K) as [_ [_ [-> _]]], (cv_kind _ _ K) as [_ [_ [-> _]]]. reflexivity. Qed.
Lemma dl_attrs a b : dlike a b -> match ci_attrs a, ci_attrs b with
  | Some fs, Some fs' => Forall2 same_but_type fs fs' | None, None => True | _, _ => False end.
Proof.
  intros [->|K].
  - destruct (ci_attrs a) as [fs|]; [|exact I]. induction fs as [|f fs IH]; constructor; [|exact IH]. repeat split.
  - destruct (cv_fields _ _ K) as [fs [fs' [-> [-> F]]]]. exact F.
Qed.
Lemma dl_bases a b : dlike a b -> ci_bases b = ci_bases a.
Proof. intros [->|K]; [reflexivity|apply (cv_bases _ _ K)]. Qed.

Lemma mro_same w w' c : dlike (class_of w c) (class_of w' c) -> mro w' c = mro w c.
Proof. destruct c; try reflexivity. intro D. cbn in *. rewrite (dl_bases _ _ D). reflexivity. Qed.

Lemma same_inner w w' v x : same_for_dump_upto w w' v -> holds v x -> same_for_dump_upto w w' x.
Proof.
  intros [H1 H2 H3 H4 H5 H6] Hx. constructor; try assumption; intros y Hy.
  - apply H1. eapply rt1n_trans; eassumption.
  - apply H2. eapply rt1n_trans; eassumption.
Qed.

Lemma python_same w w' v : same_for_dump_upto w w' v -> python_value w v -> python_value w' v.
Proof.
  intros F P x Hx. specialize (P x Hx). pose proof (su_class _ _ _ F x Hx) as E.
  change (dlike (class_of w (type_of x)) (class_of w' (type_of x))) in E.
  pose proof (dl_enum _ _ E) as E1. pose proof (dl_nt _ _ E) as E2. pose proof (dl_dc _ _ E) as E3. pose proof (dl_attrs _ _ E) as E4.
  destruct x; cbn [python_object type_of] in *; try exact I; rewrite ?E1, ?E2, ?E3; try exact P.
  destruct P as [P1 [P2 P3]]. split; [exact P1|]. split; [exact P2|]. destruct P3 as [P3|P3]; [left; exact P3|right].
  destruct (ci_attrs (class_of w c)); [|contradiction]. destruct (ci_attrs (class_of w' c)); [discriminate|contradiction].
Qed.

Lemma dchoice_same w w' basic strcons v : dlike (class_of w (type_of v)) (class_of w' (type_of v)) ->
  dchoice w' basic strcons v = dchoice w basic strcons v.
Proof.
  intro E. unfold dchoice, has_dc, has_attrs, is_date_or_time, isinstance. rewrite (dl_dc _ _ E), (mro_same _ _ _ E).
  pose proof (dl_attrs _ _ E) as A.
  destruct (ci_attrs (class_of w (type_of v))), (ci_attrs (class_of w' (type_of v))); try contradiction; reflexivity.
Qed.

Lemma pattr_same cfg D v fs fs' : Forall2 same_but_type fs fs' -> forall acc, pattr_loop cfg D v fs' acc = pattr_loop cfg D v fs acc.
Proof.
  intro A. induction A as [|f f' fs fs' S _ IH]; intro acc; [reflexivity|]. cbn [pattr_loop].
  destruct S as [S1 [S2 [S3 [S4 [S5 _]]]]]. unfold attr_hidden, ext_name. rewrite S1, S2, S4, S5.
  destruct (rlift _); cbn [rbind]; [|reflexivity|reflexivity]. destruct (negb _); [apply IH|].
  destruct (rlift _) as [[]| |]; cbn [rbind]; [apply IH| |reflexivity|reflexivity].
  destruct (D a TAny); cbn [rbind]; [apply IH|reflexivity|reflexivity].
Qed.

Lemma pbody_same w w' cfg D h v t : same_for_dump_upto w w' v -> pbody w' cfg D h v t = pbody w cfg D h v t.
Proof.
  intros F. pose proof (su_class _ _ _ F v (rt1n_refl _ _ _)) as C.
  change (dlike (class_of w (type_of v)) (class_of w' (type_of v))) in C.
  destruct h; cbn [pbody]; try reflexivity.
  - destruct v; try reflexivity. cbn [type_of] in C. rewrite (dl_nt _ _ C). reflexivity.
  - rewrite (dl_dc _ _ C). destruct (ci_dc (class_of w (type_of v))) as [fs|] eqn:Dc; [|reflexivity].
    destruct C as [C|K]; [|destruct (cv_attrs _ _ K) as [_ [_ [Z _]]]; congruence].
    unfold dc_info. rewrite C. unfold set_iter. rewrite (su_order _ _ _ F). reflexivity.
  - destruct v; try reflexivity. pose proof (hashable_same w w' (su_hash _ _ _ F)) as H. clear C F.
    generalize (@nil (value * value)) as acc. induction d as [|[k x] d IH]; intro acc; cbn [pdict_loop]; [reflexivity|].
    destruct (D k TAny); cbn [rbind]; [|reflexivity|reflexivity]. destruct (D x TAny); cbn [rbind]; [|reflexivity|reflexivity].
    rewrite H. destruct (hashable w a); [apply IH|reflexivity].
  - pose proof (dl_attrs _ _ C) as A.
    destruct (ci_attrs (class_of w (type_of v))) as [fs|], (ci_attrs (class_of w' (type_of v))) as [fs'|]; try contradiction; [|reflexivity].
    apply (pattr_same cfg D v fs fs' A).
  - unfold isinstance. rewrite (mro_same _ _ _ C), (su_iso _ _ _ F). reflexivity.
  - rewrite (su_seconds _ _ _ F). reflexivity.
  - rewrite (su_str _ _ _ F v (rt1n_refl _ _ _)). reflexivity.
Qed.

Section ApartDump.
  Variables w w' : world.
  Variables basic strcons : list cid.
  Variables cfg cfg' : dconfig.
  Hypothesis Hstd : is_dstd w basic strcons cfg.
  Hypothesis Hstd' : is_dstd w' basic strcons cfg'.
  Hypothesis Hset : same_dsettings cfg' cfg.

  Lemma dval_same n : forall v t, depth v <= n -> same_for_dump_upto w w' v -> dval w' cfg' v t = dval w cfg v t.
  Proof using All.
    induction n as [|n IH]; intros v t L F; [destruct v; cbn in L; lia|].
    rewrite (dval_eq w' basic strcons cfg' Hstd'), (dval_eq w basic strcons cfg Hstd).
    pose proof (su_class _ _ _ F v (rt1n_refl _ _ _)) as C.
    assert (Fd : dfind cfg' v = dfind cfg v).
    { rewrite (dfind_choice w' basic strcons cfg' Hstd'), (dfind_choice w basic strcons cfg Hstd), (dchoice_same _ _ _ _ _ C). reflexivity. }
    rewrite Fd. destruct (dfind cfg v) as [h|e] eqn:Fh; [|reflexivity].
    rewrite (pbody_same w w') by exact F.
    transitivity (pbody w cfg (dval w' cfg') h v t).
    - destruct (match h with DIter => true | _ => false end) eqn:Q.
      + destruct h; try discriminate Q. cbn [pbody]. destruct (iter v) as [l|]; [|reflexivity].
        assert (I1 : ident_first cfg = true) by (unfold ident_first; rewrite (proj1 Hstd); reflexivity).
        assert (I2 : ident_first cfg' = true) by (unfold ident_first; rewrite (proj1 Hstd'); reflexivity).
        rewrite I1, I2. rewrite (proj2 Hstd), (proj2 Hstd'). reflexivity.
      + apply (pbody_settings w cfg' cfg Hset). intros ->. discriminate.
    - apply (pbody_ext w basic strcons cfg Hstd); [exact Fh|]. intros x t' Hx.
      apply IH; [apply depth_holds in Hx; lia|]. eapply same_inner; eassumption.
  Qed.

  Lemma c74_dump s s' v r : dhistory w cfg s -> dhistory w' cfg' s' -> python_value w v -> same_for_dump_upto w w' v ->
    (dumps w cfg s v r <-> dumps w' cfg' s' v r).
  Proof using All.
    intros H H' P F. rewrite (dumps_dval w basic strcons cfg Hstd s v r H P).
    rewrite (dumps_dval w' basic strcons cfg' Hstd' s' v r H' (python_same _ _ _ F P)).
    rewrite (dval_same (depth v) v TAny (le_n _) F). reflexivity.
  Qed.
End ApartDump.

Lemma c71_dump w w' basic strcons cfg cfg' :
  is_dstd w basic strcons cfg -> is_dstd w' basic strcons cfg' -> same_dsettings cfg' cfg ->
  forall s s' v r, dhistory w cfg s -> dhistory w' cfg' s' -> python_value w v -> same_for_dump w w' v ->
  (dumps w cfg s v r <-> dumps w' cfg' s' v r).
Proof.
  intros Hs Hs' Sm s s' v r H H' P F. apply (c74_dump w w' basic strcons cfg cfg' Hs Hs' Sm s s' v r H H' P). apply dump_upto. exact F.
Qed.

(** ** Loaders with different histories in the two programs *)
Lemma component_same w w' p env t t' : (forall c, t = TClass c -> class_of w' c = class_of w c) ->
  component w' p env t t' <-> component w p env t t'.
Proof.
  intro H. unfold component, comps. destruct t as [c| | | | | | | ]; try reflexivity.
  unfold declared, kind_of_class, declared_types. rewrite (H c eq_refl). reflexivity.
Qed.
Lemma reach_same w w' p env t : (forall c, reach w p env t (TClass c) -> class_of w' c = class_of w c) ->
  forall t', reach w' p env t t' -> reach w p env t t'.
Proof.
  intros H t' R. unfold reach in R.
  assert (X : forall a, clos_refl_trans_1n ty (component w' p env) a t' -> reach w p env t a -> reach w p env t t').
  { clear R. intros a R. induction R as [|a b c C R IH]; intro Ra; [exact Ra|]. apply IH. eapply reach_step; [exact Ra|].
    apply (component_same w w'); [|exact C]. intros c0 ->. apply H. exact Ra. }
  apply (X t R). apply reach_refl.
Qed.

Lemma resolves_fresh w cfg env s t : resolves w cfg env s t -> resolves w cfg env (fresh (st_frefs s) []) t.
Proof.
  intros H n R. destruct (H n R) as [[t' [E K]]|[A [B [C [D F]]]]]; [left; exists t'; auto|right].
  repeat split; auto. 
Qed.

Lemma c71_any w w' basic strcons cfg cfg' :
  is_std w basic strcons cfg -> is_std w' basic strcons cfg' -> Local.same_settings cfg cfg' -> wf_reflect w -> wf_reflect w' ->
  forall env s s' v t, same_for w w' basic (pep563 cfg) env t -> used w cfg s -> used w' cfg' s' ->
  resolves w cfg env s t -> resolves w' cfg' env s' t ->
  (forall n t', reach w (pep563 cfg) env t (TForward n) -> reach w (pep563 cfg) env t t' -> w_name w t' = Some n -> env n = Some t') ->
  (forall n o c vt t', reach w (pep563 cfg) env t (TGen n o (Some [TClass c; vt])) -> annotated w c t' -> reach w (pep563 cfg) env t t') ->
  (forall n kt vt, reach w (pep563 cfg) env t (TGen n ODict (Some [kt; vt])) ->
     det_dict w basic (inside v) kt vt /\ det_dict w' basic (inside v) kt vt) ->
  (forall n args, reach w (pep563 cfg) env t (TGen n OUnion (Some args)) -> plain_tags w args /\ plain_tags w' args) ->
  forall r, loads w cfg s v t r <-> loads w' cfg' s' v t r.
Proof.
  intros Hs Hs' Sm Hwr Hwr' env s s' v t F U U' Rs Rs' Nm Mi Dd Pt r.
  assert (P : pep563 cfg' = pep563 cfg) by (destruct Sm as [_ [_ [_ [_ [_ [_ E]]]]]]; congruence).
  assert (RR : forall t', reach w' (pep563 cfg') env t t' -> reach w (pep563 cfg) env t t').
  { rewrite P. apply reach_same. apply F. }
  pose proof (used_new w cfg (st_frefs s) []) as U0. pose proof (used_new w' cfg' (st_frefs s) []) as U0'.
  assert (Kn : forall n t', reach w (pep563 cfg) env t (TForward n) -> knows s n t' -> env n = Some t').
  { intros n t' R [fr [E1 E2]]. destruct (Rs n R) as [[t0 [E [fr0 [E3 E4]]]]|[A [B [C [D G]]]]]; [congruence|].
    unfold names_of in G. rewrite E1 in G. congruence. }
  rewrite (c20 w basic strcons cfg Hs Hwr env s (fresh (st_frefs s) []) v t U U0 Rs (resolves_fresh _ _ _ _ _ Rs)
    (fun n kt vt R => or_intror (proj1 (Dd n kt vt R))) (fun n args R => proj1 (Pt n args R)) r).
  assert (E : loads w cfg (fresh (st_frefs s) []) v t r <-> loads w' cfg' (fresh (st_frefs s) []) v t r).
  { pose proof (c71 w w' basic strcons cfg cfg' Hs Hs' Sm Hwr env (fresh (st_frefs s) []) v t F U0 Kn Nm Mi) as E.
    unfold loads. split; intros [N [n X]]; (split; [exact N|]); exists n; rewrite <- X; f_equal; [symmetry|]; apply E. }
  rewrite E. clear E.
  apply (c20 w' basic strcons cfg' Hs' Hwr' env (fresh (st_frefs s) []) s' v t U0' U').
  - intros n R. destruct (resolves_fresh _ _ _ _ _ Rs n (RR _ R)) as [K|[A [B [C [D G]]]]]; [left; exact K|right].
    repeat split; auto. rewrite (sf_name _ _ _ _ _ _ F); [exact A|apply reach_refl].
  - exact Rs'.
  - intros n kt vt R. right. apply (Dd n kt vt (RR _ R)).
  - intros n args R. apply (Pt n args (RR _ R)).
Qed.
