(** * Local: additional handlers matter only where they are selected (C49)

    Two loaders with the same settings and different lists of handlers run in
    lock step, in equal states, as long as only types are met for which both
    select the same handler.  The second one may also run in a process with
    another hash seed (C58), as long as the seed does not matter for the unions
    which are met. *)

From Verif Require Import Loader Spec Vocab Inv Std Sound Fuel Obs Scalars Simple Transparent Hist Reuse Index.

(** the settings besides the list of handlers, and [raiseconditionerrors],
    which matters only for the choice of the handler *)
Definition same_settings (cfg1 cfg2 : config) : Prop :=
  basictypes cfg1 = basictypes cfg2 /\ basiccast cfg1 = basiccast cfg2 /\ failonextra cfg1 = failonextra cfg2 /\
  dictequivalence cfg1 = dictequivalence cfg2 /\ mangle_key cfg1 = mangle_key cfg2 /\
  uniondebugconflict cfg1 = uniondebugconflict cfg2 /\ pep563 cfg1 = pep563 cfg2.

(** the types in the annotations of a class, in any form in which they are
    available *)
Definition annotated (w : world) (c : cid) (t : ty) : Prop :=
  (exists l, ci_hints (class_of w c) = POk l /\ (In t (map snd l) \/ In t (map (fun kt => unwrap (snd kt)) l))) \/
  In t (map snd (ci_ann (class_of w c))) \/ In t (map (fun kt => unwrap (snd kt)) (ci_ann (class_of w c))) \/
  (exists fs, ci_dc (class_of w c) = Some fs /\ In t (map f_type fs)) \/
  (exists fs, ci_attrs (class_of w c) = Some fs /\ In t (map attr_type fs)).

Lemma get_app_l {A} k (l1 l2 : list (string * A)) x : str_get k l1 = Some x -> str_get k (l1 ++ l2) = Some x.
Proof.
  induction l1 as [|[k' y] l1 IH]; cbn; [discriminate|]. destruct (String.eqb k k'); auto.
Qed.
Lemma get_app_r {A} k (l1 l2 : list (string * A)) : str_get k l1 = None -> str_get k (l1 ++ l2) = str_get k l2.
Proof.
  induction l1 as [|[k' y] l1 IH]; cbn; [reflexivity|]. destruct (String.eqb k k'); [discriminate|auto].
Qed.

(** the same program in a process with another hash seed: [set.pop()] returns
    something else, and the sets are iterated in another order *)
Definition reseed (w : world) (pick : list string -> nat) (order : list string -> list string) : world :=
  mkWorld (w_class w) (w_call w) (w_fromiso w) (w_callargs w) (w_timedelta w) (w_compile w) (w_name w)
    pick order (w_str w) (w_iso w) (w_seconds w).
Lemma reseed_same w : reseed w (w_pick w) (w_setorder w) = w.
Proof. destruct w. reflexivity. Qed.

Section Local.
  Variable w : world.
  Variable pick : list string -> nat.
  Variable order : list string -> list string.
  Definition w2 : world := reseed w pick order.
  Variables basic strcons : list cid.
  Variables (b : list cid) (cast extra rce1 rce2 deq : bool) (mk : string) (ud p563 : bool).
  Variables hs1 hs2 : list (cond * handler).
  Definition k1 : config := mkConfig b cast extra rce1 deq mk ud p563 hs1.
  Definition k2 : config := mkConfig b cast extra rce2 deq mk ud p563 hs2.
  Hypothesis Hstd : is_std w basic strcons k2.
  Hypothesis Hwr : wf_reflect w.
  Variable env : string -> option ty.
  Variable G : ty -> Prop.
  Hypothesis Gcomp : forall t t', G t -> component w p563 env t t' -> G t'.
  Hypothesis Agree : forall t, G t -> find_handler k1 t = find_handler k2 t.
  (** the seed does not matter for the external names of the dataclasses *)
  Hypothesis Hdc : forall c fs, G (TClass c) -> ci_dc (class_of w c) = Some fs -> dc_transforms w2 k1 fs = dc_transforms w k1 fs.
  Hypothesis Gname : forall n t, G (TForward n) -> G t -> w_name w t = Some n -> env n = Some t.

  (** by line 396 the handler of the values may be run on the type of the keys *)
  Hypothesis Gmis : forall n o c vt t, G (TGen n o (Some [TClass c; vt])) -> annotated w c t -> G t.

  Definition names_ok (s : lstate) : Prop :=
    forall n fr t, G (TForward n) -> st_frefs s = Some fr -> str_get n fr = Some t -> env n = Some t.
  Definition inv (s : lstate) : Prop := coh w k1 s /\ names_ok s.

  Definition eqp {A} (m1 m2 : M A) (Q : A -> Prop) : Prop :=
    forall s, inv s -> m1 s = m2 s /\ inv (snd (m1 s)) /\ (forall a, fst (m1 s) = Ok a -> Q a).
  Definition eqm {A} (m1 m2 : M A) : Prop := eqp m1 m2 (fun _ => True).

  Lemma eqp_ret {A} (a : A) (Q : A -> Prop) : Q a -> eqp (ret a) (ret a) Q.
  Proof using. intros H s I. split; [reflexivity|]. split; [exact I|]. cbn. intros a' [= <-]. exact H. Qed.
  Lemma eqp_raise {A} e (Q : A -> Prop) : eqp (raise e) (raise e) Q.
  Proof using. intros s I. split; [reflexivity|]. split; [exact I|]. discriminate. Qed.
  Lemma eqp_lift {A} (r : pyres A) (Q : A -> Prop) : (forall a, r = POk a -> Q a) -> eqp (lift r) (lift r) Q.
  Proof using. destruct r; intro H; [apply eqp_ret; auto|apply eqp_raise]. Qed.
  Lemma eqp_bind {A B} (m1 m2 : M A) (f1 f2 : A -> M B) Q Q' :
    eqp m1 m2 Q -> (forall a, Q a -> eqp (f1 a) (f2 a) Q') -> eqp (bind m1 f1) (bind m2 f2) Q'.
  Proof using.
    intros H K s I. destruct (H s I) as [E [I1 O]]. unfold bind. rewrite <- E.
    destruct (m1 s) as [[a|e|] s1]; cbn [fst snd] in *.
    - apply (K a); auto.
    - split; [reflexivity|]. split; [exact I1|discriminate].
    - split; [reflexivity|]. split; [exact I1|discriminate].
  Qed.
  Lemma eqp_catch {A} (m1 m2 : M A) f1 f2 Q :
    eqp m1 m2 Q -> (forall e, eqp (f1 e) (f2 e) Q) -> eqp (catch m1 f1) (catch m2 f2) Q.
  Proof using.
    intros H K s I. destruct (H s I) as [E [I1 O]]. unfold catch. rewrite <- E.
    destruct (m1 s) as [[a|e|] s1]; cbn [fst snd] in *.
    - split; [reflexivity|]. split; [exact I1|exact O].
    - apply (K e); auto.
    - split; [reflexivity|]. split; [exact I1|discriminate].
  Qed.
  Lemma eqp_attempt {A} (m1 m2 : M A) Q :
    eqp m1 m2 Q -> eqp (attempt m1) (attempt m2) (fun o => match o with inl a => Q a | inr _ => True end).
  Proof using.
    intros H s I. destruct (H s I) as [E [I1 O]]. unfold attempt. rewrite <- E.
    destruct (m1 s) as [[a|e|] s1]; cbn [fst snd] in *; (split; [reflexivity|]); (split; [exact I1|]).
    - intros o [= <-]. auto.
    - intros o [= <-]. exact Logic.I.
    - discriminate.
  Qed.
  Lemma eqp_weak {A} (m1 m2 : M A) (Q Q' : A -> Prop) : (forall a, Q a -> Q' a) -> eqp m1 m2 Q -> eqp m1 m2 Q'.
  Proof using. intros W H s I. destruct (H s I) as [E [I1 O]]. auto. Qed.
  Lemma eqm_ret {A} (a : A) : eqm (ret a) (ret a). Proof using. apply eqp_ret. exact I. Qed.
  Lemma eqm_bind {A B} (m1 m2 : M A) (f1 f2 : A -> M B) Q :
    eqp m1 m2 Q -> (forall a, Q a -> eqm (f1 a) (f2 a)) -> eqm (bind m1 f1) (bind m2 f2).
  Proof using. apply eqp_bind. Qed.

  Lemma inv_index s t h : find_handler k1 t = POk h -> inv s -> inv (set_index (cons (t, h)) s).
  Proof using. intros F [C N]. split; [apply coh_set_index; assumption|exact N]. Qed.
  Lemma inv_register s t : G t -> inv s -> inv (register w t s).
  Proof using Gname.
    intros Gt [C N]. split; [apply coh_register; exact C|].
    unfold register. destruct (st_frefs s) as [fr|] eqn:F; [|exact N].
    destruct (w_name w t) as [nm|] eqn:W; [|exact N].
    destruct (str_get nm fr) eqn:E; [exact N|].
    intros n fr' t' Gn. cbn [st_frefs set_frefs]. intros [= <-] S.
    destruct (str_get n fr) as [t0|] eqn:S0.
    - assert (str_get n (fr ++ [(nm, t)]) = Some t0) by (apply get_app_l; exact S0).
      assert (t' = t0) by congruence. subst. eapply N; eassumption.
    - rewrite get_app_r in S by exact S0. cbn in S. destruct (String.eqb n nm) eqn:Q; [|discriminate].
      apply String.eqb_eq in Q. subst nm. injection S as <-. apply Gname; assumption.
  Qed.
  Lemma inv_good s s' : inv s -> good_step w k1 s s' -> names_ok s' -> inv s'.
  Proof using. intros [C _] [GC _] N. split; auto. Qed.

  Lemma eqp_lookup nf t : G t ->
    eqp (lookup_handler k1 nf t) (lookup_handler k2 nf t) (fun h => find_handler k1 t = POk h).
  Proof using Agree.
    intros Gt s I. unfold lookup_handler. rewrite <- (Agree t Gt).
    destruct (ty_get t (st_index s)) as [h|] eqn:E.
    - split; [reflexivity|]. split; [exact I|]. cbn. intros a [= <-]. eapply coh_index; [apply I|exact E].
    - destruct (find_handler k1 t) as [h|r] eqn:F.
      + split; [reflexivity|]. split; [apply inv_index; assumption|]. cbn. intros a [= <-]. reflexivity.
      + split; [destruct r; reflexivity|]. split; [destruct r; exact I|]. destruct r; discriminate.
  Qed.

  (** the handler [h] is run on the type [t]: it is its handler, or, by line 396
      of dataloader.py, the one of the values when the keys are of type [t] *)
  Definition runs (h : handler) (t : ty) : Prop :=
    find_handler k1 t = POk h \/
    exists n o vt, G (TGen n o (Some [t; vt])) /\ find_handler k1 vt = POk h.

  Ltac sw := try change (isinst w2) with (isinst w); try change (hashable w2) with (hashable w);
    try change (call_type w2) with (call_type w); try change (construct w2) with (construct w);
    try change (class_of w2) with (class_of w); try change (coll_add w2) with (coll_add w);
    try change (w_name w2) with (w_name w); try change (register w2) with (register w);
    try change (annotations w2) with (annotations w); try change (w_compile w2) with (w_compile w);
    try change (w_timedelta w2) with (w_timedelta w); try change (w_fromiso w2) with (w_fromiso w);
    try change (w_callargs w2) with (w_callargs w).

  (** the seed does not matter for the unions in [G] *)
  Hypothesis Seed : forall t args s, G t -> runs HUnion t -> ty_args t = Some args -> build_disc w2 s args = build_disc w s args.

  Variables call1 call2 : handler -> value -> ty -> M value.
  Hypothesis Hcall : forall h v t, G t -> runs h t -> eqm (call1 h v t) (call2 h v t).
  Lemma runs_own h t : find_handler k1 t = POk h -> runs h t.
  Proof using. left. assumption. Qed.

  Lemma eqm_load_with v t a : G t -> eqm (load_with w k1 call1 v t a) (load_with w2 k2 call2 v t a).
  Proof using Agree Gname Hcall.
    intros Gt. unfold load_with; sw.
    apply (eqm_bind _ _ _ _ (fun h => find_handler k1 t = POk h)).
    - intros s I. rewrite <- (Agree t Gt). destruct (ty_get t (st_index s)) as [h|] eqn:E.
      + split; [reflexivity|]. split; [exact I|]. cbn. intros h' [= <-]. eapply coh_index; [apply I|exact E].
      + destruct (find_handler k1 t) as [h|r] eqn:F.
        * split; [reflexivity|]. split; [apply inv_register; [exact Gt|]; apply inv_index; assumption|].
          cbn. intros h' [= <-]. reflexivity.
        * split; [destruct r; reflexivity|]. split; [destruct r; exact I|]. destruct r; discriminate.
    - intros h F. apply eqp_catch; [apply Hcall; [assumption|apply runs_own; assumption]|]. intro e. destruct (is_tl e); apply eqp_raise.
  Qed.

  Lemma eqm_forward v n : G (TForward n) ->
    eqm (forwardrefload w k1 call1 v (TForward n)) (forwardrefload w2 k2 call2 v (TForward n)).
  Proof using Agree Gname Hcall Gcomp.
    intros Gt s I. unfold forwardrefload, bind, get_st; sw.
    destruct (st_frefs s) as [fr|] eqn:F; [|apply eqp_raise; exact I].
    destruct (str_get n fr) as [t'|] eqn:E; [|apply eqp_raise; exact I].
    apply eqm_load_with; [|exact I]. eapply Gcomp; [exact Gt|]. unfold component, comps.
    rewrite (proj2 I n fr t' Gt F E). left. reflexivity.
  Qed.

  Lemma eqm_iter_loop k mp f1 f2 v t l i acc :
    (forall x, eqm (f1 x) (f2 x)) -> eqm (iter_loop w k mp f1 v t l i acc) (iter_loop w2 k mp f2 v t l i acc).
  Proof using.
    intro Hf. revert i acc. induction l as [|x l IH]; intros i acc; cbn [iter_loop]; sw; [apply eqm_ret|].
    eapply eqm_bind.
    - apply eqp_attempt. eapply eqp_bind; [apply Hf|]. intros y _. apply eqp_lift. intros a _. exact (I : (fun _ => True) a).
    - intros [acc'|e] _; [apply IH|]. destruct (stops mp e); [apply eqm_ret|]. destruct e as [| []]; apply eqp_raise.
  Qed.

  Lemma G_args t args x : G t -> ty_args t = Some args -> In x args -> G x.
  Proof using Gcomp.
    intros Gt E H. destruct t as [|n o a| | | | | | ]; try discriminate E. cbn in E. subst a.
    eapply Gcomp; [exact Gt|exact H].
  Qed.

  Lemma eqm_iterload k v t : G t -> eqm (iterload w k1 call1 k v t) (iterload w2 k2 call2 k v t).
  Proof using Agree Hcall Gcomp.
    intro Gt. unfold iterload; sw.
    destruct (ty_args t) as [[|et rest]|] eqn:A; [destruct v; apply eqp_raise| |destruct v; apply eqp_raise].
    assert (Ge : G et) by (eapply G_args; [exact Gt|exact A|left; reflexivity]).
    assert (X : eqm (bind (lookup_handler k1 (XTL KType (MCannotDeal et) [] (Some v) (Some et) []) et) (fun h =>
               match iter v with
               | None => raise (XTL KType (MPy RType) [] (Some v) (Some t) [])
               | Some l => iter_loop w k (mapped k1 et) (iter_item w k1 call1 h et) v t l 0 []
               end))
             (bind (lookup_handler k2 (XTL KType (MCannotDeal et) [] (Some v) (Some et) []) et) (fun h =>
               match iter v with
               | None => raise (XTL KType (MPy RType) [] (Some v) (Some t) [])
               | Some l => iter_loop w2 k (mapped k2 et) (iter_item w2 k2 call2 h et) v t l 0 []
               end))).
    { eapply eqm_bind; [apply eqp_lookup; exact Ge|]. intros h F. cbv beta in F.
      destruct (iter v) as [l|]; [|apply eqp_raise]. apply eqm_iter_loop. intro x.
      unfold iter_item; sw. change (basicb k2) with (basicb k1).
      pose proof (Hcall h x et Ge (runs_own _ _ F)) as HC.
      destruct (basicb k1 et); [destruct (isinst w x et); [apply eqm_ret|exact HC]|].
      destruct et as [|n' o' a'| | | | | | ]; try exact HC. destruct o'; try exact HC. destruct a'; try exact HC.
      destruct (_ && _); [apply eqm_ret|exact HC]. }
    destruct v; try exact X. apply eqp_raise.
  Qed.

  Lemma eqm_tuple_loop v t l ts i acc : (forall x, In x ts -> G x) ->
    eqm (tuple_loop k1 call1 v t l ts i acc) (tuple_loop k2 call2 v t l ts i acc).
  Proof using Agree Hcall.
    revert l i acc. induction ts as [|et ts IH]; intros l i acc HG.
    { cbn [tuple_loop]; sw. destruct l; apply eqm_ret. }
    destruct l as [|x l]; cbn [tuple_loop]; sw; [apply eqm_ret|].
    assert (Ge : G et) by (apply HG; left; reflexivity).
    eapply eqm_bind.
    - apply eqp_attempt. eapply (eqp_bind _ _ _ _ (fun h => find_handler k1 et = POk h)).
      + intros s I. rewrite <- (Agree et Ge). destruct (ty_get et (st_index s)) as [h|] eqn:E.
        * split; [reflexivity|]. split; [exact I|]. cbn. intros h' [= <-]. eapply coh_index; [apply I|exact E].
        * apply eqp_lift; [|exact I]. auto.
      + intros h F. change (basicb k2) with (basicb k1). destruct (basicb k1 et && exact x et); [apply eqm_ret|].
        apply Hcall; [assumption|apply runs_own; assumption].
    - intros [y|e] _; [apply IH; intros z Hz; apply HG; right; exact Hz|]. destruct e as [| []]; apply eqp_raise.
  Qed.

  Lemma eqm_tupleload v t : G t ->
    eqm (tupleload w k1 call1 v t) (tupleload w2 k2 call2 v t).
  Proof using Agree Hcall Gcomp.
    intro Gt. unfold tupleload; sw. destruct (ty_args t) as [args|] eqn:A; [|apply eqp_raise].
    assert (X : eqm
      match v with
      | VDict _ => raise (XTL KType MDictTuple [] (Some v) (Some t) [])
      | _ => match iter v with
          | None => raise (XRaw RType)
          | Some l =>
              if failonextra k1 && Nat.ltb (List.length args) (List.length l)
              then raise (XTL KValue (MTooLong t) [] (Some v) (Some t) [])
              else if Nat.ltb (List.length l) (List.length args)
              then raise (XTL KValue (MTooShort t) [] (Some v) (Some t) [])
              else tuple_loop k1 call1 v t l args 0 []
          end
      end
      match v with
      | VDict _ => raise (XTL KType MDictTuple [] (Some v) (Some t) [])
      | _ => match iter v with
          | None => raise (XRaw RType)
          | Some l =>
              if failonextra k2 && Nat.ltb (List.length args) (List.length l)
              then raise (XTL KValue (MTooLong t) [] (Some v) (Some t) [])
              else if Nat.ltb (List.length l) (List.length args)
              then raise (XTL KValue (MTooShort t) [] (Some v) (Some t) [])
              else tuple_loop k2 call2 v t l args 0 []
          end
      end).
    { change (failonextra k2) with (failonextra k1).
      assert (Y : forall l, eqm (tuple_loop k1 call1 v t l args 0 [])
                                (tuple_loop k2 call2 v t l args 0 [])).
      { intro l. apply eqm_tuple_loop. intros x Hx. eapply G_args; [exact Gt|exact A|exact Hx]. }
      destruct v; try apply eqp_raise; destruct (iter _); try apply eqp_raise;
        (destruct (_ && _); [apply eqp_raise|]; destruct (Nat.ltb _ _); [apply eqp_raise|apply Y]). }
    destruct args as [|a1 [|a2 [|a3 rest]]]; try exact X; destruct a2; try exact X.
    apply eqm_iterload. exact Gt.
  Qed.

  Lemma eqm_fast kt vt kf vf d acc : G kt -> G vt ->
    (forall x, eqm (call1 kf x kt) (call2 kf x kt)) ->
    (forall h, vf = Some h -> find_handler k1 vt = POk h) ->
    eqm (dict_fast w k1 call1 kt vt kf vf d acc) (dict_fast w2 k2 call2 kt vt kf vf d acc).
  Proof using Hcall.
    intros Gk Gv Hk Hv. revert acc. induction d as [|[k x] d IH]; intro acc; cbn [dict_fast]; sw; [apply eqm_ret|].
    change (basicb k2) with (basicb k1).
    eapply eqm_bind.
    - destruct (basicb k1 kt && isinst w k kt); [apply eqm_ret|apply Hk].
    - intros k' _. eapply eqm_bind.
      + destruct (basicb k1 vt && isinst w x vt); [apply eqm_ret|].
        destruct vf as [h|]; [apply Hcall; [assumption|apply runs_own; auto]|apply eqp_raise].
      + intros x' _. destruct (hashable w k'); [apply IH|apply eqp_raise].
  Qed.
  Lemma eqm_slow kt vt d acc : G kt -> G vt ->
    eqm (dict_slow w k1 call1 kt vt d acc) (dict_slow w2 k2 call2 kt vt d acc).
  Proof using Agree Gname Hcall.
    intros Gk Gv. revert acc. induction d as [|[k x] d IH]; intro acc; cbn [dict_slow]; sw; [apply eqm_ret|].
    eapply eqm_bind; [apply eqm_load_with; exact Gk|]. intros k' _.
    eapply eqm_bind; [apply eqm_load_with; exact Gv|]. intros x' _.
    destruct (hashable w k'); [apply IH|apply eqp_raise].
  Qed.

  Lemma eqm_dictload v t : G t -> eqm (dictload w k1 call1 v t) (dictload w2 k2 call2 v t).
  Proof using Agree Gname Hcall Gcomp.
    intros Gt. unfold dictload; sw. destruct (ty_args t) as [args|] eqn:A; [|apply eqp_raise].
    destruct args as [|kt [|vt [|x rest]]]; try apply eqp_raise.
    assert (Gk : G kt) by (eapply G_args; [exact Gt|exact A|left; reflexivity]).
    assert (Gv : G vt) by (eapply G_args; [exact Gt|exact A|right; left; reflexivity]).
    eapply eqm_bind; [apply eqp_lookup; exact Gk|]. intros kf0 Fk. cbv beta in Fk.
    apply (eqm_bind _ _ _ _ (fun kv => runs (fst kv) kt /\ forall h, snd kv = Some h -> find_handler k1 vt = POk h)).
    - intros s I. rewrite <- (Agree vt Gv). destruct (ty_get vt (st_index s)) as [h|] eqn:E.
      + split; [reflexivity|]. split; [exact I|]. cbn. intros a [= <-]. cbn. split; [left; exact Fk|].
        intros h' [= <-]. eapply coh_index; [apply I|exact E].
      + destruct (find_handler k1 vt) as [h|r] eqn:F.
        * split; [reflexivity|]. split; [apply inv_index; assumption|]. cbn. intros a [= <-]. cbn. split; [|discriminate].
          right. destruct t as [|n o a| | | | | | ]; try discriminate A. cbn in A. subst a.
          exists n, o, vt. split; assumption.
        * split; [destruct r; reflexivity|]. split; [destruct r; exact I|]. destruct r; discriminate.
    - intros [kf vf] [Rk Hv]. cbn [fst snd] in Rk, Hv. change (as_dict k2 v) with (as_dict k1 v). cbv zeta.
      apply eqp_catch.
      + destruct (as_dict k1 v); try apply eqp_raise. apply eqm_fast; auto.
      + intros _. apply eqp_catch.
        * destruct (as_dict k1 v); try apply eqp_raise. apply eqm_slow; assumption.
        * intros [[] m tr ve te subs|[]]; apply eqp_raise.
  Qed.

  Lemma eqm_fields_loop fields hints v t d acc : (forall k ft, In (k, ft) hints -> G ft) ->
    eqm (fields_loop k1 call1 fields hints v t d acc) (fields_loop k2 call2 fields hints v t d acc).
  Proof using Agree Hcall.
    intro HG. revert acc. induction d as [|[k x] d IH]; intro acc; cbn [fields_loop]; sw; [apply eqm_ret|].
    destruct k; try apply IH. destruct (mem_str s fields); [|apply IH].
    destruct (str_get s hints) as [ft|] eqn:E; [|apply eqp_raise].
    assert (Gf : G ft) by (eapply HG; apply str_get_In; exact E).
    eapply eqm_bind; [apply eqp_lookup; exact Gf|]. intros h F. cbv beta in F.
    eapply eqm_bind.
    - apply eqp_catch; [apply Hcall; [exact Gf|apply runs_own; exact F]|]. intro e. apply eqp_raise.
    - intros y _. apply IH.
  Qed.
  Lemma eqm_objloader fields nec hints v t : (forall k ft, In (k, ft) hints -> G ft) ->
    eqm (objloader w k1 call1 fields nec hints v t) (objloader w2 k2 call2 fields nec hints v t).
  Proof using Agree Hcall.
    intro HG. unfold objloader; sw. change (as_dict k2 v) with (as_dict k1 v). change (failonextra k2) with (failonextra k1).
    destruct (as_dict k1 v); try apply eqp_raise. cbv zeta.
    destruct (filter _ nec); [|apply eqp_raise].
    destruct (_ && _); [destruct (all_str _); apply eqp_raise|].
    eapply eqm_bind; [apply eqm_fields_loop; exact HG|]. intros ps _.
    destruct (construct w t ps) as [r|[]]; try apply eqp_raise. apply eqm_ret.
  Qed.
  Lemma mangle_same names v t : mangle k2 names v t = mangle k1 names v t.
  Proof using. reflexivity. Qed.
  Lemma eqm_mangle names v t : eqm (mangle k1 names v t) (mangle k2 names v t).
  Proof using.
    rewrite mangle_same. unfold mangle. destruct names; [apply eqm_ret|]. destruct v; try apply eqp_raise.
    destruct (mangle_loop _ _ _ _ _); [apply eqm_ret|apply eqp_raise].
  Qed.

  Lemma eqm_dataclassload v t :
    (forall c fs oi k ft, t = TClass c -> ci_dc (class_of w c) = Some fs -> dataclass_info w k1 c fs = POk oi ->
       In (k, ft) (oi_hints oi) -> G ft) ->
    G t -> eqm (dataclassload w k1 call1 v t) (dataclassload w2 k2 call2 v t).
  Proof using Agree Hcall Hdc.
    intros HG Gt. unfold dataclassload; sw.
    apply (eqm_bind _ _ _ _ (fun oi => forall k ft, In (k, ft) (oi_hints oi) -> G ft)).
    - intros s I. destruct (ty_get t (st_fields s)) as [oi|] eqn:E.
      + split; [reflexivity|]. split; [exact I|]. cbn. intros a [= <-] k ft H.
        destruct (coh_fields _ _ _ (proj1 I) _ _ E) as [c [fs [-> [D O]]]]. eapply HG; eauto.
      + destruct t as [c| | | | | | | ]; try (split; [reflexivity|]; split; [exact I|discriminate]).
        destruct (ci_dc (class_of w c)) as [fs|] eqn:D; [|split; [reflexivity|]; split; [exact I|discriminate]].
        assert (Di : dataclass_info w2 k2 c fs = dataclass_info w k1 c fs).
        { change (dataclass_info w2 k2 c fs) with (dataclass_info w2 k1 c fs). unfold dataclass_info. rewrite (Hdc c fs Gt D). reflexivity. }
        rewrite Di.
        destruct (dataclass_info w k1 c fs) as [oi|r] eqn:O; (split; [reflexivity|]); [|split; [exact I|discriminate]].
        split; [split; [eapply coh_set_fields; [exact D|exact O|apply I]|exact (proj2 I)]|].
        cbn. intros a [= <-] k ft H. eapply HG; eauto.
    - intros oi HO. eapply eqm_bind; [apply eqm_mangle|]. intros v' _. apply eqm_objloader. exact HO.
  Qed.
  Lemma eqm_namedtupleload v t :
    (forall c hints k ft, t = TClass c -> ci_nt (class_of w c) <> None ->
       (if p563 then ci_hints (class_of w c) else POk (ci_ann (class_of w c))) = POk hints ->
       In (k, ft) hints -> G ft) ->
    eqm (namedtupleload w k1 call1 v t) (namedtupleload w2 k2 call2 v t).
  Proof using Agree Hcall.
    intro HG. unfold namedtupleload; sw. destruct t as [c| | | | | | | ]; try apply eqp_raise.
    destruct (ci_nt (class_of w c)) as [nt|] eqn:N; [|apply eqp_raise].
    change (pep563 k2) with p563. change (pep563 k1) with p563.
    eapply (eqm_bind _ _ _ _ (fun hints => forall k ft, In (k, ft) hints -> G ft)).
    - apply eqp_lift. intros hints E k ft H. eapply HG; [reflexivity|congruence|exact E|exact H].
    - intros hints HO. apply eqm_objloader. exact HO.
  Qed.
  Lemma eqm_attrload v t :
    (forall c fs hints k ft, t = TClass c -> ci_attrs (class_of w c) = Some fs -> attr_hints fs = POk hints ->
       In (k, ft) hints -> G ft) ->
    eqm (attrload w k1 call1 v t) (attrload w2 k2 call2 v t).
  Proof using Agree Hcall.
    intro HG. unfold attrload; sw. destruct t as [c| | | | | | | ]; try apply eqp_raise.
    destruct (ci_attrs (class_of w c)) as [fs|] eqn:N; [|apply eqp_raise].
    eapply (eqm_bind _ _ _ _ (fun hints => forall k ft, In (k, ft) hints -> G ft)).
    - apply eqp_lift. intros hints E k ft H. eapply HG; [reflexivity|exact N|exact E|exact H].
    - intros hints HO. cbv zeta. change (mangle_key k2) with (mangle_key k1).
      eapply eqm_bind; [apply eqm_mangle|]. intros v' _. apply eqm_objloader. exact HO.
  Qed.
  Lemma eqm_typeddictload v t :
    (forall c s hints k ft, t = TClass c -> ci_td (class_of w c) <> None ->
       (if p563 then ci_hints (class_of w c) else POk (annotations w s c)) = POk hints ->
       In (k, ft) hints -> G (strip_notrequired ft)) ->
    eqm (typeddictload w k1 call1 v t) (typeddictload w2 k2 call2 v t).
  Proof using Agree Hcall.
    intro HG. unfold typeddictload; sw. destruct t as [c| | | | | | | ]; try apply eqp_raise.
    destruct (ci_td (class_of w c)) as [req|] eqn:N; [|apply eqp_raise].
    change (pep563 k2) with p563. change (pep563 k1) with p563.
    apply (eqm_bind get_st get_st _ _ (fun _ => True)).
    { intros s I. split; [reflexivity|]. split; [exact I|auto]. }
    intros s0 _.
    eapply (eqm_bind _ _ _ _ (fun hints => forall k ft, In (k, ft) hints -> G (strip_notrequired ft))).
    - apply eqp_lift. intros hints E k ft H. eapply HG; [reflexivity|congruence|exact E|exact H].
    - intros hints HO. cbv zeta. eapply (eqm_bind _ _ _ _ (fun _ => True)).
      + intros s I. split; [reflexivity|]. split; [|auto]. cbn.
        assert (X : forall q : bool, inv (if q then s else set_stripped (cons c) s)).
        { intros []; [exact I|]. split; [apply coh_set_stripped; apply I|exact (proj2 I)]. }
        apply X.
      + intros _ _. apply eqm_objloader. intros k ft H. apply in_map_iff in H as [[k' ft'] [[= <- <-] H]]. eapply HO. exact H.
  Qed.

  Lemma eqp_prefer v t args sorted :
    G t -> runs HUnion t -> ty_args t = Some args -> (forall x, In x sorted -> In x args) ->
    eqp (prefer w v t args sorted) (prefer w2 v t args sorted) (fun l => forall x, In x l -> In x args).
  Proof using Seed.
    intros Gt Ru A Hs. unfold prefer; sw. destruct v; try (apply eqp_ret; exact Hs).
    apply eqp_bind with (Q := fun dc => forall key cd x, dc = Some (key, cd) -> In x (map snd cd) -> In x args).
    { intros s I0. rewrite (Seed t args s Gt Ru A). destruct (same_get t (st_disc s)) as [dc|] eqn:E; (split; [reflexivity|]).
      - split; [exact I0|]. cbn. intros a [= <-]. destruct (coh_disc _ _ _ (proj1 I0) _ _ E) as [args0 [args' [s' [A' [Sm ->]]]]].
        assert (args0 = args) by congruence. subst args0. intros key cd x B Ix. apply Sm. revert B Ix. apply build_disc_types.
      - split; [|cbn; intros a [= <-] key cd x; apply build_disc_types].
        destruct I0 as [C R]. split; [apply coh_set_disc; assumption|exact R]. }
    intros [[key [|lt cd]]|] Hd; try (apply eqp_ret; exact Hs).
    destruct (hashable w _); [|apply eqp_raise].
    destruct (disc_get _ (lt :: cd)) as [pt|] eqn:DG; apply eqp_ret; [|exact Hs].
    intros x [<-|Hin]; [|apply Hs; eapply remove_first_In; exact Hin].
    eapply Hd; [reflexivity|]. eapply disc_get_types. exact DG.
  Qed.
  Lemma eqm_try_members v t ts n r exs : (forall x, In x ts -> G x) ->
    eqm (try_members k1 call1 v t ts n r exs) (try_members k2 call2 v t ts n r exs).
  Proof using Agree Hcall.
    revert n r exs. induction ts as [|x ts IH]; intros n r exs HG; cbn [try_members]; sw; [apply eqm_ret|].
    assert (Gx : G x) by (apply HG; left; reflexivity).
    assert (IH' : forall n r exs, eqm (try_members k1 call1 v t ts n r exs) (try_members k2 call2 v t ts n r exs)).
    { intros. apply IH. intros y Hy. apply HG. right. exact Hy. }
    eapply eqm_bind.
    - apply eqp_attempt. eapply eqp_bind; [apply eqp_lookup; exact Gx|]. intros h F. cbv beta in F.
      apply (Hcall h v x Gx (runs_own _ _ F)).
    - intros [r'|[k m tr v0 t0 subs|k]] _; [|apply IH'|apply eqp_raise].
      change (uniondebugconflict k2) with (uniondebugconflict k1).
      destruct (uniondebugconflict k1); [apply IH'|apply eqm_ret].
  Qed.
  Lemma eqm_unionload v t : G t -> runs HUnion t -> eqm (unionload w k1 call1 v t) (unionload w2 k2 call2 v t).
  Proof using Agree Hcall Gcomp Seed.
    intros Gt Ru. unfold unionload; sw. destruct (ty_args t) as [args|] eqn:A; [|apply eqp_raise]. cbv zeta.
    change (basicb k2) with (basicb k1). destruct (_ && _); [apply eqm_ret|].
    eapply eqm_bind.
    - apply eqp_prefer; [exact Gt|exact Ru|exact A|]. intros x Hx. apply in_app_iff in Hx as [Hx|Hx]; apply filter_In in Hx; apply Hx.
    - intros l HL. cbv beta in HL. eapply eqm_bind.
      + apply eqm_try_members. intros x Hx. eapply G_args; [exact Gt|exact A|]. apply HL. exact Hx.
      + intros [[n0 r0] exs] _. destruct n0 as [|[|n0]]; try apply eqp_raise. apply eqm_ret.
  Qed.

  Lemma eqm_enum_hints v t ts exs : (forall x, In x ts -> G x) ->
    eqm (enum_hints w k1 call1 v t ts exs) (enum_hints w2 k2 call2 v t ts exs).
  Proof using Agree Gname Hcall.
    revert exs. induction ts as [|x ts IH]; intros exs HG; cbn [enum_hints]; sw; [apply eqm_ret|].
    eapply eqm_bind.
    - apply eqp_attempt. eapply eqp_bind; [apply eqm_load_with; apply HG; left; reflexivity|]. intros y _.
      apply eqp_lift. intros a _. exact (I : (fun _ => True) a).
    - intros [r|e] _; [apply eqm_ret|]. apply IH. intros y Hy. apply HG. right. exact Hy.
  Qed.
  Lemma eqm_enumload v t :
    (forall c hints x, t = TClass c -> ci_hints (class_of w c) = POk hints -> In x (map snd hints) -> G x) ->
    eqm (enumload w k1 call1 v t) (enumload w2 k2 call2 v t).
  Proof using Agree Gname Hcall.
    intro HG. unfold enumload; sw. destruct (call_type w t v); [apply eqm_ret|].
    destruct t as [c| | | | | | | ]; try apply eqp_raise.
    eapply (eqm_bind _ _ _ _ (fun hints => forall x, In x (map snd hints) -> G x)).
    - apply eqp_lift. intros hints E x H. eapply HG; [reflexivity|exact E|exact H].
    - intros hints HO. eapply eqm_bind; [apply eqm_enum_hints; exact HO|].
      intros [y|exs] _; [apply eqm_ret|apply eqp_raise].
  Qed.

  Lemma declared_in c k ft : G (TClass c) -> In (k, ft) (declared w p563 c) -> G ft.
  Proof using Gcomp.
    intros Gt H. eapply Gcomp; [exact Gt|]. unfold component, comps. apply in_or_app. left.
    apply (in_map snd) in H. exact H.
  Qed.
  Lemma strip_unwrap ft : strip_notrequired ft = unwrap ft.
  Proof using. reflexivity. Qed.

  Lemma eqm_body h v t : G t -> runs h t -> eqm (body w k1 call1 h v t) (body w2 k2 call2 h v t).
  Proof using Hstd Hwr Gcomp Agree Hdc Gname Gmis Hcall Seed.
    intros Gt R.
    assert (NC : forall f, h <> HCustom f).
    { intros f ->. destruct R as [F|[n [o [vt [Gg F]]]]].
      - rewrite (Agree _ Gt) in F. apply (std_selected w basic strcons k2 t _ Hstd F).
      - rewrite (Agree vt) in F; [apply (std_selected w basic strcons k2 vt _ Hstd F)|].
        eapply Gcomp; [exact Gg|right; left; reflexivity]. }
    assert (Own : find_handler k1 t = POk h \/ forall c x, t = TClass c -> annotated w c x -> G x).
    { destruct R as [F|[n [o [vt [Gg F]]]]]; [left; exact F|right]. intros c x -> A. eapply Gmis; eassumption. }
    assert (Sel : selected w basic strcons h t \/ forall c x, t = TClass c -> annotated w c x -> G x).
    { destruct Own as [F|X]; [left|right; exact X]. rewrite (Agree _ Gt) in F.
      exact (std_selected w basic strcons k2 t _ Hstd F). }
    clear Own.
    destruct h; cbn [selected] in Sel; cbn [body].
    - unfold noneload. destruct v; try apply eqp_raise. apply eqm_ret.
    - apply eqm_unionload; [exact Gt|exact R].
    - unfold basicload; sw. change (basiccast k2) with (basiccast k1).
      destruct (exact v t); [apply eqm_ret|]. destruct (basiccast k1); [|apply eqp_raise].
      destruct (call_type w t v) as [r|[]]; try apply eqp_raise. apply eqm_ret.
    - apply eqm_enumload. intros c hints x -> E H. destruct Sel as [[c' [ms [[= <-] [E' _]]]]|X].
      + eapply Gcomp; [exact Gt|]. unfold component, comps. apply in_or_app. right. rewrite E', E. exact H.
      + apply (X c x eq_refl). left. exists hints. auto.
    - apply eqm_tupleload. exact Gt.
    - apply eqm_iterload. exact Gt.
    - apply eqm_dictload. exact Gt.
    - apply eqm_iterload. exact Gt.
    - apply eqm_iterload. exact Gt.
    - apply eqm_namedtupleload. intros c hints k ft -> N E H. destruct Sel as [[c' [nt [[= <-] [N' _]]]]|X].
      + eapply declared_in; [exact Gt|]. unfold declared, kind_of_class, declared_types. rewrite N'.
        revert E. case p563; intro E; [rewrite E; exact H|]. injection E as ->. exact H.
      + apply (X c ft eq_refl). apply (in_map snd) in H. revert E. case p563; intro E.
        * left. exists hints. auto.
        * injection E as <-. right. left. exact H.
    - apply eqm_dataclassload; [|exact Gt]. intros c fs oi k ft -> D O H. destruct Sel as [[c' [fs' [[= <-] [D' [N' _]]]]]|X].
      + eapply declared_in; [exact Gt|]. assert (fs' = fs) by congruence. subst fs'.
        assert (KK : kind_of_class w c = Some (KDC fs)) by (unfold kind_of_class; rewrite N', D; reflexivity).
        change p563 with (pep563 k1). rewrite <- (dataclass_info_hints w k1 c fs oi KK O). exact H.
      + apply (X c ft eq_refl). unfold dataclass_info in O. cbn [pep563 k1] in O. apply (in_map snd) in H.
        revert O. case p563.
        * destruct (ci_hints (class_of w c)) as [l|] eqn:E; [|discriminate]. intros [= <-]. left. exists l. auto.
        * intros [= <-]. cbn [oi_hints] in H. rewrite map_map in H. right. right. right. left. exists fs. auto.
    - assert (T : (exists n, t = TForward n) \/ forall n, t <> TForward n) by (destruct t; eauto; right; discriminate).
      destruct T as [[n ->]|T]; [apply eqm_forward; exact Gt|].
      assert (E : forall w' k call, forwardrefload w' k call v t = bind get_st (fun s => match st_frefs s with
         | None => raise (XTL KBase MFrefDisabled [] (Some v) (Some t) []) | Some _ => raise (XRaw RAttr) end)).
      { intros w' k call. destruct t as [| | | |nm| | | ]; try reflexivity. contradiction (T nm eq_refl). }
      rewrite !E. apply (eqm_bind get_st get_st _ _ (fun _ => True)).
      { intros s I. split; [reflexivity|]. split; [exact I|auto]. }
      intros s _. destruct (st_frefs s); apply eqp_raise.
    - unfold literalload; sw. destruct t; try apply eqp_raise. destruct (py_in v vals); [apply eqm_ret|apply eqp_raise].
    - apply eqm_typeddictload. intros c s hints k ft -> T E H. rewrite strip_unwrap.
      assert (A : ci_attrs (class_of w c) = None) by (eapply wr_td; eassumption).
      assert (UU : forall k' x, In (k', x) (ci_ann (class_of w c)) -> unwrap (unwrap x) = unwrap x).
      { intros k' x Hx. eapply wr_nested; eassumption. }
      assert (Y : forall x, In x (map (fun kt => unwrap (snd kt)) (match p563 with true => match ci_hints (class_of w c) with POk l => l | PExc _ => [] end | false => ci_ann (class_of w c) end)) -> G x).
      { intros x Hx. destruct Sel as [[c' [req [[= <-] [T' [N' [D' _]]]]]]|X].
        - apply in_map_iff in Hx as [[k0 x0] [<- Hx]]. apply (declared_in c k0); [exact Gt|].
          unfold declared, kind_of_class. rewrite N', D', A, T'. unfold declared_types.
          apply in_map_iff. exists (k0, x0). split; [reflexivity|exact Hx].
        - apply (X c x eq_refl). revert Hx. case p563.
          + destruct (ci_hints (class_of w c)) as [l|] eqn:EH; [|contradiction]. intro Hx. left. exists l. auto.
          + intro Hx. right. right. left. exact Hx. }
      apply Y. clear Y. revert E. case p563; intro E.
      + rewrite E. apply in_map_iff. exists (k, ft). auto.
      + injection E as <-. unfold annotations in H. destruct (mem_cid c (st_stripped s)).
        * apply in_map_iff in H as [[k0 x0] [[= <- <-] H]]. apply in_map_iff. exists (k0, x0). split; [|exact H].
          cbn [snd]. symmetry. exact (UU _ _ H).
        * apply in_map_iff. exists (k, ft). auto.
    - unfold datetimeload; sw. destruct t as [c| | | | | | | ]; try apply eqp_raise.
      destruct (match v with VStr s => w_fromiso w c s | _ => _ end) as [r|[]]; try apply eqp_raise. apply eqm_ret.
    - unfold patternload; sw. destruct (w_compile w v) as [r|[]]; try apply eqp_raise. apply eqm_ret.
    - unfold timedeltaload; sw. destruct (w_timedelta w v) as [r|[]]; try apply eqp_raise. apply eqm_ret.
    - unfold strconsload; sw. destruct (call_type w t v) as [r|[]]; try apply eqp_raise. apply eqm_ret.
    - apply eqm_attrload. intros c fs hints k ft -> A E H. destruct Sel as [[c' [fs' [[= <-] [A' [N' [D' _]]]]]]|X].
      + eapply declared_in; [exact Gt|]. unfold declared, kind_of_class. rewrite N', D', A.
        apply attr_hints_spec in E. rewrite <- E. exact H.
      + apply (X c ft eq_refl). apply attr_hints_spec in E. subst hints. apply (in_map snd) in H. rewrite map_map in H.
        right. right. right. right. exists fs. auto.
    - apply eqm_ret.
    - unfold newtypeload; sw. destruct t; try apply eqp_raise. apply eqm_load_with.
      eapply Gcomp; [exact Gt|]. left. reflexivity.
    - contradiction (NC _ eq_refl).
  Qed.
End Local.

Section LocalRun.
  Variable w : world.
  Variable pick : list string -> nat.
  Variable order : list string -> list string.
  Notation W2 := (reseed w pick order).
  Variables basic strcons : list cid.
  Variables (b : list cid) (cast extra rce1 rce2 deq : bool) (mk : string) (ud p563 : bool).
  Variables hs1 hs2 : list (cond * handler).
  Notation K1 := (k1 b cast extra rce1 deq mk ud p563 hs1).
  Notation K2 := (k2 b cast extra rce2 deq mk ud p563 hs2).
  Hypothesis Hstd : is_std w basic strcons K2.
  Hypothesis Hwr : wf_reflect w.
  Variable env : string -> option ty.
  Variable G : ty -> Prop.
  Hypothesis Gcomp : forall t t', G t -> component w p563 env t t' -> G t'.
  Hypothesis Agree : forall t, G t -> find_handler K1 t = find_handler K2 t.
  Hypothesis Hdc : forall c fs, G (TClass c) -> ci_dc (class_of w c) = Some fs -> dc_transforms W2 K1 fs = dc_transforms w K1 fs.
  Hypothesis Gname : forall n t, G (TForward n) -> G t -> w_name w t = Some n -> env n = Some t.
  Hypothesis Gmis : forall n o c vt t, G (TGen n o (Some [TClass c; vt])) -> annotated w c t -> G t.
  Hypothesis Seed : forall t args s, G t -> runs b cast extra rce1 deq mk ud p563 hs1 G HUnion t -> ty_args t = Some args -> build_disc W2 s args = build_disc w s args.

  Lemma eqm_run n : forall h v t, G t -> runs b cast extra rce1 deq mk ud p563 hs1 G h t ->
    eqm w b cast extra rce1 deq mk ud p563 hs1 env G (run w K1 n h v t) (run W2 K2 n h v t).
  Proof using Hstd Hwr Gcomp Agree Hdc Gname Gmis Seed.
    induction n as [|n IH]; intros h v t Gt R.
    { intros s I. split; [reflexivity|]. split; [exact I|auto]. }
    cbn [run]. eapply eqm_body; eassumption.
  Qed.
  Lemma local_load n v t s : G t -> coh w K1 s -> names_ok env G s -> load w K1 n v t s = load W2 K2 n v t s.
  Proof using Hstd Hwr Gcomp Agree Hdc Gname Gmis Seed.
    intros Gt C N. unfold load, load_ann.
    destruct (eqm_load_with w pick order b cast extra rce1 rce2 deq mk ud p563 hs1 hs2 env G Agree Gname
      (run w K1 n) (run W2 K2 n) (eqm_run n) v t None Gt s (conj C N)) as [E _]. exact E.
  Qed.
End LocalRun.

Lemma c49 w basic strcons cfg1 cfg2 :
  is_std w basic strcons cfg2 -> same_settings cfg1 cfg2 -> wf_reflect w ->
  forall env s v t, used w cfg1 s ->
  (forall t', reach w (pep563 cfg2) env t t' -> find_handler cfg1 t' = find_handler cfg2 t') ->
  (forall n t', reach w (pep563 cfg2) env t (TForward n) -> knows s n t' -> env n = Some t') ->
  (forall n t', reach w (pep563 cfg2) env t (TForward n) -> reach w (pep563 cfg2) env t t' -> w_name w t' = Some n -> env n = Some t') ->
  (forall n o c vt t', reach w (pep563 cfg2) env t (TGen n o (Some [TClass c; vt])) -> annotated w c t' -> reach w (pep563 cfg2) env t t') ->
  forall n, load w cfg1 n v t s = load w cfg2 n v t s.
Proof.
  intros Hstd Sm Hwr env s v t U Ag Kn Nm Mi n. pose proof (used_coh _ _ _ U) as C.
  destruct cfg1 as [b1 ca1 ex1 rc1 dq1 mk1 ud1 p1 h1], cfg2 as [b2 ca2 ex2 rc2 dq2 mk2 ud2 p2 h2].
  destruct Sm as [E1 [E2 [E3 [E4 [E5 [E6 E7]]]]]].
  cbn [basictypes basiccast failonextra dictequivalence mangle_key uniondebugconflict pep563] in *. subst.
  rewrite <- (reseed_same w) at 2.
  apply (local_load w (w_pick w) (w_setorder w) basic strcons b2 ca2 ex2 rc1 rc2 dq2 mk2 ud2 p2 h1 h2 Hstd Hwr env (reach w p2 env t)
     (fun a b => reach_step w p2 env t a b) Ag
     (fun c fs _ _ => f_equal (fun w' => dc_transforms w' _ fs) (reseed_same w)) Nm Mi
     (fun t' args s' _ _ _ => f_equal (fun w' => build_disc w' s' args) (reseed_same w)) n v t s (reach_refl _ _ _ _) C).
  intros m fr t' R F S. apply (Kn m t' R). exists fr. auto.
Qed.

Lemma c49_loads w cfg1 cfg2 s v t :
  (forall n, load w cfg1 n v t s = load w cfg2 n v t s) -> forall r, loads w cfg1 s v t r <-> loads w cfg2 s v t r.
Proof. intros E r. unfold loads. split; intros [N [n X]]; (split; [exact N|]); exists n; rewrite <- X; f_equal; auto. Qed.

Lemma pick_extra rce (extra l2 : list (cond * handler)) t :
  (forall c h, In (c, h) extra -> c t = POk false) ->
  forall l1, pick rce (l1 ++ extra ++ l2) t = pick rce (l1 ++ l2) t.
Proof.
  induction extra as [|[c h] extra IH]; intros H l1; [reflexivity|]. cbn [app].
  rewrite pick_insert_no by (eapply H; left; reflexivity). apply IH. intros c' h' I. eapply H. right. exact I.
Qed.
