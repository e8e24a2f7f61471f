(** * Simple: proofs of C02, C04, C05, C11, C12, C21, C31, C32, C33, C42 in
      the form of the property theorems *)

From Verif Require Import Loader Dumper Spec Inv Std Fuel Obs Scalars Index.

Section S1.
  Variable w : world.
  Variables basic strcons : list cid.
  Variable cfg : config.
  Hypothesis Hstd : is_std w basic strcons cfg.
  Variable s : lstate.
  Hypothesis Hs : used w cfg s.

  Lemma c02 c v r :
    basiccast cfg = false -> In c basic -> c <> CNone ->
    (loads w cfg s v (TClass c) r <->
     (type_of v = c /\ r = Ok v) \/
     (type_of v <> c /\ exists m, r = Exc (XTL KValue m [(v, TClass c, None)] (Some v) (Some (TClass c)) []) /\ m = MGot v (TClass c))).
  Proof using Hstd Hs.
    intros B I N. pose proof (used_coh _ _ _ Hs) as C. destruct (cid_eq_dec (type_of v) c) as [E|E].
    - rewrite (loads_all w cfg s v (TClass c) (Ok v)).
      + split; [intros ->; left; auto|]. intros [[_ H]|[H _]]; [exact H|contradiction].
      + discriminate.
      + intro n. eapply basic_same; eauto.
    - rewrite (loads_all w cfg s v (TClass c) (Exc (XTL KValue (MGot v (TClass c)) [(v, TClass c, None)] (Some v) (Some (TClass c)) []))).
      + split; [intros ->; right; split; [exact E|eexists; split; reflexivity]|].
        intros [[H _]|[_ [m [-> ->]]]]; [contradiction|reflexivity].
      + discriminate.
      + intro n. eapply basic_other; eauto.
  Qed.

  Lemma c04_any v r : loads w cfg s v TAny r <-> r = Ok v.
  Proof using Hstd Hs.
    apply loads_all; [discriminate|]. intro n. eapply any_same; eauto using used_coh.
  Qed.
  Lemma c04_literal v vals r :
    loads w cfg s v (TLiteral vals) r <->
    (py_in v vals = true /\ r = Ok v) \/
    (py_in v vals = false /\
     r = Exc (XTL KValue (MNotLiteral (TLiteral vals)) [(v, TLiteral vals, None)] (Some v) (Some (TLiteral vals)) [])).
  Proof using Hstd Hs.
    rewrite (loads_all w cfg s v (TLiteral vals)
      (if py_in v vals then Ok v
      else Exc (XTL KValue (MNotLiteral (TLiteral vals)) [(v, TLiteral vals, None)] (Some v) (Some (TLiteral vals)) []))).
    - destruct (py_in v vals); intuition congruence.
    - destruct (py_in v vals); discriminate.
    - intro n. eapply literal_in; eauto using used_coh.
  Qed.
  Lemma c05 v r :
    loads w cfg s v (TClass CNone) r <->
    (v = VNone /\ r = Ok VNone) \/
    (v <> VNone /\ r = Exc (XTL KValue MNotNone [(v, TClass CNone, None)] (Some v) (Some (TClass CNone)) [])).
  Proof using Hstd Hs.
    rewrite (loads_all w cfg s v (TClass CNone)
      (match v with
      | VNone => Ok VNone
      | _ => Exc (XTL KValue MNotNone [(v, TClass CNone, None)] (Some v) (Some (TClass CNone)) [])
      end)).
    - destruct v; intuition congruence.
    - destruct v; discriminate.
    - intro n. eapply none_only; eauto using used_coh.
  Qed.
  Lemma c11 d nat_ o args :
    o = OTuple \/ ((o = OList \/ o = OSet \/ o = OFrozen) /\ args <> []) ->
    exists m, forall r,
      loads w cfg s (VDict d) (TGen nat_ o (Some args)) r <->
      r = Exc (XTL KType m [(VDict d, TGen nat_ o (Some args), None)]
                 (Some (VDict d)) (Some (TGen nat_ o (Some args))) []).
  Proof using Hstd Hs.
    intro O.
    assert (X : exists m, forall n, fst (load w cfg (S n) (VDict d) (TGen nat_ o (Some args)) s)
      = Exc (XTL KType m [(VDict d, TGen nat_ o (Some args), None)]
                 (Some (VDict d)) (Some (TGen nat_ o (Some args))) [])).
    { destruct (dict_not_iter w basic strcons cfg Hstd s (used_coh _ _ _ Hs) d 0 nat_ o args O) as [m E].
      exists m. intro n. rewrite <- E. f_equal. apply load_fuel_independent; fold (load w cfg (S n) (VDict d) (TGen nat_ o (Some args))); fold (load w cfg 1 (VDict d) (TGen nat_ o (Some args))).
      - destruct (dict_not_iter w basic strcons cfg Hstd s (used_coh _ _ _ Hs) d n nat_ o args O) as [m' E']. rewrite E'. discriminate.
      - rewrite E. discriminate. }
    destruct X as [m X]. exists m. apply loads_all; [discriminate|exact X].
  Qed.
  Lemma c12 v nat_ args r :
    In (type_of v) basic -> In (TClass (type_of v)) args ->
    (loads w cfg s v (TGen nat_ OUnion (Some args)) r <-> r = Ok v).
  Proof using Hstd Hs.
    intros B A. apply loads_all; [discriminate|]. intro n. eapply union_passthrough; eauto using used_coh.
  Qed.
End S1.


Lemma later_good w cfg s s' : later w cfg s s' -> good_step w cfg s s'.
Proof.
  induction 1 as [|cfg' n v t s' L IH A]; [split; [auto|apply st_le_refl]|].
  destruct IH as [G1 L1]. destruct (good_load w cfg' n v t None s') as [G2 L2].
  split; [|eapply st_le_trans; eassumption]. intro C.
  apply (coh_adjusted w cfg' cfg _ (adjusted_sym _ _ A)). apply G2. apply (coh_adjusted w cfg cfg' _ A). auto.
Qed.
Lemma later_used w cfg s s' : used w cfg s -> later w cfg s s' -> used w cfg s'.
Proof.
  intros U. induction 1 as [|cfg' n v t s' L IH A]; [exact U|].
  apply (used_set w cfg'); [|apply adjusted_sym; exact A]. apply used_again. apply (used_set w cfg); assumption.
Qed.
Lemma c21_names w cfg s s' n t : later w cfg s s' -> knows s n t -> knows s' n t.
Proof.
  intros L [fr [E F]]. pose proof (le_frefs _ _ (proj2 (later_good _ _ _ _ L))) as Q. rewrite E in Q.
  destruct (st_frefs s') as [fr'|] eqn:E'; [|contradiction]. exists fr'. auto.
Qed.
Lemma c21_handlers w cfg s s' t h :
  later w cfg s s' -> ty_get t (st_index s) = Some h -> ty_get t (st_index s') = Some h.
Proof. intros L. apply (le_index _ _ (proj2 (later_good _ _ _ _ L))). Qed.
Lemma knows_fun s n t t' : knows s n t -> knows s n t' -> t = t'.
Proof. intros [fr [E F]] [fr' [E' F']]. congruence. Qed.
Lemma c21_disabled w cfg s s' : later w cfg s s' -> st_frefs s = None -> st_frefs s' = None.
Proof.
  intros L E. pose proof (le_frefs _ _ (proj2 (later_good _ _ _ _ L))) as Q. rewrite E in Q.
  destruct (st_frefs s'); [contradiction|reflexivity].
Qed.

(** C31 *)
Lemma c31_load w cfg s v t r :
  used w cfg s ->
  (forall c h, In (c, h) (handlers cfg) ->
     c t = POk false \/ (raiseconditionerrors cfg = false /\ exists e, c t = PExc e)) ->
  (loads w cfg s v t r <-> r = Exc (XTL KType (MCannotDeal t) [] (Some v) (Some t) [])).
Proof.
  intros U N. apply loads_all; [discriminate|]. intro n.
  apply load_nohandler; [apply used_coh; exact U|].
  unfold find_handler, loader_index. rewrite index_none by exact N. reflexivity.
Qed.

Lemma dumps_all w cfg s v r0 :
  r0 <> OOF -> (forall n, fst (dump w cfg (S n) v s) = r0) ->
  forall r, dumps w cfg s v r <-> r = r0.
Proof.
  intros NO H r. split.
  - intros [NO' [n E]]. pose proof (H n) as E2. rewrite <- E, <- E2. f_equal.
    apply dump_fuel_independent; fold (dump w cfg n v s); fold (dump w cfg (S n) v s); congruence.
  - intros ->. split; [exact NO|exists 1; apply H].
Qed.

Lemma c31_dump w cfg s v r :
  dused w cfg s ->
  (* the conditions look only at the class of the value *)
  (forall c h v', In (c, h) (d_handlers cfg) -> type_of v' = type_of v -> c v' = c v) ->
  (forall c h, In (c, h) (d_handlers cfg) ->
     c v = POk false \/ (d_rce cfg = false /\ exists e, c v = PExc e)) ->
  (dumps w cfg s v r <-> r = Exc (cannot_dump v)).
Proof.
  intros U K N. apply dumps_all; [discriminate|]. intro n.
  unfold dump, dump_ann, dump_with, bind.
  assert (D : dfind cfg v = inr (cannot_dump v)).
  { unfold dfind, dindex. rewrite dindex_none by exact N. reflexivity. }
  destruct (cid_get (type_of v) (ds_cache s)) as [h|] eqn:E.
  - exfalso. destruct (dused_dcoh _ _ _ U) as [H _]. destruct (H _ _ E) as [v' [T F]].
    unfold dfind, dindex in F. rewrite dindex_none in F; [discriminate|].
    intros c h' I. rewrite (K c h' v' I T). apply (N c h' I).
  - rewrite D. reflexivity.
Qed.

(** C32 *)
Lemma c32_least cfg t i : loader_index cfg t = POk i <-> least_match (raiseconditionerrors cfg) (handlers cfg) t i.
Proof. apply index_least. Qed.
Lemma c32_dleast cfg v i : dindex cfg v = inl i <-> dleast_match (d_rce cfg) (d_handlers cfg) v i.
Proof. apply dindex_least. Qed.

(** the outcome of a handler which does not call load again *)
Lemma c32_custom w cfg s v t f o :
  used w cfg s -> find_handler cfg t = POk (HCustom f) ->
  f v t = match o with inl x => HPRet x | inr e => HPRaise e end ->
  forall r, loads w cfg s v t r <->
    r = match o with
        | inl x => Ok x
        | inr (XTL k m tr ve te subs) => Exc (XTL k m ((v, t, None) :: tr) ve te subs)
        | inr (XRaw _) => Exc (XRaw RAssert)
        end.
Proof.
  intros U F E.
  assert (B : forall call s', fst (body w cfg call (HCustom f) v t s') = match o with inl x => Ok x | inr e => Exc e end).
  { intros call s'. cbn [body]. rewrite E. destruct o; reflexivity. }
  apply loads_all; [destruct o as [x|[]]; discriminate|].
  intro n. rewrite (load_pure w cfg n s v t (HCustom f) _ (used_coh _ _ _ U) F B).
  destruct o as [x|[]]; reflexivity.
Qed.

(** ** C42 *)



Lemma c42_generic w basic strcons t :
  (forall c, t <> TClass c) ->
  matching (default_handlers w basic strcons) t = match own_handler t with Some h => [h] | None => [] end.
Proof.
  intro N. destruct t as [c|n o args|vals| |f| |n t|f]; try reflexivity; [congruence|].
  destruct o; try reflexivity. destruct args; reflexivity.
Qed.


Lemma mem_cid_false c l : ~ In c l -> mem_cid c l = false.
Proof. intro N. destruct (mem_cid c l) eqn:E; [apply mem_cid_In in E; contradiction|reflexivity]. Qed.

Lemma matching_class w basic strcons c :
  matching (default_handlers w basic strcons) (TClass c) =
    (if is_nonetype (TClass c) then [HNone] else []) ++
    (if mem_cid c basic then [HBasic] else []) ++
    (match ci_enum (class_of w c) with Some _ => [HEnum] | None => [] end) ++
    (match ci_nt (class_of w c) with Some _ => [HNamedTuple] | None => [] end) ++
    (match ci_dc (class_of w c) with Some _ => [HDataclass] | None => [] end) ++
    (match ci_td (class_of w c) with Some _ => [HTypedDict] | None => [] end) ++
    (if mem_cid c [CDate; CTime; CDatetime] then [HDatetime] else []) ++
    (if is_pattern (TClass c) then [HPattern] else []) ++
    (if ty_eqb (TClass c) (TClass CTimedelta) then [HTimedelta] else []) ++
    (if mem_cid c strcons then [HStrcons] else []) ++
    (match ci_attrs (class_of w c) with Some _ => [HAttrs] | None => [] end).
Proof.
  unfold matching, default_handlers. cbv zeta. cbn [filter fst is_union is_tuple is_list is_dict is_set is_frozenset
    is_forwardref is_literal is_any is_newtype in_classes is_enum is_namedtuple is_dataclass is_typeddict is_attrs].
  destruct (is_nonetype (TClass c)), (mem_cid c basic), (ci_enum (class_of w c)), (ci_nt (class_of w c)),
    (ci_dc (class_of w c)), (ci_td (class_of w c)), (mem_cid c [CDate; CTime; CDatetime]);
    destruct (is_pattern (TClass c)), (ty_eqb (TClass c) (TClass CTimedelta)), (mem_cid c strcons), (ci_attrs (class_of w c)); reflexivity.
Qed.

Lemma c42_class w basic strcons c k :
  special c = None -> of_sort w basic strcons c k ->
  (forall k', of_sort w basic strcons c k' -> k' = k) ->
  matching (default_handlers w basic strcons) (TClass c) = [sort_handler k].
Proof.
  intros S K U. rewrite matching_class.
  assert (X1 : is_nonetype (TClass c) = false) by (apply ty_eqb_neq; intros [= ->]; discriminate).
  assert (X2 : mem_cid c [CDate; CTime; CDatetime] = false).
  { apply mem_cid_false. intros [<-|[<-|[<-|[]]]]; discriminate. }
  assert (X3 : is_pattern (TClass c) = false) by (destruct c; try reflexivity; discriminate).
  assert (X4 : ty_eqb (TClass c) (TClass CTimedelta) = false) by (apply ty_eqb_neq; intros [= ->]; discriminate).
  rewrite X1, X2, X3, X4.
  assert (B : mem_cid c basic = match k with SBasic => true | _ => false end).
  { destruct (mem_cid c basic) eqn:E; [apply mem_cid_In in E; rewrite <- (U SBasic E); reflexivity|].
    destruct k; try reflexivity. apply mem_cid_In in K. congruence. }
  assert (SC : mem_cid c strcons = match k with SStrcons => true | _ => false end).
  { destruct (mem_cid c strcons) eqn:E; [apply mem_cid_In in E; rewrite <- (U SStrcons E); reflexivity|].
    destruct k; try reflexivity. apply mem_cid_In in K. congruence. }
  rewrite B, SC.
  assert (Q1 : ci_enum (class_of w c) <> None -> SEnum = k) by exact (U SEnum).
  assert (Q2 : ci_nt (class_of w c) <> None -> SNamedTuple = k) by exact (U SNamedTuple).
  assert (Q3 : ci_dc (class_of w c) <> None -> SDataclass = k) by exact (U SDataclass).
  assert (Q4 : ci_td (class_of w c) <> None -> STypedDict = k) by exact (U STypedDict).
  assert (Q5 : ci_attrs (class_of w c) <> None -> SAttrs = k) by exact (U SAttrs).
  clear U B SC.
  destruct k; cbn [of_sort] in K; cbn [sort_handler];
  destruct (ci_enum (class_of w c)); try (discriminate Q1; discriminate); try congruence;
  destruct (ci_nt (class_of w c)); try (discriminate Q2; discriminate); try congruence;
  destruct (ci_dc (class_of w c)); try (discriminate Q3; discriminate); try congruence;
  destruct (ci_td (class_of w c)); try (discriminate Q4; discriminate); try congruence;
  destruct (ci_attrs (class_of w c)); try (discriminate Q5; discriminate); try congruence;
  reflexivity.
Qed.

Lemma c42_special w basic strcons c h :
  special c = Some h -> ~ In c strcons -> c <> CNone /\ ~ In c basic ->
  matching (default_handlers w basic strcons) (TClass c) = [h].
Proof.
  intros S NS [NN NB]. rewrite matching_class.
  rewrite (mem_cid_false _ _ NS), (mem_cid_false _ _ NB).
  destruct c; try discriminate; injection S as <-; try congruence; reflexivity.
Qed.
(** NoneType is also a basic type; its own handler comes first *)
Lemma c42_none w basic strcons cfg : is_std w basic strcons cfg -> find_handler cfg (TClass CNone) = POk HNone.
Proof. intros H. eapply find_none; eassumption. Qed.

Lemma matching_find w basic strcons cfg t h :
  is_std w basic strcons cfg -> matching (handlers cfg) t = [h] -> find_handler cfg t = POk h.
Proof.
  intros [E _] M. rewrite <- pick_find. revert M. rewrite E. 
  assert (T : forall c h', In (c, h') (default_handlers w basic strcons) -> exists b, c t = POk b).
  { intros c h' I. unfold default_handlers in I. cbv zeta in I. cbn [In] in I.
    repeat (destruct I as [I|I]; [injection I as <- _; eauto|]). destruct I. }
  revert T. generalize (default_handlers w basic strcons). intro hs.
  induction hs as [|[c h'] hs IH]; intro T; [discriminate|].
  rewrite pick_cons. unfold matching. cbn [filter fst]. destruct (T c h' (or_introl eq_refl)) as [b Eb]. rewrite Eb.
  destruct b; cbn [map snd].
  - intros [= -> _]. reflexivity.
  - intro M. apply IH; [|exact M]. intros c1 h1 I. apply (T c1 h1). right. exact I.
Qed.
