(** * ObjFacts: required, extra and renamed fields, Namespace, in every state
      of the loader (C06, C07, C08, C24, C37) *)

From Verif Require Import Loader Spec Inv Std Sound Fuel Obs Scalars Simple Transparent Hist Eval Items Tuples Dicts Objects.

(** ** Vocabulary *)


Lemma same_class_refl e : same_class e e. Proof. destruct e; reflexivity. Qed.
Lemma same_outcome_refl {A} (r : res A) : same_outcome r r. Proof. destruct r; cbn; auto using same_class_refl. Qed.
Lemma same_push i j e1 e2 : same_class e1 e2 -> same_class (push_trace i e1) (push_trace j e2).
Proof. destruct e1, e2; cbn; auto. Qed.
Lemma same_wrap v1 v2 t1 t2 a1 a2 r1 r2 : same_outcome r1 r2 -> same_outcome (wrap v1 t1 a1 r1) (wrap v2 t2 a2 r2).
Proof.
  destruct r1 as [x|e1|], r2 as [y|e2|]; cbn; try contradiction; auto.
  destruct e1, e2; cbn; intro H; try contradiction; auto.
Qed.
Lemma same_OOF {A} (r1 r2 : res A) : same_outcome r1 r2 -> (r1 = OOF <-> r2 = OOF).
Proof. destruct r1, r2; cbn; intro H; try contradiction; split; auto; discriminate. Qed.

Lemma alike_runs w cfg s v1 v2 t :
  (forall n, same_outcome (fst (load w cfg n v1 t s)) (fst (load w cfg n v2 t s))) -> load_alike w cfg s v1 v2 t.
Proof.
  intro H. split.
  - intros r1 [NO [n E]]. exists (fst (load w cfg n v2 t s)). specialize (H n). rewrite E in H. split; [|exact H].
    split; [|exists n; reflexivity]. intro Q. apply NO. apply (same_OOF _ _ H). exact Q.
  - intros r2 [NO [n E]]. exists (fst (load w cfg n v1 t s)). specialize (H n). rewrite E in H. split; [|exact H].
    split; [|exists n; reflexivity]. intro Q. apply NO. apply (same_OOF _ _ H). exact Q.
Qed.

(** two computations which differ only in what their exceptions tell *)
Definition malike {A} (m1 m2 : M A) : Prop :=
  forall s, same_outcome (fst (m1 s)) (fst (m2 s)) /\ snd (m1 s) = snd (m2 s).
Lemma malike_refl {A} (m : M A) : malike m m. Proof. intro s. split; [apply same_outcome_refl|reflexivity]. Qed.
Lemma malike_bind {A B} (m1 m2 : M A) (f1 f2 : A -> M B) :
  malike m1 m2 -> (forall a, malike (f1 a) (f2 a)) -> malike (bind m1 f1) (bind m2 f2).
Proof.
  intros H1 H2 s. unfold bind. destruct (H1 s) as [O E]. destruct (m1 s) as [r1 s1], (m2 s) as [r2 s2]. cbn [fst snd] in *. subst s2.
  destruct r1, r2; cbn in O; try contradiction; cbn [fst snd]; auto. subst. apply H2.
Qed.
Lemma malike_catch {A} (m1 m2 : M A) (f1 f2 : exn -> M A) :
  malike m1 m2 -> (forall e1 e2, same_class e1 e2 -> malike (f1 e1) (f2 e2)) -> malike (catch m1 f1) (catch m2 f2).
Proof.
  intros H1 H2 s. unfold catch. destruct (H1 s) as [O E]. destruct (m1 s) as [r1 s1], (m2 s) as [r2 s2]. cbn [fst snd] in *. subst s2.
  destruct r1, r2; cbn in O; try contradiction; cbn [fst snd]; auto. apply H2. exact O.
Qed.
Lemma malike_raise {A} e1 e2 : same_class e1 e2 -> malike (@raise lstate A e1) (raise e2).
Proof. intros H s. cbn. auto. Qed.

Section ObjFacts.
  Variable w : world.
  Variables basic strcons : list cid.
  Variable cfg : config.
  Hypothesis Hstd : is_std w basic strcons cfg.
  Hypothesis Hwr : wf_reflect w.
  Notation p := (pep563 cfg).

  Lemma obj_kind c : object_class w basic strcons c -> exists k, kind_of_class w c = Some k.
  Proof using. intros [_ [_ OC]]. destruct (kind_of_class w c); [eauto|contradiction]. Qed.

  Lemma obj_enter c s :
    used w cfg s -> object_class w basic strcons c -> resolvable w cfg c ->
    exists s2, forall n v, fst (load w cfg (S n) v (TClass c) s) = wrap v (TClass c) None (fst (mangle_obj w cfg (run w cfg n) c v s2)).
  Proof using Hstd Hwr.
    intros U OC R. destruct (obj_kind c OC) as [k Hk]. pose proof (used_coh _ _ _ U) as C.
    pose proof (find_object w basic strcons cfg Hstd Hwr c k OC Hk) as F.
    assert (C1 : coh w cfg (enter w cfg (TClass c) (object_handler k) s)).
    { unfold enter. destruct (ty_get _ _); [exact C|]. apply coh_register. apply coh_set_index; assumption. }
    destruct (obj_body w basic strcons cfg Hstd Hwr c k _ OC Hk R C1) as [s2 [_ [_ [_ E]]]].
    exists s2. intros n v. unfold load. rewrite (load_enter_fst w cfg (S n) v (TClass c) None s _ C F). cbn [run]. rewrite E. reflexivity.
  Qed.
  Lemma load_0 v t s : fst (load w cfg 0 v t s) = OOF \/ forall n, fst (load w cfg n v t s) = fst (load w cfg 0 v t s).
  Proof using.
    unfold load, load_ann, load_with, bind, catch. destruct (ty_get t (st_index s)); [left; reflexivity|].
    destruct (find_handler cfg t) as [h|[]]; try (right; reflexivity). left. reflexivity.
  Qed.
  Lemma obj_load0 c v s : used w cfg s -> object_class w basic strcons c -> fst (load w cfg 0 v (TClass c) s) = OOF.
  Proof using Hstd Hwr.
    intros U OC. destruct (obj_kind c OC) as [k Hk].
    unfold load. rewrite (load_enter_fst w cfg 0 v (TClass c) None s _ (used_coh _ _ _ U) (find_object w basic strcons cfg Hstd Hwr c k OC Hk)).
    reflexivity.
  Qed.

  (** when the handler stops before loading any field *)
  Lemma obj_stops c v s e :
    used w cfg s -> object_class w basic strcons c -> resolvable w cfg c ->
    (forall call s2, fst (mangle_obj w cfg call c v s2) = Exc e) ->
    forall r, loads w cfg s v (TClass c) r <-> r = wrap v (TClass c) None (Exc e).
  Proof using Hstd Hwr.
    intros U OC R H. destruct (obj_enter c s U OC R) as [s2 E]. apply loads_all.
    - cbn. destruct (is_tl e); discriminate.
    - intro n. rewrite E, H. reflexivity.
  Qed.
  Lemma obj_runs c v1 v2 s :
    used w cfg s -> object_class w basic strcons c -> resolvable w cfg c ->
    (forall call s2, same_outcome (fst (mangle_obj w cfg call c v1 s2)) (fst (mangle_obj w cfg call c v2 s2))) ->
    load_alike w cfg s v1 v2 (TClass c).
  Proof using Hstd Hwr.
    intros U OC R H. destruct (obj_enter c s U OC R) as [s2 E]. apply alike_runs. intros [|n].
    - rewrite !obj_load0 by assumption. exact I.
    - rewrite !E. apply same_wrap. apply H.
  Qed.

  (** *** Required fields *)
  Lemma objloader_missing call fields nec hints d t s2 f :
    In f nec -> has_key d f = false ->
    exists miss, fst (objloader w cfg call fields nec hints (VDict d) t s2) =
       Exc (XTL KValue (MMissing miss t) [] (Some (VDict d)) (Some t) []) /\
       miss = filter (fun s => negb (has_key d s)) nec.
  Proof using.
    intros Hf Hk. unfold objloader. cbn [as_dict]. eexists. split; [|reflexivity].
    destruct (filter (fun s => negb (has_key d s)) nec) as [|m ms] eqn:E; [|reflexivity]. exfalso.
    assert (X : In f (filter (fun s => negb (has_key d s)) nec)) by (apply filter_In; rewrite Hk; auto). rewrite E in X. destruct X.
  Qed.
  Lemma c06 c v d e :
    object_class w basic strcons c -> resolvable w cfg c -> distinct_names w cfg c ->
    proper_data v -> obj_data w cfg c v d ->
    In e (required_names w cfg c) -> ~ In (VStr e) (map fst d) ->
    exists x, raises KValue x /\ forall s, used w cfg s -> forall r, loads w cfg s v (TClass c) r <-> r = x.
  Proof using Hstd Hwr.
    intros OC R DN PV OD Hreq Hmiss. pose proof (proper_data_dict w cfg c v d PV OD) as PD.
    assert (NR : exists f, In f (obj_required w cfg c) /\ has_key (ren (obj_names w cfg c) d) f = false).
    { destruct (existsb (fun f => negb (has_key (ren (obj_names w cfg c) d) f)) (obj_required w cfg c)) eqn:EX.
      - apply existsb_exists in EX as [f [Hf Q]]. exists f. split; [exact Hf|]. apply negb_true_iff. exact Q.
      - exfalso. apply Hmiss. apply (required_ren w cfg c d DN); [|exact Hreq]. intros f Hf.
        destruct (has_key (ren (obj_names w cfg c) d) f) eqn:Q; [reflexivity|].
        assert (X : existsb (fun f => negb (has_key (ren (obj_names w cfg c) d) f)) (obj_required w cfg c) = true)
          by (apply existsb_exists; exists f; rewrite Q; auto). congruence. }
    destruct NR as [f [Hf Hk]].
    assert (H : exists m vv, forall call s2, fst (mangle_obj w cfg call c v s2) = Exc (XTL KValue m [] vv (Some (TClass c)) [])).
    { destruct (find (fun kx => failonextra cfg && skipped (obj_names w cfg c) (fst kx)) d) as [[k0 x0]|] eqn:FD.
      - pose proof FD as FD'. apply find_some in FD'. destruct FD' as [_ Q]. apply andb_true_iff in Q. destruct Q as [_ Q]. cbn in Q.
        destruct k0; try discriminate. eexists _, _. intros call s2. rewrite (mangle_obj_data w cfg c v d call s2 DN OD PD), FD. reflexivity.
      - eexists _, _. intros call s2. rewrite (mangle_obj_data w cfg c v d call s2 DN OD PD), FD.
        destruct (objloader_missing call (map fst (obj_fields w cfg c)) (obj_required w cfg c) (declared w p c) _ (TClass c) s2 f Hf Hk)
          as [miss [E ->]]. exact E. }
    destruct H as [m [vv H]]. eexists. split; [|intros s U; exact (obj_stops c v s _ U OC R H)]. cbn. unfold raises. repeat eexists.
  Qed.

  (** *** Extra fields *)
  Lemma c07 c v d k x0 :
    object_class w basic strcons c -> resolvable w cfg c -> distinct_names w cfg c ->
    proper_data v -> obj_data w cfg c v d ->
    failonextra cfg = true -> In (k, x0) d -> field_of w cfg c k = None ->
    exists e, (forall s, used w cfg s -> forall r, loads w cfg s v (TClass c) r <-> r = Exc e) /\
      ((forall k' x, In (k', x) d -> exists n, k' = VStr n) -> raises KValue (Exc e)).
  Proof using Hstd Hwr.
    intros OC R DN PV OD FE Hin NF. pose proof (proper_data_dict w cfg c v d PV OD) as PD.
    pose proof (obj_table w cfg c DN) as TB.
    assert (H : exists e, (forall call s2, fst (mangle_obj w cfg call c v s2) = Exc e) /\
      ((forall k' x, In (k', x) d -> exists n, k' = VStr n) -> exists m vv tt subs, e = XTL KValue m [] vv tt subs)).
    { destruct (find (fun kx => failonextra cfg && skipped (obj_names w cfg c) (fst kx)) d) as [[k0 x1]|] eqn:FD.
      - pose proof FD as FD'. apply find_some in FD'. destruct FD' as [_ Q]. apply andb_true_iff in Q. destruct Q as [_ Q]. cbn in Q.
        destruct k0; try discriminate. eexists. split.
        + intros call s2. rewrite (mangle_obj_data w cfg c v d call s2 DN OD PD), FD. reflexivity.
        + intros _. repeat eexists.
      - set (d1 := ren (obj_names w cfg c) d) in *.
        set (extra := map fst (filter (fun kv => negb (key_in (map fst (obj_fields w cfg c)) kv)) d1)).
        assert (NE : extra <> []).
        { intro Q. assert (Q' : filter (fun kv => negb (key_in (map fst (obj_fields w cfg c)) kv)) d1 = []).
          { unfold extra in Q. destruct (filter _ d1); [reflexivity|discriminate]. }
          assert (SK : forall kx, In kx d -> skipped (obj_names w cfg c) (fst kx) = false).
          { intros kx Hk. pose proof (List.find_none _ _ FD kx Hk) as Z. cbn in Z. rewrite FE in Z. exact Z. }
          destruct (proj1 (ren_known _ _ TB d) (conj SK Q') k x0 Hin) as [f Hf]. unfold field_of in NF. unfold fieldF, swapF in Hf.
          destruct k; try discriminate. congruence. }
        exists (match filter (fun s => negb (has_key d1 s)) (obj_required w cfg c) with
            | (_ :: _) as missing => XTL KValue (MMissing missing (TClass c)) [] (Some (VDict d1)) (Some (TClass c)) []
            | [] => if all_str extra then XTL KValue (MExtra extra (TClass c)) [] (Some (VDict d1)) (Some (TClass c)) [] else XRaw RType end).
        split.
        + intros call s2. rewrite (mangle_obj_data w cfg c v d call s2 DN OD PD), FD. unfold objloader. cbn [as_dict]. fold d1.
          destruct (filter (fun s => negb (has_key d1 s)) (obj_required w cfg c)); [|reflexivity]. fold extra. rewrite FE.
          destruct extra as [|a l]; [contradiction|]. cbn [List.length Nat.eqb negb andb]. destruct (all_str (a :: l)); reflexivity.
        + intro AS. destruct (filter (fun s => negb (has_key d1 s)) (obj_required w cfg c)); [|repeat eexists].
          assert (A : all_str extra = true).
          { apply forallb_forall. intros k' H. unfold extra in H. apply in_map_iff in H as [[k1 y] [<- H]]. cbn [fst].
            apply filter_In in H. destruct H as [H _]. unfold d1, ren in H. apply in_flat_map in H as [[k2 y2] [H2 H]].
            destruct (AS k2 y2 H2) as [n ->]. unfold ren1 in H. cbn [fst snd] in H.
            destruct (str_get n (obj_names w cfg c)); [destruct H as [[= <- _]|[]]; reflexivity|].
            destruct (mem_str n _); [destruct H|]. destruct H as [[= <- _]|[]]. reflexivity. }
          rewrite A. repeat eexists. }
    destruct H as [e [H1 H2]]. assert (L := fun s U => obj_stops c v s e U OC R H1). cbn [wrap] in L.
    destruct (is_tl e) eqn:TL.
    - exists (push_trace (v, TClass c, None) e). split; [exact L|]. intro AS. destruct (H2 AS) as [m [vv [tt [subs ->]]]]. cbn. repeat eexists.
    - exists (XRaw RAssert). split; [exact L|]. intro AS. destruct (H2 AS) as [m [vv [tt [subs ->]]]]. discriminate.
  Qed.

  (** *** Extra fields are ignored *)
  Lemma fields_loop_alike call fields hints t :
    forall d1 d2 v1 v2 acc, picked fields d1 = picked fields d2 ->
    malike (fields_loop cfg call fields hints v1 t d1 acc) (fields_loop cfg call fields hints v2 t d2 acc).
  Proof using.
    intros d1 d2 v1 v2 acc E.
    (* both loops are the loop on the picked items *)
    set (loop := fix loop (l : list (string * value)) (v : value) (acc : list (string * value)) : M (list (string * value)) :=
       match l with
       | [] => ret acc
       | (s0, x) :: l' =>
              match str_get s0 hints with
              | None => raise (XRaw RKey)
              | Some ft =>
                  bind (lookup_handler cfg (XTL KType (MCannotDeal ft) [] (Some v) (Some ft) []) ft) (fun h =>
                  bind (catch (call h x ft) (fun e => raise (push_trace (v, t, Some (AnField s0)) e))) (fun y =>
                  loop l' v (acc ++ [(s0, y)])))
              end
       end).
    assert (LP : forall d v acc s, fields_loop cfg call fields hints v t d acc s = loop (picked fields d) v acc s).
    { induction d as [|[k x] d IH]; intros v acc0 s; [reflexivity|]. cbn [fields_loop picked flat_map fst snd].
      change (flat_map _ d) with (picked fields d).
      destruct k; try (apply IH). destruct (mem_str s0 fields); [|apply IH]. cbn [app loop].
      destruct (str_get s0 hints) as [ft|]; [|reflexivity]. unfold bind.
      destruct (lookup_handler cfg _ ft s) as [[h|e|] s1]; try reflexivity.
      destruct (catch _ _ s1) as [[y|e|] s2]; try reflexivity. apply IH. }
    assert (LA : forall l v1 v2 acc, malike (loop l v1 acc) (loop l v2 acc)).
    { clear. induction l as [|[s0 x] l IH]; intros v1 v2 acc; cbn [loop]; [apply malike_refl|].
      destruct (str_get s0 hints) as [ft|]; [|apply malike_refl].
      apply malike_bind.
      - intro s. unfold lookup_handler. destruct (ty_get ft (st_index s)); [cbn; auto|].
        destruct (find_handler cfg ft) as [h|[]]; cbn; auto.
      - intro h. apply malike_bind; [|intro y; apply IH].
        apply malike_catch; [apply malike_refl|]. intros e1 e2 Q. apply malike_raise. apply same_push. exact Q. }
    intro s. rewrite !LP, E. apply LA.
  Qed.
  Lemma given_has c d f e : distinct_names w cfg c -> In (f, e) (obj_fields w cfg c) ->
     (has_key (ren (obj_names w cfg c) d) f = true <-> In f (map fst (given w cfg c d))).
  Proof using.
    intros DN Hin. pose proof (obj_table w cfg c DN) as TB. rewrite (ren_has _ _ TB d f e Hin).
    assert (SW : forall e0 f0, str_get e0 (map (fun fe => (snd fe, fst fe)) (obj_fields w cfg c)) = Some f0 <-> In (f0, e0) (obj_fields w cfg c))
      by (intros; apply (swapF_get _ _ TB)).
    unfold given. split; intro H.
    - apply in_map_iff in H as [[k x] [Q H]]. cbn in Q. subst k. apply in_map_iff. exists (f, x). split; [reflexivity|].
      apply in_flat_map. exists (VStr e, x). split; [exact H|]. cbn. apply SW in Hin. rewrite Hin. left. reflexivity.
    - apply in_map_iff in H as [[f' x] [Q H]]. cbn in Q. subst f'. apply in_flat_map in H as [[k y] [H1 H2]]. cbn [fst snd] in H2.
      unfold field_of in H2. destruct k; try destruct H2. destruct (str_get s _) as [f'|] eqn:E; [|destruct H2].
      destruct H2 as [[= -> ->]|[]]. apply SW in E.
      apply (str_get_NoDup _ _ _ (nt_py _ _ TB)) in E. apply (str_get_NoDup _ _ _ (nt_py _ _ TB)) in Hin.
      assert (s = e) by congruence. subst s. apply (in_map fst) in H1. exact H1.
  Qed.
  (** the result depends only on the data under the external names *)
  Lemma c08 c d1 d2 s :
    used w cfg s -> object_class w basic strcons c -> resolvable w cfg c -> distinct_names w cfg c ->
    required_are_fields w cfg c -> py_dict d1 -> py_dict d2 -> failonextra cfg = false ->
    given w cfg c d1 = given w cfg c d2 -> load_alike w cfg s (VDict d1) (VDict d2) (TClass c).
  Proof using Hstd Hwr.
    intros U OC R DN RF P1 P2 FE E. pose proof (obj_table w cfg c DN) as TB. apply obj_runs; try assumption. intros call s2.
    rewrite (mangle_obj_data w cfg c (VDict d1) d1 call s2 DN (or_introl eq_refl) P1).
    rewrite (mangle_obj_data w cfg c (VDict d2) d2 call s2 DN (or_introl eq_refl) P2).
    assert (FN : forall d, find (fun kx : value * value => failonextra cfg && skipped (obj_names w cfg c) (fst kx)) d = None).
    { rewrite FE. induction d; [reflexivity|assumption]. }
    rewrite !FN. unfold objloader. cbn [as_dict].
    assert (EM : filter (fun f => negb (has_key (ren (obj_names w cfg c) d1) f)) (obj_required w cfg c) =
                 filter (fun f => negb (has_key (ren (obj_names w cfg c) d2) f)) (obj_required w cfg c)).
    { apply filter_ext_in. intros f Hf. f_equal. specialize (RF f Hf). apply in_map_iff in RF as [[f' e] [Q Hin]]. cbn in Q. subst f'.
      pose proof (given_has c d1 f e DN Hin) as G1. pose proof (given_has c d2 f e DN Hin) as G2. rewrite E in G1.
      destruct (has_key (ren _ d1) f), (has_key (ren _ d2) f); try reflexivity; exfalso.
      - assert (false = true) by (apply G2; apply G1; reflexivity). discriminate.
      - assert (false = true) by (apply G1; apply G2; reflexivity). discriminate. }
    rewrite EM. destruct (filter (fun f => negb (has_key (ren (obj_names w cfg c) d2) f)) (obj_required w cfg c)); [|reflexivity].
    rewrite FE. cbn [andb].
    apply (malike_bind _ _ _ _ (fields_loop_alike call (map fst (obj_fields w cfg c)) (declared w p c) (TClass c)
        (ren (obj_names w cfg c) d1) (ren (obj_names w cfg c) d2) _ _ []
        ltac:(rewrite !(picked_ren _ _ _ TB); exact E)) (fun a => malike_refl _) s2).
  Qed.
  Lemma py_dict_filter f d : py_dict d -> py_dict (filter f d).
  Proof using.
    unfold py_dict. induction 1 as [|a l F P IH]; cbn; [constructor|]. destruct (f a); [|exact IH]. constructor; [|exact IH].
    rewrite Forall_forall in *. intros x Hx. apply filter_In in Hx. apply F. apply Hx.
  Qed.
  Lemma given_filter c f d :
    (forall k x, In (k, x) d -> f (k, x) = false -> field_of w cfg c k = None) ->
    given w cfg c (filter f d) = given w cfg c d.
  Proof using.
    unfold given. induction d as [|[k x] d IH]; intro H; [reflexivity|]. cbn [filter flat_map fst snd].
    destruct (f (k, x)) eqn:E.
    - cbn [flat_map fst snd]. rewrite IH; [reflexivity|]. intros k' x' Hin. apply H. right. exact Hin.
    - rewrite (H k x (or_introl eq_refl) E). cbn [app]. apply IH. intros k' x' Hin. apply H. right. exact Hin.
  Qed.
  (** dropping items which are not fields *)
  Lemma c08_drop c d keep s :
    used w cfg s -> object_class w basic strcons c -> resolvable w cfg c -> distinct_names w cfg c ->
    required_are_fields w cfg c -> py_dict d -> failonextra cfg = false ->
    (forall k x, In (k, x) d -> keep (k, x) = false -> field_of w cfg c k = None) ->
    load_alike w cfg s (VDict d) (VDict (filter keep d)) (TClass c).
  Proof using Hstd Hwr.
    intros U OC R DN RF PD FE H. apply c08; try assumption.
    - apply py_dict_filter. exact PD.
    - symmetry. apply given_filter. exact H.
  Qed.

  (** *** Namespace *)
  Lemma c37_object c a s :
    used w cfg s -> object_class w basic strcons c -> resolvable w cfg c -> distinct_names w cfg c ->
    dictequivalence cfg = true -> renames w cfg c = false ->
    load_alike w cfg s (VNamespace a) (VDict (map (fun kv => (VStr (fst kv), snd kv)) a)) (TClass c).
  Proof using Hstd Hwr.
    intros U OC R DN DE RN. apply obj_runs; try assumption. intros call s2.
    pose proof (proj2 (names_renames w cfg c DN) RN) as EN. unfold mangle_obj. rewrite EN. rewrite !bind_eq. cbn [mangle ret].
    unfold objloader. cbn [as_dict]. rewrite DE. apply same_outcome_refl.
  Qed.
  Lemma c37_object_off c a s :
    used w cfg s -> object_class w basic strcons c -> resolvable w cfg c ->
    dictequivalence cfg = false ->
    exists x, raises KAttr x /\ forall r, loads w cfg s (VNamespace a) (TClass c) r <-> r = x.
  Proof using Hstd Hwr.
    intros U OC R DE. eexists. split; [|apply (obj_stops c (VNamespace a) s (XTL KAttr (MPy RAttr) [] (Some (VNamespace a)) (Some (TClass c)) []) U OC R)].
    - cbn. repeat eexists.
    - intros call s2. unfold mangle_obj. rewrite bind_eq. unfold mangle. destruct (obj_names w cfg c); [|reflexivity].
      cbn [ret]. unfold objloader. cbn [as_dict]. rewrite DE. reflexivity.
  Qed.
  Lemma c37_renamed c a s :
    used w cfg s -> object_class w basic strcons c -> resolvable w cfg c -> distinct_names w cfg c ->
    renames w cfg c = true ->
    exists x, raises KAttr x /\ forall r, loads w cfg s (VNamespace a) (TClass c) r <-> r = x.
  Proof using Hstd Hwr.
    intros U OC R DN RN. eexists. split; [|apply (obj_stops c (VNamespace a) s (XTL KAttr (MPy RAttr) [] (Some (VNamespace a)) (Some (TClass c)) []) U OC R)].
    - cbn. repeat eexists.
    - intros call s2. unfold mangle_obj. rewrite bind_eq. unfold mangle. pose proof (names_renames w cfg c DN) as EN.
      destruct (obj_names w cfg c); [|reflexivity]. assert (renames w cfg c = false) by (apply EN; reflexivity). congruence.
  Qed.
  Lemma alike_body t h v1 v2 s :
    used w cfg s -> find_handler cfg t = POk h ->
    (forall call, malike (body w cfg call h v1 t) (body w cfg call h v2 t)) -> load_alike w cfg s v1 v2 t.
  Proof using.
    intros U F H. apply alike_runs. intro n. unfold load. rewrite !(load_enter_fst w cfg n _ t None s h (used_coh _ _ _ U) F).
    apply same_wrap. destruct n as [|n]; [exact I|]. cbn [run]. apply H.
  Qed.
  Lemma c37_dict n kt vt a s :
    used w cfg s -> dictequivalence cfg = true ->
    load_alike w cfg s (VNamespace a) (VDict (map (fun kv => (VStr (fst kv), snd kv)) a)) (TGen n ODict (Some [kt; vt])).
  Proof using Hstd.
    intros U DE. eapply alike_body; [exact U|apply (find_dict w basic strcons cfg Hstd)|]. intro call. cbn [body]. unfold dictload. cbn [ty_args].
    apply malike_bind.
    - intro s1. unfold lookup_handler. destruct (ty_get kt (st_index s1)); [cbn; auto|].
      destruct (find_handler cfg kt) as [h|[]]; cbn; auto.
    - intro kf0. apply malike_bind.
      + intro s1. destruct (ty_get vt (st_index s1)); [cbn; auto|]. destruct (find_handler cfg vt) as [h|[]]; cbn; auto.
      + intros [kf vf]. cbn [as_dict]. rewrite DE. apply malike_refl.
  Qed.
  Lemma c37_dict_off n kt vt a s :
    used w cfg s -> dictequivalence cfg = false -> supported cfg kt -> supported cfg vt ->
    exists x, raises KAttr x /\ forall r, loads w cfg s (VNamespace a) (TGen n ODict (Some [kt; vt])) r <-> r = x.
  Proof using Hstd.
    intros U DE Sk Sv. apply supported_find in Sk as [hk Fk]. apply supported_find in Sv as [hv Fv].
    pose proof (used_coh _ _ _ U) as C. set (t := TGen n ODict (Some [kt; vt])).
    pose proof (find_dict w basic strcons cfg Hstd n (Some [kt; vt])) as F. fold t in F.
    exists (wrap (VNamespace a) t None (Exc (XTL KAttr (MPy RAttr) [] (Some (VNamespace a)) (Some t) []))).
    split; [cbn; repeat eexists|]. apply loads_all; [discriminate|]. intro m.
    destruct (load_run w cfg (S m) (VNamespace a) t None s HDict C F) as [s' [C' E]]. unfold load. rewrite E. f_equal.
    cbn [run body]. unfold dictload, t. cbn [ty_args]. rewrite bind_eq. unfold lookup_handler.
    assert (X : exists s1 h, (match ty_get kt (st_index s') with
      | Some h => (Ok h, s')
      | None => match find_handler cfg kt with
          | POk h => (Ok h, set_index (cons (kt, h)) s')
          | PExc RValue => (Exc (XTL KValue (MCannotKey kt (TGen n ODict (Some [kt; vt]))) [] (Some (VNamespace a)) (Some kt) []), s')
          | PExc r => (Exc (XRaw r), s') end end) = (Ok h, s1)).
    { rewrite Fk. destruct (ty_get kt (st_index s')); eauto. }
    destruct X as [s1 [h X]]. rewrite X. rewrite bind_eq.
    destruct (ty_get vt (st_index s1)); [|rewrite Fv]; cbn [as_dict]; rewrite DE; reflexivity.
  Qed.
End ObjFacts.
