(** * FirstRest: what comes after the first bad field of an object does not matter (C75) *)

From Verif Require Import Loader Spec Vocab Inv Std Sound Fuel Obs Scalars Simple Transparent Hist Eval Items Tuples Objects First.

Section FirstRest.
  Variable w : world.
  Variables basic strcons : list cid.
  Variable cfg : config.
  Hypothesis Hstd : is_std w basic strcons cfg.
  Hypothesis Hwr : wf_reflect w.
  Variable env : string -> option ty.
  Notation p := (pep563 cfg).
  Variable s : lstate.
  Variable V : value.
  Variable T : ty.
  Hypothesis Us : used w cfg s.
  Hypothesis St : steady w basic cfg env s V T.
  Notation G := (reach w p env T).
  Notation Vok := (inside V).
  Notation SETTLED := (settled w cfg env (reach w p env T) (seen s)).
  Notation conv := (conv w cfg env s T).
  Notation regular := (regular w cfg env s T).
  Notation calls := (calls w cfg env s T).
  Notation loads := (loads w cfg s).


  Local Notation field_loads := (field_loads w cfg s).
  Lemma fields_raises fields hints v t d f x ft k1 m1 tr1 ve1 te1 subs1 :
    (forall k x, In (k, x) d -> Vok x) -> (forall k ft, In (k, ft) hints -> G ft) ->
    str_get f hints = Some ft -> supported cfg ft -> loads x ft (Exc (XTL k1 m1 ((x, ft, None) :: tr1) ve1 te1 subs1)) ->
    forall g1 g2 ps, (forall f x, In (f, x) g1 -> exists ft, str_get f hints = Some ft /\ supported cfg ft) ->
    picked fields d = g1 ++ (f, x) :: g2 -> Forall2 (field_loads hints) g1 ps ->
    forall acc, conv (fun m => fields_loop cfg (run w cfg m) fields hints v t d acc) (Exc (XTL k1 m1 ((v, t, Some (AnField f)) :: tr1) ve1 te1 subs1)).
  Proof using Hstd Hwr Us St.
    intros HV HG Ef Supf Lf. induction d as [|[k y] d IH]; intros g1 g2 ps SG Eg F2 acc; [destruct g1; discriminate|].
    assert (HV' : forall k x, In (k, x) d -> Vok x) by (intros k' x' H; eapply HV; right; exact H).
    cbn [picked flat_map fst snd] in Eg. change (flat_map _ d) with (picked fields d) in Eg.
    cbn [fields_loop].
    destruct k; try (eapply IH; eassumption). rename s0 into k0. destruct (mem_str k0 fields); [|eapply IH; eassumption].
    cbn [app] in Eg. assert (Vy : Vok y) by (eapply HV; left; reflexivity).
    assert (X : exists ft', str_get k0 hints = Some ft' /\ supported cfg ft').
    { destruct g1 as [|q g1]; cbn [app] in Eg; injection Eg as E1 E2.
      - subst. eauto.
      - subst q. apply (SG k0 y). left. reflexivity. }
    destruct X as [ft' [E Sup]]. rewrite E. assert (Gf : G ft') by (eapply HG; apply str_get_In; exact E).
    apply supported_find in Sup as [h Fh].
    assert (RH : regular (fun m => run w cfg m h y ft')) by (apply (regular_call w basic strcons cfg Hstd Hwr env s V T St h y ft' Gf Vy Fh)).
    assert (RC : regular (fun m => catch (run w cfg m h y ft') (fun e => raise (push_trace (v, t, Some (AnField k0)) e)))).
    { apply (regular_catch w basic cfg env s V T Us St (fun m => run w cfg m h y ft') (fun e _ => raise (push_trace (v, t, Some (AnField k0)) e)));
      [exact RH|intros; apply regular_raise]. }
    assert (RF : forall a, regular (fun m => fields_loop cfg (run w cfg m) fields hints v t d a)).
    { intro a. apply (regular_fields_loop w basic strcons cfg Hstd Hwr env s V T Us St); assumption. }
    rewrite (conv_found w basic cfg env s V T Us St _ ft' _ h
          (fun h m => bind (catch (run w cfg m h y ft') (fun e => raise (push_trace (v, t, Some (AnField k0)) e)))
             (fun z => fields_loop cfg (run w cfg m) fields hints v t d (acc ++ [(k0, z)]))) _
          (finds_lookup w cfg env G (seen s) _ ft') Fh).
    2: { apply (regular_bind w basic cfg env s V T Us St _ (fun z m => fields_loop cfg (run w cfg m) fields hints v t d (acc ++ [(k0, z)])) RC).
         intros; apply RF. }
    rewrite (conv_bind w basic cfg env s V T Us St _ (fun z m => fields_loop cfg (run w cfg m) fields hints v t d (acc ++ [(k0, z)])) _ RC).
    2: { intros; apply RF. }
    assert (CC := fun r => conv_catch w basic cfg env s V T Us St (fun m => run w cfg m h y ft') (fun e _ => raise (push_trace (v, t, Some (AnField k0)) e)) r
      RH (fun e' _ => regular_raise w cfg env s T (push_trace (v, t, Some (AnField k0)) e'))).
    destruct g1 as [|q g1]; cbn [app] in Eg; injection Eg as E1 E2.
    - subst k0 y. assert (ft' = ft) by congruence. subst ft'. right. eexists. split; [|reflexivity]. apply CC. right.
      apply (loads_exc_calls w basic strcons cfg Hstd Hwr env s V T Us St x ft h _ _ _ _ _ _ Gf Vy Fh) in Lf as [tr' [Q C]]. injection Q as <-.
      eexists. split; [exact C|]. apply (conv_raise w basic cfg env s V T Us St). reflexivity.
    - subst q. inversion F2 as [|? y0 ? ps' L0 F2' E3 E4]. subst ps. destruct L0 as [_ [ft2 [E5 L0]]]. cbn [fst snd] in *.
      assert (ft2 = ft') by congruence. subst ft2. left. exists (snd y0). split.
      + apply CC. left. exists (snd y0). split; [|reflexivity].
        apply (loads_ok_calls w basic strcons cfg Hstd Hwr env s V T Us St y ft' h _ Gf Vy Fh). exact L0.
      + apply (IH HV' g1 g2 ps' (fun f' x' H => SG f' x' (or_intror H)) E2 F2').
  Qed.

  Lemma object_raises c d g1 fb xb g2 psb ftb kb mb tr1 ve1 te1 subs1 :
    T = TClass c -> object_class w basic strcons c -> resolvable w cfg c -> distinct_names w cfg c -> proper_data V ->
    obj_data w cfg c V d ->
    (forall n, In n (required_names w cfg c) -> In (VStr n) (map fst d)) ->
    (failonextra cfg = true -> forall k x, In (k, x) d -> exists f, field_of w cfg c k = Some f) ->
    (forall f x, In (f, x) g1 -> exists ft, str_get f (declared w p c) = Some ft /\ supported cfg ft) ->
    given w cfg c d = g1 ++ (fb, xb) :: g2 -> Forall2 (field_loads (declared w p c)) g1 psb ->
    str_get fb (declared w p c) = Some ftb -> supported cfg ftb -> loads xb ftb (Exc (XTL kb mb ((xb, ftb, None) :: tr1) ve1 te1 subs1)) ->
    loads V T (Exc (XTL kb mb ((V, T, None) :: (VDict (ren (obj_names w cfg c) d), T, Some (AnField fb)) :: tr1) ve1 te1 subs1)).
  Proof using Hstd Hwr Us St.
    intros ET OC R DN PV OD HN HX SG1 Eg F2 E Sup L.
    assert (GT : G (TClass c)) by (rewrite <- ET; apply reach_refl).
    assert (K : exists k, kind_of_class w c = Some k).
    { destruct OC as [_ [_ OC]]. destruct (kind_of_class w c); [eauto|contradiction]. }
    destruct K as [k Hk]. pose proof (find_object w basic strcons cfg Hstd Hwr c k OC Hk) as Fh.
    pose proof (obj_table w cfg c DN) as TB.
    pose proof (proper_data_dict w cfg c V d PV OD) as PD.
    assert (HV : forall k0 x, In (k0, x) (ren (obj_names w cfg c) d) -> Vok x).
    { intros k0 x H. apply ren_values in H as [k1 H]. eapply inside_step; [apply inside_refl|]. eapply obj_data_part; eassumption. }
    assert (HG : forall k0 ft, In (k0, ft) (declared w p c) -> G ft).
    { intros k0 ft H. eapply reach_step; [exact GT|]. unfold component, comps. apply in_or_app. left. apply (in_map snd) in H. exact H. }
    pose proof (ren_known _ _ TB d) as RK.
    assert (X : find (fun kx => failonextra cfg && skipped (obj_names w cfg c) (fst kx)) d = None /\
      (failonextra cfg = true -> filter (fun kv => negb (key_in (map fst (obj_fields w cfg c)) kv)) (ren (obj_names w cfg c) d) = [])).
    { destruct (failonextra cfg).
      - destruct (proj2 RK (HX eq_refl)) as [A B]. split; [|intros _; exact B]. clear -A.
        induction d as [|a d IH]; cbn; [reflexivity|]. rewrite (A a) by (left; reflexivity). apply IH. intros kx Hk'. apply A. right. exact Hk'.
      - split; [|discriminate]. clear. induction d as [|a d IH]; [reflexivity|exact IH]. }
    destruct X as [X1 X2]. pose proof (proj2 (required_ren w cfg c d DN) HN) as HN'.
    set (LOOP := fun m => fields_loop cfg (run w cfg m) (map fst (obj_fields w cfg c)) (declared w p c)
                  (VDict (ren (obj_names w cfg c) d)) (TClass c) (ren (obj_names w cfg c) d) []).
    set (CTOR := fun (params : list (string * value)) (_ : nat) => (match construct w (TClass c) params with
              | POk r => ret r
              | PExc RType => raise (XTL KType (MCtor RType) [] None None [])
              | PExc RValue => raise (XTL KValue (MCtor RValue) [] None None [])
              | PExc r => raise (XRaw r)
              end : M value)).
    assert (EQ : forall m s1, mangle_obj w cfg (run w cfg m) c V s1 = bind (LOOP m) (fun ps => CTOR ps m) s1).
    { intros m s1. rewrite (mangle_obj_data w cfg c V d _ s1 DN OD PD), X1. unfold objloader. cbn [as_dict].
      assert (E1 : filter (fun f => negb (has_key (ren (obj_names w cfg c) d) f)) (obj_required w cfg c) = []).
      { apply filter_nil. intros f Hf. rewrite (HN' f Hf). reflexivity. }
      rewrite E1. destruct (failonextra cfg); [|reflexivity]. rewrite (X2 eq_refl). reflexivity. }
    assert (RL : regular LOOP) by (apply (regular_fields_loop w basic strcons cfg Hstd Hwr env s V T Us St); assumption).
    assert (RT : forall ps, regular (CTOR ps)).
    { intro ps. unfold CTOR. destruct (construct w (TClass c) ps) as [x|[]]; try apply regular_ret; apply regular_raise. }
    assert (RG : regular (fun m => mangle_obj w cfg (run w cfg m) c V)).
    { eapply regular_ext; [intros m s1; symmetry; apply EQ|].
      exact (regular_bind w basic cfg env s V T Us St LOOP CTOR RL (fun ps _ => RT ps)). }
    assert (PK : picked (map fst (obj_fields w cfg c)) (ren (obj_names w cfg c) d) = given w cfg c d) by exact (picked_ren _ _ d TB).
    rewrite ET. rewrite (loads_calls w basic strcons cfg Hstd Hwr env s V T Us St V (TClass c) _ _ GT (V_refl _) Fh).
    exists (Exc (XTL kb mb ((VDict (ren (obj_names w cfg c) d), TClass c, Some (AnField fb)) :: tr1) ve1 te1 subs1)). split; [|reflexivity].
    apply (conv_in_obj w basic strcons cfg Hstd Hwr env s V T Us St c k _ ET OC Hk R RG).
    apply (conv_ext w cfg env s T _ _ _ EQ).
    apply (conv_bind w basic cfg env s V T Us St LOOP CTOR _ RL (fun ps _ => RT ps)).
    right. eexists. split; [|reflexivity].
    apply (fields_raises _ _ _ _ _ fb xb ftb kb mb tr1 ve1 te1 subs1 HV HG E Sup L g1 g2 psb SG1); [rewrite PK; exact Eg|exact F2].
  Qed.
End FirstRest.
