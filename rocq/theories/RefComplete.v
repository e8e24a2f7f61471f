(** * RefComplete: what the reference semantics gives, load returns (C44) *)

From Verif Require Import Loader Spec Inv Std Trace Hist Obs Enums Items Objects ObjFacts Scalars Transparent Reuse Facts2
  Properties1 Properties2 Properties3 RoundTrip RefSound.
From Verif Require Export Reference.

Section Complete.
  Variable w : world.
  Variables basic strcons : list cid.
  Variable cfg : config.
  Hypothesis Hstd : is_std w basic strcons cfg.
  Hypothesis Hwr : wf_reflect w.
  Variable env : string -> option ty.
  Variable s : lstate.
  Hypothesis Hu : used w cfg s.
  Hypothesis Hud : uniondebugconflict cfg = false.
  Notation p := (pep563 cfg).
  Notation gives := (gives w basic strcons cfg env (fun _ => False)).
  Notation steady := (steady w basic cfg env s).
  Notation loads := (loads w cfg s).
  Notation inside := inside.

  Lemma nc_sub v t x t' : no_choice w basic strcons cfg env v t -> inside v x -> reach w p env t t' ->
    no_choice w basic strcons cfg env x t'.
  Proof using.
    intros [H1 H2 H3] I R. constructor.
    - intros n args x0 t1 t2 r1 r2 R0 I0. apply (H1 n args); [eapply reach_trans; eassumption|eapply inside_trans; eassumption].
    - intros c ms hints x0 t1 t2 y1 y2 r1 r2 R0 I0. apply (H2 c ms hints); [eapply reach_trans; eassumption|eapply inside_trans; eassumption].
    - intros n kt vt c x0 R0 I0. apply (H3 n); [eapply reach_trans; eassumption|eapply inside_trans; eassumption].
  Qed.
  Lemma te_sub v t x t' : trials_end w basic cfg env s v t -> inside v x -> reach w p env t t' ->
    trials_end w basic cfg env s x t'.
  Proof using.
    intros [H1 H2] I R. constructor.
    - intros n args x0 R0 I0. apply (H1 n); [eapply reach_trans; eassumption|eapply inside_trans; eassumption].
    - intros c ms hints x0 t0 R0 I0. apply (H2 c); [eapply reach_trans; eassumption|eapply inside_trans; eassumption].
  Qed.
  Lemma wl_sub v t x t' : well_formed w basic strcons cfg env v t -> inside v x -> reach w p env t t' ->
    well_formed w basic strcons cfg env x t'.
  Proof using.
    intros [H1 H2 H3] I R. constructor.
    - intros c R0. apply H1. eapply reach_trans; eassumption.
    - intros y I0. apply H2. eapply inside_trans; eassumption.
    - intros y R0. apply H3. eapply reach_trans; eassumption.
  Qed.
  Record ok (v : value) (t : ty) : Prop := mkOk {
    ok_st : steady v t;
    ok_wl : well_formed w basic strcons cfg env v t;
    ok_nc : no_choice w basic strcons cfg env v t;
    ok_te : trials_end w basic cfg env s v t }.
  Lemma ok_sub v t x t' : ok v t -> inside v x -> component w p env t t' -> ok x t'.
  Proof using.
    intros [H1 H2 H3 H4] I C. assert (R : reach w p env t t') by (eapply rt1n_trans; [exact C|apply rt1n_refl]).
    constructor; [eapply steady_sub|eapply wl_sub|eapply nc_sub|eapply te_sub]; eassumption.
  Qed.

  Lemma comp_reach t t' : component w p env t t' -> reach w p env t t'.
  Proof using. intro C. eapply rt1n_trans; [exact C|apply rt1n_refl]. Qed.
  Lemma part_inside v x : part v x -> inside v x.
  Proof using. intro P. eapply rt1n_trans; [exact P|apply rt1n_refl]. Qed.
  Lemma given_part c v d f x : obj_data w cfg c v d -> In (f, x) (given w cfg c d) -> part v x.
  Proof using.
    intros OD I0. unfold given in I0. apply in_flat_map in I0 as [[k1 x1] [I1 I0]]. cbn [fst snd] in I0.
    destruct (field_of w cfg c k1); [|destruct I0]. destruct I0 as [[= <- <-]|[]]. eapply obj_data_part; eassumption.
  Qed.
  Lemma declared_comp c f t : str_get f (declared w p c) = Some t -> component w p env (TClass c) t.
  Proof using.
    intro G. unfold component, comps. apply in_or_app. left. apply str_get_In in G. apply (in_map snd) in G. exact G.
  Qed.

  (** ** Without the names and the types the loader happens to know *)
  Lemma gives_clean s' v t r : st_le s s' ->
    Reference.gives w basic strcons cfg (names_of s') (fun t => ~ seen s t) v t r -> steady v t -> gives v t r.
  Proof using Hstd.
    intros LE G. revert v t r G.
    apply (gives_mut w basic strcons cfg (names_of s') (fun t => ~ seen s t)
      (fun v t r => steady v t -> gives v t r) (fun v t r => steady v t -> Reference.reads w basic strcons cfg env (fun _ => False) v t r)).
    - intros St. apply gv_none.
    - intros v c B N T St. apply gv_same; assumption.
    - intros v c r B N T BC M St. apply gv_cast; assumption.
    - intros v St. apply gv_any.
    - intros v vals P St. apply gv_literal; assumption.
    - intros k n t rest v l ys r Su El L Hs Hg IH Co St.
      eapply gv_collection; try eassumption. intros x y I K. apply (IH x y I K).
      eapply component_steady; [exact St|destruct k; left; reflexivity|].
      apply part_inside. eapply part_item; [apply El|]. eapply in_combine_l; exact I.
    - intros n ts v l ys FS El Le Fe L Hg IH St. eapply gv_tuple; try eassumption. intros t x y I. apply (IH t x y I).
      eapply component_steady; [exact St|unfold component; cbn; eapply in_combine_l; exact I|].
      apply part_inside. eapply part_item; [apply El|]. apply in_combine_r in I. eapply in_combine_l; exact I.
    - intros n kt vt v d kvs SK SV DI L Hk IHk Hv IHv Hh St. eapply gv_dict; try eassumption; intros k x k' y I;
        destruct (dict_items_part cfg v d k x DI (in_combine_l _ _ _ _ I)) as [P1 P2].
      + apply (IHk k x k' y I). eapply component_steady; [exact St|left; reflexivity|apply part_inside; exact P1].
      + apply (IHv k x k' y I). eapply component_steady; [exact St|right; left; reflexivity|apply part_inside; exact P2].
    - intros v c d ps r OC Rs OD Rq Fe Mf Md Hg IH Cn St. eapply gv_object; try eassumption. intros f x y t I E. apply (IH f x y t I E).
      eapply component_steady; [exact St|eapply declared_comp; exact E|].
      apply part_inside. eapply given_part; [eassumption|]. eapply in_combine_l; exact I.
    - intros v c ms r E NB M St. eapply gv_enum; eassumption.
    - intros v c ms hints n t y r E NB NM Eh Ih Hg IH M St. eapply gv_enum_hint; try eassumption. apply IH.
      eapply component_steady; [exact St| |apply same_inside].
      unfold component, comps. apply in_or_app. right. rewrite E, Eh. apply (in_map snd) in Ih. exact Ih.
    - intros c x r I O E St. apply gv_iso; assumption.
    - intros c v l r I O N E1 E2 St. eapply gv_args; eassumption.
    - intros v r O E St. apply gv_timedelta; assumption.
    - intros v t r O E St. eapply gv_pattern; eassumption.
    - intros v c r I O Sp E St. apply gv_string; assumption.
    - intros v n t r Hg IH St. apply gv_newtype. apply IH. eapply component_steady; [exact St|left; reflexivity|apply same_inside].
    - intros v n t r En Hg IH St. destruct (sd_names _ _ _ _ _ _ _ St n (rt1n_refl _ _ _)) as [t' [E [fr [F1 F2]]]].
      assert (Q : names_of s' n = Some t').
      { unfold names_of. pose proof (le_frefs _ _ LE) as LF. rewrite F1 in LF. destruct (st_frefs s'); [|contradiction]. auto. }
      rewrite Q in En. injection En as <-. eapply gv_forward; [exact E|]. apply IH.
      eapply component_steady; [exact St|unfold component; cbn; rewrite E; left; reflexivity|apply same_inside].
    - intros v n args O St. apply gv_union_own. assumption.
    - intros v n args t r O I Hg IH St. eapply gv_union; try eassumption. apply IH. eapply component_steady; [exact St|exact I|apply same_inside].
    - intros n kt c v d kvs B Un SK DI L Hi Hh St.
      destruct (sd_dict _ _ _ _ _ _ _ St n kt (TClass c) (rt1n_refl _ _ _)) as [Q|[SiK [DK DV]]]; [contradiction|].
      assert (BV : in_classes basic (TClass c) = true) by (cbn; apply mem_cid_In; exact B).
      destruct DV as [Q|[NV [EV BK]]]; [congruence|]. destruct (DK BK) as [NK EK].
      destruct kt as [kc| | | | | | |]; try discriminate BK. cbn in BK. apply mem_cid_In in BK.
      assert (NC : kc <> CNone) by congruence.
      eapply gv_dict; try eassumption.
      + apply supported_find. exists HBasic. apply (find_basic w basic strcons cfg Hstd c B). congruence.
      + intros k x k' y I. destruct (Hi k x k' y I) as [_ [_ [Q|[[Q _]|[[_ [Q1 Q2]]|[_ [Q1 [Q2 Q3]]]]]]]].
        * apply rd_same. exact Q.
        * congruence.
        * apply rd_gives. subst k'. injection Q1 as Q1. apply gv_same; auto.
        * apply rd_gives. apply gv_cast; auto. congruence.
      + intros k x k' y I. destruct (Hi k x k' y I) as [Q1 [Q2 _]]. apply rd_same. split; [exact Q1|]. exists c. auto.
    - intros x t y A St. apply rd_same. exact A.
    - intros x t y Hg IH St. apply rd_gives. auto.
  Qed.
  Lemma reach_names s' v t t' : st_le s s' -> steady v t -> reach w p (names_of s') t t' -> reach w p env t t'.
  Proof using.
    intros LE St R. induction R as [t|t t1 t2 C R IH]; [apply rt1n_refl|].
    assert (C' : component w p env t t1).
    { unfold component, comps in *. destruct t as [ | | | |n| | | ]; try exact C.
      destruct (sd_names _ _ _ _ _ _ _ St _ (rt1n_refl _ _ _)) as [t' [E [fr [F1 F2]]]].
      assert (Q : names_of s' n = Some t').
      { unfold names_of. pose proof (le_frefs _ _ LE) as LF. rewrite F1 in LF. destruct (st_frefs s'); [|contradiction]. auto. }
      rewrite Q in C. rewrite E. exact C. }
    eapply rt1n_trans; [exact C'|]. apply IH. eapply component_steady; [exact St|exact C'|apply same_inside].
  Qed.
  Lemma ref_sound v t r : well_formed w basic strcons cfg env v t -> steady v t -> loads v t (Ok r) -> gives v t r.
  Proof using Hstd Hwr Hu.
    intros Wl St [N [n E]].
    assert (LE : st_le s (snd (load w cfg n v t s))) by (apply (gd_load_with w cfg (run w cfg n) ltac:(intros; apply gd_run) v t None s)).
    eapply gives_clean; [exact LE| |exact St].
    apply c43_sound with (s' := snd (load w cfg n v t s)); auto.
    - split; [discriminate|]. exists n. rewrite <- E. destruct (load w cfg n v t s); reflexivity.
    - intros c R. apply (wl_names _ _ _ _ _ _ _ Wl). eapply reach_names; eassumption.
    - intros x I. apply (wl_data _ _ _ _ _ _ _ Wl x I).
    - intros y R. apply (wl_calm _ _ _ _ _ _ _ Wl). eapply reach_names; eassumption.
  Qed.

  (** ** Completeness *)
  Lemma exact_basic c x y : gives x (TClass c) y -> In c basic -> type_of x = c -> y = x.
  Proof using.
    intros G B T. remember (TClass c) as t eqn:Et.
    destruct G as [ |v0 c0 B0 N0 T0|v0 c0 r0 B0 N0 T0 BC M| | |k n t rest v0 l ys r0 Su El L Hs Hg Co| | |v0 c0 d ps r0 OC| v0 c0 ms r0 E NB|v0 c0 ms h n t y0 r0 E NB|c0 x0 r0 I O|c0 v0 l r0 I O|v0 r0 O|v0 t0 r0 O|v0 c0 r0 I O| | | | | ];
      try discriminate Et; try (injection Et as Et; subst c); try reflexivity; try contradiction;
      try (destruct O as [NB _]; contradiction).
    - destruct k; discriminate Et.
    - destruct OC as [NB _]. contradiction.
    - destruct O as [[-> [NB _]]|[n [a ->]]]; [injection Et as <-; contradiction|discriminate Et].
  Qed.
  Lemma own_basic_dec args v : own_basic basic args v \/ ~ own_basic basic args v.
  Proof using.
    unfold own_basic. destruct (mem_cid (type_of v) basic) eqn:M.
    - apply mem_cid_In in M. destruct (mem_ty (TClass (type_of v)) args) eqn:M2.
      + apply mem_ty_In in M2. auto.
      + right. intros [_ Q]. apply mem_ty_In in Q. congruence.
    - right. intros [Q _]. apply mem_cid_In in Q. congruence.
  Qed.
  Lemma other_find c : other_class w basic c -> c <> CNone -> find_handler cfg (TClass c) =
      (if in_classes [CDate; CTime; CDatetime] (TClass c) then POk HDatetime else
       if is_pattern (TClass c) then POk HPattern else
       if ty_eqb (TClass c) (TClass CTimedelta) then POk HTimedelta else
       if in_classes strcons (TClass c) then POk HStrcons else if is_attrs w (TClass c) then POk HAttrs else PExc RValue).
  Proof using Hstd.
    intros [NB [E [K1 [K2 K3]]]] N. rewrite (find_std w basic strcons cfg _ Hstd). unfold chain.
    destruct (is_nonetype (TClass c)) eqn:Q; [apply ty_eqb_eq in Q; injection Q as Q; contradiction|].
    cbn [is_union in_classes is_enum is_tuple is_list is_dict is_set is_frozenset is_namedtuple is_dataclass is_forwardref is_literal is_typeddict is_any is_newtype].
    assert (M : mem_cid c basic = false) by (destruct (mem_cid c basic) eqn:M; [apply mem_cid_In in M; contradiction|reflexivity]).
    rewrite M, E, K1, K2, K3. reflexivity.
  Qed.
  Lemma loads_by h v t r : find_handler cfg t = POk h -> (forall call s', fst (body w cfg call h v t s') = Ok r) -> loads v t (Ok r).
  Proof using Hu.
    intros F B. change (Ok r) with (wrap v t None (Ok r)). apply loads_pure with (h := h); auto; [apply used_coh; exact Hu|discriminate].
  Qed.
  Lemma reads_item x t y : (kept w basic t x -> forall c, t = TClass c -> type_of x = c) ->
    (as_is w basic t x y \/ (gives x t y /\ loads x t (Ok y))) -> item_loads w basic cfg s t x y.
  Proof using.
    intros Ex [[-> K]|[G L]]; [left; auto|].
    destruct (kept_dec w basic t x) as [K|K]; [left|right; auto]. split; [exact K|].
    pose proof K as [c [-> [B _]]]. eapply exact_basic; eauto.
  Qed.

  (** the first annotation of the Enum which gives a member *)
  Lemma first_hint v c ms r : forall ts,
    (forall t, In t ts -> finishes w cfg s v t) ->
    (exists t, In t ts /\ hint_gives w cfg s v c ms t r) ->
    exists pre t post r', ts = pre ++ t :: post /\ (forall x, In x pre -> hint_fails w cfg s v c ms x) /\ hint_gives w cfg s v c ms t r'.
  Proof using.
    induction ts as [|t ts IH]; intros Fi [t0 [I0 G0]]; [destruct I0|].
    assert (D : (exists r', hint_gives w cfg s v c ms t r') \/ hint_fails w cfg s v c ms t).
    { destruct (Fi t (or_introl eq_refl)) as [r0 L0].
      assert (Dead : (forall y r', loads v t (Ok y) -> ~ member_for c ms y r') -> hint_fails w cfg s v c ms t).
      { intro Q. split; [exists r0; exact L0|]. intros r' [y [Ly M]]. eapply Q; eassumption. }
      destruct r0 as [y|e|].
      - destruct (enum_call c ms y) as [r'|k] eqn:E.
        + left. exists r', y. split; [exact L0|]. apply enum_call_member. exact E.
        + right. apply Dead. intros y' r' L' M. pose proof (loads_det _ _ _ _ _ _ _ L0 L') as Q. injection Q as <-.
          apply enum_call_member in M. congruence.
      - right. apply Dead. intros y r' L'. pose proof (loads_det _ _ _ _ _ _ _ L0 L'). discriminate.
      - destruct L0 as [Q _]. congruence. }
    destruct D as [[r' G]|Fl].
    - exists [], t, ts, r'. split; [reflexivity|]. split; [intros ? []|exact G].
    - destruct I0 as [->|I0]; [exfalso; eapply (proj2 Fl); exact G0|].
      destruct IH as [pre [t1 [post [r' [E [Hp G]]]]]]; [intros; apply Fi; right; assumption|eauto|].
      exists (t :: pre), t1, post, r'. rewrite E. split; [reflexivity|]. split; [|exact G]. intros z [<-|I]; auto.
  Qed.

  Lemma ref_complete v t r : gives v t r -> ok v t -> loads v t (Ok r).
  Proof using Hstd Hwr Hu Hud.
    revert v t r.
    apply (gives_mut w basic strcons cfg env (fun _ => False)
      (fun v t r => ok v t -> loads v t (Ok r))
      (fun v t r => ok v t -> as_is w basic t v r \/ (gives v t r /\ loads v t (Ok r)))).
    - intros St. apply (C05_none w basic strcons cfg Hstd s Hu). auto.
    - intros v c B N T St. split; [discriminate|]. exists 1. apply (basic_same w basic strcons cfg Hstd s (used_coh _ _ _ Hu)); assumption.
    - intros v c r B N T BC M St. apply loads_by with (h := HBasic); [apply (find_basic w basic strcons cfg Hstd c B N)|].
      intros call s'. cbn [body]. unfold basicload.
      assert (Ex : exact v (TClass c) = false) by (apply ty_eqb_neq; congruence). rewrite Ex, BC.
      apply makes_call in M. rewrite M. reflexivity.
    - intros v St. apply (C04_any w basic strcons cfg Hstd s Hu). reflexivity.
    - intros v vals P St. apply (C04_literal w basic strcons cfg Hstd s Hu). auto.
    - intros k n t rest v l ys r Su El L Hs Hg IH Co St.
      apply (collection_conv w basic strcons cfg Hstd Hwr env s v _ Hu (ok_st _ _ St) k n t rest eq_refl).
      split; [exact Su|]. split; [apply El|]. exists l, ys. split; [apply El|]. split; [|exact Co].
      apply combine_Forall2; [exact L|]. intros x y I.
      destruct (kept_dec w basic t x) as [K|K]; [left; split; [exact K|eauto]|right; split; [exact K|]].
      apply (IH x y I K). eapply ok_sub; [exact St| |destruct k; left; reflexivity].
      apply part_inside. eapply part_item; [apply El|]. eapply in_combine_l; exact I.
    - intros n ts v l ys FS El Le Fe L Hg IH St.
      apply (C09_fixed_tuple w basic strcons cfg Hstd Hwr env s v n ts Hu (ok_st _ _ St) FS). split; [apply El|].
      exists l, ys. split; [apply El|]. split; [exact Le|]. split; [exact Fe|]. split; [|reflexivity].
      assert (HT : forall t x y, In (t, (x, y)) (combine ts (combine l ys)) -> tuple_item_loads w basic cfg s t x y).
      { intros t x y I.
        assert (D : kept_exact basic t x \/ ~ kept_exact basic t x).
        { destruct t as [c| | | | | | |]; try (right; intros [c' [E _]]; discriminate).
          destruct (mem_cid c basic) eqn:M; [|right; intros [c' [[= <-] [J _]]]; apply mem_cid_In in J; congruence].
          apply mem_cid_In in M. destruct (cid_eqb (type_of x) c) eqn:Is; [apply cid_eqb_eq in Is; left; exists c; auto|].
          right; intros [c' [[= <-] [_ J]]]. apply cid_eqb_eq in J. congruence. }
        destruct D as [K|K]; [left; split; [exact K|]; destruct K as [c [-> [B T]]]; apply (exact_basic c); auto|right; split; [exact K|]].
        apply (IH t x y I). eapply ok_sub; [exact St| |unfold component; cbn; eapply in_combine_l; exact I].
        apply part_inside. eapply part_item; [apply El|]. apply in_combine_r in I. eapply in_combine_l; exact I. }
      clear - HT Le L. revert l ys Le L HT. induction ts as [|t ts IH]; intros [|x l] [|y ys] L1 L2 G; try discriminate; cbn [combine]; try constructor; try (cbn in L1; lia).
      + apply G. left. reflexivity.
      + apply IH; [cbn in L1; lia|cbn in L2; lia|]. intros t0 v0 x0 I. apply G. right. exact I.
    - intros n kt vt v d kvs SK SV DI L Hk IHk Hv IHv Hh St.
      apply (C39_dict w basic strcons cfg Hstd Hwr env s v n kt vt Hu (ok_st _ _ St)).
      { apply (wl_data _ _ _ _ _ _ _ (ok_wl _ _ St) v (rt1n_refl _ _ _)). }
      split; [exact SK|]. split; [exact SV|]. exists d, kvs. split; [exact DI|]. split; [|split; [|reflexivity]].
      + apply combine_Forall2; [exact L|]. intros [k x] [k' y] I. cbn [fst snd].
        destruct (dict_items_part cfg v d k x DI (in_combine_l _ _ _ _ I)) as [P1 P2]. split.
        * apply reads_item.
          -- intros [c0 [Q [B Is]]] c Ec. rewrite Q in Ec. injection Ec as <-.
             apply (nc_dict _ _ _ _ _ _ _ (ok_nc _ _ St) n kt vt c0 k (rt1n_refl _ _ _) (part_inside _ _ P1) B); auto.
          -- apply (IHk k x k' y I). eapply ok_sub; [exact St|apply part_inside; exact P1|left; reflexivity].
        * apply reads_item.
          -- intros [c0 [Q [B Is]]] c Ec. rewrite Q in Ec. injection Ec as <-.
             apply (nc_dict _ _ _ _ _ _ _ (ok_nc _ _ St) n kt vt c0 x (rt1n_refl _ _ _) (part_inside _ _ P2) B); auto.
          -- apply (IHv k x k' y I). eapply ok_sub; [exact St|apply part_inside; exact P2|right; left; reflexivity].
      + apply forallb_forall. intros [k y] I. cbn [fst]. apply Hh. apply (in_map fst) in I. exact I.
    - intros v c d ps r OC Rs OD Rq Fe Mf Md Hg IH Cn St.
      pose proof (wl_names _ _ _ _ _ _ _ (ok_wl _ _ St) c (rt1n_refl _ _ _) OC) as DN.
      destruct (wl_data _ _ _ _ _ _ _ (ok_wl _ _ St) v (rt1n_refl _ _ _)) as [[PD _] _].
      apply (C24_loads_iff w basic strcons cfg Hstd Hwr env s v c Hu (ok_st _ _ St) OC Rs DN PD).
      exists d. split; [exact OD|]. split; [exact Rq|]. split; [exact Fe|]. exists ps. split; [|exact Cn].
      assert (Ll : List.length (given w cfg c d) = List.length ps).
      { rewrite <- (map_length fst ps), Mf, map_length. reflexivity. }
      apply combine_Forall2; [exact Ll|]. intros [f x] [f' y] I.
      assert (f' = f).
      { clear - I Mf. revert ps Mf I. induction (given w cfg c d) as [|[f0 x0] g IHg]; intros [|[f1 y1] ps] E I; try contradiction; try discriminate.
        cbn in E. injection E as -> E. destruct I as [I|I]; [congruence|eauto]. }
      subst f'. split; [reflexivity|]. cbn [fst snd].
      destruct (Md f) as [t E]; [apply in_combine_r in I; apply (in_map fst) in I; exact I|].
      exists t. split; [exact E|]. apply (IH f x y t I E).
      eapply ok_sub; [exact St| |eapply declared_comp; exact E].
      apply part_inside. eapply given_part; [eassumption|]. eapply in_combine_l; exact I.
    - intros v c ms r E NB M St. apply (C34_value w basic strcons cfg Hstd s v c ms E NB Hu _ _ M). reflexivity.
    - intros v c ms hints n t y r E NB NM Eh Ih Hg IH M St.
      assert (Ht : forall t', In t' (map snd hints) -> component w p env (TClass c) t').
      { intros t' I. unfold component, comps. apply in_or_app. right. rewrite E, Eh. exact I. }
      pose proof (in_map snd _ _ Ih) as It. cbn [snd] in It.
      assert (L : loads v t (Ok y)) by (apply IH; eapply ok_sub; [exact St|apply same_inside|apply Ht; exact It]).
      destruct (first_hint v c ms r (map snd hints)) as [pre [t1 [post [r' [Eq [Hp [y1 [L1 M1]]]]]]]].
      { intros t' I. apply (te_enum _ _ _ _ _ _ _ (ok_te _ _ St) c ms hints v t' (rt1n_refl _ _ _) (rt1n_refl _ _ _) E NM Eh I). }
      { exists t. split; [exact It|]. exists y. auto. }
      assert (It1 : In t1 (map snd hints)) by (rewrite Eq; apply in_elt).
      assert (r' = r).
      { destruct (ty_eqb t1 t) eqn:Q.
        - apply ty_eqb_eq in Q. subst t1. pose proof (loads_det _ _ _ _ _ _ _ L L1) as Qy. injection Qy as <-.
          apply enum_call_member in M, M1. congruence.
        - apply ty_eqb_neq in Q.
          assert (O1 : ok v t1) by (eapply ok_sub; [exact St|apply same_inside|apply Ht; exact It1]).
          pose proof (ref_sound v t1 y1 (ok_wl _ _ O1) (ok_st _ _ O1) L1) as G1.
          apply (nc_enum _ _ _ _ _ _ _ (ok_nc _ _ St) c ms hints v t1 t y1 y r' r (rt1n_refl _ _ _) (rt1n_refl _ _ _) E NM Eh It1 It Q G1 M1 Hg M). }
      subst r'. apply (C34_hint w basic strcons cfg Hstd Hwr env s v c ms E NB Hu (ok_st _ _ St) hints Eh NM).
      exists pre, t1, post. split; [exact Eq|]. split; [exact Hp|]. exists y1. auto.
    - intros c x r I O E St. apply loads_by with (h := HDatetime).
      + rewrite (other_find c O) by (intros ->; cbn in I; intuition discriminate). cbn [in_classes].
        rewrite (proj2 (mem_cid_In _ _) I). reflexivity.
      + intros call s'. cbn [body]. unfold datetimeload. rewrite E. reflexivity.
    - intros c v l r I O N E1 E2 St. apply loads_by with (h := HDatetime).
      + rewrite (other_find c O) by (intros ->; cbn in I; intuition discriminate). cbn [in_classes].
        rewrite (proj2 (mem_cid_In _ _) I). reflexivity.
      + intros call s'. cbn [body]. unfold datetimeload. destruct v; try (rewrite E1, E2; reflexivity). exfalso. eapply N. reflexivity.
    - intros v r O E St. apply loads_by with (h := HTimedelta); [rewrite (other_find _ O) by discriminate; reflexivity|].
      intros call s'. cbn [body]. unfold timedeltaload. rewrite E. reflexivity.
    - intros v t r O E St. apply loads_by with (h := HPattern).
      + destruct O as [[-> O]|[n [a ->]]]; [rewrite (other_find _ O) by discriminate; reflexivity|].
        rewrite (find_std w basic strcons cfg _ Hstd). reflexivity.
      + intros call s'. cbn [body]. unfold patternload. rewrite E. reflexivity.
    - intros v c r I O Sp E St. apply loads_by with (h := HStrcons).
      + rewrite (other_find c O) by (intros ->; discriminate Sp). cbn [in_classes].
        rewrite (proj2 (mem_cid_In _ _) I). destruct c; try discriminate Sp; reflexivity.
      + intros call s'. cbn [body]. unfold strconsload, call_type. destruct O as [_ [Q _]]. rewrite Q, E. reflexivity.
    - intros v n t r Hg IH St.
      assert (O1 : ok v t) by (eapply ok_sub; [exact St|apply same_inside|left; reflexivity]).
      apply (C35_value w basic strcons cfg Hstd Hwr env s v n t Hu (ok_st _ _ O1)). auto.
    - intros v n t r En Hg IH St.
      assert (O1 : ok v t) by (eapply ok_sub; [exact St|apply same_inside|unfold component; cbn; rewrite En; left; reflexivity]).
      eapply forward_loads; try eassumption; [exact (ok_st _ _ St)|]. auto.
    - intros v n args O St. apply (C12_union_passthrough w basic strcons cfg Hstd s Hu); try apply O. reflexivity.
    - intros v n args t r O I Hg IH St.
      assert (Hm : forall t', In t' args -> ok v t') by (intros t' I'; eapply ok_sub; [exact St|apply same_inside|exact I']).
      pose proof (IH (Hm t I)) as L.
      destruct (te_union _ _ _ _ _ _ _ (ok_te _ _ St) n args v (rt1n_refl _ _ _) (rt1n_refl _ _ _) O) as [Tg Se].
      destruct (C14_accepts w basic strcons cfg Hstd Hwr env s v n args Hu (ok_st _ _ St) Hud Tg Se) as [r' Lr].
      { exists t. split; [exact I|exists r; exact L]. }
      destruct (C13_member w basic strcons cfg Hstd Hwr env s v n args Hu (ok_st _ _ St) r' Lr) as [[OB _]|[t' [I' [L' _]]]]; [contradiction|].
      assert (r' = r); [|subst r'; exact Lr].
      destruct (ty_eqb t' t) eqn:Q.
      + apply ty_eqb_eq in Q. subst t'. pose proof (loads_det _ _ _ _ _ _ _ L L'). congruence.
      + apply ty_eqb_neq in Q. pose proof (ref_sound v t' r' (ok_wl _ _ (Hm t' I')) (ok_st _ _ (Hm t' I')) L') as G'.
        apply (nc_union _ _ _ _ _ _ _ (ok_nc _ _ St) n args v t' t r' r (rt1n_refl _ _ _) (rt1n_refl _ _ _) O I' I Q G' Hg).
    - intros n kt c v d kvs B [].
    - intros x t y A St. left. exact A.
    - intros x t y Hg IH St. right. auto.
  Qed.
End Complete.
