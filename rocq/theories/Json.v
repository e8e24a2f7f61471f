(** * Json: with basiccast=False JSON data is returned unchanged (towards C03) *)

From Verif Require Import Loader Spec Inv Std Trace Hist Objects Facts4 Facts5 Stops.
From Verif Require Export Vocab.

Section Json.
  Variable w : world.
  Variables basic strcons : list cid.
  Variable cfg : config.
  Hypothesis Hstd : is_std w basic strcons cfg.
  Hypothesis Hcast : basiccast cfg = false.
  Variables S0 SF : lstate.
  Notation p := (pep563 cfg).
  Notation env := (names_of SF).
  Notation reach := (reach w p env).
  Notation gd := (gd w cfg).
  Notation hx := (hx w cfg S0 SF).

  Record safe (v : value) (t : ty) : Prop := mkSafe {
    sf_type : forall t', reach t t' -> json_type basic t';
    sf_data : forall x, inside v x -> proper_data x;
    sf_conv : ~ converts basic env v t
  }.
  Lemma safe_comp v t t' : safe v t -> component w p env t t' -> (converts basic env v t' -> converts basic env v t) -> safe v t'.
  Proof using.
    intros [H1 H2 H3] C H. split; [|exact H2|auto]. intros t2 R. apply H1. eapply rt1n_trans; eassumption.
  Qed.
  Lemma safe_part v t x t' : safe v t -> component w p env t t' -> part v x ->
    (converts basic env x t' -> converts basic env v t) -> safe x t'.
  Proof using.
    intros [H1 H2 H3] C P H. split; [|intros y I; apply H2; econstructor; eassumption|auto].
    intros t2 R. apply H1. eapply rt1n_trans; eassumption.
  Qed.

  Notation same v := (fun r => r = v).
  Notation anye := NS.
  Variable call : handler -> value -> ty -> M value.
  Hypothesis Gcall : forall h v t, gd (call h v t).
  Hint Resolve Gcall : core.
  Hint Resolve Gcall : gddb.
  Hypothesis Hcall : forall h v t, safe v t -> find_handler cfg t = POk h -> hx (call h v t) (same v) anye.
  Hypothesis Hkey : forall h v t, h = HBasic \/ h = HNone -> hx (call h v t) (same v) anye.

  Lemma js_raise {A} e (Q : A -> Prop) : NS e -> hx (raise e) Q anye.
  Proof using. intro H. apply hx_raise. exact H. Qed.
Ltac js_r := first [apply js_raise; first [discriminate|assumption]|apply hx_raise; exact I].
  Lemma js_lookup nf t : NS nf -> hx (lookup_handler cfg nf t) (fun h => find_handler cfg t = POk h) anye.
  Proof using Hstd. intro N. eapply hx_weak; [apply (hx_lookup w basic strcons cfg Hstd)|auto|]. intros e [-> _]. exact N. Qed.

  Lemma js_load_with v t a : safe v t -> hx (load_with w cfg call v t a) (same v) anye.
  Proof using Hstd Hcall Gcall.
    intro Sf. unfold load_with. apply hx_bind with (Q1 := fun h => find_handler cfg t = POk h).
    - intro s. destruct (ty_get t (st_index s)) eqn:E; [apply good_refl|].
      destruct (find_handler cfg t) as [h|[]] eqn:F; cbn [snd]; try apply good_refl.
      eapply good_trans; [apply (good_index w cfg s t h E F)|apply good_reg].
    - intro h. gd_auto.
    - intros s C _. destruct (ty_get t (st_index s)) eqn:E; cbn [fst].
      + apply (coh_index _ _ _ (proj1 C)). exact E.
      + destruct (find_handler cfg t) as [h|r] eqn:F; [cbn [fst]; auto|]. assert (r = RValue) as -> by (eapply std_exc; eassumption). discriminate.
    - intros h F. eapply hx_catch; [apply Gcall|intro; gd_auto|exact (Hcall h v t Sf F)|].
      intros e N. destruct e; cbn [is_tl]; js_r.
  Qed.

  (** ** Dict *)
  Lemma py_dict_app pre k x post : py_dict (pre ++ (k, x) :: post) -> forall k' x', In (k', x') pre -> py_eqb k k' = false.
  Proof using.
    unfold py_dict. induction pre as [|[k0 x0] pre IH]; cbn; intros H k' x' []; inversion H as [|a l F G]; subst.
    - injection H0 as -> ->. rewrite Forall_forall in F. apply (F (k, x)). apply in_or_app. right. left. reflexivity.
    - eapply IH; eassumption.
  Qed.
  Lemma js_dict_fast kt vt kf vf d0 :
    (forall k x, In (k, x) d0 -> safe k kt /\ safe x vt) -> py_dict d0 ->
    (forall k, safe k kt -> hx (call kf k kt) (same k) anye) \/ (vf = None /\ basicb cfg vt = false) ->
    (forall h, vf = Some h -> find_handler cfg vt = POk h) ->
    forall d acc, d0 = acc ++ d ->
    hx (dict_fast w cfg call kt vt kf vf d acc) (same (VDict d0)) yes.
  Proof using Hcall Gcall.
    intros Hd Pd Hk Hv d. induction d as [|[k x] d IH]; intros acc Q; cbn [dict_fast].
    { apply hx_ret. rewrite Q, app_nil_r. reflexivity. }
    assert (I0 : In (k, x) d0) by (rewrite Q; apply in_or_app; right; left; reflexivity).
    destruct (Hd k x I0) as [Sk Sx].
    destruct Hk as [Hk|[-> B]].
    - eapply hx_bind with (Q1 := same k); [gd_auto|intro; gd_auto| |].
      { destruct (_ && _); [apply hx_ret; reflexivity|eapply hx_weak; [apply Hk; exact Sk|auto|auto]]. }
      intros k' ->. eapply hx_bind with (Q1 := same x); [gd_auto|intro; gd_auto| |].
      { destruct (_ && _); [apply hx_ret; reflexivity|]. destruct vf as [h|]; [|js_r]. eapply hx_weak; [apply Hcall; auto|auto|auto]. }
      intros x' ->. destruct (hashable w k); [|js_r].
      assert (New : dict_set k x acc = acc ++ [(k, x)]).
      { apply dict_set_new. intros k' x' I'. rewrite Q in Pd. eapply py_dict_app; eassumption. }
      rewrite New. apply IH. rewrite <- app_assoc. exact Q.
    - eapply hx_bind with (Q1 := fun _ => True); [gd_auto|intro; gd_auto|eapply hx_weak; [apply hx_any|auto|auto]|].
      intros k' _. rewrite B. cbn [andb]. eapply hx_bind with (Q1 := fun _ => False); [gd_auto|intro; gd_auto|js_r|intros a []].
  Qed.
  Lemma js_dict_slow kt vt d0 :
    (forall k x, In (k, x) d0 -> safe k kt /\ safe x vt) -> py_dict d0 ->
    forall d acc, d0 = acc ++ d ->
    hx (dict_slow w cfg call kt vt d acc) (same (VDict d0)) anye.
  Proof using Hstd Hcall Gcall.
    intros Hd Pd d. induction d as [|[k x] d IH]; intros acc Q; cbn [dict_slow].
    { apply hx_ret. rewrite Q, app_nil_r. reflexivity. }
    assert (I0 : In (k, x) d0) by (rewrite Q; apply in_or_app; right; left; reflexivity).
    destruct (Hd k x I0) as [Sk Sx].
    eapply hx_bind with (Q1 := same k); [gd_auto|intro; gd_auto|apply js_load_with; exact Sk|].
    intros k' ->. eapply hx_bind with (Q1 := same x); [gd_auto|intro; gd_auto|apply js_load_with; exact Sx|].
    intros x' ->. destruct (hashable w k); [|js_r].
    assert (New : dict_set k x acc = acc ++ [(k, x)]).
    { apply dict_set_new. intros k' x' I'. rewrite Q in Pd. eapply py_dict_app; eassumption. }
    rewrite New. apply IH. rewrite <- app_assoc. exact Q.
  Qed.

  Lemma js_dictload v n args : safe v (TGen n ODict args) -> hx (dictload w cfg call v (TGen n ODict args)) (same v) anye.
  Proof using Hstd Hcall Hkey Gcall.
    intro Sf. unfold dictload. cbn [ty_args].
    destruct args as [[|kt [|vt [|? ?]]]|]; try js_r.
    assert (Gl : gd (fun s => match ty_get vt (st_index s) with
             | Some h => (@Ok (handler * option handler) (HNone, Some h), s)
             | None => match find_handler cfg vt with
                 | POk h => (Ok (h, None), set_index (cons (vt, h)) s)
                 | PExc RValue => (Exc (XTL KValue (MCannotVal vt (TGen n ODict (Some [kt; vt]))) [] (Some v) (Some vt) []), s)
                 | PExc r => (Exc (XRaw r), s)
                 end
             end)).
    { intro s. destruct (ty_get vt (st_index s)) eqn:E; [apply good_refl|].
      destruct (find_handler cfg vt) as [h|[]] eqn:F; cbn [snd]; try apply good_refl. apply good_index; assumption. }
    assert (Gl2 : forall kf0, gd (fun s => match ty_get vt (st_index s) with
             | Some h => (@Ok (handler * option handler) (kf0, Some h), s)
             | None => match find_handler cfg vt with
                 | POk h => (Ok (h, None), set_index (cons (vt, h)) s)
                 | PExc RValue => (Exc (XTL KValue (MCannotVal vt (TGen n ODict (Some [kt; vt]))) [] (Some v) (Some vt) []), s)
                 | PExc r => (Exc (XRaw r), s)
                 end
             end)).
    { intros kf0 s. destruct (ty_get vt (st_index s)) eqn:E; [apply good_refl|].
      destruct (find_handler cfg vt) as [h|[]] eqn:F; cbn [snd]; try apply good_refl. apply good_index; assumption. }
    clear Gl. eapply hx_bind; [auto with gddb| |apply js_lookup; discriminate|].
    { intro kf0. apply gd_bind; [apply Gl2|intros [kf vf]; gd_auto]. }
    intros kf0 F0. cbv beta in F0.
    apply hx_bind with (Q1 := fun kv =>
      (find_handler cfg kt = POk (fst kv) \/ snd kv = None /\ find_handler cfg vt = POk (fst kv)) /\
      (forall h, snd kv = Some h -> find_handler cfg vt = POk h)).
    - apply Gl2.
    - intros [kf vf]. gd_auto.
    - intros s C _. destruct (ty_get vt (st_index s)) as [h|] eqn:E; cbn [fst snd].
      + split; [left; exact F0|]. intros h' [= <-]. apply (coh_index _ _ _ (proj1 C)). exact E.
      + destruct (find_handler cfg vt) as [h|r] eqn:F; cbn [fst snd]; [split; [right; auto|discriminate]|]. assert (r = RValue) as -> by (eapply std_exc; eassumption). discriminate.
    - intros [kf vf] [HF Hv]. cbn [fst snd] in HF, Hv. cbv zeta.
      destruct v as [| | | | | | | | | |d|a| | | |]; cbn [as_dict];
        try (apply hx_catch with (E1 := anye); [gd_auto|intro; gd_auto|js_r|];
             intros e _; apply hx_catch with (E1 := anye); [gd_auto|intro; gd_auto|js_r|];
             intros [[] ? ? ? ? ?|[]] N9; js_r).
      2: { exfalso. apply (sf_conv _ _ Sf). apply cv_namespace. }
      assert (Hd : forall k x, In (k, x) d -> safe k kt /\ safe x vt).
      { intros k x I0. split.
        - eapply (safe_part (VDict d)); [exact Sf|left; reflexivity|eapply part_item; [reflexivity|apply (in_map fst) in I0; exact I0]|].
          intro Cv. eapply cv_key; eassumption.
        - eapply (safe_part (VDict d)); [exact Sf|right; left; reflexivity|eapply part_value; exact I0|].
          intro Cv. eapply cv_value; eassumption. }
      assert (Pd : py_dict d) by (apply (sf_data _ _ Sf (VDict d)); constructor).
      apply hx_catch with (E1 := yes); [gd_auto|intro; gd_auto| |].
      + apply js_dict_fast; auto. destruct HF as [F|[-> F]]; [left; intros k Sk; apply Hcall; auto|].
        destruct (basicb cfg vt) eqn:B; [|right; auto]. left. intros k _. apply Hkey.
        pose proof (std_selected w basic strcons cfg vt kf Hstd F) as Sel.
        unfold basicb in B. rewrite (proj2 Hstd) in B. destruct vt as [c| | | | | | |]; try discriminate.
        cbn in B. rewrite (find_std w basic strcons cfg (TClass c) Hstd) in F. unfold chain in F.
        destruct (is_nonetype (TClass c)); [injection F as <-; auto|]. cbn [is_union in_classes] in F. rewrite B in F. injection F as <-. auto.
      + intros e _. apply hx_catch with (E1 := anye); [gd_auto|intro; gd_auto|apply js_dict_slow; auto|].
        intros [[] ? ? ? ? ?|[]] N9; js_r.
  Qed.

  (** ** List *)
  Lemma js_iter_item h et x : safe x et -> find_handler cfg et = POk h -> hx (iter_item w cfg call h et x) (same x) anye.
  Proof using Hcall.
    intros Sf F. unfold iter_item.
    assert (R : hx (ret x) (same x) anye) by (apply hx_ret; reflexivity).
    pose proof (Hcall h x et Sf F) as C.
    destruct (basicb cfg et); [destruct (isinst w x et); assumption|].
    destruct et as [|n o [us|]| | | | | | ]; try exact C; destruct o; try exact C.
    destruct (_ && _); assumption.
  Qed.
  Lemma js_iter_loop h et v t l0 :
    (forall x, In x l0 -> safe x et) -> find_handler cfg et = POk h ->
    forall l i acc, l0 = acc ++ l ->
    hx (iter_loop w KoList (mapped cfg et) (iter_item w cfg call h et) v t l i acc) (same (VList l0)) anye.
  Proof using Hcall Gcall.
    intros Hl F l. induction l as [|x l IH]; intros i acc Q; cbn [iter_loop].
    { apply hx_ret. rewrite Q, app_nil_r. reflexivity. }
    assert (I0 : In x l0) by (rewrite Q; apply in_or_app; right; left; reflexivity).
    eapply hx_bind; [gd_auto|intros [|e0]; [gd_auto|destruct (stops _ e0); gd_auto]| |].
    { apply hx_attempt with (Q := fun acc' => acc' = acc ++ [x]) (E1 := anye).
      eapply hx_bind with (Q1 := same x); [auto with gddb|intro; gd_auto|apply js_iter_item; auto|].
      intros y ->. cbn [coll_add]. apply hx_ret. reflexivity. }
    intros [acc'|e] H.
    - rewrite H. apply IH. rewrite <- app_assoc. exact Q.
    - destruct e as [? ? ? ? ? ?|[]]; unfold stops; rewrite ?andb_false_r; first [js_r|contradiction H; reflexivity].
  Qed.
  Lemma js_iterload v n args : safe v (TGen n OList args) -> hx (iterload w cfg call KoList v (TGen n OList args)) (same v) anye.
  Proof using Hstd Hcall Gcall.
    intro Sf. unfold iterload. cbn [ty_args].
    assert (NC : iter v = None \/ (exists l, v = VList l) \/ exists d, v = VDict d).
    { destruct (iter v) as [l|] eqn:E; [|auto]. right. destruct v; try discriminate; try (left; eauto; fail); try (right; eauto; fail);
        exfalso; apply (sf_conv _ _ Sf); apply cv_list; try (rewrite E); discriminate. }
    destruct args as [[|et rest]|]; try (destruct v; js_r; fail).
    assert (B : forall h, find_handler cfg et = POk h -> hx
      match iter v with
      | None => raise (XTL KType (MPy RType) [] (Some v) (Some (TGen n OList (Some (et :: rest)))) [])
      | Some l => iter_loop w KoList (mapped cfg et) (iter_item w cfg call h et) v (TGen n OList (Some (et :: rest))) l 0 []
      end (same v) anye \/ exists d, v = VDict d).
    { intros h F. destruct NC as [->|[[l ->]|D]]; [left; js_r| |right; exact D]. left. cbn [iter].
      apply js_iter_loop; [|exact F|reflexivity]. intros x I0.
      eapply (safe_part (VList l)); [exact Sf|left; reflexivity|eapply part_item; [reflexivity|exact I0]|].
      intro Cv. eapply cv_item; eassumption. }
    destruct v; try (js_r; fail);
      (eapply hx_bind; [auto with gddb|intro; gd_auto|apply js_lookup; discriminate|]; intros h F; destruct (B h F) as [H|[d9 D9]]; [exact H|discriminate]).
  Qed.

  (** ** Union *)
  Lemma js_try_members v t ts n r exs :
    (forall x, In x ts -> safe v x) -> (n = 0 \/ r = v) ->
    hx (try_members cfg call v t ts n r exs) (fun x => fst (fst x) = 0 \/ snd (fst x) = v) anye.
  Proof using Hstd Hcall Gcall.
    revert n r exs. induction ts as [|x ts IH]; intros n r exs Ht Hr; cbn [try_members]; [apply hx_ret; exact Hr|].
    eapply hx_bind; [gd_auto|intros [|]; gd_auto| |].
    { apply hx_attempt with (Q := same v) (E1 := anye). eapply hx_bind; [auto with gddb|intro; gd_auto|apply js_lookup; discriminate|].
      intros h F. cbv beta in F. apply Hcall; [apply Ht; left; reflexivity|exact F]. }
    intros [r'|e] H.
    - destruct (uniondebugconflict cfg); [apply IH; [intros; apply Ht; right; assumption|auto]|apply hx_ret; right; exact H].
    - destruct e as [? ? ? ? ? ?|k]; [apply IH; [intros; apply Ht; right; assumption|exact Hr]|js_r].
  Qed.
  Lemma js_unionload v n args : safe v (TGen n OUnion (Some args)) -> hx (unionload w cfg call v (TGen n OUnion (Some args))) (same v) anye.
  Proof using Hstd Hcall Gcall.
    intro Sf. unfold unionload. cbn [ty_args]. set (T := TGen n OUnion (Some args)).
    destruct (_ && _) eqn:OB; [apply hx_ret; reflexivity|]. cbv zeta.
    assert (NB : ~ own_basic basic args v).
    { intros [B I0]. unfold basicb in OB. rewrite (proj2 Hstd) in OB. cbn [in_classes] in OB.
      apply mem_cid_In in B. rewrite B in OB. cbn [andb] in OB. rewrite (proj2 (mem_ty_In _ _) I0) in OB. discriminate. }
    assert (Sm : forall x, In x args -> safe v x).
    { intros x I0. eapply safe_comp; [exact Sf|exact I0|]. intro Cv. eapply cv_union; eassumption. }
    assert (GP : forall sorted, gd (prefer w v T args sorted)).
    { intro sorted. unfold prefer. destruct v; auto with gddb. apply gd_bind; [|intros [[key [|lt cd]]|]; gd_auto].
      intro s. destruct (same_get T (st_disc s)) eqn:E; [apply good_refl|]. apply good_disc; [exact E|reflexivity]. }
    assert (GE : forall ts, gd ('(n0, r, exs) <- try_members cfg call v T ts 0 VNone [] ;;
          match n0 with
          | 1 => ret r
          | 0 => raise (XTL KValue (MUnion (type_of v) T) [] (Some v) (Some T) exs)
          | _ => raise (XTL KType (MConflict (type_of v) T n0) [] (Some v) (Some T) exs)
          end)).
    { intro ts. apply gd_bind; [auto with gddb|]. intros [[[|[|n0]] r] exs]; auto with gddb. }
    apply hx_bind with (Q1 := fun l => forall x, In x l -> In x args); [apply GP|exact GE| |].
    - intros s C _. match goal with |- context [prefer w v T args ?so s] => assert (Hs : forall x, In x so -> In x args) end.
      2: { pose proof (ns_prefer w cfg v T args _ eq_refl Hs s (proj1 C)) as K. revert K. destruct (prefer w v T args _ s) as [[l|e|] s1]; cbn [fst]; tauto. }
      intros x Hx. apply in_app_or in Hx as [Hx|Hx]; apply filter_In in Hx; apply Hx.
    - intros ts Hts. cbv beta in Hts. eapply hx_bind; [auto with gddb|intros [[[|[|n0]] r] exs]; auto with gddb| |].
      + apply js_try_members; auto.
      + intros [[k r] exs] Hr. cbn [fst snd] in Hr.
        destruct k as [|[|k]]; try js_r. destruct Hr as [Hr|Hr]; [discriminate|]. apply hx_ret. exact Hr.
  Qed.

  Lemma js_body h v t : safe v t -> find_handler cfg t = POk h -> hx (body w cfg call h v t) (same v) anye.
  Proof using Hstd Hcast Hcall Hkey Gcall.
    intros Sf F. pose proof (std_selected w basic strcons cfg t h Hstd F) as Sel.
    pose proof (sf_type _ _ Sf t (rt1n_refl _ _ _)) as J.
    destruct h; cbn [selected] in Sel; cbn [body].
    - subst t. unfold noneload. destruct v; try js_r. apply hx_ret. reflexivity.
    - destruct Sel as [n [args ->]]. apply js_unionload. exact Sf.
    - destruct Sel as [c [-> _]]. unfold basicload. destruct (exact v (TClass c)); [apply hx_ret; reflexivity|]. rewrite Hcast. js_r.
    - destruct Sel as [c [ms [-> [E NB]]]]. exfalso. destruct J as [J| ->]; [contradiction|discriminate].
    - destruct Sel as [n [args ->]]. destruct args; contradiction.
    - destruct Sel as [n [args ->]]. apply js_iterload. exact Sf.
    - destruct Sel as [n [args ->]]. apply js_dictload. exact Sf.
    - destruct Sel as [n [args ->]]. destruct args; contradiction.
    - destruct Sel as [n [args ->]]. destruct args; contradiction.
    - destruct Sel as [c [nt [-> [N [NB _]]]]]. exfalso. destruct J as [J| ->]; [contradiction|discriminate].
    - destruct Sel as [c [nt [-> [N [_ [NB _]]]]]]. exfalso. destruct J as [J| ->]; [contradiction|discriminate].
    - destruct Sel as [n ->]. intros s C L. unfold forwardrefload, bind, get_st in *. cbn [fst snd] in *.
      destruct (st_frefs s) as [fr|] eqn:Fr; [|discriminate].
      destruct (str_get n fr) as [t'|] eqn:G; [|discriminate].
      assert (LS : st_le s SF).
      { eapply st_le_trans; [|exact L]. apply (gd_load_with w cfg call Gcall v t' (Some (AnForward n)) s). }
      assert (E : env n = Some t').
      { unfold names_of. pose proof (le_frefs _ _ LS) as LF. rewrite Fr in LF. destruct (st_frefs SF); [|contradiction]. auto. }
      apply (js_load_with v t' (Some (AnForward n))); [|exact C|exact L].
      eapply safe_comp; [exact Sf|unfold component, comps; rewrite E; left; reflexivity|]. intro Cv. eapply cv_forward; eassumption.
    - destruct Sel as [vals ->]. unfold literalload. destruct (py_in v vals); [apply hx_ret; reflexivity|js_r].
    - destruct Sel as [c [nt [-> [N [_ [_ [NB _]]]]]]]. exfalso. destruct J as [J| ->]; [contradiction|discriminate].
    - exfalso. rewrite (find_std w basic strcons cfg t Hstd) in F. unfold chain in F.
      destruct Sel as [->|[->| ->]]; (destruct J as [J|J]; [|discriminate]); apply mem_cid_In in J; cbn [is_nonetype ty_eqb cid_eqb is_union in_classes] in F; rewrite J in F; discriminate.
    - exfalso. destruct Sel as [->|[n [args ->]]]; [|destruct args; contradiction].
      rewrite (find_std w basic strcons cfg _ Hstd) in F. unfold chain in F.
      destruct J as [J|J]; [|discriminate]. apply mem_cid_In in J; cbn [is_nonetype ty_eqb cid_eqb is_union in_classes] in F; rewrite J in F; discriminate.
    - exfalso. subst t. rewrite (find_std w basic strcons cfg _ Hstd) in F. unfold chain in F.
      destruct J as [J|J]; [|discriminate]. apply mem_cid_In in J; cbn [is_nonetype ty_eqb cid_eqb is_union in_classes] in F; rewrite J in F; discriminate.
    - destruct Sel as [c [-> [_ [NB _]]]]. exfalso. destruct J as [J| ->]; [contradiction|].
      rewrite (find_std w basic strcons cfg _ Hstd) in F. discriminate.
    - destruct Sel as [c [fs [-> [A [_ [_ [_ [NB _]]]]]]]]. exfalso. destruct J as [J| ->]; [contradiction|discriminate].
    - apply hx_ret. reflexivity.
    - destruct Sel as [n [su ->]]. cbn [newtypeload]. apply js_load_with.
      eapply safe_comp; [exact Sf|left; reflexivity|apply cv_newtype].
    - contradiction.
  Qed.
End Json.

Section JsonRun.
  Variable w : world.
  Variables basic strcons : list cid.
  Variable cfg : config.
  Hypothesis Hstd : is_std w basic strcons cfg.
  Hypothesis Hcast : basiccast cfg = false.

  Lemma js_key S0 SF n h v t : h = HBasic \/ h = HNone -> hx w cfg S0 SF (run w cfg n h v t) (fun r => r = v) NS.
  Proof using Hcast.
    destruct n as [|n]; [intros _ s C L; exact I|]. intros [->| ->]; cbn [run body].
    - unfold basicload. destruct (exact v t); [apply hx_ret; reflexivity|]. rewrite Hcast. (apply hx_raise; discriminate).
    - unfold noneload. destruct v; try (apply hx_raise; discriminate). apply hx_ret. reflexivity.
  Qed.
  Lemma js_run S0 SF n h v t : safe w basic cfg SF v t -> find_handler cfg t = POk h ->
    hx w cfg S0 SF (run w cfg n h v t) (fun r => r = v) NS.
  Proof using Hstd Hcast.
    revert h v t. induction n as [|n IH]; intros h v t Sf F.
    - intros s C L. exact I.
    - cbn [run]. apply (js_body w basic strcons cfg Hstd Hcast S0 SF); auto.
      + intros. apply gd_run.
      + intros. apply js_key. assumption.
  Qed.

  Lemma c03 s v t r s' :
    used w cfg s -> ends w cfg s v t (Ok r) s' ->
    (forall t', reach w (pep563 cfg) (names_of s') t t' -> json_type basic t') ->
    (forall x, inside v x -> proper_data x) ->
    ~ converts basic (names_of s') v t ->
    r = v.
  Proof using Hstd Hcast.
    intros U [_ [n E]] HT HD HC. unfold load, load_ann in E.
    pose proof (js_load_with w basic strcons cfg Hstd s s' (run w cfg n)
      ltac:(intros; apply gd_run) ltac:(intros h v0 t0; apply js_run) v t None (mkSafe w basic cfg s' v t HT HD HC) s (conj (used_coh w cfg s U) (good_refl w cfg s))) as H.
    rewrite E in H. exact (H (st_le_refl _)).
  Qed.
End JsonRun.
