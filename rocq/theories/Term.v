(** * Term: which calls a handler makes, and termination (towards C22, C23) *)

From Verif Require Import Loader Spec Inv Std Sound Trace Hist Total Facts4.
From Verif Require Export Vocab.

Section Term.
  Variable w : world.
  Variable cfg : config.
  Variable names : string -> list ty.
  Notation p := (pep563 cfg).
  Notation tx := (tx w cfg (fun _ => None) (fun n t => In t (names n))).
  Notation yes := (fun _ => True).
  Notation fin m := (tx m (fun _ => True) (fun _ : exn => True)).

  (** types to which the handler [h] gives the data of the type [t] *)
  Definition stays (h : handler) (t : ty) : list ty :=
    match h with
    | HUnion | HTuple | HList | HSet | HFrozen => match ty_args t with Some l => l | None => [] end
    | HEnum => match t with TClass c => match ci_hints (class_of w c) with POk l => map snd l | PExc _ => [] end | _ => [] end
    | HNewType => match t with TNewType _ s => [s] | _ => [] end
    | HForward => match t with TForward n => names n | _ => [] end
    | _ => []
    end.
  Lemma stays_mentioned h t t' : In t' (stays h t) -> In t' (mentioned w names t).
  Proof using.
    assert (A : forall t, In t' match ty_args t with Some l => l | None => [] end -> In t' (mentioned w names t)).
    { clear. destruct t as [|n o [l|]| | | | | |]; cbn; auto; contradiction. }
    destruct h; cbn [stays]; try contradiction; auto; destruct t; cbn [mentioned]; try contradiction; auto.
    unfold written. destruct (ci_hints (class_of w c)) as [l|]; [|contradiction]. intro I.
    apply in_or_app. left. apply in_or_app. right. apply in_or_app. left. exact I.
  Qed.

  Definition std_handler (h : handler) : Prop := exists t, find_handler cfg t = POk h.
  (** the calls made while the handler [h] loads [v] into [t] *)
  Inductive calls (h : handler) (v : value) (t : ty) : handler -> value -> ty -> Prop :=
  | calls_small h' v' t' : In t' (mentioned w names t) -> size v' < size v -> std_handler h' -> calls h v t h' v' t'
  | calls_same h' t' : In t' (stays h t) -> find_handler cfg t' = POk h' -> calls h v t h' v t'.

  Variable call : handler -> value -> ty -> M value.
  Lemma fin_ret {A} (a : A) : fin (ret a). Proof using. apply tx_ret. exact I. Qed.
  Lemma fin_raise {A} e : fin (raise e : M A). Proof using. apply tx_raise. exact I. Qed.
  Lemma fin_lift {A} (r : pyres A) : fin (lift r). Proof using. apply tx_lift; intros; exact I. Qed.
  Hint Resolve fin_ret fin_raise fin_lift : core.
  Lemma fin_lookup nf t : tx (lookup_handler cfg nf t) (fun h => find_handler cfg t = POk h) yes.
  Proof using. apply tx_lookup. auto. Qed.
  Definition named (t : ty) : Prop := forall n, w_name w t = Some n -> In t (names n).
  Lemma fin_load_with v t a : named t -> (forall h, find_handler cfg t = POk h -> fin (call h v t)) -> fin (load_with w cfg call v t a).
  Proof using.
    intros Nm H. apply tx_load_with; auto. intros h F. eapply tx_weak; [apply H; exact F|auto|].
    intros e _. destruct (is_tl e); exact I.
  Qed.
  Lemma fin_attempt {A} (m : M A) : fin m -> fin (attempt m).
  Proof using. intro H. eapply tx_weak with (E := fun _ => True); [apply tx_attempt with (Q := fun _ => True) (E1 := fun _ => True); exact H|auto|auto]. Qed.
  Lemma fin_item_error {A} v t i e : fin (item_error v t i e : M A).
  Proof using. destruct e as [? ? ? ? ? ?|[]]; cbn; auto. Qed.
  Hint Resolve fin_item_error : core.
  Lemma std_of t h : find_handler cfg t = POk h -> std_handler h.
  Proof using. intro F. exists t. exact F. Qed.
  Hint Resolve std_of : core.

  Section Body.
  Variables (v : value) (t : ty).
  Hypothesis Hn : forall t', In t' (mentioned w names t) -> named t'.

  Lemma fin_dict_fast kt vt kf vf d acc :
    (forall k x, In (k, x) d -> fin (call kf k kt) /\ (forall h, vf = Some h -> fin (call h x vt))) ->
    fin (dict_fast w cfg call kt vt kf vf d acc).
  Proof using Hn.
    revert acc. induction d as [|[k x] d IH]; intros acc H; cbn [dict_fast]; auto.
    destruct (H k x (or_introl eq_refl)) as [Hk Hx].
    eapply tx_bind; [destruct (_ && _); [apply fin_ret|exact Hk]|]. intros k' _.
    eapply tx_bind; [ |].
    { instantiate (1 := yes). destruct (_ && _); [apply fin_ret|]. destruct vf; [auto|apply fin_raise]. }
    intros x' _. destruct (hashable w k'); auto. apply IH. intros; apply H; right; assumption.
  Qed.
  Lemma fin_dict_slow kt vt d acc : named kt -> named vt ->
    (forall k x, In (k, x) d -> (forall h, find_handler cfg kt = POk h -> fin (call h k kt)) /\ (forall h, find_handler cfg vt = POk h -> fin (call h x vt))) ->
    fin (dict_slow w cfg call kt vt d acc).
  Proof using Hn.
    intros Nk Nv. revert acc. induction d as [|[k x] d IH]; intros acc H; cbn [dict_slow]; auto.
    destruct (H k x (or_introl eq_refl)) as [Hk Hx].
    eapply tx_bind; [apply fin_load_with; [exact Nk|exact Hk]|]. intros k' _.
    eapply tx_bind; [apply fin_load_with; [exact Nv|exact Hx]|].
    intros x' _. destruct (hashable w k'); auto. apply IH. intros; apply H; right; assumption.
  Qed.
  Lemma fin_dictload :
    (forall h' v' t', calls HDict v t h' v' t' -> fin (call h' v' t')) -> fin (dictload w cfg call v t).
  Proof using Hn.
    intro HC. unfold dictload. destruct (ty_args t) as [[|kt [|vt [|? ?]]]|] eqn:A; auto.
    assert (M : forall x, In x [kt; vt] -> In x (mentioned w names t)).
    { destruct t as [|n o [l|]| | | | | |]; cbn in A; try discriminate. injection A as ->. auto. }
    eapply tx_bind; [apply fin_lookup|]. intros kf0 F0. cbv beta in F0.
    apply tx_bind with (Q1 := fun kv => std_handler (fst kv) /\ (forall h, snd kv = Some h -> std_handler h)); [|].
    { intros s C. destruct (ty_get vt (st_index s)) as [h|] eqn:E; cbn [fst snd].
      - split; [|exact C]. split; [eauto|]. intros h' [= <-]. eapply std_of. apply (coh_index _ _ _ (ok_coh _ _ _ _ _ C)). exact E.
      - destruct (find_handler cfg vt) as [h|[]] eqn:F; cbn [fst snd]; auto. split; [split; [eauto|discriminate]|]. apply okst_index; assumption. }
    intros [kf vf] [Hk Hv]. cbn [fst snd] in Hk, Hv. cbv zeta.
    assert (Fc : forall d, as_dict cfg v = VDict d -> forall k x, In (k, x) d -> forall h, std_handler h -> fin (call h k kt) /\ fin (call h x vt)).
    { intros d D k x I0 h Hs. destruct (dict_small cfg v d k x D I0). split; apply HC; constructor; auto; apply M; cbn; auto. }
    destruct (as_dict cfg v) as [| | | | | | | | | |d| | | | |] eqn:D;
      try (apply tx_catch with (E1 := yes); [apply fin_raise|]; intros e _; apply tx_catch with (E1 := yes); [apply fin_raise|];
           intros [[] ? ? ? ? ?|[]] _; apply fin_raise).
    apply tx_catch with (E1 := yes); [ |].
    - apply fin_dict_fast. intros k x I0. split; [eapply Fc; eauto|]. intros h E. eapply Fc; eauto.
    - intros e _. apply tx_catch with (E1 := yes); [ |intros [[] ? ? ? ? ?|[]] _; apply fin_raise].
      apply fin_dict_slow; try (apply Hn; apply M; cbn; auto). intros k x I0. split; intros h E; eapply Fc; eauto.
  Qed.

  Lemma fin_iter_loop k mp f v0 t0 l i acc :
    (forall x, In x l -> fin (f x)) -> fin (iter_loop w k mp f v0 t0 l i acc).
  Proof using Hn.
    revert i acc. induction l as [|x l IH]; intros i acc H; cbn [iter_loop]; auto.
    eapply tx_bind.
    - apply fin_attempt. eapply tx_bind; [apply H; left; reflexivity|intros y _; apply fin_lift].
    - intros [acc'|e] _; [|destruct (stops mp e); auto]. apply IH. intros; apply H; right; assumption.
  Qed.
  Lemma fin_iterload h k :
    In h [HTuple; HList; HSet; HFrozen] ->
    (forall h' v' t', calls h v t h' v' t' -> fin (call h' v' t')) -> fin (iterload w cfg call k v t).
  Proof using Hn.
    intros Hh HC. unfold iterload.
    assert (G : fin match ty_args t with
        | None => raise (XRaw RAttr)
        | Some [] => raise (XRaw RIndex)
        | Some (et :: _) =>
            h <- lookup_handler cfg (XTL KType (MCannotDeal et) [] (Some v) (Some et) []) et ;;
            match iter v with
            | None => raise (XTL KType (MPy RType) [] (Some v) (Some t) [])
            | Some l => iter_loop w k (mapped cfg et) (iter_item w cfg call h et) v t l 0 []
            end
        end); [|destruct v; auto; fail].
    destruct (ty_args t) as [[|et rest]|] eqn:A; auto.
    eapply tx_bind; [apply fin_lookup|]. intros hh F. cbv beta in F.
    destruct (iter v) as [l|] eqn:Il; auto.
    apply fin_iter_loop. intros x I0.
    assert (C : fin (call hh x et)).
    { apply HC. assert (Is : In et (stays h t)).
      { cbn in Hh. repeat (destruct Hh as [<-|Hh]; [cbn [stays]; rewrite A; left; reflexivity|]). contradiction. }
      destruct (item_small v l x Il I0) as [L| ->]; [apply calls_small; [apply stays_mentioned with (1 := Is)|exact L|eauto]|].
      apply calls_same; assumption. }
    unfold iter_item. destruct (basicb cfg et); [destruct (isinst w x et); auto|].
    destruct et as [|n o [us|]| | | | | |]; auto; destruct o; auto. destruct (_ && _); auto.
  Qed.

  Lemma fin_tuple_loop l ts i acc :
    (forall x et h, In x l -> In et ts -> find_handler cfg et = POk h -> fin (call h x et)) ->
    fin (tuple_loop cfg call v t l ts i acc).
  Proof using Hn.
    revert l i acc. induction ts as [|et ts IH]; intros [|x l] i acc H; cbn [tuple_loop]; auto.
    eapply tx_bind.
    - apply fin_attempt. apply tx_bind with (Q1 := fun h => find_handler cfg et = POk h); [|].
      + intros s C. destruct (ty_get et (st_index s)) as [h|] eqn:E.
        * split; [apply (coh_index _ _ _ (ok_coh _ _ _ _ _ C)); exact E|exact C].
        * destruct (find_handler cfg et) eqn:F; cbn; auto.
      + intros h F. destruct (_ && _); auto. apply H; [left; reflexivity|left; reflexivity|exact F].
    - intros [y|e] _; auto. apply IH. intros; apply H; auto; right; assumption.
  Qed.
  Lemma fin_tupleload :
    (forall h' v' t', calls HTuple v t h' v' t' -> fin (call h' v' t')) -> fin (tupleload w cfg call v t).
  Proof using Hn.
    intro HC. unfold tupleload. destruct (ty_args t) as [ts|] eqn:A; auto.
    assert (B : fin match v with
        | VDict _ => raise (XTL KType MDictTuple [] (Some v) (Some t) [])
        | _ =>
            match iter v with
            | None => raise (XRaw RType)
            | Some l =>
                if failonextra cfg && Nat.ltb (List.length ts) (List.length l)
                then raise (XTL KValue (MTooLong t) [] (Some v) (Some t) [])
                else if Nat.ltb (List.length l) (List.length ts)
                then raise (XTL KValue (MTooShort t) [] (Some v) (Some t) [])
                else tuple_loop cfg call v t l ts 0 []
            end
        end).
    { assert (B0 : fin match iter v with
            | None => raise (XRaw RType)
            | Some l =>
                if failonextra cfg && Nat.ltb (List.length ts) (List.length l)
                then raise (XTL KValue (MTooLong t) [] (Some v) (Some t) [])
                else if Nat.ltb (List.length l) (List.length ts)
                then raise (XTL KValue (MTooShort t) [] (Some v) (Some t) [])
                else tuple_loop cfg call v t l ts 0 []
            end); [|destruct v; auto; fail].
      destruct (iter v) as [l|] eqn:Il; auto. destruct (_ && _); auto. destruct (Nat.ltb _ _); auto.
      apply fin_tuple_loop. intros x et h I0 Ie F.
      assert (Is : In et (stays HTuple t)) by (cbn [stays]; rewrite A; exact Ie).
      apply HC. destruct (item_small v l x Il I0) as [L| ->]; [apply calls_small; [apply stays_mentioned with (1 := Is)|exact L|eauto]|].
      apply calls_same; assumption. }
    destruct ts as [|t1 [|t2 [|t3 ts]]]; try exact B; destruct t2; try exact B.
    apply fin_iterload with (h := HTuple); [cbn; auto|exact HC].
  Qed.

  (** ** Objects *)
  Lemma fin_fields_loop fields hints v0 d acc :
    (forall k x s ft h, In (k, x) d -> In (s, ft) hints -> find_handler cfg ft = POk h -> fin (call h x ft)) ->
    fin (fields_loop cfg call fields hints v0 t d acc).
  Proof using Hn.
    revert acc. induction d as [|[k x] d IH]; intros acc H; cbn [fields_loop]; auto.
    assert (IH' : forall acc, fin (fields_loop cfg call fields hints v0 t d acc)).
    { intro acc'. apply IH. intros k0 x0 s ft h I0. apply (H k0 x0). right. exact I0. }
    destruct k; auto. destruct (mem_str s fields); auto. destruct (str_get s hints) as [ft|] eqn:G; auto.
    eapply tx_bind; [apply fin_lookup|]. intros h F. cbv beta in F.
    eapply tx_bind; [ |].
    - apply tx_catch with (Q := yes) (E1 := yes); [ |intros e _; apply fin_raise].
      eapply H; [left; reflexivity|apply str_get_In; exact G|exact F].
    - intros y _. apply IH'.
  Qed.
  Lemma fin_objloader fields necessary hints v0 :
    (forall d k x s ft h, as_dict cfg v0 = VDict d -> In (k, x) d -> In (s, ft) hints -> find_handler cfg ft = POk h -> fin (call h x ft)) ->
    fin (objloader w cfg call fields necessary hints v0 t).
  Proof using Hn.
    intro H. unfold objloader. destruct (as_dict cfg v0) as [| | | | | | | | | |d| | | | |] eqn:D; auto.
    cbv zeta. destruct (filter _ necessary); auto. destruct (_ && _); [destruct (all_str _); auto|].
    eapply tx_bind; [ |].
    - apply fin_fields_loop. intros k x s ft h. apply (H d k x s ft h eq_refl).
    - intros ps _. destruct (construct w t ps) as [r|[]]; auto.
  Qed.
  Lemma fin_mangle nms :
    tx (mangle cfg nms v t) (fun v' => v' = v \/ exists d d', v = VDict d /\ v' = VDict d' /\ forall k x, In (k, x) d' -> exists k', In (k', x) d) yes.
  Proof using Hn.
    unfold mangle. destruct nms as [|n0 nms]; [apply tx_ret; auto|].
    destruct v as [| | | | | | | | | |d| | | | |]; try (apply tx_raise; exact I).
    destruct (mangle_loop cfg (n0 :: nms) (map snd (n0 :: nms)) d []) as [d'|k] eqn:E; [|apply tx_raise; exact I].
    apply tx_ret. right. exists d, d'. split; [reflexivity|]. split; [reflexivity|].
    assert (K : forall d acc, mangle_loop cfg (n0 :: nms) (map snd (n0 :: nms)) d acc = inl d' ->
      forall k x, In (k, x) d' -> (exists k', In (k', x) acc) \/ exists k', In (k', x) d).
    { assert (DS : forall k0 x0 acc (k x : value), In (k, x) (dict_set k0 x0 acc) -> x = x0 \/ exists k', In (k', x) acc).
      { clear. induction acc as [|[a b] acc IH]; cbn; intros k x.
        - intros [[= <- <-]|[]]. auto.
        - destruct (py_eqb k0 a); intros [[= <- <-]|I]; auto; try (right; exists k; right; exact I); [right; exists a; left; reflexivity|].
          destruct (IH _ _ I) as [->|[k' I']]; [auto|right; exists k'; right; exact I']. }
      clear E. induction d0 as [|[k x] d0 IH]; cbn [mangle_loop]; intros acc E k1 x1 I1.
      - injection E as ->. left. eauto.
      - assert (ST : forall k2, mangle_loop cfg (n0 :: nms) (map snd (n0 :: nms)) d0 (dict_set k2 x acc) = inl d' ->
            (exists k', In (k', x1) acc) \/ (exists k', In (k', x1) ((k, x) :: d0))).
        { intros k2 E2. destruct (IH _ E2 _ _ I1) as [[k' H]|[k' H]]; [|right; exists k'; right; exact H].
          destruct (DS _ _ _ _ _ H) as [->|[k3 H3]]; [right; exists k; left; reflexivity|left; eauto]. }
        destruct k; try (eapply ST; exact E).
        destruct (str_get s (n0 :: nms)); [eapply ST; exact E|].
        destruct (mem_str s _); [|eapply ST; exact E]. destruct (failonextra cfg); [discriminate|].
        destruct (IH _ E _ _ I1) as [H|[k' H]]; [left; exact H|right; exists k'; right; exact H]. }
    intros k x I1. destruct (K d [] E k x I1) as [[k' []]|H]. exact H.
  Qed.
  Lemma fin_mangled nms fields necessary hints h :
    (forall s ft, In (s, ft) hints -> In ft (mentioned w names t)) ->
    (forall h' v' t', calls h v t h' v' t' -> fin (call h' v' t')) ->
    fin (v' <- mangle cfg nms v t ;; objloader w cfg call fields necessary hints v' t).
  Proof using Hn.
    intros Hh HC. eapply tx_bind; [apply fin_mangle|].
    intros v' Hv. apply fin_objloader. intros d k x s ft h0 D I0 I1 F.
    apply HC. apply calls_small; [eapply Hh; exact I1| |eauto].
    destruct Hv as [->|[d1 [d' [-> [-> Hd]]]]]; [eapply dict_small; eassumption|].
    cbn in D. injection D as ->. destruct (Hd _ _ I0) as [k' I2].
    apply (dict_small cfg (VDict d1) d1 k' x eq_refl I2).
  Qed.

  Lemma written_1 c ft : In ft (map snd (ci_ann (class_of w c))) -> In ft (written w c).
  Proof using Hn. intro I0. unfold written. apply in_or_app. left. apply in_or_app. left. exact I0. Qed.
  Lemma written_2 c l ft : ci_hints (class_of w c) = POk l -> In ft (map snd l) -> In ft (written w c).
  Proof using Hn. intros E I0. unfold written. rewrite E. apply in_or_app. left. apply in_or_app. right. apply in_or_app. left. exact I0. Qed.
  Lemma written_3 c fs ft : ci_dc (class_of w c) = Some fs -> In ft (map f_type fs) -> In ft (written w c).
  Proof using Hn.
    intros E I0. unfold written. rewrite E. apply in_or_app. left. do 2 (apply in_or_app; right). apply in_or_app. left. exact I0.
  Qed.
  Lemma written_4 c fs f ft : ci_attrs (class_of w c) = Some fs -> In f fs ->
    ft = TAny \/ ft = f_type f \/ (exists hs, f_conv f = Some hs /\ In ft (map snd hs)) -> In ft (written w c).
  Proof using Hn.
    intros E I0 H. unfold written. rewrite E. apply in_or_app. left. do 3 (apply in_or_app; right).
    apply in_flat_map. exists f. split; [exact I0|]. destruct H as [->|[->|[hs [-> H]]]]; [left; reflexivity|right; left; reflexivity|right; right; exact H].
  Qed.
  Lemma written_unwrap c ft : In ft (map snd (ci_ann (class_of w c))) \/ (exists l, ci_hints (class_of w c) = POk l /\ In ft (map snd l)) ->
    In (unwrap ft) (written w c) /\ In (unwrap (unwrap ft)) (written w c).
  Proof using Hn.
    intro H. unfold written. set (types := map snd (ci_ann (class_of w c)) ++ _).
    assert (I0 : In ft types).
    { unfold types. destruct H as [H|[l [E H]]]; [apply in_or_app; left; exact H|]. rewrite E. apply in_or_app. right. apply in_or_app. left. exact H. }
    split; apply in_or_app; right; apply in_or_app.
    - left. apply in_map. exact I0.
    - right. apply in_map. apply in_map. exact I0.
  Qed.

  Lemma fin_dataclassload :
    (forall h' v' t', calls HDataclass v t h' v' t' -> fin (call h' v' t')) -> fin (dataclassload w cfg call v t).
  Proof using Hn.
    intro HC. unfold dataclassload.
    apply tx_bind with (Q1 := fun oi => exists c fs, t = TClass c /\ ci_dc (class_of w c) = Some fs /\ dataclass_info w cfg c fs = POk oi).
    - intros s C. destruct (ty_get t (st_fields s)) as [oi|] eqn:E; [split; [apply (coh_fields _ _ _ (ok_coh _ _ _ _ _ C) _ _ E)|exact C]|].
      destruct t as [c| | | | | | |]; auto. destruct (ci_dc (class_of w c)) as [fs|] eqn:D; auto.
      destruct (dataclass_info w cfg c fs) eqn:O; auto. split; [eauto|].
      apply okst_same with (s := s); [eapply good_fields; eassumption|reflexivity|exact C].
    - intros oi [c [fs [ET [D O]]]]. apply fin_mangled with (h := HDataclass); [|exact HC]. rewrite ET. cbn [mentioned].
      unfold dataclass_info in O. intros s ft I0.
      assert (P : p = true \/ p = false) by (case p; auto). destruct P as [P|P]; rewrite P in O.
      + destruct (ci_hints (class_of w c)) as [l|] eqn:CH; [|discriminate]. injection O as <-. cbn [oi_hints] in I0.
        eapply written_2; [exact CH|]. apply (in_map snd) in I0. exact I0.
      + injection O as <-. cbn [oi_hints] in I0. eapply written_3; [exact D|]. apply in_map_iff in I0 as [f [[= <- <-] I0]]. apply in_map. exact I0.
  Qed.
  Lemma fin_plain fields necessary hints h :
    (forall s ft, In (s, ft) hints -> In ft (mentioned w names t)) ->
    (forall h' v' t', calls h v t h' v' t' -> fin (call h' v' t')) ->
    fin (objloader w cfg call fields necessary hints v t).
  Proof using Hn.
    intros Hh HC. apply fin_objloader. intros d k x s ft h0 D I0 I1 F.
    apply HC. apply calls_small; [eapply Hh; exact I1|eapply dict_small; eassumption|eauto].
  Qed.
  Lemma fin_namedtupleload :
    (forall h' v' t', calls HNamedTuple v t h' v' t' -> fin (call h' v' t')) -> fin (namedtupleload w cfg call v t).
  Proof using Hn.
    intro HC. unfold namedtupleload. destruct t as [c| | | | | | |] eqn:ET; auto. rewrite <- ET in *.
    destruct (ci_nt (class_of w c)) as [nt|]; auto.
    apply tx_bind with (Q1 := fun hints => forall s ft, In (s, ft) hints -> In ft (mentioned w names t)); [ |].
    - apply tx_lift; auto. rewrite ET. cbn [mentioned]. intros l E s ft I0. apply (in_map snd) in I0. cbn [snd] in I0.
      assert (P : p = true \/ p = false) by (case p; auto). destruct P as [P|P]; rewrite P in E.
      + eapply written_2; eassumption.
      + injection E as <-. apply written_1. exact I0.
    - intros hints Hh. apply fin_plain with (h := HNamedTuple); assumption.
  Qed.
  Lemma fin_attrload :
    (forall h' v' t', calls HAttrs v t h' v' t' -> fin (call h' v' t')) -> fin (attrload w cfg call v t).
  Proof using Hn.
    intro HC. unfold attrload. destruct t as [c| | | | | | |] eqn:ET; auto. rewrite <- ET in *.
    destruct (ci_attrs (class_of w c)) as [fs|] eqn:A; auto.
    apply tx_bind with (Q1 := fun hints => forall s ft, In (s, ft) hints -> In ft (mentioned w names t)); [ |].
    - apply tx_lift; auto. rewrite ET. cbn [mentioned]. intros l E s ft I0.
      assert (K : forall fs' l, (forall f, In f fs' -> In f fs) -> attr_hints fs' = POk l -> In (s, ft) l -> In ft (written w c)); [|eapply K; eauto].
      clear l E I0. induction fs' as [|f fs' IH]; cbn [attr_hints]; intros l Hf E I0; [injection E as <-; contradiction|].
      destruct (match f_conv f with Some hs => converter_type hs | None => POk (f_type f) end) as [t0|] eqn:T0; [|discriminate].
      destruct (attr_hints fs') as [l'|] eqn:L; [|discriminate]. injection E as <-.
      destruct I0 as [[= <- <-]|I0]; [|eapply IH; eauto; intros; apply Hf; right; assumption].
      eapply written_4; [exact A|apply Hf; left; reflexivity|].
      destruct (f_conv f) as [hs|]; [|injection T0 as <-; auto]. unfold converter_type in T0. destruct (_ && _); [|injection T0 as <-; auto].
      destruct (filter _ hs) as [|[k1 t1] rest] eqn:Fl; [discriminate|]. injection T0 as <-.
      right. right. exists hs. split; [reflexivity|].
      assert (I1 : In (k1, t1) hs) by (apply (proj1 (proj1 (filter_In (fun kt => negb (String.eqb (fst kt) "return")) (k1, t1) hs) ltac:(rewrite Fl; left; reflexivity)))).
      apply (in_map snd) in I1. exact I1.
    - intros hints Hh. cbv zeta. apply fin_mangled with (h := HAttrs); assumption.
  Qed.
  Lemma fin_typeddictload :
    (forall h' v' t', calls HTypedDict v t h' v' t' -> fin (call h' v' t')) -> fin (typeddictload w cfg call v t).
  Proof using Hn.
    intro HC. unfold typeddictload. destruct t as [c| | | | | | |] eqn:ET; auto. rewrite <- ET in *.
    destruct (ci_td (class_of w c)) as [req|] eqn:T; auto.
    assert (GM : fin (mod_st (fun s => if p then s else set_stripped (cons c) s))).
    { intros s C. unfold mod_st. split; [exact I|]. assert (P : p = true \/ p = false) by (case p; auto). destruct P as [P|P]; rewrite P; [exact C|].
      apply okst_same with (s := s); [apply good_strip; congruence|reflexivity|exact C]. }
    apply tx_bind with (Q1 := yes); [intros s C; split; [exact I|exact C]|]. intros s _.
    apply tx_bind with (Q1 := fun hints => forall k ft, In (k, ft) hints -> In (unwrap ft) (mentioned w names t)); [ |].
    - apply tx_lift; auto. rewrite ET. cbn [mentioned]. intros l E k ft I0. apply (in_map snd) in I0. cbn [snd] in I0.
      assert (P : p = true \/ p = false) by (case p; auto). destruct P as [P|P]; rewrite P in E.
      + apply written_unwrap. right. eauto.
      + injection E as <-. unfold annotations in I0. destruct (mem_cid c (st_stripped s)); [|apply written_unwrap; auto].
        rewrite map_map in I0. apply in_map_iff in I0 as [[k1 t1] [<- I1]]. cbn [snd]. rewrite (unwrap_strip t1).
        apply written_unwrap. left. apply (in_map snd) in I1. exact I1.
    - intros hints Hh. cbv zeta. apply tx_bind with (Q1 := yes); [exact GM|].
      intros _ _. apply fin_plain with (h := HTypedDict); [|exact HC].
      intros k ft I0. apply in_map_iff in I0 as [[k1 t1] [[= <- <-] I1]]. rewrite (unwrap_strip t1). eapply Hh. exact I1.
  Qed.

  (** ** Unions, enums *)
  Lemma fin_prefer args sorted :
    ty_args t = Some args -> (forall x, In x sorted -> In x args) ->
    tx (prefer w v t args sorted) (fun l => forall x, In x l -> In x args) yes.
  Proof using Hn.
    intros A Hs. unfold prefer. destruct v; try (apply tx_ret; exact Hs).
    apply tx_bind with (Q1 := fun dc => forall key cd, dc = Some (key, cd) -> forall x, In x (map snd cd) -> In x args).
    - intros s C.
      destruct (same_get t (st_disc s)) as [dc|] eqn:E.
      + destruct (coh_disc _ _ _ (ok_coh _ _ _ _ _ C) _ _ E) as [args0 [args' [s' [A' [Sm ->]]]]]. rewrite A in A'. injection A' as <-.
        split; [|exact C]. intros key cd B x Ix. apply Sm. eapply build_disc_types; [exact B|exact Ix].
      + split; [intros key cd B x; eapply build_disc_types; exact B|].
        apply okst_same with (s := s); [apply good_disc; [exact E|exact A]|reflexivity|exact C].
    - intros [[key [|lt cd]]|] Hd; try (apply tx_ret; exact Hs).
      cbv zeta. destruct (hashable w _); [|apply tx_raise; exact I]. specialize (Hd _ _ eq_refl).
      destruct (disc_get _ (lt :: cd)) as [pt|] eqn:G; apply tx_ret; [|exact Hs].
      intros y [<-|Hy]; [apply Hd; eapply disc_get_types; exact G|]. apply Hs. eapply remove_first_In. exact Hy.
  Qed.
  Lemma fin_try_members ts k r exs :
    (forall x h, In x ts -> find_handler cfg x = POk h -> fin (call h v x)) ->
    fin (try_members cfg call v t ts k r exs).
  Proof using Hn.
    revert k r exs. induction ts as [|x ts IH]; intros k r exs H; cbn [try_members]; auto.
    assert (IH' : forall k r exs, fin (try_members cfg call v t ts k r exs)) by (intros; apply IH; intros; apply H; auto; right; assumption).
    eapply tx_bind; [ |].
    - apply fin_attempt. eapply tx_bind; [apply fin_lookup|]. intros h F. apply H; [left; reflexivity|exact F].
    - intros [r'|[? ? ? ? ? ?|?]] _; auto. destruct (uniondebugconflict cfg); auto.
  Qed.
  Lemma fin_unionload :
    (forall h' v' t', calls HUnion v t h' v' t' -> fin (call h' v' t')) -> fin (unionload w cfg call v t).
  Proof using Hn.
    intro HC. unfold unionload. destruct (ty_args t) as [args|] eqn:A; auto. cbv zeta. destruct (_ && _); auto.
    eapply tx_bind; [apply fin_prefer; [exact A|]|].
    - intros x Hx. apply in_app_or in Hx as [Hx|Hx]; apply filter_In in Hx; apply Hx.
    - intros ts Hts. cbv beta in Hts. eapply tx_bind; [ |].
      + apply fin_try_members. intros x h Ix F. apply HC. apply calls_same; [|exact F]. cbn [stays]. rewrite A. auto.
      + intros [[[|[|k]] r] exs] _; auto.
  Qed.
  Lemma fin_enum_hints ts exs : (forall x, In x ts -> named x) ->
    (forall x h, In x ts -> find_handler cfg x = POk h -> fin (call h v x)) ->
    fin (enum_hints w cfg call v t ts exs).
  Proof using Hn.
    revert exs. induction ts as [|x ts IH]; intros exs Nm H; cbn [enum_hints]; auto.
    eapply tx_bind; [ |].
    - apply fin_attempt. eapply tx_bind; [apply fin_load_with; [apply Nm; left; reflexivity|intros h F; apply H; [left; reflexivity|exact F]]|intros y _; auto].
    - intros [r|e] _; auto. apply IH; [intros; apply Nm; right; assumption|]. intros; apply H; auto; right; assumption.
  Qed.
  Lemma fin_enumload :
    (forall h' v' t', calls HEnum v t h' v' t' -> fin (call h' v' t')) -> fin (enumload w cfg call v t).
  Proof using Hn.
    intro HC. unfold enumload. destruct (call_type w t v); auto. destruct t as [c| | | | | | |] eqn:ET; auto. rewrite <- ET in *.
    apply tx_bind with (Q1 := fun hints => ci_hints (class_of w c) = POk hints); [apply tx_lift; auto|].
    intros hints H. eapply tx_bind; [ |intros [?|?] _; auto].
    apply fin_enum_hints; [intros x Ix; apply Hn; rewrite ET; cbn [mentioned]; eapply written_2; eassumption|]. intros x h Ix F. apply HC. apply calls_same; [|exact F]. rewrite ET. cbn [stays]. rewrite H. exact Ix.
  Qed.

  Lemma fin_forwardrefload :
    (forall h' v' t', calls HForward v t h' v' t' -> fin (call h' v' t')) -> fin (forwardrefload w cfg call v t).
  Proof using Hn.
    intros HC s C. unfold forwardrefload, bind, get_st.
    destruct (st_frefs s) as [fr|] eqn:F; [|split; [exact I|exact C]]. destruct t as [| | | |n| | |] eqn:ET; try (split; [exact I|exact C]). rewrite <- ET in *.
    destruct (str_get n fr) as [t1|] eqn:G; [|split; [exact I|exact C]].
    assert (I1 : In t1 (names n)) by (apply (ok_hi _ _ _ _ _ C); exists fr; auto).
    apply (fin_load_with v t1 (Some (AnForward n))); [apply Hn; rewrite ET; exact I1| |exact C].
    intros h Fh. apply HC. apply calls_same; [|exact Fh]. rewrite ET. exact I1.
  Qed.

  Lemma fin_body h :
    (forall f, h <> HCustom f) ->
    (forall h' v' t', calls h v t h' v' t' -> fin (call h' v' t')) -> fin (body w cfg call h v t).
  Proof using Hn.
    intros NC HC. destruct h; cbn [body]; auto.
    - unfold noneload. destruct v; auto.
    - apply fin_unionload. exact HC.
    - unfold basicload. destruct (exact v t); auto. destruct (basiccast cfg); auto. destruct (call_type w t v) as [|[]]; auto.
    - apply fin_enumload. exact HC.
    - apply fin_tupleload. exact HC.
    - apply fin_iterload with (h := HList); [cbn; auto|exact HC].
    - apply fin_dictload. exact HC.
    - apply fin_iterload with (h := HSet); [cbn; auto|exact HC].
    - apply fin_iterload with (h := HFrozen); [cbn; auto|exact HC].
    - apply fin_namedtupleload. exact HC.
    - apply fin_dataclassload. exact HC.
    - apply fin_forwardrefload. exact HC.
    - unfold literalload. destruct t; auto. destruct (py_in v vals); auto.
    - apply fin_typeddictload. exact HC.
    - unfold datetimeload. destruct t; auto. destruct (match v with VStr s => _ | _ => _ end) as [|[]]; auto.
    - unfold patternload. destruct (w_compile w v) as [|[]]; auto.
    - unfold timedeltaload. destruct (w_timedelta w v) as [|[]]; auto.
    - unfold strconsload. destruct (call_type w t v) as [|[]]; auto.
    - apply fin_attrload. exact HC.
    - unfold newtypeload. destruct t as [| | | | | |n su|] eqn:ET; auto. rewrite <- ET in *. apply fin_load_with; [apply Hn; rewrite ET; left; reflexivity|]. intros h F. apply HC. apply calls_same; [|exact F]. rewrite ET. left. reflexivity.
    - exfalso. eapply NC. reflexivity.
  Qed.
  End Body.
End Term.

(** ** Termination *)
Section Finish.
  Variable w : world.
  Variables basic strcons : list cid.
  Variable cfg : config.
  Hypothesis Hstd : is_std w basic strcons cfg.
  Variable names : string -> list ty.
  Notation tx := (tx w cfg (fun _ => None) (fun n t => In t (names n))).
  Notation fin m := (tx m (fun _ => True) (fun _ : exn => True)).

  Lemma std_not_custom h : std_handler cfg h -> forall f, h <> HCustom f.
  Proof using Hstd.
    intros [t F] f ->. exact (std_selected w basic strcons cfg t _ Hstd F).
  Qed.

  Lemma max_all {A} (P : A -> nat -> Prop) (l : list A) :
    (forall x, In x l -> exists N, forall n, N <= n -> P x n) -> exists N, forall x, In x l -> forall n, N <= n -> P x n.
  Proof using.
    induction l as [|a l IH]; intro H; [exists 0; intros x []|].
    destruct (H a (or_introl eq_refl)) as [N1 H1]. destruct IH as [N2 H2]; [intros; apply H; right; assumption|].
    exists (Nat.max N1 N2). intros x [<-|I] n L; [apply H1; lia|apply H2; [exact I|lia]].
  Qed.

  (** the bound depends on the type only *)
  Lemma fin_not_recursive t : not_recursive w names t ->
    (forall t', involves w names t t' -> named w names t') ->
    exists N, forall n, N <= n -> forall h v, std_handler cfg h -> fin (run w cfg n h v t).
  Proof using Hstd.
    intro A. induction A as [t A IH]. intro K.
    destruct (max_all (fun t' n => forall h v, std_handler cfg h -> fin (run w cfg n h v t')) (mentioned w names t)) as [N HN].
    { intros t' I. apply IH; [exact I|]. intros t1 I1. apply K. econstructor; eassumption. }
    exists (S N). intros [|n] L h v Sh; [lia|]. cbn [run].
    apply fin_body.
    - intros t' I. apply K. econstructor; [exact I|constructor].
    - apply std_not_custom. exact Sh.
    - intros h' v' t' [h1 v1 t1 I L1 S1|h1 t1 I F]; apply HN; auto; try lia; [eapply stays_mentioned; exact I|eexists; exact F].
  Qed.

  (** the bound depends on the data also *)
  Lemma stays_right h t t' : find_handler cfg t = POk h -> In t' (stays w names h t) -> passed_on w names t t'.
  Proof using Hstd.
    intros F I. pose proof (std_selected w basic strcons cfg t h Hstd F) as Sel.
    destruct h; cbn [stays] in I; try contradiction; cbn [selected] in Sel.
    - destruct Sel as [n [args ->]]. exact I.
    - destruct Sel as [c [ms [-> [E _]]]]. cbn. split; [congruence|]. destruct (ci_hints (class_of w c)); [eauto|contradiction].
    - destruct Sel as [n [[args|] ->]]; [exact I|contradiction].
    - destruct Sel as [n [[args|] ->]]; [exact I|contradiction].
    - destruct Sel as [n [[args|] ->]]; [exact I|contradiction].
    - destruct Sel as [n [[args|] ->]]; [exact I|contradiction].
    - destruct Sel as [n ->]. exact I.
    - destruct Sel as [n [su ->]]. cbn. destruct I as [<-|[]]; reflexivity.
  Qed.

  Variable T : ty.
  Hypothesis Hwf : forall t, involves w names T t -> Acc (fun t' t => passed_on w names t t') t.
  Hypothesis Hknown : forall t, involves w names T t -> named w names t.

  Lemma involves_trans t t' : involves w names T t -> mentions w names t t' -> involves w names T t'.
  Proof using.
    intro I. clear Hwf Hknown. induction I as [x|x y z Mxy Iyz IH]; intro M; [econstructor; [exact M|constructor]|].
    econstructor; [exact Mxy|apply IH; exact M].
  Qed.

  Definition bound (k : nat) : Prop := forall t, involves w names T t ->
    exists N, forall n, N <= n -> forall h v, size v < k -> std_handler cfg h -> fin (run w cfg n h v t).
  Lemma fin_right k : bound k -> forall t, involves w names T t ->
    exists N, forall n, N <= n -> forall h v, size v <= k -> find_handler cfg t = POk h -> fin (run w cfg n h v t).
  Proof using Hstd Hwf Hknown.
    intros B t I. pose proof (Hwf t I) as A. induction A as [t A IH].
    destruct (max_all (fun t' n => forall h v, size v < k -> std_handler cfg h -> fin (run w cfg n h v t')) (mentioned w names t)) as [N1 H1].
    { intros t' I'. apply B. eapply involves_trans; [exact I|exact I']. }
    destruct (find_handler cfg t) as [h|r] eqn:F; [|exists 0; intros; discriminate].
    destruct (max_all (fun t' n => forall h v, size v <= k -> find_handler cfg t' = POk h -> fin (run w cfg n h v t')) (stays w names h t)) as [N2 H2].
    { intros t' I'. apply IH; [eapply stays_right; eassumption|]. eapply involves_trans; [exact I|]. eapply stays_mentioned. exact I'. }
    exists (S (Nat.max N1 N2)). intros [|n] L h0 v Sv [= <-]; [lia|]. cbn [run]. apply fin_body.
    - intros t' I'. apply Hknown. eapply involves_trans; [exact I|exact I'].
    - apply std_not_custom. exists t. exact F.
    - intros h' v' t' [h1 v1 t1 I1 L1 S1|h1 t1 I1 F1]; [apply H1; auto; lia|apply H2; auto; lia].
  Qed.
  Lemma fin_bound k : bound k.
  Proof using Hstd Hwf Hknown.
    induction k as [|k IH]; intros t I; [exists 0; intros; lia|].
    destruct (max_all (fun t' n => forall h v, size v < k -> std_handler cfg h -> fin (run w cfg n h v t')) (mentioned w names t)) as [N1 H1].
    { intros t' I'. apply IH. eapply involves_trans; [exact I|exact I']. }
    destruct (max_all (fun t' n => forall h v, size v <= k -> find_handler cfg t' = POk h -> fin (run w cfg n h v t')) (mentioned w names t)) as [N2 H2].
    { intros t' I'. apply fin_right; [exact IH|]. eapply involves_trans; [exact I|exact I']. }
    exists (S (Nat.max N1 N2)). intros [|n] L h v Sv Sh; [lia|]. cbn [run]. apply fin_body.
    - intros t' I'. apply Hknown. eapply involves_trans; [exact I|exact I'].
    - apply std_not_custom. exact Sh.
    - intros h' v' t' [h1 v1 t1 I1 L1 S1|h1 t1 I1 F1]; [apply H1; auto; lia|apply H2; auto; try lia]. eapply stays_mentioned. exact I1.
  Qed.
End Finish.

Section Results.
  Variable w : world.
  Variables basic strcons : list cid.
  Variable cfg : config.
  Hypothesis Hstd : is_std w basic strcons cfg.

  Notation fin names m := (tx w cfg (fun _ => None) (fun n t => In t (names n)) m (fun _ => True) (fun _ : exn => True)).
  Lemma used_okst names s : used w cfg s -> has_registered names s -> okst w cfg (fun _ => None) (fun n t => In t (names n)) s.
  Proof using. intros U K. split; [apply used_coh; exact U|discriminate|exact K]. Qed.
  Lemma fin_load names N s v t : used w cfg s -> has_registered names s -> has_involved w names t ->
    (forall h, find_handler cfg t = POk h -> fin names (run w cfg N h v t)) -> fst (load w cfg N v t s) <> OOF.
  Proof using.
    intros U Ks K G. pose proof (fin_load_with w cfg names (run w cfg N) v t None) as L.
    specialize (L (fun n => K n t (rt1n_refl _ _ _)) G s (used_okst names s U Ks)). unfold load, load_ann. intro E.
    destruct (load_with _ _ _ _ _ _ s) as [[| |] ?]; try discriminate. exact L.
  Qed.

  Lemma c22 names t :
    not_recursive w names t -> has_involved w names t ->
    exists N, forall s v, used w cfg s -> has_registered names s -> fst (load w cfg N v t s) <> OOF.
  Proof using Hstd.
    intros A K. destruct (fin_not_recursive w basic strcons cfg Hstd names t A (fun t' I n => K n t' I)) as [N H].
    exists N. intros s v U Ks. apply (fin_load names); auto. intros h F. apply H; [lia|exists t; exact F].
  Qed.
  Lemma c23 names t s v : used w cfg s -> has_registered names s -> has_involved w names t ->
    object_recursive w names t -> finishes w cfg s v t.
  Proof using Hstd.
    intros U Ks K A.
    destruct (fin_bound w basic strcons cfg Hstd names t A (fun t' I n => K n t' I) (S (size v)) t) as [N H]; [constructor|].
    exists (fst (load w cfg N v t s)). split; [|exists N; reflexivity].
    apply (fin_load names); auto. intros h F. apply H; [lia|lia|exists t; exact F].
  Qed.
End Results.
