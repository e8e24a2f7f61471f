(** * Tuples: fixed size tuples and dictionaries, item by item (C09, C39) *)

From Verif Require Import Loader Spec Inv Std Sound Fuel Obs Scalars Simple Transparent Hist Eval Items.



Lemma dict_items_as cfg v d : dict_items cfg v d <-> as_dict cfg v = VDict d.
Proof.
  split.
  - intros [->|[D [a [-> ->]]]]; cbn; [reflexivity|]. rewrite D. reflexivity.
  - intro E. destruct v; cbn in E; try discriminate; [left; congruence|].
    destruct (dictequivalence cfg) eqn:D; [|discriminate]. injection E as <-. right. eauto.
Qed.

Section Tuples.
  Variable w : world.
  Variables basic strcons : list cid.
  Variable cfg : config.
  Hypothesis Hstd : is_std w basic strcons cfg.
  Hypothesis Hwr : wf_reflect w.
  Variable env : string -> option ty.
  Notation p := (pep563 cfg).
  Variable s : lstate.
  Variable V : value.
  Variable T : ty.
  Hypothesis Us : used w cfg s.
  Hypothesis St : steady w basic cfg env s V T.
  Notation G := (reach w p env T).
  Notation Vok := (inside V).
  Notation SETTLED := (settled w cfg env (reach w p env T) (seen s)).
  Notation conv := (conv w cfg env s T).
  Notation regular := (regular w cfg env s T).
  Notation calls := (calls w cfg env s T).
  Notation FINDS := (finds w cfg env (reach w p env T) (seen s)).

  Lemma exact_kept et x : basicb cfg et && exact x et = true <-> kept_exact basic et x.
  Proof using Hstd.
    unfold basicb. replace (basictypes cfg) with basic by (symmetry; apply Hstd). unfold exact, kept_exact. split.
    - intro H. apply andb_true_iff in H. destruct H as [B E]. apply ty_eqb_eq in E. subst et. cbn in B. apply mem_cid_In in B. eauto.
    - intros [c [-> [B <-]]]. cbn. apply mem_cid_In in B. rewrite B, ty_eqb_refl. reflexivity.
  Qed.
  Lemma supported_basic c : In c basic -> exists h, find_handler cfg (TClass c) = POk h.
  Proof using Hstd.
    intro B. destruct (cid_eq_dec c CNone) as [->|N]; [eexists; eapply find_none; eassumption|].
    eexists. eapply find_basic; eassumption.
  Qed.

  Definition tlook (et : ty) : M handler :=
    fun s => match ty_get et (st_index s) with Some h => (Ok h, s) | None => lift (find_handler cfg et) s end.
  Lemma finds_tlook et : FINDS (tlook et) et XRaw.
  Proof using.
    intros s1 S1. unfold tlook. destruct (ty_get et (st_index s1)) as [h|] eqn:E.
    - pose proof (coh_index _ _ _ (proj1 S1) _ _ E) as F. rewrite F. auto.
    - unfold lift. destruct (find_handler cfg et); auto.
  Qed.
  Definition titem_prog (et : ty) (x : value) (m : nat) : M value :=
    bind (tlook et) (fun h => if basicb cfg et && exact x et then ret x else run w cfg m h x et).
  Lemma regular_titem et x : G et -> Vok x -> regular (titem_prog et x).
  Proof using Hstd Hwr Us St.
    intros Ge Vx. apply (regular_finds w basic cfg env s V T Us St (tlook et) et XRaw
      (fun h m => if basicb cfg et && exact x et then ret x else run w cfg m h x et) (finds_tlook et)).
    intros h F. destruct (basicb cfg et && exact x et); [apply regular_ret|eapply regular_call; eassumption].
  Qed.
  Lemma conv_titem et x y : G et -> Vok x -> (conv (titem_prog et x) (Ok y) <-> tuple_item_loads w basic cfg s et x y).
  Proof using Hstd Hwr Us St.
    intros Ge Vx. unfold titem_prog. destruct (find_handler cfg et) as [h|k] eqn:F.
    - rewrite (conv_found w basic cfg env s V T Us St (tlook et) et XRaw h
        (fun h m => if basicb cfg et && exact x et then ret x else run w cfg m h x et) (Ok y) (finds_tlook et) F).
      2: { destruct (basicb cfg et && exact x et); [apply regular_ret|eapply regular_call; eassumption]. }
      unfold tuple_item_loads. destruct (basicb cfg et && exact x et) eqn:E.
      + pose proof (proj1 (exact_kept et x) E) as K. rewrite (conv_ret w basic cfg env s V T Us St). split.
        * intros [= ->]. left. auto.
        * intros [[_ ->]|[NK _]]; [reflexivity|contradiction].
      + assert (NK : ~ kept_exact basic et x) by (intro K; apply exact_kept in K; congruence).
        rewrite (loads_ok_calls w basic strcons cfg Hstd Hwr env s V T Us St x et h y Ge Vx F). split; [right; auto|].
        intros [[K _]|[_ C]]; [contradiction|exact C].
    - rewrite (conv_notfound w basic cfg env s V T Us St (tlook et) et XRaw k
        (fun h m => if basicb cfg et && exact x et then ret x else run w cfg m h x et) (Ok y) (finds_tlook et) F).
      split; [discriminate|]. intros [[[c [-> [B _]]] _]|[_ L]]; exfalso.
      + destruct (supported_basic c B). congruence.
      + destruct L as [_ [n E]]. assert (k = RValue) by (eapply std_exc; eassumption). subst k.
        unfold load in E. rewrite (load_nohandler w cfg n x et None s (used_coh _ _ _ Us) F) in E. discriminate.
  Qed.

  Lemma tuple_loop_eq m v t l ts i acc s1 :
    tuple_loop cfg (run w cfg m) v t l ts i acc s1 =
    match ts, l with
    | et :: ts', x :: l' =>
        bind (attempt (titem_prog et x m)) (fun r =>
          match r with
          | inl y => tuple_loop cfg (run w cfg m) v t l' ts' (S i) (acc ++ [y])
          | inr e => item_error v t i e
          end) s1
    | _, _ => ret (VTuple acc) s1
    end.
  Proof using. destruct ts, l; reflexivity. Qed.
  Lemma regular_item_error {A} v t i e : regular (fun _ => @item_error A v t i e).
  Proof using. unfold item_error. destruct e as [|[]]; apply regular_raise. Qed.
  Lemma conv_item_error {A} v t i e (x : A) : ~ conv (fun _ => item_error v t i e) (Ok x).
  Proof using Us St.
    unfold item_error. destruct e as [|[]]; intro C; apply (conv_raise w basic cfg env s V T Us St) in C; discriminate.
  Qed.

  Lemma regular_tuple_loop v t l ts : (forall x, In x ts -> G x) -> (forall x, In x l -> Vok x) ->
    forall i acc, regular (fun m => tuple_loop cfg (run w cfg m) v t l ts i acc).
  Proof using Hstd Hwr Us St.
    revert l. induction ts as [|et ts IH]; intros l HG HV i acc.
    { eapply regular_ext; [intros m s1; symmetry; apply tuple_loop_eq|]. apply regular_ret. }
    destruct l as [|x l].
    { eapply regular_ext; [intros m s1; symmetry; apply tuple_loop_eq|]. apply regular_ret. }
    eapply regular_ext; [intros m s1; symmetry; apply tuple_loop_eq|].
    apply (regular_bind w basic cfg env s V T Us St (fun m => attempt (titem_prog et x m))
       (fun r m => match r with inl y => tuple_loop cfg (run w cfg m) v t l ts (S i) (acc ++ [y]) | inr e => item_error v t i e end)).
    - apply (regular_attempt w basic cfg env s V T Us St). apply regular_titem; [apply HG|apply HV]; left; reflexivity.
    - intros [y|e] _; [|apply regular_item_error]. apply IH; intros; [apply HG|apply HV]; right; assumption.
  Qed.
  Lemma conv_tuple_loop v t l ts : (forall x, In x ts -> G x) -> (forall x, In x l -> Vok x) ->
    forall i acc r, conv (fun m => tuple_loop cfg (run w cfg m) v t l ts i acc) (Ok r) <->
      exists ys, r = VTuple (acc ++ ys) /\
        Forall2 (fun tx y => tuple_item_loads w basic cfg s (fst tx) (snd tx) y) (combine ts l) ys.
  Proof using Hstd Hwr Us St.
    revert l. induction ts as [|et ts IH]; intros l HG HV i acc r.
    { erewrite (conv_ext w cfg env s T) by (intros m s1; apply tuple_loop_eq).
      rewrite (conv_ret w basic cfg env s V T Us St). cbn [combine]. split.
      - intros [= ->]. exists []. rewrite app_nil_r. auto.
      - intros [ys [-> F]]. inversion F. rewrite app_nil_r. reflexivity. }
    destruct l as [|x l].
    { erewrite (conv_ext w cfg env s T) by (intros m s1; apply tuple_loop_eq).
      rewrite (conv_ret w basic cfg env s V T Us St). cbn [combine]. split.
      - intros [= ->]. exists []. rewrite app_nil_r. auto.
      - intros [ys [-> F]]. inversion F. rewrite app_nil_r. reflexivity. }
    erewrite (conv_ext w cfg env s T) by (intros m s1; apply tuple_loop_eq).
    assert (Ge : G et) by (apply HG; left; reflexivity). assert (Vx : Vok x) by (apply HV; left; reflexivity).
    assert (RA : regular (fun m => attempt (titem_prog et x m))).
    { apply (regular_attempt w basic cfg env s V T Us St). apply regular_titem; assumption. }
    rewrite (conv_bind w basic cfg env s V T Us St (fun m => attempt (titem_prog et x m))
       (fun r m => match r with inl y => tuple_loop cfg (run w cfg m) v t l ts (S i) (acc ++ [y]) | inr e => item_error v t i e end) _ RA).
    2: { intros [y|e] _; [|apply regular_item_error]. apply regular_tuple_loop; intros; [apply HG|apply HV]; right; assumption. }
    cbn [combine]. split.
    - intros [[[y|e] [C1 C2]]|[e [_ E]]]; [|exfalso; eapply conv_item_error; exact C2|discriminate].
      apply IH in C2; [|intros; apply HG; right; assumption|intros; apply HV; right; assumption].
      destruct C2 as [ys [-> F]]. apply (conv_attempt w basic cfg env s V T Us St) in C1; [|apply regular_titem; assumption].
      destruct C1 as [[y' [C1 E]]|[e [_ E]]]; [|discriminate]. injection E as <-.
      exists (y :: ys). rewrite <- app_assoc. split; [reflexivity|]. constructor; [|exact F].
      apply conv_titem; assumption.
    - intros [ys [-> F]]. inversion F as [|tx y l1 ys' Hy F' E1 E2]. subst. left. exists (inl y). split.
      + apply (conv_attempt w basic cfg env s V T Us St); [apply regular_titem; assumption|]. left. exists y. split; [|reflexivity].
        apply conv_titem; assumption.
      + apply IH; [intros; apply HG; right; assumption|intros; apply HV; right; assumption|].
        exists ys'. rewrite <- app_assoc. auto.
  Qed.

  Lemma tupleload_fixed m v t n ts :
    t = TGen n OTuple (Some ts) -> fixed_size ts ->
    tupleload w cfg (run w cfg m) v t =
        match v with
        | VDict _ => raise (XTL KType MDictTuple [] (Some v) (Some t) [])
        | _ =>
            match iter v with
            | None => raise (XRaw RType)
            | Some l =>
                if failonextra cfg && Nat.ltb (List.length ts) (List.length l)
                then raise (XTL KValue (MTooLong t) [] (Some v) (Some t) [])
                else if Nat.ltb (List.length l) (List.length ts)
                then raise (XTL KValue (MTooShort t) [] (Some v) (Some t) [])
                else tuple_loop cfg (run w cfg m) v t l ts 0 []
            end
        end.
  Proof using.
    intros -> FS. unfold tupleload. cbn [ty_args].
    destruct ts as [|t1 [|t2 [|t3 ts]]]; try reflexivity; destruct t2; try reflexivity. exfalso. eapply FS. reflexivity.
  Qed.

  Lemma fixed_tuple n ts :
    T = TGen n OTuple (Some ts) -> fixed_size ts -> forall r,
    (loads w cfg s V T (Ok r) <->
     (forall d, V <> VDict d) /\
     exists l ys, iter V = Some l /\ List.length ts <= List.length l /\
       (failonextra cfg = true -> List.length l = List.length ts) /\
       Forall2 (fun tx y => tuple_item_loads w basic cfg s (fst tx) (snd tx) y) (combine ts l) ys /\
       r = VTuple ys).
  Proof using Hstd Hwr Us St.
    intros ET FS r.
    pose proof (find_tuple w basic strcons cfg Hstd n (Some ts)) as F. rewrite <- ET in F.
    rewrite (loads_ok_calls w basic strcons cfg Hstd Hwr env s V T Us St V T HTuple r (G_refl _ _ _ _) (V_refl _) F).
    rewrite calls_body. cbn [body]. 
    assert (HG : forall x, In x ts -> G x).
    { intros x Hx. eapply reach_step; [apply reach_refl|]. rewrite ET. exact Hx. }
    assert (Q : conv (fun m => tupleload w cfg (run w cfg m) V T) (Ok r) <->
       (forall d, V <> VDict d) /\ exists l, iter V = Some l /\
         (failonextra cfg && Nat.ltb (List.length ts) (List.length l) = false) /\ Nat.ltb (List.length l) (List.length ts) = false /\
         conv (fun m => tuple_loop cfg (run w cfg m) V T l ts 0 []) (Ok r)).
    { erewrite (conv_ext w cfg env s T) by (intros m s1; rewrite (tupleload_fixed m V T n ts ET FS); reflexivity).
      assert (ND : (exists d, V = VDict d) \/ (forall d, V <> VDict d)).
      { destruct V; try (right; discriminate). left. eauto. }
      destruct ND as [[d ED]|ND].
      - rewrite ED. split; [intro C; apply (conv_raise w basic cfg env s V T Us St) in C; discriminate|].
        intros [ND _]. exfalso. eapply ND. reflexivity.
      - assert (E : forall m s1, match V with
          | VDict _ => raise (XTL KType MDictTuple [] (Some V) (Some T) [])
          | _ =>
              match iter V with
              | None => raise (XRaw RType)
              | Some l =>
                  if failonextra cfg && Nat.ltb (List.length ts) (List.length l)
                  then raise (XTL KValue (MTooLong T) [] (Some V) (Some T) [])
                  else if Nat.ltb (List.length l) (List.length ts)
                  then raise (XTL KValue (MTooShort T) [] (Some V) (Some T) [])
                  else tuple_loop cfg (run w cfg m) V T l ts 0 []
              end
          end s1 = match iter V with
              | None => raise (XRaw RType)
              | Some l =>
                  if failonextra cfg && Nat.ltb (List.length ts) (List.length l)
                  then raise (XTL KValue (MTooLong T) [] (Some V) (Some T) [])
                  else if Nat.ltb (List.length l) (List.length ts)
                  then raise (XTL KValue (MTooShort T) [] (Some V) (Some T) [])
                  else tuple_loop cfg (run w cfg m) V T l ts 0 []
              end s1).
        { intros m s1. clear -ND. destruct V; try reflexivity. exfalso. eapply ND. reflexivity. }
        rewrite (conv_ext w cfg env s T _ _ (Ok r) E). clear E.
        destruct (iter V) as [l|] eqn:Il.
        2: { split; [intro C; apply (conv_raise w basic cfg env s V T Us St) in C; discriminate|].
             intros [_ [l [E _]]]. discriminate. }
        destruct (failonextra cfg && Nat.ltb (List.length ts) (List.length l)) eqn:E1.
        { split; [intro C; apply (conv_raise w basic cfg env s V T Us St) in C; discriminate|].
          intros [_ [l' [E [E2 _]]]]. injection E as <-. congruence. }
        destruct (Nat.ltb (List.length l) (List.length ts)) eqn:E2.
        { split; [intro C; apply (conv_raise w basic cfg env s V T Us St) in C; discriminate|].
          intros [_ [l' [E [_ [E3 _]]]]]. injection E as <-. congruence. }
        split.
        + intro C. split; [exact ND|]. exists l. auto.
        + intros [_ [l' [E [_ [_ C]]]]]. injection E as <-. exact C. }
    rewrite Q. clear Q. split.
    - intros [ND [l [Il [E1 [E2 C]]]]]. split; [exact ND|].
      assert (HV : forall x, In x l -> Vok x).
      { intros x Hx. eapply inside_step; [apply inside_refl|]. eapply part_item; eassumption. }
      apply (conv_tuple_loop V T l ts HG HV) in C. destruct C as [ys [-> F2]].
      apply Nat.ltb_ge in E2. exists l, ys. repeat split; auto. intro FE. rewrite FE in E1. cbn in E1. apply Nat.ltb_ge in E1. lia.
    - intros [ND [l [ys [Il [L1 [L2 [F2 ->]]]]]]]. split; [exact ND|].
      assert (HV : forall x, In x l -> Vok x).
      { intros x Hx. eapply inside_step; [apply inside_refl|]. eapply part_item; eassumption. }
      exists l. split; [exact Il|]. split.
      { destruct (failonextra cfg); [|reflexivity]. cbn. apply Nat.ltb_ge. rewrite L2; auto. }
      split; [apply Nat.ltb_ge; exact L1|]. apply (conv_tuple_loop V T l ts HG HV). exists ys. auto.
  Qed.
End Tuples.

(** the length checks hold in any state *)
Lemma tuple_lengths w basic strcons cfg s V n ts l :
  is_std w basic strcons cfg -> used w cfg s -> fixed_size ts ->
  (forall d, V <> VDict d) -> iter V = Some l ->
  List.length l < List.length ts \/ (failonextra cfg = true /\ List.length ts < List.length l) ->
  forall r, loads w cfg s V (TGen n OTuple (Some ts)) r -> raises KValue r.
Proof.
  intros Hstd Us FS ND Il L r Lr. pose proof (used_coh _ _ _ Us) as C.
  set (t := TGen n OTuple (Some ts)) in *.
  pose proof (find_tuple w basic strcons cfg Hstd n (Some ts)) as F. fold t in F.
  destruct Lr as [NO [m E]]. unfold load in E. rewrite (load_enter_fst w cfg m V t None s HTuple C F) in E.
  destruct m as [|m]; [cbn in E; congruence|]. cbn [run body] in E. rewrite (tupleload_fixed w cfg m V t n ts eq_refl FS) in E.
  assert (X : exists msg, fst (match V with
        | VDict _ => raise (XTL KType MDictTuple [] (Some V) (Some t) [])
        | _ =>
            match iter V with
            | None => raise (XRaw RType)
            | Some l =>
                if failonextra cfg && Nat.ltb (List.length ts) (List.length l)
                then raise (XTL KValue (MTooLong t) [] (Some V) (Some t) [])
                else if Nat.ltb (List.length l) (List.length ts)
                then raise (XTL KValue (MTooShort t) [] (Some V) (Some t) [])
                else tuple_loop cfg (run w cfg m) V t l ts 0 []
            end
        end (enter w cfg t HTuple s)) = Exc (XTL KValue msg [] (Some V) (Some t) [])).
  { assert (Y : exists msg, fst ((match iter V with
            | None => raise (XRaw RType)
            | Some l =>
                if failonextra cfg && Nat.ltb (List.length ts) (List.length l)
                then raise (XTL KValue (MTooLong t) [] (Some V) (Some t) [])
                else if Nat.ltb (List.length l) (List.length ts)
                then raise (XTL KValue (MTooShort t) [] (Some V) (Some t) [])
                else tuple_loop cfg (run w cfg m) V t l ts 0 []
            end) (enter w cfg t HTuple s)) = Exc (XTL KValue msg [] (Some V) (Some t) [])).
    { rewrite Il. destruct (failonextra cfg && Nat.ltb (List.length ts) (List.length l)) eqn:E1; [cbn; eauto|].
      destruct (Nat.ltb (List.length l) (List.length ts)) eqn:E2; [cbn; eauto|]. exfalso.
      apply Nat.ltb_ge in E2. destruct L as [L|[FE L]]; [lia|]. rewrite FE in E1. cbn in E1. apply Nat.ltb_ge in E1. lia. }
    destruct V; try exact Y. exfalso. eapply ND. reflexivity. }
  destruct X as [msg X]. rewrite X in E. cbn in E. rewrite <- E. unfold raises. eauto 10.
Qed.
