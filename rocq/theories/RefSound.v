(** * RefSound: what load returns is what the reference semantics gives (C43) *)

From Verif Require Import Sound Loader Spec Inv Std Trace Hist Obs Enums Items Objects ObjFacts Scalars Stops.
From Verif Require Export Reference.

Lemma Forall2_combine {A B} (R : A -> B -> Prop) l l' :
  Forall2 R l l' -> List.length l = List.length l' /\ forall x y, In (x, y) (combine l l') -> R x y.
Proof.
  induction 1 as [|x y l l' H F [L IH]]; cbn; [split; [reflexivity|intros ? ? []]|].
  split; [congruence|]. intros a b [[= <- <-]|I]; auto.
Qed.
Lemma combine_Forall2 {A B} (R : A -> B -> Prop) l l' :
  List.length l = List.length l' -> (forall x y, In (x, y) (combine l l') -> R x y) -> Forall2 R l l'.
Proof.
  revert l'. induction l as [|x l IH]; intros [|y l']; cbn; intros L H; try discriminate; constructor; auto.
Qed.

Lemma Forall2_imp {A B} (R R' : A -> B -> Prop) l l' :
  (forall x y, R x y -> R' x y) -> Forall2 R l l' -> Forall2 R' l l'.
Proof. induction 2; constructor; auto. Qed.

(** calling the handler of a type does not raise StopIteration *)
Definition quiet (w : world) (cfg : config) (SF : lstate) (call : handler -> value -> ty -> M value) : Prop :=
  forall h v t, never_stops w (pep563 cfg) (names_of SF) t -> find_handler cfg t = POk h -> hl (coh w cfg) (call h v t) (fun _ => True) NS.

Section Sound.
  Variable w : world.
  Variables basic strcons : list cid.
  Variable cfg : config.
  Hypothesis Hstd : is_std w basic strcons cfg.
  Hypothesis Hwr : wf_reflect w.
  (** the states at the beginning and at the end *)
  Variables S0 SF : lstate.
  Notation p := (pep563 cfg).
  Notation env := (names_of SF).
  Notation unseen := (fun t => ~ seen S0 t).
  Notation reach := (reach w p env).
  Notation gd := (gd w cfg).
  Notation gives := (gives w basic strcons cfg env unseen).
  Notation as_is := (as_is w basic).

  Record tidy (v : value) (t : ty) : Prop := mkTidy {
    td_type : forall c, reach t (TClass c) -> object_class w basic strcons c -> distinct_names w cfg c;
    td_data : forall x, inside v x -> python_data x;
    td_calm : never_stops w p env t
  }.
  Lemma tidy_comp v t t' : tidy v t -> component w p env t t' -> tidy v t'.
  Proof using. intros [H1 H2 H3] C. split; [|exact H2|eapply G_comp; eassumption]. intros c R. apply H1. eapply rt1n_trans; eassumption. Qed.
  Lemma tidy_part v t x : tidy v t -> part v x -> tidy x t.
  Proof using. intros [H1 H2 H3] P. split; [exact H1| |exact H3]. intros y I. apply H2. econstructor; eassumption. Qed.

  Definition hs {A} (m : M A) (Q : A -> Prop) : Prop :=
    forall s, coh w cfg s -> (forall t, seen S0 t -> seen s t) -> st_le (snd (m s)) SF ->
      match fst (m s) with Ok a => Q a | _ => True end.
  Lemma hs_ret {A} (a : A) (Q : A -> Prop) : Q a -> hs (ret a) Q.
  Proof using. intros H s C L U. exact H. Qed.
  Lemma hs_same {A} (m m' : M A) Q : (forall s, coh w cfg s -> m' s = m s) -> hs m' Q -> hs m Q.
  Proof using. intros E H s C L U. specialize (H s C L). rewrite (E s C) in H. apply H. exact U. Qed.
  Lemma hs_raise {A} e (Q : A -> Prop) : hs (raise e) Q.
  Proof using. intros s C L U. exact I. Qed.
  Lemma hs_lift {A} (r : pyres A) (Q : A -> Prop) : (forall a, r = POk a -> Q a) -> hs (lift r) Q.
  Proof using. intros HQ. destruct r; [apply hs_ret; auto|apply hs_raise; auto]. Qed.
  Lemma seen_le s s' : st_le s s' -> forall t, seen s t -> seen s' t.
  Proof using. intros L t. unfold seen. destruct (ty_get t (st_index s)) eqn:E; [|congruence]. intros _. rewrite (le_index _ _ L _ _ E). discriminate. Qed.
  Lemma hs_bind {A B} (m : M A) (f : A -> M B) Q1 Q :
    gd m -> (forall a, gd (f a)) -> hs m Q1 -> (forall a, Q1 a -> hs (f a) Q) -> hs (bind m f) Q.
  Proof using.
    intros Gm Gf Hm Hf s C L. unfold bind. specialize (Hm s C L). specialize (Gm s).
    destruct (m s) as [[a|e|] s1]; cbn [fst snd] in *; intro U; auto.
    assert (C1 : coh w cfg s1) by (apply Gm; exact C).
    assert (L1 : st_le s1 SF) by (eapply st_le_trans; [apply Gf|exact U]).
    apply (Hf a (Hm L1) s1 C1); [|exact U]. intros t Ht. eapply seen_le; [apply Gm|auto].
  Qed.
  Lemma hs_catch {A} (m : M A) f Q :
    gd m -> (forall e, gd (f e)) -> hs m Q -> (forall e, hs (f e) Q) -> hs (catch m f) Q.
  Proof using.
    intros Gm Gf Hm Hf s C L. unfold catch. specialize (Hm s C L). specialize (Gm s).
    destruct (m s) as [[a|e|] s1]; cbn [fst snd] in *; intro U; try (apply Hm; exact U).
    assert (C1 : coh w cfg s1) by (apply Gm; exact C).
    apply (Hf e s1 C1); [|exact U]. intros t Ht. eapply seen_le; [apply Gm|auto].
  Qed.
  Lemma hs_attempt {A} (m : M A) (Q : A -> Prop) :
    hs m Q -> hs (attempt m) (fun r => match r with inl a => Q a | inr _ => True end).
  Proof using.
    intros Hm s C L. unfold attempt. specialize (Hm s C L).
    destruct (m s) as [[a|e|] s1]; cbn [fst snd] in *; auto.
  Qed.
  Lemma hs_weak {A} (m : M A) (Q Q' : A -> Prop) : hs m Q -> (forall a, Q a -> Q' a) -> hs m Q'.
  Proof using. intros Hm HQ s C L U. specialize (Hm s C L U). destruct (fst (m s)); auto. Qed.
  Lemma hs_any {A} (m : M A) : hs m (fun _ => True).
  Proof using. intros s C L U. destruct (fst (m s)); exact I. Qed.

  Variable call : handler -> value -> ty -> M value.
  Hypothesis Gcall : forall h v t, gd (call h v t).
  Hint Resolve Gcall : core.
  Hint Resolve Gcall : gddb.
  Hypothesis Hcall : forall h v t, tidy v t -> find_handler cfg t = POk h -> hs (call h v t) (gives v t).
  Hypothesis Ncall : quiet w cfg SF call.
  (** the handlers of basic types, which may be called for the keys *)
  Hypothesis Hkey : forall k t,
    hs (call HNone k t) (fun r => k = VNone /\ r = VNone) /\
    hs (call HBasic k t) (fun r => (TClass (type_of k) = t /\ r = k) \/ (TClass (type_of k) <> t /\ basiccast cfg = true /\ makes w t k r)).

  Lemma sd_lookup nf t : hs (lookup_handler cfg nf t) (fun h => find_handler cfg t = POk h).
  Proof using.
    intros s C L U. unfold lookup_handler in *. destruct (ty_get t (st_index s)) eqn:E; cbn [fst].
    - apply (coh_index _ _ _ C). exact E.
    - destruct (find_handler cfg t) as [h|[]] eqn:F; cbn [fst]; auto.
  Qed.
  Lemma sd_load_with v t a : tidy v t -> hs (load_with w cfg call v t a) (gives v t).
  Proof using Hcall Gcall.
    intro Td. unfold load_with. apply hs_bind with (Q1 := fun h => find_handler cfg t = POk h).
    - intro s. destruct (ty_get t (st_index s)) eqn:E; [apply good_refl|].
      destruct (find_handler cfg t) as [h|[]] eqn:F; cbn [snd]; try apply good_refl.
      eapply good_trans; [apply (good_index w cfg s t h E F)|apply good_reg].
    - intro h. gd_auto.
    - intros s C L _. destruct (ty_get t (st_index s)) eqn:E; cbn [fst].
      + apply (coh_index _ _ _ C). exact E.
      + destruct (find_handler cfg t) as [h|[]] eqn:F; cbn [fst]; auto.
    - intros h F. apply hs_catch; [apply Gcall|intro; gd_auto|exact (Hcall h v t Td F)|].
      intros e. destruct (is_tl e); apply hs_raise.
  Qed.

  Lemma basicb_In t : basicb cfg t = true -> exists c, t = TClass c /\ In c basic.
  Proof using Hstd.
    unfold basicb. rewrite (proj2 Hstd). destruct t as [c| | | | | | |]; try discriminate. cbn. intro H. exists c. split; [reflexivity|]. apply mem_cid_In. exact H.
  Qed.
  Lemma kept_as t x : basicb cfg t && isinst w x t = true -> as_is t x x.
  Proof using Hstd.
    intro H. apply andb_true_iff in H as [B H]. destruct (basicb_In t B) as [c [-> I0]]. split; [reflexivity|]. exists c. auto.
  Qed.
  Lemma kept_b t x : kept w basic t x -> basicb cfg t && isinst w x t = true.
  Proof using Hstd.
    intros [c [-> [I0 H]]]. unfold basicb. rewrite (proj2 Hstd). cbn. rewrite (proj2 (mem_cid_In _ _) I0). exact H.
  Qed.

  (** ** Collections *)
  Lemma sd_iter_item h et x : tidy x et -> find_handler cfg et = POk h ->
    hs (iter_item w cfg call h et x) (fun y => as_is et x y \/ (~ kept w basic et x /\ gives x et y)).
  Proof using Hstd Hcall.
    intros Td F. unfold iter_item.
    assert (C : ~ kept w basic et x -> hs (call h x et) (fun y => as_is et x y \/ (~ kept w basic et x /\ gives x et y))) by (intro K; eapply hs_weak; [apply Hcall; assumption|auto]).
    destruct (basicb cfg et) eqn:B.
    { destruct (isinst w x et) eqn:I0; [|apply C; intro K; apply kept_b in K; rewrite B, I0 in K; discriminate]. apply hs_ret. left. apply kept_as. rewrite B, I0. reflexivity. }
    assert (NK : ~ kept w basic et x) by (intro K; apply kept_b in K; rewrite B in K; discriminate).
    specialize (C NK).
    destruct et as [|n o [us|]| | | | | | ]; try exact C; destruct o; try exact C.
    destruct (_ && _) eqn:K; [|exact C]. apply hs_ret. right. split; [exact NK|]. apply gv_union_own.
    apply andb_true_iff in K as [K1 K2]. apply mem_ty_In in K2. split; [|exact K2].
    rewrite forallb_forall in K1. specialize (K1 _ K2). apply basicb_In in K1 as [c [[= ->] H]]. exact H.
  Qed.
  Lemma sd_iter_loop k h et v t :
    find_handler cfg et = POk h ->
    forall l i ys0 acc, (forall x, In x l -> tidy x et) -> partial w k ys0 acc ->
    hs (iter_loop w k false (iter_item w cfg call h et) v t l i acc)
       (fun r => exists ys, Forall2 (fun x y => as_is et x y \/ (~ kept w basic et x /\ gives x et y)) l ys /\ collect w k (ys0 ++ ys) = Some r).
  Proof using Hstd Hcall Gcall.
    intros F l. induction l as [|x l IH]; intros i ys0 acc Hl P; cbn [iter_loop].
    { apply hs_ret. exists []. split; [constructor|]. rewrite app_nil_r. apply partial_collect. exact P. }
    eapply hs_bind; [gd_auto|intros [|e0]; gd_auto| |].
    { apply hs_attempt with (Q := fun acc' => exists y, (as_is et x y \/ (~ kept w basic et x /\ gives x et y)) /\ partial w k (ys0 ++ [y]) acc').
      eapply hs_bind; [auto with gddb|intro; gd_auto|apply sd_iter_item; [apply Hl; left; reflexivity|exact F]|].
      intros y Hy. apply hs_lift. intros acc' E. exists y. split; [exact Hy|]. eapply partial_step; eassumption. }
    intros [acc'|e] H; [|destruct e as [? ? ? ? ? ?|[]]; apply hs_raise].
    destruct H as [y [Hy P']]. eapply hs_weak; [apply (IH (S i) (ys0 ++ [y]) acc'); [intros; apply Hl; right; assumption|exact P']|].
    intros r [ys [F2 C]]. exists (y :: ys). split; [constructor; assumption|]. rewrite <- app_assoc in C. exact C.
  Qed.
  Lemma sd_iterload k n et rest v : tidy v (coll_type k n et rest) ->
    hs (iterload w cfg call k v (coll_type k n et rest)) (gives v (coll_type k n et rest)).
  Proof using Hstd Hcall Gcall Ncall.
    intro Td.
    assert (A : exists rest', ty_args (coll_type k n et rest) = Some (et :: rest')) by (destruct k; eexists; reflexivity).
    destruct A as [rest' A].
    assert (Co : component w p env (coll_type k n et rest) et) by (destruct k; left; reflexivity).
    assert (B : (forall d, v <> VDict d) -> hs
      (bind (lookup_handler cfg (XTL KType (MCannotDeal et) [] (Some v) (Some et) []) et) (fun h =>
       match iter v with
      | None => raise (XTL KType (MPy RType) [] (Some v) (Some (coll_type k n et rest)) [])
      | Some l => iter_loop w k (mapped cfg et) (iter_item w cfg call h et) v (coll_type k n et rest) l 0 []
      end)) (gives v (coll_type k n et rest))).
    { intro ND. eapply hs_bind; [auto with gddb|intro; gd_auto|apply sd_lookup|]. intros h F.
      destruct (iter v) as [l|] eqn:I0; [|apply hs_raise].
      assert (Ns : forall x, hl (coh w cfg) (iter_item w cfg call h et x) (fun _ => True) NS).
      { intro x. pose proof (Ncall h x et (G_comp w cfg env _ _ (td_calm _ _ Td) Co) F) as R. unfold iter_item.
        repeat match goal with |- context [match ?z with _ => _ end] => destruct z end; try exact R; apply hl_ret; exact I. }
      eapply hs_same; [intros s Cs; symmetry; apply (iter_loop_calm (coh w cfg)); [exact Ns|exact Cs]|]. clear Ns.
      eapply hs_weak; [apply (sd_iter_loop k h et v _ F l 0 [] [])|].
      - intros x Hx. eapply tidy_part; [eapply tidy_comp; eassumption|]. eapply part_item; eassumption.
      - apply partial_nil.
      - cbv beta. cbn [app]. intros r [ys [F2 C]]. apply Forall2_combine in F2 as [L2 H2].
        eapply gv_collection; [apply supported_find; exists h; exact F|split; [exact ND|exact I0]|exact L2| | |exact C];
          intros x y Hxy K; destruct (H2 x y Hxy) as [[Q1 Q2]|[Q1 Q2]]; auto; contradiction. }
    unfold iterload. rewrite A. destruct v; try (apply B; discriminate). apply hs_raise.
  Qed.

  (** ** Tuples *)
  Lemma sd_tuple_loop v t : forall ts l i acc,
    (forall et x, In (et, x) (combine ts l) -> tidy x et) -> List.length ts <= List.length l ->
    hs (tuple_loop cfg call v t l ts i acc)
       (fun r => exists ys, r = VTuple (acc ++ ys) /\ List.length ys = List.length ts /\
          forall et x y, In (et, (x, y)) (combine ts (combine l ys)) -> gives x et y).
  Proof using Hstd Hcall Gcall Ncall.
    induction ts as [|et ts IH]; intros l i acc Hl Le; cbn [tuple_loop].
    { destruct l; cbn [tuple_loop]; apply hs_ret; exists []; (split; [rewrite app_nil_r; reflexivity|split; [reflexivity|intros ? ? ? []]]). }
    destruct l as [|x l]; [cbn in Le; lia|]. cbn in Le. cbn [tuple_loop].
    eapply hs_bind; [gd_auto|intros [|]; gd_auto| |].
    { intro s. destruct (ty_get et (st_index s)); [apply good_refl|]. destruct (find_handler cfg et); apply good_refl. }
    { apply hs_attempt with (Q := gives x et).
      apply hs_bind with (Q1 := fun h => find_handler cfg et = POk h); [|intro; gd_auto| |].
      - intro s. destruct (ty_get et (st_index s)); [apply good_refl|]. destruct (find_handler cfg et); apply good_refl.
      - intros s C L U. destruct (ty_get et (st_index s)) eqn:E; cbn [fst]; [apply (coh_index _ _ _ C); exact E|].
        destruct (find_handler cfg et) eqn:F; cbn; auto.
      - intros h F. destruct (_ && _) eqn:K.
        + apply hs_ret. apply andb_true_iff in K as [K1 K2]. apply basicb_In in K1 as [c [-> I0]].
          unfold exact in K2. apply ty_eqb_eq in K2. injection K2 as K2.
          destruct (cid_eqb c CNone) eqn:EC.
          * apply cid_eqb_eq in EC. rewrite EC in K2 |- *.
            pose proof (td_data _ _ (Hl _ _ (or_introl eq_refl)) x (rt1n_refl _ _ _)) as [_ PN]. rewrite (PN K2). apply gv_none.
          * apply gv_same; auto. intros ->. discriminate.
        + apply Hcall; [|exact F]. apply Hl. left. reflexivity. }
    intros [y|e] H; [|destruct e as [? ? ? ? ? ?|[]]; apply hs_raise].
    eapply hs_weak; [apply IH; [intros; apply Hl; right; assumption|lia]|].
    intros r [ys [-> [L2 H2]]]. exists (y :: ys). rewrite <- app_assoc. cbn. split; [reflexivity|]. split; [congruence|].
    intros et' x' y' [[= <- <- <-]|I0]; [exact H|]. apply H2. exact I0.
  Qed.
  Lemma sd_tupleload n ts v : tidy v (TGen n OTuple (Some ts)) ->
    hs (tupleload w cfg call v (TGen n OTuple (Some ts))) (gives v (TGen n OTuple (Some ts))).
  Proof using Hstd Hcall Gcall Ncall.
    intro Td.
    assert (B : fixed_size ts -> hs (match v with
        | VDict _ => raise (XTL KType MDictTuple [] (Some v) (Some (TGen n OTuple (Some ts))) [])
        | _ =>
            match iter v with
            | None => raise (XRaw RType)
            | Some l =>
                if failonextra cfg && Nat.ltb (List.length ts) (List.length l)
                then raise (XTL KValue (MTooLong (TGen n OTuple (Some ts))) [] (Some v) (Some (TGen n OTuple (Some ts))) [])
                else if Nat.ltb (List.length l) (List.length ts)
                then raise (XTL KValue (MTooShort (TGen n OTuple (Some ts))) [] (Some v) (Some (TGen n OTuple (Some ts))) [])
                else tuple_loop cfg call v (TGen n OTuple (Some ts)) l ts 0 []
            end
        end) (gives v (TGen n OTuple (Some ts)))).
    { intro FS. assert (C : (forall d, v <> VDict d) -> forall l, iter v = Some l -> hs (
                if failonextra cfg && Nat.ltb (List.length ts) (List.length l)
                then raise (XTL KValue (MTooLong (TGen n OTuple (Some ts))) [] (Some v) (Some (TGen n OTuple (Some ts))) [])
                else if Nat.ltb (List.length l) (List.length ts)
                then raise (XTL KValue (MTooShort (TGen n OTuple (Some ts))) [] (Some v) (Some (TGen n OTuple (Some ts))) [])
                else tuple_loop cfg call v (TGen n OTuple (Some ts)) l ts 0 []) (gives v (TGen n OTuple (Some ts)))).
      { intros ND l I0. destruct (_ && _) eqn:E1; [apply hs_raise|].
        destruct (Nat.ltb (List.length l) (List.length ts)) eqn:E2; [apply hs_raise|]. apply Nat.ltb_ge in E2.
        eapply hs_weak; [apply sd_tuple_loop; [|exact E2]|].
        - intros et x H. eapply tidy_part; [eapply tidy_comp; [exact Td|]|].
          + unfold component, comps. eapply in_combine_l. exact H.
          + eapply part_item; [exact I0|]. eapply in_combine_r. exact H.
        - cbv beta. cbn [app]. intros r [ys [-> [L2 H2]]]. eapply gv_tuple; try eassumption; [split; assumption|].
          intro FE. rewrite FE in E1. cbn in E1. apply Nat.ltb_ge in E1. lia. }
      destruct (iter v) as [l|] eqn:I0; [destruct v; try (apply C; [discriminate|reflexivity]); apply hs_raise|].
      destruct v; apply hs_raise. }
    unfold tupleload. cbn [ty_args]. destruct ts as [|a [|b [|c ts]]].
    - apply B. intros t. discriminate.
    - apply B. intros t. discriminate.
    - destruct (ty_eqb b TEllipsis) eqn:E.
      + apply ty_eqb_eq in E. subst b. exact (sd_iterload KoTuple n a [] v Td).
      + assert (NE : b <> TEllipsis) by (intros ->; rewrite ty_eqb_refl in E; discriminate).
        destruct b; try congruence; apply B; intros t' [= _ Q]; congruence.
    - destruct b; apply B; intros t'; discriminate.
  Qed.

  (** ** Dict *)
  Lemma sd_dict_fast (KR VR : value -> value -> Prop) kt vt kf vf :
    (forall k, tidy k kt -> hs (if basicb cfg kt && isinst w k kt then ret k else call kf k kt) (KR k)) ->
    (forall x, tidy x vt -> hs (if basicb cfg vt && isinst w x vt then ret x
               else match vf with Some h => call h x vt | None => raise (XRaw RName) end) (VR x)) ->
    forall d kvs0, (forall k x, In (k, x) d -> tidy k kt /\ tidy x vt) ->
    hs (dict_fast w cfg call kt vt kf vf d (dict_of kvs0))
       (fun r => exists kvs, r = VDict (dict_of (kvs0 ++ kvs)) /\
          Forall2 (fun kx ky => KR (fst kx) (fst ky) /\ VR (snd kx) (snd ky)) d kvs /\
          forall k, In k (map fst kvs) -> hashable w k = true).
  Proof using Gcall.
    intros HK HV d. induction d as [|[k x] d IH]; intros kvs0 Hd; cbn [dict_fast].
    { apply hs_ret. exists []. rewrite app_nil_r. split; [reflexivity|]. split; [constructor|intros ? []]. }
    destruct (Hd k x (or_introl eq_refl)) as [Tk Tx].
    eapply hs_bind with (Q1 := KR k); [gd_auto|intro; gd_auto|apply HK; exact Tk|]. intros k' Hk'.
    eapply hs_bind with (Q1 := VR x); [gd_auto|intro; gd_auto|apply HV; exact Tx|]. intros x' Hx'.
    destruct (hashable w k') eqn:Hh; [|apply hs_raise].
    assert (E : dict_set k' x' (dict_of kvs0) = dict_of (kvs0 ++ [(k', x')])).
    { unfold dict_of. rewrite fold_left_app. reflexivity. }
    rewrite E. eapply hs_weak; [apply IH; intros; apply Hd; right; assumption|].
    intros r [kvs [-> [F2 H2]]]. exists ((k', x') :: kvs). rewrite <- app_assoc. split; [reflexivity|]. split; [constructor; auto|].
    intros k0 [<-|I0]; auto.
  Qed.
  Lemma sd_dict_slow kt vt : forall d kvs0, (forall k x, In (k, x) d -> tidy k kt /\ tidy x vt) ->
    hs (dict_slow w cfg call kt vt d (dict_of kvs0))
       (fun r => exists kvs, r = VDict (dict_of (kvs0 ++ kvs)) /\
          Forall2 (fun kx ky => gives (fst kx) kt (fst ky) /\ gives (snd kx) vt (snd ky)) d kvs /\
          forall k, In k (map fst kvs) -> hashable w k = true).
  Proof using Hcall Gcall Ncall.
    intro d. induction d as [|[k x] d IH]; intros kvs0 Hd; cbn [dict_slow].
    { apply hs_ret. exists []. rewrite app_nil_r. split; [reflexivity|]. split; [constructor|intros ? []]. }
    destruct (Hd k x (or_introl eq_refl)) as [Tk Tx].
    eapply hs_bind; [gd_auto|intro; gd_auto|apply sd_load_with; exact Tk|]. intros k' Hk'.
    eapply hs_bind; [gd_auto|intro; gd_auto|apply sd_load_with; exact Tx|]. intros x' Hx'.
    destruct (hashable w k') eqn:Hh; [|apply hs_raise].
    assert (E : dict_set k' x' (dict_of kvs0) = dict_of (kvs0 ++ [(k', x')])).
    { unfold dict_of. rewrite fold_left_app. reflexivity. }
    rewrite E. eapply hs_weak; [apply IH; intros; apply Hd; right; assumption|].
    intros r [kvs [-> [F2 H2]]]. exists ((k', x') :: kvs). rewrite <- app_assoc. split; [reflexivity|]. split; [constructor; auto|].
    intros k0 [<-|I0]; auto.
  Qed.
  Lemma dict_rule n kt vt v d kvs :
    supported cfg kt -> supported cfg vt ->
    dict_items cfg v d ->
    Forall2 (fun kx ky => (as_is kt (fst kx) (fst ky) \/ gives (fst kx) kt (fst ky)) /\
                          (as_is vt (snd kx) (snd ky) \/ gives (snd kx) vt (snd ky))) d kvs ->
    (forall k, In k (map fst kvs) -> hashable w k = true) ->
    gives v (TGen n ODict (Some [kt; vt])) (VDict (dict_of kvs)).
  Proof using.
    intros S1 S2 D F H. apply Forall2_combine in F as [L F].
    eapply gv_dict; [exact S1|exact S2|exact D|exact L| | |exact H]; intros k x k' y I0; destruct (F (k, x) (k', y) I0) as [Fk Fv];
      cbn [fst snd] in *; [destruct Fk|destruct Fv]; (apply rd_same; assumption) || (apply rd_gives; assumption).
  Qed.
  Lemma sd_dictload n args v : tidy v (TGen n ODict args) ->
    hs (dictload w cfg call v (TGen n ODict args)) (gives v (TGen n ODict args)).
  Proof using Hstd Hcall Hkey Gcall Ncall.
    intro Td. unfold dictload. cbn [ty_args].
    destruct args as [[|kt [|vt [|? ?]]]|]; try apply hs_raise.
    assert (Gl2 : forall kf0, gd (fun s => match ty_get vt (st_index s) with
             | Some h => (@Ok (handler * option handler) (kf0, Some h), s)
             | None => match find_handler cfg vt with
                 | POk h => (Ok (h, None), set_index (cons (vt, h)) s)
                 | PExc RValue => (Exc (XTL KValue (MCannotVal vt (TGen n ODict (Some [kt; vt]))) [] (Some v) (Some vt) []), s)
                 | PExc r => (Exc (XRaw r), s)
                 end
             end)).
    { intros kf0 s. destruct (ty_get vt (st_index s)) eqn:E; [apply good_refl|].
      destruct (find_handler cfg vt) as [h|[]] eqn:F; cbn [snd]; try apply good_refl. apply good_index; assumption. }
    eapply hs_bind; [auto with gddb| |apply sd_lookup|].
    { intro kf0. apply gd_bind; [apply Gl2|intros [kf vf]; gd_auto]. }
    intros kf0 F0. cbv beta in F0.
    assert (SK : supported cfg kt) by (apply supported_find; eauto).
    apply hs_bind with (Q1 := fun kv =>
      (find_handler cfg kt = POk (fst kv) /\ exists h, snd kv = Some h /\ find_handler cfg vt = POk h) \/
      (snd kv = None /\ find_handler cfg vt = POk (fst kv) /\ ~ seen S0 vt)).
    - apply Gl2.
    - intros [kf vf]. gd_auto.
    - intros s C L U. destruct (ty_get vt (st_index s)) as [h|] eqn:E; cbn [fst snd].
      + left. split; [exact F0|]. exists h. split; [reflexivity|]. apply (coh_index _ _ _ C). exact E.
      + destruct (find_handler cfg vt) as [h|[]] eqn:F; cbn [fst snd]; auto. right. repeat split; auto.
        intro Q. apply (L _ Q). exact E.
    - intros [kf vf] HF. cbn [fst snd] in HF. cbv zeta.
      assert (SV : supported cfg vt) by (apply supported_find; destruct HF as [[_ [h [_ HF]]]|[_ [HF _]]]; eauto).
      assert (DD : (exists d, as_dict cfg v = VDict d /\ dict_items cfg v d) \/ (forall d, as_dict cfg v <> VDict d)).
      { destruct v; cbn [as_dict]; try (right; discriminate).
        - left. eexists. split; [reflexivity|]. apply as_dict_items. reflexivity.
        - destruct (dictequivalence cfg) eqn:DE; [|right; discriminate]. left. eexists. split; [reflexivity|]. apply as_dict_items. cbn. rewrite DE. reflexivity. }
      destruct DD as [[d [ED DI]]|ND].
      2: { assert (X : forall (f g : list (value * value) -> M value),
              hs (catch (match as_dict cfg v with VDict d => f d | _ => raise (XRaw RAttr) end)
              (fun _ => catch (match as_dict cfg v with VDict d => g d | _ => raise (XRaw RAttr) end)
               (fun e =>
                  match e with
                  | XRaw RAttr => raise (XTL KAttr (MPy RAttr) [] (Some (as_dict cfg v)) (Some (TGen n ODict (Some [kt; vt]))) [])
                  | XTL KAttr m _ _ _ _ => raise (XTL KAttr (MNested m) [] (Some (as_dict cfg v)) (Some (TGen n ODict (Some [kt; vt]))) [])
                  | _ => raise e
                  end))) (gives v (TGen n ODict (Some [kt; vt])))).
           { intros f g. destruct (as_dict cfg v); try (exfalso; eapply ND; reflexivity); intros sx _ _ _; exact I. }
           apply X. }
      rewrite ED.
      assert (Hd : forall k x, In (k, x) d -> tidy k kt /\ tidy x vt).
      { intros k x I0. destruct (dict_items_part cfg v d k x DI I0) as [P1 P2]. split; eapply tidy_part; try eassumption.
        - eapply tidy_comp; [exact Td|]. left. reflexivity.
        - eapply tidy_comp; [exact Td|]. right. left. reflexivity. }
      apply hs_catch; [gd_auto|intro; gd_auto| |].
      + destruct HF as [[FK [hv [-> FV]]]|[-> [FV US]]].
        * eapply hs_weak; [apply (sd_dict_fast (fun k k' => as_is kt k k' \/ gives k kt k') (fun x y => as_is vt x y \/ gives x vt y)) with (kvs0 := []); [| |exact Hd]|].
          -- intros k Tk. destruct (_ && _) eqn:B; [apply hs_ret; left; apply kept_as; exact B|]. eapply hs_weak; [apply Hcall; assumption|auto].
          -- intros x Tx. destruct (_ && _) eqn:B; [apply hs_ret; left; apply kept_as; exact B|]. eapply hs_weak; [apply Hcall; assumption|auto].
          -- cbv beta. cbn [app]. intros r [kvs [-> [F2 H2]]]. eapply dict_rule; eassumption.
        * destruct (basicb cfg vt) eqn:BV.
          -- destruct (basicb_In vt BV) as [c [-> IB]].
             eapply hs_weak; [apply (sd_dict_fast (fun k k' => as_is kt k k' \/
                 (c = CNone /\ k = VNone /\ k' = VNone) \/
                 (c <> CNone /\ TClass (type_of k) = kt /\ k' = k) \/
                 (c <> CNone /\ TClass (type_of k) <> kt /\ basiccast cfg = true /\ makes w kt k k')) (fun x y => y = x /\ isinstance w x c = true)) with (kvs0 := []); [| |exact Hd]|].
             ++ intros k Tk. destruct (_ && _) eqn:B; [apply hs_ret; left; apply kept_as; exact B|].
                destruct (Hkey k kt) as [K1 K2].
                destruct (cid_eqb c CNone) eqn:EC.
                ** apply cid_eqb_eq in EC. rewrite EC in FV. rewrite (find_none w basic strcons cfg Hstd) in FV. injection FV as <-.
                   eapply hs_weak; [exact K1|]. intros r [-> ->]. right. left. auto.
                ** assert (NC : c <> CNone) by (intro Q; rewrite Q in EC; discriminate).
                   rewrite (find_basic w basic strcons cfg Hstd c IB NC) in FV. injection FV as <-.
                   eapply hs_weak; [exact K2|]. intros r [[Q1 Q2]|[Q1 [Q2 Q3]]]; right; right; [left|right]; auto.
             ++ intros x Tx. rewrite BV. cbn [andb isinst]. destruct (isinstance w x c) eqn:I0; [|apply hs_raise]. apply hs_ret. auto.
             ++ cbv beta. cbn [app]. intros r [kvs [-> [F2 H2]]]. apply Forall2_combine in F2 as [L2 F2].
                eapply gv_dict_396; try eassumption. intros k x k' y I0. destruct (F2 (k, x) (k', y) I0) as [Q1 [Q2 Q3]]. auto.
          -- eapply hs_weak; [apply (sd_dict_fast (fun _ _ => True) (fun _ _ => False)) with (kvs0 := []); [| |exact Hd]|].
             ++ intros k _. apply hs_any.
             ++ intros x _. rewrite BV. cbn [andb]. apply hs_raise.
             ++ cbv beta. cbn [app]. intros r [kvs [-> [F2 H2]]]. destruct d as [|kx d]; inversion F2 as [|? ? ? ? [_ []]].
                subst kvs. eapply dict_rule; [exact SK|exact SV|exact DI|constructor|exact H2].
      + intros e. apply hs_catch; [gd_auto|intro; gd_auto| |intros [[] ? ? ? ? ?|[]]; apply hs_raise].
        eapply hs_weak; [apply (sd_dict_slow kt vt d []); exact Hd|].
        cbv beta. cbn [app]. intros r [kvs [-> [F2 H2]]]. eapply dict_rule; [exact SK|exact SV|exact DI| |exact H2].
        eapply Forall2_imp; [|exact F2]. intros a b [Q1 Q2]. auto.
  Qed.

  (** ** Unions *)
  Lemma sd_try_members v t ts n r exs :
    (forall x, In x ts -> tidy v x) ->
    forall all, (forall x, In x ts -> In x all) -> (n = 0 \/ exists x, In x all /\ gives v x r) ->
    hs (try_members cfg call v t ts n r exs) (fun o => fst (fst o) = 0 \/ exists x, In x all /\ gives v x (snd (fst o))).
  Proof using Hcall Gcall Ncall.
    revert n r exs. induction ts as [|x ts IH]; intros n r exs Ht all Ha Hr; cbn [try_members]; [apply hs_ret; exact Hr|].
    eapply hs_bind; [gd_auto|intros [|]; gd_auto| |].
    { apply hs_attempt with (Q := gives v x). eapply hs_bind; [auto with gddb|intro; gd_auto|apply sd_lookup|].
      intros h F. cbv beta in F. apply Hcall; [apply Ht; left; reflexivity|exact F]. }
    intros [r'|e] H.
    - assert (X : exists x, In x all /\ gives v x r') by (exists x; split; [apply Ha; left; reflexivity|exact H]).
      destruct (uniondebugconflict cfg); [apply IH; [intros; apply Ht; right; assumption|intros; apply Ha; right; assumption|auto]|apply hs_ret; right; exact X].
    - destruct e as [? ? ? ? ? ?|k]; [apply IH; [intros; apply Ht; right; assumption|intros; apply Ha; right; assumption|exact Hr]|apply hs_raise].
  Qed.
  Lemma sd_prefer v n args sorted :
    (forall x, In x sorted -> In x args) ->
    hs (prefer w v (TGen n OUnion (Some args)) args sorted) (fun l => forall x, In x l -> In x args).
  Proof using Hstd.
    intros Hs s C L U. pose proof (hx_prefer w basic strcons cfg s SF (fun _ _ _ => True) v n args sorted Hs s (conj C (good_refl w cfg s)) U) as H.
    destruct (fst _); auto.
  Qed.
  Lemma sd_unionload v n args : tidy v (TGen n OUnion (Some args)) ->
    hs (unionload w cfg call v (TGen n OUnion (Some args))) (gives v (TGen n OUnion (Some args))).
  Proof using Hstd Hcall Gcall Ncall.
    intro Td. unfold unionload. cbn [ty_args]. set (T := TGen n OUnion (Some args)).
    destruct (_ && _) eqn:OB.
    { apply hs_ret. apply gv_union_own. apply andb_true_iff in OB as [B I0]. apply basicb_In in B as [c [Q B]]. injection Q as Q. rewrite <- Q in B.
      split; [exact B|]. apply mem_ty_In. exact I0. }
    cbv zeta.
    assert (NB : ~ own_basic basic args v).
    { intros [B I0]. unfold basicb in OB. rewrite (proj2 Hstd) in OB. cbn [in_classes] in OB.
      apply mem_cid_In in B. rewrite B in OB. cbn [andb] in OB. rewrite (proj2 (mem_ty_In _ _) I0) in OB. discriminate. }
    assert (Sm : forall x, In x args -> tidy v x).
    { intros x I0. eapply tidy_comp; [exact Td|exact I0]. }
    assert (GP : forall sorted, gd (prefer w v T args sorted)).
    { intro sorted. unfold prefer. destruct v; auto with gddb. apply gd_bind; [|intros [[key [|lt cd]]|]; gd_auto].
      intro s. destruct (same_get T (st_disc s)) eqn:E; [apply good_refl|]. apply good_disc; [exact E|reflexivity]. }
    assert (GE : forall ts, gd ('(n0, r, exs) <- try_members cfg call v T ts 0 VNone [] ;;
          match n0 with
          | 1 => ret r
          | 0 => raise (XTL KValue (MUnion (type_of v) T) [] (Some v) (Some T) exs)
          | _ => raise (XTL KType (MConflict (type_of v) T n0) [] (Some v) (Some T) exs)
          end)).
    { intro ts. apply gd_bind; [auto with gddb|]. intros [[[|[|n0]] r] exs]; auto with gddb. }
    eapply hs_bind; [apply GP|exact GE| |].
    - apply sd_prefer. intros x Hx. apply in_app_or in Hx as [Hx|Hx]; apply filter_In in Hx; apply Hx.
    - intros ts Hts. cbv beta in Hts. eapply hs_bind; [auto with gddb|intros [[[|[|n0]] r] exs]; auto with gddb| |].
      + apply sd_try_members with (all := args); auto.
      + intros [[k r] exs] Hr. cbn [fst snd] in Hr.
        destruct k as [|[|k]]; try apply hs_raise. destruct Hr as [Hr|[x [I0 Hr]]]; [discriminate|]. apply hs_ret.
        eapply gv_union; eassumption.
  Qed.

  (** ** Enums *)
  Lemma makes_call t v r : call_type w t v = POk r <-> makes w t v r.
  Proof using.
    unfold call_type, makes. destruct t as [c| | | | | | |]; try reflexivity. destruct (ci_enum (class_of w c)); [|reflexivity].
    apply enum_call_member.
  Qed.
  Lemma sd_enum_hints v t ts exs : (forall x, In x ts -> tidy v x) ->
    forall all, (forall x, In x ts -> In x all) ->
    hs (enum_hints w cfg call v t ts exs)
       (fun o => match o with inl r => exists x y, In x all /\ gives v x y /\ makes w t y r | inr _ => True end).
  Proof using Hcall Gcall Ncall.
    revert exs. induction ts as [|x ts IH]; intros exs Ht all Ha; cbn [enum_hints]; [apply hs_ret; exact I|].
    eapply hs_bind; [gd_auto|intros [|]; gd_auto| |].
    { apply hs_attempt with (Q := fun r => exists y, gives v x y /\ makes w t y r).
      eapply hs_bind; [auto with gddb|intro; gd_auto|apply sd_load_with; apply Ht; left; reflexivity|].
      intros y Hy. apply hs_lift. intros r E. exists y. split; [exact Hy|]. apply makes_call. exact E. }
    intros [r|e] H; [apply hs_ret|apply IH; [intros; apply Ht; right; assumption|intros; apply Ha; right; assumption]].
    destruct H as [y [H1 H2]]. exists x, y. repeat split; auto. apply Ha. left. reflexivity.
  Qed.

  (** ** Objects *)
  Lemma sd_fields_loop fields hints v t : forall d acc,
    (forall f x ft, In (f, x) (picked fields d) -> str_get f hints = Some ft -> tidy x ft) ->
    hs (fields_loop cfg call fields hints v t d acc)
       (fun r => exists ps, r = acc ++ ps /\ Forall2 (fun fx fy => fst fx = fst fy /\ exists ft, str_get (fst fx) hints = Some ft /\ gives (snd fx) ft (snd fy)) (picked fields d) ps).
  Proof using Hcall Gcall Ncall.
    intro d. induction d as [|[k x] d IH]; intros acc Hd; cbn [fields_loop].
    { apply hs_ret. exists []. rewrite app_nil_r. split; [reflexivity|constructor]. }
    assert (Skip : (match k with VStr s => mem_str s fields | _ => false end) = false ->
       hs (fields_loop cfg call fields hints v t d acc)
       (fun r => exists ps, r = acc ++ ps /\ Forall2 (fun fx fy => fst fx = fst fy /\ exists ft, str_get (fst fx) hints = Some ft /\ gives (snd fx) ft (snd fy)) (picked fields ((k, x) :: d)) ps)).
    { intro Q. assert (E : picked fields ((k, x) :: d) = picked fields d).
      { unfold picked. cbn [flat_map fst]. destruct k; try reflexivity. rewrite Q. reflexivity. }
      rewrite E. apply IH. intros f y ft I0. apply Hd. rewrite E. exact I0. }
    destruct k; try (apply Skip; reflexivity). destruct (mem_str s fields) eqn:M; [|apply Skip; reflexivity].
    assert (E : picked fields ((VStr s, x) :: d) = (s, x) :: picked fields d).
    { unfold picked. cbn [flat_map fst snd]. rewrite M. reflexivity. }
    rewrite E in *. destruct (str_get s hints) as [ft|] eqn:G; [|apply hs_raise].
    eapply hs_bind; [auto with gddb|intro; gd_auto|apply sd_lookup|]. intros h F. cbv beta in F.
    eapply hs_bind with (Q1 := gives x ft); [gd_auto|intro; gd_auto| |].
    { apply hs_catch; [gd_auto|intro; gd_auto| |intro; apply hs_raise]. apply Hcall; [|exact F]. eapply Hd; [left; reflexivity|exact G]. }
    intros y Hy. eapply hs_weak; [apply IH; intros; eapply Hd; [right; eassumption|assumption]|].
    intros r [ps [-> F2]]. exists ((s, y) :: ps). rewrite <- app_assoc. split; [reflexivity|]. constructor; [|exact F2].
    cbn [fst snd]. split; [reflexivity|]. exists ft. auto.
  Qed.
  Lemma sd_objloader fields nec hints d t :
    (forall f x ft, In (f, x) (picked fields d) -> str_get f hints = Some ft -> tidy x ft) ->
    hs (objloader w cfg call fields nec hints (VDict d) t)
       (fun r => (forall f, In f nec -> has_key d f = true) /\
          (failonextra cfg = true -> filter (fun kv => negb (key_in fields kv)) d = []) /\
          exists ps, Forall2 (fun fx fy => fst fx = fst fy /\ exists ft, str_get (fst fx) hints = Some ft /\ gives (snd fx) ft (snd fy)) (picked fields d) ps /\
             construct w t ps = POk r).
  Proof using Hcall Gcall Ncall.
    intro Hd. unfold objloader. cbn [as_dict].
    destruct (filter (fun f => negb (has_key d f)) nec) as [|f0 miss] eqn:EM; [|apply hs_raise].
    destruct (_ && _) eqn:EX; [destruct (all_str _); apply hs_raise|].
    eapply hs_bind; [auto with gddb|intro; gd_auto|apply sd_fields_loop; exact Hd|].
    intros ps0 [ps [-> F2]]. cbn [app]. destruct (construct w t ps) as [r|[]] eqn:Cn; try apply hs_raise. apply hs_ret.
    split; [|split; [|exists ps; auto]].
    - intros f Hf. pose proof (proj1 (filter_nil _ _) EM f Hf) as Q. apply negb_false_iff in Q. exact Q.
    - intro FE. rewrite FE in EX. cbn in EX. apply negb_false_iff in EX. apply Nat.eqb_eq in EX. rewrite map_length in EX.
      destruct (filter _ d); [reflexivity|discriminate].
  Qed.
  Lemma fieldF_of c k : fieldF (obj_fields w cfg c) k = field_of w cfg c k.
  Proof using. reflexivity. Qed.
  Lemma resolvable_dec c : resolvable w cfg c \/ ~ resolvable w cfg c.
  Proof using.
    unfold resolvable.
    assert (D : forall (r : pyres (list (string * ty))), (exists l, r = POk l) \/ ~ exists l, r = POk l).
    { intros [l|e]; [left; eauto|right; intros [l Q]; discriminate]. }
    assert (X : (p = true -> exists l, ci_hints (class_of w c) = POk l) \/ ~ (p = true -> exists l, ci_hints (class_of w c) = POk l)).
    { destruct p; [|left; intro Q; discriminate]. destruct (D (ci_hints (class_of w c))) as [H|H]; [left; auto|right; auto]. }
    destruct (kind_of_class w c) as [[nt|fs|fs|req]|]; try exact X.
    destruct (D (attr_hints fs)) as [Q|Q]; rewrite (attr_hints_iff fs) in Q; auto.
  Qed.
  Lemma unresolvable_body c k v s :
    kind_of_class w c = Some k -> ~ resolvable w cfg c -> coh w cfg s ->
    exists e, fst (body w cfg call (object_handler k) v (TClass c) s) = Exc e.
  Proof using Hwr.
    intros Hk R C.
    assert (P : match k with KAT fs => exists r, attr_hints fs = PExc r | _ => p = true /\ exists r, ci_hints (class_of w c) = PExc r end).
    { unfold resolvable in R. rewrite Hk in R.
      assert (X : ~ (p = true -> exists l, ci_hints (class_of w c) = POk l) -> p = true /\ exists r, ci_hints (class_of w c) = PExc r).
      { intro Q. destruct p; [|exfalso; apply Q; discriminate]. split; [reflexivity|].
        destruct (ci_hints (class_of w c)) as [l|r]; [exfalso; apply Q; eauto|eauto]. }
      destruct k; try (apply X; exact R). destruct (attr_hints fs) as [l|r] eqn:Q; [exfalso; apply R; apply attr_hints_iff; eauto|eauto]. }
    unfold kind_of_class in Hk.
    destruct k as [nt|fs|fs|req]; cbn [object_handler body].
    - destruct P as [P [r E]].
      assert (N : exists nt', ci_nt (class_of w c) = Some nt').
      { destruct (ci_nt (class_of w c)); [eauto|]. destruct (ci_dc _); [discriminate|]. destruct (ci_attrs _); [discriminate|]. destruct (ci_td _); discriminate. }
      destruct N as [nt' N]. unfold namedtupleload. rewrite N, P, E. eexists. reflexivity.
    - destruct P as [P [r E]].
      assert (N : ci_dc (class_of w c) = Some fs).
      { destruct (ci_nt (class_of w c)); [discriminate|]. destruct (ci_dc _); [congruence|]. destruct (ci_attrs _); [discriminate|]. destruct (ci_td _); discriminate. }
      assert (DI : dataclass_info w cfg c fs = PExc r) by (unfold dataclass_info; rewrite P, E; reflexivity).
      unfold dataclassload, bind. destruct (ty_get (TClass c) (st_fields s)) as [oi|] eqn:Q.
      + destruct (coh_fields _ _ _ C _ _ Q) as [c' [fs' [[= <-] [D' O]]]]. congruence.
      + rewrite N, DI. eexists. reflexivity.
    - destruct P as [r E].
      assert (N : ci_attrs (class_of w c) = Some fs).
      { destruct (ci_nt (class_of w c)); [discriminate|]. destruct (ci_dc _); [discriminate|]. destruct (ci_attrs _); [congruence|]. destruct (ci_td _); discriminate. }
      unfold attrload. rewrite N, E. eexists. reflexivity.
    - destruct P as [P [r E]].
      assert (N : exists req', ci_td (class_of w c) = Some req').
      { destruct (ci_nt (class_of w c)); [discriminate|]. destruct (ci_dc _); [discriminate|]. destruct (ci_attrs _); [discriminate|]. destruct (ci_td _); [eauto|discriminate]. }
      destruct N as [nt' N]. unfold typeddictload. rewrite N, P, E. eexists. reflexivity.
  Qed.
  Lemma sd_object c k v : object_class w basic strcons c -> kind_of_class w c = Some k -> tidy v (TClass c) ->
    hs (body w cfg call (object_handler k) v (TClass c)) (gives v (TClass c)).
  Proof using Hstd Hwr Hcall Gcall Ncall.
    intros OC Hk Td s C L U.
    destruct (resolvable_dec c) as [R|R].
    2: { destruct (unresolvable_body c k v s Hk R C) as [e ->]. exact I. }
    pose proof (td_type _ _ Td c (rt1n_refl _ _ _) OC) as DN.
    assert (PD : proper_data v) by (apply (td_data _ _ Td v); constructor).
    destruct (obj_body w basic strcons cfg Hstd Hwr c k s OC Hk R C) as [s2 [C2 [I2 [F2 E]]]].
    rewrite E in *. clear E.
    assert (L2 : forall t, seen S0 t -> seen s2 t) by (unfold seen in *; rewrite I2; exact L).
    destruct (obj_data_dec w cfg c v) as [[d OD]|ND].
    2: { rewrite (mangle_obj_nodata w cfg c v call s2 DN ND). exact I. }
    pose proof (proper_data_dict w cfg c v d PD OD) as PyD.
    rewrite (mangle_obj_data w cfg c v d call s2 DN OD PyD) in *.
    pose proof (obj_table w cfg c DN) as TB.
    destruct (find _ d) as [[k0 x0]|] eqn:FB; [destruct k0; exact I|].
    assert (Hd : forall f x ft, In (f, x) (picked (map fst (obj_fields w cfg c)) (ren (obj_names w cfg c) d)) ->
       str_get f (declared w p c) = Some ft -> tidy x ft).
    { intros f x ft I0 G. rewrite (picked_ren _ _ d TB) in I0. apply in_flat_map in I0 as [[k1 x1] [I1 I0]].
      cbn [fst snd] in I0. destruct (fieldF _ k1); [|destruct I0]. destruct I0 as [[= <- <-]|[]].
      eapply tidy_part; [eapply tidy_comp; [exact Td|]|eapply obj_data_part; eassumption].
      unfold component, comps. apply in_or_app. left. apply str_get_In in G. apply (in_map snd) in G. exact G. }
    pose proof (sd_objloader _ (obj_required w cfg c) _ _ (TClass c) Hd s2 C2 L2 U) as H.
    destruct (fst _) as [r|e|]; auto. destruct H as [H1 [H2 [ps [H3 H4]]]].
    rewrite (picked_ren _ _ d TB) in H3. change (flat_map _ d) with (given w cfg c d) in H3.
    rewrite (required_ren w cfg c d DN) in H1.
    assert (FX : failonextra cfg = true -> forall k x, In (k, x) d -> exists f, field_of w cfg c k = Some f).
    { intro FE. apply (ren_known _ _ TB d). split; [|exact (H2 FE)].
      intros kx Hkx. pose proof (List.find_none _ _ FB kx Hkx) as Q. rewrite FE in Q. exact Q. }
    assert (MF : map fst ps = map fst (given w cfg c d)).
    { clear -H3. induction H3 as [|? ? ? ? [Q _] _ IH]; cbn; [reflexivity|congruence]. }
    eapply gv_object; try eassumption.
    - intros f Hf. rewrite MF in Hf. apply in_map_iff in Hf as [[f' x] [<- Hf]].
      clear -H3 Hf. induction H3 as [|a b l l' [Q [ft [G _]]] _ IH]; [destruct Hf|]. destruct Hf as [->|Hf]; [eauto|auto].
    - apply Forall2_combine in H3 as [_ H3]. intros f x y t I0 G. destruct (H3 (f, x) (f, y) I0) as [_ [ft [G' Hg]]]. cbn [fst snd] in *.
      assert (ft = t) by congruence. subst. exact Hg.
  Qed.

  Lemma class_object c k : kind_of_class w c = Some k -> ~ In c basic -> ci_enum (class_of w c) = None ->
    (forall fs, k = KAT fs -> ~ In c strcons) -> object_class w basic strcons c.
  Proof using. intros Hk NB NE NS. split; [exact NB|]. split; [exact NE|]. rewrite Hk. destruct k; eauto. Qed.

  Lemma notbasic c h : find_handler cfg (TClass c) = POk h -> h <> HBasic -> h <> HNone -> ~ In c basic.
  Proof using Hstd.
    intros F N1 N2 B. destruct (cid_eqb c CNone) eqn:E.
    - apply cid_eqb_eq in E. subst. rewrite (find_none w basic strcons cfg Hstd) in F. congruence.
    - rewrite (find_basic w basic strcons cfg Hstd c B) in F; [congruence|]. intros ->. discriminate.
  Qed.
  Lemma notspecial c : find_handler cfg (TClass c) = POk HStrcons -> special c = None.
  Proof using Hstd.
    intro F. pose proof (notbasic c _ F ltac:(discriminate) ltac:(discriminate)) as NB.
    rewrite (find_std w basic strcons cfg _ Hstd) in F. unfold chain in F.
    assert (M : mem_cid c basic = false) by (destruct (mem_cid c basic) eqn:M; [apply mem_cid_In in M; contradiction|reflexivity]).
    destruct c; try reflexivity; exfalso; cbn in F; cbn in M; rewrite ?M in F; cbn in F; discriminate.
  Qed.

  Lemma other_of c h : find_handler cfg (TClass c) = POk h -> In h [HDatetime; HPattern; HTimedelta; HStrcons] ->
    other_class w basic c.
  Proof using Hstd.
    intros F I0. pose proof (notbasic c _ F ltac:(intros ->; cbn in I0; intuition discriminate) ltac:(intros ->; cbn in I0; intuition discriminate)) as NB.
    rewrite (find_std w basic strcons cfg _ Hstd) in F. unfold chain in F.
    assert (M : mem_cid c basic = false) by (destruct (mem_cid c basic) eqn:M; [apply mem_cid_In in M; contradiction|reflexivity]).
    cbn [is_union in_classes is_enum is_tuple is_list is_dict is_set is_frozenset is_namedtuple is_dataclass is_forwardref is_literal is_typeddict is_any is_newtype] in F.
    rewrite M in F. unfold other_class.
    destruct (is_nonetype _); [injection F as <-; cbn in I0; intuition discriminate|].
    destruct (ci_enum _); [injection F as <-; cbn in I0; intuition discriminate|].
    destruct (ci_nt _); [injection F as <-; cbn in I0; intuition discriminate|].
    destruct (ci_dc _); [injection F as <-; cbn in I0; intuition discriminate|].
    destruct (ci_td _); [injection F as <-; cbn in I0; intuition discriminate|]. auto.
  Qed.

  Lemma sd_body h v t : tidy v t -> find_handler cfg t = POk h -> hs (body w cfg call h v t) (gives v t).
  Proof using Hstd Hwr Hcall Hkey Gcall Ncall.
    intros Td F. pose proof (std_selected w basic strcons cfg t h Hstd F) as Sel.
    destruct h; cbn [selected] in Sel; cbn [body].
    - subst t. unfold noneload. destruct v; try apply hs_raise. apply hs_ret. apply gv_none.
    - destruct Sel as [n [args ->]]. apply sd_unionload. exact Td.
    - destruct Sel as [c [-> [B N]]]. unfold basicload. destruct (exact v (TClass c)) eqn:E.
      + apply hs_ret. unfold exact in E. apply ty_eqb_eq in E. injection E as E. apply gv_same; assumption.
      + destruct (basiccast cfg) eqn:BC; [|apply hs_raise].
        destruct (call_type w (TClass c) v) as [r|[]] eqn:CT; try apply hs_raise. apply hs_ret.
        apply gv_cast; auto; [|apply makes_call; exact CT]. intro Q. unfold exact in E. apply ty_eqb_neq in E. congruence.
    - destruct Sel as [c [ms [-> [E NB]]]]. unfold enumload. destruct (call_type w (TClass c) v) as [r|k] eqn:CT.
      + apply hs_ret. apply makes_call in CT. unfold makes in CT. rewrite E in CT. eapply gv_enum; eassumption.
      + assert (NM : no_member_for c ms v).
        { apply enum_call_none. unfold call_type in CT. rewrite E in CT. eauto. }
        eapply hs_bind with (Q1 := fun hints => ci_hints (class_of w c) = POk hints); [auto with gddb|intro; gd_auto|apply hs_lift; auto|].
        intros hints Hh.
        eapply hs_bind; [auto with gddb|intro; gd_auto|apply sd_enum_hints with (all := map snd hints); [|auto]|].
        { intros x Hx. eapply tidy_comp; [exact Td|]. unfold component, comps. rewrite E, Hh. apply in_or_app. right. exact Hx. }
        intros [r|exs] H; [|apply hs_raise]. apply hs_ret. destruct H as [x [y [Hx [Hg Hm]]]].
        unfold makes in Hm. rewrite E in Hm. apply in_map_iff in Hx as [[n x'] [<- Hx]]. eapply gv_enum_hint; eassumption.
    - destruct Sel as [n [args ->]]. destruct args as [ts|]; [|apply hs_raise]. apply sd_tupleload. exact Td.
    - destruct Sel as [n [args ->]]. destruct args as [[|et rest]|].
      + unfold iterload. destruct v; apply hs_raise.
      + exact (sd_iterload KoList n et rest v Td).
      + unfold iterload. destruct v; apply hs_raise.
    - destruct Sel as [n [args ->]]. apply sd_dictload. exact Td.
    - destruct Sel as [n [args ->]]. destruct args as [[|et rest]|].
      + unfold iterload. destruct v; apply hs_raise.
      + exact (sd_iterload KoSet n et rest v Td).
      + unfold iterload. destruct v; apply hs_raise.
    - destruct Sel as [n [args ->]]. destruct args as [[|et rest]|].
      + unfold iterload. destruct v; apply hs_raise.
      + exact (sd_iterload KoFrozen n et rest v Td).
      + unfold iterload. destruct v; apply hs_raise.
    - destruct Sel as [c [nt [-> [N [NB NE]]]]].
      assert (Hk : kind_of_class w c = Some (KNT nt)) by (unfold kind_of_class; rewrite N; reflexivity).
      apply (sd_object c _ v (class_object c _ Hk NB NE ltac:(discriminate)) Hk Td).
    - destruct Sel as [c [fs [-> [D [N [NB NE]]]]]].
      assert (Hk : kind_of_class w c = Some (KDC fs)) by (unfold kind_of_class; rewrite N, D; reflexivity).
      apply (sd_object c _ v (class_object c _ Hk NB NE ltac:(discriminate)) Hk Td).
    - destruct Sel as [n ->]. intros s C L U. unfold forwardrefload, bind, get_st in *. cbn [fst snd] in *.
      destruct (st_frefs s) as [fr|] eqn:Fr; [|exact I].
      destruct (str_get n fr) as [t'|] eqn:G; [|exact I].
      assert (LS : st_le s SF).
      { eapply st_le_trans; [|exact U]. apply (gd_load_with w cfg call Gcall v t' (Some (AnForward n)) s). }
      assert (E : env n = Some t').
      { unfold names_of. pose proof (le_frefs _ _ LS) as LF. rewrite Fr in LF. destruct (st_frefs SF); [|contradiction]. auto. }
      assert (Td' : tidy v t') by (eapply tidy_comp; [exact Td|unfold component, comps; rewrite E; left; reflexivity]).
      pose proof (sd_load_with v t' (Some (AnForward n)) Td' s C L U) as H.
      destruct (fst _); auto. eapply gv_forward; eassumption.
    - destruct Sel as [vals ->]. unfold literalload. destruct (py_in v vals) eqn:E; [apply hs_ret; apply gv_literal; exact E|apply hs_raise].
    - destruct Sel as [c [req [-> [T [N [D [NB NE]]]]]]].
      assert (Hk : kind_of_class w c = Some (KTD req)).
      { unfold kind_of_class. rewrite N, D, (wr_td w Hwr c) by congruence. rewrite T. reflexivity. }
      apply (sd_object c _ v (class_object c _ Hk NB NE ltac:(discriminate)) Hk Td).
    - assert (DT : exists c, t = TClass c /\ In c [CDate; CTime; CDatetime]).
      { destruct Sel as [->|[->| ->]]; eexists; (split; [reflexivity|cbn; auto]). }
      destruct DT as [c [-> IC]]. pose proof (other_of c _ F ltac:(cbn; auto)) as NB.
      unfold datetimeload.
      assert (X : forall r : pyres value, (forall y, r = POk y -> gives v (TClass c) y) ->
        hs (match r with POk r => ret r
          | PExc RType => raise (XTL KType (MPy RType) [] (Some v) (Some (TClass c)) [])
          | PExc RValue => raise (XTL KValue (MPy RValue) [] (Some v) (Some (TClass c)) [])
          | PExc r => raise (XRaw r) end) (gives v (TClass c))).
      { intros [y|[]] H; try apply hs_raise. apply hs_ret. auto. }
      apply X. intros y.
      destruct v; try (intro E; destruct (iter _) eqn:I0 in E; [|discriminate]; eapply gv_args; try eassumption; discriminate).
      intro E. apply gv_iso; assumption.
    - assert (HP : (t = TClass CPattern /\ other_class w basic CPattern) \/ (exists n a, t = TGen n OPattern a)).
      { destruct Sel as [->|[n [a ->]]]; [left; split; [reflexivity|]|right; eauto].
        apply (other_of _ _ F); cbn; auto. }
      unfold patternload. destruct (w_compile w v) as [r|[]] eqn:E; try apply hs_raise. apply hs_ret. eapply gv_pattern; eassumption.
    - subst t. pose proof (other_of _ _ F ltac:(cbn; auto)) as NB.
      unfold timedeltaload. destruct (w_timedelta w v) as [r|[]] eqn:E; try apply hs_raise. apply hs_ret. apply gv_timedelta; assumption.
    - pose proof Sel as [c [-> [SC [NB [NE [NN [ND NT]]]]]]]. unfold strconsload, call_type. rewrite NE.
      destruct (w_call w (TClass c) v) as [r|[]] eqn:E; try apply hs_raise. apply hs_ret. eapply gv_string; try eassumption; [apply (other_of _ _ F); cbn; auto|].
      apply notspecial. exact F.
    - destruct Sel as [c [fs [-> [A [N [D [T [NB [NE NS]]]]]]]]].
      assert (Hk : kind_of_class w c = Some (KAT fs)) by (unfold kind_of_class; rewrite N, D, A; reflexivity).
      apply (sd_object c _ v (class_object c _ Hk NB NE ltac:(auto)) Hk Td).
    - subst t. apply hs_ret. apply gv_any.
    - destruct Sel as [n [su ->]]. cbn [newtypeload]. eapply hs_weak; [apply sd_load_with; eapply tidy_comp; [exact Td|left; reflexivity]|].
      intros r Hr. apply gv_newtype. exact Hr.
    - contradiction.
  Qed.
End Sound.

Section SoundRun.
  Variable w : world.
  Variables basic strcons : list cid.
  Variable cfg : config.
  Hypothesis Hstd : is_std w basic strcons cfg.
  Hypothesis Hwr : wf_reflect w.

  Lemma sd_key S0 SF n k t :
    hs w cfg S0 SF (run w cfg n HNone k t) (fun r => k = VNone /\ r = VNone) /\
    hs w cfg S0 SF (run w cfg n HBasic k t) (fun r => (TClass (type_of k) = t /\ r = k) \/ (TClass (type_of k) <> t /\ basiccast cfg = true /\ makes w t k r)).
  Proof using.
    destruct n as [|n]; [split; intros s C L U; exact I|]. split; cbn [run body].
    - unfold noneload. destruct k; try apply hs_raise. apply hs_ret. auto.
    - unfold basicload. destruct (exact k t) eqn:E; [apply hs_ret; left; apply ty_eqb_eq in E; auto|].
      apply ty_eqb_neq in E. destruct (basiccast cfg); [|apply hs_raise].
      destruct (call_type w t k) as [r|[]] eqn:CT; try apply hs_raise. apply hs_ret. right. split; [exact E|]. split; [reflexivity|]. apply makes_call. exact CT.
  Qed.
  Lemma sd_run S0 SF n h v t : tidy w basic strcons cfg SF v t -> find_handler cfg t = POk h ->
    hs w cfg S0 SF (run w cfg n h v t) (gives w basic strcons cfg (names_of SF) (fun t => ~ seen S0 t) v t).
  Proof using Hstd Hwr.
    revert h v t. induction n as [|n IH]; intros h v t Td F.
    - intros s C L U. exact I.
    - cbn [run]. apply (sd_body w basic strcons cfg Hstd Hwr S0 SF); auto.
      + intros. apply gd_run.
      + intros h' v' t' N' F'. eapply ns_run; eassumption.
      + intros. apply sd_key.
  Qed.

  Lemma c43_sound s v t r s' :
    used w cfg s -> ends w cfg s v t (Ok r) s' ->
    (forall c, reach w (pep563 cfg) (names_of s') t (TClass c) -> object_class w basic strcons c -> distinct_names w cfg c) ->
    (forall x, inside v x -> python_data x) ->
    never_stops w (pep563 cfg) (names_of s') t ->
    gives w basic strcons cfg (names_of s') (fun t => ~ seen s t) v t r.
  Proof using Hstd Hwr.
    intros U [_ [n E]] HT HD HN. unfold load, load_ann in E.
    pose proof (sd_load_with w basic strcons cfg s s' (run w cfg n)
      ltac:(intros; apply gd_run) ltac:(intros h v0 t0; apply sd_run) v t None (mkTidy w basic strcons cfg s' v t HT HD HN)
      s (used_coh w cfg s U) (fun _ H => H)) as H.
    rewrite E in H. exact (H (st_le_refl _)).
  Qed.
End SoundRun.
