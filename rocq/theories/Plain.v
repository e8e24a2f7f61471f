(** * Plain: data models round trip on every loader (towards C55)

    The loader in any state: total correctness in the logic of Total.v. *)

From Verif Require Import Loader Dumper Spec Inv Std Sound Fuel Obs Scalars Transparent Hist Reuse Items Eval Tuples Dicts
  Objects ObjFacts Unions Tagged Enums Dumps Facts2 Facts3 Facts5 Total RoundTrip Schema.
From Verif Require Export Vocab.

Lemma choose_all {A B} (R : A -> B -> Prop) l : (forall a, In a l -> exists b, R a b) -> exists bs, Forall2 R l bs.
Proof.
  induction l as [|a l IH]; intro H; [exists []; constructor|].
  destruct (H a (or_introl eq_refl)) as [b Hb]. destruct IH as [bs F]; [intros; apply H; right; assumption|].
  exists (b :: bs). constructor; assumption.
Qed.
Lemma F2_bound {A B} (P : A -> B -> nat -> Prop) l bs :
  Forall2 (fun a b => exists N, forall n, N <= n -> P a b n) l bs -> exists N, forall n, N <= n -> Forall2 (fun a b => P a b n) l bs.
Proof.
  intro F. induction F as [|a b l bs [N1 H1] _ [N2 H2]]; [exists 0; constructor|].
  exists (Nat.max N1 N2). intros n L. constructor; [apply H1; lia|apply H2; lia].
Qed.
Lemma F2_imp {A B} (P Q : A -> B -> Prop) l bs : (forall a b, P a b -> Q a b) -> Forall2 P l bs -> Forall2 Q l bs.
Proof. intros H F. induction F; constructor; auto. Qed.
Lemma F2_len {A B} (P : A -> B -> Prop) l bs : Forall2 P l bs -> List.length l = List.length bs.
Proof. intro F. induction F; cbn; congruence. Qed.

Section PL.
  Variable w : world.
  Variables basic strcons dstrcons : list cid.
  Variable cfg : config.
  Variable dcfg : dconfig.
  Hypothesis Hstd : is_std w basic strcons cfg.
  Hypothesis Hwr : wf_reflect w.
  Variable env : string -> option ty.
  Notation p := (pep563 cfg).
  Notation ok := (okst w cfg env (fun _ _ => True)).
  Notation tx := (tx w cfg env (fun _ _ => True)).
  Notation no := (fun _ : exn => False).

  (** loading [x] into [t] gives [v], whatever the caches contain *)
  Definition gives (n : nat) (x : value) (t : ty) (v : value) : Prop :=
    exists h, find_handler cfg t = POk h /\ tx (run w cfg n h x t) (eq v) no.
  Definition LT (x : value) (t : ty) (v : value) : Prop := exists N, forall n, N <= n -> gives n x t v.
  (** loading [x] into [t] finishes with an exception of typedload *)
  Definition fails (n : nat) (x : value) (t : ty) : Prop :=
    exists h, find_handler cfg t = POk h /\ tx (run w cfg n h x t) (fun _ => False) (fun e => is_tl e = true).
  Definition RJ (x : value) (t : ty) : Prop := exists N, forall n, N <= n -> fails n x t.
  (** loading [x] into [t] finishes with a value or with an exception of typedload *)
  Definition ends_well (n : nat) (x : value) (t : ty) : Prop :=
    exists h, find_handler cfg t = POk h /\ tx (run w cfg n h x t) (fun _ => True) (fun e => is_tl e = true).

  Lemma LT_pure x t v h : find_handler cfg t = POk h -> (forall call s, body w cfg call h x t s = (Ok v, s)) -> LT x t v.
  Proof using.
    intros F B. exists 1. intros [|n] L; [lia|]. exists h. split; [exact F|]. intros s C. cbn [run]. rewrite B. auto.
  Qed.
  Lemma RJ_pure x t h : find_handler cfg t = POk h ->
    (forall call s, exists e, body w cfg call h x t s = (Exc e, s) /\ is_tl e = true) -> RJ x t.
  Proof using.
    intros F B. exists 1. intros [|n] L; [lia|]. exists h. split; [exact F|]. intros s C. cbn [run].
    destruct (B (run w cfg n) s) as [e [-> T]]. auto.
  Qed.
  Lemma gives_load n x t v a : gives n x t v -> tx (load_with w cfg (run w cfg n) x t a) (eq v) no.
  Proof using.
    intros [h [F T]]. apply tx_load_with; [auto| |].
    - intros h' F'. assert (h' = h) by congruence. subst h'. eapply tx_weak; [exact T|auto|intros e []].
    - intros r F'. congruence.
  Qed.
  Lemma fails_load n x t a : fails n x t -> tx (load_with w cfg (run w cfg n) x t a) (fun _ => False) (fun e => is_tl e = true).
  Proof using.
    intros [h [F T]]. apply tx_load_with; [auto| |].
    - intros h' F'. assert (h' = h) by congruence. subst h'. eapply tx_weak; [exact T|auto|]. intros e E. cbv beta. rewrite E.
      destruct e; [reflexivity|discriminate].
    - intros r F'. congruence.
  Qed.
  Lemma gives_lookup n x t v nf : gives n x t v -> tx (bind (lookup_handler cfg nf t) (fun h => run w cfg n h x t)) (eq v) no.
  Proof using.
    intros [h [F T]]. eapply tx_bind; [apply tx_lookup; intros r Q; congruence|]. cbv beta. intros h' F'.
    assert (h' = h) by congruence. subst h'. exact T.
  Qed.
  Lemma ends_well_gives n x t v : gives n x t v -> ends_well n x t.
  Proof using. intros [h [F T]]. exists h. split; [exact F|]. eapply tx_weak; [exact T|auto|intros e []]. Qed.

  (** ** Collections *)
  Definition keeps (t : ty) (x v : value) : Prop :=
    (in_classes basic t = true -> x = v) /\
    (forall n us, t = TGen n OUnion (Some us) -> forallb (in_classes basic) us = true -> In (TClass (type_of x)) us -> x = v).
  Lemma basicb_std t : basicb cfg t = in_classes basic t.
  Proof using Hstd. unfold basicb. rewrite (proj2 Hstd). reflexivity. Qed.
  Lemma tx_iter_item n h t x v : find_handler cfg t = POk h -> keeps t x v -> gives n x t v -> tx (iter_item w cfg (run w cfg n) h t x) (eq v) no.
  Proof using Hstd.
    intros F [K1 K2] [h' [F' T]]. assert (h' = h) by congruence. subst h'. unfold iter_item. rewrite basicb_std.
    destruct (in_classes basic t) eqn:B.
    - destruct (isinst w x t); [apply tx_ret; symmetry; auto|exact T].
    - destruct t as [c|nt o args|vals| |nm| |nm t|nm]; try exact T. destruct o; try exact T. destruct args as [us|]; try exact T.
      destruct (forallb (basicb cfg) us && mem_ty (TClass (type_of x)) us) eqn:Q; [|exact T]. apply andb_prop in Q as [Q1 Q2].
      apply tx_ret. symmetry. eapply K2; [reflexivity| |apply mem_ty_In; exact Q2].
      rewrite <- Q1. clear - Hstd. induction us as [|u us IH]; [reflexivity|]. cbn. rewrite IH, basicb_std. reflexivity.
  Qed.

  (** an instance of the basic type [t] *)
  Definition stay (t : ty) (x v : value) : Prop := x = v /\ in_classes basic t = true /\ isinst w v t = true.
  Lemma tx_iter_stay n h t x v : stay t x v -> tx (iter_item w cfg (run w cfg n) h t x) (eq v) no.
  Proof using Hstd. intros [-> [B E]]. unfold iter_item. rewrite basicb_std, B, E. apply tx_ret. reflexivity. Qed.

  Definition coll_fine (k : coll) (l : list value) : Prop :=
    match k with
    | KoList | KoTuple => True
    | KoSet | KoFrozen => (forall v, In v l -> hashable w v = true) /\ ForallOrdPairs (fun a b => py_eqb b a = false) l
    end.
  Lemma FOP_app {A} (R : A -> A -> Prop) l1 x l2 : ForallOrdPairs R (l1 ++ x :: l2) -> forall y, In y l1 -> R y x.
  Proof using.
    induction l1 as [|z l1 IH]; intros F y I; [contradiction|]. cbn in F. inversion F as [|a l0 Ha Hl]; subst.
    destruct I as [->|I]; [|auto]. rewrite Forall_forall in Ha. apply Ha. apply in_or_app. right. left. reflexivity.
  Qed.
  Lemma coll_add_fine k acc x l : coll_fine k (acc ++ x :: l) -> coll_add w k x acc = POk (acc ++ [x]).
  Proof using.
    destruct k; cbn; try reflexivity; intros [H F]; rewrite (H x) by (apply in_or_app; right; left; reflexivity); do 1 f_equal; unfold set_add;
      (assert (E : py_in x acc = false); [|rewrite E; reflexivity]);
      (unfold py_in; destruct (existsb (py_eqb x) acc) eqn:E; [|reflexivity]); apply existsb_exists in E as [y [I Q]];
      rewrite (FOP_app _ _ _ _ F y I) in Q; discriminate.
  Qed.
  Lemma tx_iter_loop k mp f v0 t0 l xs : Forall2 (fun v x => tx (f x) (eq v) no) l xs ->
    forall i acc, coll_fine k (acc ++ l) -> tx (iter_loop w k mp f v0 t0 xs i acc) (eq (mk_coll k (acc ++ l))) no.
  Proof using.
    intro F. induction F as [|v x l xs T _ IH]; intros i acc C; cbn [iter_loop].
    - rewrite app_nil_r. apply tx_ret. reflexivity.
    - eapply tx_bind with (Q1 := fun r => match r with inl a => acc ++ [v] = a | inr e => False end).
      + eapply tx_attempt. eapply tx_bind; [exact T|]. intros a <-. rewrite (coll_add_fine k acc v l C). apply tx_ret. reflexivity.
      + intros [a|e] H; [|contradiction]. subst a. replace (acc ++ v :: l) with ((acc ++ [v]) ++ l) by (rewrite <- app_assoc; reflexivity). apply IH. rewrite <- app_assoc. exact C.
  Qed.

  Lemma LT_coll k n t l xs : supported cfg t -> coll_fine k l ->
    Forall2 (fun v x => stay t x v \/ (keeps t x v /\ LT x t v)) l xs -> LT (VList xs) (coll_type k n t []) (mk_coll k l).
  Proof using Hstd.
    intros Sup C F. apply supported_find in Sup as [h Fh].
    assert (G : exists N, forall m, N <= m -> Forall2 (fun v x => stay t x v \/ (keeps t x v /\ gives m x t v)) l xs).
    { apply F2_bound. eapply F2_imp; [|exact F]. intros v x [S|[K [N H]]]; [exists 0; auto|]. exists N. intros m L. right. split; [exact K|apply H; exact L]. }
    destruct G as [N G]. exists (S N). intros [|m] L; [lia|].
    assert (B : tx (iterload w cfg (run w cfg m) k (VList xs) (coll_type k n t [])) (eq (mk_coll k l)) no).
    { unfold iterload. assert (E : ty_args (coll_type k n t []) = Some (match k with KoTuple => [t; TEllipsis] | _ => [t] end)) by (destruct k; reflexivity).
      rewrite E.
      assert (T : tx (bind (lookup_handler cfg (XTL KType (MCannotDeal t) [] (Some (VList xs)) (Some t) []) t)
          (fun h => iter_loop w k (mapped cfg t) (iter_item w cfg (run w cfg m) h t) (VList xs) (coll_type k n t []) xs 0 [])) (eq (mk_coll k l)) no).
      { eapply tx_bind; [apply tx_lookup; intros r Q; congruence|]. cbv beta. intros h' F'. 
        apply (tx_iter_loop k _ _ _ _ l xs); [|exact C]. eapply F2_imp; [|exact (G m ltac:(lia))]. intros v x [S|[K Gv]]; [apply tx_iter_stay; exact S|].
        apply tx_iter_item; assumption. }
      destruct k; exact T. }
    destruct k; cbn [coll_type] in *.
    - exists HList. split; [apply (find_list w basic strcons cfg Hstd)|exact B].
    - exists HTuple. split; [apply (find_tuple w basic strcons cfg Hstd)|]. cbn [run body]. unfold tupleload. cbn [ty_args]. exact B.
    - exists HSet. split; [apply (find_set w basic strcons cfg Hstd)|exact B].
    - exists HFrozen. split; [apply (find_frozen w basic strcons cfg Hstd)|exact B].
  Qed.

  (** ** Tuples of a fixed size *)
  Lemma tx_tuple_loop m v0 t0 ts l xs :
    Forall2 (fun t vx => (in_classes basic t = true -> snd vx = fst vx) /\ gives m (snd vx) t (fst vx)) ts (combine l xs) ->
    List.length l = List.length xs ->
    forall i acc, tx (tuple_loop cfg (run w cfg m) v0 t0 xs ts i acc) (eq (VTuple (acc ++ l))) no.
  Proof using Hstd.
    revert l xs. induction ts as [|t ts IH]; intros l xs F Len i acc.
    - inversion F as [E1 E2|]. destruct l as [|v l]; [|destruct xs; [discriminate Len|discriminate]]. rewrite app_nil_r.
      destruct xs; [|discriminate Len]. apply tx_ret. reflexivity.
    - destruct l as [|v l], xs as [|x xs]; try discriminate Len; cbn [combine] in F; inversion F as [|t' vx ts' l' [K [h [Fh T]]] F']; subst.
      cbn [fst snd] in *. cbn [tuple_loop].
      eapply tx_bind with (Q1 := fun r => match r with inl a => v = a | inr e => False end).
      + eapply tx_attempt. eapply tx_bind with (Q1 := fun h' => h' = h).
        * intros s C. destruct (ty_get t (st_index s)) as [h'|] eqn:Q.
          -- split; [pose proof (coh_index _ _ _ (ok_coh _ _ _ _ _ C) _ _ Q); congruence|exact C].
          -- rewrite Fh. cbn. auto.
        * intros h' ->. rewrite basicb_std. destruct (in_classes basic t && exact x t) eqn:Q; [|exact T].
          apply andb_prop in Q as [Q _]. apply tx_ret. symmetry. auto.
      + intros [a|e] H; [|contradiction]. subst a. replace (acc ++ v :: l) with ((acc ++ [v]) ++ l) by (rewrite <- app_assoc; reflexivity).
        apply IH; [exact F'|cbn in Len; lia].
  Qed.
  Lemma LT_tuple n ts l xs : fixed_size ts -> List.length l = List.length ts -> List.length xs = List.length l ->
    Forall2 (fun t vx => keeps t (snd vx) (fst vx) /\ LT (snd vx) t (fst vx)) ts (combine l xs) ->
    LT (VList xs) (TGen n OTuple (Some ts)) (VTuple l).
  Proof using Hstd.
    intros Fx L1 L2 F.
    assert (G : exists N, forall m, N <= m -> Forall2 (fun t vx => (in_classes basic t = true -> snd vx = fst vx) /\ gives m (snd vx) t (fst vx)) ts (combine l xs)).
    { apply F2_bound. eapply F2_imp; [|exact F]. intros t vx [K [N H]]. exists N. intros m L. split; [apply K|apply H; exact L]. }
    destruct G as [N G]. exists (S N). intros [|m] L; [lia|]. exists HTuple. split; [apply (find_tuple w basic strcons cfg Hstd)|].
    cbn [run body]. unfold tupleload. cbn [ty_args].
    assert (T : tx (if failonextra cfg && Nat.ltb (List.length ts) (List.length xs)
                then raise (XTL KValue (MTooLong (TGen n OTuple (Some ts))) [] (Some (VList xs)) (Some (TGen n OTuple (Some ts))) [])
                else if Nat.ltb (List.length xs) (List.length ts)
                then raise (XTL KValue (MTooShort (TGen n OTuple (Some ts))) [] (Some (VList xs)) (Some (TGen n OTuple (Some ts))) [])
                else tuple_loop cfg (run w cfg m) (VList xs) (TGen n OTuple (Some ts)) xs ts 0 []) (eq (VTuple l)) no).
    { replace (List.length xs) with (List.length ts) by lia. rewrite Nat.ltb_irrefl, andb_false_r.
      apply (tx_tuple_loop m _ _ ts l xs); [exact (G m ltac:(lia))|lia]. }
    destruct ts as [|t1 [|t2 [|t3 ts]]]; try exact T; destruct t2; try exact T. all: exfalso; eapply Fx; reflexivity.
  Qed.

  (** ** Dictionaries with keys of a basic type *)
  Definition dict_pair (m : nat) (c : cid) (vt : ty) (kv kx : value * value) : Prop :=
    fst kx = fst kv /\ type_of (fst kv) = c /\ hashable w (fst kv) = true /\ keeps vt (snd kx) (snd kv) /\ gives m (snd kx) vt (snd kv).
  Lemma isinst_exact x c : type_of x = c -> isinst w x (TClass c) = true.
  Proof using. intros <-. cbn. apply isinstance_self. Qed.
  Lemma tx_dict_slow m c vt d d' : In c basic -> c <> CNone -> 1 <= m -> Forall2 (dict_pair m c vt) d d' ->
    forall acc, py_dict (acc ++ d) -> tx (dict_slow w cfg (run w cfg m) (TClass c) vt d' acc) (eq (VDict (acc ++ d))) no.
  Proof using Hstd.
    intros Ic Nc L F. induction F as [|[k v] [k' x] d d' [E [Tk [Hk [Kv Gv]]]] _ IH]; intros acc P; cbn [dict_slow].
    - rewrite app_nil_r. apply tx_ret. reflexivity.
    - cbn [fst snd] in *. subst k'. eapply tx_bind with (Q1 := eq k).
      + apply gives_load. exists HBasic. split; [apply (find_basic w basic strcons cfg Hstd); assumption|].
        destruct m; [lia|]. cbn [run body]. unfold basicload, exact. rewrite Tk, ty_eqb_refl. apply tx_ret. reflexivity.
      + intros a <-. eapply tx_bind; [apply gives_load; exact Gv|]. intros a <-. rewrite Hk.
        replace (acc ++ (k, v) :: d) with ((acc ++ [(k, v)]) ++ d) by (rewrite <- app_assoc; reflexivity).
        rewrite dict_set_new; [apply IH; rewrite <- app_assoc; exact P|]. intros k0 x0 I.
        exact (FOP_app _ _ _ _ P (k0, x0) I).
  Qed.
  Lemma tx_dict_fast m c vt kf vf d d' : In c basic -> (vf = None \/ exists h, vf = Some h /\ find_handler cfg vt = POk h) ->
    Forall2 (dict_pair m c vt) d d' ->
    forall acc, py_dict (acc ++ d) -> tx (dict_fast w cfg (run w cfg m) (TClass c) vt kf vf d' acc) (eq (VDict (acc ++ d))) (fun _ => True).
  Proof using Hstd.
    intros Ic Hv F. induction F as [|[k v] [k' x] d d' [E [Tk [Hk [Kv Gv]]]] _ IH]; intros acc P; cbn [dict_fast].
    - rewrite app_nil_r. apply tx_ret. reflexivity.
    - cbn [fst snd] in *. subst k'. rewrite (isinst_exact k c Tk), basicb_std. cbn [in_classes].
      assert (M : mem_cid c basic = true) by (apply mem_cid_In; exact Ic). rewrite M. cbn [andb].
      eapply tx_bind with (Q1 := eq k); [apply tx_ret; reflexivity|]. intros a <-.
      eapply tx_bind with (Q1 := eq v).
      + rewrite basicb_std. destruct (in_classes basic vt && isinst w x vt) eqn:B.
        * apply andb_prop in B as [B _]. apply tx_ret. symmetry. apply Kv. exact B.
        * destruct Hv as [->|[h [-> Fh]]]; [apply tx_raise; exact I|]. destruct Gv as [h' [Fh' T]]. assert (h' = h) by congruence. subst h'.
          eapply tx_weak; [exact T|auto|auto].
      + intros a <-. rewrite Hk.
        replace (acc ++ (k, v) :: d) with ((acc ++ [(k, v)]) ++ d) by (rewrite <- app_assoc; reflexivity).
        rewrite dict_set_new; [apply IH; rewrite <- app_assoc; exact P|]. intros k0 x0 I.
        exact (FOP_app _ _ _ _ P (k0, x0) I).
  Qed.
  (** values of a basic type are all kept *)
  Lemma tx_dict_stay m c vt kf vf d d' : In c basic ->
    Forall2 (fun kv kx => fst kx = fst kv /\ type_of (fst kv) = c /\ hashable w (fst kv) = true /\ stay vt (snd kx) (snd kv)) d d' ->
    forall acc, py_dict (acc ++ d) -> tx (dict_fast w cfg (run w cfg m) (TClass c) vt kf vf d' acc) (eq (VDict (acc ++ d))) no.
  Proof using Hstd.
    intros Ic F. induction F as [|[k v] [k' x] d d' [E [Tk [Hk [Ex [Bv Iv]]]]] _ IH]; intros acc P; cbn [dict_fast].
    - rewrite app_nil_r. apply tx_ret. reflexivity.
    - cbn [fst snd] in *. subst k' x. rewrite (isinst_exact k c Tk), basicb_std. cbn [in_classes].
      assert (M : mem_cid c basic = true) by (apply mem_cid_In; exact Ic). rewrite M. cbn [andb].
      eapply tx_bind with (Q1 := eq k); [apply tx_ret; reflexivity|]. intros a <-.
      rewrite basicb_std, Bv, Iv. cbn [andb]. eapply tx_bind with (Q1 := eq v); [apply tx_ret; reflexivity|].
      intros a <-. rewrite Hk.
      replace (acc ++ (k, v) :: d) with ((acc ++ [(k, v)]) ++ d) by (rewrite <- app_assoc; reflexivity).
      rewrite dict_set_new; [apply IH; rewrite <- app_assoc; exact P|]. intros k0 x0 I.
      exact (FOP_app _ _ _ _ P (k0, x0) I).
  Qed.
  Lemma LT_dict n c vt d d' : In c basic -> c <> CNone -> supported cfg vt -> py_dict d ->
    Forall2 (fun kv kx => fst kx = fst kv /\ type_of (fst kv) = c /\ hashable w (fst kv) = true /\ keeps vt (snd kx) (snd kv) /\ LT (snd kx) vt (snd kv)) d d' ->
    LT (VDict d') (TGen n ODict (Some [TClass c; vt])) (VDict d).
  Proof using Hstd.
    intros Ic Nc Sv P F. apply supported_find in Sv as [h Fh].
    assert (G : exists N, forall m, N <= m -> Forall2 (dict_pair m c vt) d d').
    { apply F2_bound. eapply F2_imp; [|exact F]. intros kv kx [E [Tk [Hk [K [N H]]]]]. exists N. intros m L. repeat split; try assumption; try apply K; auto. }
    destruct G as [N G]. exists (S (S N)). intros [|m] L; [lia|]. exists HDict. split; [apply (find_dict w basic strcons cfg Hstd)|].
    cbn [run body]. unfold dictload. cbn [ty_args].
    pose proof (find_basic w basic strcons cfg Hstd c Ic Nc) as Fk.
    eapply tx_bind; [apply tx_lookup; intros r Q; congruence|]. cbv beta. intros kf0 Fk0.
    eapply tx_bind with (Q1 := fun kv => snd kv = None \/ exists h, snd kv = Some h /\ find_handler cfg vt = POk h).
    - intros s C. destruct (ty_get vt (st_index s)) as [h'|] eqn:Q.
      + split; [|exact C]. right. exists h'. split; [reflexivity|]. apply (coh_index _ _ _ (ok_coh _ _ _ _ _ C)). exact Q.
      + rewrite Fh. split; [left; reflexivity|]. apply okst_index; assumption.
    - intros [kf vf] Hv. cbn [snd] in Hv. cbn [as_dict].
      eapply tx_catch with (E1 := fun _ => True); [apply (tx_dict_fast m c vt kf vf d d'); auto; exact (G m ltac:(lia))|].
      intros e _. eapply tx_catch with (E1 := no); [apply (tx_dict_slow m c vt d d'); auto; try lia; exact (G m ltac:(lia))|].
      intros e' [].
  Qed.

  Lemma LT_dict_stay n c vt d d' : In c basic -> c <> CNone -> supported cfg vt -> py_dict d ->
    Forall2 (fun kv kx => fst kx = fst kv /\ type_of (fst kv) = c /\ hashable w (fst kv) = true /\ stay vt (snd kx) (snd kv)) d d' ->
    LT (VDict d') (TGen n ODict (Some [TClass c; vt])) (VDict d).
  Proof using Hstd.
    intros Ic Nc Sv P F. apply supported_find in Sv as [h Fh].
    exists 1. intros [|m] L; [lia|]. exists HDict. split; [apply (find_dict w basic strcons cfg Hstd)|].
    cbn [run body]. unfold dictload. cbn [ty_args].
    pose proof (find_basic w basic strcons cfg Hstd c Ic Nc) as Fk.
    eapply tx_bind; [apply tx_lookup; intros r Q; congruence|]. cbv beta. intros kf0 Fk0.
    eapply tx_bind with (Q1 := fun _ => True).
    - intros s C. destruct (ty_get vt (st_index s)) as [h'|] eqn:Q; [split; [exact I|exact C]|].
      rewrite Fh. split; [exact I|]. apply okst_index; assumption.
    - intros [kf vf] _. cbn [as_dict].
      eapply tx_catch with (E1 := no); [apply (tx_dict_stay m c vt kf vf d d'); auto|]. intros e [].
  Qed.

  (** ** NewType and forward references *)
  Lemma LT_newtype x n t v : LT x t v -> LT x (TNewType n t) v.
  Proof using Hstd.
    intros [N H]. exists (S N). intros [|m] L; [lia|]. exists HNewType. split; [apply (find_newtype w basic strcons cfg Hstd)|].
    cbn [run body]. unfold newtypeload. apply gives_load. apply H. lia.
  Qed.
  Lemma RJ_newtype x n t : RJ x t -> RJ x (TNewType n t).
  Proof using Hstd.
    intros [N H]. exists (S N). intros [|m] L; [lia|]. exists HNewType. split; [apply (find_newtype w basic strcons cfg Hstd)|].
    cbn [run body]. unfold newtypeload. apply fails_load. apply H. lia.
  Qed.
  Lemma tx_forward m x n t Q E : env n = Some t -> tx (load_with w cfg (run w cfg m) x t (Some (AnForward n))) Q E ->
    tx (forwardrefload w cfg (run w cfg m) x (TForward n)) Q E.
  Proof using.
    intros En T s C. unfold forwardrefload, bind, get_st. destruct (ok_lo _ _ _ _ _ C n t En) as [fr [Fr G]]. rewrite Fr, G.
    apply T. exact C.
  Qed.
  Lemma LT_forward x n t v : env n = Some t -> LT x t v -> LT x (TForward n) v.
  Proof using Hstd.
    intros En [N H]. exists (S N). intros [|m] L; [lia|]. exists HForward. split; [apply (find_forward w basic strcons cfg Hstd)|].
    cbn [run body]. apply (tx_forward m x n t); [exact En|]. apply gives_load. apply H. lia.
  Qed.
  Lemma RJ_forward x n t : env n = Some t -> RJ x t -> RJ x (TForward n).
  Proof using Hstd.
    intros En [N H]. exists (S N). intros [|m] L; [lia|]. exists HForward. split; [apply (find_forward w basic strcons cfg Hstd)|].
    cbn [run body]. apply (tx_forward m x n t); [exact En|]. apply fails_load. apply H. lia.
  Qed.
End PL.
