(** * Items: lists, tuples, sets, dictionaries item by item (C09, C10, C38, C39) *)

From Verif Require Import Loader Spec Inv Std Sound Fuel Obs Scalars Simple Transparent Hist Stops.

(** ** Vocabulary *)



Lemma ForallOrdPairs_snoc {A} (R : A -> A -> Prop) l x :
  ForallOrdPairs R l -> Forall (fun a => R a x) l -> ForallOrdPairs R (l ++ [x]).
Proof.
  induction 1 as [|a l Ha Hl IH]; intro F; cbn; [repeat constructor|].
  inversion F as [|? ? Fa Fl]; subst. constructor; [|apply IH; exact Fl].
  apply Forall_app. split; [exact Ha|constructor; [exact Fa|constructor]].
Qed.
Lemma set_of_distinct ys : distinct_of ys (set_of ys).
Proof.
  assert (X : forall ys pre acc, distinct_of pre acc ->
     distinct_of (pre ++ ys) (fold_left (fun acc y => set_add y acc) ys acc)).
  { clear ys. induction ys as [|y ys IH]; intros pre acc D; cbn [fold_left]; [rewrite app_nil_r; exact D|].
    replace (pre ++ y :: ys) with ((pre ++ [y]) ++ ys) by (rewrite <- app_assoc; reflexivity).
    apply IH. destruct D as [D1 [D2 D3]]. unfold set_add. destruct (py_in y acc) eqn:E.
    - unfold py_in in E. apply existsb_exists in E. destruct E as [z [Hz Ez]]. split; [|split; [|exact D3]].
      + intros z' H. apply in_or_app. left. auto.
      + intros y' H. apply in_app_or in H. destruct H as [H|[<-|[]]]; [auto|]. right. exists z. auto.
    - split; [|split].
      + intros z' H. apply in_app_or in H. apply in_or_app. destruct H as [H|[<-|[]]]; [left; auto|right; left; reflexivity].
      + intros y' H. apply in_app_or in H. destruct H as [H|[<-|[]]].
        * destruct (D2 y' H) as [H'|[z [Hz Ez]]]; [left; apply in_or_app; auto|].
          right. exists z. split; [apply in_or_app; auto|exact Ez].
        * left. apply in_or_app. right. left. reflexivity.
      + apply ForallOrdPairs_snoc; [exact D3|]. apply Forall_forall. intros z Hz.
        unfold py_in in E. destruct (py_eqb y z) eqn:Q; [|reflexivity].
        assert (existsb (py_eqb y) acc = true) by (apply existsb_exists; exists z; auto). congruence. }
  apply (X ys [] []). split; [intros z []|]. split; [intros y []|constructor].
Qed.


Section Items.
  Variable w : world.
  Variables basic strcons : list cid.
  Variable cfg : config.
  Hypothesis Hstd : is_std w basic strcons cfg.
  Hypothesis Hwr : wf_reflect w.
  Variable env : string -> option ty.
  Notation p := (pep563 cfg).
  Variable s : lstate.
  Variable V : value.
  Variable T : ty.
  Hypothesis Us : used w cfg s.
  Hypothesis St : steady w basic cfg env s V T.
  Notation G := (reach w p env T).
  Notation SETTLED := (settled w cfg env (reach w p env T) (seen s)).

  Lemma St_s : SETTLED s.
  Proof using Us St. eapply steady_settled; [apply used_coh; exact Us|exact St]. Qed.
  Definition Rl := run_loads w basic strcons cfg Hstd Hwr env G (fun a b => reach_step w p env T a b)
     (seen s) (inside V) (fun a b => inside_step V a b) (sd_dict _ _ _ _ _ _ _ St) (sd_union _ _ _ _ _ _ _ St).
  Definition Lr := loads_run w basic strcons cfg Hstd Hwr env G (fun a b => reach_step w p env T a b)
     (seen s) (inside V) (fun a b => inside_step V a b) (sd_dict _ _ _ _ _ _ _ St) (sd_union _ _ _ _ _ _ _ St).
  Definition Lro := loads_run_ok w basic strcons cfg Hstd Hwr env G (fun a b => reach_step w p env T a b)
     (seen s) (inside V) (fun a b => inside_step V a b) (sd_dict _ _ _ _ _ _ _ St) (sd_union _ _ _ _ _ _ _ St).
  Definition La := load_ann_loads w basic strcons cfg Hstd Hwr env G (fun a b => reach_step w p env T a b)
     (seen s) (inside V) (fun a b => inside_step V a b) (sd_dict _ _ _ _ _ _ _ St) (sd_union _ _ _ _ _ _ _ St).

  Lemma run_ok h v t s1 n y :
    SETTLED s1 -> G t -> inside V v -> find_handler cfg t = POk h ->
    fst (run w cfg n h v t s1) = Ok y -> loads w cfg s v t (Ok y).
  Proof using Hstd Hwr Us St.
    intros S1 Gt Iv F E. exact (Rl n h v t s1 s (Ok y) S1 St_s Gt Iv F E ltac:(discriminate)).
  Qed.

  Lemma basicb_in' t : basicb cfg t = in_classes basic t.
  Proof using Hstd. unfold basicb. destruct Hstd as [_ ->]. reflexivity. Qed.

  Lemma kept_dec t x : basicb cfg t && isinst w x t = true <-> kept w basic t x.
  Proof using Hstd.
    rewrite basicb_in'. split.
    - intro H. apply andb_true_iff in H. destruct H as [B I]. destruct t; try discriminate.
      exists c. apply mem_cid_In in B. auto.
    - intros [c [-> [B I]]]. cbn. apply mem_cid_In in B. rewrite B, I. reflexivity.
  Qed.

  Lemma iter_item_ok n h et x s1 y :
    SETTLED s1 -> G et -> inside V x -> find_handler cfg et = POk h ->
    fst (iter_item w cfg (run w cfg n) h et x s1) = Ok y -> item_loads w basic cfg s et x y.
  Proof using Hstd Hwr Us St.
    intros S1 Ge Ix F E. unfold iter_item in E.
    destruct (basicb cfg et) eqn:B.
    - destruct (isinst w x et) eqn:I.
      + left. cbn in E. injection E as ->. split; [|reflexivity]. apply kept_dec. rewrite B, I. reflexivity.
      + right. split; [rewrite <- kept_dec, B, I; discriminate|]. eapply run_ok; eauto.
    - right. split; [rewrite <- kept_dec, B; discriminate|].
      destruct et as [c|nt o args|vals| |f| |nm su|f]; try (eapply run_ok; eauto; fail).
      destruct o; try (eapply run_ok; eauto; fail). destruct args as [us|]; [|eapply run_ok; eauto].
      destruct (forallb (basicb cfg) us && mem_ty (TClass (type_of x)) us) eqn:Q; [|eapply run_ok; eauto].
      cbn in E. injection E as ->. apply andb_true_iff in Q. destruct Q as [Q1 Q2]. apply mem_ty_In in Q2.
      rewrite forallb_forall in Q1. specialize (Q1 _ Q2). rewrite basicb_in' in Q1. cbn in Q1. apply mem_cid_In in Q1.
      split; [discriminate|]. exists 1. eapply union_passthrough; eauto. apply used_coh. exact Us.
  Qed.

  Lemma iter_item_conv h et x s1 y :
    SETTLED s1 -> G et -> inside V x -> find_handler cfg et = POk h ->
    item_loads w basic cfg s et x y ->
    exists s1' N, SETTLED s1' /\ forall m, N <= m -> iter_item w cfg (run w cfg m) h et x s1 = (Ok y, s1').
  Proof using Hstd Hwr Us St.
    intros S1 Ge Ix F [[K ->]|[K L]].
    - exists s1, 0. split; [exact S1|]. intros m _. unfold iter_item. apply kept_dec in K. apply andb_true_iff in K.
      destruct K as [-> ->]. reflexivity.
    - assert (NK : basicb cfg et && isinst w x et = false).
      { destruct (basicb cfg et && isinst w x et) eqn:Q; [apply kept_dec in Q; contradiction|reflexivity]. }
      destruct (Lro h x et s1 s y S1 St_s Ge Ix F L) as [s1' [N [S1' HN]]].
      unfold iter_item. destruct (basicb cfg et) eqn:B.
      + cbn in NK. rewrite NK. exists s1', N. auto.
      + destruct et as [c|nt o args|vals| |f| |nm su|f]; try (exists s1', N; auto; fail).
        destruct o; try (exists s1', N; auto; fail). destruct args as [us|]; [|exists s1', N; auto].
        destruct (forallb (basicb cfg) us && mem_ty (TClass (type_of x)) us) eqn:Q; [|exists s1', N; auto].
        exists s1, 0. split; [exact S1|]. intros m _. unfold ret. f_equal. f_equal.
        apply andb_true_iff in Q. destruct Q as [Q1 Q2]. apply mem_ty_In in Q2.
        rewrite forallb_forall in Q1. specialize (Q1 _ Q2). rewrite basicb_in' in Q1. cbn in Q1. apply mem_cid_In in Q1.
        apply (c12 w basic strcons cfg Hstd s Us x nt us (Ok y) Q1 Q2) in L. congruence.
  Qed.

  Lemma pres_item n h et x s1 : SETTLED s1 -> SETTLED (snd (iter_item w cfg (run w cfg n) h et x s1)).
  Proof using.
    intro S1. unfold iter_item. destruct (basicb cfg et).
    - destruct (isinst w x et); [exact S1|apply settled_run; exact S1].
    - destruct et as [c|nt o args|vals| |f| |nm su|f]; try (apply settled_run; exact S1).
      destruct o; try (apply settled_run; exact S1). destruct args as [us|]; [|apply settled_run; exact S1].
      destruct (forallb (basicb cfg) us && mem_ty (TClass (type_of x)) us); [exact S1|apply settled_run; exact S1].
  Qed.

  (** what has been collected after some items *)
  Definition partial (k : coll) (ys acc : list value) : Prop :=
    match k with
    | KoList | KoTuple => acc = ys
    | KoSet | KoFrozen => forallb (hashable w) ys = true /\ acc = set_of ys
    end.
  Lemma partial_nil k : partial k [] []. Proof using. destruct k; cbn; auto. Qed.
  Lemma partial_step k ys acc y acc' :
    partial k ys acc -> coll_add w k y acc = POk acc' -> partial k (ys ++ [y]) acc'.
  Proof using.
    intros P A. destruct k; cbn in *; try (injection A as <-; subst acc; reflexivity).
    all: destruct P as [H ->]; destruct (hashable w y) eqn:E; [|discriminate]; injection A as <-; split;
      [rewrite forallb_app, H; cbn; rewrite E; reflexivity|unfold set_of; rewrite fold_left_app; reflexivity].
  Qed.
  Lemma partial_add k ys acc y :
    partial k ys acc -> (match k with KoSet | KoFrozen => hashable w y = true | _ => True end) ->
    exists acc', coll_add w k y acc = POk acc' /\ partial k (ys ++ [y]) acc'.
  Proof using.
    intros P H. assert (exists acc', coll_add w k y acc = POk acc') as [acc' E].
    { destruct k; cbn in *; try rewrite H; eauto. }
    exists acc'. split; [exact E|]. eapply partial_step; eassumption.
  Qed.
  Lemma partial_collect k ys acc : partial k ys acc -> collect w k ys = Some (mk_coll k acc).
  Proof using. destruct k; cbn; [intros ->|intros ->|intros [-> ->]|intros [-> ->]]; reflexivity. Qed.

  Lemma iter_loop_ok k (f : value -> M value) v t l :
    (forall x s1, SETTLED s1 -> SETTLED (snd (f x s1))) ->
    forall i ys0 acc s1 r, partial k ys0 acc -> SETTLED s1 ->
    fst (iter_loop w k false f v t l i acc s1) = Ok r ->
    exists ys, Forall2 (fun x y => exists s', SETTLED s' /\ fst (f x s') = Ok y) l ys /\
      collect w k (ys0 ++ ys) = Some r.
  Proof using.
    intro Hf. induction l as [|x l IH]; intros i ys0 acc s1 r P S1 E; cbn [iter_loop] in E.
    - cbn in E. injection E as <-. exists []. split; [constructor|]. rewrite app_nil_r. apply partial_collect. exact P.
    - unfold bind, attempt in E. pose proof (Hf x s1 S1) as S2. destruct (f x s1) as [[y|e|] s2] eqn:Fx; cbn [fst snd] in *.
      + destruct (coll_add w k y acc) as [acc'|rk] eqn:A; cbn in E.
        * destruct (IH (S i) (ys0 ++ [y]) acc' s2 r (partial_step _ _ _ _ _ P A) S2 E) as [ys [F2 Q]].
          exists (y :: ys). split; [constructor; [|exact F2]; exists s1; rewrite Fx; auto|].
          rewrite <- app_assoc in Q. exact Q.
        * unfold item_error in E. destruct rk; cbn in E; discriminate.
      + unfold item_error in E. destruct e as [| []]; cbn in E; discriminate.
      + discriminate.
  Qed.

  Lemma iter_loop_conv k mp (f : nat -> value -> M value) v t l ys :
    Forall2 (fun x y => forall s1, SETTLED s1 -> exists s1' N, SETTLED s1' /\ forall m, N <= m -> f m x s1 = (Ok y, s1')) l ys ->
    forall i ys0 acc s1 r, partial k ys0 acc -> SETTLED s1 -> collect w k (ys0 ++ ys) = Some r ->
    exists s1' N, SETTLED s1' /\ forall m, N <= m -> iter_loop w k mp (f m) v t l i acc s1 = (Ok r, s1').
  Proof using.
    induction 1 as [|x y l ys Hx F2 IH]; intros i ys0 acc s1 r P S1 Q.
    - rewrite app_nil_r in Q. rewrite (partial_collect _ _ _ P) in Q. injection Q as <-.
      exists s1, 0. split; [exact S1|]. intros m _. reflexivity.
    - destruct (Hx s1 S1) as [s2 [N1 [S2 H1]]].
      destruct (partial_add k ys0 acc y P) as [acc' [A P']].
      { destruct k; try exact I; cbn in Q; rewrite forallb_app in Q; cbn in Q;
        destruct (hashable w y); try reflexivity; rewrite andb_false_r in Q; discriminate. }
      destruct (IH (S i) (ys0 ++ [y]) acc' s2 r P' S2) as [s3 [N2 [S3 H2]]].
      { rewrite <- app_assoc. exact Q. }
      exists s3, (N1 + N2). split; [exact S3|]. intros m L. cbn [iter_loop]. unfold bind, attempt.
      rewrite (H1 m) by lia. rewrite A. cbn. apply H2. lia.
  Qed.

  Definition coll_handler (k : coll) : handler :=
    match k with KoList => HList | KoTuple => HTuple | KoSet => HSet | KoFrozen => HFrozen end.
  Lemma find_coll k nt et rest : find_handler cfg (coll_type k nt et rest) = POk (coll_handler k).
  Proof using Hstd.
    destruct k; [eapply find_list|eapply find_tuple|eapply find_set|eapply find_frozen]; eassumption.
  Qed.
  Lemma body_coll call k nt et rest v s1 :
    body w cfg call (coll_handler k) v (coll_type k nt et rest) s1
    = iterload w cfg call k v (coll_type k nt et rest) s1.
  Proof using. destruct k; reflexivity. Qed.
  Lemma args_coll k nt et rest : exists rest', ty_args (coll_type k nt et rest) = Some (et :: rest').
  Proof using. destruct k; cbn; eauto. Qed.

  Lemma collection_ok k nt et rest :
    T = coll_type k nt et rest -> never_stops w p env et -> forall r,
    loads w cfg s V T (Ok r) ->
     supported cfg et /\ (forall d, V <> VDict d) /\
     exists l ys, iter V = Some l /\ Forall2 (item_loads w basic cfg s et) l ys /\ collect w k ys = Some r.
  Proof using Hstd Hwr Us St.
    intros ET NSt r. pose proof St_s as S0. pose proof (used_coh _ _ _ Us) as C.
    pose proof (find_coll k nt et rest) as F. rewrite <- ET in F.
    destruct (args_coll k nt et rest) as [rest' A]. rewrite <- ET in A.
    assert (Ge : G et).
    { eapply reach_step; [apply reach_refl|]. rewrite ET. unfold component, comps.
      destruct k; cbn; auto. }
    pose proof (settled_enter w cfg env G (seen s) s T (coll_handler k) F S0) as S1.
    set (s1 := enter w cfg T (coll_handler k) s) in *.
    assert (BE : forall m s', run w cfg (S m) (coll_handler k) V T s' = iterload w cfg (run w cfg m) k V T s').
    { intros m s'. cbn [run]. rewrite ET. apply body_coll. }
    intros [_ [n E]]. unfold load in E. rewrite (load_enter_fst w cfg n V T None s _ C F) in E. fold s1 in E.
      destruct n as [|n]; [discriminate|]. rewrite BE in E. unfold iterload in E. rewrite A in E.
      assert (ND : forall d, V <> VDict d) by (intros d ->; cbn in E; discriminate).
      destruct (find_handler cfg et) as [h|rk] eqn:Fe.
      2: { exfalso. assert (rk = RValue) by (eapply std_exc; eassumption). subst rk.
           assert (TG : ty_get et (st_index s1) = None).
           { destruct (ty_get et (st_index s1)) eqn:X; [|reflexivity].
             pose proof (coh_index _ _ _ (proj1 S1) _ _ X). congruence. }
           destruct V; try (exfalso; eapply ND; reflexivity); unfold bind, lookup_handler in E; rewrite TG, Fe in E; discriminate. }
      split; [apply supported_find; eauto|]. split; [exact ND|].
      assert (L : exists s2, SETTLED s2 /\ lookup_handler cfg (XTL KType (MCannotDeal et) [] (Some V) (Some et) []) et s1 = (Ok h, s2)).
      { unfold lookup_handler. destruct (ty_get et (st_index s1)) as [h'|] eqn:X.
        - pose proof (coh_index _ _ _ (proj1 S1) _ _ X). exists s1. split; [exact S1|congruence].
        - rewrite Fe. eexists. split; [|reflexivity]. apply settled_index; assumption. }
      destruct L as [s2 [S2 L]].
      assert (E' : wrap V T None (fst (match iter V with
            | None => raise (XTL KType (MPy RType) [] (Some V) (Some T) [])
            | Some l => iter_loop w k (mapped cfg et) (iter_item w cfg (run w cfg n) h et) V T l 0 [] end s2)) = Ok r).
      { rewrite <- E. assert (X : (h <- lookup_handler cfg (XTL KType (MCannotDeal et) [] (Some V) (Some et) []) et ;;
            match iter V with
            | None => raise (XTL KType (MPy RType) [] (Some V) (Some T) [])
            | Some l => iter_loop w k (mapped cfg et) (iter_item w cfg (run w cfg n) h et) V T l 0 [] end) s1
          = match iter V with
            | None => raise (XTL KType (MPy RType) [] (Some V) (Some T) [])
            | Some l => iter_loop w k (mapped cfg et) (iter_item w cfg (run w cfg n) h et) V T l 0 [] end s2).
        { unfold bind. rewrite L. reflexivity. }
        rewrite <- X. destruct V; try reflexivity. exfalso. eapply ND. reflexivity. }
      clear E. destruct (iter V) as [l|] eqn:Il; [|discriminate].
      destruct (fst (iter_loop w k (mapped cfg et) (iter_item w cfg (run w cfg n) h et) V T l 0 [] s2)) as [r'|e|] eqn:EL;
        cbn in E'; [injection E' as ->|destruct (is_tl e); discriminate|discriminate].
      rewrite (iter_loop_calm SETTLED) in EL; [| |exact S2].
      2: { intro x. unfold iter_item. assert (R : hl SETTLED (run w cfg n h x et) (fun _ => True) NS).
           { intros s' Hs'. pose proof (ns_run w basic strcons cfg Hstd Hwr env n h x et NSt Fe s' (proj1 Hs')) as K.
             pose proof (settled_run w cfg env G (seen s) n h x et s' Hs') as K2. destruct (run w cfg n h x et s') as [[a|e|] s3]; cbn [snd] in K2; [split; [exact K2|exact I]|split; [exact K2|apply K]|exact K2]. }
           repeat match goal with |- context [match ?z with _ => _ end] => destruct z end; try exact R; apply hl_ret; exact I. }
      destruct (iter_loop_ok k (iter_item w cfg (run w cfg n) h et) V T l (pres_item n h et) 0 [] [] s2 r (partial_nil k) S2 EL) as [ys [F2 Q]].
      exists l, ys. split; [reflexivity|]. split; [|exact Q].
      clear Q EL. assert (Hin : forall x, In x l -> inside V x).
      { intros x Hx. eapply inside_step; [apply inside_refl|]. eapply part_item; eassumption. }
      clear Il. induction F2 as [|x y l ys [s' [Ss' Hxy]] F2 IH]; constructor.
      + eapply iter_item_ok; [exact Ss'|exact Ge|apply Hin; left; reflexivity|exact Fe|exact Hxy].
      + apply IH. intros x' Hx'. apply Hin. right. exact Hx'.
  Qed.
  Lemma collection_conv k nt et rest :
    T = coll_type k nt et rest -> forall r,
     (supported cfg et /\ (forall d, V <> VDict d) /\
     exists l ys, iter V = Some l /\ Forall2 (item_loads w basic cfg s et) l ys /\ collect w k ys = Some r) ->
    loads w cfg s V T (Ok r).
  Proof using Hstd Hwr Us St.
    intros ET r. pose proof St_s as S0. pose proof (used_coh _ _ _ Us) as C.
    pose proof (find_coll k nt et rest) as F. rewrite <- ET in F.
    destruct (args_coll k nt et rest) as [rest' A]. rewrite <- ET in A.
    assert (Ge : G et).
    { eapply reach_step; [apply reach_refl|]. rewrite ET. unfold component, comps.
      destruct k; cbn; auto. }
    pose proof (settled_enter w cfg env G (seen s) s T (coll_handler k) F S0) as S1.
    set (s1 := enter w cfg T (coll_handler k) s) in *.
    assert (BE : forall m s', run w cfg (S m) (coll_handler k) V T s' = iterload w cfg (run w cfg m) k V T s').
    { intros m s'. cbn [run]. rewrite ET. apply body_coll. }
    intros [Sup [ND [l [ys [Il [F2 Q]]]]]]. apply supported_find in Sup. destruct Sup as [h Fe].
      assert (L : exists s2, SETTLED s2 /\ lookup_handler cfg (XTL KType (MCannotDeal et) [] (Some V) (Some et) []) et s1 = (Ok h, s2)).
      { unfold lookup_handler. destruct (ty_get et (st_index s1)) as [h'|] eqn:X.
        - pose proof (coh_index _ _ _ (proj1 S1) _ _ X). exists s1. split; [exact S1|congruence].
        - rewrite Fe. eexists. split; [|reflexivity]. apply settled_index; assumption. }
      destruct L as [s2 [S2 L]].
      assert (F3 : Forall2 (fun x y => forall s1, SETTLED s1 -> exists s1' N, SETTLED s1' /\
         forall m, N <= m -> iter_item w cfg (run w cfg m) h et x s1 = (Ok y, s1')) l ys).
      { assert (Hin : forall x, In x l -> inside V x).
        { intros x Hx. eapply inside_step; [apply inside_refl|]. eapply part_item; eassumption. }
        clear Il Q. induction F2 as [|x y l ys Hxy F2 IH]; constructor.
        - intros s3 S3. apply iter_item_conv; auto. apply Hin. left. reflexivity.
        - apply IH. intros x' Hx'. apply Hin. right. exact Hx'. }
      destruct (iter_loop_conv k (mapped cfg et) (fun m => iter_item w cfg (run w cfg m) h et) V T l ys F3 0 [] [] s2 r (partial_nil k) S2 Q)
        as [s3 [N [S3 HN]]].
      split; [discriminate|]. exists (S N). unfold load. rewrite (load_enter_fst w cfg (S N) V T None s _ C F). fold s1.
      rewrite BE. unfold iterload. rewrite A.
      assert (X : (h <- lookup_handler cfg (XTL KType (MCannotDeal et) [] (Some V) (Some et) []) et ;;
            match iter V with
            | None => raise (XTL KType (MPy RType) [] (Some V) (Some T) [])
            | Some l => iter_loop w k (mapped cfg et) (iter_item w cfg (run w cfg N) h et) V T l 0 [] end) s1 = (Ok r, s3)).
      { unfold bind. rewrite L, Il. apply HN. lia. }
      destruct V; try (rewrite X; reflexivity). exfalso. eapply ND. reflexivity.
  Qed.
  Lemma collection k nt et rest :
    T = coll_type k nt et rest -> never_stops w p env et -> forall r,
    (loads w cfg s V T (Ok r) <->
     supported cfg et /\ (forall d, V <> VDict d) /\
     exists l ys, iter V = Some l /\ Forall2 (item_loads w basic cfg s et) l ys /\ collect w k ys = Some r).
  Proof using Hstd Hwr Us St.
    intros ET NSt r. split; [eapply collection_ok; eassumption|]. intro H. apply (collection_conv k nt et rest ET). exact H.
  Qed.
End Items.

(** the direction which needs no assumption about StopIteration *)
Section Back.
  Variable w : world.
  Variables basic strcons : list cid.
  Variable cfg : config.
  Hypothesis Hstd : is_std w basic strcons cfg.
  Hypothesis Hwr : wf_reflect w.
  Variable env : string -> option ty.
  Variable s : lstate.
  Hypothesis Us : used w cfg s.
  Notation steady := (steady w basic cfg env s).
  Lemma list_back v n et r : steady v (TGen n OList (Some [et])) ->
    (supported cfg et /\ (forall d, v <> VDict d) /\
     exists l ys, iter v = Some l /\ Forall2 (item_loads w basic cfg s et) l ys /\ r = VList ys) ->
    loads w cfg s v (TGen n OList (Some [et])) (Ok r).
  Proof using Hstd Hwr Us.
    intros St [A [B [l [ys [D [E ->]]]]]]. apply (collection_conv w basic strcons cfg Hstd Hwr env s v _ Us St KoList n et [] eq_refl).
    split; [exact A|]. split; [exact B|]. exists l, ys. auto.
  Qed.
  Lemma tuple_back v n et r : steady v (TGen n OTuple (Some [et; TEllipsis])) ->
    (supported cfg et /\ (forall d, v <> VDict d) /\
     exists l ys, iter v = Some l /\ Forall2 (item_loads w basic cfg s et) l ys /\ r = VTuple ys) ->
    loads w cfg s v (TGen n OTuple (Some [et; TEllipsis])) (Ok r).
  Proof using Hstd Hwr Us.
    intros St [A [B [l [ys [D [E ->]]]]]]. apply (collection_conv w basic strcons cfg Hstd Hwr env s v _ Us St KoTuple n et [] eq_refl).
    split; [exact A|]. split; [exact B|]. exists l, ys. auto.
  Qed.
  Lemma set_back v n et (frozen : bool) r : let t := TGen n (if frozen then OFrozen else OSet) (Some [et]) in
    steady v t ->
    (supported cfg et /\ (forall d, v <> VDict d) /\
     exists l ys, iter v = Some l /\ Forall2 (item_loads w basic cfg s et) l ys /\
      (forall y, In y ys -> hashable w y = true) /\ r = (if frozen then VFrozen (set_of ys) else VSet (set_of ys))) ->
    loads w cfg s v t (Ok r).
  Proof using Hstd Hwr Us.
    intros t St [A [B [l [ys [D [E [H ->]]]]]]]. apply forallb_forall in H.
    apply (collection_conv w basic strcons cfg Hstd Hwr env s v _ Us St (if frozen then KoFrozen else KoSet) n et []); [destruct frozen; reflexivity|].
    split; [exact A|]. split; [exact B|]. exists l, ys. split; [exact D|]. split; [exact E|]. destruct frozen; cbn [collect]; rewrite H; reflexivity.
  Qed.
End Back.
