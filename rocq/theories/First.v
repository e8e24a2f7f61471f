(** * First: the failure of a collection is the failure of its first bad item (C75) *)

From Verif Require Import Loader Spec Vocab Inv Std Sound Fuel Obs Scalars Simple Transparent Hist Eval Items Tuples Objects.

(** how the exception of a part looks like in the exception of the whole: the
    part [x] was loaded into [t] and raised [e0]; the whole is [V], loaded into
    [T], and [a] says where [x] is in it; [v'] is [V], or what it became when
    the names were mangled *)
Definition raised_inside (V v' : value) (T : ty) (a : ann) (x : value) (t : ty) (e0 e : exn) : Prop :=
  exists k m tr ve te subs,
    e0 = XTL k m ((x, t, None) :: tr) ve te subs /\
    e = XTL k m ((V, T, None) :: (v', T, Some a) :: tr) ve te subs.

Section First.
  Variable w : world.
  Variables basic strcons : list cid.
  Variable cfg : config.
  Hypothesis Hstd : is_std w basic strcons cfg.
  Hypothesis Hwr : wf_reflect w.
  Variable env : string -> option ty.
  Notation p := (pep563 cfg).
  Variable s : lstate.
  Variable V : value.
  Variable T : ty.
  Hypothesis Us : used w cfg s.
  Hypothesis St : steady w basic cfg env s V T.
  Notation G := (reach w p env T).
  Notation Vok := (inside V).
  Notation SETTLED := (settled w cfg env (reach w p env T) (seen s)).
  Notation conv := (conv w cfg env s T).
  Notation regular := (regular w cfg env s T).
  Notation calls := (calls w cfg env s T).
  Notation loads := (loads w cfg s).

  (** a handler raises [XTL k m tr ..] when load raises it with the root in front *)
  Lemma loads_exc_calls x t h k m tr0 ve te subs : G t -> Vok x -> find_handler cfg t = POk h ->
    loads x t (Exc (XTL k m tr0 ve te subs)) -> exists tr, tr0 = (x, t, None) :: tr /\ calls h x t (Exc (XTL k m tr ve te subs)).
  Proof using Hstd Hwr Us St.
    intros Gt Vx F L. apply (loads_calls w basic strcons cfg Hstd Hwr env s V T Us St x t h _ Gt Vx F) in L as [r0 [C E]].
    destruct r0 as [y|e|]; cbn in E; try discriminate. destruct e as [k0 m0 tr v0 t0 s0|]; cbn in E; [|discriminate].
    injection E as -> -> -> -> -> ->. exists tr. auto.
  Qed.
  Lemma calls_exc_loads x t h k m tr ve te subs : G t -> Vok x -> find_handler cfg t = POk h ->
    calls h x t (Exc (XTL k m tr ve te subs)) -> loads x t (Exc (XTL k m ((x, t, None) :: tr) ve te subs)).
  Proof using Hstd Hwr Us St.
    intros Gt Vx F C. apply (loads_calls w basic strcons cfg Hstd Hwr env s V T Us St x t h _ Gt Vx F). eexists. split; [exact C|]. reflexivity.
  Qed.

  (** ** List, Tuple[t, ...], Set, FrozenSet *)
  Lemma iter_item_two h et x : find_handler cfg et = POk h ->
    (forall m s1, iter_item w cfg (run w cfg m) h et x s1 = ret x s1) /\ item_loads w basic cfg s et x x \/
    (forall m s1, iter_item w cfg (run w cfg m) h et x s1 = run w cfg m h x et s1) /\ ~ kept w basic et x.
  Proof using Hstd Us.
    intro F. unfold iter_item. pose proof (kept_dec w basic strcons cfg Hstd et x) as K.
    destruct (basicb cfg et) eqn:B.
    - destruct (isinst w x et) eqn:I.
      + left. split; [reflexivity|]. left. split; [|reflexivity]. apply K. reflexivity.
      + right. split; [reflexivity|]. intro Q. apply K in Q. discriminate.
    - assert (NK : ~ kept w basic et x) by (intro Q; apply K in Q; discriminate).
      destruct et as [c|nt o args|vals| |f| |nm su|f]; try (right; split; [reflexivity|exact NK]).
      destruct o; try (right; split; [reflexivity|exact NK]). destruct args as [us|]; [|right; split; [reflexivity|exact NK]].
      destruct (forallb (basicb cfg) us && mem_ty (TClass (type_of x)) us) eqn:Q; [|right; split; [reflexivity|exact NK]].
      left. split; [reflexivity|]. right. split; [exact NK|].
      apply andb_true_iff in Q. destruct Q as [Q1 Q2]. apply mem_ty_In in Q2.
      rewrite forallb_forall in Q1. specialize (Q1 _ Q2). rewrite (basicb_in' w basic strcons cfg Hstd) in Q1. cbn in Q1. apply mem_cid_In in Q1.
      split; [discriminate|]. exists 1. eapply union_passthrough; eauto. apply used_coh. exact Us.
  Qed.
  Lemma regular_iter_item h et x : G et -> Vok x -> find_handler cfg et = POk h ->
    regular (fun m => iter_item w cfg (run w cfg m) h et x).
  Proof using Hstd Hwr Us St.
    intros Ge Vx F. destruct (iter_item_two h et x F) as [[E _]|[E _]].
    - eapply regular_ext; [intros m s1; symmetry; apply E|]. apply regular_ret.
    - eapply regular_ext; [intros m s1; symmetry; apply E|]. eapply regular_call; eassumption.
  Qed.
  Lemma conv_iter_item h et x y : G et -> Vok x -> find_handler cfg et = POk h ->
    (conv (fun m => iter_item w cfg (run w cfg m) h et x) (Ok y) <-> item_loads w basic cfg s et x y).
  Proof using Hstd Hwr Us St.
    intros Ge Vx F. destruct (iter_item_two h et x F) as [[E L]|[E NK]].
    - rewrite (conv_ext w cfg env s T _ _ _ E). rewrite (conv_ret w basic cfg env s V T Us St). split; [intros [= ->]; exact L|].
      intro L'. destruct L as [[K _]|[NK L]]; destruct L' as [[K' ->]|[NK' L']]; try reflexivity; try contradiction.
      apply (loads_ok_calls w basic strcons cfg Hstd Hwr env s V T Us St x et h _ Ge Vx F) in L, L'.
      pose proof (calls_det w basic cfg env s V T Us St _ _ _ _ _ L L') as Q. congruence.
    - rewrite (conv_ext w cfg env s T _ _ _ E). fold (calls h x et (Ok y)).
      rewrite <- (loads_ok_calls w basic strcons cfg Hstd Hwr env s V T Us St x et h y Ge Vx F). split; [right; auto|].
      intros [[K _]|[_ L]]; [contradiction|exact L].
  Qed.
  Lemma conv_iter_item_exc h et x k m tr ve te subs : G et -> Vok x -> find_handler cfg et = POk h ->
    (conv (fun n => iter_item w cfg (run w cfg n) h et x) (Exc (XTL k m tr ve te subs)) <->
     ~ kept w basic et x /\ loads x et (Exc (XTL k m ((x, et, None) :: tr) ve te subs))).
  Proof using Hstd Hwr Us St.
    intros Ge Vx F. destruct (iter_item_two h et x F) as [[E L]|[E NK]].
    - rewrite (conv_ext w cfg env s T _ _ _ E). rewrite (conv_ret w basic cfg env s V T Us St). split; [discriminate|].
      intros [NK L']. destruct L as [[K _]|[_ L]]; [contradiction|].
      apply (loads_ok_calls w basic strcons cfg Hstd Hwr env s V T Us St x et h _ Ge Vx F) in L.
      apply (loads_exc_calls x et h _ _ _ _ _ _ Ge Vx F) in L' as [tr' [_ L']].
      pose proof (calls_det w basic cfg env s V T Us St _ _ _ _ _ L L') as Q. congruence.
    - rewrite (conv_ext w cfg env s T _ _ _ E). fold (calls h x et (Exc (XTL k m tr ve te subs))). split.
      + intro C. split; [exact NK|]. eapply calls_exc_loads; eassumption.
      + intros [_ L]. apply (loads_exc_calls x et h _ _ _ _ _ _ Ge Vx F) in L as [tr' [Q C]]. injection Q as <-. exact C.
  Qed.

  (** loading an item finishes, with a value or with an exception of typedload *)
  Definition item_settles (et : ty) (x : value) : Prop := kept w basic et x \/ settles w cfg s x et.
  Lemma settle_item h et x : G et -> Vok x -> find_handler cfg et = POk h -> item_settles et x ->
    (exists y, conv (fun m => iter_item w cfg (run w cfg m) h et x) (Ok y)) \/
    (exists k m tr ve te subs, conv (fun n => iter_item w cfg (run w cfg n) h et x) (Exc (XTL k m tr ve te subs))).
  Proof using Hstd Hwr Us St.
    intros Ge Vx F Se. destruct (iter_item_two h et x F) as [[E L]|[E NK]].
    - left. exists x. apply conv_iter_item; assumption.
    - destruct Se as [K|[r [L [[y ->]|[k [m [tr [ve [te [subs ->]]]]]]]]]]; [contradiction| |].
      + left. exists y. apply conv_iter_item; try assumption. right. auto.
      + right. destruct (loads_exc_calls x et h _ _ _ _ _ _ Ge Vx F L) as [tr' [-> _]]. exists k, m, tr', ve, te, subs.
        apply conv_iter_item_exc; auto.
  Qed.

  (** the fallible part of one round of the loop *)
  Notation ROUND h et k acc x := (fun m => attempt (bind (iter_item w cfg (run w cfg m) h et x) (fun y => lift (coll_add w k y acc)))).
  Lemma regular_round h et k acc x : G et -> Vok x -> find_handler cfg et = POk h ->
    regular (fun m => bind (iter_item w cfg (run w cfg m) h et x) (fun y => lift (coll_add w k y acc))).
  Proof using Hstd Hwr Us St.
    intros Ge Vx F.
    apply (regular_bind w basic cfg env s V T Us St (fun m => iter_item w cfg (run w cfg m) h et x) (fun y _ => lift (coll_add w k y acc))).
    - apply regular_iter_item; assumption.
    - intros y _. apply regular_lift.
  Qed.
  Lemma regular_iter_loop h et k mp l : G et -> (forall x, In x l -> Vok x) -> find_handler cfg et = POk h ->
    forall i acc, regular (fun m => iter_loop w k mp (iter_item w cfg (run w cfg m) h et) V T l i acc).
  Proof using Hstd Hwr Us St.
    intros Ge HV F. induction l as [|x l IH]; intros i acc; cbn [iter_loop]; [apply regular_ret|].
    assert (Vx : Vok x) by (apply HV; left; reflexivity).
    apply (regular_bind w basic cfg env s V T Us St (ROUND h et k acc x)
      (fun r m => match r with inl acc' => iter_loop w k mp (iter_item w cfg (run w cfg m) h et) V T l (S i) acc'
                  | inr e => if stops mp e then ret (mk_coll k acc) else item_error V T i e end)).
    - apply (regular_attempt w basic cfg env s V T Us St). apply regular_round; assumption.
    - intros [acc'|e] _; [apply IH; intros; apply HV; right; assumption|].
      destruct (stops mp e); [apply regular_ret|apply regular_item_error].
  Qed.
  (** one round, when the item has the outcome [r0] *)
  Lemma conv_round h et k mp x l i acc r : G et -> (forall y, In y (x :: l) -> Vok y) -> find_handler cfg et = POk h ->
    (forall y, conv (fun m => iter_item w cfg (run w cfg m) h et x) (Ok y) ->
      (conv (fun m => iter_loop w k mp (iter_item w cfg (run w cfg m) h et) V T (x :: l) i acc) r <->
       match coll_add w k y acc with
       | POk acc' => conv (fun m => iter_loop w k mp (iter_item w cfg (run w cfg m) h et) V T l (S i) acc') r
       | PExc rk => conv (fun _ => if stops mp (XRaw rk) then ret (mk_coll k acc) else item_error V T i (XRaw rk)) r
       end)) /\
    (forall e, conv (fun m => iter_item w cfg (run w cfg m) h et x) (Exc e) ->
      (conv (fun m => iter_loop w k mp (iter_item w cfg (run w cfg m) h et) V T (x :: l) i acc) r <->
       conv (fun _ => if stops mp e then ret (mk_coll k acc) else item_error V T i e) r)).
  Proof using Hstd Hwr Us St.
    intros Ge HV F. assert (Vx : Vok x) by (apply HV; left; reflexivity).
    assert (HV' : forall y, In y l -> Vok y) by (intros; apply HV; right; assumption).
    pose proof (regular_round h et k acc x Ge Vx F) as RR.
    pose proof (regular_attempt w basic cfg env s V T Us St _ RR) as RA.
    set (K := fun (r0 : list value + exn) (m : nat) => match r0 with
        | inl acc' => iter_loop w k mp (iter_item w cfg (run w cfg m) h et) V T l (S i) acc'
        | inr e => if stops mp e then ret (mk_coll k acc) else item_error V T i e end).
    assert (RK : forall a, regular (K a)).
    { intros [acc'|e]; [apply regular_iter_loop; assumption|]. unfold K. destruct (stops mp e); [apply regular_ret|apply regular_item_error]. }
    assert (B : conv (fun m => iter_loop w k mp (iter_item w cfg (run w cfg m) h et) V T (x :: l) i acc) r <->
      exists a, conv (ROUND h et k acc x) (Ok a) /\ conv (K a) r).
    { cbn [iter_loop].
      eapply iff_trans; [exact (conv_bind w basic cfg env s V T Us St (ROUND h et k acc x) K r RA (fun a _ => RK a))|].
      split; [intros [H|[e [C _]]]; [exact H|]|intro H; left; exact H].
      apply (conv_attempt w basic cfg env s V T Us St _ _ RR) in C as [[a [_ Q]]|[e' [_ Q]]]; discriminate. }
    assert (U : forall a, conv (ROUND h et k acc x) (Ok a) -> (conv (fun m => iter_loop w k mp (iter_item w cfg (run w cfg m) h et) V T (x :: l) i acc) r <-> conv (K a) r)).
    { intros a Ca. rewrite B. split; [|intro H; exists a; auto]. intros [a' [Ca' H]].
      pose proof (conv_det w basic cfg env s V T Us St _ _ _ Ca Ca') as Q. injection Q as <-. exact H. }
    assert (RB : forall y, regular (fun _ => lift (coll_add w k y acc))) by (intro; apply regular_lift).
    split.
    - intros y Cy.
      assert (C : conv (fun m => bind (iter_item w cfg (run w cfg m) h et x) (fun y0 => lift (coll_add w k y0 acc)))
                    (match coll_add w k y acc with POk a => Ok a | PExc rk => Exc (XRaw rk) end)).
      { apply (conv_bind w basic cfg env s V T Us St (fun m => iter_item w cfg (run w cfg m) h et x) (fun y0 _ => lift (coll_add w k y0 acc)) _
          (regular_iter_item h et x Ge Vx F) (fun a _ => RB a)).
        left. exists y. split; [exact Cy|]. apply (conv_lift w basic cfg env s V T Us St). reflexivity. }
      destruct (coll_add w k y acc) as [acc'|rk].
      + apply (U (inl acc')). apply (conv_attempt w basic cfg env s V T Us St _ _ RR). left. eauto.
      + apply (U (inr (XRaw rk))). apply (conv_attempt w basic cfg env s V T Us St _ _ RR). right. eauto.
    - intros e Ce. apply (U (inr e)). apply (conv_attempt w basic cfg env s V T Us St _ _ RR). right. exists e. split; [|reflexivity].
      apply (conv_bind w basic cfg env s V T Us St (fun m => iter_item w cfg (run w cfg m) h et x) (fun y0 _ => lift (coll_add w k y0 acc)) _
          (regular_iter_item h et x Ge Vx F) (fun a _ => RB a)).
      right. eauto.
  Qed.

  Definition hashes (k : coll) (y : value) : Prop := match k with KoSet | KoFrozen => hashable w y = true | _ => True end.
  Lemma coll_add_two k y acc : (exists acc', coll_add w k y acc = POk acc') /\ hashes k y \/
    coll_add w k y acc = PExc RType /\ ~ hashes k y.
  Proof using. destruct k; cbn; try (left; eauto; fail); destruct (hashable w y); [left|right|left|right]; split; eauto. Qed.

  (** the exceptions of the loop: of the first item which cannot be loaded, or
      whose result cannot be in a set *)
  Definition first_bad (k : coll) (et : ty) (i : nat) (l : list value) (e : exn) : Prop :=
    exists l1 x l2 ys, l = l1 ++ x :: l2 /\ Forall2 (item_loads w basic cfg s et) l1 ys /\ Forall (hashes k) ys /\
      ((~ kept w basic et x /\ exists k0 m tr ve te subs,
          loads x et (Exc (XTL k0 m ((x, et, None) :: tr) ve te subs)) /\
          e = XTL k0 m ((V, T, Some (AnIndex (i + List.length l1))) :: tr) ve te subs) \/
       (exists y, item_loads w basic cfg s et x y /\ ~ hashes k y /\ e = XTL KType (MPy RType) [] (Some V) (Some T) [])).
  Lemma conv_iter_loop_exc h et k mp l : G et -> (forall x, In x l -> Vok x) -> find_handler cfg et = POk h ->
    (forall x, In x l -> item_settles et x) ->
    forall i acc e, conv (fun m => iter_loop w k mp (iter_item w cfg (run w cfg m) h et) V T l i acc) (Exc e) <-> first_bad k et i l e.
  Proof using Hstd Hwr Us St.
    intros Ge HV F HS. induction l as [|x l IH]; intros i acc e.
    { cbn [iter_loop]. rewrite (conv_ret w basic cfg env s V T Us St). split; [discriminate|].
      intros [l1 [x [l2 [ys [Q _]]]]]. destruct l1; discriminate. }
    assert (Vx : Vok x) by (apply HV; left; reflexivity).
    destruct (conv_round h et k mp x l i acc (Exc e) Ge HV F) as [R1 R2].
    specialize (IH (fun y H => HV y (or_intror H)) (fun y H => HS y (or_intror H))).
    destruct (settle_item h et x Ge Vx F (HS x (or_introl eq_refl))) as [[y Cy]|[k0 [m0 [tr0 [ve0 [te0 [subs0 Ce]]]]]]].
    - rewrite (R1 y Cy). apply conv_iter_item in Cy; try assumption.
      assert (Uy : forall y', item_loads w basic cfg s et x y' -> y' = y).
      { intros y' L'. apply (conv_iter_item h) in L', Cy; try assumption.
        pose proof (conv_det w basic cfg env s V T Us St _ _ _ L' Cy) as Q. congruence. }
      assert (Nx : forall k0 m tr ve te subs, ~ (~ kept w basic et x /\ loads x et (Exc (XTL k0 m ((x, et, None) :: tr) ve te subs)))).
      { intros k0 m tr ve te subs L'. apply (conv_iter_item_exc h) in L'; try assumption. apply (conv_iter_item h) in Cy; try assumption.
        pose proof (conv_det w basic cfg env s V T Us St _ _ _ L' Cy). discriminate. }
      destruct (coll_add_two k y acc) as [[[acc' ->] Hy]|[-> Hy]].
      + rewrite IH. split.
        * intros [l1 [z [l2 [ys [-> [F2 [Hs B]]]]]]]. exists (x :: l1), z, l2, (y :: ys). repeat split; try (constructor; assumption).
          cbn [List.length]. rewrite <- Nat.add_succ_comm. exact B.
        * intros [l1 [z [l2 [ys [Q [F2 [Hs B]]]]]]]. destruct l1 as [|x' l1]; injection Q as <- ->.
          { exfalso. destruct B as [[NK [k0 [m [tr [ve [te [subs [L' _]]]]]]]]|[y' [L' [NH _]]]].
            - eapply Nx. split; eassumption.
            - rewrite (Uy y' L') in NH. contradiction. }
          inversion F2 as [|? y0 ? ys' L0 F2' E1 E2]. subst. inversion Hs as [|? ? _ Hs']. subst. exists l1, z, l2, ys'. repeat split; try assumption.
          cbn [List.length] in B. rewrite <- Nat.add_succ_comm in B. exact B.
      + rewrite (ltac:(destruct mp; reflexivity) : stops mp (XRaw RType) = false). cbn [item_error]. rewrite (conv_raise w basic cfg env s V T Us St). split.
        * intros [= ->]. exists [], x, l, []. split; [reflexivity|split; [constructor|split; [constructor|]]]. right. exists y. auto.
        * intros [l1 [z [l2 [ys [Q [F2 [Hs B]]]]]]]. destruct l1 as [|x' l1]; injection Q as <- ->.
          { destruct B as [[NK [k0 [m [tr [ve [te [subs [L' _]]]]]]]]|[y' [L' [NH ->]]]]; [|reflexivity].
            exfalso. eapply Nx. split; eassumption. }
          exfalso. inversion F2 as [|? y0 ? ys' L0 F2' E1 E2]. subst. inversion Hs as [|? ? H0 _]. subst. rewrite (Uy y0 L0) in H0. contradiction.
    - rewrite (R2 _ Ce). rewrite (ltac:(destruct mp; reflexivity) : stops mp (XTL k0 m0 tr0 ve0 te0 subs0) = false). cbn [item_error push_trace]. rewrite (conv_raise w basic cfg env s V T Us St).
      assert (Ny : forall y, ~ item_loads w basic cfg s et x y).
      { intros y L. apply (conv_iter_item h) in L; try assumption. pose proof (conv_det w basic cfg env s V T Us St _ _ _ L Ce). discriminate. }
      split.
      + intros [= ->]. apply conv_iter_item_exc in Ce; try assumption. destruct Ce as [NK L]. exists [], x, l, []. split; [reflexivity|split; [constructor|split; [constructor|]]].
        left. split; [exact NK|]. exists k0, m0, tr0, ve0, te0, subs0. split; [exact L|]. cbn. rewrite Nat.add_0_r. reflexivity.
      + intros [l1 [z [l2 [ys [Q [F2 [Hs B]]]]]]]. destruct l1 as [|x' l1]; injection Q as <- ->.
        * destruct B as [[NK [k1 [m [tr [ve [te [subs [L' ->]]]]]]]]|[y' [L' _]]]; [|exfalso; eapply Ny; exact L'].
          assert (L2 : conv (fun n => iter_item w cfg (run w cfg n) h et x) (Exc (XTL k1 m tr ve te subs))) by (apply conv_iter_item_exc; auto).
          pose proof (conv_det w basic cfg env s V T Us St _ _ _ L2 Ce) as Q. injection Q as -> -> -> -> -> ->.
          cbn. rewrite Nat.add_0_r. reflexivity.
        * exfalso. inversion F2 as [|? y0 ? ys' L0 F2' E1 E2]. subst. eapply Ny. exact L0.
  Qed.

  (** the first bad item raises, whatever comes after it *)
  Lemma first_raises h et k mp l1 x l2 k0 m tr ve te subs : G et -> (forall y, In y (l1 ++ x :: l2) -> Vok y) -> find_handler cfg et = POk h ->
    forall ys, Forall2 (item_loads w basic cfg s et) l1 ys -> Forall (hashes k) ys ->
    ~ kept w basic et x -> loads x et (Exc (XTL k0 m ((x, et, None) :: tr) ve te subs)) ->
    forall i acc, conv (fun n => iter_loop w k mp (iter_item w cfg (run w cfg n) h et) V T (l1 ++ x :: l2) i acc)
      (Exc (XTL k0 m ((V, T, Some (AnIndex (i + List.length l1))) :: tr) ve te subs)).
  Proof using Hstd Hwr Us St.
    intros Ge HV F. induction l1 as [|a l1 IH]; intros ys F2 Hs NK L i acc; cbn [app] in *.
    - assert (Vx : Vok x) by (apply HV; left; reflexivity).
      assert (C : conv (fun n => iter_item w cfg (run w cfg n) h et x) (Exc (XTL k0 m tr ve te subs))) by (apply conv_iter_item_exc; auto).
      apply (proj2 (conv_round h et k mp x l2 i acc _ Ge HV F) _ C).
      rewrite (ltac:(destruct mp; reflexivity) : stops mp (XTL k0 m tr ve te subs) = false). cbn [item_error push_trace List.length]. rewrite Nat.add_0_r.
      apply (conv_raise w basic cfg env s V T Us St). reflexivity.
    - assert (Va : Vok a) by (apply HV; left; reflexivity).
      inversion F2 as [|? y ? ys' La F2' E1 E2]. subst ys. inversion Hs as [|? ? Hy Hs' E3]. subst.
      assert (C : conv (fun n => iter_item w cfg (run w cfg n) h et a) (Ok y)) by (apply conv_iter_item; assumption).
      apply (proj1 (conv_round h et k mp a (l1 ++ x :: l2) i acc _ Ge HV F) _ C).
      destruct (coll_add_two k y acc) as [[[acc' ->] _]|[_ N]]; [|contradiction].
      cbn [List.length]. rewrite <- Nat.add_succ_comm. apply (IH (fun z Hz => HV z (or_intror Hz)) ys' F2' Hs' NK L).
  Qed.

  (** the whole load *)
  Lemma calls_collection k nt et rest l h :
    T = coll_type k nt et rest -> find_handler cfg et = POk h -> (forall d, V <> VDict d) -> iter V = Some l ->
    G et /\ (forall x, In x l -> Vok x) /\ find_handler cfg T = POk (coll_handler k) /\
    forall r0, calls (coll_handler k) V T r0 <-> conv (fun m => iter_loop w k (mapped cfg et) (iter_item w cfg (run w cfg m) h et) V T l 0 []) r0.
  Proof using Hstd Hwr Us St.
    intros ET Fe ND Il.
    pose proof (find_coll w basic strcons cfg Hstd k nt et rest) as F. rewrite <- ET in F.
    destruct (args_coll k nt et rest) as [rest' A]. rewrite <- ET in A.
    assert (Ge : G et).
    { eapply reach_step; [apply reach_refl|]. rewrite ET. unfold component, comps. destruct k; cbn; auto. }
    assert (HV : forall x, In x l -> Vok x).
    { intros x Hx. eapply inside_step; [apply inside_refl|]. eapply part_item; eassumption. }
    split; [exact Ge|]. split; [exact HV|]. split; [exact F|].
    intro r0. rewrite calls_body.
      assert (EB : forall m s1, body w cfg (run w cfg m) (coll_handler k) V T s1 =
         bind (lookup_handler cfg (XTL KType (MCannotDeal et) [] (Some V) (Some et) []) et)
              (fun h' => iter_loop w k (mapped cfg et) (iter_item w cfg (run w cfg m) h' et) V T l 0 []) s1).
      { intros m s1. rewrite ET at 1. rewrite body_coll. rewrite <- ET. unfold iterload. rewrite A.
        destruct V; try (exfalso; eapply ND; reflexivity); cbv iota; rewrite Il; reflexivity. }
      rewrite (conv_ext w cfg env s T _ _ r0 EB).
      apply (conv_found w basic cfg env s V T Us St _ et _ h
          (fun h' m => iter_loop w k (mapped cfg et) (iter_item w cfg (run w cfg m) h' et) V T l 0 []) r0
          (finds_lookup w cfg env G (seen s) _ et) Fe).
      apply regular_iter_loop; assumption.
  Qed.
  Lemma collection_first k nt et rest l e :
    T = coll_type k nt et rest -> supported cfg et -> (forall d, V <> VDict d) -> iter V = Some l ->
    (forall x, In x l -> item_settles et x) ->
    (loads V T (Exc e) <-> exists e0, first_bad k et 0 l e0 /\ e = push_trace (V, T, None) e0).
  Proof using Hstd Hwr Us St.
    intros ET Sup ND Il HS. apply supported_find in Sup as [h Fe].
    destruct (calls_collection k nt et rest l h ET Fe ND Il) as [Ge [HV [F Q]]].
    rewrite (loads_calls w basic strcons cfg Hstd Hwr env s V T Us St V T _ (Exc e) (G_refl _ _ _ _) (V_refl _) F).
    split.
    - intros [r0 [C E]]. apply Q in C. destruct r0 as [y|e0|]; cbn in E; try discriminate.
      apply (conv_iter_loop_exc h et k _ l Ge HV Fe HS) in C. exists e0. split; [exact C|].
      destruct C as [l1 [x [l2 [ys [_ [_ [_ [[_ [k0 [m [tr [ve [te [subs [_ ->]]]]]]]]|[y [_ [_ ->]]]]]]]]]]]; cbn in E |- *; congruence.
    - intros [e0 [B ->]]. exists (Exc e0). split; [apply Q; apply (conv_iter_loop_exc h et k _ l Ge HV Fe HS); exact B|].
      destruct B as [l1 [x [l2 [ys [_ [_ [_ [[_ [k0 [m [tr [ve [te [subs [_ ->]]]]]]]]|[y [_ [_ ->]]]]]]]]]]]; reflexivity.
  Qed.

  Lemma collection_raises k nt et rest l1 x l2 ys e0 e :
    T = coll_type k nt et rest -> supported cfg et -> (forall d, V <> VDict d) -> iter V = Some (l1 ++ x :: l2) ->
    Forall2 (item_loads w basic cfg s et) l1 ys -> Forall (hashes k) ys -> ~ kept w basic et x ->
    loads x et (Exc e0) -> raised_inside V V T (AnIndex (List.length l1)) x et e0 e -> loads V T (Exc e).
  Proof using Hstd Hwr Us St.
    intros ET Sup ND Il F2 Hs NK L [k0 [m [tr [ve [te [subs [-> ->]]]]]]]. apply supported_find in Sup as [h Fe].
    destruct (calls_collection k nt et rest _ h ET Fe ND Il) as [Ge [HV [F Q]]].
    apply (loads_calls w basic strcons cfg Hstd Hwr env s V T Us St V T _ _ (G_refl _ _ _ _) (V_refl _) F).
    exists (Exc (XTL k0 m ((V, T, Some (AnIndex (List.length l1))) :: tr) ve te subs)). split; [|reflexivity].
    apply Q. exact (first_raises h et k _ l1 x l2 k0 m tr ve te subs Ge HV Fe ys F2 Hs NK L 0 []).
  Qed.

  (** ** Tuple[t1, ..., tn] *)
  Lemma titem_two h et x : find_handler cfg et = POk h -> G et -> Vok x ->
    (forall r, conv (titem_prog w cfg et x) r <-> r = Ok x) /\ kept_exact basic et x \/
    (forall r, conv (titem_prog w cfg et x) r <-> calls h x et r) /\ ~ kept_exact basic et x.
  Proof using Hstd Hwr Us St.
    intros F Ge Vx. idtac.
    assert (E : forall r, conv (titem_prog w cfg et x) r <-> conv (fun m => if basicb cfg et && exact x et then ret x else run w cfg m h x et) r).
    { intro r. apply (conv_found w basic cfg env s V T Us St (tlook cfg et) et XRaw h
        (fun h m => if basicb cfg et && exact x et then ret x else run w cfg m h x et) r (finds_tlook w cfg env s T et) F).
      destruct (basicb cfg et && exact x et); [apply regular_ret|eapply regular_call; eassumption]. }
    destruct (basicb cfg et && exact x et) eqn:B.
    - left. split; [|apply (exact_kept w basic strcons cfg Hstd); exact B]. intro r. rewrite E. apply (conv_ret w basic cfg env s V T Us St).
    - right. split; [exact E|]. intro K. apply (exact_kept w basic strcons cfg Hstd) in K. congruence.
  Qed.
  Definition titem_settles (et : ty) (x : value) : Prop := kept_exact basic et x \/ settles w cfg s x et.
  Lemma conv_titem_exc h et x k m tr ve te subs : G et -> Vok x -> find_handler cfg et = POk h ->
    (conv (titem_prog w cfg et x) (Exc (XTL k m tr ve te subs)) <->
     ~ kept_exact basic et x /\ loads x et (Exc (XTL k m ((x, et, None) :: tr) ve te subs))).
  Proof using Hstd Hwr Us St.
    intros Ge Vx F. destruct (titem_two h et x F Ge Vx) as [[E K]|[E NK]]; rewrite E.
    - split; [discriminate|intros [NK _]; contradiction].
    - split.
      + intro C. split; [exact NK|]. eapply calls_exc_loads; eassumption.
      + intros [_ L]. apply (loads_exc_calls x et h _ _ _ _ _ _ Ge Vx F) in L as [tr' [Q C]]. injection Q as <-. exact C.
  Qed.
  Lemma settle_titem h et x : G et -> Vok x -> find_handler cfg et = POk h -> titem_settles et x ->
    (exists y, conv (titem_prog w cfg et x) (Ok y)) \/
    (exists k m tr ve te subs, conv (titem_prog w cfg et x) (Exc (XTL k m tr ve te subs))).
  Proof using Hstd Hwr Us St.
    intros Ge Vx F Se. destruct (titem_two h et x F Ge Vx) as [[E K]|[E NK]].
    - left. exists x. apply E. reflexivity.
    - destruct Se as [K|[r [L [[y ->]|[k [m [tr [ve [te [subs ->]]]]]]]]]]; [contradiction| |].
      + left. exists y. apply E. apply (loads_ok_calls w basic strcons cfg Hstd Hwr env s V T Us St x et h y Ge Vx F). exact L.
      + right. destruct (loads_exc_calls x et h _ _ _ _ _ _ Ge Vx F L) as [tr' [_ C]]. exists k, m, tr', ve, te, subs. apply E. exact C.
  Qed.
  Definition first_bad_in (i : nat) (l : list (ty * value)) (e : exn) : Prop :=
    exists l1 et x l2 ys k m tr ve te subs, l = l1 ++ (et, x) :: l2 /\
      Forall2 (fun tx y => tuple_item_loads w basic cfg s (fst tx) (snd tx) y) l1 ys /\
      ~ kept_exact basic et x /\ loads x et (Exc (XTL k m ((x, et, None) :: tr) ve te subs)) /\
      e = XTL k m ((V, T, Some (AnIndex (i + List.length l1))) :: tr) ve te subs.
  Lemma conv_tuple_loop_exc l ts : (forall x, In x ts -> G x) -> (forall x, In x l -> Vok x) -> (forall x, In x ts -> supported cfg x) ->
    (forall et x, In (et, x) (combine ts l) -> titem_settles et x) ->
    forall i acc e, conv (fun m => tuple_loop cfg (run w cfg m) V T l ts i acc) (Exc e) <-> first_bad_in i (combine ts l) e.
  Proof using Hstd Hwr Us St.
    revert l. induction ts as [|et ts IH]; intros l HG HV HP HS i acc e.
    { erewrite (conv_ext w cfg env s T) by (intros m s1; apply tuple_loop_eq).
      rewrite (conv_ret w basic cfg env s V T Us St). cbn [combine]. split; [discriminate|].
      intros [l1 [et [x [l2 [ys [k [m [tr [ve [te [subs [Q _]]]]]]]]]]]]. destruct l1; discriminate. }
    destruct l as [|x l].
    { erewrite (conv_ext w cfg env s T) by (intros m s1; apply tuple_loop_eq).
      rewrite (conv_ret w basic cfg env s V T Us St). cbn [combine]. split; [discriminate|].
      intros [l1 [et' [x [l2 [ys [k [m [tr [ve [te [subs [Q _]]]]]]]]]]]]. destruct l1; discriminate. }
    erewrite (conv_ext w cfg env s T) by (intros m s1; apply tuple_loop_eq).
    assert (Ge : G et) by (apply HG; left; reflexivity). assert (Vx : Vok x) by (apply HV; left; reflexivity).
    pose proof (HP et (or_introl eq_refl)) as Sup. apply supported_find in Sup as [h F].
    pose proof (regular_titem w basic strcons cfg Hstd Hwr env s V T Us St et x Ge Vx) as RT.
    pose proof (regular_attempt w basic cfg env s V T Us St _ RT) as RA.
    assert (HG' : forall x, In x ts -> G x) by (intros; apply HG; right; assumption).
    assert (HV' : forall x, In x l -> Vok x) by (intros; apply HV; right; assumption).
    rewrite (conv_bind w basic cfg env s V T Us St (fun m => attempt (titem_prog w cfg et x m))
       (fun r m => match r with inl y => tuple_loop cfg (run w cfg m) V T l ts (S i) (acc ++ [y]) | inr e => item_error V T i e end) _ RA).
    2: { intros [y|e'] _; [|apply regular_item_error]. apply (regular_tuple_loop w basic strcons cfg Hstd Hwr env s V T Us St); assumption. }
    specialize (IH l HG' HV' (fun y H => HP y (or_intror H)) (fun et' y H => HS et' y (or_intror H)) (S i)).
    cbn [combine].
    assert (CT := fun y => conv_titem w basic strcons cfg Hstd Hwr env s V T Us St et x y Ge Vx).
    destruct (settle_titem h et x Ge Vx F (HS et x (or_introl eq_refl))) as [[y Cy]|[k0 [m0 [tr0 [ve0 [te0 [subs0 Ce]]]]]]].
    - assert (CA : conv (fun m => attempt (titem_prog w cfg et x m)) (Ok (inl y))).
      { apply (conv_attempt w basic cfg env s V T Us St _ _ RT). left. eauto. }
      split.
      + intros [[a [C1 C2]]|[e' [C1 _]]].
        2: { pose proof (conv_det w basic cfg env s V T Us St _ _ _ CA C1). discriminate. }
        pose proof (conv_det w basic cfg env s V T Us St _ _ _ CA C1) as Q. injection Q as <-.
        apply IH in C2 as [l1 [et' [z [l2 [ys [k [m [tr [ve [te [subs [E [F2 [NK [L ->]]]]]]]]]]]]]]].
        exists ((et, x) :: l1), et', z, l2, (y :: ys), k, m, tr, ve, te, subs. rewrite E. split; [reflexivity|].
        split; [constructor; [apply CT; exact Cy|exact F2]|]. split; [exact NK|]. split; [exact L|].
        cbn [List.length]. rewrite Nat.add_succ_comm. reflexivity.
      + intros [l1 [et' [z [l2 [ys [k [m [tr [ve [te [subs [E [F2 [NK [L ->]]]]]]]]]]]]]]].
        destruct l1 as [|q l1]; cbn [app] in E; injection E as E1 E2.
        * intros. subst z. exfalso. subst et'.
          assert (Q : conv (titem_prog w cfg et x) (Exc (XTL k m tr ve te subs))) by (apply (conv_titem_exc h); auto).
          pose proof (conv_det w basic cfg env s V T Us St _ _ _ Q Cy). discriminate.
        * inversion F2 as [|? y0 ? ys' L0 F2' E3 E4]. subst. left. exists (inl y). split; [exact CA|]. apply IH.
          exists l1, et', z, l2, ys', k, m, tr, ve, te, subs. split; [assumption|]. split; [exact F2'|]. split; [exact NK|]. split; [exact L|].
          cbn [List.length]. rewrite Nat.add_succ_comm. reflexivity.
    - assert (CA : conv (fun m => attempt (titem_prog w cfg et x m)) (Ok (inr (XTL k0 m0 tr0 ve0 te0 subs0)))).
      { apply (conv_attempt w basic cfg env s V T Us St _ _ RT). right. eauto. }
      pose proof (proj1 (conv_titem_exc h et x _ _ _ _ _ _ Ge Vx F) Ce) as [NK0 L0].
      split.
      + intros [[a [C1 C2]]|[e' [C1 _]]].
        2: { pose proof (conv_det w basic cfg env s V T Us St _ _ _ CA C1). discriminate. }
        pose proof (conv_det w basic cfg env s V T Us St _ _ _ CA C1) as Q. injection Q as <-.
        cbn [item_error push_trace] in C2. apply (conv_raise w basic cfg env s V T Us St) in C2. injection C2 as ->.
        exists [], et, x, (combine ts l), [], k0, m0, tr0, ve0, te0, subs0. split; [reflexivity|]. split; [constructor|].
        split; [exact NK0|]. split; [exact L0|]. cbn. rewrite Nat.add_0_r. reflexivity.
      + intros [l1 [et' [z [l2 [ys [k [m [tr [ve [te [subs [E [F2 [NK [L ->]]]]]]]]]]]]]]].
        destruct l1 as [|q l1]; cbn [app] in E; injection E as E1 E2.
        * intros. subst z. subst et'.
          assert (Q : conv (titem_prog w cfg et x) (Exc (XTL k m tr ve te subs))) by (apply (conv_titem_exc h); auto).
          pose proof (conv_det w basic cfg env s V T Us St _ _ _ Q Ce) as Q2. injection Q2 as -> -> -> -> -> ->.
          left. eexists. split; [exact CA|]. cbn [item_error push_trace List.length]. rewrite Nat.add_0_r.
          apply (conv_raise w basic cfg env s V T Us St). reflexivity.
        * inversion F2 as [|? y0 ? ys' L1 F2' E3 E4]. subst. exfalso. cbn [fst snd] in L1. apply CT in L1.
          pose proof (conv_det w basic cfg env s V T Us St _ _ _ L1 Ce). discriminate.
  Qed.

  Lemma fixed_first n ts l e :
    T = TGen n OTuple (Some ts) -> fixed_size ts -> (forall t, In t ts -> supported cfg t) ->
    (forall d, V <> VDict d) -> iter V = Some l ->
    List.length ts <= List.length l -> (failonextra cfg = true -> List.length l = List.length ts) ->
    (forall et x, In (et, x) (combine ts l) -> titem_settles et x) ->
    (loads V T (Exc e) <-> exists e0, first_bad_in 0 (combine ts l) e0 /\ e = push_trace (V, T, None) e0).
  Proof using Hstd Hwr Us St.
    intros ET FS Sup ND Il L1 L2 HS.
    pose proof (find_tuple w basic strcons cfg Hstd n (Some ts)) as F. rewrite <- ET in F.
    assert (HG : forall x, In x ts -> G x).
    { intros x Hx. eapply reach_step; [apply reach_refl|]. rewrite ET. exact Hx. }
    assert (HV : forall x, In x l -> Vok x).
    { intros x Hx. eapply inside_step; [apply inside_refl|]. eapply part_item; eassumption. }
    rewrite (loads_calls w basic strcons cfg Hstd Hwr env s V T Us St V T _ (Exc e) (G_refl _ _ _ _) (V_refl _) F).
    assert (Q : forall r0, calls HTuple V T r0 <-> conv (fun m => tuple_loop cfg (run w cfg m) V T l ts 0 []) r0).
    { intro r0. rewrite calls_body. apply conv_ext. intros m s1. cbn [body]. rewrite (tupleload_fixed w cfg m V T n ts ET FS).
      assert (E1 : failonextra cfg && Nat.ltb (List.length ts) (List.length l) = false).
      { destruct (failonextra cfg); [|reflexivity]. cbn. apply Nat.ltb_ge. rewrite L2; auto. }
      assert (E2 : Nat.ltb (List.length l) (List.length ts) = false) by (apply Nat.ltb_ge; exact L1).
      destruct V; try (exfalso; eapply ND; reflexivity); rewrite Il, E1, E2; reflexivity. }
    split.
    - intros [r0 [C E]]. apply Q in C. destruct r0 as [y|e0|]; cbn in E; try discriminate.
      apply (conv_tuple_loop_exc l ts HG HV Sup HS) in C. exists e0. split; [exact C|].
      destruct C as [l1 [et [x [l2 [ys [k [m [tr [ve [te [subs [_ [_ [_ [_ ->]]]]]]]]]]]]]]]. cbn in E |- *. congruence.
    - intros [e0 [B ->]]. exists (Exc e0). split; [apply Q; apply (conv_tuple_loop_exc l ts HG HV Sup HS); exact B|].
      destruct B as [l1 [et [x [l2 [ys [k [m [tr [ve [te [subs [_ [_ [_ [_ ->]]]]]]]]]]]]]]]. reflexivity.
  Qed.

  (** ** dataclasses, attrs classes, NamedTuples, TypedDicts *)
  Local Notation field_loads := (field_loads w cfg s).
  Definition first_bad_field (v : value) (t : ty) (hints : list (string * ty)) (g : list (string * value)) (e : exn) : Prop :=
    exists g1 f x g2 ps ft k m tr ve te subs, g = g1 ++ (f, x) :: g2 /\
      Forall2 (field_loads hints) g1 ps /\ str_get f hints = Some ft /\
      loads x ft (Exc (XTL k m ((x, ft, None) :: tr) ve te subs)) /\
      e = XTL k m ((v, t, Some (AnField f)) :: tr) ve te subs.
  Lemma conv_fields_loop_exc fields hints v t d :
    (forall k x, In (k, x) d -> Vok x) -> (forall k ft, In (k, ft) hints -> G ft) ->
    (forall f x, In (f, x) (picked fields d) -> exists ft, str_get f hints = Some ft /\ supported cfg ft /\ settles w cfg s x ft) ->
    forall acc e, conv (fun m => fields_loop cfg (run w cfg m) fields hints v t d acc) (Exc e) <->
      first_bad_field v t hints (picked fields d) e.
  Proof using Hstd Hwr Us St.
    intros HV HG HS. induction d as [|[k x] d IH]; intros acc e.
    { cbn [fields_loop]. rewrite (conv_ret w basic cfg env s V T Us St). split; [discriminate|].
      intros [g1 [f [x [g2 [ps [ft [k [m [tr [ve [te [subs [Q _]]]]]]]]]]]]]. destruct g1; discriminate. }
    assert (HV' : forall k x, In (k, x) d -> Vok x) by (intros k' x' H; eapply HV; right; exact H).
    cbn [picked flat_map fst snd] in HS |- *.
    change (flat_map _ d) with (picked fields d) in HS |- *.
    cbn [fields_loop].
    destruct k; try (apply (IH HV' HS)). rename s0 into k0. destruct (mem_str k0 fields); [|apply (IH HV' HS)].
    cbn [app] in HS |- *. specialize (IH HV' (fun f y H => HS f y (or_intror H))).
    assert (Vx : Vok x) by (eapply HV; left; reflexivity).
    destruct (HS k0 x (or_introl eq_refl)) as [ft [E [Sup Se]]]. rewrite E.
    assert (Gf : G ft) by (eapply HG; apply str_get_In; exact E).
    apply supported_find in Sup as [h Fh].
    assert (RH : regular (fun m => run w cfg m h x ft)) by (apply (regular_call w basic strcons cfg Hstd Hwr env s V T St h x ft Gf Vx Fh)).
    assert (RC : regular (fun m => catch (run w cfg m h x ft) (fun e => raise (push_trace (v, t, Some (AnField k0)) e)))).
    { apply (regular_catch w basic cfg env s V T Us St (fun m => run w cfg m h x ft) (fun e _ => raise (push_trace (v, t, Some (AnField k0)) e)));
      [exact RH|intros; apply regular_raise]. }
    assert (RF : forall a, regular (fun m => fields_loop cfg (run w cfg m) fields hints v t d a)).
    { intro a. apply (regular_fields_loop w basic strcons cfg Hstd Hwr env s V T Us St); assumption. }
    rewrite (conv_found w basic cfg env s V T Us St _ ft _ h
          (fun h m => bind (catch (run w cfg m h x ft) (fun e => raise (push_trace (v, t, Some (AnField k0)) e)))
             (fun y => fields_loop cfg (run w cfg m) fields hints v t d (acc ++ [(k0, y)]))) _
          (finds_lookup w cfg env G (seen s) _ ft) Fh).
    2: { apply (regular_bind w basic cfg env s V T Us St _ (fun y m => fields_loop cfg (run w cfg m) fields hints v t d (acc ++ [(k0, y)])) RC).
         intros; apply RF. }
    rewrite (conv_bind w basic cfg env s V T Us St _ (fun y m => fields_loop cfg (run w cfg m) fields hints v t d (acc ++ [(k0, y)])) _ RC).
    2: { intros; apply RF. }
    assert (CC := fun r => conv_catch w basic cfg env s V T Us St (fun m => run w cfg m h x ft) (fun e _ => raise (push_trace (v, t, Some (AnField k0)) e)) r
      RH (fun e' _ => regular_raise w cfg env s T (push_trace (v, t, Some (AnField k0)) e'))).
    destruct Se as [r [L [[y ->]|[k1 [m1 [tr1 [ve1 [te1 [subs1 ->]]]]]]]]].
    - pose proof (proj1 (loads_ok_calls w basic strcons cfg Hstd Hwr env s V T Us St x ft h y Gf Vx Fh) L) as C.
      assert (CY : conv (fun m => catch (run w cfg m h x ft) (fun e => raise (push_trace (v, t, Some (AnField k0)) e))) (Ok y)).
      { apply CC. left. exists y. split; [exact C|reflexivity]. }
      split.
      + intros [[a [C1 C2]]|[e' [C1 _]]].
        2: { pose proof (conv_det w basic cfg env s V T Us St _ _ _ CY C1). discriminate. }
        apply IH in C2 as [g1 [f [z [g2 [ps [ft' [k [m [tr [ve [te [subs [E2 [F2 [E3 [L2 ->]]]]]]]]]]]]]]]].
        exists ((k0, x) :: g1), f, z, g2, ((k0, y) :: ps), ft', k, m, tr, ve, te, subs. rewrite E2. split; [reflexivity|].
        split; [constructor; [|exact F2]|auto]. split; [reflexivity|]. exists ft. auto.
      + intros [g1 [f [z [g2 [ps [ft' [k [m [tr [ve [te [subs [E2 [F2 [E3 [L2 ->]]]]]]]]]]]]]]]].
        destruct g1 as [|q g1]; cbn [app] in E2; injection E2; intros E4 E5.
        * intros. subst. exfalso. assert (ft' = ft) by congruence. subst ft'.
          apply (loads_exc_calls z ft h _ _ _ _ _ _ Gf Vx Fh) in L2 as [tr' [_ C2]].
          pose proof (calls_det w basic cfg env s V T Us St _ _ _ _ _ C C2). discriminate.
        * subst. inversion F2 as [|? y0 ? ps' L0 F2' E6 E7]. subst. left. exists y. split; [exact CY|]. apply IH.
          exists g1, f, z, g2, ps', ft', k, m, tr, ve, te, subs. auto.
    - destruct (loads_exc_calls x ft h _ _ _ _ _ _ Gf Vx Fh L) as [tr0 [-> C]].
      assert (CE : conv (fun m => catch (run w cfg m h x ft) (fun e => raise (push_trace (v, t, Some (AnField k0)) e)))
                     (Exc (XTL k1 m1 ((v, t, Some (AnField k0)) :: tr0) ve1 te1 subs1))).
      { apply CC. right. eexists. split; [exact C|]. apply (conv_raise w basic cfg env s V T Us St). reflexivity. }
      split.
      + intros [[a [C1 _]]|[e' [C1 [= ->]]]].
        { pose proof (conv_det w basic cfg env s V T Us St _ _ _ CE C1). discriminate. }
        pose proof (conv_det w basic cfg env s V T Us St _ _ _ CE C1) as Q. injection Q as <-.
        exists [], k0, x, (picked fields d), [], ft, k1, m1, tr0, ve1, te1, subs1. split; [reflexivity|]. split; [constructor|]. auto.
      + intros [g1 [f [z [g2 [ps [ft' [k [m [tr [ve [te [subs [E2 [F2 [E3 [L2 ->]]]]]]]]]]]]]]]].
        destruct g1 as [|q g1]; cbn [app] in E2; injection E2; intros E4 E5.
        * intros. subst. assert (ft' = ft) by congruence. subst ft'. right. eexists. split; [exact CE|].
          apply (loads_exc_calls z ft h _ _ _ _ _ _ Gf Vx Fh) in L2 as [tr' [Q C2]]. injection Q as <-.
          pose proof (calls_det w basic cfg env s V T Us St _ _ _ _ _ C C2) as Q. congruence.
        * subst. inversion F2 as [|? y0 ? ps' L0 F2' E6 E7]. subst. exfalso. destruct L0 as [_ [ft2 [E8 L0]]]. cbn [fst snd] in *.
          assert (ft2 = ft) by congruence. subst ft2.
          apply (loads_ok_calls w basic strcons cfg Hstd Hwr env s V T Us St x ft h _ Gf Vx Fh) in L0.
          pose proof (calls_det w basic cfg env s V T Us St _ _ _ _ _ C L0). discriminate.
  Qed.

  (** what the constructor raises, and what load makes of it *)
  Definition ctor_raises (r : rawkind) : exn :=
    match r with
    | RType => XTL KType (MCtor RType) [(V, T, None)] None None []
    | RValue => XTL KValue (MCtor RValue) [(V, T, None)] None None []
    | _ => XRaw RAssert
    end.
  Lemma object_first c d e :
    T = TClass c -> object_class w basic strcons c -> resolvable w cfg c -> distinct_names w cfg c -> proper_data V ->
    obj_data w cfg c V d ->
    (forall n, In n (required_names w cfg c) -> In (VStr n) (map fst d)) ->
    (failonextra cfg = true -> forall k x, In (k, x) d -> exists f, field_of w cfg c k = Some f) ->
    (forall f x, In (f, x) (given w cfg c d) -> exists ft, str_get f (declared w p c) = Some ft /\ supported cfg ft /\ settles w cfg s x ft) ->
    (loads V T (Exc e) <->
      (exists v' e0, first_bad_field v' T (declared w p c) (given w cfg c d) e0 /\ e = push_trace (V, T, None) e0 /\
         v' = VDict (ren (obj_names w cfg c) d)) \/
      (exists ps r, Forall2 (field_loads (declared w p c)) (given w cfg c d) ps /\ construct w T ps = PExc r /\ e = ctor_raises r)).
  Proof using Hstd Hwr Us St.
    intros ET OC R DN PV OD HN HX HS.
    assert (GT : G (TClass c)) by (rewrite <- ET; apply reach_refl).
    assert (K : exists k, kind_of_class w c = Some k).
    { destruct OC as [_ [_ OC]]. destruct (kind_of_class w c); [eauto|contradiction]. }
    destruct K as [k Hk]. pose proof (find_object w basic strcons cfg Hstd Hwr c k OC Hk) as Fh.
    pose proof (obj_table w cfg c DN) as TB.
    pose proof (proper_data_dict w cfg c V d PV OD) as PD.
    assert (HV : forall k0 x, In (k0, x) (ren (obj_names w cfg c) d) -> Vok x).
    { intros k0 x H. apply ren_values in H as [k1 H]. eapply inside_step; [apply inside_refl|]. eapply obj_data_part; eassumption. }
    assert (HG : forall k0 ft, In (k0, ft) (declared w p c) -> G ft).
    { intros k0 ft H. eapply reach_step; [exact GT|]. unfold component, comps. apply in_or_app. left. apply (in_map snd) in H. exact H. }
    pose proof (ren_known _ _ TB d) as RK.
    assert (X : find (fun kx => failonextra cfg && skipped (obj_names w cfg c) (fst kx)) d = None /\
      (failonextra cfg = true -> filter (fun kv => negb (key_in (map fst (obj_fields w cfg c)) kv)) (ren (obj_names w cfg c) d) = [])).
    { destruct (failonextra cfg).
      - destruct (proj2 RK (HX eq_refl)) as [A B]. split; [|intros _; exact B]. clear -A.
        induction d as [|a d IH]; cbn; [reflexivity|]. rewrite (A a) by (left; reflexivity). apply IH. intros kx Hk'. apply A. right. exact Hk'.
      - split; [|discriminate]. clear. induction d as [|a d IH]; [reflexivity|exact IH]. }
    destruct X as [X1 X2]. pose proof (proj2 (required_ren w cfg c d DN) HN) as HN'.
    set (LOOP := fun m => fields_loop cfg (run w cfg m) (map fst (obj_fields w cfg c)) (declared w p c)
                  (VDict (ren (obj_names w cfg c) d)) (TClass c) (ren (obj_names w cfg c) d) []).
    set (CTOR := fun (params : list (string * value)) (_ : nat) => (match construct w (TClass c) params with
              | POk r => ret r
              | PExc RType => raise (XTL KType (MCtor RType) [] None None [])
              | PExc RValue => raise (XTL KValue (MCtor RValue) [] None None [])
              | PExc r => raise (XRaw r)
              end : M value)).
    assert (EQ : forall m s1, mangle_obj w cfg (run w cfg m) c V s1 = bind (LOOP m) (fun ps => CTOR ps m) s1).
    { intros m s1. rewrite (mangle_obj_data w cfg c V d _ s1 DN OD PD), X1. unfold objloader. cbn [as_dict].
      assert (E1 : filter (fun f => negb (has_key (ren (obj_names w cfg c) d) f)) (obj_required w cfg c) = []).
      { apply filter_nil. intros f Hf. rewrite (HN' f Hf). reflexivity. }
      rewrite E1. destruct (failonextra cfg); [|reflexivity]. rewrite (X2 eq_refl). reflexivity. }
    assert (RL : regular LOOP) by (apply (regular_fields_loop w basic strcons cfg Hstd Hwr env s V T Us St); assumption).
    assert (RT : forall ps, regular (CTOR ps)).
    { intro ps. unfold CTOR. destruct (construct w (TClass c) ps) as [x|[]]; try apply regular_ret; apply regular_raise. }
    assert (RG : regular (fun m => mangle_obj w cfg (run w cfg m) c V)).
    { eapply regular_ext; [intros m s1; symmetry; apply EQ|].
      exact (regular_bind w basic cfg env s V T Us St LOOP CTOR RL (fun ps _ => RT ps)). }
    assert (PK : picked (map fst (obj_fields w cfg c)) (ren (obj_names w cfg c) d) = given w cfg c d) by exact (picked_ren _ _ d TB).
    rewrite ET. rewrite (loads_calls w basic strcons cfg Hstd Hwr env s V T Us St V (TClass c) _ (Exc e) GT (V_refl _) Fh).
    assert (Q : forall r0, calls (object_handler k) V (TClass c) r0 <->
       (exists ps, Forall2 (field_loads (declared w p c)) (given w cfg c d) ps /\ conv (CTOR ps) r0) \/
       (exists e0, first_bad_field (VDict (ren (obj_names w cfg c) d)) (TClass c) (declared w p c) (given w cfg c d) e0 /\ r0 = Exc e0)).
    { intro r0. rewrite (conv_in_obj w basic strcons cfg Hstd Hwr env s V T Us St c k r0 ET OC Hk R RG).
      rewrite (conv_ext w cfg env s T _ _ r0 EQ).
      rewrite (conv_bind w basic cfg env s V T Us St LOOP CTOR r0 RL (fun ps _ => RT ps)).
      split.
      - intros [[ps [C1 C2]]|[e0 [C ->]]].
        + left. unfold LOOP in C1. apply (conv_fields_loop w basic strcons cfg Hstd Hwr env s V T Us St) in C1 as [qs [-> F2]]; auto.
          rewrite PK in F2. exists qs. auto.
        + right. exists e0. split; [|reflexivity]. unfold LOOP in C. apply conv_fields_loop_exc in C; auto; rewrite PK in *; [exact C|exact HS].
      - intros [[ps [F2 C2]]|[e0 [C ->]]].
        + left. exists ps. split; [|exact C2]. unfold LOOP. apply (conv_fields_loop w basic strcons cfg Hstd Hwr env s V T Us St); auto.
          rewrite PK. exists ps. auto.
        + right. exists e0. split; [|reflexivity]. unfold LOOP. apply conv_fields_loop_exc; auto; rewrite PK; assumption. }
    split.
    - intros [r0 [C E]]. apply Q in C as [[ps [F2 C]]|[e0 [B ->]]].
      + right. unfold CTOR in C. destruct (construct w (TClass c) ps) as [y|rk] eqn:EC.
        { apply (conv_ret w basic cfg env s V T Us St) in C. subst r0. discriminate. }
        exists ps, rk. split; [exact F2|]. split; [first [exact EC|rewrite ET; exact EC]|]. unfold ctor_raises. rewrite ET.
        destruct rk; apply (conv_raise w basic cfg env s V T Us St) in C; subst r0; cbn in E |- *; try congruence; injection E as ->; rewrite ?ET; reflexivity.
      + left. eexists. exists e0. split; [exact B|]. split; [|reflexivity].
        destruct B as [g1 [f [z [g2 [ps [ft' [k1 [m [tr [ve [te [subs [_ [_ [_ [_ ->]]]]]]]]]]]]]]]]. cbn in E |- *. congruence.
    - intros [[v' [e0 [B [-> ->]]]]|[ps [rk [F2 [EC ->]]]]].
      + exists (Exc e0). split; [apply Q; right; eauto|].
        destruct B as [g1 [f [z [g2 [ps [ft' [k1 [m [tr [ve [te [subs [_ [_ [_ [_ ->]]]]]]]]]]]]]]]]. reflexivity.
      + exists (Exc (match rk with RType => XTL KType (MCtor RType) [] None None [] | RValue => XTL KValue (MCtor RValue) [] None None [] | _ => XRaw rk end)).
        split.
        * apply Q. left. exists ps. split; [exact F2|]. unfold CTOR. rewrite EC. destruct rk; apply (conv_raise w basic cfg env s V T Us St); reflexivity.
        * unfold ctor_raises. rewrite ET. destruct rk; reflexivity.
  Qed.
End First.
