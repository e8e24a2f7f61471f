(** * Dicts: loading Dict[K, V] item by item (C39) *)

From Verif Require Import Loader Spec Inv Std Sound Fuel Obs Scalars Simple Transparent Hist Eval Items Tuples.

Lemma bind_eq {A B} (m : M A) (f : A -> M B) s :
  bind m f s = match m s with
               | (Ok a, s') => f a s'
               | (Exc e, s') => (Exc e, s')
               | (OOF, s') => (OOF, s')
               end.
Proof. reflexivity. Qed.

Section Dicts.
  Variable w : world.
  Variables basic strcons : list cid.
  Variable cfg : config.
  Hypothesis Hstd : is_std w basic strcons cfg.
  Hypothesis Hwr : wf_reflect w.
  Variable env : string -> option ty.
  Notation p := (pep563 cfg).
  Variable s : lstate.
  Variable V : value.
  Variable T : ty.
  Hypothesis Us : used w cfg s.
  Hypothesis St : steady w basic cfg env s V T.
  Notation G := (reach w p env T).
  Notation Vok := (inside V).
  Notation SETTLED := (settled w cfg env (reach w p env T) (seen s)).
  Notation conv := (conv w cfg env s T).
  Notation regular := (regular w cfg env s T).
  Notation calls := (calls w cfg env s T).
  Notation FINDS := (finds w cfg env (reach w p env T) (seen s)).
  Notation run n := (Loader.run w cfg n).

  (** the fast conversion of a key or value *)
  Lemma regular_fastkv h t x : G t -> Vok x -> find_handler cfg t = POk h -> regular (fun m => fastkv w cfg (run m) h t x).
  Proof using Hstd Hwr Us St.
    intros Gt Vx F. unfold fastkv. destruct (basicb cfg t && isinst w x t); [apply regular_ret|eapply regular_call; eassumption].
  Qed.
  Lemma conv_fastkv h t x y : G t -> Vok x -> find_handler cfg t = POk h ->
    (conv (fun m => fastkv w cfg (run m) h t x) (Ok y) <-> item_loads w basic cfg s t x y).
  Proof using Hstd Hwr Us St.
    intros Gt Vx F. unfold fastkv, item_loads. pose proof (kept_dec w basic strcons cfg Hstd t x) as KD.
    destruct (basicb cfg t && isinst w x t).
    - rewrite (conv_ret w basic cfg env s V T Us St). pose proof (proj1 KD eq_refl) as K. split.
      + intros [= ->]. auto.
      + intros [[_ ->]|[NK _]]; [reflexivity|contradiction].
    - assert (NK : ~ kept w basic t x) by (intro K; apply KD in K; discriminate).
      rewrite (loads_ok_calls w basic strcons cfg Hstd Hwr env s V T Us St x t h y Gt Vx F). split; [right; auto|].
      intros [[K _]|[_ C]]; [contradiction|exact C].
  Qed.


  Lemma regular_kv (fk fv : nat -> value -> M value) d :
    (forall k x, In (k, x) d -> regular (fun m => fk m k)) ->
    (forall k x, In (k, x) d -> regular (fun m => fv m x)) ->
    forall acc, regular (fun m => kv_loop w (fk m) (fv m) d acc).
  Proof using Us St.
    induction d as [|[k x] d IH]; intros Rk Rv acc; cbn [kv_loop]; [apply regular_ret|].
    apply (regular_bind w basic cfg env s V T Us St (fun m => fk m k) (fun k' m => bind (fv m x) (fun x' =>
      if hashable w k' then kv_loop w (fk m) (fv m) d (dict_set k' x' acc) else raise (XRaw RType)))).
    { eapply Rk. left. reflexivity. }
    intros k' _.
    apply (regular_bind w basic cfg env s V T Us St (fun m => fv m x) (fun x' m =>
      if hashable w k' then kv_loop w (fk m) (fv m) d (dict_set k' x' acc) else raise (XRaw RType))).
    { eapply Rv. left. reflexivity. }
    intros x' _. destruct (hashable w k'); [|apply regular_raise]. apply IH; intros; [eapply Rk|eapply Rv]; right; eassumption.
  Qed.

  Lemma conv_kv (fk fv : nat -> value -> M value) d :
    (forall k x, In (k, x) d -> regular (fun m => fk m k)) ->
    (forall k x, In (k, x) d -> regular (fun m => fv m x)) ->
    forall acc r, conv (fun m => kv_loop w (fk m) (fv m) d acc) (Ok r) <->
      exists kvs, items_rel (fun k y => conv (fun m => fk m k) (Ok y)) (fun x y => conv (fun m => fv m x) (Ok y)) d kvs /\
        forallb (fun kv => hashable w (fst kv)) kvs = true /\
        r = VDict (fold_left (fun acc kv => dict_set (fst kv) (snd kv) acc) kvs acc).
  Proof using Us St.
    induction d as [|[k x] d IH]; intros Rk Rv acc r.
    { cbn [kv_loop]. rewrite (conv_ret w basic cfg env s V T Us St). split.
      - intros [= ->]. exists []. split; [constructor|]. auto.
      - intros [kvs [F [_ ->]]]. inversion F. reflexivity. }
    cbn [kv_loop].
    assert (Rk1 : regular (fun m => fk m k)) by (eapply Rk; left; reflexivity).
    assert (Rv1 : regular (fun m => fv m x)) by (eapply Rv; left; reflexivity).
    assert (Rk2 : forall k x, In (k, x) d -> regular (fun m => fk m k)) by (intros; eapply Rk; right; eassumption).
    assert (Rv2 : forall k x, In (k, x) d -> regular (fun m => fv m x)) by (intros; eapply Rv; right; eassumption).
    assert (R2 : forall k' x', regular (fun m => if hashable w k' then kv_loop w (fk m) (fv m) d (dict_set k' x' acc) else raise (XRaw RType))).
    { intros k' x'. destruct (hashable w k'); [apply regular_kv; assumption|apply regular_raise]. }
    rewrite (conv_bind w basic cfg env s V T Us St (fun m => fk m k) (fun k' m => bind (fv m x) (fun x' =>
      if hashable w k' then kv_loop w (fk m) (fv m) d (dict_set k' x' acc) else raise (XRaw RType))) _ Rk1).
    2: { intros k' _. apply (regular_bind w basic cfg env s V T Us St (fun m => fv m x) (fun x' m =>
      if hashable w k' then kv_loop w (fk m) (fv m) d (dict_set k' x' acc) else raise (XRaw RType))); auto. }
    split.
    - intros [[k' [Ck C]]|[e [_ E]]]; [|discriminate].
      apply (conv_bind w basic cfg env s V T Us St (fun m => fv m x) (fun x' m =>
         if hashable w k' then kv_loop w (fk m) (fv m) d (dict_set k' x' acc) else raise (XRaw RType)) _ Rv1 (fun x' _ => R2 k' x')) in C.
      destruct C as [[x' [Cx C]]|[e [_ E]]]; [|discriminate].
      destruct (hashable w k') eqn:Hh; [|apply (conv_raise w basic cfg env s V T Us St) in C; discriminate].
      apply (IH Rk2 Rv2) in C. destruct C as [kvs [F [Hf ->]]]. exists ((k', x') :: kvs). split; [constructor; [split; assumption|exact F]|].
      split; [cbn [forallb fst]; rewrite Hh; exact Hf|reflexivity].
    - intros [kvs [F [Hf ->]]]. inversion F as [|kx [k' x'] l1 kvs' [Hk Hx] F' E1 E2]. subst. cbn [fst snd] in *. cbn [forallb fst] in Hf.
      apply andb_true_iff in Hf. destruct Hf as [Hh Hf]. left. exists k'. split; [exact Hk|].
      apply (conv_bind w basic cfg env s V T Us St (fun m => fv m x) (fun x' m =>
         if hashable w k' then kv_loop w (fk m) (fv m) d (dict_set k' x' acc) else raise (XRaw RType)) _ Rv1 (fun x' _ => R2 k' x')).
      left. exists x'. split; [exact Hx|]. rewrite Hh. apply (IH Rk2 Rv2). exists kvs'. auto.
  Qed.

  Section One.
    Variables (nt : bool) (kt vt : ty) (kh vh : handler).
    Hypothesis ET : T = TGen nt ODict (Some [kt; vt]).
    Hypothesis Fk : find_handler cfg kt = POk kh.
    Hypothesis Fv : find_handler cfg vt = POk vh.
    Notation v' := (as_dict cfg V).

    Lemma Gkv : G kt /\ G vt.
    Proof using ET. split; (eapply reach_step; [apply reach_refl|]); rewrite ET; cbn; auto. Qed.
    Lemma Vkv d k x : v' = VDict d -> In (k, x) d -> Vok k /\ Vok x.
    Proof using. apply (Vok_items cfg Vok (fun a b => inside_step V a b) V d k x (V_refl V)). Qed.
    Lemma G_T : G (TGen nt ODict (Some [kt; vt])). Proof using ET. rewrite <- ET. apply reach_refl. Qed.

    Notation DC m := (dcont w cfg (run m) kt vt kh (Some vh) v' T).
    Notation SIM := (sim w cfg env (reach w p env T) (seen s) Meq).
    Lemma regular_dcont : regular (fun m => DC m).
    Proof using Hstd Hwr Us St ET Fk Fv.
      apply sim_regular. intro n.
      exact (sim_RR w cfg env G (fun a b => reach_step w p env T a b) (seen s) Vok (run n)
        (Hsim w basic strcons cfg Hstd Hwr env s V T St n) nt kt vt kh vh v' T G_T Fk Fv Vkv).
    Qed.

    (** whatever the caches hold, loading behaves like with the two handlers *)
    Lemma conv_dictload r : conv (fun m => dictload w cfg (run m) V T) r <-> conv (fun m => DC m) r.
    Proof using Hstd Hwr Us St ET Fk Fv.
      assert (X : forall n s1 s2, SETTLED s1 -> SETTLED s2 -> fst (dictload w cfg (run n) V T s1) <> OOF ->
         exists s2' N, SETTLED s2' /\ forall m, N <= m -> DC m s2 = (fst (dictload w cfg (run n) V T s1), s2')).
      { intros n s1 s2 S1 S2 NO.
        assert (E : dictload w cfg (run n) V T s1 =
          bind (lookup_handler cfg (XTL KValue (MCannotKey kt T) [] (Some V) (Some kt) []) kt)
            (fun kf0 => bind (look2 cfg V T vt kf0) (fun kv => dcont w cfg (run n) kt vt (fst kv) (snd kv) v' T)) s1).
        { rewrite ET. apply dictload_eq. }
        rewrite E in *. clear E. rewrite bind_eq in NO |- *.
        destruct (finds_lookup w cfg env G (seen s) (XTL KValue (MCannotKey kt T) [] (Some V) (Some kt) []) kt s1 S1) as [S3 E3].
        rewrite Fk in E3. destruct (lookup_handler cfg (XTL KValue (MCannotKey kt T) [] (Some V) (Some kt) []) kt s1) as [r3 s3]. cbn [fst snd] in *. subst r3.
        rewrite bind_eq in NO |- *. unfold look2 in NO |- *. destruct (ty_get vt (st_index s3)) as [h|] eqn:TG.
        - assert (h = vh) by (pose proof (coh_index _ _ _ (proj1 S3) _ _ TG); congruence). subst h. cbn [fst snd] in *.
          destruct (regular_dcont n s3 S3 NO) as [_ [_ C]]. exact (C s2 S2).
        - rewrite Fv in NO |- *. cbn [fst snd] in *.
          destruct (sd_dict _ _ _ _ _ _ _ St nt kt vt G_T) as [SE|DD].
          { exfalso. apply (proj2 (proj2 S3) vt SE). exact TG. }
          assert (S4 : SETTLED (set_index (cons (vt, vh)) s3)) by (apply settled_index; assumption).
          destruct (sim_WR w basic strcons cfg Hstd env G (fun a b => reach_step w p env T a b) (seen s) Vok (run n)
            (Hsim w basic strcons cfg Hstd Hwr env s V T St n) (fun h v t s0 => settled_run w cfg env G (seen s) n h v t s0)
            nt kt vt kh vh v' T G_T Fk Fv Vkv DD _ s2 S4 S2 NO) as [_ [r2 [s2' [N [S2' [OR HN]]]]]].
          exists s2', N. split; [exact S2'|]. intros m L. rewrite (HN m L). f_equal.
          destruct (fst (dcont w cfg (run n) kt vt vh None v' T (set_index (cons (vt, vh)) s3))), r2; cbn in OR; try contradiction; congruence. }
      assert (RD : regular (fun m => dictload w cfg (run m) V T)).
      { apply sim_regular. intro n.
        pose proof (sim_dictload w basic strcons cfg Hstd env G (fun a b => reach_step w p env T a b) (seen s) Vok
          (fun a b => inside_step V a b) (sd_dict _ _ _ _ _ _ _ St) (run n) (Hsim w basic strcons cfg Hstd Hwr env s V T St n)
          (fun h v t s0 => settled_run w cfg env G (seen s) n h v t s0) nt (Some [kt; vt]) V G_T (V_refl V)) as Q.
        rewrite <- ET in Q. exact Q. }
      split.
      - intros C. pose proof C as C'. destruct C as [NO C]. destruct (C s (settled_s w basic cfg env s V T Us St)) as [s' [N [_ E]]].
        specialize (E N (le_n _)). split; [exact NO|]. intros s2 S2.
        destruct (X N s s2 (settled_s w basic cfg env s V T Us St) S2) as [s2' [N2 [S2' H]]]; [rewrite E; exact NO|].
        rewrite E in H. eauto.
      - intros C. pose proof C as C'. destruct C as [NO C].
        (* the load terminates: from the converse simulation *)
        assert (Y : exists n, fst (dictload w cfg (run n) V T s) <> OOF).
        { destruct (C s (settled_s w basic cfg env s V T Us St)) as [s' [N [_ E]]].
          assert (EQ : forall n, dictload w cfg (run n) V T s =
            bind (lookup_handler cfg (XTL KValue (MCannotKey kt T) [] (Some V) (Some kt) []) kt)
              (fun kf0 => bind (look2 cfg V T vt kf0) (fun kv => dcont w cfg (run n) kt vt (fst kv) (snd kv) v' T)) s).
          { intro n. rewrite ET. apply dictload_eq. }
          destruct (finds_lookup w cfg env G (seen s) (XTL KValue (MCannotKey kt T) [] (Some V) (Some kt) []) kt s (settled_s w basic cfg env s V T Us St)) as [S3 E3].
          rewrite Fk in E3. destruct (lookup_handler cfg (XTL KValue (MCannotKey kt T) [] (Some V) (Some kt) []) kt s) as [r3 s3] eqn:EL. cbn [fst snd] in *. subst r3.
          destruct (ty_get vt (st_index s3)) as [h|] eqn:TG.
          - assert (h = vh) by (pose proof (coh_index _ _ _ (proj1 S3) _ _ TG); congruence). subst h.
            destruct (C s3 S3) as [s4 [N4 [_ E4]]]. exists N4. rewrite EQ, bind_eq, EL, bind_eq. unfold look2. rewrite TG.
            cbn [fst snd]. rewrite (E4 N4 (le_n _)). exact NO.
          - destruct (sd_dict _ _ _ _ _ _ _ St nt kt vt G_T) as [SE|DD].
            { exfalso. apply (proj2 (proj2 S3) vt SE). exact TG. }
            assert (S4 : SETTLED (set_index (cons (vt, vh)) s3)) by (apply settled_index; assumption).
            assert (NO' : fst (DC N s) <> OOF) by (rewrite (E N (le_n _)); exact NO).
            destruct (sim_RW w basic strcons cfg Hstd env G (fun a b => reach_step w p env T a b) (seen s) Vok (run N)
              (Hsim w basic strcons cfg Hstd Hwr env s V T St N) (fun h v t s0 => settled_run w cfg env G (seen s) N h v t s0)
              nt kt vt kh vh v' T G_T Fk Fv Vkv DD s _ (settled_s w basic cfg env s V T Us St) S4 NO') as [_ [r2 [s2' [N2 [S2' [OR HN]]]]]].
            exists N2. rewrite EQ, bind_eq, EL, bind_eq. unfold look2. rewrite TG, Fv. cbn [fst snd].
            rewrite (HN N2 (le_n _)). cbn [fst]. destruct (fst (DC N s)), r2; cbn in OR; try contradiction; discriminate. }
        destruct Y as [n NO']. destruct (RD n s (settled_s w basic cfg env s V T Us St) NO') as [_ CD].
        assert (EQ : fst (dictload w cfg (run n) V T s) = r).
        { destruct (X n s s (settled_s w basic cfg env s V T Us St) (settled_s w basic cfg env s V T Us St) NO') as [s2' [N2 [_ H]]].
          destruct (C s (settled_s w basic cfg env s V T Us St)) as [s' [N [_ E]]].
          specialize (H (N + N2) ltac:(lia)). specialize (E (N + N2) ltac:(lia)). congruence. }
        rewrite <- EQ. exact CD.
    Qed.

    Hypothesis Hhash : forall d k x, v' = VDict d -> In (k, x) d -> hashable w k = true.

    Notation fast m d := (kv_loop w (fastkv w cfg (run m) kh kt) (fastkv w cfg (run m) vh vt) d []).
    Notation slow m d := (kv_loop w (fun k => load_ann w cfg m k kt (Some (AnKey k)))
                                    (fun x => load_ann w cfg m x vt (Some (AnValue x))) d []).
    Lemma regular_fast d : v' = VDict d -> regular (fun m => fast m d).
    Proof using Hstd Hwr Us St ET Fk Fv.
      intro E. destruct Gkv as [Gk Gv].
      apply (regular_kv (fun m => fastkv w cfg (run m) kh kt) (fun m => fastkv w cfg (run m) vh vt)); intros k x H;
        destruct (Vkv d k x E H); apply regular_fastkv; assumption.
    Qed.
    Lemma regular_slow d : v' = VDict d -> regular (fun m => slow m d).
    Proof using Hstd Hwr Us St ET.
      intro E. destruct Gkv as [Gk Gv].
      apply (regular_kv (fun m k => load_ann w cfg m k kt (Some (AnKey k))) (fun m x => load_ann w cfg m x vt (Some (AnValue x))));
        intros k x H; destruct (Vkv d k x E H); eapply regular_load; eassumption.
    Qed.
    Lemma conv_fast d r : v' = VDict d ->
      (conv (fun m => fast m d) (Ok r) <->
       exists kvs, items_rel (item_loads w basic cfg s kt) (item_loads w basic cfg s vt) d kvs /\
         forallb (fun kv => hashable w (fst kv)) kvs = true /\ r = VDict (dict_of kvs)).
    Proof using Hstd Hwr Us St ET Fk Fv.
      intro E. destruct Gkv as [Gk Gv].
      rewrite (conv_kv (fun m => fastkv w cfg (run m) kh kt) (fun m => fastkv w cfg (run m) vh vt)).
      2,3: intros k x H; destruct (Vkv d k x E H); apply regular_fastkv; assumption.
      assert (X : forall kvs, items_rel (fun k y => conv (fun m => fastkv w cfg (run m) kh kt k) (Ok y))
                     (fun x y => conv (fun m => fastkv w cfg (run m) vh vt x) (Ok y)) d kvs <->
                  items_rel (item_loads w basic cfg s kt) (item_loads w basic cfg s vt) d kvs).
      { intro kvs. assert (I : forall k x, In (k, x) d -> Vok k /\ Vok x) by (intros k x; apply Vkv; exact E).
        clear E ET. unfold items_rel. revert kvs. induction d as [|[k x] d0 IH]; intro kvs.
        - split; intro F; inversion F; constructor.
        - destruct (I k x (or_introl eq_refl)) as [Ik Ix].
          assert (IH' := IH (fun k x H => I k x (or_intror H))).
          split; intro F; inversion F as [|a b l1 l2 [H1 H2] F2 E1 E2]; subst; cbn [fst snd] in *; constructor; try (apply IH'; exact F2); cbn [fst snd].
          + split; [apply (conv_fastkv kh kt k)|apply (conv_fastkv vh vt x)]; assumption.
          + split; [apply (conv_fastkv kh kt k)|apply (conv_fastkv vh vt x)]; assumption. }
      split; intros [kvs [F Q]]; exists kvs; (split; [apply X; exact F|exact Q]).
    Qed.
    Lemma load_ok_item t x a y : G t -> Vok x ->
      conv (fun m => load_ann w cfg m x t a) (Ok y) -> loads w cfg s x t (Ok y).
    Proof using Hstd Hwr Us St.
      intros Gt Vx C. destruct (find_handler cfg t) as [h|k] eqn:F.
      - apply (conv_load w basic strcons cfg Hstd Hwr env s V T Us St x t a h _ Gt Vx F) in C. destruct C as [r0 [C E]].
        apply (loads_ok_calls w basic strcons cfg Hstd Hwr env s V T Us St x t h y Gt Vx F).
        destruct r0 as [z|e|]; cbn in E; [congruence|destruct (is_tl e); discriminate|discriminate].
      - apply (conv_load_none w basic strcons cfg Hstd env s V T Us St x t a k _ F) in C. discriminate.
    Qed.
    Lemma item_of_load t x y : loads w cfg s x t (Ok y) -> hashable w x = true -> hashable w y = true ->
      exists z, item_loads w basic cfg s t x z /\ hashable w z = true.
    Proof using Hstd.
      intros L Hx Hy. destruct (basicb cfg t && isinst w x t) eqn:K.
      - apply (kept_dec w basic strcons cfg Hstd) in K. exists x. split; [left; auto|exact Hx].
      - exists y. split; [|exact Hy]. right. split; [|exact L]. intro K'. apply (kept_dec w basic strcons cfg Hstd) in K'. congruence.
    Qed.
    Lemma item_of_load' t x y : loads w cfg s x t (Ok y) -> exists z, item_loads w basic cfg s t x z.
    Proof using Hstd.
      intros L. destruct (basicb cfg t && isinst w x t) eqn:K.
      - apply (kept_dec w basic strcons cfg Hstd) in K. exists x. left. auto.
      - exists y. right. split; [|exact L]. intro K'. apply (kept_dec w basic strcons cfg Hstd) in K'. congruence.
    Qed.

    Lemma conv_DC r :
      conv (fun m => DC m) (Ok r) <->
      exists d kvs, v' = VDict d /\
        items_rel (item_loads w basic cfg s kt) (item_loads w basic cfg s vt) d kvs /\
        forallb (fun kv => hashable w (fst kv)) kvs = true /\ r = VDict (dict_of kvs).
    Proof using Hstd Hwr Us St ET Fk Fv Hhash.
      destruct (dict_cases v') as [[d E]|NE].
      2: { split.
           - intro C. exfalso.
             assert (DE : forall m s1, DC m s1 = raise (dconv v' T (XRaw RAttr)) s1).
             { intros m s1. unfold dcont, dfast, dslow, dslow0. rewrite !NE. reflexivity. }
             apply (conv_ext w cfg env s T _ _ _ DE) in C. apply (conv_raise w basic cfg env s V T Us St) in C. discriminate.
           - intros [d [kvs [E _]]]. exfalso. specialize (NE (fun _ => ret VNone)). rewrite E in NE.
             assert (Q : @ret lstate value VNone s = raise (XRaw RAttr) s) by (rewrite NE; reflexivity). discriminate Q. }
      assert (DE : forall m s1, DC m s1 = catch (fast m d) (fun _ => catch (slow m d) (fun e => raise (dconv v' T e))) s1).
      { intros m s1. unfold dcont, dfast, dslow, dslow0. rewrite E. apply catch_ext; [apply dict_fast_kv|].
        intros e s2. apply catch_ext; [apply dict_slow_kv|]. reflexivity. }
      rewrite (conv_ext w cfg env s T _ _ _ DE).
      rewrite (conv_catch w basic cfg env s V T Us St (fun m => fast m d) (fun _ m => catch (slow m d) (fun e => raise (dconv v' T e)))).
      2: apply regular_fast; exact E.
      2: { intros e _. apply (regular_catch w basic cfg env s V T Us St (fun m => slow m d) (fun e _ => raise (dconv v' T e)));
             [apply regular_slow; exact E|intros; apply regular_raise]. }
      split.
      - intros [[a [C Ea]]|[e [CE C]]].
        + injection Ea as ->. apply (conv_fast d _ E) in C. destruct C as [kvs Q]. exists d, kvs. auto.
        + exfalso. apply (conv_catch w basic cfg env s V T Us St (fun m => slow m d) (fun e _ => raise (dconv v' T e))) in C.
          2: apply regular_slow; exact E. 2: intros; apply regular_raise.
          destruct C as [[a [C _]]|[e' [_ C]]]; [|apply (conv_raise w basic cfg env s V T Us St) in C; discriminate].
          destruct Gkv as [Gk Gv].
          apply (conv_kv (fun m k => load_ann w cfg m k kt (Some (AnKey k))) (fun m x => load_ann w cfg m x vt (Some (AnValue x)))) in C.
          2,3: let HH := fresh in intros k x HH; destruct (Vkv d k x E HH); eapply regular_load; eassumption.
          destruct C as [kvs [F [Hf _]]].
          assert (X : exists kvs', items_rel (item_loads w basic cfg s kt) (item_loads w basic cfg s vt) d kvs' /\
               forallb (fun kv => hashable w (fst kv)) kvs' = true).
          { assert (I : forall k x, In (k, x) d -> Vok k /\ Vok x) by (intros k x; apply Vkv; exact E).
            assert (IH0 : forall k x, In (k, x) d -> hashable w k = true) by (intros k x; apply Hhash; exact E). clear E DE CE ET.
            unfold items_rel in *. induction F as [|[k x] [k' x'] l1 l2 [H1 H2] F2 IH]; [exists []; split; constructor|].
            cbn [fst snd forallb] in *. apply andb_true_iff in Hf. destruct Hf as [Hf1 Hf2].
            destruct (IH Hf2 (fun k x H => I k x (or_intror H)) (fun k x H => IH0 k x (or_intror H))) as [kvs' [F' Hf']].
            destruct (I k x (or_introl eq_refl)) as [Ik Ix].
            destruct (item_of_load kt k k' (load_ok_item kt k _ k' Gk Ik H1) (IH0 k x (or_introl eq_refl)) Hf1) as [zk [Zk Hz]].
            destruct (item_of_load' vt x x' (load_ok_item vt x _ x' Gv Ix H2)) as [zx Zx].
            exists ((zk, zx) :: kvs'). split; [constructor; auto|]. cbn [forallb fst]. rewrite Hz. exact Hf'. }
          destruct X as [kvs' [F' Hf']].
          assert (CO : conv (fun m => fast m d) (Ok (VDict (dict_of kvs')))) by (apply (conv_fast d _ E); eauto).
          pose proof (conv_det w basic cfg env s V T Us St _ _ _ CO CE). discriminate.
      - intros [d' [kvs [E' [F [Hf ->]]]]]. rewrite E in E'. injection E' as <-. left. eexists. split; [|reflexivity].
        apply (conv_fast d _ E). eauto.
    Qed.
  End One.

  Hypothesis Hhash : keys_hashable w V.
  Lemma dictionary nt kt vt :
    T = TGen nt ODict (Some [kt; vt]) -> forall r,
    (loads w cfg s V T (Ok r) <->
     supported cfg kt /\ supported cfg vt /\
     exists d kvs, dict_items cfg V d /\
        items_rel (item_loads w basic cfg s kt) (item_loads w basic cfg s vt) d kvs /\
        forallb (fun kv => hashable w (fst kv)) kvs = true /\ r = VDict (dict_of kvs)).
  Proof using Hstd Hwr Us St Hhash.
    intros ET r. pose proof (find_dict w basic strcons cfg Hstd nt (Some [kt; vt])) as F. rewrite <- ET in F.
    rewrite (loads_ok_calls w basic strcons cfg Hstd Hwr env s V T Us St V T HDict r (G_refl _ _ _ _) (V_refl _) F).
    rewrite calls_body. cbn [body].
    assert (Hhash' : forall d k x, as_dict cfg V = VDict d -> In (k, x) d -> hashable w k = true).
    { intros d k x E I. apply dict_items_as in E. destruct E as [E|[_ [a [_ ->]]]]; [exact (Hhash d k x E I)|].
      apply in_map_iff in I. destruct I as [[k0 x0] [[= <- <-] _]]. reflexivity. }
    assert (Q : forall kh vh, find_handler cfg kt = POk kh -> find_handler cfg vt = POk vh ->
      conv (fun m => dictload w cfg (run m) V T) (Ok r) <->
      exists d kvs, dict_items cfg V d /\
        items_rel (item_loads w basic cfg s kt) (item_loads w basic cfg s vt) d kvs /\
        forallb (fun kv => hashable w (fst kv)) kvs = true /\ r = VDict (dict_of kvs)).
    { intros kh vh Fk Fv. rewrite (conv_dictload nt kt vt kh vh ET Fk Fv), (conv_DC nt kt vt kh vh ET Fk Fv Hhash').
      split; intros [d [kvs [E Q]]]; exists d, kvs; (split; [apply dict_items_as; exact E|exact Q]). }
    split.
    - intro C.
      assert (S0 := settled_s w basic cfg env s V T Us St).
      assert (X : (exists kh, find_handler cfg kt = POk kh) /\ (exists vh, find_handler cfg vt = POk vh)).
      { destruct C as [_ C]. destruct (C s S0) as [s' [N [_ E]]]. specialize (E N (le_n _)).
        assert (E' : dictload w cfg (run N) V T s =
          bind (lookup_handler cfg (XTL KValue (MCannotKey kt T) [] (Some V) (Some kt) []) kt)
            (fun kf0 => bind (look2 cfg V T vt kf0) (fun kv => dcont w cfg (run N) kt vt (fst kv) (snd kv) (as_dict cfg V) T)) s).
        { rewrite ET. apply dictload_eq. }
        rewrite E', bind_eq in E.
        destruct (finds_lookup w cfg env G (seen s) (XTL KValue (MCannotKey kt T) [] (Some V) (Some kt) []) kt s S0) as [S3 E3].
        destruct (lookup_handler cfg (XTL KValue (MCannotKey kt T) [] (Some V) (Some kt) []) kt s) as [r3 s3]. cbn [fst snd] in *.
        destruct (find_handler cfg kt) as [kh|]; [|subst r3; discriminate]. subst r3.
        split; [eauto|]. rewrite bind_eq in E. unfold look2 in E. destruct (ty_get vt (st_index s3)) as [h|] eqn:TG.
        - exists h. exact (coh_index _ _ _ (proj1 S3) _ _ TG).
        - destruct (find_handler cfg vt) as [vh|[]]; [eauto|discriminate..]. }
      destruct X as [[kh Fk] [vh Fv]]. split; [apply supported_find; eauto|]. split; [apply supported_find; eauto|].
      apply (Q kh vh Fk Fv). exact C.
    - intros [Sk [Sv H]]. apply supported_find in Sk. apply supported_find in Sv. destruct Sk as [kh Fk]. destruct Sv as [vh Fv].
      apply (Q kh vh Fk Fv). exact H.
  Qed.
End Dicts.

(** ** What [dict_of] gives *)
Lemma dict_set_spec k x d :
  forall k' x', In (k', x') (dict_set k x d) ->
    (In (k', x') d /\ py_eqb k k' = false) \/ (x' = x /\ (k' = k \/ (exists y, In (k', y) d) /\ py_eqb k k' = true)) \/ In (k', x') d.
Proof.
  induction d as [|[k0 x0] d IH]; intros k' x'; cbn [dict_set].
  - intros [[= <- <-]|[]]. right. left. auto.
  - destruct (py_eqb k k0) eqn:E.
    + intros [[= <- <-]|H]; [right; left; split; [reflexivity|right; split; [exists x0; left; reflexivity|exact E]]|].
      right. right. right. exact H.
    + intros [[= <- <-]|H]; [left; split; [left; reflexivity|exact E]|].
      destruct (IH k' x' H) as [[A B]|[[A [B|[[y B] C]]]|A]]; [left; split; [right; exact A|exact B]| | |].
      * right. left. auto.
      * right. left. split; [exact A|]. right. split; [exists y; right; exact B|exact C].
      * right. right. right. exact A.
Qed.

(** each item of the result has the key of one of the items, and the value of
    one with an equal key *)
Lemma dict_of_from kvs k x :
  In (k, x) (dict_of kvs) ->
  exists y k', In (k, y) kvs /\ In (k', x) kvs /\ (k' = k \/ py_eqb k' k = true).
Proof.
  unfold dict_of.
  assert (X : forall kvs acc pre, (forall k x, In (k, x) acc -> exists y k', In (k, y) pre /\ In (k', x) pre /\ (k' = k \/ py_eqb k' k = true)) ->
     forall k x, In (k, x) (fold_left (fun acc kv => dict_set (fst kv) (snd kv) acc) kvs acc) ->
     exists y k', In (k, y) (pre ++ kvs) /\ In (k', x) (pre ++ kvs) /\ (k' = k \/ py_eqb k' k = true)).
  { clear. induction kvs as [|[k0 x0] kvs IH]; intros acc pre Ha k x H; cbn [fold_left fst snd] in H.
    - rewrite app_nil_r. apply Ha. exact H.
    - replace (pre ++ (k0, x0) :: kvs) with ((pre ++ [(k0, x0)]) ++ kvs) by (rewrite <- app_assoc; reflexivity).
      eapply IH; [|exact H]. clear H. intros k1 x1 H1.
      assert (LE : forall a, In a pre -> In a (pre ++ [(k0, x0)])) by (intros; apply in_or_app; left; assumption).
      assert (LA : In (k0, x0) (pre ++ [(k0, x0)])) by (apply in_or_app; right; left; reflexivity).
      destruct (dict_set_spec k0 x0 acc k1 x1 H1) as [[A B]|[[-> [->|[[y A] B]]]|A]].
      + destruct (Ha _ _ A) as [y [k' [P1 [P2 P3]]]]. exists y, k'. auto.
      + exists x0, k0. auto.
      + destruct (Ha _ _ A) as [y' [k' [P1 [P2 P3]]]]. exists y', k0. auto.
      + destruct (Ha _ _ A) as [y [k' [P1 [P2 P3]]]]. exists y, k'. auto. }
  intro H. apply (X kvs [] []) in H; [exact H|]. intros ? ? [].
Qed.



Lemma dict_get_set ks k k0 x d :
  eq_keys ks -> In k ks -> In k0 ks -> (forall a y, In (a, y) d -> In a ks) ->
  dict_get k (dict_set k0 x d) = if py_eqb k k0 then Some x else dict_get k d.
Proof.
  intros [R [S Tr]] Hk Hk0. induction d as [|[k1 x1] d IH]; intro Hd; cbn [dict_set dict_get]; [reflexivity|].
  assert (H1 : In k1 ks) by (eapply Hd; left; reflexivity).
  specialize (IH (fun a y H => Hd a y (or_intror H))).
  destruct (py_eqb k0 k1) eqn:E; cbn [dict_get].
  - destruct (py_eqb k k0) eqn:E0.
    + rewrite (Tr k k0 k1) by assumption. reflexivity.
    + destruct (py_eqb k k1) eqn:E1; [|reflexivity].
      rewrite (Tr k k1 k0) in E0; [discriminate|assumption..|]. apply S; assumption.
  - destruct (py_eqb k k1) eqn:E1.
    + destruct (py_eqb k k0) eqn:E0; [|reflexivity].
      rewrite (Tr k0 k k1) in E; [discriminate|assumption..| |exact E1]. apply S; assumption.
    + exact IH.
Qed.

Lemma dict_of_last ks kvs k :
  eq_keys ks -> In k ks -> (forall a y, In (a, y) kvs -> In a ks) ->
  dict_get k (dict_of kvs) = last_with k kvs.
Proof.
  intros E Hk Hkv. unfold dict_of.
  assert (X : forall kvs acc, (forall a y, In (a, y) kvs -> In a ks) -> (forall a y, In (a, y) acc -> In a ks) ->
     dict_get k (fold_left (fun acc kv => dict_set (fst kv) (snd kv) acc) kvs acc)
     = match last_with k kvs with Some y => Some y | None => dict_get k acc end).
  { clear kvs Hkv. induction kvs as [|[k0 x0] kvs IH]; intros acc Hkv Ha; cbn [fold_left last_with fst snd]; [reflexivity|].
    assert (H0 : In k0 ks) by (eapply Hkv; left; reflexivity).
    rewrite IH; [| |].
    - rewrite (dict_get_set ks k k0 x0 acc E Hk H0 Ha). destruct (last_with k kvs); [reflexivity|].
      destruct (py_eqb k k0); reflexivity.
    - intros a y H. eapply Hkv. right. exact H.
    - intros a y H. destruct (dict_set_spec k0 x0 acc a y H) as [[A _]|[[_ [->|[[z A] _]]]|A]]; [eapply Ha; exact A|exact H0|eapply Ha; exact A|eapply Ha; exact A]. }
  rewrite X; [|exact Hkv|intros ? ? []]. cbn. destruct (last_with k kvs); reflexivity.
Qed.
