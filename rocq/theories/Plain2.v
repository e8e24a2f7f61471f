(** * Plain2: objects, unions and wrong data, on every loader (towards C55) *)

From Verif Require Import Loader Dumper Spec Inv Std Sound Fuel Obs Scalars Transparent Hist Reuse Items Eval Tuples Dicts
  Objects ObjFacts Unions Tagged Enums Dumps Facts2 Facts3 Facts5 Total RoundTrip Schema Plain.
From Verif Require Export Vocab.

Section PL2.
  Variable w : world.
  Variables basic strcons dstrcons : list cid.
  Variable cfg : config.
  Variable dcfg : dconfig.
  Hypothesis Hstd : is_std w basic strcons cfg.
  Hypothesis Hwr : wf_reflect w.
  Variable env : string -> option ty.
  Notation p := (pep563 cfg).
  Notation ok := (okst w cfg env (fun _ _ => True)).
  Notation tx := (tx w cfg env (fun _ _ => True)).
  Notation no := (fun _ : exn => False).
  Notation tl := (fun e => is_tl e = true).
  Notation gives := (gives w cfg env).
  Notation fails := (fails w cfg env).
  Notation ends_well := (ends_well w cfg env).
  Notation LT := (LT w cfg env).
  Notation RJ := (RJ w cfg env).
  Notation field_class := (field_class w basic strcons cfg).

  (** ** Objects *)
  Lemma tx_obj m c k x Q E : field_class c -> kind_of_class w c = Some k ->
    tx (mangle_obj w cfg (run w cfg m) c x) Q E -> tx (run w cfg (S m) (object_handler k) x (TClass c)) Q E.
  Proof using Hstd Hwr.
    intros [OC [Re _]] K T s C. cbn [run].
    destruct (obj_body w basic strcons cfg Hstd Hwr c k s OC K Re (ok_coh _ _ _ _ _ C)) as [s2 [C2 [_ [F2 B]]]]. rewrite B. apply T.
    split; [exact C2| |auto]. intros n t En. destruct (ok_lo _ _ _ _ _ C n t En) as [fr [Fr G]]. exists fr. rewrite F2. auto.
  Qed.

  Lemma tx_fields m fields hints v t d qs :
    Forall2 (fun kx q => fst q = fst kx /\ exists ft, str_get (fst kx) hints = Some ft /\ gives m (snd kx) ft (snd q)) (picked fields d) qs ->
    forall acc, tx (fields_loop cfg (run w cfg m) fields hints v t d acc) (eq (acc ++ qs)) no.
  Proof using.
    revert qs. induction d as [|[k x] d IH]; intros qs F acc; cbn [fields_loop].
    - inversion F. subst. rewrite app_nil_r. apply tx_ret. reflexivity.
    - cbn [picked flat_map fst snd] in F. change (flat_map _ d) with (picked fields d) in F.
      destruct k as [| | | |f| | | | | | | | | | |]; try (apply IH; exact F). destruct (mem_str f fields); [|apply IH; exact F]. cbn [app] in F.
      inversion F as [|a [f' y] l qs' [Ef [ft [Eh G]]] F']; subst. cbn [fst snd] in *. subst f'. rewrite Eh.
      destruct G as [h [Fh T]].
      eapply tx_bind; [apply tx_lookup; intros r Q; congruence|]. cbv beta. intros h' Fh'. assert (h' = h) by congruence. subst h'.
      eapply tx_bind; [eapply tx_catch; [exact T|intros e []]|]. intros a <-.
      replace (acc ++ (f, y) :: qs') with ((acc ++ [(f, y)]) ++ qs') by (rewrite <- app_assoc; reflexivity). apply IH. exact F'.
  Qed.
  Lemma tx_fields_fail m fields hints v t d f x ft :
    (forall g y, In (g, y) (picked fields d) -> exists gt, str_get g hints = Some gt /\ ends_well m y gt) ->
    In (f, x) (picked fields d) -> str_get f hints = Some ft -> fails m x ft ->
    forall acc, tx (fields_loop cfg (run w cfg m) fields hints v t d acc) (fun _ => False) tl.
  Proof using.
    intros W I Ef Hx. revert W I. induction d as [|[k y] d IH]; intros W I acc; [contradiction|].
    cbn [picked flat_map fst snd] in W, I. change (flat_map _ d) with (picked fields d) in W, I. cbn [fields_loop].
    destruct k as [| | | |g| | | | | | | | | | |]; try (apply IH; assumption). destruct (mem_str g fields); [|apply IH; assumption]. cbn [app] in W, I.
    destruct (W g y (or_introl eq_refl)) as [gt [Eg [h [Fh T]]]]. rewrite Eg.
    eapply tx_bind; [apply tx_lookup; intros r Q; congruence|]. cbv beta. intros h' Fh'. assert (h' = h) by congruence. subst h'.
    destruct I as [I|I].
    - injection I as -> ->. assert (gt = ft) by congruence. subst gt. destruct Hx as [h' [Fh2 T']]. assert (h' = h) by congruence. subst h'.
      eapply tx_bind with (Q1 := fun _ => False); [|intros a []]. eapply tx_catch; [exact T'|]. intros e He. apply tx_raise. destruct e; [reflexivity|discriminate].
    - eapply tx_bind with (Q1 := fun _ => True); [eapply tx_catch; [exact T|intros e He; apply tx_raise; destruct e; [reflexivity|discriminate]]|].
      intros a _. apply IH; [intros g' y' I'; apply W; right; exact I'|exact I].
  Qed.

  Lemma find_field_class c : field_class c -> exists k, kind_of_class w c = Some k /\ find_handler cfg (TClass c) = POk (object_handler k).
  Proof using Hstd Hwr.
    intros [OC _]. destruct (obj_kind w basic strcons c OC) as [k K]. exists k. split; [exact K|].
    apply (find_object w basic strcons cfg Hstd Hwr c k OC K).
  Qed.
  Lemma picked_given c d : distinct_names w cfg c ->
    picked (map fst (obj_fields w cfg c)) (ren (obj_names w cfg c) d) = given w cfg c d.
  Proof using. intro DN. rewrite (picked_ren _ _ d (obj_table w cfg c DN)). reflexivity. Qed.

  (** an object is loaded when the required fields are there, there are no
      extra ones, each field is loaded and the constructor accepts them *)
  Lemma LT_object c d ps r : field_class c -> py_dict d ->
    (forall e, In e (required_names w cfg c) -> In (VStr e) (map fst d)) ->
    (failonextra cfg = true -> forall k x, In (k, x) d -> exists f, field_of w cfg c k = Some f) ->
    Forall2 (fun kx q => fst q = fst kx /\ exists ft, str_get (fst kx) (declared w p c) = Some ft /\ LT (snd kx) ft (snd q)) (given w cfg c d) ps ->
    construct w (TClass c) ps = POk r -> LT (VDict d) (TClass c) r.
  Proof using Hstd Hwr.
    intros FC PD Rq Kn F Ct. destruct (find_field_class c FC) as [k [K Fh]]. pose proof FC as [OC [Re DN]].
    pose proof (obj_table w cfg c DN) as TB.
    assert (G : exists N, forall m, N <= m -> Forall2 (fun kx q => fst q = fst kx /\ exists ft, str_get (fst kx) (declared w p c) = Some ft /\ gives m (snd kx) ft (snd q)) (given w cfg c d) ps).
    { apply F2_bound. eapply F2_imp; [|exact F]. intros kx q [E [ft [Eh [N H]]]]. exists N. intros m L. split; [exact E|]. exists ft. auto. }
    destruct G as [N G]. exists (S N). intros [|m] L; [lia|]. exists (object_handler k). split; [exact Fh|].
    apply tx_obj; [exact FC|exact K|]. intros s C.
    rewrite (mangle_obj_data w cfg c (VDict d) d _ s DN (or_introl eq_refl) PD).
    assert (Known : (forall kx, In kx d -> failonextra cfg && skipped (obj_names w cfg c) (fst kx) = false) /\
       (failonextra cfg = true -> filter (fun kv => negb (key_in (map fst (obj_fields w cfg c)) kv)) (ren (obj_names w cfg c) d) = [])).
    { destruct (failonextra cfg) eqn:FE; [|split; [reflexivity|discriminate]].
      destruct (proj2 (ren_known _ _ TB d)) as [A B]; [|split; [exact A|intros _; exact B]].
      intros k0 x0 I. destruct (Kn eq_refl k0 x0 I) as [f Hf]. exists f. unfold fieldF, swapF. unfold field_of in Hf. destruct k0; try discriminate. exact Hf. }
    destruct Known as [Sk Ex].
    assert (FD : find (fun kx => failonextra cfg && skipped (obj_names w cfg c) (fst kx)) d = None) by (apply find_none_iff; exact Sk).
    rewrite FD. unfold objloader. cbn [as_dict].
    assert (Mi : filter (fun s0 => negb (has_key (ren (obj_names w cfg c) d) s0)) (obj_required w cfg c) = []).
    { apply filter_nil. intros f I. rewrite (proj2 (required_ren w cfg c d DN) Rq f I). reflexivity. }
    rewrite Mi.
    assert (Xt : failonextra cfg && negb (Nat.eqb (List.length (map fst (filter (fun kv => negb (key_in (map fst (obj_fields w cfg c)) kv)) (ren (obj_names w cfg c) d)))) 0) = false).
    { destruct (failonextra cfg) eqn:FE; [|reflexivity]. rewrite (Ex eq_refl). reflexivity. }
    rewrite Xt. revert s C FD. 
    cut (tx (bind (fields_loop cfg (run w cfg m) (map fst (obj_fields w cfg c)) (declared w p c) (VDict (ren (obj_names w cfg c) d)) (TClass c) (ren (obj_names w cfg c) d) [])
      (fun params => match construct w (TClass c) params with
              | POk r => ret r
              | PExc RType => raise (XTL KType (MCtor RType) [] None None [])
              | PExc RValue => raise (XTL KValue (MCtor RValue) [] None None [])
              | PExc r => raise (XRaw r)
              end)) (eq r) no); [intros T s C _; exact (T s C)|].
    eapply tx_bind.
    - apply (tx_fields m _ _ _ _ _ ps). rewrite picked_given by exact DN. exact (G m ltac:(lia)).
    - intros a <-. cbn [app]. rewrite Ct. apply tx_ret. reflexivity.
  Qed.

  (** ** Types which always finish *)
  Hypothesis Hann : forall c, In c basic -> ci_ann (class_of w c) = [].
  Notation mild := (mild basic).

  Lemma tx_iter_any k mp f v0 t0 xs : (forall x, In x xs -> tx (f x) (fun _ => True) tl) ->
    forall i acc, tx (iter_loop w k mp f v0 t0 xs i acc) (fun _ => True) tl.
  Proof using.
    induction xs as [|x xs IH]; intros H i acc; cbn [iter_loop]; [apply tx_ret; exact I|].
    eapply tx_bind with (Q1 := fun r => True).
    - eapply tx_weak with (Q := fun r => match r with inl _ => True | inr _ => True end) (E := tl); [|auto|auto].
      apply tx_attempt with (Q := fun _ => True) (E1 := fun _ => True). eapply tx_bind with (Q1 := fun _ => True).
      + eapply tx_weak; [apply H; left; reflexivity|auto|auto].
      + intros a _. apply tx_lift; auto.
    - intros [a|e] _; [apply IH; intros; apply H; right; assumption|].
      destruct (stops mp e); [apply tx_ret; exact I|]. unfold item_error. destruct e as [| []]; apply tx_raise; reflexivity.
  Qed.

  Lemma tx_prefer d T args l0 : ty_args T = Some args -> tags_hashable w args (VDict d) ->
    tx (prefer w (VDict d) T args l0) (fun l => l = l0 \/ exists q key, literal_field w args key /\ In q args /\ l = q :: remove_first q l0) no.
  Proof using.
    intros Ha Th. unfold prefer. eapply tx_bind with (Q1 := fun dc => exists s' args', (forall x, In x args <-> In x args') /\ dc = build_disc w s' args').
    - intros s C. destruct (same_get T (st_disc s)) as [dc|] eqn:Q.
      + destruct (coh_disc _ _ _ (ok_coh _ _ _ _ _ C) _ _ Q) as [a' [args' [s' [E [Sm ->]]]]]. assert (a' = args) by congruence. subst a'. split; [eauto|exact C].
      + split; [exists s, args; split; [reflexivity|reflexivity]|]. destruct C as [C1 C2 C3]. split; [apply coh_set_disc; assumption|exact C2|exact C3].
    - intros dc [s' [args' [Sm E]]]. destruct dc as [[key [|lt cd]]|]; try (apply tx_ret; left; reflexivity).
      symmetry in E. pose proof (build_disc_literal w s' args' key _ E) as LF0.
      assert (LF : literal_field w args key) by (intros x Ix; apply LF0, Sm, Ix).
      assert (Hh : hashable w (match dict_get (VStr key) d with Some x => x | None => VNone end) = true).
      { destruct (dict_get (VStr key) d) as [y|] eqn:Dg; [|reflexivity]. exact (Th d key y eq_refl LF Dg). }
      rewrite Hh. destruct (disc_get _ (lt :: cd)) as [q|] eqn:Dg; [|apply tx_ret; left; reflexivity].
      apply tx_ret. right. exists q, key. split; [exact LF|]. split; [|reflexivity].
      apply Sm. eapply build_disc_types; [exact E|]. eapply disc_get_types. exact Dg.
  Qed.
  Lemma literal_nonbasic args key q : literal_field w args key -> In q args -> in_classes basic q = false.
  Proof using Hann.
    intros LF I. destruct (LF q I) as [c [tk [vals [-> [Ia _]]]]]. cbn. destruct (mem_cid c basic) eqn:M; [|reflexivity].
    apply mem_cid_In in M. rewrite (Hann c M) in Ia. contradiction.
  Qed.
  Lemma tx_try_any m v0 t0 l : (forall u, In u l -> ends_well m v0 u) ->
    forall n r exs, tx (try_members cfg (run w cfg m) v0 t0 l n r exs) (fun _ => True) tl.
  Proof using.
    induction l as [|u l IH]; intros H n r exs; cbn [try_members]; [apply tx_ret; exact I|].
    destruct (H u (or_introl eq_refl)) as [h [Fh T]].
    eapply tx_bind with (Q1 := fun o => match o with inl _ => True | inr e => is_tl e = true end).
    - apply tx_attempt with (Q := fun _ => True). eapply tx_bind; [apply tx_lookup; intros k Q; congruence|]. cbv beta. intros h' Fh'.
      assert (h' = h) by congruence. subst h'. exact T.
    - intros [a|[|k]] Ho; [|apply IH; intros; apply H; right; assumption|discriminate].
      destruct (uniondebugconflict cfg); [apply IH; intros; apply H; right; assumption|apply tx_ret; exact I].
  Qed.

  Lemma ends_union m n ts x : (forall t, In t ts -> ends_well m x t) -> tags_hashable w ts x -> ends_well (S m) x (TGen n OUnion (Some ts)).
  Proof using Hstd.
    intros H Th. exists HUnion. split; [apply (find_union w basic strcons cfg Hstd)|]. cbn [run body]. unfold unionload. cbn [ty_args].
    destruct (_ && _); [apply tx_ret; exact I|].
    set (l0 := filter (fun y => negb (basicb cfg y)) ts ++ filter (basicb cfg) ts).
    assert (I0 : forall u, In u l0 -> In u ts) by (intros u Iu; apply in_app_or in Iu as [Iu|Iu]; apply filter_In in Iu; apply Iu).
    eapply tx_bind with (Q1 := fun l => forall u, In u l -> In u ts).
    - assert (G : tx (prefer w x (TGen n OUnion (Some ts)) ts l0) (fun l => l = l0 \/ exists q key, literal_field w ts key /\ In q ts /\ l = q :: remove_first q l0) no).
      { destruct x; try (apply tx_ret; left; reflexivity). apply tx_prefer; [reflexivity|exact Th]. }
      eapply tx_weak; [exact G| |intros e []]. intros l [-> |[q [key [_ [Iq ->]]]]]; [exact I0|].
      intros u [<-|Iu]; [exact Iq|]. apply I0. eapply remove_first_In. exact Iu.
    - intros l Il. eapply tx_bind with (Q1 := fun _ => True); [apply tx_try_any; auto|]. intros [[k r] exs] _.
      destruct k as [|[|k]]; [apply tx_raise|apply tx_ret|apply tx_raise]; reflexivity.
  Qed.

  Lemma mild_not_tagged ts : (forall t, In t ts -> mild t) -> forall x, ts <> [] -> tags_hashable w ts x.
  Proof using Hann.
    intros H x Ne d k y -> LF _. destruct ts as [|t ts]; [contradiction|]. destruct (LF t (or_introl eq_refl)) as [c [tk [vals [-> [Ia _]]]]].
    pose proof (H _ (or_introl eq_refl)) as M. inversion M as [c' [B|B]| | |k0 n0 t0 _ E|]; subst; [rewrite (Hann c B) in Ia; contradiction|contradiction|].
    destruct k0; discriminate E.
  Qed.
  Lemma mild_find t : mild t -> exists h, find_handler cfg t = POk h.
  Proof using Hstd.
    intro M. destruct M as [c B|vals| |k n t _|n ts _ _].
    - destruct (cid_eq_dec c CNone) as [->|N]; [exists HNone; apply (find_none w basic strcons cfg Hstd)|].
      exists HBasic. apply (find_basic w basic strcons cfg Hstd); [intuition congruence|exact N].
    - exists HLiteral. apply (find_literal w basic strcons cfg Hstd).
    - exists HAny. apply (find_any w basic strcons cfg Hstd).
    - exists (coll_handler k). apply (find_coll w basic strcons cfg Hstd k n t []).
    - exists HUnion. apply (find_union w basic strcons cfg Hstd).
  Qed.
  Lemma list_bound {A} (P : A -> nat -> Prop) l :
    (forall a, In a l -> exists N, forall n, N <= n -> P a n) -> exists N, forall n, N <= n -> forall a, In a l -> P a n.
  Proof using.
    induction l as [|a l IH]; intro H; [exists 0; intros n _ a []|]. destruct (H a (or_introl eq_refl)) as [N1 H1].
    destruct IH as [N2 H2]; [intros; apply H; right; assumption|]. exists (Nat.max N1 N2). intros n L b [<-|Ib]; [apply H1; lia|apply H2; [lia|exact Ib]].
  Qed.
  Lemma mild_ends t : mild t -> exists N, forall m, N <= m -> forall x, ends_well m x t.
  Proof using Hstd Hann.
    intro M. induction M as [c B|vals| |k n t M [N IH]|n ts Ne M IH].
    - exists 1. intros [|m] L x; [lia|]. destruct (cid_eq_dec c CNone) as [->|Nc].
      + exists HNone. split; [apply (find_none w basic strcons cfg Hstd)|]. cbn [run body]. unfold noneload. destruct x; try (apply tx_raise; reflexivity). apply tx_ret. exact I.
      + exists HBasic. split; [apply (find_basic w basic strcons cfg Hstd); [intuition congruence|exact Nc]|]. cbn [run body]. unfold basicload.
        destruct (exact x (TClass c)); [apply tx_ret; exact I|]. destruct (basiccast cfg); [|apply tx_raise; reflexivity].
        destruct (call_type w (TClass c) x) as [r|[]]; try (apply tx_raise; reflexivity). apply tx_ret. exact I.
    - exists 1. intros [|m] L x; [lia|]. exists HLiteral. split; [apply (find_literal w basic strcons cfg Hstd)|]. cbn [run body literalload].
      destruct (py_in x vals); [apply tx_ret; exact I|apply tx_raise; reflexivity].
    - exists 1. intros [|m] L x; [lia|]. exists HAny. split; [apply (find_any w basic strcons cfg Hstd)|]. cbn [run body]. apply tx_ret. exact I.
    - exists (S N). intros [|m] L x; [lia|]. specialize (IH m ltac:(lia)). destruct (mild_find t M) as [h Fh].
      assert (B : tx (iterload w cfg (run w cfg m) k x (coll_type k n t [])) (fun _ => True) tl).
      { unfold iterload. assert (E : ty_args (coll_type k n t []) = Some (match k with KoTuple => [t; TEllipsis] | _ => [t] end)) by (destruct k; reflexivity).
        rewrite E.
        assert (T : tx (bind (lookup_handler cfg (XTL KType (MCannotDeal t) [] (Some x) (Some t) []) t)
          (fun h => match iter x with
            | None => raise (XTL KType (MPy RType) [] (Some x) (Some (coll_type k n t [])) [])
            | Some l => iter_loop w k (mapped cfg t) (iter_item w cfg (run w cfg m) h t) x (coll_type k n t []) l 0 [] end)) (fun _ => True) tl).
        { eapply tx_bind; [apply tx_lookup; intros r Q; congruence|]. cbv beta. intros h' F'. destruct (iter x) as [l|]; [|apply tx_raise; reflexivity].
          apply tx_iter_any. intros y _. destruct (IH y) as [h2 [F2 T]]. assert (h2 = h') by congruence. subst h2.
          unfold iter_item. destruct (basicb cfg t); [destruct (isinst w y t); [apply tx_ret; exact I|exact T]|].
          destruct t as [| nt o args| | | | | |]; try exact T. destruct o; try exact T. destruct args; try exact T.
          destruct (_ && _); [apply tx_ret; exact I|exact T]. }
        destruct k; destruct x; try exact T; apply tx_raise; reflexivity. }
      exists (coll_handler k). split; [apply (find_coll w basic strcons cfg Hstd k n t [])|]. destruct k; exact B.
    - destruct (list_bound (fun t m => forall x, ends_well m x t) ts IH) as [N H]. exists (S N). intros [|m] L x; [lia|].
      apply ends_union; [intros t It; apply H; [lia|exact It]|]. apply mild_not_tagged; assumption.
  Qed.

  (** ** Wrong data *)
  Lemma RJ_obj c x : field_class c ->
    (forall call s, exists e, mangle_obj w cfg call c x s = (Exc e, s) /\ is_tl e = true) -> RJ x (TClass c).
  Proof using Hstd Hwr.
    intros FC H. destruct (find_field_class c FC) as [k [K Fh]]. exists 1. intros [|m] L; [lia|]. exists (object_handler k). split; [exact Fh|].
    apply tx_obj; [exact FC|exact K|]. intros s C. destruct (H (run w cfg m) s) as [e [-> T]]. auto.
  Qed.
  Lemma skipped_str names k : skipped names k = true -> exists s, k = VStr s.
  Proof using. destruct k; try discriminate. eauto. Qed.
  Lemma objloader_wrong_missing call fields nec hints d t f s : In f nec -> has_key d f = false ->
    exists e, objloader w cfg call fields nec hints (VDict d) t s = (Exc e, s) /\ is_tl e = true.
  Proof using.
    intros Hf Hk. unfold objloader. cbn [as_dict].
    destruct (filter (fun s => negb (has_key d s)) nec) as [|m ms] eqn:E.
    - exfalso. assert (X : In f (filter (fun s => negb (has_key d s)) nec)) by (apply filter_In; rewrite Hk; auto). rewrite E in X. destruct X.
    - eexists. split; reflexivity.
  Qed.
  Lemma mangle_obj_first c d call s : distinct_names w cfg c -> py_dict d ->
    (exists e, mangle_obj w cfg call c (VDict d) s = (Exc e, s) /\ is_tl e = true) \/
    (mangle_obj w cfg call c (VDict d) s = objloader w cfg call (map fst (obj_fields w cfg c)) (obj_required w cfg c) (declared w p c)
                  (VDict (ren (obj_names w cfg c) d)) (TClass c) s /\
     forall kx, In kx d -> failonextra cfg && skipped (obj_names w cfg c) (fst kx) = false).
  Proof using.
    intros DN PD. rewrite (mangle_obj_data w cfg c (VDict d) d call s DN (or_introl eq_refl) PD).
    destruct (find _ d) as [[k0 x0]|] eqn:FD.
    - left. apply find_some in FD. destruct FD as [_ Q]. apply andb_true_iff in Q. destruct Q as [_ Q]. cbn [fst] in Q.
      apply skipped_str in Q as [s0 ->]. eexists. split; reflexivity.
    - right. split; [reflexivity|]. apply find_none_iff. exact FD.
  Qed.
  Lemma RJ_missing d c e : field_class c -> py_dict d -> In e (required_names w cfg c) -> ~ In (VStr e) (map fst d) -> RJ (VDict d) (TClass c).
  Proof using Hstd Hwr.
    intros FC PD Ie Nd. apply RJ_obj; [exact FC|]. intros call s. pose proof FC as [_ [_ DN]].
    destruct (mangle_obj_first c d call s DN PD) as [H|[H _]]; [exact H|]. rewrite H.
    assert (NR : exists f, In f (obj_required w cfg c) /\ has_key (ren (obj_names w cfg c) d) f = false).
    { destruct (existsb (fun f => negb (has_key (ren (obj_names w cfg c) d) f)) (obj_required w cfg c)) eqn:EX.
      - apply existsb_exists in EX as [f [Hf Q]]. exists f. split; [exact Hf|]. apply negb_true_iff. exact Q.
      - exfalso. apply Nd. apply (required_ren w cfg c d DN); [|exact Ie]. intros f Hf.
        destruct (has_key (ren (obj_names w cfg c) d) f) eqn:Q; [reflexivity|].
        assert (X : existsb (fun f => negb (has_key (ren (obj_names w cfg c) d) f)) (obj_required w cfg c) = true)
          by (apply existsb_exists; exists f; rewrite Q; auto). congruence. }
    destruct NR as [f [Hf Hk]]. eapply objloader_wrong_missing; eassumption.
  Qed.
  Lemma ren_strings names d : (forall k x, In (k, x) d -> exists e, k = VStr e) -> forall k x, In (k, x) (ren names d) -> exists e, k = VStr e.
  Proof using.
    intros AS k x H. unfold ren in H. apply in_flat_map in H as [[k2 y2] [H2 H]].
    destruct (AS k2 y2 H2) as [n ->]. unfold ren1 in H. cbn [fst snd] in H.
    destruct (str_get n names); [destruct H as [[= <- _]|[]]; eauto|].
    destruct (mem_str n _); [destruct H|]. destruct H as [[= <- _]|[]]. eauto.
  Qed.
  Lemma RJ_extra d c k x : field_class c -> py_dict d -> failonextra cfg = true ->
    (forall k' x', In (k', x') d -> exists e, k' = VStr e) -> In (VStr k, x) d -> field_of w cfg c (VStr k) = None -> RJ (VDict d) (TClass c).
  Proof using Hstd Hwr.
    intros FC PD FE AS Ik NF. apply RJ_obj; [exact FC|]. intros call s. pose proof FC as [_ [_ DN]].
    destruct (mangle_obj_first c d call s DN PD) as [H|[H Sk]]; [exact H|]. rewrite H. unfold objloader. cbn [as_dict].
    destruct (filter (fun s0 => negb (has_key (ren (obj_names w cfg c) d) s0)) (obj_required w cfg c)); [|eexists; split; reflexivity].
    set (extra := filter (fun kv => negb (key_in (map fst (obj_fields w cfg c)) kv)) (ren (obj_names w cfg c) d)).
    assert (NE : extra <> []).
    { intro Q. pose proof (obj_table w cfg c DN) as TB.
      assert (SK : forall kx, In kx d -> skipped (obj_names w cfg c) (fst kx) = false) by (intros kx Hk; specialize (Sk kx Hk); rewrite FE in Sk; exact Sk).
      destruct (proj1 (ren_known _ _ TB d) (conj SK Q) (VStr k) x Ik) as [f Hf]. unfold field_of in NF. unfold fieldF, swapF in Hf. congruence. }
    assert (A : all_str (map fst extra) = true).
    { apply forallb_forall. intros k' H'. apply in_map_iff in H' as [[k1 y] [<- H']]. cbn [fst]. apply filter_In in H' as [H' _].
      destruct (ren_strings _ d AS _ _ H') as [e ->]. reflexivity. }
    rewrite A, FE. destruct extra as [|a l0]; [contradiction|]. cbn [map List.length Nat.eqb negb andb]. eexists. split; reflexivity.
  Qed.
  Lemma RJ_tag d c k tag f vals : field_class c -> py_dict d ->
    (forall k' x', In (k', x') d -> exists e, k' = VStr e) ->
    (forall g e, In (g, e) (obj_fields w cfg c) -> exists t, str_get g (declared w p c) = Some t /\ mild t) ->
    In (VStr k, tag) d -> field_of w cfg c (VStr k) = Some f ->
    str_get f (declared w p c) = Some (TLiteral vals) -> py_in tag vals = false -> RJ (VDict d) (TClass c).
  Proof using Hstd Hwr Hann.
    intros FC PD AS Mi Ik Ff Fl Np. destruct (find_field_class c FC) as [kd [K Fh]]. pose proof FC as [_ [_ DN]].
    assert (B : exists N, forall m, N <= m -> forall ge, In ge (obj_fields w cfg c) ->
       exists t, str_get (fst ge) (declared w p c) = Some t /\ forall x, ends_well m x t).
    { apply list_bound. intros [g e] Ig. destruct (Mi g e Ig) as [t [Et Mt]]. destruct (mild_ends t Mt) as [N HN]. exists N. intros m L. exists t. auto. }
    destruct B as [N B]. exists (S (S N)). intros [|m] L; [lia|]. exists (object_handler kd). split; [exact Fh|].
    apply tx_obj; [exact FC|exact K|]. intros s C.
    destruct (mangle_obj_first c d (run w cfg m) s DN PD) as [[e [H T]]|[H _]]; rewrite H; [auto|]. unfold objloader. cbn [as_dict].
    destruct (filter (fun s0 => negb (has_key (ren (obj_names w cfg c) d) s0)) (obj_required w cfg c)); [|split; [reflexivity|exact C]].
    set (extra := filter (fun kv => negb (key_in (map fst (obj_fields w cfg c)) kv)) (ren (obj_names w cfg c) d)).
    assert (A : all_str (map fst extra) = true).
    { apply forallb_forall. intros k' H'. apply in_map_iff in H' as [[k1 y] [<- H']]. cbn [fst]. apply filter_In in H' as [H' _].
      destruct (ren_strings _ d AS _ _ H') as [e ->]. reflexivity. }
    rewrite A. destruct (_ && _); [split; [reflexivity|exact C]|]. revert s C H.
    cut (tx (bind (fields_loop cfg (run w cfg m) (map fst (obj_fields w cfg c)) (declared w p c) (VDict (ren (obj_names w cfg c) d)) (TClass c) (ren (obj_names w cfg c) d) [])
      (fun params => match construct w (TClass c) params with
              | POk r => ret r
              | PExc RType => raise (XTL KType (MCtor RType) [] None None [])
              | PExc RValue => raise (XTL KValue (MCtor RValue) [] None None [])
              | PExc r => raise (XRaw r)
              end)) (fun _ => False) tl); [intros T s C _; exact (T s C)|].
    eapply tx_bind with (Q1 := fun _ => False); [|intros a []].
    apply (tx_fields_fail m _ _ _ _ _ f tag (TLiteral vals)).
    - intros g y Ig. rewrite picked_given in Ig by exact DN. unfold given in Ig. apply in_flat_map in Ig as [[k0 y0] [_ Ig]]. cbn [fst snd] in Ig.
      destruct (field_of w cfg c k0) as [g0|] eqn:Eg; [|contradiction]. destruct Ig as [[= -> ->]|[]].
      unfold field_of in Eg. destruct k0; try discriminate. apply str_get_In in Eg. apply in_map_iff in Eg as [[g1 e1] [[= -> ->] Eg]].
      destruct (B m ltac:(lia) _ Eg) as [t [Et Wt]]. exists t. split; [exact Et|apply Wt].
    - rewrite picked_given by exact DN. unfold given. apply in_flat_map. exists (VStr k, tag). split; [exact Ik|]. cbn [fst snd]. rewrite Ff. left. reflexivity.
    - exact Fl.
    - destruct m; [lia|]. exists HLiteral. split; [apply (find_literal w basic strcons cfg Hstd)|]. cbn [run body literalload]. rewrite Np. apply tx_raise. reflexivity.
  Qed.

  Lemma wrong_RJ x t : wrong_data w basic strcons cfg env x t -> RJ x t.
  Proof using Hstd Hwr Hann.
    intro W. induction W as [d n o args Io|x n kt vt Nm Sk Sv|x c Nm FC|x vals Np|x Nx|x c ms Em Nb Eh No|d c e FC PD Ie Nd|d c k x FC PD FE AS Ik NF
      |d c k tag f vals FC PD AS Mi Ik Ff Fl Np|x n t _ IH|x n t En _ IH].
    - cbn in Io. destruct Io as [<-|[<-|[<-|[<-|[]]]]].
      + eapply RJ_pure; [apply (find_list w basic strcons cfg Hstd)|]. intros call s. eexists. split; reflexivity.
      + eapply RJ_pure; [apply (find_tuple w basic strcons cfg Hstd)|]. intros call s. cbn [body]. unfold tupleload. cbn [ty_args].
        destruct args as [|t1 [|t2 [|t3 ts]]]; try (eexists; split; reflexivity); destruct t2; eexists; split; reflexivity.
      + eapply RJ_pure; [apply (find_set w basic strcons cfg Hstd)|]. intros call s. eexists. split; reflexivity.
      + eapply RJ_pure; [apply (find_frozen w basic strcons cfg Hstd)|]. intros call s. eexists. split; reflexivity.
    - apply supported_find in Sk as [hk Fk]. apply supported_find in Sv as [hv Fv].
      exists 1. intros [|m] L; [lia|]. exists HDict. split; [apply (find_dict w basic strcons cfg Hstd)|]. cbn [run body]. unfold dictload. cbn [ty_args].
      eapply tx_bind; [apply tx_lookup; intros r Q; congruence|]. cbv beta. intros kf0 _.
      eapply tx_bind with (Q1 := fun _ => True).
      + intros s C. destruct (ty_get vt (st_index s)) as [h'|] eqn:Q; [split; [exact I|exact C]|].
        rewrite Fv. split; [exact I|]. apply okst_index; assumption.
      + intros [kf vf] _. destruct x; cbn in Nm; try discriminate; cbn [as_dict]; apply tx_raise; reflexivity.
    - apply RJ_obj; [exact FC|]. intros call s. rewrite mangle_obj_nodata; [eexists; split; reflexivity|apply FC|].
      intros d [->|[_ [_ [a [-> _]]]]]; discriminate.
    - eapply RJ_pure; [apply (find_literal w basic strcons cfg Hstd)|]. intros call s. cbn [body literalload]. rewrite Np. eexists. split; reflexivity.
    - eapply RJ_pure; [apply (find_none w basic strcons cfg Hstd)|]. intros call s. cbn [body]. unfold noneload. destruct x; try (eexists; split; reflexivity). contradiction.
    - eapply RJ_pure; [apply (find_enum_class w basic strcons cfg Hstd c ms Em Nb)|]. intros call s. cbn [body]. unfold enumload.
      rewrite (call_enum w c ms Em). destruct (proj2 (enum_call_none c ms x) No) as [k ->]. rewrite Eh. cbn. eexists. split; reflexivity.
    - eapply RJ_missing; eassumption.
    - eapply RJ_extra; eassumption.
    - eapply RJ_tag; eassumption.
    - apply (RJ_newtype w basic strcons); assumption.
    - apply (RJ_forward w basic strcons) with (t := t); assumption.
  Qed.
  (** ** Unions *)
  Hypothesis Hudc : uniondebugconflict cfg = false.
  Lemma tx_try m v0 t0 a b t v : (forall u, In u a -> u = t \/ fails m v0 u) -> In t a -> gives m v0 t v ->
    forall r exs, tx (try_members cfg (run w cfg m) v0 t0 (a ++ b) 0 r exs) (fun o => fst o = (1, v)) no.
  Proof using Hudc.
    intros H It G. induction a as [|u a IH]; intros r exs; [contradiction|]. cbn [app try_members].
    destruct (ty_eq_dec u t) as [->|N].
    - destruct G as [h [Fh T]]. eapply tx_bind with (Q1 := fun o => match o with inl y => v = y | inr _ => False end).
      + apply tx_attempt with (Q := eq v). eapply tx_bind; [apply tx_lookup; intros k Q; congruence|]. cbv beta. intros h' Fh'.
        assert (h' = h) by congruence. subst h'. exact T.
      + intros [y|e] Ho; [|contradiction]. subst y. rewrite Hudc. apply tx_ret. reflexivity.
    - destruct (H u (or_introl eq_refl)) as [->|[h [Fh T]]]; [contradiction|].
      eapply tx_bind with (Q1 := fun o => match o with inl y => False | inr e => is_tl e = true end).
      + apply tx_attempt with (Q := fun _ => False). eapply tx_bind; [apply tx_lookup; intros k Q; congruence|]. cbv beta. intros h' Fh'.
        assert (h' = h) by congruence. subst h'. exact T.
      + intros [y|[|k]] Ho; [contradiction| |discriminate].
        apply IH; [intros u' I'; apply H; right; exact I'|]. destruct It as [->|It]; [contradiction|exact It].
  Qed.
  Lemma remove_first_app q a b : In q a -> remove_first q (a ++ b) = remove_first q a ++ b.
  Proof using.
    induction a as [|x a IH]; intro I; [contradiction|]. cbn [app remove_first]. destruct (ty_eqb q x) eqn:Q; [reflexivity|].
    destruct I as [->|I]; [rewrite ty_eqb_refl in Q; discriminate|]. rewrite IH by exact I. reflexivity.
  Qed.
  Lemma own_basic_dec args x : ~ own_basic basic args x -> basicb cfg (TClass (type_of x)) && mem_ty (TClass (type_of x)) args = false.
  Proof using Hstd.
    intro N. destruct (_ && _) eqn:Q; [|reflexivity]. exfalso. apply N. apply andb_prop in Q as [Q1 Q2]. rewrite (basicb_std w basic strcons cfg Hstd) in Q1.
    split; [apply mem_cid_In; exact Q1|apply mem_ty_In; exact Q2].
  Qed.
  Lemma LT_union n args t x v : In t args -> in_classes basic t = false -> LT x t v ->
    ~ own_basic basic args x -> tags_hashable w args x ->
    (forall u, In u args -> u = t \/ in_classes basic u = true \/ RJ x u) -> LT x (TGen n OUnion (Some args)) v.
  Proof using Hstd Hann Hudc.
    intros It Nb [N1 G] NO Th O.
    destruct (list_bound (fun u m => u = t \/ in_classes basic u = true \/ fails m x u) args) as [N2 F].
    { intros u Iu. destruct (O u Iu) as [E|[E|[N E]]]; [exists 0; auto|exists 0; auto|exists N; auto]. }
    exists (S (Nat.max N1 N2)). intros [|m] L; [lia|]. specialize (G m ltac:(lia)). specialize (F m ltac:(lia)).
    exists HUnion. split; [apply (find_union w basic strcons cfg Hstd)|]. cbn [run body]. unfold unionload. cbn [ty_args].
    rewrite (own_basic_dec args x NO).
    set (A := filter (fun y => negb (basicb cfg y)) args). set (B := filter (basicb cfg) args).
    assert (HA : forall u, In u args -> in_classes basic u = false -> In u A).
    { intros u Iu Bu. apply filter_In. rewrite (basicb_std w basic strcons cfg Hstd), Bu. auto. }
    assert (HA' : forall u, In u A -> In u args /\ in_classes basic u = false).
    { intros u Iu. apply filter_In in Iu as [Iu Bu]. rewrite (basicb_std w basic strcons cfg Hstd) in Bu. apply negb_true_iff in Bu. auto. }
    eapply tx_bind with (Q1 := fun l => exists a b, l = a ++ b /\ In t a /\ forall u, In u a -> In u args /\ in_classes basic u = false).
    - assert (P : tx (prefer w x (TGen n OUnion (Some args)) args (A ++ B)) (fun l => l = A ++ B \/ exists q key, literal_field w args key /\ In q args /\ l = q :: remove_first q (A ++ B)) no).
      { destruct x; try (apply tx_ret; left; reflexivity). apply tx_prefer; [reflexivity|exact Th]. }
      eapply tx_weak; [exact P| |intros e []]. intros l [-> |[q [key [LF [Iq ->]]]]]; [exists A, B; auto|].
      pose proof (literal_nonbasic args key q LF Iq) as Nq. exists (q :: remove_first q A), B.
      pose proof (HA q Iq Nq) as Ia. split; [cbn [app]; rewrite remove_first_app by exact Ia; reflexivity|].
      split; [eapply Permutation_in; [apply Permutation_sym; apply (remove_first_perm q A Ia)|auto]|].
      intros u Iu. apply HA'. eapply Permutation_in; [apply (remove_first_perm q A Ia)|exact Iu].
    - intros l [a [b [-> [Ita Ha]]]]. eapply tx_bind with (Q1 := fun o => fst o = (1, v)).
      + apply tx_try with (t := t); [|exact Ita|exact G]. intros u Iu. destruct (Ha u Iu) as [Iu' Bu].
        destruct (F u Iu') as [E|[E|E]]; [auto|congruence|auto].
      + intros [[k r] exs] E. cbn in E. injection E as -> ->. apply tx_ret. reflexivity.
  Qed.
  Lemma LT_union_basic n args v : In (type_of v) basic -> In (TClass (type_of v)) args -> LT v (TGen n OUnion (Some args)) v.
  Proof using Hstd.
    intros B Ia. eapply LT_pure; [apply (find_union w basic strcons cfg Hstd)|]. intros call s. cbn [body]. unfold unionload. cbn [ty_args].
    rewrite (basicb_std w basic strcons cfg Hstd). cbn [in_classes]. apply mem_cid_In in B. rewrite B. apply mem_ty_In in Ia. rewrite Ia. reflexivity.
  Qed.

  (** ** Discriminated unions *)
  Lemma plain_refl x : plain_literal x -> py_eqb x x = true.
  Proof using.
    destruct x; cbn [plain_literal]; try contradiction; intros _; cbn.
    - reflexivity.
    - destruct b; reflexivity.
    - apply Order.float_eqb_refl0.
    - apply String.eqb_refl.
    - apply String.eqb_refl.
    - rewrite cid_eqb_refl, String.eqb_refl. reflexivity.
  Qed.
  Section Disc.
    Variable tags : list (cid * list value).
    Variable k : string.
    Hypothesis D : discriminated w basic strcons cfg k tags.
    Notation args := (map (fun cl => TClass (fst cl)) tags).
    Lemma lits_get s c vals : In (c, vals) tags -> str_get k (discriminatorliterals w s (TClass c)) = Some vals.
    Proof using D.
      intro I. destruct D as [_ [_ Fl]]. specialize (Fl c vals I). cbn [discriminatorliterals]. unfold annotations.
      assert (G : forall l, filter (fun kt : string * ty => String.eqb (fst kt) k) l = [(k, TLiteral vals)] ->
        str_get k (flat_map (fun kt => match snd kt with TLiteral vals => [(fst kt, vals)] | _ => [] end) l) = Some vals).
      { induction l as [|[k0 t0] l IH]; cbn [filter fst]; [discriminate|]. destruct (String.eqb_spec k0 k) as [->|N].
        - intros [= -> _]. cbn. rewrite String.eqb_refl. reflexivity.
        - intro E. specialize (IH E). cbn [flat_map fst snd]. destruct t0; try exact IH. cbn [app str_get].
          destruct (String.eqb_spec k k0) as [->|_]; [contradiction|exact IH]. }
      destruct (mem_cid c (st_stripped s)); [|apply G; exact Fl]. apply G. revert Fl.
      generalize (ci_ann (class_of w c)) as l. induction l as [|[k0 t0] l IH]; cbn [filter map fst snd]; [discriminate|].
      destruct (String.eqb_spec k0 k) as [->|N]; [|exact IH]. intros [= -> El]. cbn [strip_notrequired]. f_equal.
      clear - El. induction l as [|[k1 t1] l IH]; [reflexivity|]. cbn [filter map fst snd] in *. destruct (String.eqb k1 k); [discriminate|auto].
    Qed.
    Definition owned (acc : list (value * ty)) : Prop :=
      forall l t, In (l, t) acc -> exists c vals, In (c, vals) tags /\ t = TClass c /\ In l vals.
    Lemma owned_set acc l c vals : owned acc -> In (c, vals) tags -> In l vals -> owned (disc_set l (TClass c) acc).
    Proof using D.
      intros O I Il. induction acc as [|[l' t'] acc IH]; cbn [disc_set].
      - intros l0 t0 [[= <- <-]|[]]. eauto.
      - destruct (py_eqb l l') eqn:Q.
        + intros l0 t0 [[= <- <-]|I0]; [|apply O; right; exact I0].
          destruct (O l' t' (or_introl eq_refl)) as [c' [vals' [I' [-> Il']]]].
          destruct (cid_eq_dec c c') as [<-|N]; [exists c, vals'; auto|].
          rewrite (tg_distinct _ _ _ _ _ _ (proj1 D) c vals c' vals' l l' I I' N Il Il') in Q. discriminate.
        + intros l0 t0 [[= <- <-]|I0]; [apply O; left; reflexivity|].
          apply IH; [intros l1 t1 I1; apply O; right; exact I1|exact I0].
    Qed.
    Lemma keys_set acc l t l' : In l' (map fst acc) -> In l' (map fst (disc_set l t acc)).
    Proof using. induction acc as [|[l0 t0] acc IH]; cbn; [auto|]. destruct (py_eqb l l0); cbn; (intros [I|I]; [left|right]); auto. Qed.
    Lemma keys_new acc l t : plain_literal l -> exists l', In l' (map fst (disc_set l t acc)) /\ py_eqb l l' = true.
    Proof using.
      intro P. induction acc as [|[l0 t0] acc [l' [I E]]]; cbn; [exists l; split; [auto|apply plain_refl; exact P]|].
      destruct (py_eqb l l0) eqn:Q; [exists l0; cbn; auto|exists l'; cbn; auto].
    Qed.
    Lemma owned_fold acc vals c all : (forall l, In l vals -> In l all) -> In (c, all) tags -> owned acc ->
      owned (fold_left (fun acc l => disc_set l (TClass c) acc) vals acc).
    Proof using D.
      revert acc. induction vals as [|l vals IH]; intros acc Sub I O; [exact O|]. cbn [fold_left]. apply IH; [intros; apply Sub; right; assumption|exact I|].
      apply owned_set with (vals := all); [exact O|exact I|apply Sub; left; reflexivity].
    Qed.
    Lemma keys_fold acc vals t l' : In l' (map fst acc) -> In l' (map fst (fold_left (fun acc l => disc_set l t acc) vals acc)).
    Proof using. revert acc. induction vals as [|l vals IH]; intros acc I; [exact I|]. cbn [fold_left]. apply IH, keys_set, I. Qed.
    Lemma keys_fold_new acc vals t l : In l vals -> plain_literal l ->
      exists l', In l' (map fst (fold_left (fun acc l => disc_set l t acc) vals acc)) /\ py_eqb l l' = true.
    Proof using.
      revert acc. induction vals as [|l0 vals IH]; intros acc I P; [contradiction|]. cbn [fold_left]. destruct I as [->|I]; [|apply IH; assumption].
      destruct (keys_new acc l t P) as [l' [I' E]]. exists l'. split; [apply keys_fold; exact I'|exact E].
    Qed.
    Notation step := (fun acc (td : ty * list (string * list value)) =>
      match str_get k (snd td) with Some vals => fold_left (fun acc l => disc_set l (fst td) acc) vals acc | None => acc end).
    Lemma table s tags' : (forall cl, In cl tags' -> In cl tags) -> (forall cl, In cl tags -> In cl tags') ->
      let cd := fold_left step (map (fun t => (t, discriminatorliterals w s t)) (map (fun cl => TClass (fst cl)) tags')) [] in
      owned cd /\ forall c vals l, In (c, vals) tags -> In l vals -> plain_literal l -> exists l', In l' (map fst cd) /\ py_eqb l l' = true.
    Proof using D.
      intros Sb Sp.
      assert (G : forall l acc, (forall cl, In cl l -> In cl tags) -> owned acc ->
        let cd := fold_left step (map (fun t => (t, discriminatorliterals w s t)) (map (fun cl => TClass (fst cl)) l)) acc in
        owned cd /\ (forall y, In y (map fst acc) -> In y (map fst cd)) /\
        forall c vals l0, In (c, vals) l -> In l0 vals -> plain_literal l0 -> exists l', In l' (map fst cd) /\ py_eqb l0 l' = true).
      { induction l as [|[c vals] l IH]; intros acc Sub O; [split; [exact O|split; [auto|intros c vals l0 []]]|].
        cbn [map fold_left fst snd]. rewrite (lits_get s c vals (Sub _ (or_introl eq_refl))).
        destruct (IH (fold_left (fun acc l => disc_set l (TClass c) acc) vals acc)) as [O' [Mo Co]].
        - intros cl I. apply Sub. right. exact I.
        - apply owned_fold with (all := vals); [auto|apply Sub; left; reflexivity|exact O].
        - split; [exact O'|]. split; [intros y I; apply Mo, keys_fold, I|].
          intros c0 vals0 l0 [[= <- <-]|I] Il P; [|eapply Co; eassumption].
          destruct (keys_fold_new acc vals (TClass c) l0 Il P) as [l' [I' E]]. exists l'. split; [apply Mo; exact I'|exact E]. }
      destruct (G tags' [] Sb (fun l t (F : In (l, t) []) => match F with end)) as [O [_ Co]]. split; [exact O|].
      intros c vals l I. apply (Co c vals l). apply Sp. exact I.
    Qed.
    Lemma tags_of args' : (forall x, In x args <-> In x args') ->
      exists tags', args' = map (fun cl => TClass (fst cl)) tags' /\ (forall cl, In cl tags' -> In cl tags) /\ (forall cl, In cl tags -> In cl tags').
    Proof using D.
      intro Sm. pose proof (tg_classes _ _ _ _ _ _ (proj1 D)) as ND.
      assert (X : exists tags', args' = map (fun cl => TClass (fst cl)) tags' /\ forall cl, In cl tags' -> In cl tags).
      { assert (Sub : forall x, In x args' -> In x args) by (intros x I; apply Sm; exact I). clear Sm.
        induction args' as [|x l IH]; [exists []; split; [reflexivity|intros cl []]|].
        destruct IH as [tags' [E Sb]]; [intros y I; apply Sub; right; exact I|].
        pose proof (Sub x (or_introl eq_refl)) as I. apply in_map_iff in I as [cl [Ex I]].
        exists (cl :: tags'). split; [cbn [map]; rewrite Ex, E; reflexivity|]. intros y [<-|J]; [exact I|apply Sb; exact J]. }
      destruct X as [tags' [E Sb]]. exists tags'. split; [exact E|]. split; [exact Sb|]. intros [c vals] I.
      assert (I' : In (TClass c) args') by (apply Sm; apply in_map_iff; exists (c, vals); auto).
      rewrite E in I'. apply in_map_iff in I' as [[c' vals'] [Q I']]. cbn [fst] in Q. injection Q as ->.
      assert (vals' = vals); [|congruence]. pose proof (Sb _ I') as I2. clear -ND I I2.
      induction tags as [|[c0 v0] l IH]; [destruct I|]. cbn [map fst] in ND. apply NoDup_cons_iff in ND as [N ND].
      destruct I as [[= -> ->]|I], I2 as [Q|I2].
      - congruence.
      - destruct N. apply in_map_iff. exists (c, vals'). auto.
      - injection Q as -> ->. destruct N. apply in_map_iff. exists (c, vals). auto.
      - exact (IH ND I I2).
    Qed.
    Lemma disc_finds s args' c vals tag : (forall x, In x args <-> In x args') -> In (c, vals) tags -> In tag vals ->
      exists cd, build_disc w s args' = Some (k, cd) /\ disc_get tag cd = Some (TClass c).
    Proof using D.
      intros Sm I It. destruct (tags_of args' Sm) as [tags' [Et [Sb Sp]]]. pose proof D as [TG [Uk _]]. destruct (tg_field _ _ _ _ _ _ TG c vals I) as [_ [_ P]]. rewrite Forall_forall in P. specialize (P tag It).
      destruct (table s tags' Sb Sp) as [O Co]. rewrite <- Et in O, Co.
      assert (B : exists cd, build_disc w s args' = Some (k, cd) /\
        cd = fold_left step (map (fun t => (t, discriminatorliterals w s t)) args') []).
      { destruct (build_disc w s args') as [[key cd]|] eqn:E.
        - assert (key = k) by (apply Uk; intros x Ix; apply (build_disc_literal w s args' key cd E); apply Sm; exact Ix). subst key. exists cd. split; [reflexivity|].
          unfold build_disc in E. destruct (nth_error _ _); [|discriminate]. injection E as -> <-. reflexivity.
        - exfalso. unfold build_disc in E. destruct (nth_error _ _) eqn:N; [discriminate|]. clear E. apply nth_error_None in N.
          set (ks := map (fun td => map fst (snd td)) (map (fun t => (t, discriminatorliterals w s t)) args')) in *.
          assert (Ik : In k (match ks with [] => [] | ks :: rest => filter (fun k => forallb (mem_str k) rest) ks end)).
          { assert (Al : forall l, In l ks -> In k l).
            { intros l Il. unfold ks in Il. rewrite Et, map_map, map_map in Il. apply in_map_iff in Il as [[c0 v0] [<- I0]]. apply Sb in I0. cbn [fst snd].
              pose proof (lits_get s c0 v0 I0) as G. apply str_get_In in G. apply (in_map fst) in G. exact G. }
            destruct ks as [|l rest] eqn:Ek; [exfalso; unfold ks in Ek; rewrite Et in Ek; apply Sp in I; destruct tags'; [contradiction|discriminate Ek]|].
            apply filter_In. split; [apply Al; left; reflexivity|]. apply forallb_forall. intros l' I'. apply mem_str_In. apply Al. right. exact I'. }
          destruct (match ks with [] => [] | ks :: rest => filter (fun k => forallb (mem_str k) rest) ks end) as [|k0 kl]; [contradiction|].
          pose proof (Nat.mod_upper_bound (w_pick w (k0 :: kl)) (List.length (k0 :: kl)) ltac:(discriminate)). lia. }
      destruct B as [cd [E Ecd]]. exists cd. split; [exact E|]. rewrite <- Ecd in O, Co.
      destruct (Co c vals tag I It P) as [l' [I' Q]]. clear Ecd E Co. induction cd as [|[l0 t0] cd IH]; [contradiction|]. cbn [disc_get].
      destruct (py_eqb tag l0) eqn:Q0.
      - destruct (O l0 t0 (or_introl eq_refl)) as [c' [vals' [I0 [-> Il]]]]. destruct (cid_eq_dec c c') as [<-|Nc]; [reflexivity|].
        rewrite (tg_distinct _ _ _ _ _ _ TG c vals c' vals' tag l0 I I0 Nc It Il) in Q0. discriminate.
      - apply IH; [intros l t J; apply O; right; exact J|]. destruct I' as [<-|I']; [cbn in Q; congruence|exact I'].
    Qed.
    Lemma plain_hash x : plain_literal x -> hashable w x = true.
    Proof using. destruct x; cbn; try contradiction; reflexivity. Qed.
    Hypothesis Hd : ~ In CDict basic.
    Lemma LT_tagged n c vals d tag v : In (c, vals) tags -> LT (VDict d) (TClass c) v -> dict_get (VStr k) d = Some tag -> In tag vals ->
      LT (VDict d) (TGen n OUnion (Some args)) v.
    Proof using D Hstd Hudc Hd.
      intros I [N G] Dg It. exists (S N). intros [|m] L; [lia|]. specialize (G m ltac:(lia)).
      exists HUnion. split; [apply (find_union w basic strcons cfg Hstd)|]. cbn [run body]. unfold unionload. cbn [ty_args].
      rewrite (own_basic_dec args (VDict d)) by (intros [B _]; exact (Hd B)).
      set (l0 := filter _ args ++ filter _ args).
      eapply tx_bind with (Q1 := fun l => exists b, l = TClass c :: b).
      - unfold prefer. eapply tx_bind with (Q1 := fun dc => exists s' args', (forall x, In x args <-> In x args') /\ dc = build_disc w s' args').
        + intros s C. destruct (same_get (TGen n OUnion (Some args)) (st_disc s)) as [dc|] eqn:Q.
          * destruct (coh_disc _ _ _ (ok_coh _ _ _ _ _ C) _ _ Q) as [a' [args' [s' [E [Sm ->]]]]]. injection E as <-. split; [eauto|exact C].
          * split; [exists s, args; split; [reflexivity|reflexivity]|]. destruct C as [C1 C2 C3]. split; [apply coh_set_disc; [reflexivity|assumption]|exact C2|exact C3].
        + intros dc [s' [args' [Sm ->]]]. destruct (disc_finds s' args' c vals tag Sm I It) as [cd [E Q]]. rewrite E. destruct cd as [|lt cd]; [discriminate Q|].
          rewrite Dg. rewrite plain_hash.
          * rewrite Q. apply tx_ret. eauto.
          * destruct (tg_field _ _ _ _ _ _ (proj1 D) c vals I) as [_ [_ P]]. rewrite Forall_forall in P. exact (P tag It).
      - intros l [b ->]. eapply tx_bind with (Q1 := fun o => fst o = (1, v)).
        + apply (tx_try m _ _ [TClass c] b (TClass c)); [intros u [<-|[]]; auto|left; reflexivity|exact G].
        + intros [[j r] exs] E. cbn in E. injection E as -> ->. apply tx_ret. reflexivity.
    Qed.
  End Disc.
End PL2.
