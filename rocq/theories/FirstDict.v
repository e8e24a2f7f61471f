(** * FirstDict: the failure of a dictionary is the failure of its first bad key or value (C75) *)

From Verif Require Import Loader Spec Vocab Inv Std Sound Fuel Obs Scalars Simple Transparent Hist Eval Items Tuples Dicts Objects First.

(** what load(V, T) raises, for a dictionary: [e1] is what loading the pair
    raised, with the key or the value in its trace *)
Definition raised_by_dict (V v' : value) (T : ty) (e1 : exn) : exn :=
  match e1 with
  | XTL KAttr m _ _ _ _ => XTL KAttr (MNested m) [(V, T, None)] (Some v') (Some T) []
  | XTL k m tr ve te subs => XTL k m ((V, T, None) :: tr) ve te subs
  | XRaw _ => XRaw RAssert
  end.
(** [e0] is what load(x, t) raises, [e1] is the same with [a] at its place in the trace *)
Definition annotated (x : value) (t : ty) (a : ann) (e0 e1 : exn) : Prop :=
  exists k m tr ve te subs,
    e0 = XTL k m ((x, t, None) :: tr) ve te subs /\ e1 = XTL k m ((x, t, Some a) :: tr) ve te subs.

Section FirstDict.
  Variable w : world.
  Variables basic strcons : list cid.
  Variable cfg : config.
  Hypothesis Hstd : is_std w basic strcons cfg.
  Hypothesis Hwr : wf_reflect w.
  Variable env : string -> option ty.
  Notation p := (pep563 cfg).
  Variable s : lstate.
  Variable V : value.
  Variable T : ty.
  Hypothesis Us : used w cfg s.
  Hypothesis St : steady w basic cfg env s V T.
  Notation G := (reach w p env T).
  Notation Vok := (inside V).
  Notation conv := (conv w cfg env s T).
  Notation regular := (regular w cfg env s T).
  Notation calls := (calls w cfg env s T).
  Notation loads := (loads w cfg s).
  Notation run n := (Loader.run w cfg n).

  Definition kv_bad (fk fv : nat -> value -> M value) (d : list (value * value)) (e : exn) : Prop :=
    exists d1 k x d2 kvs, d = d1 ++ (k, x) :: d2 /\
      items_rel (fun k y => conv (fun m => fk m k) (Ok y)) (fun x y => conv (fun m => fv m x) (Ok y)) d1 kvs /\
      forallb (fun kv => hashable w (fst kv)) kvs = true /\
      (conv (fun m => fk m k) (Exc e) \/
       exists k', conv (fun m => fk m k) (Ok k') /\
         (conv (fun m => fv m x) (Exc e) \/ exists x', conv (fun m => fv m x) (Ok x') /\ hashable w k' = false /\ e = XRaw RType)).

  Section Loop.
    Variables fk fv : nat -> value -> M value.
    (** one round *)
    Lemma kv_round k x d acc r :
      (forall k0 x0, In (k0, x0) ((k, x) :: d) -> regular (fun m => fk m k0)) ->
      (forall k0 x0, In (k0, x0) ((k, x) :: d) -> regular (fun m => fv m x0)) ->
      (conv (fun m => kv_loop w (fk m) (fv m) ((k, x) :: d) acc) r <->
       (exists e, conv (fun m => fk m k) (Exc e) /\ r = Exc e) \/
       exists k', conv (fun m => fk m k) (Ok k') /\
         ((exists e, conv (fun m => fv m x) (Exc e) /\ r = Exc e) \/
          exists x', conv (fun m => fv m x) (Ok x') /\
            (if hashable w k' then conv (fun m => kv_loop w (fk m) (fv m) d (dict_set k' x' acc)) r else r = Exc (XRaw RType)))).
    Proof using Us St.
      intros Rk Rv. cbn [kv_loop].
      assert (Rk1 : regular (fun m => fk m k)) by (eapply Rk; left; reflexivity).
      assert (Rv1 : regular (fun m => fv m x)) by (eapply Rv; left; reflexivity).
      assert (R2 : forall k' x', regular (fun m => if hashable w k' then kv_loop w (fk m) (fv m) d (dict_set k' x' acc) else raise (XRaw RType))).
      { intros k' x'. destruct (hashable w k'); [|apply regular_raise].
        apply (regular_kv w basic cfg env s V T Us St); intros k0 x0 H; [eapply Rk|eapply Rv]; right; exact H. }
      rewrite (conv_bind w basic cfg env s V T Us St (fun m => fk m k) (fun k' m => bind (fv m x) (fun x' =>
        if hashable w k' then kv_loop w (fk m) (fv m) d (dict_set k' x' acc) else raise (XRaw RType))) _ Rk1).
      2: { intros k' _. apply (regular_bind w basic cfg env s V T Us St (fun m => fv m x) (fun x' m =>
        if hashable w k' then kv_loop w (fk m) (fv m) d (dict_set k' x' acc) else raise (XRaw RType))); auto. }
      assert (Q : forall k', conv (fun m => bind (fv m x) (fun x' => if hashable w k' then kv_loop w (fk m) (fv m) d (dict_set k' x' acc) else raise (XRaw RType))) r <->
         (exists e, conv (fun m => fv m x) (Exc e) /\ r = Exc e) \/
          exists x', conv (fun m => fv m x) (Ok x') /\
            (if hashable w k' then conv (fun m => kv_loop w (fk m) (fv m) d (dict_set k' x' acc)) r else r = Exc (XRaw RType))).
      { intro k'.
        rewrite (conv_bind w basic cfg env s V T Us St (fun m => fv m x) (fun x' m =>
         if hashable w k' then kv_loop w (fk m) (fv m) d (dict_set k' x' acc) else raise (XRaw RType)) _ Rv1 (fun x' _ => R2 k' x')).
        assert (I : forall x', conv (fun m => if hashable w k' then kv_loop w (fk m) (fv m) d (dict_set k' x' acc) else raise (XRaw RType)) r <->
          (if hashable w k' then conv (fun m => kv_loop w (fk m) (fv m) d (dict_set k' x' acc)) r else r = Exc (XRaw RType))).
        { intro x'. destruct (hashable w k'); [reflexivity|apply (conv_raise w basic cfg env s V T Us St)]. }
        split.
        - intros [[x' [C1 C2]]|H]; [right; exists x'; split; [exact C1|apply I; exact C2]|left; exact H].
        - intros [H|[x' [C1 C2]]]; [right; exact H|left; exists x'; split; [exact C1|apply I; exact C2]]. }
      split.
      - intros [[k' [C1 C2]]|H]; [right; exists k'; split; [exact C1|apply Q; exact C2]|left; exact H].
      - intros [H|[k' [C1 C2]]]; [right; exact H|left; exists k'; split; [exact C1|apply Q; exact C2]].
    Qed.

    Lemma conv_kv_exc d :
      (forall k x, In (k, x) d -> regular (fun m => fk m k)) ->
      (forall k x, In (k, x) d -> regular (fun m => fv m x)) ->
      forall acc e, conv (fun m => kv_loop w (fk m) (fv m) d acc) (Exc e) <-> kv_bad fk fv d e.
    Proof using Us St.
      induction d as [|[k x] d IH]; intros Rk Rv acc e.
      { cbn [kv_loop]. rewrite (conv_ret w basic cfg env s V T Us St). split; [discriminate|].
        intros [d1 [k [x [d2 [kvs [Q _]]]]]]. destruct d1; discriminate. }
      rewrite (kv_round k x d acc (Exc e) Rk Rv).
      specialize (IH (fun k0 x0 H => Rk k0 x0 (or_intror H)) (fun k0 x0 H => Rv k0 x0 (or_intror H))).
      split.
      - intros [[e' [C [= <-]]]|[k' [Ck [[e' [C [= <-]]]|[x' [Cx H]]]]]].
        + exists [], k, x, d, []. split; [reflexivity|]. split; [constructor|]. split; [reflexivity|]. left. exact C.
        + exists [], k, x, d, []. split; [reflexivity|]. split; [constructor|]. split; [reflexivity|]. right. exists k'. auto.
        + destruct (hashable w k') eqn:Hh.
          * apply IH in H as [d1 [k0 [x0 [d2 [kvs [-> [F [Hf B]]]]]]]]. exists ((k, x) :: d1), k0, x0, d2, ((k', x') :: kvs).
            split; [reflexivity|]. split; [constructor; [split; assumption|exact F]|]. split; [cbn [forallb fst]; rewrite Hh; exact Hf|exact B].
          * injection H as ->. exists [], k, x, d, []. split; [reflexivity|]. split; [constructor|]. split; [reflexivity|].
            right. exists k'. split; [exact Ck|]. right. exists x'. auto.
      - intros [d1 [k0 [x0 [d2 [kvs [E [F [Hf B]]]]]]]]. destruct d1 as [|q d1]; cbn [app] in E.
        + injection E as <- <- <-. destruct B as [C|[k' [Ck [C|[x' [Cx [Hh ->]]]]]]].
          * left. eauto.
          * right. exists k'. split; [exact Ck|]. left. eauto.
          * right. exists k'. split; [exact Ck|]. right. exists x'. split; [exact Cx|]. rewrite Hh. reflexivity.
        + injection E as <- ->. inversion F as [|kx [k' x'] l1 kvs' [Hk Hx] F' E3 E4]. subst. cbn [fst snd] in *. cbn [forallb fst] in Hf.
          apply andb_true_iff in Hf. destruct Hf as [Hh Hf]. right. exists k'. split; [exact Hk|]. right. exists x'. split; [exact Hx|].
          rewrite Hh. apply IH. exists d1, k0, x0, d2, kvs'. auto.
    Qed.

    Lemma kv_ends d :
      (forall k x, In (k, x) d -> regular (fun m => fk m k)) ->
      (forall k x, In (k, x) d -> regular (fun m => fv m x)) ->
      (forall k x, In (k, x) d -> (exists r, conv (fun m => fk m k) r) /\ (exists r, conv (fun m => fv m x) r)) ->
      forall acc, exists r, conv (fun m => kv_loop w (fk m) (fv m) d acc) r.
    Proof using Us St.
      induction d as [|[k x] d IH]; intros Rk Rv HS acc.
      { exists (Ok (VDict acc)). cbn [kv_loop]. apply (conv_ret w basic cfg env s V T Us St). reflexivity. }
      specialize (IH (fun k0 x0 H => Rk k0 x0 (or_intror H)) (fun k0 x0 H => Rv k0 x0 (or_intror H)) (fun k0 x0 H => HS k0 x0 (or_intror H))).
      destruct (HS k x (or_introl eq_refl)) as [[rk Ck] [rv Cv]].
      destruct rk as [k'|e|]; [|exists (Exc e); apply (kv_round k x d acc _ Rk Rv); left; eauto|destruct Ck as [NO _]; contradiction].
      destruct rv as [x'|e|]; [|exists (Exc e); apply (kv_round k x d acc _ Rk Rv); right; exists k'; eauto|destruct Cv as [NO _]; contradiction].
      destruct (hashable w k') eqn:Hh.
      - destruct (IH (dict_set k' x' acc)) as [r C]. exists r. apply (kv_round k x d acc _ Rk Rv). right. exists k'. split; [exact Ck|].
        right. exists x'. split; [exact Cv|]. rewrite Hh. exact C.
      - exists (Exc (XRaw RType)). apply (kv_round k x d acc _ Rk Rv). right. exists k'. split; [exact Ck|].
        right. exists x'. split; [exact Cv|]. rewrite Hh. reflexivity.
    Qed.
  End Loop.

  (** a key or a value with its annotation *)
  Lemma conv_ann_ok x t h a y : G t -> Vok x -> find_handler cfg t = POk h ->
    (conv (fun m => load_ann w cfg m x t (Some a)) (Ok y) <-> loads x t (Ok y)).
  Proof using Hstd Hwr Us St.
    intros Gt Vx F. rewrite (conv_load w basic strcons cfg Hstd Hwr env s V T Us St x t (Some a) h _ Gt Vx F).
    rewrite (loads_ok_calls w basic strcons cfg Hstd Hwr env s V T Us St x t h y Gt Vx F). split.
    - intros [[z|e|] [C E]]; cbn in E; [congruence|destruct (is_tl e); discriminate|discriminate].
    - intro C. exists (Ok y). auto.
  Qed.
  Lemma conv_ann_exc x t h a e : G t -> Vok x -> find_handler cfg t = POk h -> settles w cfg s x t ->
    (conv (fun m => load_ann w cfg m x t (Some a)) (Exc e) <-> exists e0, loads x t (Exc e0) /\ annotated x t a e0 e).
  Proof using Hstd Hwr Us St.
    intros Gt Vx F Se. rewrite (conv_load w basic strcons cfg Hstd Hwr env s V T Us St x t (Some a) h _ Gt Vx F). split.
    - intros [r0 [C E]].
      assert (L : loads x t (wrap x t None r0)) by (apply (loads_calls w basic strcons cfg Hstd Hwr env s V T Us St x t h _ Gt Vx F); eauto).
      destruct r0 as [z|e0|]; cbn in E, L; try discriminate.
      assert (TL : is_tl e0 = true).
      { destruct (is_tl e0) eqn:TL; [reflexivity|]. exfalso.
        destruct Se as [r [L' Q]]. pose proof L as L2. apply (loads_conv w basic strcons cfg Hstd Hwr env s V T Us St x t) in L, L'; auto.
        pose proof (conv_det w basic cfg env s V T Us St _ _ _ L L') as <-.
        destruct Q as [[y Q]|[k [m [tr [ve [te [subs Q]]]]]]]; destruct (is_tl e0); discriminate. }
      destruct e0 as [k m tr ve te subs|]; [|discriminate]. cbn in E, L. injection E as ->. eexists. split; [exact L|].
      exists k, m, tr, ve, te, subs. auto.
    - intros [e0 [L [k [m [tr [ve [te [subs [-> ->]]]]]]]]].
      apply (loads_exc_calls w basic strcons cfg Hstd Hwr env s V T Us St x t h _ _ _ _ _ _ Gt Vx F) in L as [tr' [Q C]].
      injection Q as <-. eexists. split; [exact C|]. reflexivity.
  Qed.
  Lemma ends_of_settles x t h : G t -> Vok x -> find_handler cfg t = POk h -> settles w cfg s x t ->
    exists r, conv (fun m => fastkv w cfg (run m) h t x) r.
  Proof using Hstd Hwr Us St.
    intros Gt Vx F [r [L _]]. unfold fastkv. destruct (basicb cfg t && isinst w x t).
    - exists (Ok x). apply (conv_ret w basic cfg env s V T Us St). reflexivity.
    - apply (loads_calls w basic strcons cfg Hstd Hwr env s V T Us St x t h _ Gt Vx F) in L as [r0 [C _]]. exists r0. exact C.
  Qed.

  Definition first_bad_pair (kt vt : ty) (d : list (value * value)) (e : exn) : Prop :=
    exists d1 k x d2 kvs, d = d1 ++ (k, x) :: d2 /\
      items_rel (fun k y => loads k kt (Ok y)) (fun x y => loads x vt (Ok y)) d1 kvs /\
      (forall ky, In ky kvs -> hashable w (fst ky) = true) /\
      ((exists e0, loads k kt (Exc e0) /\ annotated k kt (AnKey k) e0 e) \/
       exists k', loads k kt (Ok k') /\
         ((exists e0, loads x vt (Exc e0) /\ annotated x vt (AnValue x) e0 e) \/
          (exists x', loads x vt (Ok x') /\ hashable w k' = false /\ e = XRaw RType))).

  Lemma dict_first nt kt vt d e :
    T = TGen nt ODict (Some [kt; vt]) -> supported cfg kt -> supported cfg vt -> dict_items cfg V d ->
    (forall k x, In (k, x) d -> settles w cfg s k kt /\ settles w cfg s x vt) ->
    (loads V T (Exc e) <-> (forall y, ~ loads V T (Ok y)) /\
       exists e1, first_bad_pair kt vt d e1 /\ e = raised_by_dict V (as_dict cfg V) T e1).
  Proof using Hstd Hwr Us St.
    intros ET Sk Sv Dd HS. apply supported_find in Sk as [kh Fk]. apply supported_find in Sv as [vh Fv].
    apply dict_items_as in Dd. rename Dd into E.
    pose proof (find_dict w basic strcons cfg Hstd nt (Some [kt; vt])) as F. rewrite <- ET in F.
    destruct (Gkv w cfg env T nt kt vt ET) as [Gk Gv].
    assert (HV : forall k x, In (k, x) d -> Vok k /\ Vok x) by (intros k x H; eapply Vkv; eassumption).
    set (fast := fun m => kv_loop w (fastkv w cfg (run m) kh kt) (fastkv w cfg (run m) vh vt) d []).
    set (slow := fun m => kv_loop w (fun k => load_ann w cfg m k kt (Some (AnKey k)))
                                    (fun x => load_ann w cfg m x vt (Some (AnValue x))) d []).
    assert (RF1 : forall k x, In (k, x) d -> regular (fun m => fastkv w cfg (run m) kh kt k)).
    { intros k x H. destruct (HV k x H). apply (regular_fastkv w basic strcons cfg Hstd Hwr env s V T Us St); assumption. }
    assert (RF2 : forall k x, In (k, x) d -> regular (fun m => fastkv w cfg (run m) vh vt x)).
    { intros k x H. destruct (HV k x H). apply (regular_fastkv w basic strcons cfg Hstd Hwr env s V T Us St); assumption. }
    assert (RS1 : forall k x, In (k, x) d -> regular (fun m => load_ann w cfg m k kt (Some (AnKey k)))).
    { intros k x H. destruct (HV k x H). apply (regular_load w basic strcons cfg Hstd Hwr env s V T Us St); assumption. }
    assert (RS2 : forall k x, In (k, x) d -> regular (fun m => load_ann w cfg m x vt (Some (AnValue x)))).
    { intros k x H. destruct (HV k x H). apply (regular_load w basic strcons cfg Hstd Hwr env s V T Us St); assumption. }
    assert (RF : regular fast) by (apply (regular_kv w basic cfg env s V T Us St (fun m => fastkv w cfg (run m) kh kt) (fun m => fastkv w cfg (run m) vh vt)); assumption).
    assert (RS : regular slow).
    { apply (regular_kv w basic cfg env s V T Us St (fun m k => load_ann w cfg m k kt (Some (AnKey k))) (fun m x => load_ann w cfg m x vt (Some (AnValue x)))); assumption. }
    assert (SB : forall e1, conv slow (Exc e1) <-> first_bad_pair kt vt d e1).
    { intro e1. unfold slow.
      rewrite (conv_kv_exc (fun m k => load_ann w cfg m k kt (Some (AnKey k))) (fun m x => load_ann w cfg m x vt (Some (AnValue x))) d RS1 RS2 [] e1).
      unfold kv_bad, first_bad_pair.
      assert (IR : forall d1 d2 kvs, d = d1 ++ d2 ->
        (items_rel (fun k y => conv (fun m => load_ann w cfg m k kt (Some (AnKey k))) (Ok y)) (fun x y => conv (fun m => load_ann w cfg m x vt (Some (AnValue x))) (Ok y)) d1 kvs <->
         items_rel (fun k y => loads k kt (Ok y)) (fun x y => loads x vt (Ok y)) d1 kvs)).
      { intros d1 d2 kvs Ed. assert (HV1 : forall k x, In (k, x) d1 -> Vok k /\ Vok x) by (intros k x H; apply HV; rewrite Ed; apply in_or_app; auto).
        clear Ed ET E. revert kvs. unfold items_rel. induction d1 as [|[k x] d1 IH]; intro kvs.
        - split; intro H; inversion H; constructor.
        - destruct (HV1 k x (or_introl eq_refl)) as [Vk Vx]. specialize (IH (fun k x H => HV1 k x (or_intror H))).
          split; intro H; inversion H as [|a b l1 l2 [H1 H2] F2 E1 E2]; subst; cbn [fst snd] in *; (constructor; [|apply IH; exact F2]); cbn [fst snd].
          + split; [apply (conv_ann_ok k kt kh (AnKey k))|apply (conv_ann_ok x vt vh (AnValue x))]; assumption.
          + split; [apply (conv_ann_ok k kt kh (AnKey k))|apply (conv_ann_ok x vt vh (AnValue x))]; assumption. }
      split.
      - intros [d1 [k [x [d2 [kvs [Ed [F1 [Hf B]]]]]]]]. assert (I : In (k, x) d) by (rewrite Ed; apply in_elt).
        destruct (HV k x I) as [Vk Vx]. destruct (HS k x I) as [Zk Zx]. exists d1, k, x, d2, kvs. split; [exact Ed|].
        split; [apply (IR d1 _ kvs Ed); exact F1|]. split; [rewrite forallb_forall in Hf; exact Hf|].
        destruct B as [C|[k' [Ck B]]]; [left; apply (conv_ann_exc k kt kh); assumption|right]. exists k'.
        split; [apply (conv_ann_ok k kt kh (AnKey k)); assumption|]. destruct B as [C|[x' [Cx [Hh ->]]]]; [left; apply (conv_ann_exc x vt vh); assumption|right].
        exists x'. split; [apply (conv_ann_ok x vt vh (AnValue x)); assumption|auto].
      - intros [d1 [k [x [d2 [kvs [Ed [F1 [Hf B]]]]]]]]. assert (I : In (k, x) d) by (rewrite Ed; apply in_elt).
        destruct (HV k x I) as [Vk Vx]. destruct (HS k x I) as [Zk Zx]. exists d1, k, x, d2, kvs. split; [exact Ed|].
        split; [apply (IR d1 _ kvs Ed); exact F1|]. split; [rewrite forallb_forall; exact Hf|].
        destruct B as [C|[k' [Ck B]]]; [left; apply (conv_ann_exc k kt kh); assumption|right]. exists k'.
        split; [apply (conv_ann_ok k kt kh (AnKey k)); assumption|]. destruct B as [C|[x' [Cx [Hh ->]]]]; [left; apply (conv_ann_exc x vt vh); assumption|right].
        exists x'. split; [apply (conv_ann_ok x vt vh (AnValue x)); assumption|auto]. }
    assert (FE : exists r, conv fast r).
    { apply (kv_ends (fun m => fastkv w cfg (run m) kh kt) (fun m => fastkv w cfg (run m) vh vt) d RF1 RF2).
      intros k x H. destruct (HV k x H) as [Vk Vx]. destruct (HS k x H) as [Zk Zx]. split; apply ends_of_settles; assumption. }
    assert (Q : forall r0, calls HDict V T r0 <->
      (exists a, conv fast (Ok a) /\ r0 = Ok a) \/
      ((exists e1, conv fast (Exc e1)) /\ ((exists a, conv slow (Ok a) /\ r0 = Ok a) \/ (exists e1, conv slow (Exc e1) /\ r0 = Exc (dconv (as_dict cfg V) T e1))))).
    { intro r0. rewrite calls_body. cbn [body].
      rewrite (conv_dictload w basic strcons cfg Hstd Hwr env s V T Us St nt kt vt kh vh ET Fk Fv).
      assert (DE : forall m s1, dcont w cfg (run m) kt vt kh (Some vh) (as_dict cfg V) T s1 =
        catch (fast m) (fun _ => catch (slow m) (fun e => raise (dconv (as_dict cfg V) T e))) s1).
      { intros m s1. unfold dcont, dfast, dslow, dslow0. rewrite E. apply catch_ext; [apply dict_fast_kv|].
        intros e0 s2. apply catch_ext; [apply dict_slow_kv|]. reflexivity. }
      rewrite (conv_ext w cfg env s T _ _ _ DE).
      rewrite (conv_catch w basic cfg env s V T Us St fast (fun _ m => catch (slow m) (fun e => raise (dconv (as_dict cfg V) T e))) _ RF).
      2: { intros e0 _. apply (regular_catch w basic cfg env s V T Us St slow (fun e _ => raise (dconv (as_dict cfg V) T e)));
             [exact RS|intros; apply regular_raise]. }
      assert (Q2 : conv (fun m => catch (slow m) (fun e => raise (dconv (as_dict cfg V) T e))) r0 <->
         (exists a, conv slow (Ok a) /\ r0 = Ok a) \/ (exists e1, conv slow (Exc e1) /\ r0 = Exc (dconv (as_dict cfg V) T e1))).
      { rewrite (conv_catch w basic cfg env s V T Us St slow (fun e _ => raise (dconv (as_dict cfg V) T e)) _ RS (fun e _ => regular_raise w cfg env s T _)).
        split; (intros [H|[e1 [C H]]]; [left; exact H|right; exists e1; split; [exact C|]]);
          apply (conv_raise w basic cfg env s V T Us St); exact H. }
      split.
      - intros [H|[e0 [C H]]]; [left; exact H|right]. split; [eauto|]. apply Q2. exact H.
      - intros [H|[[e0 C] H]]; [left; exact H|right]. exists e0. split; [exact C|]. apply Q2. exact H. }
    assert (WR : forall e1, first_bad_pair kt vt d e1 -> wrap V T None (Exc (dconv (as_dict cfg V) T e1)) = Exc (raised_by_dict V (as_dict cfg V) T e1)).
    { intros e1 [d1 [k [x [d2 [kvs [_ [_ [_ B]]]]]]]].
      assert (X : (exists k m tr ve te subs, e1 = XTL k m tr ve te subs) \/ e1 = XRaw RType).
      { destruct B as [[e0 [_ [k1 [m [tr [ve [te [subs [_ ->]]]]]]]]]|[k' [_ [[e0 [_ [k1 [m [tr [ve [te [subs [_ ->]]]]]]]]]|[x' [_ [_ ->]]]]]]]; eauto 10. }
      destruct X as [[k0 [m [tr [ve [te [subs ->]]]]]]| -> ]; [destruct k0|]; reflexivity. }
    pose proof (loads_calls w basic strcons cfg Hstd Hwr env s V T Us St V T HDict) as LC.
    split.
    - intro L. split.
      { intros y L'. apply (loads_conv w basic strcons cfg Hstd Hwr env s V T Us St V T) in L, L'; try apply reach_refl; try apply inside_refl.
        pose proof (conv_det w basic cfg env s V T Us St _ _ _ L L'). discriminate. }
      apply (LC _ (G_refl _ _ _ _) (V_refl _) F) in L as [r0 [C W]]. apply Q in C as [[a [_ ->]]|[_ [[a [_ ->]]|[e1 [C ->]]]]]; try discriminate.
      apply SB in C. exists e1. split; [exact C|]. rewrite (WR e1 C) in W. congruence.
    - intros [NO [e1 [B ->]]]. apply (LC _ (G_refl _ _ _ _) (V_refl _) F). exists (Exc (dconv (as_dict cfg V) T e1)). split; [|symmetry; apply WR; exact B].
      apply Q. right. split; [|right; exists e1; split; [apply SB; exact B|reflexivity]].
      destruct FE as [[a|e0|] C]; [|eauto|destruct C as [N _]; contradiction]. exfalso. apply (NO a).
      apply (LC _ (G_refl _ _ _ _) (V_refl _) F). exists (Ok a). split; [|reflexivity]. apply Q. left. eauto.
  Qed.
End FirstDict.
