(** * Enums: loading a member of an Enum class (C34) *)

From Verif Require Import Loader Spec Inv Std Sound Fuel Obs Scalars Simple Transparent Hist Eval Items Tuples Dicts.

(** ** Vocabulary *)


Lemma find_first {A} (f : A -> bool) l a : find f l = Some a <->
  exists pre post, l = pre ++ a :: post /\ f a = true /\ forall x, In x pre -> f x = false.
Proof.
  split.
  - induction l as [|x l IH]; cbn; [discriminate|]. destruct (f x) eqn:E.
    + intros [= ->]. exists [], l. split; [reflexivity|]. split; [exact E|]. intros x [].
    + intro H. destruct (IH H) as [pre [post [-> [Ha Hp]]]]. exists (x :: pre), post. split; [reflexivity|]. split; [exact Ha|].
      intros y [<-|Hy]; auto.
  - intros [pre [post [-> [Ha Hp]]]]. induction pre as [|x pre IH]; cbn; [rewrite Ha; reflexivity|].
    rewrite (Hp x (or_introl eq_refl)). apply IH. intros y Hy. apply Hp. right. exact Hy.
Qed.
Lemma find_none_iff {A} (f : A -> bool) l : find f l = None <-> forall x, In x l -> f x = false.
Proof.
  split; [apply List.find_none|]. induction l as [|x l IH]; cbn; [reflexivity|]. intro H. rewrite (H x (or_introl eq_refl)).
  apply IH. intros y Hy. apply H. right. exact Hy.
Qed.
Lemma enum_call_member c ms v r : enum_call c ms v = POk r <-> member_for c ms v r.
Proof.
  unfold enum_call, member_for. destruct (cid_eqb (type_of v) c) eqn:E.
  - apply cid_eqb_eq in E. split; [intros [= <-]; left; auto|]. intros [[_ ->]|[N _]]; [reflexivity|congruence].
  - assert (NE : type_of v <> c) by (intro Q; apply cid_eqb_eq in Q; congruence).
    destruct (find (fun m => py_eqb v (snd m)) ms) as [[name x]|] eqn:F.
    + split.
      * intros [= <-]. right. split; [exact NE|]. apply find_first in F as [pre [post [-> [Ha Hp]]]]. exists pre, name, x, post.
        split; [reflexivity|]. split; [exact Ha|]. split; [|reflexivity]. intros n' x' H. exact (Hp (n', x') H).
      * intros [[Q _]|[_ [pre [n' [x' [post [E' [Ha [Hp ->]]]]]]]]]; [congruence|].
        assert (F' : find (fun m => py_eqb v (snd m)) ms = Some (n', x')).
        { apply find_first. exists pre, post. split; [exact E'|]. split; [exact Ha|]. intros [n2 x2] H. exact (Hp n2 x2 H). }
        congruence.
    + split; [discriminate|]. intros [[Q _]|[_ [pre [n' [x' [post [E' [Ha [Hp ->]]]]]]]]]; [congruence|]. exfalso.
      assert (F' : find (fun m => py_eqb v (snd m)) ms = Some (n', x')).
      { apply find_first. exists pre, post. split; [exact E'|]. split; [exact Ha|]. intros [n2 x2] H. exact (Hp n2 x2 H). }
      congruence.
Qed.
Lemma enum_call_none c ms v : (exists k, enum_call c ms v = PExc k) <-> no_member_for c ms v.
Proof.
  unfold enum_call, no_member_for. destruct (cid_eqb (type_of v) c) eqn:E.
  - apply cid_eqb_eq in E. split; [intros [k Q]; discriminate|]. intros [N _]. congruence.
  - assert (NE : type_of v <> c) by (intro Q; apply cid_eqb_eq in Q; congruence).
    destruct (find (fun m => py_eqb v (snd m)) ms) as [[name x]|] eqn:F.
    + split; [intros [k Q]; discriminate|]. intros [_ H]. apply find_some in F. destruct F as [F1 F2]. cbn in F2.
      rewrite (H name x F1) in F2. discriminate.
    + split; [|intros _; eauto]. intros _. split; [exact NE|]. intros n x H. rewrite find_none_iff in F. exact (F (n, x) H).
Qed.
Lemma member_dec c ms v : (exists r, member_for c ms v r) \/ no_member_for c ms v.
Proof.
  destruct (enum_call c ms v) as [r|k] eqn:E.
  - left. exists r. apply enum_call_member. exact E.
  - right. apply enum_call_none. eauto.
Qed.

Section Enum.
  Variable w : world.
  Variables basic strcons : list cid.
  Variable cfg : config.
  Hypothesis Hstd : is_std w basic strcons cfg.
  Hypothesis Hwr : wf_reflect w.
  Variable env : string -> option ty.
  Notation p := (pep563 cfg).
  Variable s : lstate.
  Variable V : value.
  Variable c : cid.
  Variable ms : list (string * value).
  Hypothesis Hc : ci_enum (class_of w c) = Some ms.
  Hypothesis Hb : ~ In c basic.
  Notation T := (TClass c).
  Hypothesis Us : used w cfg s.

  Lemma find_enum_class : find_handler cfg T = POk HEnum.
  Proof using Hstd Hc Hb.
    rewrite (find_std w basic strcons cfg T Hstd). unfold chain, is_nonetype, is_union, in_classes, is_enum. rewrite Hc.
    assert (NB : mem_cid c basic = false) by (destruct (mem_cid c basic) eqn:M; [apply mem_cid_In in M; contradiction|reflexivity]).
    rewrite NB. destruct (ty_eqb T (TClass CNone)) eqn:E; [|reflexivity].
    apply ty_eqb_eq in E. injection E as ->. cbn in Hc. discriminate.
  Qed.
  Lemma call_enum y : call_type w T y = enum_call c ms y.
  Proof using Hc. unfold call_type. rewrite Hc. reflexivity. Qed.

  (** a value of a member: for every state *)
  Lemma c34_value x r : member_for c ms V x -> (loads w cfg s V T r <-> r = Ok x).
  Proof using Hstd Hc Hb Us.
    intro M. apply loads_all; [discriminate|]. intro n.
    change (Ok x) with (wrap V T None (Ok x)). eapply load_pure; [apply used_coh; exact Us|apply find_enum_class|].
    intros call s'. cbn [body]. unfold enumload. rewrite call_enum, (proj2 (enum_call_member c ms V x) M). reflexivity.
  Qed.

  Hypothesis St : steady w basic cfg env s V T.
  Notation G := (reach w p env T).
  Notation SETTLED := (settled w cfg env (reach w p env T) (seen s)).
  Notation conv := (conv w cfg env s T).
  Notation regular := (regular w cfg env s T).
  Variable hints : list (string * ty).
  Hypothesis Hh : ci_hints (class_of w c) = POk hints.
  Lemma G_hint t : In t (map snd hints) -> G t.
  Proof using Hh Hc.
    intro H. eapply reach_step; [apply reach_refl|]. unfold component, comps. apply in_or_app. right. rewrite Hc, Hh. exact H.
  Qed.


  Local Notation hint_gives := (hint_gives w cfg s V c ms).
  Local Notation hint_fails := (hint_fails w cfg s V c ms).
  Definition hint_prog (t : ty) (m : nat) : M value :=
    bind (load_with w cfg (run w cfg m) V t (Some (AnUnion t))) (fun y => lift (call_type w T y)).
  Lemma regular_hint t : G t -> regular (hint_prog t).
  Proof using Hstd Hwr Us St.
    intro Gt. apply (regular_bind w basic cfg env s V T Us St (fun m => load_ann w cfg m V t (Some (AnUnion t))) (fun y _ => lift (call_type w T y))).
    - apply (regular_load w basic strcons cfg Hstd Hwr env s V T Us St V t _ Gt (V_refl V)).
    - intros y _. apply regular_lift.
  Qed.
  (** loads with an annotation *)
  Lemma load_ann_ok t a y : G t -> (conv (fun m => load_ann w cfg m V t a) (Ok y) <-> loads w cfg s V t (Ok y)).
  Proof using Hstd Hwr Us St.
    intro Gt. rewrite (loads_conv w basic strcons cfg Hstd Hwr env s V T Us St V t (Ok y) Gt (V_refl V)).
    destruct (find_handler cfg t) as [h|k] eqn:F.
    - rewrite !(conv_load w basic strcons cfg Hstd Hwr env s V T Us St V t _ h _ Gt (V_refl V) F).
      split; intros [[y0|e|] [C Q]]; cbn in Q; try discriminate; try (destruct (is_tl e); discriminate); injection Q as ->; eexists; (split; [exact C|reflexivity]).
    - rewrite !(conv_load_none w basic strcons cfg Hstd env s V T Us St V t _ k _ F). split; discriminate.
  Qed.
  Lemma load_ann_exc t a : G t -> ((exists e, conv (fun m => load_ann w cfg m V t a) (Exc e)) <-> rejects w cfg s V t).
  Proof using Hstd Hwr Us St.
    intro Gt. unfold rejects. setoid_rewrite (loads_conv w basic strcons cfg Hstd Hwr env s V T Us St V t _ Gt (V_refl V)).
    destruct (find_handler cfg t) as [h|k] eqn:F.
    - setoid_rewrite (conv_load w basic strcons cfg Hstd Hwr env s V T Us St V t _ h _ Gt (V_refl V) F).
      split; intros [e [[y0|e0|] [C Q]]]; cbn in Q; try discriminate; (destruct (is_tl e0) eqn:TL; eexists; exists (Exc e0); cbn; rewrite TL; split; [exact C|reflexivity|exact C|reflexivity]).
    - setoid_rewrite (conv_load_none w basic strcons cfg Hstd env s V T Us St V t _ k _ F). split; intros _; eauto.
  Qed.
  Lemma conv_hint_ok t r : G t -> (conv (hint_prog t) (Ok r) <-> hint_gives t r).
  Proof using Hstd Hwr Us St Hc.
    intro Gt. unfold hint_prog. change (load_with w cfg) with (fun call => load_with w cfg call).
    rewrite (conv_bind w basic cfg env s V T Us St (fun m => load_ann w cfg m V t (Some (AnUnion t))) (fun y _ => lift (call_type w T y)) (Ok r)
      (regular_load w basic strcons cfg Hstd Hwr env s V T Us St V t _ Gt (V_refl V)) (fun y _ => regular_lift w cfg env s T _)).
    split.
    - intros [[y [C1 C2]]|[e [_ Q]]]; [|discriminate]. exists y. split; [apply (load_ann_ok t (Some (AnUnion t)) y Gt); exact C1|].
      apply (conv_lift w basic cfg env s V T Us St) in C2. rewrite call_enum in C2. apply enum_call_member. destruct (enum_call c ms y); congruence.
    - intros [y [L M]]. left. exists y. split; [apply (load_ann_ok t (Some (AnUnion t)) y Gt); exact L|]. apply (conv_lift w basic cfg env s V T Us St).
      rewrite call_enum, (proj2 (enum_call_member c ms y r) M). reflexivity.
  Qed.
  Lemma conv_hint_exc t : G t -> ((exists e, conv (hint_prog t) (Exc e)) <-> hint_fails t).
  Proof using Hstd Hwr Us St Hc.
    intro Gt. unfold hint_prog.
    assert (CB := fun R => conv_bind w basic cfg env s V T Us St (fun m => load_ann w cfg m V t (Some (AnUnion t))) (fun y _ => lift (call_type w T y)) R
      (regular_load w basic strcons cfg Hstd Hwr env s V T Us St V t _ Gt (V_refl V)) (fun y _ => regular_lift w cfg env s T _)).
    split.
    - intros [e C]. split.
      + apply CB in C. destruct C as [[y [C1 _]]|[e' [C1 _]]].
        * exists (Ok y). apply (load_ann_ok t (Some (AnUnion t)) y Gt). exact C1.
        * destruct (proj1 (load_ann_exc t (Some (AnUnion t)) Gt)) as [e2 L]; [eauto|]. exists (Exc e2). exact L.
      + intros r HG. apply (conv_hint_ok t r Gt) in HG. pose proof (conv_det w basic cfg env s V T Us St _ _ _ C HG). discriminate.
    - intros [[R L] H]. destruct R as [y|e|]; [| |destruct L; congruence].
      + destruct (enum_call c ms y) as [r|k] eqn:E.
        * exfalso. apply (H r). exists y. split; [exact L|]. apply enum_call_member. exact E.
        * exists (XRaw k). apply CB. left. exists y. split; [apply (load_ann_ok t (Some (AnUnion t)) y Gt); exact L|]. apply (conv_lift w basic cfg env s V T Us St).
          rewrite call_enum, E. reflexivity.
      + destruct (proj2 (load_ann_exc t (Some (AnUnion t)) Gt)) as [e2 C]; [exists e; exact L|]. exists e2. apply CB. right. eauto.
  Qed.

  Notation HINTS := (fun ts exs m => enum_hints w cfg (run w cfg m) V T ts exs).
  Lemma regular_hints ts exs : (forall t, In t ts -> G t) -> regular (HINTS ts exs).
  Proof using Hstd Hwr Us St.
    intro I. apply sim_regular. intro m.
    apply (sim_enum_hints w cfg env G (seen s) (inside V) (run w cfg m)); [|exact I|apply V_refl].
    intros h x ft Gx Vx F. exact (Hsim w basic strcons cfg Hstd Hwr env s V T St m h x ft Gx Vx F).
  Qed.
  Lemma conv_hints ts : (forall t, In t ts -> G t) -> forall exs R,
    conv (HINTS ts exs) R ->
    (exists pre t post r, ts = pre ++ t :: post /\ (forall x, In x pre -> hint_fails x) /\ hint_gives t r /\ R = Ok (inl r)) \/
    ((forall t, In t ts -> hint_fails t) /\ exists es, R = Ok (inr es)).
  Proof using Hstd Hwr Us St Hc.
    induction ts as [|t ts IH]; intros I exs R C.
    { cbn in C. apply (conv_ret w basic cfg env s V T Us St) in C. right. split; [intros t []|eauto]. }
    assert (Gt : G t) by (apply I; left; reflexivity). assert (I' : forall x, In x ts -> G x) by (intros x Hx; apply I; right; exact Hx).
    cbn [enum_hints] in C.
    apply (conv_bind w basic cfg env s V T Us St (fun m => attempt (hint_prog t m)) (fun o m => match o with
        | inl r => ret (inl r)
        | inr e => enum_hints w cfg (run w cfg m) V T ts (exs ++ [e])
        end) R (regular_attempt w basic cfg env s V T Us St _ (regular_hint t Gt))) in C.
    2: { intros [r|e] _; [apply regular_ret|apply (regular_hints ts _ I')]. }
    destruct C as [[o [Co C]]|[e [Co _]]]; apply (conv_attempt w basic cfg env s V T Us St _ _ (regular_hint t Gt)) in Co.
    - destruct Co as [[r [Cr [= ->]]]|[e [Ce [= ->]]]].
      + apply (conv_ret w basic cfg env s V T Us St) in C. left. exists [], t, ts, r. split; [reflexivity|]. split; [intros x []|].
        split; [apply (conv_hint_ok t r Gt); exact Cr|exact C].
      + assert (HF : hint_fails t) by (apply (conv_hint_exc t Gt); eauto).
        destruct (IH I' _ _ C) as [[pre [t1 [post [r [-> [H1 [H2 ->]]]]]]]|[H [es ->]]].
        * left. exists (t :: pre), t1, post, r. split; [reflexivity|]. split; [intros x [<-|Hx]; auto|]. split; [exact H2|reflexivity].
        * right. split; [intros x [<-|Hx]; auto|eauto].
    - destruct Co as [[r [_ Q]]|[e' [_ Q]]]; discriminate.
  Qed.
  Lemma hints_conv ts : (forall t, In t ts -> G t) -> forall exs,
    (forall pre t post r, ts = pre ++ t :: post -> (forall x, In x pre -> hint_fails x) -> hint_gives t r -> conv (HINTS ts exs) (Ok (inl r))) /\
    ((forall t, In t ts -> hint_fails t) -> exists es, conv (HINTS ts exs) (Ok (inr es))).
  Proof using Hstd Hwr Us St Hc.
    induction ts as [|t ts IH]; intros I exs.
    { split; [intros [|q pre] t1 post r Q; discriminate|]. intros _. exists exs. cbn. apply (conv_ret w basic cfg env s V T Us St). reflexivity. }
    assert (Gt : G t) by (apply I; left; reflexivity). assert (I' : forall x, In x ts -> G x) by (intros x Hx; apply I; right; exact Hx).
    assert (CB := fun R => conv_bind w basic cfg env s V T Us St (fun m => attempt (hint_prog t m)) (fun o m => match o with
        | inl r => ret (inl r)
        | inr e => enum_hints w cfg (run w cfg m) V T ts (exs ++ [e])
        end) R (regular_attempt w basic cfg env s V T Us St _ (regular_hint t Gt))
        (fun o _ => match o with inl r => regular_ret w cfg env s T (inl r) | inr e => regular_hints ts (exs ++ [e]) I' end)).
    cbv beta. cbn [enum_hints].
    assert (CA := fun R => conv_attempt w basic cfg env s V T Us St (hint_prog t) R (regular_hint t Gt)).
    split.
    - intros [|t0 pre] t1 post r Q HF HG; cbn in Q; injection Q as <- ->.
      + apply CB. left. exists (inl r). split; [apply CA; left; exists r; split; [apply (conv_hint_ok t r Gt); exact HG|reflexivity]|].
        apply (conv_ret w basic cfg env s V T Us St). reflexivity.
      + destruct (proj2 (conv_hint_exc t Gt) (HF t (or_introl eq_refl))) as [e Ce]. apply CB. left. exists (inr e).
        split; [apply CA; right; eauto|]. apply (proj1 (IH I' (exs ++ [e])) pre t1 post r eq_refl); [|exact HG]. intros x Hx. apply HF. right. exact Hx.
    - intro HF. destruct (proj2 (conv_hint_exc t Gt) (HF t (or_introl eq_refl))) as [e Ce].
      destruct (proj2 (IH I' (exs ++ [e]))) as [es C]; [intros x Hx; apply HF; right; exact Hx|]. exists es. apply CB. left. exists (inr e).
      split; [apply CA; right; eauto|exact C].
  Qed.

  Lemma loads_enum_hints : no_member_for c ms V ->
    forall R, loads w cfg s V T R <->
      exists R0, conv (HINTS (map snd hints) []) R0 /\ R = wrap V T None (match R0 with
        | Ok (inl r) => Ok r
        | Ok (inr exs) => Exc (XTL KValue (MEnum (type_of V) T) [] (Some V) (Some T) exs)
        | Exc e => Exc e
        | OOF => OOF
        end).
  Proof using Hstd Hwr Us St Hc Hb Hh.
    intros NM R. apply enum_call_none in NM as [k NM].
    rewrite (loads_calls w basic strcons cfg Hstd Hwr env s V T Us St V T HEnum R (reach_refl _ _ _ _) (V_refl V) find_enum_class).
    assert (CE : forall R0, calls w cfg env s T HEnum V T R0 <-> conv (fun m => bind (enum_hints w cfg (run w cfg m) V T (map snd hints) []) (fun o => match o with
            | inl r => ret r
            | inr exs => raise (XTL KValue (MEnum (type_of V) T) [] (Some V) (Some T) exs)
            end)) R0).
    { intro R0. rewrite calls_body. apply conv_ext. intros m s1. cbn [body]. unfold enumload. rewrite call_enum, NM, Hh. reflexivity. }
    setoid_rewrite CE.
    assert (I : forall t, In t (map snd hints) -> G t) by apply G_hint.
    setoid_rewrite (fun R0 => conv_bind w basic cfg env s V T Us St (HINTS (map snd hints) []) (fun o _ => match o with
            | inl r => ret r
            | inr exs => raise (XTL KValue (MEnum (type_of V) T) [] (Some V) (Some T) exs)
            end) R0 (regular_hints _ [] I) (fun o _ => match o with inl r => regular_ret w cfg env s T r | inr exs => regular_raise w cfg env s T _ end)).
    split.
    - intros [r0 [[[o [C1 C2]]|[e [C1 ->]]] ->]].
      + exists (Ok o). split; [exact C1|]. destruct o.
        * apply (conv_ret w basic cfg env s V T Us St) in C2. subst r0. reflexivity.
        * apply (conv_raise w basic cfg env s V T Us St) in C2. subst r0. reflexivity.
      + exists (Exc e). split; [exact C1|reflexivity].
    - intros [[o|e|] [C ->]]; eexists; (split; [|reflexivity]).
      + left. exists o. split; [exact C|]. destruct o.
        * apply (conv_ret w basic cfg env s V T Us St). reflexivity.
        * apply (conv_raise w basic cfg env s V T Us St). reflexivity.
      + right. eauto.
      + destruct C; congruence.
  Qed.

  (** by the type hints of the Enum *)
  Lemma c34_hint : no_member_for c ms V -> forall r,
    (loads w cfg s V T (Ok r) <->
     exists pre t post, map snd hints = pre ++ t :: post /\ (forall x, In x pre -> hint_fails x) /\ hint_gives t r).
  Proof using Hstd Hwr Us St Hc Hb Hh.
    intros NM r. rewrite (loads_enum_hints NM). split.
    - intros [R0 [C Q]]. destruct (conv_hints _ G_hint _ _ C) as [[pre [t [post [r0 [E [H1 [H2 ->]]]]]]]|[_ [es ->]]]; cbn in Q; [|discriminate].
      injection Q as ->. exists pre, t, post. auto.
    - intros [pre [t [post [E [H1 H2]]]]]. exists (Ok (inl r)). split; [|reflexivity].
      exact (proj1 (hints_conv _ G_hint []) pre t post r E H1 H2).
  Qed.
  Lemma c34_refuse : no_member_for c ms V -> (forall t, In t (map snd hints) -> hint_fails t) ->
    exists R, raises KValue R /\ forall r, loads w cfg s V T r <-> r = R.
  Proof using Hstd Hwr Us St Hc Hb Hh.
    intros NM HF. destruct (proj2 (hints_conv _ G_hint []) HF) as [es C].
    assert (L : loads w cfg s V T (wrap V T None (Exc (XTL KValue (MEnum (type_of V) T) [] (Some V) (Some T) es)))).
    { apply (loads_enum_hints NM). exists (Ok (inr es)). split; [exact C|reflexivity]. }
    eexists. split; [|intro R; split; [intro L'; exact (loads_det _ _ _ _ _ _ _ L' L)|intros ->; exact L]]. cbn. repeat eexists.
  Qed.
  (** nothing else can come out *)
  Lemma c34_result r : loads w cfg s V T (Ok r) -> exists x, member_for c ms x r.
  Proof using Hstd Hwr Us St Hc Hb Hh.
    intro L. destruct (member_dec c ms V) as [[x M]|NM].
    - apply (c34_value x (Ok r) M) in L. injection L as ->. eauto.
    - apply (c34_hint NM r) in L. destruct L as [pre [t [post [_ [_ [y [_ M]]]]]]]. eauto.
  Qed.
End Enum.
