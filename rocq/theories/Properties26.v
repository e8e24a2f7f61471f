(** * Properties, twenty-sixth part: wider annotations (C65), Optional (C66)

    [wider … data t t'] (Wider.v): [t'] accepts what [t] accepts: [t] became a
    member of a union (Optional[t]), a union got more members, a Literal got
    more values.
    [widened … data w']: the annotations of the program were replaced by wider
    ones, required fields got a default. *)

From Verif Require Import Loader Dumper Spec Vocab Inv Std Obs Hist Reuse Transparent Examples Ground
  Properties1 Properties2 Properties3 RefSound RefComplete RefUse Properties9 Properties17 Evolve Wider Scalars.

(** C65 Annotations can be widened: what was accepted before is accepted, and the
    result is the same *)
Theorem C65_wider : forall w w' basic strcons cfg cfg',
  is_std w basic strcons cfg -> is_std w' basic strcons cfg' -> equal_settings cfg cfg' ->
  wf_reflect w -> wf_reflect w' -> uniondebugconflict cfg' = false ->
  forall env s s' v t t',
  widened w basic strcons cfg env v w' -> wider w basic strcons cfg env v t t' ->
  used w cfg s -> steady w basic cfg env s v t -> well_formed w basic strcons cfg env v t ->
  used w' cfg' s' -> steady w' basic cfg' env s' v t' -> well_formed w' basic strcons cfg' env v t' ->
  no_choice w' basic strcons cfg' env v t' -> trials_end w' basic cfg' env s' v t' ->
  forall r, loads w cfg s v t (Ok r) -> loads w' cfg' s' v t' (Ok r).
Proof.
  intros w w' basic strcons cfg cfg' Hs Hs' Sm Wr Wr' Ud env s s' v t t' Wd Wi U St Wl U' St' Wl' Nc Te r L.
  apply (C44_exact w' basic strcons cfg' Hs' Wr' Ud env s' v t' U' St' Wl' Nc Te).
  refine (proj1 (gives_wider w w' basic strcons cfg cfg' env v Wd Hs Hs' Sm) v t r _ _ t' Wi); [|apply rt1n_refl].
  exact (C43_steady w basic strcons cfg Hs Wr env s v t r U St Wl L).
Qed.
Print Assumptions C65_wider.

(** in particular, when the only unions are Optionals, and the Enums are not annotated: there are no choices *)
Definition only_optionals (w : world) (basic : list cid) (cfg : config) (env : string -> option ty) (s : lstate) (v : value) (t : ty) : Prop :=
  (forall n args, reach w (pep563 cfg) env t (TGen n OUnion (Some args)) ->
     exists a, (args = [a; TNone] \/ args = [TNone; a]) /\ forall x, inside v x -> settles w cfg s x a) /\
  (forall c ms, reach w (pep563 cfg) env t (TClass c) -> ci_enum (class_of w c) = Some ms -> ci_hints (class_of w c) = POk []) /\
  (forall n kt vt c x, reach w (pep563 cfg) env t (TGen n ODict (Some [kt; vt])) -> inside v x -> In c basic ->
     TClass c = kt \/ TClass c = vt -> isinstance w x c = true -> type_of x = c).
Lemma none_settles w basic strcons cfg s v : is_std w basic strcons cfg -> used w cfg s -> settles w cfg s v TNone.
Proof.
  intros Hs U. destruct (value_eq_dec v VNone) as [->|N].
  - exists (Ok VNone). split; [|left; eauto]. apply (C05_none w basic strcons cfg Hs s U). left. auto.
  - eexists. split; [apply (C05_none w basic strcons cfg Hs s U); right; split; [exact N|reflexivity]|]. right. unfold raises_tl. repeat eexists.
Qed.
Lemma none_tags w args v : In TNone args -> tags_hashable w args v.
Proof. intros I d k x _ L. destruct (L TNone I) as [c [tk [vals [[= <-] [Q _]]]]]. destruct Q. Qed.
Theorem C65_optionals : forall w w' basic strcons cfg cfg',
  is_std w basic strcons cfg -> is_std w' basic strcons cfg' -> equal_settings cfg cfg' -> In CNone basic ->
  wf_reflect w -> wf_reflect w' -> uniondebugconflict cfg' = false ->
  forall env s s' v t t',
  widened w basic strcons cfg env v w' -> wider w basic strcons cfg env v t t' ->
  used w cfg s -> steady w basic cfg env s v t -> well_formed w basic strcons cfg env v t ->
  used w' cfg' s' -> steady w' basic cfg' env s' v t' -> well_formed w' basic strcons cfg' env v t' ->
  only_optionals w' basic cfg' env s' v t' ->
  forall r, loads w cfg s v t (Ok r) -> loads w' cfg' s' v t' (Ok r).
Proof.
  intros w w' basic strcons cfg cfg' Hs Hs' Sm BN Wr Wr' Ud env s s' v t t' Wd Wi U St Wl U' St' Wl' [Ou [Ne Nd]].
  apply (C65_wider w w' basic strcons cfg cfg' Hs Hs' Sm Wr Wr' Ud env s s' v t t' Wd Wi U St Wl U' St' Wl'); constructor.
  - intros n args x t1 t2 r1 r2 R I O I1 I2 N G1 G2. destruct (Ou n args R) as [a [Ar _]]. exfalso. apply O.
    assert (In TNone args) by (destruct Ar as [->| ->]; cbn; auto).
    assert (Q : x = VNone).
    { assert (Q : t1 = TNone \/ t2 = TNone) by (destruct Ar as [->| ->]; destruct I1 as [<-|[<-|[]]]; destruct I2 as [<-|[<-|[]]]; auto; congruence).
      destruct Q as [->| ->]; [exact (gives_none _ _ _ _ _ _ _ BN G1)|exact (gives_none _ _ _ _ _ _ _ BN G2)]. }
    subst x. split; assumption.
  - intros c ms hints x t1 t2 y1 y2 r1 r2 R _ E _ H I1. rewrite (Ne c ms R E) in H. injection H as <-. destruct I1.
  - exact Nd.
  - intros n args x R I O. destruct (Ou n args R) as [a [Ar Se]]. split.
    + apply none_tags. destruct Ar as [->| ->]; cbn; auto.
    + intros b J. assert (Q : b = a \/ b = TNone) by (destruct Ar as [->| ->]; destruct J as [<-|[<-|[]]]; auto).
      destruct Q as [->| ->]; [exact (Se x I)|exact (none_settles _ _ _ _ _ _ Hs' U')].
  - intros c ms hints x b R _ E _ H I1. rewrite (Ne c ms R E) in H. injection H as <-. destruct I1.
Qed.
Print Assumptions C65_optionals.

(** ** The rules for Optional *)
Lemma gives_own w basic strcons cfg env v r : In (type_of v) basic -> type_of v <> CNone ->
  gives w basic strcons cfg env (fun _ => False) v (TClass (type_of v)) r -> r = v.
Proof.
  intros B N G. remember (TClass (type_of v)) as t eqn:Et.
  destruct G as [ |v0 c0 B0 N0 T0|v0 c0 r0 B0 N0 T0 BC M| | |k n t rest v0 l ys r0 Su El L Hs Hg Co| | |v0 c0 d ps r0 OC| v0 c0 ms r0 E NB|v0 c0 ms h n t y0 r0 E NB|c0 x0 r0 I O|c0 v0 l r0 I O|v0 r0 O|v0 t0 r0 O|v0 c0 r0 I O| | | | | ];
    try discriminate Et; try (injection Et as Et; subst c0); try reflexivity; try contradiction;
    try (destruct O as [NB _]; contradiction).
  - destruct k; discriminate Et.
  - destruct OC as [NB _]. contradiction.
  - destruct O as [NB _]. congruence.
  - destruct O as [[-> [NB _]]|[n [a ->]]]; [|discriminate Et]. injection Et as Et. rewrite <- Et in B. contradiction.
Qed.
(** [t] can become Optional[t] when None is not converted by [t] ("None" is what str gives) *)
Theorem C65_rule_optional : forall w basic strcons cfg env data n args t,
  args = [t; TNone] \/ args = [TNone; t] ->
  (forall x, inside data x -> python_data x) ->
  (forall r, inside data VNone -> gives w basic strcons cfg env (fun _ => False) VNone t r -> r = VNone) ->
  wider w basic strcons cfg env data t (TGen n OUnion (Some args)).
Proof.
  intros w basic strcons cfg env data n args t Ar Py Nn. apply (wi_member _ _ _ _ _ _ t t); [constructor|destruct Ar as [->| ->]; cbn; auto|].
  intros x r Ix [B J] G. assert (Q : TClass (type_of x) = t \/ TClass (type_of x) = TNone) by (destruct Ar as [->| ->]; destruct J as [J|[J|[]]]; auto).
  destruct (Py x Ix) as [_ X].
  destruct (cid_eq_dec (type_of x) CNone) as [T|T].
  - specialize (X T). subst x. exact (Nn r Ix G).
  - destruct Q as [<-|[= Q]]; [|contradiction]. exact (gives_own _ _ _ _ _ _ _ B T G).
Qed.
Print Assumptions C65_rule_optional.

(** C66 Optional[T]: None gives None; everything else is what it is as a T *)
Theorem C66_none : forall w basic strcons cfg, is_std w basic strcons cfg -> In CNone basic ->
  forall s n args r, used w cfg s -> In TNone args ->
  (loads w cfg s VNone (TGen n OUnion (Some args)) r <-> r = Ok VNone).
Proof. intros w basic strcons cfg Hs B s n args r U I. apply (C12_union_passthrough w basic strcons cfg Hs s U); assumption. Qed.
Print Assumptions C66_none.
Lemma loads_own w basic strcons cfg s v : is_std w basic strcons cfg -> used w cfg s -> In (type_of v) basic -> type_of v <> CNone ->
  forall r, loads w cfg s v (TClass (type_of v)) r <-> r = Ok v.
Proof.
  intros Hs U B N. apply loads_all; [discriminate|]. intro n. eapply basic_same; eauto using used_coh.
Qed.
Theorem C66_value : forall w basic strcons cfg, is_std w basic strcons cfg -> wf_reflect w -> In CNone basic ->
  forall env s v n args t, args = [t; TNone] \/ args = [TNone; t] ->
  used w cfg s -> steady w basic cfg env s v (TGen n OUnion (Some args)) ->
  python_data v -> v <> VNone ->
  (* no other exception than a TypedloadException *)
  settles w cfg s v t ->
  forall r, loads w cfg s v (TGen n OUnion (Some args)) (Ok r) <-> loads w cfg s v t (Ok r).
Proof.
  intros w basic strcons cfg Hs Wr BN env s v n args t Ar U St [_ Py] Nv Se.
  assert (IN : In TNone args) by (destruct Ar as [->| ->]; cbn; auto).
  assert (It : In t args) by (destruct Ar as [->| ->]; cbn; auto).
  assert (Only : forall x, In x args -> x = t \/ x = TNone) by (intros x J; destruct Ar as [->| ->]; destruct J as [<-|[<-|[]]]; auto).
  assert (Rej : ~ accepts w cfg s v TNone).
  { intros [r L]. apply (C05_none w basic strcons cfg Hs s U) in L as [[E _]|[_ E]]; [contradiction|discriminate]. }
  assert (All : forall x, In x args -> settles w cfg s v x).
  { intros x J. destruct (Only x J) as [->| ->]; [exact Se|exact (none_settles _ _ _ _ _ _ Hs U)]. }
  destruct (own_dec basic args v) as [[B J]|NO].
  { assert (N : type_of v <> CNone) by (intro E; exact (Nv (Py E))). intro r.
    rewrite (C12_union_passthrough w basic strcons cfg Hs s U v n args (Ok r) B J).
    destruct (Only _ J) as [<-|[= E]]; [|contradiction]. symmetry. apply (loads_own w basic strcons cfg s v Hs U B N). }
  assert (Tag : tags_hashable w args v) by (apply none_tags; exact IN).
  destruct (uniondebugconflict cfg) eqn:Ud.
  - intro r. rewrite (C15_one w basic strcons cfg Hs Wr env s v n args U St Ud Tag NO All r). split.
    + intros [pre [x [post [E [L Ot]]]]]. assert (J : In x args) by (rewrite E; apply in_elt). destruct (Only x J) as [->| ->]; [exact L|].
      destruct Rej. exists r. exact L.
    + intro L. destruct Ar as [->| ->].
      * exists [], t, [TNone]. split; [reflexivity|]. split; [exact L|]. intros z [<-|[]]. exact Rej.
      * exists [TNone], t, []. split; [reflexivity|]. split; [exact L|]. intros z [<-|[]]. exact Rej.
  - assert (Fwd : forall r, loads w cfg s v (TGen n OUnion (Some args)) (Ok r) -> loads w cfg s v t (Ok r)).
    { intros r L. destruct (C13_member w basic strcons cfg Hs Wr env s v n args U St r L) as [[O _]|[x [J [L' _]]]]; [contradiction|].
      destruct (Only x J) as [->| ->]; [exact L'|]. destruct Rej. exists r. exact L'. }
    intro r. split; [apply Fwd|]. intro L.
    destruct (C14_accepts w basic strcons cfg Hs Wr env s v n args U St Ud Tag All) as [r' L']; [exists t; split; [exact It|exists r; exact L]|].
    pose proof (loads_det _ _ _ _ _ _ _ L (Fwd r' L')) as E. congruence.
Qed.
Print Assumptions C66_value.
(** what is not a T is refused with a TypedloadValueError which has the reasons of both *)
Theorem C66_refused : forall w basic strcons cfg, is_std w basic strcons cfg -> wf_reflect w -> In CNone basic ->
  forall env s v n args t, args = [t; TNone] \/ args = [TNone; t] ->
  used w cfg s -> steady w basic cfg env s v (TGen n OUnion (Some args)) ->
  python_data v -> v <> VNone ->
  settles w cfg s v t -> ~ accepts w cfg s v t ->
  exists m e1 e2, loads w cfg s v (TGen n OUnion (Some args))
    (Exc (XTL KValue m [(v, TGen n OUnion (Some args), None)] (Some v) (Some (TGen n OUnion (Some args))) [e1; e2])).
Proof.
  intros w basic strcons cfg Hs Wr BN env s v n args t Ar U St [_ Py] Nv Se Na.
  assert (IN : In TNone args) by (destruct Ar as [->| ->]; cbn; auto).
  assert (Only : forall x, In x args -> x = t \/ x = TNone) by (intros x J; destruct Ar as [->| ->]; destruct J as [<-|[<-|[]]]; auto).
  destruct (C14_refuses w basic strcons cfg Hs Wr env s v n args U St) as [l [es [m [Pm [F L]]]]].
  - apply none_tags. exact IN.
  - intros [B J]. assert (N : type_of v <> CNone) by (intro E; exact (Nv (Py E))). apply Na. exists v.
    destruct (Only _ J) as [<-|[= E]]; [|contradiction]. apply (loads_own w basic strcons cfg s v Hs U B N). reflexivity.
  - intros x J. destruct (Only x J) as [->| ->]; [split; assumption|]. split; [exact (none_settles _ _ _ _ _ _ Hs U)|].
    intros [r Lx]. apply (C05_none w basic strcons cfg Hs s U) in Lx as [[E _]|[_ E]]; [contradiction|discriminate].
  - assert (Le : List.length es = 2).
    { assert (Q : List.length l = List.length es) by (clear - F; induction F; cbn; congruence).
      rewrite <- Q, (Permutation_length Pm). destruct Ar as [->| ->]; reflexivity. }
    destruct es as [|e1 [|e2 [|]]]; try discriminate Le. exists m, e1, e2. apply L. reflexivity.
Qed.
Print Assumptions C66_refused.

Example C66_ex : let v := dict [("v", VInt 1); ("next", VNone)] in
  In CNone default_basic /\ steady W0 default_basic C0 env2 S2 v (OPT (CLS "Node")) /\ python_data v /\ v <> VNone /\
  settles W0 C0 S2 v (CLS "Node") /\ accepts W0 C0 S2 v (CLS "Node") /\
  steady W0 default_basic C0 env2 S2 (VInt 3) (OPT (CLS "Node")) /\ settles W0 C0 S2 (VInt 3) (CLS "Node") /\ rejects W0 C0 S2 (VInt 3) (CLS "Node").
Proof.
  cbv zeta. split; [cbn; auto 10|]. split; [steady_in [OPT (CLS "Node"); CLS "Node"; TInt; OPT (TForward "Node"); TForward "Node"; TNone]|].
  split; [apply data_okb_spec; reflexivity|]. split; [discriminate|].
  split; [eexists; split; [split; [|exists 50; vm_compute; reflexivity]; discriminate|left; eauto]|]. split; [eexists; loads_now|].
  split; [steady_in [OPT (CLS "Node"); CLS "Node"; TInt; OPT (TForward "Node"); TForward "Node"; TNone]|].
  split; [eexists; split; [split; [|exists 50; vm_compute; reflexivity]; discriminate|right; repeat eexists]|rejects_now].
Qed.
(** why the exceptions matter: Tuple[int, int] on 1 raises an AssertionError-like
    exception, which is what Optional raises too (C14_refuted) *)
Example C66_ex_raw : ~ settles W0 C0 S2 (VInt 1) (TUPLE [TInt; TInt]) /\ loads W0 C0 S2 (VInt 1) (OPT (TUPLE [TInt; TInt])) (Exc (XRaw RAssert)).
Proof.
  split; [|loads_now]. intros [r [L H]].
  assert (Q : loads W0 C0 S2 (VInt 1) (TUPLE [TInt; TInt]) (Exc (XRaw RAssert))) by loads_now.
  rewrite (loads_det _ _ _ _ _ _ _ L Q) in H. destruct H as [[y H]|[k [m [tr [ve [te [subs H]]]]]]]; discriminate H.
Qed.

(** ** A program, and its new version: the value of a Node is optional, and the
    list can end with the text "end" *)
Definition node65 : classinfo :=
  rdcls [f0 "v" (OPT TInt) (DValue VNone); f0 "next" (UNION [TForward "Node"; TLiteral [VStr "end"]; TNone]) (DValue VNone)]
    [("v", OPT TInt); ("next", UNION [CLS "Node"; TLiteral [VStr "end"]; TNone])].
Definition W65 : world :=
  mkWorld (fun n => if String.eqb n "Node" then node65 else classes0 n) (w_call W0) (w_fromiso W0) (w_callargs W0) (w_timedelta W0) (w_compile W0)
    (w_name W0) (w_pick W0) (w_setorder W0) (w_str W0) (w_iso W0) (w_seconds W0).
Definition C65 : config := default_config W65.
Definition S65 : lstate := snd (load W65 C65 50 NODE2 (CLS "Node") S0).
Definition env65 : string -> option ty := names_of S65.
Definition L65 : list ty := [CLS "Node"; OPT TInt; UNION [TForward "Node"; TLiteral [VStr "end"]; TNone]; TInt; TNone; TForward "Node"; TLiteral [VStr "end"]].
Lemma L65_spec t : reach W65 (pep563 C65) env65 (CLS "Node") t -> In t L65.
Proof. apply reach_closed; vm_compute; reflexivity. Qed.
(** the classes of the two programs are the same, but for Node *)
Lemma classes65 (P : classinfo -> classinfo -> Prop) : (forall ci, P ci ci) -> P (classes0 "Node") node65 ->
  forall c, P (class_of W0 c) (class_of W65 c).
Proof.
  intros R N c. destruct c; try apply R. cbn [class_of W65 W0 w_class]. destruct (String.eqb n "Node") eqn:E; [|apply R].
  apply String.eqb_eq in E. subst n. exact N.
Qed.
Lemma same_field f : wider_field f f. Proof. constructor; auto. Qed.
Lemma same_fields fs : wider_fields fs fs.
Proof. destruct fs as [l|]; [|exact I]. cbn. induction l; constructor; [apply same_field|assumption]. Qed.
Lemma none_not_int r : ~ gives W0 default_basic default_strcons C0 env65 (fun _ => False) VNone TInt r.
Proof. intro G. inversion G; subst; try discriminate; try (destruct k; discriminate). Qed.
Lemma none_is_none r : gives W0 default_basic default_strcons C0 env65 (fun _ => False) VNone TNone r -> r = VNone.
Proof. intro G. inversion G; subst; try reflexivity; try discriminate; try (destruct k; discriminate); try congruence. Qed.
Lemma none_not_node r : ~ gives W0 default_basic default_strcons C0 env65 (fun _ => False) VNone (TForward "Node") r.
Proof.
  intro G. inversion G; subst; try discriminate; try (destruct k; discriminate); try (match goal with X : _ \/ _ |- _ => destruct X as [[? _]|[? [? ?]]]; discriminate end).
  match goal with E : env65 _ = Some _ |- _ => vm_compute in E; injection E as <- end.
  match goal with G0 : gives _ _ _ _ _ _ _ (TClass _) _ |- _ => apply gives_data in G0 as [d D] end.
  - destruct D as [D|[_ [_ [a [D _]]]]]; discriminate D.
  - split; [cbn; intuition discriminate|]. split; [reflexivity|exact I].
  - reflexivity.
  - cbn. intuition discriminate.
Qed.

Lemma wider_int n : (forall x, inside n x -> python_data x) -> wider W0 default_basic default_strcons C0 env65 n TInt (OPT TInt).
Proof. intro Py. apply C65_rule_optional; [auto|exact Py|]. intros r _ G. destruct (none_not_int r G). Qed.
Lemma wider_next n : (forall x, inside n x -> python_data x) ->
  wider W0 default_basic default_strcons C0 env65 n (OPT (TForward "Node")) (UNION [TForward "Node"; TLiteral [VStr "end"]; TNone]).
Proof.
  intro Py. assert (Q : forall x, inside n x -> own_basic default_basic [TForward "Node"; TLiteral [VStr "end"]; TNone] x -> x = VNone).
  { intros x Ix [_ [J|[J|[J|[]]]]]; try discriminate J. injection J as J. apply (Py x Ix). symmetry. exact J. }
  apply wi_union.
  - intros c _ [J|[J|[]]]; [discriminate J|]. rewrite <- J. cbn. auto.
  - intros t [<-|[<-|[]]].
    + apply (wi_member _ _ _ _ _ _ _ (TForward "Node")); [constructor|cbn; auto|]. intros x r Ix O G. rewrite (Q x Ix O) in *. destruct (none_not_node r G).
    + apply (wi_member _ _ _ _ _ _ _ TNone); [constructor|cbn; auto|]. intros x r Ix O G. rewrite (Q x Ix O) in *. exact (none_is_none r G).
Qed.
Lemma W65_widened v : (forall x, inside v x -> python_data x) -> widened W0 default_basic default_strcons C0 env65 v W65.
Proof.
  intro Py. constructor; try (intros; reflexivity).
  - apply (classes65 (fun a b => ci_bases b = ci_bases a)); reflexivity.
  - apply (classes65 (fun a b => ci_enum b = ci_enum a)); reflexivity.
  - apply (classes65 (fun a b => ci_hash b = ci_hash a)); reflexivity.
  - intros c fs. apply (classes65 (fun a b => ci_post b fs = ci_post a fs)); reflexivity.
  - apply (classes65 (fun a b => match ci_nt a, ci_nt b with
      | Some l, Some l' => Forall2 (fun a b => fst b = fst a /\ (snd b = snd a \/ snd a = None)) l l'
      | None, None => True | _, _ => False end)); [|exact I].
    intro ci. destruct (ci_nt ci) as [l|]; [|exact I]. induction l; constructor; auto.
  - apply (classes65 (fun a b => wider_fields (ci_dc a) (ci_dc b))); [intro; apply same_fields|].
    cbn. constructor; [constructor; cbn; auto|constructor; [constructor; cbn; auto|constructor]].
  - apply (classes65 (fun a b => wider_fields (ci_attrs a) (ci_attrs b))); [intro; apply same_fields|exact I].
  - apply (classes65 (fun a b => ci_td a = None <-> ci_td b = None)); [reflexivity|split; reflexivity].
  - intro c. destruct c; try constructor. unfold declared. cbn [class_of W65 W0 w_class]. destruct (String.eqb n "Node") eqn:E.
    + apply String.eqb_eq in E. subst n. cbn. repeat apply Forall2_cons; try apply Forall2_nil; (split; [reflexivity|]); [apply wider_int|apply wider_next]; exact Py.
    + unfold kind_of_class, declared_types. cbn [class_of W65 W0 w_class]. rewrite E.
      match goal with |- Forall2 ?R ?l _ => assert (X : forall l0, Forall2 R l0 l0) end; [|apply X].
      intro l0. induction l0; constructor; [split; [reflexivity|constructor]|assumption].
  - intro c. destruct c; try apply incl_refl. cbn [class_of W65 W0 w_class].
    destruct (String.eqb n "Node") eqn:E; [apply String.eqb_eq in E; subst n; vm_compute; intros ? []|].
    assert (X : required_names W65 C0 (CUser n) = required_names W0 C0 (CUser n)); [|rewrite X; apply incl_refl].
    assert (Y : class_of W65 (CUser n) = class_of W0 (CUser n)) by (cbn [class_of W65 W0 w_class]; rewrite E; reflexivity).
    unfold required_names, obj_required, obj_fields, declared, declared_types, kind_of_class. rewrite Y. reflexivity.
  - intros c l. pattern (class_of W0 c), (class_of W65 c). apply classes65.
    + intros ci E. exists l. auto.
    + intros _. cbn. eexists. split; [reflexivity|]. intro Q. destruct Q. reflexivity.
Qed.

Lemma wr65 : wf_reflect W65.
Proof.
  destruct wr0 as [A B C].
  assert (T : forall c, ci_td (class_of W65 c) = ci_td (class_of W0 c)) by (apply (classes65 (fun a b => ci_td b = ci_td a)); reflexivity).
  assert (N : forall c, ci_td (class_of W0 c) <> None -> class_of W65 c = class_of W0 c).
  { apply (classes65 (fun a b => ci_td a <> None -> b = a)); [auto|]. intro Q. destruct Q. reflexivity. }
  constructor.
  - intros c Q. rewrite T in Q. rewrite (N c Q). exact (A c Q).
  - intros c k t Q. rewrite T in Q. rewrite (N c Q). apply B. exact Q.
  - intros c req k n a Q. rewrite T in Q. rewrite (N c) by congruence. apply C. exact Q.
Qed.
Definition settled65 (s : lstate) (t : ty) (v : value) : bool :=
  match fst (load W65 C65 50 v t s) with Ok _ => true | Exc (XTL _ _ _ _ _ _) => true | _ => false end.
Lemma settled65_spec s t v : settled65 s t v = true -> settles W65 C65 s v t.
Proof.
  unfold settled65. intro B. exists (fst (load W65 C65 50 v t s)). split.
  - split; [intro Q; rewrite Q in B; discriminate|]. exists 50. reflexivity.
  - destruct (fst (load W65 C65 50 v t s)) as [y|[]|]; try discriminate; [left; eauto|right; unfold raises_tl; eauto 10].
Qed.
Lemma W65_calm t : t <> CLS "Conv" -> calm W65 t.
Proof.
  intro NC. destruct (W0_calm t NC) as [A B C D E F G]. constructor; try assumption.
  - intros c fs ->. specialize (A c fs eq_refl). revert A.
    apply (classes65 (fun a b => ci_post a fs <> PExc RStopIter -> ci_post b fs <> PExc RStopIter)); [auto|]. intros _. discriminate.
  - intros c ->. specialize (B c eq_refl). revert B.
    apply (classes65 (fun a b => ci_hints a <> PExc RStopIter -> ci_hints b <> PExc RStopIter)); [auto|]. intros _. discriminate.
  - intros c fs f hs ->. specialize (C c fs f hs eq_refl). revert C.
    apply (classes65 (fun a b => (ci_attrs a = Some fs -> In f fs -> f_conv f = Some hs -> hs = [] \/ exists k x, In (k, x) hs /\ k <> "return") ->
      ci_attrs b = Some fs -> In f fs -> f_conv f = Some hs -> hs = [] \/ exists k x, In (k, x) hs /\ k <> "return")); [auto|]. intros _ Q. discriminate Q.
Qed.
Lemma W65_never env L T : closedb W65 C65 env L = true -> mem_ty T L = true -> mem_ty (CLS "Conv") L = false -> never_stops W65 (pep563 C65) env T.
Proof. intros C M N t' R. apply W65_calm. intros ->. apply (reach_closed W65 C65 env L T _ C M) in R. apply mem_ty_In in R. congruence. Qed.
Lemma hash65 v : hashable W65 v = hashable W0 v.
Proof.
  induction v as [|b|z|f|s|s|l F|l F|l F|l F|d F|d F|c d F|c d F|c m v IH|c v IH] using value_ind'; try reflexivity.
  - cbn [hashable]. induction F as [|x l Hx _ IH]; [reflexivity|]. cbn [forallb]. rewrite Hx, IH. reflexivity.
  - cbn [hashable]. induction F as [|[k x] l Hx _ IH]; [reflexivity|]. cbn [forallb fst snd] in *. rewrite Hx, IH. reflexivity.
  - cbn [hashable]. apply (classes65 (fun a b => ci_hash b = ci_hash a)); reflexivity.
Qed.
Lemma py9 x : inside NODE2 x -> python_data x.
Proof. intro I. exact (proj1 (wl_data _ _ _ _ _ _ _ wl9 x I)). Qed.
Example C65_ex : let t := CLS "Node" in
  is_std W65 default_basic default_strcons C65 /\ equal_settings C0 C65 /\ wf_reflect W65 /\
  widened W0 default_basic default_strcons C0 env65 NODE2 W65 /\
  used W0 C0 S2 /\ steady W0 default_basic C0 env65 S2 NODE2 t /\ well_formed W0 default_basic default_strcons C0 env65 NODE2 t /\
  loads W0 C0 S2 NODE2 t (Ok NODE2r) /\
  used W65 C65 S65 /\ steady W65 default_basic C65 env65 S65 NODE2 t /\
  well_formed W65 default_basic default_strcons C65 env65 NODE2 t /\
  no_choice W65 default_basic default_strcons C65 env65 NODE2 t /\ trials_end W65 default_basic C65 env65 S65 NODE2 t /\
  loads W65 C65 S65 NODE2 t (Ok NODE2r).
Proof.
  cbv zeta. split; [split; reflexivity|]. split; [repeat split|]. split; [exact wr65|]. split; [exact (W65_widened NODE2 py9)|].
  split; [exact S2_used|]. split; [apply (steady_by W0 C0 env65 S2 L9); vm_compute; reflexivity|].
  split.
  { destruct wl9 as [_ B _].
    assert (L9_spec' : forall t, reach W0 (pep563 C0) env65 (CLS "Node") t -> In t L9) by (intro t; apply reach_closed; vm_compute; reflexivity).
    constructor; [|exact B|apply (W0_never C0 _ L9); vm_compute; reflexivity].
    intros c R _. apply L9_spec' in R. cbn [L9 In] in R. destruct R as [[= <-]|[[= <-]|[R|[R|[[= <-]|[]]]]]]; try discriminate;
      split; cbn; repeat constructor; cbn; intuition discriminate. }
  split; [split; [discriminate|exists 50; vm_compute; reflexivity]|].
  split; [unfold S65; repeat constructor|].
  split; [apply (steady_by W65 C65 env65 S65 L65); vm_compute; reflexivity|].
  split; [|split; [|split]].
  - destruct wl9 as [_ B _]. constructor.
    + intros c R _. apply L65_spec in R. cbn [L65 In] in R. destruct R as [[= <-]|[R|[R|[[= <-]|[[= <-]|[R|[R|[]]]]]]]]; try discriminate;
        split; cbn; repeat constructor; cbn; intuition discriminate.
    + intros x I. destruct (B x I) as [B1 B2]. split; [exact B1|]. intros d k y E J. rewrite hash65. exact (B2 d k y E J).
    + apply (W65_never _ L65); vm_compute; reflexivity.
  - constructor.
    + intros n args x t1 t2 r1 r2 R I O I1 I2 N G1 G2. apply L65_spec in R. cbn in R.
      assert (BN : In CNone default_basic) by (cbn; auto 10).
      assert (Q0 : forall r, gives W65 default_basic default_strcons C65 env65 (fun _ => False) x (TLiteral [VStr "end"]) r -> False).
      { intros r G. inversion G as [ | | | |v0 vals H|k| | | | | | | | | | | | | | | ]; subst; [|destruct k; discriminate|].
        - assert (F : forallb (fun y => negb (py_in y [VStr "end"])) in9 = true) by (vm_compute; reflexivity).
          rewrite forallb_forall in F. specialize (F _ (in9_spec _ I)). rewrite H in F. discriminate F.
        - match goal with X : _ \/ _ |- _ => destruct X as [[X _]|[? [? X]]]; discriminate X end. }
      destruct R as [R|[R|[R|[R|[R|[R|[R|[]]]]]]]]; try discriminate; injection R as <- <-; exfalso; apply O;
        (assert (Q : x = VNone);
        [destruct I1 as [<-|[<-|I1]]; try (destruct I1 as [<-|[]]); (destruct I2 as [<-|[<-|I2]]; try (destruct I2 as [<-|[]])); try congruence;
          try (destruct (Q0 _ G1); fail); try (destruct (Q0 _ G2); fail);
          first [exact (gives_none _ _ _ _ _ _ _ BN G1)|exact (gives_none _ _ _ _ _ _ _ BN G2)|contradiction]
        |subst x; split; cbn; auto 10]).
    + intros c ms hints x t1 t2 y1 y2 r1 r2 R I E. apply L65_spec in R. cbn in R.
      destruct R as [[= <-]|[R|[R|[[= <-]|[[= <-]|[R|[R|[]]]]]]]]; try discriminate; discriminate E.
    + intros n kt vt c x R. apply L65_spec in R. cbn in R. destruct R as [R|[R|[R|[R|[R|[R|[R|[]]]]]]]]; discriminate.
  - assert (F : forall t', In t' L65 -> forallb (settled65 S65 t') in9 = true).
    { apply Forall_forall. repeat apply Forall_cons; try apply Forall_nil; vm_compute; reflexivity. }
    assert (F' : forall t' x, In t' L65 -> inside NODE2 x -> settles W65 C65 S65 x t').
    { intros t' x J I. apply settled65_spec. specialize (F t' J). rewrite forallb_forall in F. exact (F x (in9_spec x I)). }
    constructor.
    + intros n args x R I O. apply L65_spec in R. cbn in R.
      destruct R as [R|[R|[R|[R|[R|[R|[R|[]]]]]]]]; try discriminate R; injection R as <- <-; (split; [apply none_tags; cbn; auto|]);
        intros t' J; apply F'; try exact I; cbn in J |- *; intuition auto.
    + intros c ms hints x t' R I E. apply L65_spec in R. cbn in R.
      destruct R as [R|[R|[R|[R|[R|[R|[R|[]]]]]]]]; try discriminate R; injection R as <-; discriminate E.
  - split; [discriminate|]. exists 50. vm_compute. reflexivity.
Qed.
(** what only the new program accepts *)
Example C65_ex_new : let v := dict [("next", dict [("v", VNone); ("next", VStr "end")])] in
  (exists r, loads W65 C65 S65 v (CLS "Node") (Ok r)) /\ exists e, loads W0 C0 S2 v (CLS "Node") (Exc e).
Proof. split; eexists; (split; [|exists 50; vm_compute; reflexivity]); discriminate. Qed.
(** the conditions of [wider] are needed: str accepts None, as the text "None";
    a list of int keeps True, a list of Optional[int] makes 1 of it *)
Theorem C65_refuted : exists w basic strcons cfg s, is_std w basic strcons cfg /\ wf_world w basic strcons /\ used w cfg s /\
  uniondebugconflict cfg = false /\
  (loads w cfg s VNone TStr (Ok (VStr "None")) /\ loads w cfg s VNone (OPT TStr) (Ok VNone)) /\
  (loads w cfg s (VList [VBool true]) (LIST TInt) (Ok (VList [VBool true])) /\
   loads w cfg s (VList [VBool true]) (LIST (OPT TInt)) (Ok (VList [VInt 1]))).
Proof.
  exists W0, default_basic, default_strcons, C0, S2. split; [exact C0_std|]. split; [exact wf0|]. split; [exact S2_used|]. split; [reflexivity|].
  split; split; loads_now.
Qed.
Print Assumptions C65_refuted.

(** a type becomes Optional, in the same program *)
Lemma widened_same w basic strcons cfg env data : widened w basic strcons cfg env data w.
Proof.
  constructor; try (intros; reflexivity).
  - intro c. destruct (ci_nt (class_of w c)) as [l|]; [|exact I]. induction l; constructor; auto.
  - intro. apply same_fields.
  - intro. apply same_fields.
  - intro c. match goal with |- Forall2 ?R ?l _ => assert (X : forall l0, Forall2 R l0 l0) end; [|apply X].
    intro l0. induction l0; constructor; [split; [reflexivity|constructor]|assumption].
  - intro c. apply incl_refl.
  - intros c l E. exists l. auto.
Qed.
Definition v65 : value := dict [("x", VStr "1")].
Definition L65o : list ty := [OPT (CLS "Point"); CLS "Point"; TInt; TNone].
Example C65_ex_optional : let t := CLS "Point" in let t' := OPT (CLS "Point") in
  wider W0 default_basic default_strcons C0 env2 v65 t t' /\
  steady W0 default_basic C0 env2 S2 v65 t /\ well_formed W0 default_basic default_strcons C0 env2 v65 t /\
  steady W0 default_basic C0 env2 S2 v65 t' /\ well_formed W0 default_basic default_strcons C0 env2 v65 t' /\
  only_optionals W0 default_basic C0 env2 S2 v65 t' /\
  loads W0 C0 S2 v65 t' (Ok (VObj (CUser "Point") [("x", VInt 1); ("y", VInt 0)])).
Proof.
  assert (In65 : forall x, inside v65 x -> In x (all_inside 5 [v65])) by (intro x; apply inside_closed; vm_compute; reflexivity).
  assert (Dt : forall x, inside v65 x -> python_data x /\ keys_hashable W0 x).
  { intros x I. apply In65 in I. apply data_okb_spec. assert (F : forallb data_okb (all_inside 5 [v65]) = true) by (vm_compute; reflexivity).
    rewrite forallb_forall in F. exact (F x I). }
  assert (Rc : forall t, mem_ty t L65o = true -> forall t0, reach W0 (pep563 C0) env2 t t0 -> In t0 L65o).
  { intros t M t0. apply reach_closed; [vm_compute; reflexivity|exact M]. }
  assert (Wf : forall t, mem_ty t L65o = true -> well_formed W0 default_basic default_strcons C0 env2 v65 t).
  { intros t M. constructor; [|exact Dt|apply (W0_never C0 _ L65o); [vm_compute; reflexivity|exact M|vm_compute; reflexivity]].
    intros c R _. apply (Rc t M) in R. cbn in R. destruct R as [R|[R|[R|[R|[]]]]]; try discriminate R; injection R as <-;
      split; cbn; repeat constructor; cbn; intuition discriminate. }
  cbv zeta. split; [|split; [|split; [|split; [|split; [|split]]]]].
  - apply C65_rule_optional; [auto|intros x I; apply (Dt x I)|]. intros r I. apply In65 in I. vm_compute in I. intuition discriminate.
  - apply (steady_by W0 C0 env2 S2 L65o); vm_compute; reflexivity.
  - apply Wf. reflexivity.
  - apply (steady_by W0 C0 env2 S2 L65o); vm_compute; reflexivity.
  - apply Wf. reflexivity.
  - split; [|split].
    + intros n args R. apply (Rc (OPT (CLS "Point")) eq_refl) in R. cbn in R. destruct R as [R|[R|[R|[R|[]]]]]; try discriminate R. injection R as <- <-.
      exists (CLS "Point"). split; [left; reflexivity|]. intros x I. apply In65 in I. vm_compute in I. destruct I as [<-|[<-|[<-|[]]]];
        (eexists; split; [split; [|exists 50; vm_compute; reflexivity]; discriminate|]; first [left; eauto; fail|right; repeat eexists]).
    + intros c ms R E. apply (Rc (OPT (CLS "Point")) eq_refl) in R. cbn in R. destruct R as [R|[R|[R|[R|[]]]]]; try discriminate R; injection R as <-; discriminate E.
    + intros n kt vt c x R. apply (Rc (OPT (CLS "Point")) eq_refl) in R. cbn in R. destruct R as [R|[R|[R|[R|[]]]]]; discriminate R.
  - loads_now.
Qed.
