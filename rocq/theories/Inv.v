(** * Inv: invariants of the loader's state, and a small program logic *)

From Verif Require Import Loader Spec.

(** ** Association list lemmas *)
Lemma ty_get_cons_eq {A} t (a : A) l : ty_get t ((t, a) :: l) = Some a.
Proof. cbn. rewrite ty_eqb_refl. reflexivity. Qed.
Lemma ty_eqb_neq a b : ty_eqb a b = false <-> a <> b.
Proof.
  destruct (ty_eqb a b) eqn:E.
  - apply ty_eqb_eq in E. split; congruence.
  - split; [|reflexivity]. intros _ H. apply ty_eqb_eq in H. congruence.
Qed.
Lemma ty_get_cons {A} t t' (a : A) l :
  ty_get t ((t', a) :: l) = if ty_eqb t t' then Some a else ty_get t l.
Proof. reflexivity. Qed.
Lemma str_get_app {A} k (l1 l2 : list (string * A)) :
  str_get k (l1 ++ l2) = match str_get k l1 with Some a => Some a | None => str_get k l2 end.
Proof.
  induction l1 as [|[k' a] l1 IH]; [reflexivity|].
  cbn. destruct (String.eqb k k'); [reflexivity|exact IH].
Qed.
Lemma str_get_In {A} k (l : list (string * A)) a : str_get k l = Some a -> In (k, a) l.
Proof.
  induction l as [|[k' a'] l IH]; cbn; [discriminate|].
  destruct (String.eqb_spec k k') as [->|N]; [intros [= ->]; left; reflexivity|].
  intro H. right. apply IH. exact H.
Qed.
Lemma str_get_None {A} k (l : list (string * A)) : str_get k l = None <-> ~ In k (map fst l).
Proof.
  induction l as [|[k' a'] l IH]; cbn; [split; [intros _ []|reflexivity]|].
  destruct (String.eqb_spec k k') as [->|N].
  - split; [discriminate|]. intro H. exfalso. apply H. left. reflexivity.
  - rewrite IH. split; intro H; [intros [E|E]; [congruence|exact (H E)] | intro E; apply H; right; exact E].
Qed.
Lemma str_get_Some_iff {A} k (l : list (string * A)) : (exists a, str_get k l = Some a) <-> In k (map fst l).
Proof.
  destruct (str_get k l) eqn:E.
  - split; [intros _|intros _; eauto]. apply str_get_In in E. apply (in_map fst) in E. exact E.
  - apply str_get_None in E. split; [intros [a [=]]|contradiction].
Qed.
Lemma mem_str_In s l : mem_str s l = true <-> In s l.
Proof.
  unfold mem_str. rewrite existsb_exists. split.
  - intros [x [Hx E]]. apply String.eqb_eq in E. congruence.
  - intro H. exists s. split; [exact H|apply String.eqb_refl].
Qed.
Lemma mem_cid_In c l : mem_cid c l = true <-> In c l.
Proof.
  unfold mem_cid. rewrite existsb_exists. split.
  - intros [x [Hx E]]. apply cid_eqb_eq in E. congruence.
  - intro H. exists c. split; [exact H|apply cid_eqb_refl].
Qed.
Lemma mem_ty_In t l : mem_ty t l = true <-> In t l.
Proof.
  unfold mem_ty. rewrite existsb_exists. split.
  - intros [x [Hx E]]. apply ty_eqb_eq in E. congruence.
  - intro H. exists t. split; [exact H|apply ty_eqb_refl].
Qed.
Lemma same_members_iff a b : same_members a b = true <-> forall x, In x a <-> In x b.
Proof.
  unfold same_members. rewrite andb_true_iff, !forallb_forall. split.
  - intros [H1 H2] x. split; intro H; apply mem_ty_In; auto.
  - intro H. split; intros x Hx; apply mem_ty_In; apply H; exact Hx.
Qed.
Lemma same_type_refl t : same_type t t = true.
Proof.
  destruct t as [ |n o a| | | | | | ]; try apply ty_eqb_refl. destruct o; try apply ty_eqb_refl.
  destruct a as [a|]; [|apply ty_eqb_refl]. cbn. apply same_members_iff. reflexivity.
Qed.
Lemma same_type_args t t' args : same_type t t' = true -> ty_args t' = Some args ->
  exists args', ty_args t = Some args' /\ forall x, In x args' <-> In x args.
Proof.
  intros S A.
  assert (D : t = t' \/ exists n a n' b, t = TGen n OUnion (Some a) /\ t' = TGen n' OUnion (Some b) /\ same_members a b = true).
  { destruct t as [ |n o a| | | | | | ]; try (left; apply ty_eqb_eq; exact S).
    destruct o; try (left; apply ty_eqb_eq; exact S). destruct a as [a|]; [|left; apply ty_eqb_eq; exact S].
    destruct t' as [ |n' o' b| | | | | | ]; try (left; apply ty_eqb_eq; exact S).
    destruct o'; try (left; apply ty_eqb_eq; exact S). destruct b as [b|]; [|left; apply ty_eqb_eq; exact S].
    right. exists n, a, n', b. repeat split. exact S. }
  destruct D as [->|[n [a [n' [b [-> [-> D]]]]]]]; [exists args; split; [exact A|reflexivity]|].
  cbn in A. injection A as <-. exists a. split; [reflexivity|]. apply same_members_iff. exact D.
Qed.
Lemma same_type_trans t t' u : same_type t t' = true -> same_type t u = same_type t' u.
Proof.
  intro S.
  assert (D : t = t' \/ exists n a n' b, t = TGen n OUnion (Some a) /\ t' = TGen n' OUnion (Some b) /\ same_members a b = true).
  { destruct t as [ |n o a| | | | | | ]; try (left; apply ty_eqb_eq; exact S).
    destruct o; try (left; apply ty_eqb_eq; exact S). destruct a as [a|]; [|left; apply ty_eqb_eq; exact S].
    destruct t' as [ |n' o' b| | | | | | ]; try (left; apply ty_eqb_eq; exact S).
    destruct o'; try (left; apply ty_eqb_eq; exact S). destruct b as [b|]; [|left; apply ty_eqb_eq; exact S].
    right. exists n, a, n', b. repeat split. exact S. }
  destruct D as [->|[n [a [n' [b [-> [-> D]]]]]]]; [reflexivity|].
  rewrite same_members_iff in D.
  assert (X : forall z, same_members a z = same_members b z).
  { intro z. destruct (same_members a z) eqn:E1, (same_members b z) eqn:E2; try reflexivity; exfalso.
    - rewrite same_members_iff in E1. assert (E : same_members b z = true); [|congruence]. apply same_members_iff.
      intro x. rewrite <- D. apply E1.
    - rewrite same_members_iff in E2. assert (E : same_members a z = true); [|congruence]. apply same_members_iff.
      intro x. rewrite D. apply E2. }
  assert (F : forall m c, same_type (TGen m OUnion (Some c)) u =
     match u with TGen _ OUnion (Some z) => same_members c z | _ => false end).
  { intros m c. destruct u as [ |nu ou au| | | | | | ]; try reflexivity. destruct ou, au; try reflexivity; cbn [same_type]; apply ty_eqb_neq; discriminate. }
  rewrite !F. destruct u as [ |nu ou au| | | | | | ]; try reflexivity. destruct ou; try reflexivity. destruct au; [apply X|reflexivity].
Qed.
Lemma same_get_cons {A} t t' (a : A) l : same_get t ((t', a) :: l) = if same_type t t' then Some a else same_get t l.
Proof. reflexivity. Qed.
Lemma same_get_trans {A} t t' (l : list (ty * A)) : same_type t t' = true -> same_get t l = same_get t' l.
Proof.
  intro S. induction l as [|[u a] l IH]; [reflexivity|]. cbn [same_get]. rewrite (same_type_trans t t' u S), IH. reflexivity.
Qed.
Lemma same_get_cons_None {A} t t' (a b : A) l :
  same_get t' l = None -> same_get t l = Some b -> same_get t ((t', a) :: l) = Some b.
Proof.
  intros N G. rewrite same_get_cons. destruct (same_type t t') eqn:E; [|exact G].
  rewrite (same_get_trans t t' l E) in G. congruence.
Qed.

(** ** Any preorder on states preserved by the elementary updates is
       preserved by every load *)
Section Preorder.
  Variable w : world.
  Variable cfg : config.
  Variable R : lstate -> lstate -> Prop.
  Hypothesis Rrefl : forall s, R s s.
  Hypothesis Rtrans : forall a b c, R a b -> R b c -> R a c.
  Hypothesis Rindex : forall s t h,
      ty_get t (st_index s) = None -> find_handler cfg t = POk h -> R s (set_index (cons (t, h)) s).
  Hypothesis Rreg : forall s t, R s (register w t s).
  Hypothesis Rfields : forall s c fs oi,
      ty_get (TClass c) (st_fields s) = None -> ci_dc (class_of w c) = Some fs ->
      dataclass_info w cfg c fs = POk oi ->
      R s (set_fields (cons (TClass c, oi)) s).
  Hypothesis Rdisc : forall s t args,
      same_get t (st_disc s) = None -> ty_args t = Some args ->
      R s (set_disc (cons (t, build_disc w s args)) s).
  Hypothesis Rstrip : forall s c, ci_td (class_of w c) <> None -> R s (set_stripped (cons c) s).

  Definition pr {A} (m : M A) : Prop := forall s, R s (snd (m s)).

  Lemma pr_ret {A} (a : A) : pr (ret a). Proof. intro s. apply Rrefl. Qed.
  Lemma pr_raise {A} e : pr (@raise lstate A e). Proof. intro s. apply Rrefl. Qed.
  Lemma pr_lift {A} (r : pyres A) : pr (lift r).
  Proof. destruct r; [apply pr_ret|apply pr_raise]. Qed.
  Lemma pr_get : pr get_st. Proof. intro s. apply Rrefl. Qed.
  Lemma pr_bind {A B} (m : M A) (f : A -> M B) : pr m -> (forall a, pr (f a)) -> pr (bind m f).
  Proof.
    intros H Hf s. unfold bind. specialize (H s). destruct (m s) as [[a|e|] s1]; cbn in *; auto.
    eapply Rtrans; [exact H|apply Hf].
  Qed.
  Lemma pr_catch {A} (m : M A) f : pr m -> (forall e, pr (f e)) -> pr (catch m f).
  Proof.
    intros H Hf s. unfold catch. specialize (H s). destruct (m s) as [[a|e|] s1]; cbn in *; auto.
    eapply Rtrans; [exact H|apply Hf].
  Qed.
  Lemma pr_attempt {A} (m : M A) : pr m -> pr (attempt m).
  Proof.
    intros H s. unfold attempt. specialize (H s). destruct (m s) as [[a|e|] s1]; cbn in *; auto.
  Qed.
  Lemma pr_lookup nf t : pr (lookup_handler cfg nf t).
  Proof.
    intro s. unfold lookup_handler. destruct (ty_get t (st_index s)) eqn:E; [apply Rrefl|].
    destruct (find_handler cfg t) as [h|[]] eqn:F; cbn; auto.
  Qed.

  Hint Resolve pr_ret pr_raise pr_lift pr_get pr_lookup : prdb.
  Ltac pr_step :=
    first
      [ match goal with H : forall h v t, pr _ |- _ => apply H end
      | solve [auto with prdb]
      | apply pr_bind; [|intro]
      | apply pr_catch; [|intro]
      | apply pr_attempt
      | match goal with
        | |- pr (match ?x with _ => _ end) => destruct x
        | |- pr (let _ := _ in _) => cbv zeta
        end ].
  Ltac pr_auto := repeat (cbv beta; pr_step).

  Variable call : handler -> value -> ty -> M value.
  Hypothesis Hcall : forall h v t, pr (call h v t).

  Lemma pr_load_with v t a : pr (load_with w cfg call v t a).
  Proof using Rrefl Rtrans Rindex Rreg Hcall.
    unfold load_with. apply pr_bind.
    - intro s. destruct (ty_get t (st_index s)) eqn:E; [apply Rrefl|].
      destruct (find_handler cfg t) as [h|[]] eqn:F; cbn; auto.
      eapply Rtrans; [apply Rindex; eassumption|apply Rreg].
    - intro h. pr_auto.
  Qed.
  Hint Resolve pr_load_with : prdb.
  Lemma pr_dict_fast kt vt kf vf d acc : pr (dict_fast w cfg call kt vt kf vf d acc).
  Proof using Rrefl Rtrans Hcall.
    revert acc. induction d as [|[k x] d IH]; intro acc; cbn [dict_fast]; pr_auto. all: apply IH.
  Qed.
  Lemma pr_dict_slow kt vt d acc : pr (dict_slow w cfg call kt vt d acc).
  Proof using Rrefl Rtrans Rindex Rreg Hcall.
    revert acc. induction d as [|[k x] d IH]; intro acc; cbn [dict_slow]; pr_auto. all: apply IH.
  Qed.
  Lemma pr_item_error {A} v t i e : pr (@item_error A v t i e).
  Proof using Rrefl. unfold item_error. pr_auto. Qed.
  Hint Resolve pr_item_error : prdb.
  Lemma pr_iter_loop k mp f v t l i acc : (forall x, pr (f x)) -> pr (iter_loop w k mp f v t l i acc).
  Proof using Rrefl Rtrans.
    intro Hf. revert i acc. induction l as [|x l IH]; intros i acc; cbn [iter_loop]; pr_auto; auto.
    all: apply IH.
  Qed.
  Lemma pr_tuple_loop v t l ts i acc : pr (tuple_loop cfg call v t l ts i acc).
  Proof using Rrefl Rtrans Hcall.
    revert l i acc. induction ts as [|et ts IH]; intros [|x l] i acc; cbn [tuple_loop]; pr_auto.
    { intro s. destruct (ty_get et (st_index s)); [apply Rrefl|apply pr_lift]. }
    all: apply IH.
  Qed.
  Lemma pr_fields_loop fs hints v t d acc : pr (fields_loop cfg call fs hints v t d acc).
  Proof using Rrefl Rtrans Rindex Hcall.
    revert acc. induction d as [|[k x] d IH]; intro acc; cbn [fields_loop]; pr_auto. all: apply IH.
  Qed.
  Lemma pr_try_members v t ts n r exs : pr (try_members cfg call v t ts n r exs).
  Proof using Rrefl Rtrans Rindex Hcall.
    revert n r exs. induction ts as [|x ts IH]; intros n r exs; cbn [try_members]; pr_auto.
    all: apply IH.
  Qed.
  Lemma pr_enum_hints v t ts exs : pr (enum_hints w cfg call v t ts exs).
  Proof using Rrefl Rtrans Rindex Rreg Hcall.
    revert exs. induction ts as [|x ts IH]; intros exs; cbn [enum_hints]; pr_auto. all: apply IH.
  Qed.
  Lemma pr_run_prog p : pr (run_prog w cfg call p).
  Proof using Rrefl Rtrans Rindex Rreg Hcall.
    induction p as [v|e|v t a k IH]; cbn [run_prog]; pr_auto. all: apply IH.
  Qed.
  Hint Resolve pr_dict_fast pr_dict_slow pr_tuple_loop pr_fields_loop pr_try_members
       pr_enum_hints pr_run_prog : prdb.
  Lemma pr_iterload k v t : pr (iterload w cfg call k v t).
  Proof using Rrefl Rtrans Rindex Hcall.
    unfold iterload. pr_auto; apply pr_iter_loop; intro x; unfold iter_item; pr_auto.
  Qed.
  Hint Resolve pr_iterload : prdb.
  Lemma pr_objloader fs nec hints v t : pr (objloader w cfg call fs nec hints v t).
  Proof using Rrefl Rtrans Rindex Hcall. unfold objloader. pr_auto. Qed.
  Lemma pr_mangle names v t : pr (mangle cfg names v t).
  Proof using Rrefl. unfold mangle. pr_auto. Qed.
  Hint Resolve pr_objloader pr_mangle : prdb.

  Lemma pr_body h v t : pr (body w cfg call h v t).
  Proof using Rrefl Rtrans Rindex Rreg Rfields Rdisc Rstrip Hcall.
    destruct h; cbn [body]; auto with prdb.
    - unfold noneload. pr_auto.
    - unfold unionload. destruct (ty_args t) as [args|] eqn:Ea; pr_auto.
      unfold prefer. pr_auto. intro s. destruct (same_get t (st_disc s)) eqn:E; cbn; auto.
    - unfold basicload. pr_auto.
    - unfold enumload. pr_auto.
    - unfold tupleload. pr_auto.
    - unfold dictload. pr_auto.
      intro s. destruct (ty_get t1 (st_index s)) eqn:E; [apply Rrefl|].
      destruct (find_handler cfg t1) as [h|[]] eqn:F; cbn; auto.
    - unfold namedtupleload. pr_auto.
    - unfold dataclassload. pr_auto.
      intro s. destruct (ty_get t (st_fields s)) eqn:E; [apply Rrefl|].
      destruct t; cbn; auto. destruct (ci_dc (class_of w c)) eqn:D; cbn; auto.
      destruct (dataclass_info w cfg c l) eqn:O; cbn; auto. eapply Rfields; eassumption.
    - unfold forwardrefload. pr_auto.
    - unfold literalload. pr_auto.
    - unfold typeddictload. destruct t; try solve [pr_auto].
      destruct (ci_td (class_of w c)) eqn:D; pr_auto.
      intro s. unfold mod_st; cbn. destruct (pep563 cfg); auto. apply Rstrip. congruence.
    - unfold datetimeload. pr_auto.
    - unfold patternload. pr_auto.
    - unfold timedeltaload. pr_auto.
    - unfold strconsload. pr_auto.
    - unfold attrload. pr_auto.
    - unfold newtypeload. pr_auto.
  Qed.
End Preorder.

Section PreorderRun.
  Variable w : world.
  Variable cfg : config.
  Variable R : lstate -> lstate -> Prop.
  Hypothesis Rrefl : forall s, R s s.
  Hypothesis Rtrans : forall a b c, R a b -> R b c -> R a c.
  Hypothesis Rindex : forall s t h,
      ty_get t (st_index s) = None -> find_handler cfg t = POk h -> R s (set_index (cons (t, h)) s).
  Hypothesis Rreg : forall s t, R s (register w t s).
  Hypothesis Rfields : forall s c fs oi,
      ty_get (TClass c) (st_fields s) = None -> ci_dc (class_of w c) = Some fs ->
      dataclass_info w cfg c fs = POk oi ->
      R s (set_fields (cons (TClass c, oi)) s).
  Hypothesis Rdisc : forall s t args,
      same_get t (st_disc s) = None -> ty_args t = Some args ->
      R s (set_disc (cons (t, build_disc w s args)) s).
  Hypothesis Rstrip : forall s c, ci_td (class_of w c) <> None -> R s (set_stripped (cons c) s).

  Lemma pr_run n h v t s : R s (snd (run w cfg n h v t s)).
  Proof using Rrefl Rtrans Rindex Rreg Rfields Rdisc Rstrip.
    revert h v t s. induction n as [|n IH]; intros h v t s; cbn [run]; [apply Rrefl|].
    apply (pr_body w cfg R); auto.
  Qed.
  Lemma pr_load n v t a s : R s (snd (load_ann w cfg n v t a s)).
  Proof using Rrefl Rtrans Rindex Rreg Rfields Rdisc Rstrip.
    apply (pr_load_with w cfg R); auto. intros h v' t' s'. apply pr_run.
  Qed.
End PreorderRun.

(** ** Coherence of the caches: they only hold what would be computed *)
Record coh (w : world) (cfg : config) (s : lstate) : Prop := mkCoh {
  coh_index : forall t h, ty_get t (st_index s) = Some h -> find_handler cfg t = POk h;
  coh_fields : forall t oi, ty_get t (st_fields s) = Some oi ->
    exists c fs, t = TClass c /\ ci_dc (class_of w c) = Some fs /\ dataclass_info w cfg c fs = POk oi;
  coh_disc : forall t dc, same_get t (st_disc s) = Some dc ->
    exists args args' s', ty_args t = Some args /\ (forall x, In x args <-> In x args') /\ dc = build_disc w s' args'
}.

Lemma coh_fresh w cfg fr st : coh w cfg (fresh fr st).
Proof. split; cbn; discriminate. Qed.

Lemma coh_set_index w cfg s t h :
  find_handler cfg t = POk h -> coh w cfg s -> coh w cfg (set_index (cons (t, h)) s).
Proof.
  intros F [H1 H2 H3]. split; cbn [st_index st_fields st_disc set_index]; auto.
  intros t' h'. rewrite ty_get_cons. destruct (ty_eqb t' t) eqn:E; [|apply H1].
  apply ty_eqb_eq in E. congruence.
Qed.
Lemma coh_register w cfg s t : coh w cfg s -> coh w cfg (register w t s).
Proof.
  intros [H1 H2 H3]. unfold register.
  destruct (st_frefs s), (w_name w t); try (split; assumption).
  destruct (str_get s0 l); split; assumption.
Qed.
Lemma coh_set_fields w cfg s c fs oi :
  ci_dc (class_of w c) = Some fs -> dataclass_info w cfg c fs = POk oi ->
  coh w cfg s -> coh w cfg (set_fields (cons (TClass c, oi)) s).
Proof.
  intros D O [H1 H2 H3]. split; cbn [st_index st_fields st_disc set_fields]; auto.
  intros t' oi'. rewrite ty_get_cons. destruct (ty_eqb t' (TClass c)) eqn:E; [|apply H2].
  apply ty_eqb_eq in E. intros [= <-]. eauto.
Qed.
Lemma coh_set_disc w cfg s t args s' :
  ty_args t = Some args -> coh w cfg s -> coh w cfg (set_disc (cons (t, build_disc w s' args)) s).
Proof.
  intros D [H1 H2 H3]. split; cbn [st_index st_fields st_disc set_disc]; auto.
  intros t' dc. rewrite same_get_cons. destruct (same_type t' t) eqn:E; [|apply H3].
  intros [= <-]. destruct (same_type_args _ _ _ E D) as [a [A Q]]. eauto 6.
Qed.
Lemma coh_set_stripped w cfg s f : coh w cfg s -> coh w cfg (set_stripped f s).
Proof. intros [H1 H2 H3]. split; assumption. Qed.

(** ** Order on states: names and cached entries are never rebound *)
Record st_le (s s' : lstate) : Prop := mkLe {
  le_index : forall t h, ty_get t (st_index s) = Some h -> ty_get t (st_index s') = Some h;
  le_frefs : match st_frefs s, st_frefs s' with
             | None, None => True
             | Some a, Some b => forall n t, str_get n a = Some t -> str_get n b = Some t
             | _, _ => False
             end;
  le_fields : forall t oi, ty_get t (st_fields s) = Some oi -> ty_get t (st_fields s') = Some oi;
  le_disc : forall t dc, same_get t (st_disc s) = Some dc -> same_get t (st_disc s') = Some dc;
  le_strip : forall c, In c (st_stripped s) -> In c (st_stripped s')
}.
Lemma st_le_refl s : st_le s s.
Proof. split; auto. destruct (st_frefs s); auto. Qed.
Lemma st_le_trans a b c : st_le a b -> st_le b c -> st_le a c.
Proof.
  intros [A1 A2 A3 A4 A5] [B1 B2 B3 B4 B5]. split; auto.
  destruct (st_frefs a), (st_frefs b), (st_frefs c); auto; contradiction.
Qed.

(** the preorder: coherence is kept and nothing is rebound *)
Definition good_step (w : world) (cfg : config) (s s' : lstate) : Prop :=
  (coh w cfg s -> coh w cfg s') /\ st_le s s'.

Lemma ty_get_cons_None {A} t t' (a b : A) l :
  ty_get t' l = None -> ty_get t l = Some b -> ty_get t ((t', a) :: l) = Some b.
Proof.
  intros N G. rewrite ty_get_cons. destruct (ty_eqb t t') eqn:E; [|exact G].
  apply ty_eqb_eq in E. congruence.
Qed.

Lemma frefs_refl s : match st_frefs s, st_frefs s with
             | None, None => True
             | Some a, Some b => forall n t, str_get n a = Some t -> str_get n b = Some t
             | _, _ => False
             end.
Proof. destruct (st_frefs s); auto. Qed.

Lemma register_le w t s : st_le s (register w t s).
Proof.
  unfold register. destruct (st_frefs s) as [fr|] eqn:F; [|apply st_le_refl].
  destruct (w_name w t) as [n|]; [|apply st_le_refl].
  destruct (str_get n fr) eqn:G; [apply st_le_refl|].
  split; cbn; auto. rewrite F. intros m t' H. rewrite str_get_app, H. reflexivity.
Qed.

Ltac good_tac :=
  [> intro; split; [auto|apply st_le_refl]
   | intros ? ? ? [? ?] [? ?]; split; [auto|eapply st_le_trans; eassumption]
   | intros; split; [intro; apply coh_set_index; assumption|split; cbn [st_index st_frefs st_fields st_disc st_stripped set_index]; try apply frefs_refl; auto];
     intros; apply ty_get_cons_None; assumption
   | intros; split; [apply coh_register|apply register_le]
   | intros; split; [intro; eapply coh_set_fields; eassumption|split; cbn [st_index st_frefs st_fields st_disc st_stripped set_fields]; try apply frefs_refl; auto];
            intros; apply ty_get_cons_None; assumption
   | intros; split; [intro; eapply coh_set_disc; eassumption|split; cbn [st_index st_frefs st_fields st_disc st_stripped set_disc]; try apply frefs_refl; auto];
            intros; apply same_get_cons_None; assumption
   | intros; split; [apply coh_set_stripped|split; cbn [st_index st_frefs st_fields st_disc st_stripped set_stripped]; try apply frefs_refl; auto];
     intros; right; assumption ].

Lemma good_load w cfg n v t a s : good_step w cfg s (snd (load_ann w cfg n v t a s)).
Proof. apply (pr_load w cfg (good_step w cfg)); good_tac. Qed.
Lemma good_run w cfg n h v t s : good_step w cfg s (snd (run w cfg n h v t s)).
Proof. apply (pr_run w cfg (good_step w cfg)); good_tac. Qed.

Lemma coh_load w cfg n v t a s : coh w cfg s -> coh w cfg (snd (load_ann w cfg n v t a s)).
Proof. apply good_load. Qed.

(** ** A Hoare logic for state and exceptions *)
Definition hl {S A} (I : S -> Prop) (m : MS S A) (Q : A -> Prop) (E : exn -> Prop) : Prop :=
  forall s, I s ->
    match m s with
    | (Ok a, s') => I s' /\ Q a
    | (Exc e, s') => I s' /\ E e
    | (OOF, s') => I s'
    end.

Section Rules.
  Context {S : Type}.
  Variable I : S -> Prop.

  Lemma hl_ret {A} (a : A) (Q : A -> Prop) E : Q a -> hl I (ret a) Q E.
  Proof. intros H s Hs. split; assumption. Qed.
  Lemma hl_raise {A} e (Q : A -> Prop) (E : exn -> Prop) : E e -> hl I (raise e) Q E.
  Proof. intros H s Hs. split; assumption. Qed.
  Lemma hl_bind {A B} (m : MS S A) (f : A -> MS S B) Q1 Q E :
    hl I m Q1 E -> (forall a, Q1 a -> hl I (f a) Q E) -> hl I (bind m f) Q E.
  Proof.
    intros Hm Hf s Hs. unfold bind. specialize (Hm s Hs).
    destruct (m s) as [[a|e|] s1]; try exact Hm. destruct Hm as [I1 Q1a]. exact (Hf a Q1a s1 I1).
  Qed.
  Lemma hl_catch {A} (m : MS S A) f Q E1 E :
    hl I m Q E1 -> (forall e, E1 e -> hl I (f e) Q E) -> hl I (catch m f) Q E.
  Proof.
    intros Hm Hf s Hs. unfold catch. specialize (Hm s Hs).
    destruct (m s) as [[a|e|] s1]; try exact Hm. destruct Hm as [I1 Q1a]. exact (Hf e Q1a s1 I1).
  Qed.
  Lemma hl_attempt {A} (m : MS S A) (Q : A -> Prop) (E1 E : exn -> Prop) :
    hl I m Q E1 -> hl I (attempt m) (fun r => match r with inl a => Q a | inr e => E1 e end) E.
  Proof.
    intros Hm s Hs. unfold attempt. specialize (Hm s Hs).
    destruct (m s) as [[a|e|] s1]; exact Hm.
  Qed.
  Lemma hl_get (E : exn -> Prop) : hl I get_st I E.
  Proof. intros s Hs. split; assumption. Qed.
  Lemma hl_mod f (E : exn -> Prop) : (forall s, I s -> I (f s)) -> hl I (mod_st f) (fun _ => True) E.
  Proof. intros H s Hs. split; [apply H; assumption|exact Logic.I]. Qed.
  Lemma hl_weak {A} (m : MS S A) (Q Q' : A -> Prop) (E E' : exn -> Prop) :
    hl I m Q E -> (forall a, Q a -> Q' a) -> (forall e, E e -> E' e) -> hl I m Q' E'.
  Proof.
    intros Hm HQ HE s Hs. specialize (Hm s Hs).
    destruct (m s) as [[a|e|] s1]; intuition.
  Qed.
  Lemma hl_lift {A} (r : pyres A) (Q : A -> Prop) (E : exn -> Prop) :
    (forall a, r = POk a -> Q a) -> (forall k, r = PExc k -> E (XRaw k)) -> hl I (lift r) Q E.
  Proof. intros HQ HE. destruct r; [apply hl_ret; auto|apply hl_raise; auto]. Qed.
  (** exceptions left aside *)
  Lemma hl_true {A} (m : MS S A) (Q : A -> Prop) :
    (forall s, I s -> I (snd (m s))) -> (forall s a, I s -> fst (m s) = Ok a -> Q a) ->
    hl I m Q (fun _ => True).
  Proof.
    intros H HQ s Hs. specialize (H s Hs). specialize (HQ s).
    destruct (m s) as [[a|e|] s1]; cbn in *; auto.
  Qed.
End Rules.
