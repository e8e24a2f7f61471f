(** * Fuel: more fuel never changes a result (towards C41) *)

From Verif Require Import Loader Dumper.

(** [m1] is [m2] where it does not run out of fuel *)
Definition ext {S A} (m1 m2 : MS S A) : Prop := forall s, fst (m1 s) = OOF \/ m1 s = m2 s.

Lemma ext_refl {S A} (m : MS S A) : ext m m.
Proof. intro s. right. reflexivity. Qed.

Lemma ext_trans {S A} (a b c : MS S A) : ext a b -> ext b c -> ext a c.
Proof.
  intros H1 H2 s. destruct (H1 s) as [E|E]; [left; exact E|].
  destruct (H2 s) as [E2|E2]; [left; rewrite E; exact E2|right; congruence].
Qed.

Lemma ext_bind {S A B} (m1 m2 : MS S A) (f1 f2 : A -> MS S B) :
  ext m1 m2 -> (forall a, ext (f1 a) (f2 a)) -> ext (bind m1 f1) (bind m2 f2).
Proof.
  intros H Hf s. unfold bind. specialize (H s).
  destruct (m1 s) as [[a|e|] s1]; destruct H as [H|H]; cbn in H; try discriminate;
    try rewrite <- H; auto. apply Hf.
Qed.

Lemma ext_catch {S A} (m1 m2 : MS S A) (f1 f2 : exn -> MS S A) :
  ext m1 m2 -> (forall e, ext (f1 e) (f2 e)) -> ext (catch m1 f1) (catch m2 f2).
Proof.
  intros H Hf s. unfold catch. specialize (H s).
  destruct (m1 s) as [[a|e|] s1]; destruct H as [H|H]; cbn in H; try discriminate;
    try rewrite <- H; auto. apply Hf.
Qed.

Lemma ext_attempt {S A} (m1 m2 : MS S A) : ext m1 m2 -> ext (attempt m1) (attempt m2).
Proof.
  intros H s. unfold attempt. specialize (H s).
  destruct (m1 s) as [[a|e|] s1]; destruct H as [H|H]; cbn in H; try discriminate;
    try rewrite <- H; auto.
Qed.

Create HintDb fuel.
#[export] Hint Resolve ext_refl : fuel.

Ltac ext_step :=
  first
    [ apply ext_refl
    | match goal with H : forall h v t, ext _ _ |- _ => apply H end
    | solve [auto with fuel]
    | apply ext_bind; [|intro]
    | apply ext_catch; [|intro]
    | apply ext_attempt
    | match goal with
      | |- ext (let _ := _ in _) _ => cbv zeta
      | |- ext (match ?x with _ => _ end) _ => destruct x
      end ].
Ltac ext_auto := repeat (cbv beta; ext_step).

Section LoadFuel.
  Variable w : world.
  Variable cfg : config.
  Variables c1 c2 : handler -> value -> ty -> M value.
  Hypothesis Hc : forall h v t, ext (c1 h v t) (c2 h v t).

  Lemma load_with_ext v t a : ext (load_with w cfg c1 v t a) (load_with w cfg c2 v t a).
  Proof using Hc. unfold load_with. ext_auto. Qed.
  Hint Resolve load_with_ext : fuel.

  Lemma dict_fast_ext kt vt kf vf d acc :
    ext (dict_fast w cfg c1 kt vt kf vf d acc) (dict_fast w cfg c2 kt vt kf vf d acc).
  Proof using Hc.
    revert acc. induction d as [|[k x] d IH]; intro acc; cbn [dict_fast]; ext_auto.
    all: apply IH.
  Qed.
  Lemma dict_slow_ext kt vt d acc :
    ext (dict_slow w cfg c1 kt vt d acc) (dict_slow w cfg c2 kt vt d acc).
  Proof using Hc.
    revert acc. induction d as [|[k x] d IH]; intro acc; cbn [dict_slow]; ext_auto.
    all: apply IH.
  Qed.
  Lemma iter_loop_ext k mp f1 f2 v t l i acc :
    (forall x, ext (f1 x) (f2 x)) ->
    ext (iter_loop w k mp f1 v t l i acc) (iter_loop w k mp f2 v t l i acc).
  Proof using.
    intro Hf. revert i acc. induction l as [|x l IH]; intros i acc; cbn [iter_loop]; ext_auto.
    all: apply IH.
  Qed.
  Lemma tuple_loop_ext v t l ts i acc :
    ext (tuple_loop cfg c1 v t l ts i acc) (tuple_loop cfg c2 v t l ts i acc).
  Proof using Hc.
    revert l i acc. induction ts as [|et ts IH]; intros [|x l] i acc; cbn [tuple_loop]; ext_auto.
    all: apply IH.
  Qed.
  Lemma fields_loop_ext fs hints v t d acc :
    ext (fields_loop cfg c1 fs hints v t d acc) (fields_loop cfg c2 fs hints v t d acc).
  Proof using Hc.
    revert acc. induction d as [|[k x] d IH]; intro acc; cbn [fields_loop]; ext_auto.
    all: apply IH.
  Qed.
  Lemma try_members_ext v t ts n r exs :
    ext (try_members cfg c1 v t ts n r exs) (try_members cfg c2 v t ts n r exs).
  Proof using Hc.
    revert n r exs. induction ts as [|x ts IH]; intros n r exs; cbn [try_members]; ext_auto.
    all: apply IH.
  Qed.
  Lemma enum_hints_ext v t ts exs :
    ext (enum_hints w cfg c1 v t ts exs) (enum_hints w cfg c2 v t ts exs).
  Proof using Hc.
    revert exs. induction ts as [|x ts IH]; intros exs; cbn [enum_hints]; ext_auto.
    all: apply IH.
  Qed.
  Lemma run_prog_ext p : ext (run_prog w cfg c1 p) (run_prog w cfg c2 p).
  Proof using Hc.
    induction p as [v|e|v t a k IH]; cbn [run_prog]; ext_auto. all: apply IH.
  Qed.
  Hint Resolve dict_fast_ext dict_slow_ext tuple_loop_ext fields_loop_ext try_members_ext
       enum_hints_ext run_prog_ext : fuel.
  Lemma iterload_ext k v t : ext (iterload w cfg c1 k v t) (iterload w cfg c2 k v t).
  Proof using Hc.
    unfold iterload. ext_auto; apply iter_loop_ext; intro y; unfold iter_item; ext_auto.
  Qed.
  Hint Resolve iterload_ext : fuel.
  Lemma objloader_ext fs nec hints v t : ext (objloader w cfg c1 fs nec hints v t) (objloader w cfg c2 fs nec hints v t).
  Proof using Hc. unfold objloader. ext_auto. Qed.
  Hint Resolve objloader_ext : fuel.

  Lemma body_ext h v t : ext (body w cfg c1 h v t) (body w cfg c2 h v t).
  Proof using Hc.
    destruct h; cbn [body]; auto with fuel.
    - unfold unionload. ext_auto.
    - unfold enumload. ext_auto.
    - unfold tupleload. ext_auto.
    - unfold dictload. ext_auto.
    - unfold namedtupleload. ext_auto.
    - unfold dataclassload. ext_auto.
    - unfold forwardrefload. ext_auto.
    - unfold typeddictload. ext_auto.
    - unfold attrload. ext_auto.
    - unfold newtypeload. ext_auto.
  Qed.
End LoadFuel.

Lemma run_step w cfg n h v t : ext (run w cfg n h v t) (run w cfg (S n) h v t).
Proof.
  revert h v t. induction n as [|n IH]; intros h v t.
  - intro s. left. reflexivity.
  - cbn [run]. apply body_ext. exact IH.
Qed.

Lemma run_mono w cfg n m h v t : n <= m -> ext (run w cfg n h v t) (run w cfg m h v t).
Proof.
  intro L. induction L as [|m L IH]; [apply ext_refl|].
  eapply ext_trans; [exact IH|apply run_step].
Qed.

Lemma load_mono w cfg n m v t a : n <= m -> ext (load_ann w cfg n v t a) (load_ann w cfg m v t a).
Proof. intro L. apply load_with_ext. intros h v' t'. apply run_mono. exact L. Qed.

Lemma ext_agree {S A} (m1 m2 : MS S A) s :
  ext m1 m2 -> fst (m1 s) <> OOF -> m1 s = m2 s.
Proof. intros H N. destruct (H s); [contradiction|assumption]. Qed.

Lemma load_fuel_independent w cfg n m v t a s :
  fst (load_ann w cfg n v t a s) <> OOF -> fst (load_ann w cfg m v t a s) <> OOF ->
  load_ann w cfg n v t a s = load_ann w cfg m v t a s.
Proof.
  intros H1 H2. destruct (Nat.le_ge_cases n m) as [L|L].
  - apply ext_agree; [apply load_mono; exact L|exact H1].
  - symmetry. apply ext_agree; [apply load_mono; exact L|exact H2].
Qed.

Section DumpFuel.
  Variable w : world.
  Variable cfg : dconfig.
  Variables c1 c2 : dhandler -> value -> ty -> DM value.
  Hypothesis Hc : forall h v t, ext (c1 h v t) (c2 h v t).

  Lemma dump_with_ext v t : ext (dump_with cfg c1 v t) (dump_with cfg c2 v t).
  Proof using Hc. unfold dump_with. ext_auto. Qed.
  Hint Resolve dump_with_ext : fuel.
  Lemma attr_loop_ext v fs acc : ext (attr_loop cfg c1 v fs acc) (attr_loop cfg c2 v fs acc).
  Proof using Hc.
    revert acc. induction fs as [|f fs IH]; intro acc; cbn [attr_loop]; ext_auto. all: apply IH.
  Qed.
  Lemma nt_loop_ext ds fs acc : ext (nt_loop cfg c1 ds fs acc) (nt_loop cfg c2 ds fs acc).
  Proof using Hc.
    revert acc. induction fs as [|[k x] fs IH]; intro acc; cbn [nt_loop]; ext_auto. all: apply IH.
  Qed.
  Lemma dc_loop_ext v fs i ns acc : ext (dc_loop cfg c1 v fs i ns acc) (dc_loop cfg c2 v fs i ns acc).
  Proof using Hc.
    revert acc. induction ns as [|k ns IH]; intro acc; cbn [dc_loop]; ext_auto. all: apply IH.
  Qed.
  Lemma dump_list_ext l acc : ext (dump_list cfg c1 l acc) (dump_list cfg c2 l acc).
  Proof using Hc.
    revert acc. induction l as [|x l IH]; intro acc; cbn [dump_list]; ext_auto. all: apply IH.
  Qed.
  Lemma dict_loop_ext d acc : ext (dict_loop w cfg c1 d acc) (dict_loop w cfg c2 d acc).
  Proof using Hc.
    revert acc. induction d as [|[k x] d IH]; intro acc; cbn [dict_loop]; ext_auto. all: apply IH.
  Qed.
  Lemma run_dprog_ext p : ext (run_dprog cfg c1 p) (run_dprog cfg c2 p).
  Proof using Hc.
    induction p as [v|e|v t k IH]; cbn [run_dprog]; ext_auto. all: apply IH.
  Qed.
  Hint Resolve attr_loop_ext nt_loop_ext dc_loop_ext dump_list_ext dict_loop_ext run_dprog_ext : fuel.
  Lemma dbody_ext h v t : ext (dbody w cfg c1 h v t) (dbody w cfg c2 h v t).
  Proof using Hc.
    destruct h; cbn [dbody]; auto with fuel.
    - unfold namedtupledump. ext_auto.
    - unfold dataclassdump. ext_auto.
    - unfold iteratordump. ext_auto.
    - ext_auto.
    - ext_auto.
    - unfold attrdump. ext_auto.
  Qed.
End DumpFuel.

Lemma drun_step w cfg n h v t : ext (drun w cfg n h v t) (drun w cfg (S n) h v t).
Proof.
  revert h v t. induction n as [|n IH]; intros h v t.
  - intro s. left. reflexivity.
  - cbn [drun]. apply dbody_ext. exact IH.
Qed.
Lemma drun_mono w cfg n m h v t : n <= m -> ext (drun w cfg n h v t) (drun w cfg m h v t).
Proof.
  intro L. induction L as [|m L IH]; [apply ext_refl|].
  eapply ext_trans; [exact IH|apply drun_step].
Qed.
Lemma dump_mono w cfg n m v t : n <= m -> ext (dump_ann w cfg n v t) (dump_ann w cfg m v t).
Proof. intro L. apply dump_with_ext. intros h v' t'. apply drun_mono. exact L. Qed.
Lemma dump_fuel_independent w cfg n m v t s :
  fst (dump_ann w cfg n v t s) <> OOF -> fst (dump_ann w cfg m v t s) <> OOF ->
  dump_ann w cfg n v t s = dump_ann w cfg m v t s.
Proof.
  intros H1 H2. destruct (Nat.le_ge_cases n m) as [L|L].
  - apply ext_agree; [apply dump_mono; exact L|exact H1].
  - symmetry. apply ext_agree; [apply dump_mono; exact L|exact H2].
Qed.
