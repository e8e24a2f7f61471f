(** * Properties, twenty-first part: how many handlers a load calls (C60)

    [handler_calls w cfg s v t r k]: load(v, t) by a loader in the state [s]
    ends with [r] after [k] calls of handler functions.  The calls are counted
    with marks in the state (Cost.v): C60_counted says that counting changes
    nothing.  [weight v]: the objects and the characters which [v] is made of. *)

From Verif Require Import Loader Spec Vocab Inv Std Fuel Facts4 Total Term Examples Ground Properties7 Cost Cost3.

(** every load has a number of calls: exactly the loads which end *)
Theorem C60_counted : forall w cfg s v t r, loads w cfg s v t r <-> exists! k, handler_calls w cfg s v t r k.
Proof. exact counted_loads. Qed.
Print Assumptions C60_counted.

(** C60 For a type which is not recursive the number of handlers called is at
    most proportional to the size of the data, whatever the data and whether it
    is loaded or refused; the factor depends on the type only. *)
Theorem C60_linear : forall w basic strcons cfg, is_std w basic strcons cfg ->
  forall names t, not_recursive w names t -> has_involved w names t ->
  exists K, forall s v r k, used w cfg s -> has_registered names s -> handler_calls w cfg s v t r k -> k <= K * weight v.
Proof. exact linear. Qed.
Print Assumptions C60_linear.

(** Dict[str, Tuple[List[Union[Point, AEnum]], Recs]], as for C22; here a refused value
    of 9 objects and characters takes 8 calls *)
Example C60_example :
  let names := by_name W0 L22 in let v := VDict [(VStr "a", VTuple [VList [VInt 1; VStr "b"]; VNone])] in
  not_recursive W0 names T22 /\ has_involved W0 names T22 /\ used W0 C0 S0 /\ has_registered names S0 /\
  exists r k, handler_calls W0 C0 S0 v T22 r k /\ weight v = 9 /\ k = 8.
Proof.
  cbv zeta. destruct C22_example as [A [B [U H]]]. split; [exact A|]. split; [exact B|]. split; [exact U|]. split; [exact H|].
  eexists. eexists. split; [|split].
  - split; [|exists 30; eexists; split; [vm_compute; reflexivity|]]; [discriminate|]. instantiate (1 := 8). vm_compute. reflexivity.
  - vm_compute. reflexivity.
  - reflexivity.
Qed.

(** C60 The same for the recursive types whose recursion goes through the fields
    of objects (as for C23) and not through a Dict or two members of a Union:
    trees, linked lists. *)
Theorem C60_linear_recursive : forall w basic strcons cfg, is_std w basic strcons cfg ->
  forall names t R, has_involved w names t -> object_recursive w names t ->
  In t R -> (forall r, In r R -> involves w names t r) -> loops_once w names R ->
  exists K, forall s v r k, used w cfg s -> has_registered names s -> handler_calls w cfg s v t r k -> k <= K * weight v.
Proof. exact loop_linear. Qed.
Print Assumptions C60_linear_recursive.

(** List[Node] as for C23: Node has a field of the type Optional['Node'] *)
Definition R60 : list ty := [LIST (CLS "Node"); OPT (TForward "Node"); TForward "Node"; OPT (CLS "Node"); CLS "Node"].
Example C60_recursive_example : let names := by_name W0 L23 in let t := LIST (CLS "Node") in
  has_involved W0 names t /\ object_recursive W0 names t /\ In t R60 /\ (forall r, In r R60 -> involves W0 names t r) /\ loops_once W0 names R60 /\
  used W0 C0 S0 /\ has_registered names S0 /\ ~ not_recursive W0 names (CLS "Node").
Proof.
  cbv zeta. destruct C23_example as [U [H [K O]]]. split; [exact K|]. split; [exact O|]. split; [left; reflexivity|]. split; [|split; [|split; [exact U|split; [exact H|exact C23_recursive]]]].
  - assert (N : involves W0 (by_name W0 L23) (LIST (CLS "Node")) (CLS "Node")) by (econstructor; [left; reflexivity|constructor]).
    assert (St : forall a b c, involves W0 (by_name W0 L23) a b -> In c (mentioned W0 (by_name W0 L23) b) -> involves W0 (by_name W0 L23) a c).
    { intros a b c I J. induction I as [x|x y z Mxy Iyz IH]; [econstructor; [exact J|constructor]|econstructor; [exact Mxy|apply IH; exact J]]. }
    intros r [<-|[<-|[<-|[<-|[<-|[]]]]]].
    + constructor.
    + apply (St _ _ _ N). vm_compute. tauto.
    + apply (St _ (OPT (TForward "Node"))); [apply (St _ _ _ N); vm_compute; tauto|vm_compute; tauto].
    + apply (St _ _ _ N). vm_compute. tauto.
    + exact N.
  - assert (B : forall x, x = TInt \/ x = TNone -> not_recursive W0 (by_name W0 L23) x) by (intros x [-> | ->]; constructor; intros y []).
    assert (A : forall t x, In t R60 -> In x (mentioned W0 (by_name W0 L23) t) -> In x R60 \/ x = TInt \/ x = TNone).
    { intros t x I J. assert (F : forallb (fun t => forallb (fun x => mem_ty x (TInt :: TNone :: R60)) (mentioned W0 (by_name W0 L23) t)) R60 = true) by (vm_compute; reflexivity).
      rewrite forallb_forall in F. specialize (F t I). rewrite forallb_forall in F. specialize (F x J). apply mem_ty_In in F. destruct F as [F|[F|F]]; auto. }
    intros t I. split; [intros x J; destruct (A t x I J) as [X|X]; [left; exact X|right; apply B; exact X]|].
    destruct I as [<-|[<-|[<-|[<-|[<-|[]]]]]]; cbn [LIST OPT]; try exact Logic.I; try reflexivity.
    + split; [repeat constructor; cbn; intuition discriminate|]. exists (TForward "Node"). intros x [<-|[<-|[]]] J; [reflexivity|]. vm_compute in J. repeat (destruct J as [J|J]; [discriminate J|]). contradiction.
    + split; [repeat constructor; cbn; intuition discriminate|]. exists (CLS "Node"). intros x [<-|[<-|[]]] J; [reflexivity|]. vm_compute in J. repeat (destruct J as [J|J]; [discriminate J|]). contradiction.
Qed.

(** ** Recursion through a Dict

    @dataclass class Tree: children: Dict[str, 'Tree'], with
    Loader(pep563=True). *)
Definition W60 : world :=
  mkWorld (fun n => if String.eqb n "Tree" then rdcls [f0 "children" (DICT TStr (TForward "Tree")) DNo] [("children", DICT TStr (CLS "Tree"))] else no_class)
    (w_call W0) (w_fromiso W0) (w_callargs W0) (w_timedelta W0) (w_compile W0) (w_name W0) (w_pick W0) (w_setorder W0) (w_str W0) (w_iso W0) (w_seconds W0).
Definition C60c : config := std W60 default_basic default_strcons true false true true "name" false true.
(** {"children": {"a": {"children": {"a": ... 0 ...}}}}: refused, because of the 0 *)
Fixpoint deep (d : nat) : value :=
  match d with 0 => VInt 0 | S d' => VDict [(VStr "children", VDict [(VStr "a", deep d')])] end.

Section Deep.
  Notation Tree := (CLS "Tree").
  Definition ready60 (s : lstate) : Prop := coh W60 C60c s /\ ty_get Tree (st_index s) = Some HDataclass.
  (** [m] raises after at least [k] calls *)
  Definition fails60 {A} (m : M A) (k : nat) : Prop :=
    forall s, ready60 s -> match m s with (Ok _, _) => False | (Exc _, s') => ready60 s' /\ marks s + k <= marks s' | (OOF, _) => True end.
  Definition gives60 {A} (m : M A) (Q : A -> Prop) : Prop :=
    forall s, ready60 s -> match m s with (Ok a, s') => Q a /\ ready60 s' /\ marks s <= marks s' | (Exc _, _) => False | (OOF, _) => True end.
  Lemma fails_bind1 {A B} (m : M A) (f : A -> M B) k : fails60 m k -> fails60 (bind m f) k.
  Proof. intros H s R. unfold bind. specialize (H s R). destruct (m s) as [[a|e|] s1]; [contradiction|exact H|exact H]. Qed.
  Lemma fails_bind2 {A B} (m : M A) (f : A -> M B) (Q : A -> Prop) k : gives60 m Q -> (forall a, Q a -> fails60 (f a) k) -> fails60 (bind m f) k.
  Proof.
    intros G H s R. unfold bind. specialize (G s R). destruct (m s) as [[a|e|] s1]; [|contradiction|exact I]. destruct G as [Qa [R1 L1]].
    specialize (H a Qa s1 R1). destruct (f a s1) as [[b|e|] s2]; [exact H| |exact I]. destruct H. split; [assumption|lia].
  Qed.
  Lemma fails_catch {A} (m : M A) f k1 k2 : fails60 m k1 -> (forall e, fails60 (f e) k2) -> fails60 (catch m f) (k1 + k2).
  Proof.
    intros G H s R. unfold catch. specialize (G s R). destruct (m s) as [[a|e|] s1]; [contradiction| |exact I]. destruct G as [R1 L1].
    specialize (H e s1 R1). destruct (f e s1) as [[b|e2|] s2]; [exact H| |exact I]. destruct H. split; [assumption|lia].
  Qed.
  Lemma fails_raise {A} e : fails60 (raise e : M A) 0. Proof. intros s R. cbn [raise]. split; [exact R|lia]. Qed.
  Lemma gives_ret {A} (a : A) : gives60 (ret a) (fun x => x = a). Proof. intros s R. cbn [ret]. split; [reflexivity|]. split; [exact R|lia]. Qed.
  Lemma ready_index t h s : find_handler C60c t = POk h -> ready60 s -> ready60 (set_index (cons (t, h)) s).
  Proof.
    intros F [C E]. split; [apply coh_set_index; assumption|]. cbn [set_index st_index]. rewrite ty_get_cons. destruct (ty_eqb Tree t) eqn:Q; [|exact E].
    apply ty_eqb_eq in Q. subst t. vm_compute in F. injection F as <-. reflexivity.
  Qed.
  Lemma gives_lookup nf t h : find_handler C60c t = POk h -> gives60 (lookup_handler C60c nf t) (fun x => x = h).
  Proof.
    intros F s R. unfold lookup_handler. destruct (ty_get t (st_index s)) as [h0|] eqn:E.
    - apply (coh_index _ _ _ (proj1 R)) in E. split; [congruence|]. split; [exact R|lia].
    - rewrite F. split; [reflexivity|]. split; [apply ready_index; assumption|apply le_n].
  Qed.
  Lemma ready_register t s : ready60 s -> ready60 (register W60 t s).
  Proof.
    intros [[A B C] E]. unfold register. destruct (st_frefs s) as [fr|]; [|split; [split|]; assumption]. destruct (w_name W60 t) as [n|]; [|split; [split|]; assumption].
    destruct (str_get n fr); (split; [split|]; assumption).
  Qed.
  Variable call : handler -> value -> ty -> M value.
  Lemma with_split (v : value) (t : ty) h : find_handler C60c t = POk h ->
    gives60 (fun s => match ty_get t (st_index s) with
            | Some h => (Ok h, s)
            | None => match find_handler C60c t with
                | POk h => (Ok h, register W60 t (set_index (cons (t, h)) s))
                | PExc RValue => (Exc (XTL KType (MCannotDeal t) [] (Some v) (Some t) []), s)
                | PExc r => (Exc (XRaw r), s)
                end end) (fun x => x = h).
  Proof.
    intros F s R. destruct (ty_get t (st_index s)) as [h0|] eqn:E.
    - apply (coh_index _ _ _ (proj1 R)) in E. split; [congruence|]. split; [exact R|lia].
    - rewrite F. split; [reflexivity|]. split; [apply ready_register, ready_index; assumption|]. rewrite marks_register. apply le_n.
  Qed.
  Lemma with_fails v t a h k : find_handler C60c t = POk h -> fails60 (call h v t) k -> fails60 (load_with W60 C60c call v t a) k.
  Proof.
    intros F G. unfold load_with. eapply fails_bind2; [apply (with_split v t h F)|]. intros x ->. replace k with (k + 0) by lia. apply fails_catch; [exact G|].
    intro e. destruct (is_tl e); apply fails_raise.
  Qed.
  Lemma with_gives v t a h y : find_handler C60c t = POk h -> gives60 (call h v t) (fun x => x = y) -> gives60 (load_with W60 C60c call v t a) (fun x => x = y).
  Proof.
    intros F G s R. unfold load_with, bind. pose proof (with_split v t h F s R) as H. cbv beta in H. destruct (match ty_get t (st_index s) with Some h1 => _ | None => _ end) as [[x|e|] s1]; [|contradiction|exact I].
    destruct H as [-> [R1 L1]]. unfold catch. specialize (G s1 R1). destruct (call h v t s1) as [[b|e|] s2]; [|contradiction|exact I]. destruct G as [-> [R2 L2]]. split; [reflexivity|]. split; [exact R2|lia].
  Qed.
  (** one level: the dictionary calls the handler of Tree twice *)
  Lemma dict_twice x k : gives60 (call HBasic (VStr "a") TStr) (fun y => y = VStr "a") -> fails60 (call HDataclass x Tree) k ->
    fails60 (dictload W60 C60c call (VDict [(VStr "a", x)]) (DICT TStr Tree)) (k + k).
  Proof.
    intros G F. unfold dictload. cbn [ty_args DICT].
    eapply fails_bind2; [apply (gives_lookup _ TStr HBasic eq_refl)|]. intros kf0 ->.
    eapply fails_bind2 with (Q := fun kv => kv = (HBasic, Some HDataclass)).
    { intros s [C E]. rewrite E. split; [reflexivity|]. split; [split; assumption|lia]. }
    intros kv ->. cbv zeta. cbn [as_dict]. apply fails_catch.
    - cbn [dict_fast]. eapply fails_bind2; [apply gives_ret|]. intros k' ->. apply fails_bind1. exact F.
    - intro e. replace k with (k + 0) by lia. apply fails_catch.
      + cbn [dict_slow]. eapply fails_bind2; [apply (with_gives _ TStr _ HBasic _ eq_refl G)|]. intros k' ->. apply fails_bind1. apply (with_fails _ Tree _ HDataclass _ eq_refl). exact F.
      + intros [[] ? ? ? ? ?|[]]; apply fails_raise.
  Qed.
  Lemma tree_fields x k : fails60 (call HDict x (DICT TStr Tree)) k -> fails60 (dataclassload W60 C60c call (VDict [(VStr "children", x)]) Tree) k.
  Proof.
    intro F. unfold dataclassload. pose (oi := mkObjinfo ["children"] ["children"] [("children", DICT TStr Tree)] []).
    eapply fails_bind2 with (Q := fun o => o = oi).
    { intros s [C E]. destruct (ty_get Tree (st_fields s)) as [o|] eqn:Q.
      - destruct (coh_fields _ _ _ C _ _ Q) as [c [fs [[= <-] [D O]]]]. vm_compute in D. injection D as <-. vm_compute in O. injection O as <-. split; [reflexivity|]. split; [split; assumption|lia].
      - split; [reflexivity|]. split; [split; [|exact E]|apply le_n]. apply (coh_set_fields W60 C60c _ (CUser "Tree") _ _ eq_refl eq_refl). exact C. }
    intros o ->. eapply fails_bind2; [apply gives_ret|]. intros v' ->. unfold objloader. cbn [as_dict oi oi_fields oi_necessary oi_hints].
    change (filter (fun s => negb (has_key [(VStr "children", x)] s)) ["children"]) with (@nil string). cbv iota zeta.
    change (failonextra C60c) with false. cbn [andb]. apply fails_bind1. cbn [fields_loop]. change (mem_str "children" ["children"]) with true. cbv iota.
    change (str_get "children" [("children", DICT TStr Tree)]) with (Some (DICT TStr Tree)). cbv iota.
    eapply fails_bind2; [apply (gives_lookup _ (DICT TStr Tree) HDict eq_refl)|]. intros h ->. apply fails_bind1. replace k with (k + 0) by lia. apply fails_catch; [exact F|]. intro e. apply fails_raise.
  Qed.
End Deep.
Lemma ready_mark s : ready60 s -> ready60 (mark s).
Proof. intros [[A B C] E]. split; [split|]; assumption. Qed.
Lemma deep_calls n : forall d, fails60 (counted W60 C60c n HDataclass (deep d) (CLS "Tree")) (2 ^ d).
Proof.
  induction n as [n IH] using lt_wf_ind. intros d s R. destruct n as [|n]; [exact I|]. cbn [counted]. apply ready_mark in R.
  destruct d as [|d]; cbn [body deep].
  - assert (G : fails60 (dataclassload W60 C60c (counted W60 C60c n) (VInt 0) (CLS "Tree")) 0).
    { unfold dataclassload. eapply fails_bind2 with (Q := fun o => oi_names o = []).
      - intros s0 [C E]. destruct (ty_get (CLS "Tree") (st_fields s0)) as [o|] eqn:Q.
        + destruct (coh_fields _ _ _ C _ _ Q) as [c [fs [[= <-] [D O]]]]. vm_compute in D. injection D as <-. vm_compute in O. injection O as <-. split; [reflexivity|]. split; [split; assumption|lia].
        + split; [reflexivity|]. split; [split; [|exact E]|apply le_n]. apply (coh_set_fields W60 C60c _ (CUser "Tree") _ _ eq_refl eq_refl). exact C.
      - intros o Eo. unfold mangle. rewrite Eo. eapply fails_bind2; [apply gives_ret|]. intros v' ->. apply fails_raise. }
    specialize (G (mark s) R). rewrite marks_mark in G. destruct (dataclassload _ _ _ _ _ (mark s)) as [[a|e|] s1]; [exact G| |exact I]. destruct G. split; [assumption|]. cbn [Nat.pow]. lia.
  - assert (G : fails60 (dataclassload W60 C60c (counted W60 C60c n) (VDict [(VStr "children", VDict [(VStr "a", deep d)])]) (CLS "Tree")) (2 ^ S d)).
    { apply tree_fields. intros s1 R1. destruct n as [|n]; [exact I|]. cbn [counted body]. apply ready_mark in R1.
      assert (H : fails60 (dictload W60 C60c (counted W60 C60c n) (VDict [(VStr "a", deep d)]) (DICT TStr (CLS "Tree"))) (2 ^ d + 2 ^ d)).
      { apply dict_twice; [|apply IH; lia]. intros s2 R2. destruct n as [|n]; [exact I|]. apply ready_mark in R2.
        change (counted W60 C60c (S n) HBasic (VStr "a") TStr s2) with (Ok (A := value) (VStr "a"), mark s2). cbv iota beta. split; [reflexivity|]. split; [exact R2|rewrite marks_mark; lia]. }
      specialize (H _ R1). rewrite marks_mark in H. destruct (dictload _ _ _ _ _ (mark s1)) as [[a|e|] s2]; [exact H| |exact I]. destruct H. split; [assumption|]. cbn [Nat.pow]. lia. }
    specialize (G (mark s) R). rewrite marks_mark in G. destruct (dataclassload _ _ _ _ _ (mark s)) as [[a|e|] s1]; [exact G| |exact I]. destruct G. split; [assumption|lia].
Qed.

Definition L60 : list ty := [DICT TStr (CLS "Tree"); DICT TStr (TForward "Tree"); TForward "Tree"; CLS "Tree"; TStr].
(** For a recursive type the number of calls can be exponential in the size of
    the data: _dictload repeats the loading of a value which fails, to build
    the error (lines 406-420), at every level.  A refused document of 13 d + 1
    objects and characters takes at least 2^d calls, in any state of the loader. *)
Theorem C60_refuted : is_std W60 default_basic default_strcons C60c /\ forall d, weight (deep d) = 13 * d + 1 /\
  (exists r k, handler_calls W60 C60c S0 (deep d) (CLS "Tree") r k) /\
  forall s, used W60 C60c s -> forall r k, handler_calls W60 C60c s (deep d) (CLS "Tree") r k -> 2 ^ d <= k /\ exists e, r = Exc e.
Proof.
  split; [split; reflexivity|]. intro d. split.
  { induction d as [|d IH]; [reflexivity|]. cbn [deep weight map fst snd list_sum fold_right String.length]. lia. }
  split.
  { assert (F : finishes W60 C60c S0 (deep d) (CLS "Tree")).
    { apply (c23 W60 default_basic default_strcons C60c (conj eq_refl eq_refl) (by_name W60 L60)).
      - apply used_new.
      - intros n t [fr [[= <-] E]]. discriminate.
      - apply has_involved_by; vm_compute; reflexivity.
      - intros t1 I. apply (acc_by (passed_on W60 (by_name W60 L60)) (passed_list W60 (by_name W60 L60)) L60).
        + apply passed_list_spec.
        + vm_compute. reflexivity.
        + apply (involves_closed W60 (by_name W60 L60) L60 (CLS "Tree")); [vm_compute; reflexivity|vm_compute; reflexivity|exact I]. }
    destruct F as [r F]. apply counted_loads in F as [k [F _]]. eauto. }
  intros s U r k [N [n [s' [E M]]]]. apply used_coh in U.
  assert (R : match counted_load W60 C60c n (deep d) (CLS "Tree") s with (Ok _, _) => False | (Exc _, s') => marks s + 2 ^ d <= marks s' | (OOF, _) => True end).
  { unfold counted_load, load_with, bind.
    assert (Go : forall s1, ready60 s1 -> marks s1 = marks s -> match catch (counted W60 C60c n HDataclass (deep d) (CLS "Tree")) (fun e => if is_tl e then raise (push_trace (deep d, CLS "Tree", None) e) else raise (XRaw RAssert)) s1 with
      | (Ok _, _) => False | (Exc _, s') => marks s + 2 ^ d <= marks s' | (OOF, _) => True end).
    { intros s1 R1 M1. assert (F : fails60 (catch (counted W60 C60c n HDataclass (deep d) (CLS "Tree")) (fun e => if is_tl e then raise (push_trace (deep d, CLS "Tree", None) e) else raise (XRaw RAssert))) (2 ^ d + 0)).
      { apply fails_catch; [apply deep_calls|]. intro e. destruct (is_tl e); apply fails_raise. }
      specialize (F s1 R1). destruct (catch _ _ s1) as [[a|e|] s2]; [exact F| |exact I]. destruct F. lia. }
    destruct (ty_get (CLS "Tree") (st_index s)) as [h|] eqn:Q.
    - pose proof (coh_index _ _ _ U _ _ Q) as F. vm_compute in F. injection F as <-. apply Go; [split; assumption|reflexivity].
    - change (find_handler C60c (CLS "Tree")) with (POk HDataclass). cbv iota. apply Go; [|rewrite marks_register; reflexivity].
      apply ready_register. split; [apply coh_set_index; [reflexivity|exact U]|]. reflexivity. }
  rewrite E in R. destruct r as [a|e|]; [contradiction| |contradiction]. split; [lia|eauto].
Qed.
Print Assumptions C60_refuted.

(** ** Recursion through two members of a Union

    @dataclass class A: x: Union['A', 'B', None]; t: int
    @dataclass class B: x: Union['A', 'B', None]; t: None *)
Definition U62 : ty := UNION [CLS "A"; CLS "B"; TNone].
Definition F62 : ty := UNION [TForward "A"; TForward "B"; TNone].
Definition W62 : world :=
  mkWorld (fun n => if String.eqb n "A" then rdcls [f0 "x" F62 DNo; f0 "t" TInt DNo] [("x", U62); ("t", TInt)]
                    else if String.eqb n "B" then rdcls [f0 "x" F62 DNo; f0 "t" TNone DNo] [("x", U62); ("t", TNone)] else no_class)
    (w_call W0) (w_fromiso W0) (w_callargs W0) (w_timedelta W0) (w_compile W0) (w_name W0) (w_pick W0) (w_setorder W0) (w_str W0) (w_iso W0) (w_seconds W0).
Definition C62 : config := std W62 default_basic default_strcons true false true true "name" false true.
(** {"x": {"x": ... None ..., "t": None}, "t": None} and the object which it is loaded as *)
Fixpoint doc (d : nat) : value := match d with 0 => VNone | S d' => VDict [(VStr "x", doc d'); (VStr "t", VNone)] end.
Fixpoint obj (d : nat) : value := match d with 0 => VNone | S d' => VObj (CUser "B") [("x", obj d'); ("t", VNone)] end.

Section Both.
  Definition ready62 (s : lstate) : Prop := coh W62 C62 s /\ forall dc, same_get U62 (st_disc s) = Some dc -> dc = None.
  (** [m] ends with [Q], or with a TypedloadException, after at least [k] calls *)
  Definition gives {A} (m : M A) (Q : A -> Prop) (k : nat) : Prop :=
    forall s, ready62 s -> match m s with (Ok a, s') => Q a /\ ready62 s' /\ marks s + k <= marks s' | (Exc _, _) => False | (OOF, _) => True end.
  Definition refuses {A} (m : M A) (k : nat) : Prop :=
    forall s, ready62 s -> match m s with (Ok _, _) => False | (Exc e, s') => is_tl e = true /\ ready62 s' /\ marks s + k <= marks s' | (OOF, _) => True end.
  Lemma g_ret {A} (a : A) : gives (ret a) (fun x => x = a) 0. Proof. intros s R. cbn [ret]. split; [reflexivity|]. split; [exact R|lia]. Qed.
  Lemma g_bind {A B} (m : M A) (f : A -> M B) Q Q' k1 k2 : gives m Q k1 -> (forall a, Q a -> gives (f a) Q' k2) -> gives (bind m f) Q' (k1 + k2).
  Proof.
    intros G H s R. unfold bind. specialize (G s R). destruct (m s) as [[a|e|] s1]; [|contradiction|exact I]. destruct G as [Qa [R1 L1]].
    specialize (H a Qa s1 R1). destruct (f a s1) as [[b|e|] s2]; [|contradiction|exact I]. destruct H as [Qb [R2 L2]]. split; [exact Qb|]. split; [exact R2|lia].
  Qed.
  Lemma r_bind {A B} (m : M A) (f : A -> M B) k : refuses m k -> refuses (bind m f) k.
  Proof. intros H s R. unfold bind. specialize (H s R). destruct (m s) as [[a|e|] s1]; [contradiction|exact H|exact I]. Qed.
  Lemma g_r_bind {A B} (m : M A) (f : A -> M B) Q k1 k2 : gives m Q k1 -> (forall a, Q a -> refuses (f a) k2) -> refuses (bind m f) (k1 + k2).
  Proof.
    intros G H s R. unfold bind. specialize (G s R). destruct (m s) as [[a|e|] s1]; [|contradiction|exact I]. destruct G as [Qa [R1 L1]].
    specialize (H a Qa s1 R1). destruct (f a s1) as [[b|e|] s2]; [contradiction| |exact I]. destruct H as [Qb [R2 L2]]. split; [exact Qb|]. split; [exact R2|lia].
  Qed.
  Lemma g_catch {A} (m : M A) f Q k : gives m Q k -> gives (catch m f) Q k.
  Proof. intros G s R. unfold catch. specialize (G s R). destruct (m s) as [[a|e|] s1]; [exact G|contradiction|exact I]. Qed.
  Lemma r_catch {A} (m : M A) (f : exn -> exn) k : (forall e, is_tl e = true -> is_tl (f e) = true) -> refuses m k -> refuses (catch m (fun e => raise (f e))) k.
  Proof. intros Hf G s R. unfold catch. specialize (G s R). destruct (m s) as [[a|e|] s1]; [contradiction| |exact I]. destruct G as [T G]. cbn [raise]. split; [apply Hf; exact T|exact G]. Qed.
  Lemma g_attempt {A} (m : M A) Q k : gives m Q k -> gives (attempt m) (fun r => exists a, r = inl a /\ Q a) k.
  Proof. intros G s R. unfold attempt. specialize (G s R). destruct (m s) as [[a|e|] s1]; [|contradiction|exact I]. destruct G as [Qa G]. split; [eauto|exact G]. Qed.
  Lemma r_attempt {A} (m : M A) k : refuses m k -> gives (attempt m) (fun r => exists e, r = inr e /\ is_tl e = true) k.
  Proof. intros G s R. unfold attempt. specialize (G s R). destruct (m s) as [[a|e|] s1]; [contradiction| |exact I]. destruct G as [T G]. split; [eauto|exact G]. Qed.
  Lemma g_lookup nf t h : find_handler C62 t = POk h -> gives (lookup_handler C62 nf t) (fun x => x = h) 0.
  Proof.
    intros F s R. unfold lookup_handler. destruct (ty_get t (st_index s)) as [h0|] eqn:E.
    - apply (coh_index _ _ _ (proj1 R)) in E. split; [congruence|]. split; [exact R|lia].
    - rewrite F. split; [reflexivity|]. split; [|rewrite Nat.add_0_r; apply le_n]. destruct R as [C E2]. split; [apply coh_set_index; assumption|exact E2].
  Qed.
  Lemma g_more {A} (m : M A) (Q Q' : A -> Prop) k k' : gives m Q k -> k' <= k -> (forall a, Q a -> Q' a) -> gives m Q' k'.
  Proof. intros G L I s R. specialize (G s R). destruct (m s) as [[a|e|] s1]; [|exact G|exact G]. destruct G as [Qa [R1 L1]]. split; [auto|]. split; [exact R1|lia]. Qed.
  Lemma ready62_mark s : ready62 s -> ready62 (mark s). Proof. intros [[A B C] E]. split; [split|]; assumption. Qed.
  Lemma g_mark {A} (m : M A) Q k : gives m Q k -> gives (fun s => m (mark s)) Q (S k).
  Proof. intros G s R. specialize (G (mark s) (ready62_mark s R)). rewrite marks_mark in G. destruct (m (mark s)) as [[a|e|] s1]; [|exact G|exact G]. destruct G as [Qa [R1 L1]]. split; [exact Qa|]. split; [exact R1|lia]. Qed.
  Lemma r_mark {A} (m : M A) k : refuses m k -> refuses (fun s => m (mark s)) (S k).
  Proof. intros G s R. specialize (G (mark s) (ready62_mark s R)). rewrite marks_mark in G. destruct (m (mark s)) as [[a|e|] s1]; [exact G| |exact G]. destruct G as [Qa [R1 L1]]. split; [exact Qa|]. split; [exact R1|lia]. Qed.

  Variable call : handler -> value -> ty -> M value.
  Variables (x y : value) (k : nat).
  Hypothesis Hx : gives (call HUnion x U62) (fun z => z = y) k.
  Lemma g_info c fs oi : ci_dc (class_of W62 c) = Some fs -> dataclass_info W62 C62 c fs = POk oi ->
    gives (fun s : lstate => match ty_get (TClass c) (st_fields s) with
      | Some i => (Ok i, s)
      | None => match ci_dc (class_of W62 c) with
                | Some fs => match dataclass_info W62 C62 c fs with POk i => (Ok i, set_fields (cons (TClass c, i)) s) | PExc r => (Exc (XRaw r), s) end
                | None => (Exc (XRaw RAttr), s) end end) (fun o => o = oi) 0.
  Proof.
    intros D O s [C E]. destruct (ty_get (TClass c) (st_fields s)) as [o|] eqn:Q.
    - destruct (coh_fields _ _ _ C _ _ Q) as [c' [fs' [[= <-] [D' O']]]]. split; [congruence|]. split; [split; assumption|lia].
    - rewrite D, O. split; [reflexivity|]. split; [split; [|exact E]|rewrite Nat.add_0_r; apply le_n]. apply (coh_set_fields W62 C62 _ c _ _ D O). exact C.
  Qed.
  Lemma a_refuses : refuses (call HBasic VNone TInt) 0 -> refuses (dataclassload W62 C62 call (VDict [(VStr "x", x); (VStr "t", VNone)]) (CLS "A")) k.
  Proof.
    intro F. unfold dataclassload. eapply g_r_bind with (k1 := 0) (k2 := k).
    { exact (g_info (CUser "A") _ (mkObjinfo ["x"; "t"] ["x"; "t"] [("x", U62); ("t", TInt)] []) eq_refl eq_refl). }
    intros o ->. eapply g_r_bind with (k1 := 0) (k2 := k); [apply g_ret|]. intros v' ->. unfold objloader. cbn [as_dict oi_fields oi_necessary oi_hints].
    change (filter (fun s => negb (has_key [(VStr "x", x); (VStr "t", VNone)] s)) ["x"; "t"]) with (@nil string). cbv iota zeta.
    change (failonextra C62) with false. cbn [andb]. apply r_bind. cbn [fields_loop]. change (mem_str "x" ["x"; "t"]) with true. change (mem_str "t" ["x"; "t"]) with true. cbv iota.
    change (str_get "x" [("x", U62); ("t", TInt)]) with (Some U62). change (str_get "t" [("x", U62); ("t", TInt)]) with (Some TInt). cbv iota.
    eapply g_r_bind with (k1 := 0) (k2 := k); [apply (g_lookup _ U62 HUnion eq_refl)|]. intros h ->. replace k with (k + (0 + 0)) by lia.
    eapply g_r_bind; [apply g_catch; exact Hx|]. intros z ->. eapply g_r_bind; [apply (g_lookup _ TInt HBasic eq_refl)|]. intros h ->. apply r_bind.
    apply r_catch; [|exact F]. intros [] T; [reflexivity|discriminate T].
  Qed.
  Lemma b_gives : gives (call HNone VNone TNone) (fun z => z = VNone) 0 -> gives (dataclassload W62 C62 call (VDict [(VStr "x", x); (VStr "t", VNone)]) (CLS "B")) (fun z => z = VObj (CUser "B") [("x", y); ("t", VNone)]) k.
  Proof.
    intro F. unfold dataclassload. eapply g_bind with (k1 := 0) (k2 := k).
    { exact (g_info (CUser "B") _ (mkObjinfo ["x"; "t"] ["x"; "t"] [("x", U62); ("t", TNone)] []) eq_refl eq_refl). }
    intros o ->. eapply g_bind with (k1 := 0) (k2 := k); [apply g_ret|]. intros v' ->. unfold objloader. cbn [as_dict oi_fields oi_necessary oi_hints].
    change (filter (fun s => negb (has_key [(VStr "x", x); (VStr "t", VNone)] s)) ["x"; "t"]) with (@nil string). cbv iota zeta.
    change (failonextra C62) with false. cbn [andb]. replace k with (k + 0) by lia. eapply g_bind with (Q := fun ps => ps = [("x", y); ("t", VNone)]).
    - cbn [fields_loop]. change (mem_str "x" ["x"; "t"]) with true. change (mem_str "t" ["x"; "t"]) with true. cbv iota.
      change (str_get "x" [("x", U62); ("t", TNone)]) with (Some U62). change (str_get "t" [("x", U62); ("t", TNone)]) with (Some TNone). cbv iota.
      eapply g_bind with (k1 := 0) (k2 := k); [apply (g_lookup _ U62 HUnion eq_refl)|]. intros h ->. replace k with (k + (0 + (0 + 0))) by lia.
      eapply g_bind; [apply g_catch; exact Hx|]. intros z ->. eapply g_bind; [apply (g_lookup _ TNone HNone eq_refl)|]. intros h ->.
      eapply g_bind; [apply g_catch; exact F|]. intros z ->. apply g_ret.
    - intros ps ->. exact (g_ret _).
  Qed.
End Both.
Lemma g_prefer v : gives (prefer W62 v U62 [CLS "A"; CLS "B"; TNone] [CLS "A"; CLS "B"; TNone]) (fun l => l = [CLS "A"; CLS "B"; TNone]) 0.
Proof.
  unfold prefer. destruct v; try apply g_ret. apply (g_bind _ _ (fun dc => dc = None) _ 0 0); [|intros dc ->; apply g_ret].
  intros s [C E]. destruct (same_get U62 (st_disc s)) as [dc|] eqn:Q.
  - split; [apply E; reflexivity|]. split; [split; [exact C|rewrite Q; exact E]|lia].
  - assert (B : build_disc W62 s [CLS "A"; CLS "B"; TNone] = None).
    { assert (N : forall t, In t [CLS "A"; CLS "B"; TNone] -> discriminatorliterals W62 s t = []).
      { intros t [<-|[<-|[<-|[]]]]; unfold discriminatorliterals, annotations, CLS, TNone; destruct (mem_cid _ (st_stripped s)); reflexivity. }
      unfold build_disc. cbn [map]. rewrite !N by (cbn; auto). reflexivity. }
    cbv zeta. rewrite B. split; [reflexivity|]. split; [split|].
    + rewrite <- B. apply coh_set_disc; [reflexivity|exact C].
    + intros dc. cbn [st_disc set_disc]. rewrite same_get_cons. change (same_type U62 U62) with true. intros [= <-]. reflexivity.
    + rewrite Nat.add_0_r. apply le_n.
Qed.
Lemma r_less {A} (m : M A) k k' : refuses m k -> k' <= k -> refuses m k'.
Proof. intros G L s R. specialize (G s R). destruct (m s) as [[a|e|] s1]; [exact G| |exact G]. destruct G as [Qa [R1 L1]]. split; [exact Qa|]. split; [exact R1|lia]. Qed.
Section Members.
  Variable call : handler -> value -> ty -> M value.
  Lemma m_refused v x ts t n r exs h k1 k2 Q : find_handler C62 x = POk h -> refuses (call h v x) k1 ->
    (forall exs', gives (try_members C62 call v t ts n r exs') Q k2) -> gives (try_members C62 call v t (x :: ts) n r exs) Q (k1 + k2).
  Proof.
    intros F R G. cbn [try_members]. eapply g_bind.
    - apply r_attempt. replace k1 with (0 + k1) by lia. eapply g_r_bind; [apply (g_lookup _ x h F)|]. intros h' ->. exact R.
    - intros o [e [-> T]]. destruct e as [k m tr v' t' subs|rr]; [|discriminate T]. apply G.
  Qed.
  Lemma m_given v x ts t n r exs h k y : find_handler C62 x = POk h -> gives (call h v x) (fun z => z = y) k ->
    gives (try_members C62 call v t (x :: ts) n r exs) (fun z => z = (S n, y, exs)) k.
  Proof.
    intros F G. cbn [try_members]. replace k with (k + 0) by lia. eapply g_bind.
    - apply g_attempt. replace k with (0 + k) by lia. eapply g_bind; [apply (g_lookup _ x h F)|]. intros h' ->. exact G.
    - intros o [a [-> ->]]. change (uniondebugconflict C62) with false. cbv iota. apply g_ret.
  Qed.
End Members.
Lemma doc_calls n : forall d, gives (counted W62 C62 n HUnion (doc d) U62) (fun z => z = obj d) (2 ^ d).
Proof.
  induction n as [n IH] using lt_wf_ind. intros d. destruct n as [|n]; [intros s R; exact I|]. cbn [counted].
  destruct d as [|d].
  - apply (g_mark _ _ 0). cbn [doc body]. exact (g_ret VNone).
  - apply g_more with (Q := fun z => z = obj (S d)) (k := S (0 + (2 ^ d + 2 ^ d + 0))); [|cbn [Nat.pow]; lia|auto]. apply g_mark. cbn [body]. unfold unionload. cbn [ty_args U62 UNION].
    change (basicb C62 (TClass (type_of (doc (S d)))) && mem_ty (TClass (type_of (doc (S d)))) [CLS "A"; CLS "B"; TNone]) with false. cbv iota zeta.
    change (filter (fun x => negb (basicb C62 x)) [CLS "A"; CLS "B"; TNone] ++ filter (basicb C62) [CLS "A"; CLS "B"; TNone]) with [CLS "A"; CLS "B"; TNone].
    eapply g_bind; [apply (g_prefer (doc (S d)))|]. intros l ->.
    apply g_bind with (Q := fun z => exists exs, z = (1, obj (S d), exs)); [|intros z [exs ->]; exact (g_ret _)].
    apply (m_refused _ _ _ _ _ _ _ _ HDataclass); [reflexivity| |].
    + destruct n as [|n]; [intros s R; exact I|]. cbn [counted]. apply r_less with (k := S (2 ^ d)); [apply r_mark; cbn [body]|lia].
      apply (a_refuses _ _ (obj d)); [apply IH; lia|]. destruct n as [|n]; [intros s R; exact I|]. cbn [counted]. apply r_less with (k := S 0); [apply r_mark|lia].
      cbn [body]. intros s R. assert (B : exists e, basicload W62 C62 VNone TInt s = (Exc e, s) /\ is_tl e = true) by (eexists; split; reflexivity). destruct B as [e [-> T]]. split; [exact T|]. split; [exact R|lia].
    + intro exs. eapply g_more; [apply (m_given _ _ _ _ _ _ _ _ HDataclass (2 ^ d) (obj (S d))); [reflexivity|]|lia|intros a ->; eauto].
      destruct n as [|n]; [intros s R; exact I|]. cbn [counted]. eapply g_more with (k := S (2 ^ d)); [apply g_mark; cbn [body]|lia|intros a E; exact E].
      apply (b_gives _ _ (obj d)); [apply IH; lia|]. destruct n as [|n]; [intros s R; exact I|]. cbn [counted]. eapply g_more with (k := S 0); [apply g_mark|lia|intros a E; exact E].
      exact (g_ret VNone).
Qed.
Definition L62 : list ty := [U62; F62; TForward "A"; TForward "B"; CLS "A"; CLS "B"; TNone; TInt].
(** A Union of two recursive classes is worse: the members are tried one after
    the other, and a wrong class is tried again at every level.  So a document
    which is *accepted* takes a number of calls exponential in its size. *)
Theorem C60_refuted_union : is_std W62 default_basic default_strcons C62 /\ forall d, weight (doc d) = 6 * d + 1 /\
  (exists r k, handler_calls W62 C62 S0 (doc d) U62 r k) /\
  forall r k, handler_calls W62 C62 S0 (doc d) U62 r k -> r = Ok (obj d) /\ 2 ^ d <= k.
Proof.
  split; [split; reflexivity|]. intro d. split.
  { induction d as [|d IH]; [reflexivity|]. cbn [doc weight map fst snd list_sum fold_right String.length]. lia. }
  split.
  { assert (F : finishes W62 C62 S0 (doc d) U62).
    { apply (c23 W62 default_basic default_strcons C62 (conj eq_refl eq_refl) (by_name W62 L62)).
      - apply used_new.
      - intros n t [fr [[= <-] E]]. discriminate.
      - apply has_involved_by; vm_compute; reflexivity.
      - intros t1 I. apply (acc_by (passed_on W62 (by_name W62 L62)) (passed_list W62 (by_name W62 L62)) L62).
        + apply passed_list_spec.
        + vm_compute. reflexivity.
        + apply (involves_closed W62 (by_name W62 L62) L62 U62); [vm_compute; reflexivity|vm_compute; reflexivity|exact I]. }
    destruct F as [r F]. apply counted_loads in F as [k [F _]]. eauto. }
  intros r k [N [n [s' [E M]]]].
  assert (R : gives (counted_load W62 C62 n (doc d) U62) (fun z => z = obj d) (0 + 2 ^ d)).
  { unfold counted_load, load_with. eapply g_bind with (Q := fun h => h = HUnion).
    - intros s [C D]. destruct (ty_get U62 (st_index s)) as [h|] eqn:Q.
      + pose proof (coh_index _ _ _ C _ _ Q) as F. vm_compute in F. injection F as <-. split; [reflexivity|]. split; [split; assumption|lia].
      + change (find_handler C62 U62) with (POk HUnion). cbv iota. split; [reflexivity|]. split; [|rewrite marks_register; rewrite Nat.add_0_r; apply le_n].
        split; [apply coh_register, coh_set_index; [reflexivity|exact C]|]. intro dc. unfold register.
        destruct (st_frefs _) as [fr|]; [|exact (D dc)]. destruct (w_name W62 U62) as [nm|]; [|exact (D dc)]. destruct (str_get nm fr); exact (D dc).
    - intros h ->. apply g_catch, doc_calls. }
  assert (R0 : ready62 S0). { split; [apply used_coh, used_new|]. intros dc Q. discriminate Q. }
  specialize (R S0 R0). rewrite E in R. destruct r as [a|e|]; [|contradiction|contradiction]. destruct R as [-> [_ L]]. split; [reflexivity|lia].
Qed.
Print Assumptions C60_refuted_union.
