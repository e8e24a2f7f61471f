(** * Properties, eighteenth part: the hash seed (C58)

    [reseed w pick order] (Local.v): the same program in another process, in
    which [set.pop()] takes another element and sets are iterated in another
    order. *)

From Verif Require Import Loader Dumper Spec Vocab Inv Std Fuel Obs Hist Reuse Transparent Dumps Examples Ground
  Properties1 Properties2 Properties3 Properties5 Reference RefSound RefComplete RefUse Properties9 Local Seed.
From Coq Require Import Permutation.

(** C58 Results do not depend on the hash seed.  load: the same outcome and the
    same effect on the loader, when the members of each union share at most one
    key whose type is a Literal *)
Theorem C58_load : forall w basic strcons cfg pick order,
  is_std w basic strcons cfg -> wf_reflect w ->
  forall env s v t, used w cfg s ->
  (* see C58_refuted *)
  (forall t' args, reach w (pep563 cfg) env t t' -> as_union (reach w (pep563 cfg) env t) t' -> ty_args t' = Some args -> one_tag w args) ->
  (* the fields of the dataclasses have different names, inside and outside: see
     C58_refuted_names *)
  (forall c fs, reach w (pep563 cfg) env t (TClass c) -> ci_dc (class_of w c) = Some fs -> NoDup (map f_name fs) /\ NoDup (map (external cfg false) fs)) ->
  (* as in C49: the names which t refers to; line 396 *)
  (forall n t', reach w (pep563 cfg) env t (TForward n) -> knows s n t' -> env n = Some t') ->
  (forall n t', reach w (pep563 cfg) env t (TForward n) -> reach w (pep563 cfg) env t t' -> w_name w t' = Some n -> env n = Some t') ->
  (forall n o c vt t', reach w (pep563 cfg) env t (TGen n o (Some [TClass c; vt])) -> annotated w c t' -> reach w (pep563 cfg) env t t') ->
  (forall r, loads w cfg s v t r <-> loads (reseed w pick order) cfg s v t r) /\
  (forall r s', ends w cfg s v t r s' <-> ends (reseed w pick order) cfg s v t r s').
Proof.
  intros w basic strcons cfg pick order St Wr env s v t U Tg Nd Kn Nm Mi.
  assert (E := seed_load w basic strcons cfg pick order St Wr env s v t U Kn Nm Mi Tg Nd).
  split; [intro r|intros r s']; split; intros [N [n H]]; (split; [exact N|exists n]); rewrite ?E in *; try exact H; rewrite <- ?E; exact H.
Qed.
Print Assumptions C58_load.

(** two processes, each with a loader with its own past *)
Theorem C58_processes : forall w basic strcons cfg pick order,
  is_std w basic strcons cfg -> wf_reflect w ->
  forall fr s s' v t,
  later w cfg (fresh (Some fr) []) s -> later (reseed w pick order) cfg (fresh (Some fr) []) s' ->
  let env := fun n => str_get n fr in
  (forall t' args, reach w (pep563 cfg) env t t' -> as_union (reach w (pep563 cfg) env t) t' -> ty_args t' = Some args -> one_tag w args) ->
  (* the fields of the dataclasses have different names, inside and outside: see
     C58_refuted_names *)
  (forall c fs, reach w (pep563 cfg) env t (TClass c) -> ci_dc (class_of w c) = Some fs -> NoDup (map f_name fs) /\ NoDup (map (external cfg false) fs)) ->
  (* as in C20 and C49 *)
  (forall n, reach w (pep563 cfg) env t (TForward n) -> env n <> None) ->
  (forall n t', reach w (pep563 cfg) env t (TForward n) -> reach w (pep563 cfg) env t t' -> w_name w t' = Some n -> env n = Some t') ->
  (forall n kt vt, reach w (pep563 cfg) env t (TGen n ODict (Some [kt; vt])) -> det_dict w basic (inside v) kt vt) ->
  (forall n o c vt t', reach w (pep563 cfg) env t (TGen n o (Some [TClass c; vt])) -> annotated w c t' -> reach w (pep563 cfg) env t t') ->
  (forall n args, reach w (pep563 cfg) env t (TGen n OUnion (Some args)) -> plain_tags w args) ->
  forall r, loads w cfg s v t r <-> loads (reseed w pick order) cfg s' v t r.
Proof.
  intros w basic strcons cfg pick order St Wr fr s s' v t L L' env Tg Nd Fo Nm Di Mi Un r.
  assert (St' : is_std (reseed w pick order) basic strcons cfg) by exact St.
  assert (Wr' : wf_reflect (reseed w pick order)) by (destruct Wr as [a b c]; constructor; assumption).
  rewrite (C20_as_fresh w basic strcons cfg St Wr fr [] [] s v t L Fo Di Un r).
  rewrite (C20_as_fresh (reseed w pick order) basic strcons cfg St' Wr' fr [] [] s' v t L' Fo Di (fun n args R => plain_tags_reseed w pick order args (Un n args R)) r).
  apply (C58_load w basic strcons cfg pick order St Wr env); try assumption.
  - apply used_new.
  - intros n t' _ [fr' [[= <-] E]]. exact E.
Qed.
Print Assumptions C58_processes.

(** two processes, when the data can be read in one way only, whatever
    discriminators the unions have *)
Theorem C58_exact : forall w basic strcons cfg pick order,
  is_std w basic strcons cfg -> wf_reflect w -> uniondebugconflict cfg = false ->
  let w' := reseed w pick order in
  forall env s s' v t,
  used w cfg s -> used w' cfg s' ->
  steady w basic cfg env s v t -> steady w' basic cfg env s' v t ->
  well_formed w basic strcons cfg env v t -> no_choice w basic strcons cfg env v t ->
  trials_end w basic cfg env s v t -> trials_end w' basic cfg env s' v t ->
  forall r, loads w cfg s v t (Ok r) <-> loads w' cfg s' v t (Ok r).
Proof.
  intros w basic strcons cfg pick order St Wr Ud w' env s s' v t U U' Sd Sd' Wl Nc Te Te' r.
  assert (St' : is_std w' basic strcons cfg) by exact St.
  assert (Wr' : wf_reflect w') by (destruct Wr as [a b c]; constructor; assumption).
  assert (Gv : forall x t0 y, gives w' basic strcons cfg env (fun _ => False) x t0 y <-> gives w basic strcons cfg env (fun _ => False) x t0 y).
  { intros x t0 y. split; intro G.
    - apply (proj1 (gives_reseed w' (w_pick w) (w_setorder w) basic strcons cfg env (fun _ => False))) in G.
      unfold w' in G. change (reseed (reseed w pick order) (w_pick w) (w_setorder w)) with (reseed w (w_pick w) (w_setorder w)) in G.
      rewrite reseed_same in G. exact G.
    - apply (proj1 (gives_reseed w pick order basic strcons cfg env (fun _ => False))). exact G. }
  assert (Nc' : no_choice w' basic strcons cfg env v t).
  { destruct Nc as [N1 N2 N3]. constructor; [| |exact N3].
    - intros n args x t1 t2 r1 r2 R I O I1 I2 D G1 G2. apply Gv in G1, G2. exact (N1 n args x t1 t2 r1 r2 R I O I1 I2 D G1 G2).
    - intros c ms hints x t1 t2 y1 y2 r1 r2 R I E Nm Hh I1 I2 D G1 M1 G2 M2. apply Gv in G1, G2. exact (N2 c ms hints x t1 t2 y1 y2 r1 r2 R I E Nm Hh I1 I2 D G1 M1 G2 M2). }
  assert (Wl' : well_formed w' basic strcons cfg env v t) by (destruct Wl as [a b c]; constructor; [exact a|exact b|intros y R; destruct (c y R); split; assumption]).
  rewrite (C44_exact w basic strcons cfg St Wr Ud env s v t U Sd Wl Nc Te r).
  rewrite (C44_exact w' basic strcons cfg St' Wr' Ud env s' v t U' Sd' Wl' Nc' Te' r). symmetry. apply Gv.
Qed.
Print Assumptions C58_exact.

(** dump: both processes fail, or both return the same data, in which only the
    order of the keys of the dictionaries can differ *)
Theorem C58_dump : forall w basic strcons cfg pick order,
  is_dstd w basic strcons cfg ->
  forall s s' v, dhistory w cfg s -> dhistory (reseed w pick order) cfg s' -> python_value w v ->
  (* the fields of the dataclasses have different names, inside and outside *)
  (forall x fs, within v x -> ci_dc (class_of w (type_of x)) = Some fs -> NoDup (map f_name fs) /\ NoDup (map (dump_name cfg) fs)) ->
  forall r r', dumps w cfg s v r -> dumps (reseed w pick order) cfg s' v r' -> same_dump r r'.
Proof. exact seed_dump. Qed.
Print Assumptions C58_dump.

(** the members of the unions have other common keys too, without Literals; the
    other seed takes the last key, and iterates in the opposite order *)
Definition pick58 (l : list string) : nat := List.length l - 1.
Notation W0r := (reseed W0 pick58 (fun l => l)).
Definition L58 : list ty := [LIST (UNION [CLS "TagA"; CLS "TagB"]); UNION [CLS "TagA"; CLS "TagB"]; CLS "TagA"; CLS "TagB";
  TLiteral [VStr "a"]; TLiteral [VStr "b"]; TInt].
Lemma L58_spec env x : reach W0 (pep563 C0) env (LIST (UNION [CLS "TagA"; CLS "TagB"])) x -> In x L58.
Proof. apply (reach_closed W0 C0 env L58); vm_compute; reflexivity. Qed.
Definition S58 : lstate := snd (load W0r C0 50 NODE2 (CLS "Node") (snd (load W0r C0 50 (VStr "1") TInt S0))).
Example C58_ex : let t := LIST (UNION [CLS "TagA"; CLS "TagB"]) in let env := fun n => str_get n [] in
  later W0 C0 (fresh (Some []) []) S2 /\ later W0r C0 (fresh (Some []) []) S58 /\
  (forall t' args, reach W0 (pep563 C0) env t t' -> as_union (reach W0 (pep563 C0) env t) t' -> ty_args t' = Some args -> one_tag W0 args) /\
  (forall c fs, reach W0 (pep563 C0) env t (TClass c) -> ci_dc (class_of W0 c) = Some fs -> NoDup (map f_name fs) /\ NoDup (map (external C0 false) fs)) /\
  (forall n, ~ reach W0 (pep563 C0) env t (TForward n)) /\
  (forall n kt vt, ~ reach W0 (pep563 C0) env t (TGen n ODict (Some [kt; vt]))) /\
  (forall n o c vt, ~ reach W0 (pep563 C0) env t (TGen n o (Some [TClass c; vt]))
     \/ (c = CUser "TagA" /\ vt = CLS "TagB")) /\
  (forall c t', c = CUser "TagA" -> annotated W0 c t' -> reach W0 (pep563 C0) env t t') /\
  accepts W0r C0 S58 (VList [dict [("type", VStr "b")]]) t.
Proof.
  intros t env. split; [unfold S2; repeat constructor|]. split; [unfold S58; repeat constructor|].
  split.
  - intros t' args R Un A. apply L58_spec in R.
    assert (Q : t' = UNION [CLS "TagA"; CLS "TagB"] \/ one_tag W0 args).
    { destruct Un as [[n [a ->]]|[n [o [vt [R' [n' [a ->]]]]]]].
      - left. cbn in R. repeat (destruct R as [R|R]; [first [discriminate R|symmetry; exact R]|]). contradiction.
      - apply L58_spec in R'. cbn in R'. repeat (destruct R' as [R'|R']; [discriminate R'|]). contradiction. }
    destruct Q as [->|Q]; [|exact Q]. injection A as <-. intros _ k k' H H'.
    assert (X : forall k0, has_tag W0 (CLS "TagA") k0 -> k0 = "type").
    { intros k0 [c [a [vals [[= <-] [I U]]]]]. cbn in I. destruct I as [I|[I|[]]]; injection I as <- <-; [reflexivity|discriminate U]. }
    rewrite (X k), (X k'); [reflexivity|apply H'|apply H]; left; reflexivity.
  - assert (No : forall x, ~ In x L58 -> ~ reach W0 (pep563 C0) env t x) by (intros x N R; apply N; apply (L58_spec env); exact R).
    split.
    { intros c fs R D. apply L58_spec in R. cbn in R.
      repeat (destruct R as [R|R]; [try discriminate R; injection R as <-; first [discriminate D|injection D as <-; split; repeat constructor; cbn; intuition discriminate]|]). contradiction. }
    split; [intro n; apply No; cbn; intuition discriminate|].
    split; [intros n kt vt; apply No; cbn; intuition discriminate|].
    split; [|split].
    + intros n o c vt. destruct (ty_eqb (TClass c) (CLS "TagA")) eqn:E1; [destruct (ty_eqb vt (CLS "TagB")) eqn:E2|].
      * right. apply ty_eqb_eq in E1, E2. split; [injection E1 as E1; exact E1|exact E2].
      * left. apply No. cbn. intros H. repeat (destruct H as [H|H]; [try discriminate H; injection H as _ _ _ <-; discriminate E2|]). contradiction.
      * left. apply No. cbn. intros H. repeat (destruct H as [H|H]; [try discriminate H; injection H as _ _ <- _; discriminate E1|]). contradiction.
    + intros c t' -> An.
      assert (RA : reach W0 (pep563 C0) env t (CLS "TagA")).
      { econstructor; [|econstructor; [|constructor]]; unfold component; cbn; [left; reflexivity|left; reflexivity]. }
      assert (Ra : forall y, component W0 (pep563 C0) env (CLS "TagA") y -> reach W0 (pep563 C0) env t y).
      { intros y Cy. eapply reach_step; [exact RA|exact Cy]. }
      assert (In t' [TLiteral [VStr "a"]; TInt]) as I.
      { destruct An as [[l [E I]]|[I|[I|[[fs [E I]]|[fs [E I]]]]]]; cbn in *.
        - injection E as <-. cbn in I. tauto.
        - exact I.
        - exact I.
        - injection E as <-. exact I.
        - discriminate E. }
      apply Ra. exact I.
    + eexists. split; [discriminate|]. exists 50. vm_compute. reflexivity.
Qed.

(** the condition of C58_exact for the other process *)
Example C58_ex_exact : exists s',
  used W0r C0 s' /\ steady W0r default_basic C0 env2 s' NODE2 (CLS "Node") /\
  trials_end W0r default_basic C0 env2 s' NODE2 (CLS "Node") /\ loads W0r C0 s' NODE2 (CLS "Node") (Ok NODE2r).
Proof.
  exists S58. split; [|split; [|split]].
  - unfold S58. repeat constructor.
  - constructor.
    + intros n R. apply L9_spec in R. cbn in R. destruct R as [R|[R|[R|[R|[R|[]]]]]]; try discriminate R. injection R as <-.
      exists (CLS "Node"). split; [reflexivity|]. eexists. split; vm_compute; reflexivity.
    + intros n kt vt R. apply L9_spec in R. cbn in R. destruct R as [R|[R|[R|[R|[R|[]]]]]]; discriminate.
    + intros n args R. apply L9_spec in R. cbn in R. destruct R as [R|[R|[R|[R|[R|[]]]]]]; try discriminate R. injection R as <- <-.
      apply plain_tagsb_spec. vm_compute. reflexivity.
  - assert (F1 : forallb (fun x => match fst (load W0r C0 50 x (TForward "Node") S58) with Ok _ => true | Exc (XTL _ _ _ _ _ _) => true | _ => false end) in9 = true)
      by (vm_compute; reflexivity).
    assert (F2 : forallb (fun x => match fst (load W0r C0 50 x TNone S58) with Ok _ => true | Exc (XTL _ _ _ _ _ _) => true | _ => false end) in9 = true)
      by (vm_compute; reflexivity).
    rewrite forallb_forall in F1, F2.
    assert (Se : forall x t', match fst (load W0r C0 50 x t' S58) with Ok _ => true | Exc (XTL _ _ _ _ _ _) => true | _ => false end = true -> settles W0r C0 S58 x t').
    { intros x t' B. exists (fst (load W0r C0 50 x t' S58)). split.
      - split; [intro Q; rewrite Q in B; discriminate|]. exists 50. reflexivity.
      - destruct (fst (load W0r C0 50 x t' S58)) as [y|[]|]; try discriminate; [left; eauto|right; unfold raises_tl; eauto 10]. }
    constructor.
    + intros n args x R I O. apply L9_spec in R. cbn in R.
      destruct R as [R|[R|[R|[R|[R|[]]]]]]; try discriminate R. injection R as <- <-. split.
      * intros d k y E L. destruct (L TNone) as [c [tk [vals [[= <-] [Q _]]]]]; [cbn; auto|destruct Q].
      * apply in9_spec in I. intros t' [<-|[<-|[]]]; apply Se; [exact (F1 x I)|exact (F2 x I)].
    + intros c ms hints x t' R I E. apply L9_spec in R. cbn in R.
      destruct R as [R|[R|[R|[R|[R|[]]]]]]; try discriminate R; injection R as <-; discriminate E.
  - split; [discriminate|]. exists 50. vm_compute. reflexivity.
Qed.

(** the order of the keys is another one *)
Definition V58 : value := VList [VObj (CUser "Point") [("x", VInt 1); ("y", VInt 2)]].
Example C58_ex_dump :
  dhistory W0 D0 SD1 /\ dhistory W0r D0 dfresh /\ python_value W0 V58 /\
  (forall x fs, within V58 x -> ci_dc (class_of W0 (type_of x)) = Some fs -> NoDup (map f_name fs) /\ NoDup (map (dump_name D0) fs)) /\
  dumps W0 D0 SD1 V58 (Ok (VList [dict [("y", VInt 2); ("x", VInt 1)]])) /\
  dumps W0r D0 dfresh V58 (Ok (VList [dict [("x", VInt 1); ("y", VInt 2)]])).
Proof.
  split; [exact SD1_used|]. split; [constructor|]. split; [within_now 4; cbn; repeat split; try discriminate; left; discriminate|].
  split.
  { intros x fs W. revert x W fs. within_now 4; cbn; intros fs E; try discriminate E. injection E as <-. split; repeat constructor; cbn; intuition discriminate. }
  split; (split; [discriminate|exists 9; vm_compute; reflexivity]).
Qed.

(** A: k1: Literal['a']; k2: Literal['x'], B the same, C: k1: Literal['a'];
    k2: Literal['y'].  When k1 is the discriminator, C is tried first, then A;
    when it is k2, B is tried first: what Union[A, B, C] makes of the data
    changes from one run of the program to the next. *)
Definition W58 : world :=
  let tags (a b : string) := dcls [f0 "k1" (TLiteral [VStr a]) DNo; f0 "k2" (TLiteral [VStr b]) DNo] in
  mkWorld (fun n => if String.eqb n "A" then tags "a" "x" else if String.eqb n "B" then tags "a" "x"
                    else if String.eqb n "C" then tags "a" "y" else w_class W0 n)
          (w_call W0) (w_fromiso W0) (w_callargs W0) (w_timedelta W0) (w_compile W0) (w_name W0) (w_pick W0)
          (w_setorder W0) (w_str W0) (w_iso W0) (w_seconds W0).
Theorem C58_refuted : exists w basic strcons cfg pick order v t r r',
  is_std w basic strcons cfg /\ wf_reflect w /\
  loads w cfg (fresh (Some []) []) v t (Ok r) /\ loads (reseed w pick order) cfg (fresh (Some []) []) v t (Ok r') /\
  py_eqb r r' = false.
Proof.
  exists W58, default_basic, default_strcons, (default_config W58), pick58, (@rev string),
    (dict [("k1", VStr "a"); ("k2", VStr "x")]), (UNION [CLS "A"; CLS "B"; CLS "C"]),
    (VObj (CUser "A") [("k1", VStr "a"); ("k2", VStr "x")]), (VObj (CUser "B") [("k1", VStr "a"); ("k2", VStr "x")]).
  split; [split; reflexivity|]. split; [|split; [|split; [|reflexivity]]].
  - assert (X : forall c, (ci_td (class_of W58 c) = None) \/ class_of W58 c = class_of W0 c).
    { intro c. destruct c; try (right; reflexivity). cbn.
      destruct (String.eqb n "A"); [left; reflexivity|]. destruct (String.eqb n "B"); [left; reflexivity|].
      destruct (String.eqb n "C"); [left; reflexivity|right; reflexivity]. }
    destruct wr0 as [w1 w2 w3]. constructor.
    + intros c H. destruct (X c) as [Q|Q]; [contradiction|]. rewrite Q. apply w1. rewrite <- Q. exact H.
    + intros c k t H. destruct (X c) as [Q|Q]; [contradiction|]. rewrite Q. apply w2. rewrite <- Q. exact H.
    + intros c req k n a H. destruct (X c) as [Q|Q]; [rewrite H in Q; discriminate|]. rewrite Q. apply w3. rewrite <- Q. exact H.
  - split; [discriminate|]. exists 50. vm_compute. reflexivity.
  - split; [discriminate|]. exists 50. vm_compute. reflexivity.
Qed.
Print Assumptions C58_refuted.

(** two fields of one dataclass with the same name outside: the set of line 511
    decides which one takes the value *)
Definition W58n : world :=
  mkWorld (fun n => if String.eqb n "R" then dcls [fm "one" "n" TInt (DValue (VInt 1)); fm "two" "n" TInt (DValue (VInt 2))] else w_class W0 n)
          (w_call W0) (w_fromiso W0) (w_callargs W0) (w_timedelta W0) (w_compile W0) (w_name W0) (w_pick W0)
          (w_setorder W0) (w_str W0) (w_iso W0) (w_seconds W0).
Theorem C58_refuted_names : exists w basic strcons cfg pick order v t r r',
  is_std w basic strcons cfg /\ wf_reflect w /\
  loads w cfg (fresh (Some []) []) v t (Ok r) /\ loads (reseed w pick order) cfg (fresh (Some []) []) v t (Ok r') /\
  py_eqb r r' = false.
Proof.
  exists W58n, default_basic, default_strcons, (default_config W58n), (w_pick W58n), (fun l => rev (w_setorder W58n l)),
    (dict [("n", VInt 5)]), (CLS "R"),
    (VObj (CUser "R") [("one", VInt 5); ("two", VInt 2)]), (VObj (CUser "R") [("one", VInt 1); ("two", VInt 5)]).
  split; [split; reflexivity|]. split; [|split; [|split; [|reflexivity]]].
  - assert (X : forall c, (ci_td (class_of W58n c) = None) \/ class_of W58n c = class_of W0 c).
    { intro c. destruct c; try (right; reflexivity). cbn.
      destruct (String.eqb n "R"); [left; reflexivity|right; reflexivity]. }
    destruct wr0 as [w1 w2 w3]. constructor.
    + intros c H. destruct (X c) as [Q|Q]; [contradiction|]. rewrite Q. apply w1. rewrite <- Q. exact H.
    + intros c k t H. destruct (X c) as [Q|Q]; [contradiction|]. rewrite Q. apply w2. rewrite <- Q. exact H.
    + intros c req k n a H. destruct (X c) as [Q|Q]; [rewrite H in Q; discriminate|]. rewrite Q. apply w3. rewrite <- Q. exact H.
  - split; [discriminate|]. exists 50. vm_compute. reflexivity.
  - split; [discriminate|]. exists 50. vm_compute. reflexivity.
Qed.
Print Assumptions C58_refuted_names.
