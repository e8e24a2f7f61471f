(** * Cost3: recursive types with linear work (C60)

    [R] is the list of the recursive types.  The bound for a value [v] and a type
    of [R] at the distance [d] from the fields of objects is
    [Q * (E D * below v + E d * tw e v)] where [tw e v] are the objects and
    characters of [v] not deeper than [e], which is all that a type which is not
    recursive looks at, and [below v] is the sum of [tw e] for all the objects
    inside [v]. *)

From Verif Require Import Loader Spec Vocab Inv Std Sound Trace Hist Total Facts4 Term Fuel Ground Cost Unions.

(** ** Sizes *)
Fixpoint tw (n : nat) (v : value) : nat :=
  match n with
  | 0 => 1
  | S m =>
      S (match v with
         | VStr s | VBytes s => String.length s
         | VList l | VTuple l | VSet l | VFrozen l => list_sum (map (tw m) l)
         | VDict d => list_sum (map (fun kv => tw m (fst kv) + tw m (snd kv)) d)
         | VNamespace d => list_sum (map (fun kv => S (String.length (fst kv)) + tw m (snd kv)) d)
         | VNT _ d => list_sum (map (fun kv => tw m (snd kv)) d)
         | _ => 0
         end)
  end.
Fixpoint total (n : nat) (v : value) : nat :=
  tw n v +
  match v with
  | VList l | VTuple l | VSet l | VFrozen l => list_sum (map (total n) l)
  | VDict d => list_sum (map (fun kv => total n (fst kv) + total n (snd kv)) d)
  | VNamespace d => list_sum (map (fun kv => total n (snd kv)) d)
  | VNT _ d => list_sum (map (fun kv => total n (snd kv)) d)
  | _ => 0
  end.
Definition below (n : nat) (v : value) : nat :=
  match v with
  | VList l | VTuple l | VSet l | VFrozen l => list_sum (map (total n) l)
  | VDict d => list_sum (map (fun kv => total n (fst kv) + total n (snd kv)) d)
  | VNamespace d => list_sum (map (fun kv => total n (snd kv)) d)
  | VNT _ d => list_sum (map (fun kv => total n (snd kv)) d)
  | _ => 0
  end.
Lemma total_eq n v : total n v = tw n v + below n v. Proof. destruct v; reflexivity. Qed.
Lemma tw_pos n v : 1 <= tw n v. Proof. destruct n; cbn [tw]; lia. Qed.
Lemma sum_le {A} (f g : A -> nat) l : (forall x, In x l -> f x <= g x) -> list_sum (map f l) <= list_sum (map g l).
Proof. unfold list_sum. induction l as [|a l IH]; intro H; cbn [map fold_right]; [lia|]. pose proof (H a (or_introl eq_refl)). pose proof (IH (fun x I => H x (or_intror I))). lia. Qed.
Lemma sum_plus {A} (f g : A -> nat) l : list_sum (map (fun x => f x + g x) l) = list_sum (map f l) + list_sum (map g l).
Proof. unfold list_sum. induction l as [|a l IH]; cbn [map fold_right]; lia. Qed.
Lemma tw_more n : forall v, tw n v <= tw (S n) v.
Proof.
  induction n as [|n IH]; intro v; [cbn [tw]; lia|]. cbn [tw]. apply le_n_S. destruct v as [| | | | | |l|l|l|l|d|d|c d| | |]; try apply le_n; apply sum_le; intros x _.
  - apply IH.
  - apply IH.
  - apply IH.
  - apply IH.
  - apply Nat.add_le_mono; apply IH.
  - apply Nat.add_le_mono_l; apply IH.
  - apply IH.
Qed.
Lemma tw_mono n m v : n <= m -> tw n v <= tw m v.
Proof. intro L. induction L as [|m L IH]; [apply le_n|]. pose proof (tw_more m v). lia. Qed.
Lemma tw_items n v l : iter v = Some l -> list_sum (map (tw n) l) <= 2 * tw (S n) v.
Proof.
  assert (G : forall a, tw n (VStr (String a "")) <= 2) by (intro a; destruct n; cbn [tw String.length]; lia).
  assert (G2 : forall a, tw n (VInt a) <= 1) by (intro a; destruct n; cbn [tw]; lia).
  destruct v as [| | | |s|s|l0|l0|l0|l0|d| |c fs| | |]; cbn [iter]; try discriminate; intros [= <-]; cbn [tw]; try lia.
  - unfold list_sum. induction s as [|a s IH]; cbn [chars map fold_right String.length] in *; [lia|]. specialize (G a). lia.
  - unfold list_sum. induction s as [|a s IH]; cbn [bytes_of map fold_right String.length] in *; [lia|]. specialize (G2 (Z.of_nat (Ascii.nat_of_ascii a))). lia.
  - unfold list_sum. induction d as [|[k x] d IH]; cbn [map fold_right fst snd] in *; lia.
  - unfold list_sum. induction fs as [|[k x] d IH]; cbn [map fold_right fst snd] in *; lia.
Qed.
Lemma tw_dict cfg n v d : as_dict cfg v = VDict d -> list_sum (map (fun kv => tw n (fst kv) + tw n (snd kv)) d) <= tw (S n) v.
Proof.
  destruct v as [| | | | | | | | | |d0|d0| | | |]; cbn [as_dict]; try discriminate.
  - intros [= ->]. cbn [tw]. lia.
  - destruct (dictequivalence cfg); [|discriminate]. intros [= <-]. cbn [tw]. rewrite map_map. cbn [fst snd].
    apply Nat.le_trans with (m := list_sum (map (fun x : string * value => S (String.length (fst x)) + tw n (snd x)) d0)); [|lia]. apply sum_le.
    intros x _. apply Nat.add_le_mono_r. destruct n; cbn [tw]; lia.
Qed.

Lemma total_0 v : total 0 v <= weight v.
Proof.
  induction v as [|b|z|f|s|s|l F|l F|l F|l F|d F|d F|c d F|c d F|c m v IH|c v IH] using value_ind'; cbn [total tw weight]; try lia;
    try (apply le_n_S; apply sum_le; intros x I; rewrite Forall_forall in F; exact (F x I)).
  - apply le_n_S, sum_le. intros [k x] I. rewrite Forall_forall in F. specialize (F _ I). cbn [fst snd] in *. destruct F. lia.
  - apply le_n_S, sum_le. intros [k x] I. rewrite Forall_forall in F. specialize (F _ I). cbn [fst snd] in *. lia.
Qed.
Lemma total_S n v : total (S n) v <= weight v + below n v.
Proof.
  assert (L : forall l, Forall (fun x => total (S n) x <= weight x + below n x) l -> list_sum (map (tw n) l) + list_sum (map (total (S n)) l) <= list_sum (map weight l) + list_sum (map (total n) l)).
  { intros l F. rewrite <- !sum_plus. apply sum_le. intros x I. rewrite Forall_forall in F. specialize (F x I). rewrite (total_eq n x). lia. }
  induction v as [|b|z|f|s|s|l F|l F|l F|l F|d F|d F|c d F|c d F|c m v IH|c v IH] using value_ind'; cbn [total weight below]; try (cbn [tw]; lia).
  - cbn [tw]. apply L in F. lia.
  - cbn [tw]. apply L in F. lia.
  - cbn [tw]. apply L in F. lia.
  - cbn [tw]. apply L in F. lia.
  - cbn [tw]. cbn [Nat.add]. apply le_n_S. rewrite <- !sum_plus. apply sum_le. intros [k x] I. rewrite Forall_forall in F. specialize (F _ I). cbn [fst snd] in *. destruct F as [F1 F2].
    rewrite (total_eq n x), (total_eq n k). lia.
  - cbn [tw]. cbn [Nat.add]. apply le_n_S. rewrite <- !sum_plus. apply sum_le. intros [k x] I. rewrite Forall_forall in F. specialize (F _ I). cbn [fst snd] in *.
    rewrite (total_eq n x). lia.
  - cbn [tw]. cbn [Nat.add]. apply le_n_S. rewrite <- !sum_plus. apply sum_le. intros [k x] I. rewrite Forall_forall in F. specialize (F _ I). cbn [fst snd] in *.
    rewrite (total_eq n x). lia.
Qed.
Lemma total_weight n v : total n v <= S n * weight v.
Proof. induction n as [|n IH]; [pose proof (total_0 v); lia|]. pose proof (total_S n v). rewrite (total_eq n v) in IH. cbn [Nat.mul] in *. lia. Qed.

(** ** Types which are not recursive look at the top of the data only *)
Section Top.
  Variable w : world.
  Variables basic strcons : list cid.
  Variable cfg : config.
  Hypothesis Hstd : is_std w basic strcons cfg.
  Variable names : string -> list ty.
  Notation sp := (sp w cfg names).
  Notation yes := (fun _ => True).
  Definition shallow (t : ty) (k : nat) : Prop := forall n h v, std_handler cfg h -> sp (counted w cfg n h v t) (k * tw k v) yes.
  Lemma sp_shallow t : not_recursive w names t -> (forall t', involves w names t t' -> named w names t') ->
    exists K, forall k, K <= k -> shallow t k.
  Proof using Hstd.
    intro A. induction A as [t A IH]. intro Kn.
    destruct (max_all (fun t' k => shallow t' k) (mentioned w names t)) as [K HK].
    { intros t' I. apply IH; [exact I|]. intros t1 I1. apply Kn. econstructor; eassumption. }
    exists (S ((2 + List.length (mentioned w names t)) * S K)). intros k Lk [|n] h v Sh; cbn [counted].
    { intros s C. cbn [fst snd]. split; [exact C|]. split; [lia|discriminate]. }
    pose proof (tw_pos (S K) v) as Wp. set (m := List.length (mentioned w names t)) in *.
    assert (B : sp (body w cfg (counted w cfg n) h v t) ((2 + m) * K * tw (S K) v) yes).
    { apply sp_body with (g := fun x => K * tw K x) (ok := fun h' _ => std_handler cfg h').
      - intros t' I. apply Kn. econstructor; [exact I|constructor].
      - intros h' t' F. exists t'. exact F.
      - intros h' v' t' Sh' I. apply HK; [exact I|lia|exact Sh'].
      - exact (std_not_custom w basic strcons cfg Hstd h Sh).
      - intros _ h' t' Sh' _. exact Sh'.
      - intros d D. apply (tw_dict cfg K) in D. unfold gd.
        assert (E : list_sum (map (fun kv => K * tw K (fst kv) + K * tw K (snd kv)) d) = K * list_sum (map (fun kv => tw K (fst kv) + tw K (snd kv)) d)).
        { rewrite <- sum_mult. f_equal. apply map_ext. intro a. lia. }
        rewrite E. pose proof (Nat.mul_le_mono_l _ _ K D). nia.
      - intros l D. apply (tw_items K) in D. unfold gl. rewrite sum_mult. pose proof (Nat.mul_le_mono_l _ _ K D). nia.
      - fold m. pose proof (tw_more K v). nia. }
    intros s C. destruct (B (mark s)) as [C1 [L1 H1]].
    - destruct C as [C1 C2 C3]. split; [|exact C2|exact C3]. destruct C1 as [D1 D2 D3]. split; [exact D1|exact D2|exact D3].
    - split; [exact C1|]. split; [|exact H1]. rewrite marks_mark in L1. pose proof (tw_mono (S K) k v ltac:(nia)). nia.
  Qed.
End Top.

(** ** Recursive types *)

Fixpoint near (w : world) (names : string -> list ty) (d : nat) (t : ty) : Prop :=
  match d with 0 => False | S d' => forall t', passed_on w names t t' -> near w names d' t' end.
Lemma near_more w names d : forall t, near w names d t -> near w names (S d) t.
Proof. induction d as [|d IH]; intros t H; [contradiction|]. intros t' P. apply IH. exact (H t' P). Qed.
Lemma near_mono w names d d' t : d <= d' -> near w names d t -> near w names d' t.
Proof. intro L. induction L as [|d' L IH]; intro H; [exact H|]. apply near_more. auto. Qed.
Lemma passed_list_in w names a b : In b (passed_list w names a) -> passed_on w names a b.
Proof.
  destruct a as [c|n o [args|]| | | | | |]; cbn; try contradiction; try (destruct o; (contradiction || auto)).
  - destruct (ci_enum (class_of w c)); [|contradiction]. destruct (ci_hints (class_of w c)) as [hs|]; [|contradiction]. intro I. split; [discriminate|]. eauto.
  - auto.
  - intros [<-|[]]. reflexivity.
Qed.
Lemma near_some w names t : Acc (fun t' t => passed_on w names t t') t -> exists d, near w names d t.
Proof.
  intro A. induction A as [t A IH]. destruct (max_all (fun t' d => near w names d t') (passed_list w names t)) as [N H].
  - intros t' I. destruct (IH t' (passed_list_in w names t t' I)) as [d Hd]. exists d. intros n L. exact (near_mono w names d n t' L Hd).
  - exists (S N). intros t' P. apply (H t'); [apply passed_list_spec; exact P|apply le_n].
Qed.

Fixpoint E (d : nat) : nat := match d with 0 => 1 | S d' => S (2 * E d') end.
Lemma E_pos d : 1 <= E d. Proof. destruct d; cbn [E]; lia. Qed.
Lemma E_mono d d' : d <= d' -> E d <= E d'. Proof. intro L. induction L as [|d' L IH]; [apply le_n|]. cbn [E]. lia. Qed.

Section Bounds.
  Variables e D Q : nat.
  Hypothesis Qp : 1 <= Q.
  Definition cost (v : value) (d : nat) : nat := Q * (E D * below (S e) v + E d * tw (S e) v).
  Lemma cost_total v d : d <= D -> cost v d <= Q * E D * total (S e) v.
  Proof using. clear Qp. intro L. unfold cost. rewrite total_eq. pose proof (Nat.mul_le_mono_r _ _ (tw (S e) v) (E_mono d D L)) as H.
    replace (Q * E D * (tw (S e) v + below (S e) v)) with (Q * (E D * below (S e) v + E D * tw (S e) v)) by ring. apply Nat.mul_le_mono_l. lia. Qed.
  Lemma cost_top v d k : k <= Q -> k * tw (S e) v <= cost v d.
  Proof using. clear Qp. intro L. unfold cost. apply Nat.mul_le_mono; [exact L|]. pose proof (E_pos d). nia. Qed.
  Lemma arith a q x y z : a <= q * x -> x <= y -> 1 <= q -> 1 <= z -> a + 1 <= q * (y + z).
  Proof using. clear Qp. intros A B C F. pose proof (Nat.mul_le_mono_l _ _ q B). rewrite Nat.mul_add_distr_l. nia. Qed.
  Lemma sum_const {A} (f : A -> nat) c l : (forall x, In x l -> f x = c) -> list_sum (map f l) = List.length l * c.
  Proof using. clear Qp. unfold list_sum. induction l as [|a l IH]; intro H; cbn [map fold_right List.length Nat.mul]; [reflexivity|]. rewrite (H a (or_introl eq_refl)), (IH (fun x I => H x (or_intror I))). reflexivity. Qed.
  Lemma chars_in s x : In x (chars s) -> exists a, x = VStr (String a "").
  Proof using. clear Qp. induction s as [|a s IH]; cbn [chars]; [intros []|]. intros [<-|I]; eauto. Qed.
  Lemma bytes_in s x : In x (bytes_of s) -> exists z, x = VInt z.
  Proof using. clear Qp. induction s as [|a s IH]; cbn [bytes_of]; [intros []|]. intros [<-|I]; eauto. Qed.
  Lemma chars_length s : List.length (chars s) = String.length s. Proof using. clear Qp. induction s as [|a s IH]; cbn [chars List.length String.length]; congruence. Qed.
  Lemma bytes_length s : List.length (bytes_of s) = String.length s. Proof using. clear Qp. induction s as [|a s IH]; cbn [bytes_of List.length String.length]; congruence. Qed.
  Lemma items_total l d : d <= D -> list_sum (map (fun x => cost x d) l) <= Q * E D * list_sum (map (total (S e)) l).
  Proof using. clear Qp. intro L. rewrite <- sum_mult. apply sum_le. intros x _. apply cost_total. exact L. Qed.
  Lemma cost_items v l d : d <= D -> iter v = Some l -> list_sum (map (fun x => cost x d) l) + 1 <= cost v (S d).
  Proof using Qp.
    intros L It.
    assert (G : list_sum (map (total (S e)) l) <= below (S e) v -> list_sum (map (fun x => cost x d) l) + 1 <= cost v (S d)).
    { intro B. pose proof (items_total l d L) as T. unfold cost at 2. rewrite <- Nat.mul_assoc in T. apply (arith _ _ _ _ _ T); [apply Nat.mul_le_mono_l; exact B|exact Qp|].
      pose proof (tw_pos (S e) v). pose proof (E_pos (S d)). nia. }
    destruct v as [| | | |s|s|l0|l0|l0|l0|d0| |c fs| | |]; cbn [iter] in It; try discriminate; injection It as <-; try (apply G; cbn [below]; lia).
    - rewrite (sum_const _ (Q * (E d * 2))); [|intros x I; apply chars_in in I as [a ->]; unfold cost; cbn [below tw String.length]; lia].
      rewrite chars_length. unfold cost. cbn [below tw E]. nia.
    - rewrite (sum_const _ (Q * E d)); [|intros x I; apply bytes_in in I as [a ->]; unfold cost; cbn [below tw]; lia].
      rewrite bytes_length. unfold cost. cbn [below tw E]. nia.
    - apply G. cbn [below]. rewrite map_map. apply sum_le. intros x _. lia.
    - apply G. cbn [below]. rewrite map_map. apply le_n.
  Qed.
  Lemma cost_fields cfg v dd d : as_dict cfg v = VDict dd -> list_sum (map (fun kv => Q * E D * total (S e) (snd kv)) dd) + 1 <= cost v d.
  Proof using Qp.
    intro A. assert (B : list_sum (map (fun kv => total (S e) (snd kv)) dd) <= below (S e) v).
    { destruct v as [| | | | | | | | | |d0|d0| | | |]; cbn [as_dict] in A; try discriminate.
      - injection A as ->. cbn [below]. apply sum_le. intros x _. lia.
      - destruct (dictequivalence cfg); [|discriminate]. injection A as <-. cbn [below]. rewrite map_map. cbn [snd]. apply le_n. }
    rewrite (sum_mult (fun kv : value * value => total (S e) (snd kv)) (Q * E D) dd). unfold cost. rewrite <- Nat.mul_assoc.
    apply arith with (x := E D * list_sum (map (fun kv => total (S e) (snd kv)) dd)); [apply le_n|apply Nat.mul_le_mono_l; exact B|exact Qp|].
    pose proof (tw_pos (S e) v). pose proof (E_pos d). nia.
  Qed.
  Lemma cost_step v d k : k <= Q -> cost v d + k * tw (S e) v <= cost v (S d).
  Proof using. clear Qp. intro L. unfold cost. cbn [E]. pose proof (E_pos d). pose proof (Nat.mul_le_mono_r _ _ (tw (S e) v) L). nia. Qed.
  Lemma cost_pos v d : 1 <= cost v d. Proof using Qp. unfold cost. pose proof (tw_pos (S e) v). pose proof (E_pos d). nia. Qed.
End Bounds.

Section Loop.
  Variable w : world.
  Variables basic strcons : list cid.
  Variable cfg : config.
  Hypothesis Hstd : is_std w basic strcons cfg.
  Variable names : string -> list ty.
  Notation sp := (sp w cfg names).
  Notation yes := (fun _ => True).

  (** members of a union with different costs *)
  Lemma sp_members_each call v t (c : ty -> nat) ts : (forall x h, In x ts -> find_handler cfg x = POk h -> sp (call h v x) (c x) yes) ->
    forall n r exs, sp (try_members cfg call v t ts n r exs) (list_sum (map c ts)) yes.
  Proof using.
    induction ts as [|x ts IH]; intros H n r exs; cbn [try_members]; [apply sp_ret; exact I|].
    assert (IH' : forall n r exs, sp (try_members cfg call v t ts n r exs) (list_sum (map c ts)) yes) by (apply IH; intros; apply H; [right|]; assumption).
    apply sp_bind with (k1 := c x) (k2 := list_sum (map c ts)) (Q1 := yes); [| |unfold list_sum; cbn [map fold_right]; lia].
    - eapply sp_weak; [apply sp_attempt with (Q := yes)|apply le_n|auto]. apply sp_bind with (k1 := 0) (k2 := c x) (Q1 := fun h => find_handler cfg x = POk h); [apply sp_lookup| |lia].
      intros h F. apply H; [left; reflexivity|exact F].
    - intros [r'|[? ? ? ? ? ?|?]] _; [|apply IH'|apply sp_raise]. destruct (uniondebugconflict cfg); [apply IH'|apply sp_ret; exact I].
  Qed.
  Lemma sp_prefer_once v t args sorted : ty_args t = Some args -> NoDup sorted -> (forall x, In x sorted <-> In x args) ->
    sp (prefer w v t args sorted) 0 (fun l => (forall x, In x l -> In x args) /\ NoDup l).
  Proof using.
    intros A ND Hs. unfold prefer.
    assert (Rt : sp (ret sorted) 0 (fun l => (forall x, In x l -> In x args) /\ NoDup l)) by (apply sp_ret; split; [intros x I; apply Hs; exact I|exact ND]).
    destruct v; try exact Rt.
    apply sp_bind with (k1 := 0) (k2 := 0) (Q1 := fun dc => forall key cd, dc = Some (key, cd) -> forall x, In x (map snd cd) -> In x args); [| |lia].
    - intros s C. destruct (same_get t (st_disc s)) as [dc|] eqn:Ed; cbn [fst snd].
      + destruct (coh_disc _ _ _ (ok_coh _ _ _ _ _ C) _ _ Ed) as [args0 [args' [s' [A' [Sm ->]]]]]. rewrite A in A'. injection A' as <-.
        split; [exact C|]. split; [lia|]. intros dc [= <-] key cd B x Ix. apply Sm. eapply build_disc_types; [exact B|exact Ix].
      + split; [apply okst_same with (s := s); [apply good_disc; [exact Ed|exact A]|reflexivity|exact C]|]. split; [change (marks s <= marks s + 0); lia|].
        intros dc [= <-] key cd B x. eapply build_disc_types. exact B.
    - intros [[key [|lt cd]]|] Hd; try exact Rt.
      cbv zeta. destruct (hashable w _); [|apply sp_raise]. specialize (Hd _ _ eq_refl).
      destruct (disc_get _ (lt :: cd)) as [pt|] eqn:G; [|exact Rt]. apply sp_ret.
      assert (Ip : In pt args) by (apply Hd; eapply disc_get_types; exact G).
      pose proof (remove_first_perm pt sorted (proj2 (Hs pt) Ip)) as P. split.
      + intros y Iy. apply Hs. exact (Permutation_in y P Iy).
      + exact (Permutation_NoDup (Permutation_sym P) ND).
  Qed.
  Lemma once_sum (c : ty -> nat) m a b ts : NoDup ts -> (forall x, In x ts -> c x <= a \/ (x = m /\ c x <= a + b)) -> list_sum (map c ts) <= List.length ts * a + b.
  Proof using.
    unfold list_sum. induction ts as [|x ts IH]; intros ND H; cbn [map fold_right List.length Nat.mul]; [lia|]. inversion ND as [|x0 ts0 NI ND']; subst.
    destruct (H x (or_introl eq_refl)) as [L|[-> L]].
    - specialize (IH ND' (fun y I => H y (or_intror I))). lia.
    - assert (Z : fold_right Nat.add 0 (map c ts) <= List.length ts * a); [|lia].
      assert (Hl : forall y, In y ts -> c y <= a). { intros y I. destruct (H y (or_intror I)) as [L0|[-> _]]; [exact L0|contradiction]. }
      clear - Hl. induction ts as [|y ts IH]; cbn [map fold_right List.length Nat.mul]; [lia|]. pose proof (Hl y (or_introl eq_refl)). specialize (IH (fun z I => Hl z (or_intror I))). lia.
  Qed.
  Lemma NoDup_sorted (f : ty -> bool) l : NoDup l -> NoDup (filter (fun x => negb (f x)) l ++ filter f l).
  Proof using.
    intro ND. apply (Permutation_NoDup (l := l)); [|exact ND]. clear ND. induction l as [|a l IH]; [constructor|]. cbn [filter]. destruct (f a); cbn [negb].
    - apply Permutation_cons_app. exact IH.
    - cbn [app]. constructor. exact IH.
  Qed.
  Lemma sp_union_once call v t args m a b : ty_args t = Some args -> NoDup args ->
    (forall x h, In x args -> find_handler cfg x = POk h -> sp (call h v x) a yes \/ (x = m /\ sp (call h v x) (a + b) yes)) ->
    sp (unionload w cfg call v t) (List.length args * a + b) yes.
  Proof using.
    intros A ND H. unfold unionload. rewrite A. cbv zeta. destruct (_ && _); [apply sp_ret; exact I|].
    apply sp_bind with (k1 := 0) (k2 := List.length args * a + b) (Q1 := fun l => (forall x, In x l -> In x args) /\ NoDup l); [| |lia].
    - apply sp_prefer_once with (args := args); [exact A| |].
      + apply NoDup_sorted. exact ND.
      + intro x. rewrite in_app_iff, !filter_In. destruct (basicb cfg x); cbn [negb]; intuition congruence.
    - intros ts [Hts NDt]. apply sp_bind with (k1 := List.length args * a + b) (k2 := 0) (Q1 := yes); [| |lia].
      + eapply sp_more; [apply sp_members_each with (c := fun x => if ty_eqb x m then a + b else a)|].
        * intros x h Ix F. cbv beta. destruct (ty_eqb x m) eqn:Em; destruct (H x h (Hts x Ix) F) as [K|[Ex K]]; [eapply sp_more; [exact K|lia]|exact K|exact K|].
          apply ty_eqb_neq in Em. contradiction.
        * apply Nat.le_trans with (m := List.length ts * a + b).
          -- apply once_sum with (m := m); [exact NDt|]. intros x Ix. cbv beta. destruct (ty_eqb x m) eqn:Em; [right; split; [apply ty_eqb_eq; exact Em|lia]|left; lia].
          -- apply Nat.add_le_mono_r, Nat.mul_le_mono_r. exact (NoDup_incl_length NDt Hts).
      + intros [[[|[|n]] r] exs] _; try apply sp_raise. apply sp_ret. exact I.
  Qed.

  Variable R : list ty.
  Hypothesis Once : loops_once w names R.
  Hypothesis Known : forall t x, In t R -> involves w names t x -> named w names x.
  Variables e D M : nat.
  Hypothesis Hshallow : forall t x, In t R -> In x (mentioned w names t) -> In x R \/ shallow w cfg names x (S e).
  Hypothesis Hnear : forall t, In t R -> near w names D t.
  Hypothesis Hwidth : forall t, In t R -> List.length (mentioned w names t) <= M.
  Notation Q := (1 + S M * S e).
  Notation cost := (cost e D Q).
  Lemma Qp : 1 <= Q. Proof using. lia. Qed.
  Lemma Qe : S e <= Q. Proof using. nia. Qed.

  Lemma loop_cost n : forall t d h v, In t R -> near w names d t -> d <= D -> find_handler cfg t = POk h -> sp (counted w cfg n h v t) (cost v d) yes.
  Proof using Hstd Once Known Hshallow Hnear Hwidth.
    induction n as [|n IH]; intros t d h v It Nd Ld F; cbn [counted].
    { intros s C. cbn [fst snd]. split; [exact C|]. split; [lia|discriminate]. }
    destruct d as [|d]; [contradiction|].
    assert (B : exists k, k + 1 <= cost v (S d) /\ sp (body w cfg (counted w cfg n) h v t) k yes).
    2:{ destruct B as [k [Lk B]]. intros s C. destruct (B (mark s)) as [C1 [L1 H1]].
      - destruct C as [C1 C2 C3]. split; [|exact C2|exact C3]. destruct C1 as [D1 D2 D3]. split; [exact D1|exact D2|exact D3].
      - split; [exact C1|]. split; [|exact H1]. rewrite marks_mark in L1. lia. }
    destruct (Once t It) as [Men Shape].
    assert (Kn : forall t', In t' (mentioned w names t) -> named w names t') by (intros t' I'; apply (Known t t' It); econstructor; [exact I'|constructor]).
    (* what the members cost: passed on, or inside *)
    assert (Pass : forall h' v' t', find_handler cfg t' = POk h' -> In t' (mentioned w names t) -> passed_on w names t t' -> sp (counted w cfg n h' v' t') (cost v' d) yes).
    { intros h' v' t' F' I' P'. destruct (Hshallow t t' It I') as [IR|Sh].
      - apply IH; [exact IR|exact (Nd t' P')|lia|exact F'].
      - eapply sp_more; [apply Sh; exists t'; exact F'|]. apply cost_top. exact Qe. }
    assert (Field : forall h' v' t', find_handler cfg t' = POk h' -> In t' (mentioned w names t) -> sp (counted w cfg n h' v' t') (Q * E D * total (S e) v') yes).
    { intros h' v' t' F' I'. destruct (Hshallow t t' It I') as [IR|Sh].
      - eapply sp_more; [apply IH; [exact IR|exact (Hnear t' IR)|apply le_n|exact F']|]. apply cost_total. apply le_n.
      - eapply sp_more; [apply Sh; exists t'; exact F'|]. eapply Nat.le_trans; [apply (cost_top e D Q v' D _ Qe)|apply cost_total; apply le_n]. }
    pose proof (cost_pos e D Q Qp v (S d)) as Cp.
    assert (Zero : forall A : Prop, (sp (body w cfg (counted w cfg n) h v t) 0 yes) -> exists k, k + 1 <= cost v (S d) /\ sp (body w cfg (counted w cfg n) h v t) k yes) by (intros _ Z; exists 0; split; [exact Cp|exact Z]).
    pose proof (std_selected w basic strcons cfg t h Hstd F) as Sel.
    (* iterables *)
    assert (Iter : (forall t', In t' (mentioned w names t) -> passed_on w names t t') ->
      (forall h', (forall g (ok : handler -> ty -> Prop), (forall h' t', find_handler cfg t' = POk h' -> ok h' t') -> (forall h' v' t', ok h' t' -> In t' (mentioned w names t) -> sp (counted w cfg n h' v' t') (g v') yes) ->
         forall k, (forall l, iter v = Some l -> gl g l <= k) -> sp (body w cfg (counted w cfg n) h' v t) k yes) -> exists k, k + 1 <= cost v (S d) /\ sp (body w cfg (counted w cfg n) h' v t) k yes)).
    { intros Ps h' Sp. exists (cost v (S d) - 1). split; [lia|].
      apply (Sp (fun v' => cost v' d) (fun h' t' => find_handler cfg t' = POk h')); [auto|intros h0 v0 t0 F0 I0; apply Pass; auto|].
      intros l Il. pose proof (cost_items e D Q Qp v l d ltac:(lia) Il) as L. unfold gl. lia. }
    (* objects *)
    assert (Obj : forall h', (forall g (ok : handler -> ty -> Prop), (forall h' t', find_handler cfg t' = POk h' -> ok h' t') -> (forall h' v' t', ok h' t' -> In t' (mentioned w names t) -> sp (counted w cfg n h' v' t') (g v') yes) ->
         forall k, (forall dd, as_dict cfg v = VDict dd -> gx g dd <= k) -> sp (body w cfg (counted w cfg n) h' v t) k yes) -> exists k, k + 1 <= cost v (S d) /\ sp (body w cfg (counted w cfg n) h' v t) k yes).
    { intros h' Sp. exists (cost v (S d) - 1). split; [lia|].
      apply (Sp (fun v' => Q * E D * total (S e) v') (fun h' t' => find_handler cfg t' = POk h')); [auto|intros h0 v0 t0 F0 I0; apply Field; auto|].
      intros dd Ad. pose proof (cost_fields e D Q Qp cfg v dd (S d) Ad) as L. unfold gx. lia. }
    destruct h; cbn [selected] in Sel.
    - apply (Zero True). cbn [body]. unfold noneload. destruct v; try apply sp_raise. apply sp_ret. exact I.
    - destruct Sel as [n0 [args ->]]. destruct Shape as [ND [m Hm]].
      exists (List.length args * (S e * tw (S e) v) + cost v d). split.
      + pose proof (Hwidth _ It) as Lw. cbn [mentioned] in Lw. pose proof (cost_step e D Q v d Q (le_n _)) as Cs. pose proof (tw_pos (S e) v).
        assert (Z : List.length args * (S e * tw (S e) v) + 1 <= Q * tw (S e) v); [|lia]. pose proof (Nat.mul_le_mono_r _ _ (S e * tw (S e) v) Lw). nia.
      + cbn [body]. apply sp_union_once with (m := m); [reflexivity|exact ND|]. intros x h' Ix F'. destruct (Hshallow _ x It Ix) as [IR|Sh].
        * right. split; [apply Hm; assumption|]. eapply sp_more; [apply Pass; [exact F'|exact Ix|exact Ix]|lia].
        * left. apply Sh. exists x. exact F'.
    - apply (Zero True). cbn [body]. unfold basicload. destruct (exact v t); [apply sp_ret; exact I|]. destruct (basiccast cfg); [|apply sp_raise]. destruct (call_type w t v) as [|[]]; try apply sp_raise. apply sp_ret. exact I.
    - destruct Sel as [c [ms [-> [En _]]]]. rewrite En in Shape. discriminate Shape.
    - destruct Sel as [n0 [args ->]]. apply Iter; [destruct args; [intros t' I'; exact I'|intros t' []]|]. intros g ok Ho Hc k Lk. cbn [body]. exact (sp_tuple w cfg names _ v _ g ok Ho Hc k Lk).
    - destruct Sel as [n0 [args ->]]. apply Iter; [destruct args; [intros t' I'; exact I'|intros t' []]|]. intros g ok Ho Hc k Lk. cbn [body]. exact (sp_iter w cfg names _ v _ g ok Ho Hc _ k Lk).
    - destruct Sel as [n0 [args ->]]. contradiction.
    - destruct Sel as [n0 [args ->]]. apply Iter; [destruct args; [intros t' I'; exact I'|intros t' []]|]. intros g ok Ho Hc k Lk. cbn [body]. exact (sp_iter w cfg names _ v _ g ok Ho Hc _ k Lk).
    - destruct Sel as [n0 [args ->]]. apply Iter; [destruct args; [intros t' I'; exact I'|intros t' []]|]. intros g ok Ho Hc k Lk. cbn [body]. exact (sp_iter w cfg names _ v _ g ok Ho Hc _ k Lk).
    - apply Obj. intros g ok Ho Hc k Lk. cbn [body]. exact (sp_named w cfg names _ v t Kn g ok Ho Hc k Lk).
    - apply Obj. intros g ok Ho Hc k Lk. cbn [body]. exact (sp_dataclass w cfg names _ v t Kn g ok Ho Hc k Lk).
    - destruct Sel as [n0 ->]. exists (cost v d). split; [pose proof (cost_step e D Q v d 1 Qp); pose proof (tw_pos (S e) v); lia|]. cbn [body].
      eapply sp_fref with (g := fun v' => cost v' d) (ok := fun h' t' => find_handler cfg t' = POk h'); [exact Kn|auto| |apply le_n]. intros h0 v0 t0 F0 I0. apply Pass; auto.
    - apply (Zero True). cbn [body]. unfold literalload. destruct t; try apply sp_raise. destruct (py_in v vals); [apply sp_ret; exact I|apply sp_raise].
    - apply Obj. intros g ok Ho Hc k Lk. cbn [body]. exact (sp_typed w cfg names _ v t Kn g ok Ho Hc k Lk).
    - apply (Zero True). cbn [body]. unfold datetimeload. destruct t; try apply sp_raise. destruct (match v with VStr s => _ | _ => _ end) as [|[]]; try apply sp_raise. apply sp_ret. exact I.
    - apply (Zero True). cbn [body]. unfold patternload. destruct (w_compile w v) as [|[]]; try apply sp_raise. apply sp_ret. exact I.
    - apply (Zero True). cbn [body]. unfold timedeltaload. destruct (w_timedelta w v) as [|[]]; try apply sp_raise. apply sp_ret. exact I.
    - apply (Zero True). cbn [body]. unfold strconsload. destruct (call_type w t v) as [|[]]; try apply sp_raise. apply sp_ret. exact I.
    - apply Obj. intros g ok Ho Hc k Lk. cbn [body]. exact (sp_attr w cfg names _ v t Kn g ok Ho Hc k Lk).
    - apply (Zero True). cbn [body]. apply sp_ret. exact I.
    - destruct Sel as [n0 [su ->]]. exists (cost v d). split; [pose proof (cost_step e D Q v d 1 Qp); pose proof (tw_pos (S e) v); lia|]. cbn [body].
      eapply sp_newtype with (g := fun v' => cost v' d) (ok := fun h' t' => find_handler cfg t' = POk h'); [exact Kn|auto| |apply le_n]. intros h0 v0 t0 F0 I0. apply Pass; auto. cbn in I0. destruct I0 as [<-|[]]. reflexivity.
    - contradiction.
  Qed.
End Loop.

Lemma loop_linear w basic strcons cfg : is_std w basic strcons cfg ->
  forall names t R, has_involved w names t -> object_recursive w names t -> In t R -> (forall r, In r R -> involves w names t r) -> loops_once w names R ->
  exists K, forall s v r k, used w cfg s -> has_registered names s -> handler_calls w cfg s v t r k -> k <= K * weight v.
Proof.
  intros Hstd names t R Kn Ob It Inv Once.
  assert (Tr : forall a b c, involves w names a b -> involves w names b c -> involves w names a c).
  { intros a b c I1 I2. induction I1 as [x|x y z Mxy Iyz IH]; [exact I2|]. econstructor; [exact Mxy|apply IH; exact I2]. }
  assert (Known : forall r x, In r R -> involves w names r x -> named w names x) by (intros r x Ir Ix m; apply Kn; exact (Tr t r x (Inv r Ir) Ix)).
  destruct (max_all (fun x k => In x R \/ shallow w cfg names x k) (flat_map (mentioned w names) R)) as [e He].
  { intros x Ix. apply in_flat_map in Ix as [r [Ir Ix]]. destruct (proj1 (Once r Ir) x Ix) as [IR|NR]; [exists 0; auto|].
    destruct (sp_shallow w basic strcons cfg Hstd names x NR) as [K HK]; [|exists K; auto]. intros t' It'. apply (Known r t' Ir). econstructor; [exact Ix|exact It']. }
  destruct (max_all (fun r d => near w names d r) R) as [D HD].
  { intros r Ir. destruct (near_some w names r (Ob r (Inv r Ir))) as [d Hd]. exists d. intros n L. exact (near_mono w names d n r L Hd). }
  destruct (max_all (fun r m => List.length (mentioned w names r) <= m) R) as [M HM].
  { intros r Ir. exists (List.length (mentioned w names r)). auto. }
  exists ((1 + S M * S e) * E D * S (S e)). intros s v r k U Hr [_ [n [s' [Ec Mk]]]].
  assert (L : sp w cfg names (counted_load w cfg n v t) ((1 + S M * S e) * E D * S (S e) * weight v) (fun _ => True)).
  { apply sp_load; [exact (fun m => Kn m t (rt1n_refl _ _ _))|]. intros h F.
    eapply sp_more; [apply (loop_cost w basic strcons cfg Hstd names R Once Known e D M)|].
    - intros t0 x I0 Ix. apply (He x); [apply in_flat_map; eauto|lia].
    - intros t0 I0. apply (HD t0 I0). apply le_n.
    - intros t0 I0. apply (HM t0 I0). apply le_n.
    - exact It.
    - apply (HD t It). apply le_n.
    - apply le_n.
    - exact F.
    - eapply Nat.le_trans; [apply cost_total; apply le_n|]. rewrite <- (Nat.mul_assoc ((1 + S M * S e) * E D)). apply Nat.mul_le_mono_l. apply total_weight. }
  destruct (L s (used_okst w cfg names s U Hr)) as [_ [Le _]]. rewrite Ec in Le. cbn [snd] in Le. lia.
Qed.
