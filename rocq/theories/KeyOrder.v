(** * KeyOrder: the order of the keys of the data (C68)

    The members of a JSON object have no order.  Does the order in which they
    happen to be in the dictionaries matter for loading? *)

From Verif Require Import Loader Spec Vocab Inv Std Obs Hist Reference RefComplete RoundTrip Model2 Trace.
From Coq Require Import Permutation.

(** ** Vocabulary *)

(** equal, the order of the keys of the dictionaries aside, at every depth *)
Inductive reordered : value -> value -> Prop :=
| ro_same v : reordered v v
| ro_list l l' : Forall2 reordered l l' -> reordered (VList l) (VList l')
| ro_tuple l l' : Forall2 reordered l l' -> reordered (VTuple l) (VTuple l')
| ro_set l l' : Forall2 reordered l l' -> reordered (VSet l) (VSet l')
| ro_frozen l l' : Forall2 reordered l l' -> reordered (VFrozen l) (VFrozen l')
| ro_dict d d1 d' : Permutation d d1 ->
    Forall2 (fun a b => fst a = fst b /\ reordered (snd a) (snd b)) d1 d' -> reordered (VDict d) (VDict d')
| ro_namespace d d1 d' : Permutation d d1 ->
    Forall2 (fun a b => fst a = fst b /\ reordered (snd a) (snd b)) d1 d' -> reordered (VNamespace d) (VNamespace d')
| ro_nt c fs fs' : Forall2 (fun a b => fst a = fst b /\ reordered (snd a) (snd b)) fs fs' -> reordered (VNT c fs) (VNT c fs')
| ro_obj c fs fs' : Forall2 (fun a b => fst a = fst b /\ reordered (snd a) (snd b)) fs fs' -> reordered (VObj c fs) (VObj c fs').

(** there is nothing to reorder in it *)
Definition flat (x : value) : Prop := forall x', reordered x x' -> x' = x.

(** the same fields, with the same values, the order of keys in them aside *)
Definition refields (fs fs' : list (string * value)) : Prop :=
  Forall2 (fun a b => fst a = fst b /\ reordered (snd a) (snd b)) fs fs'.

(** The data [x] are passed as they are to the constructor of the class [t] (or
    to re.compile...), which accepts them: a cast to a basic type, a date from
    its arguments, a timedelta, a regular expression, a path. *)
Inductive passed (w : world) (basic strcons : list cid) (cfg : config) : value -> ty -> Prop :=
| ps_cast c x r : In c basic -> type_of x <> c -> basiccast cfg = true -> makes w (TClass c) x r -> passed w basic strcons cfg x (TClass c)
| ps_args c x l r : In c [CDate; CTime; CDatetime] -> other_class w basic c -> (forall s, x <> VStr s) -> iter x = Some l ->
    w_callargs w c l = POk r -> passed w basic strcons cfg x (TClass c)
| ps_timedelta x r : other_class w basic CTimedelta -> w_timedelta w x = POk r -> passed w basic strcons cfg x (TClass CTimedelta)
| ps_pattern x t r : (t = TClass CPattern /\ other_class w basic CPattern) \/ (exists n a, t = TGen n OPattern a) ->
    w_compile w x = POk r -> passed w basic strcons cfg x t
| ps_string c x r : In c strcons -> other_class w basic c -> special c = None -> w_call w (TClass c) x = POk r ->
    passed w basic strcons cfg x (TClass c).

(** Nothing looks at the order of the keys: *)
Record order_blind (w : world) (basic strcons : list cid) (cfg : config) (env : string -> option ty) (v : value) (T : ty) : Prop := mkBlind {
  (* the defaults and __post_init__ *)
  ob_default : forall c fs f g sofar sofar', reach w (pep563 cfg) env T (TClass c) ->
    ci_dc (class_of w c) = Some fs \/ ci_attrs (class_of w c) = Some fs -> In f fs -> f_default f = DFactorySelf g ->
    refields sofar sofar' -> reordered (g sofar) (g sofar');
  ob_post : forall c fs fs1 r, reach w (pep563 cfg) env T (TClass c) -> refields fs fs1 -> ci_post (class_of w c) fs = POk r ->
    exists r1, ci_post (class_of w c) fs1 = POk r1 /\ refields r r1;
  (* dictionaries are not read as strings, dates... *)
  ob_scalar : forall x t, meets w cfg env v T x t -> passed w basic strcons cfg x t -> flat x;
  (* the keys of a dictionary are read as different keys (of equal ones, the last would count) *)
  ob_keys : forall n kt vt x d qs, meets w cfg env v T x (TGen n ODict (Some [kt; vt])) -> dict_items cfg x d ->
    Forall2 (fun kx q => reads w basic strcons cfg env (fun _ => False) (fst kx) kt q) d qs ->
    ForallOrdPairs (fun a b => py_eqb a b = false /\ py_eqb b a = false) qs
}.

(** ** Facts *)
Lemma F2_refl {A} (R : A -> A -> Prop) l : (forall x, R x x) -> Forall2 R l l.
Proof. intro H. induction l; constructor; auto. Qed.
Lemma refields_refl fs : refields fs fs.
Proof. apply F2_refl. intro x. split; [reflexivity|apply ro_same]. Qed.
Definition rekeys (d d' : list (value * value)) : Prop := Forall2 (fun a b => fst a = fst b /\ reordered (snd a) (snd b)) d d'.
Lemma rekeys_refl d : rekeys d d.
Proof. apply F2_refl. intro x. split; [reflexivity|apply ro_same]. Qed.
Lemma ro_type v v' : reordered v v' -> type_of v' = type_of v.
Proof. intro R. destruct R; reflexivity. Qed.

Lemma ro_list_inv l y : reordered (VList l) y -> exists l', y = VList l' /\ Forall2 reordered l l'.
Proof. intro R. inversion R; subst; [exists l; split; [reflexivity|apply F2_refl; constructor]|eauto]. Qed.
Lemma ro_tuple_inv l y : reordered (VTuple l) y -> exists l', y = VTuple l' /\ Forall2 reordered l l'.
Proof. intro R. inversion R; subst; [exists l; split; [reflexivity|apply F2_refl; constructor]|eauto]. Qed.
Lemma ro_set_inv l y : reordered (VSet l) y -> exists l', y = VSet l' /\ Forall2 reordered l l'.
Proof. intro R. inversion R; subst; [exists l; split; [reflexivity|apply F2_refl; constructor]|eauto]. Qed.
Lemma ro_frozen_inv l y : reordered (VFrozen l) y -> exists l', y = VFrozen l' /\ Forall2 reordered l l'.
Proof. intro R. inversion R; subst; [exists l; split; [reflexivity|apply F2_refl; constructor]|eauto]. Qed.
Lemma ro_dict_inv d y : reordered (VDict d) y -> exists d1 d', y = VDict d' /\ Permutation d d1 /\ rekeys d1 d'.
Proof. intro R. inversion R; subst; [exists d, d; split; [reflexivity|split; [reflexivity|apply rekeys_refl]]|eauto]. Qed.
Lemma ro_ns_inv d y : reordered (VNamespace d) y -> exists d1 d', y = VNamespace d' /\ Permutation d d1 /\ refields d1 d'.
Proof. intro R. inversion R; subst; [exists d, d; split; [reflexivity|split; [reflexivity|apply refields_refl]]|eauto]. Qed.
Lemma ro_nt_inv c fs y : reordered (VNT c fs) y -> exists fs', y = VNT c fs' /\ refields fs fs'.
Proof. intro R. inversion R; subst; [exists fs; split; [reflexivity|apply refields_refl]|eauto]. Qed.
Lemma ro_obj_inv c fs y : reordered (VObj c fs) y -> exists fs', y = VObj c fs' /\ refields fs fs'.
Proof. intro R. inversion R; subst; [exists fs; split; [reflexivity|apply refields_refl]|eauto]. Qed.

(** ** Equality does not see the order *)
Section Equality.
  Definition eql_of := fix eql (xs ys : list value) : bool :=
    match xs, ys with [], [] => true | x :: xs', y :: ys' => py_eqb x y && eql xs' ys' | _, _ => false end.
  Definition eqf_of := fix eqf (xs : list (string * value)) (ys : list value) : bool :=
    match xs, ys with [], [] => true | (_, x) :: xs', y :: ys' => py_eqb x y && eqf xs' ys' | _, _ => false end.
  Definition eqs_of := fix eqs (xs ys : list (string * value)) : bool :=
    match xs, ys with [], [] => true | (k, x) :: xs', (k', y) :: ys' => String.eqb k k' && (py_eqb x y && eqs xs' ys') | _, _ => false end.
  Definition sub_of := fix sub (xs ys : list value) : bool :=
    match xs with [] => true | x :: xs' => existsb (py_eqb x) ys && sub xs' ys end.
  Definition subd_of := fix subd (xs ys : list (value * value)) : bool :=
    match xs with [] => true | (k, x) :: xs' => existsb (fun kv => py_eqb k (fst kv) && py_eqb x (snd kv)) ys && subd xs' ys end.
  Definition subs_of := fix subs (xs ys : list (string * value)) : bool :=
    match xs with [] => true | (k, x) :: xs' => existsb (fun kv => String.eqb k (fst kv) && py_eqb x (snd kv)) ys && subs xs' ys end.

  Definition eq_ok (x : value) : Prop := forall x' y y', reordered x x' -> reordered y y' -> py_eqb x y = py_eqb x' y'.
  Lemma eql_ro l : Forall eq_ok l -> forall l' m m', Forall2 reordered l l' -> Forall2 reordered m m' -> eql_of l m = eql_of l' m'.
  Proof using.
    induction 1 as [|x l H _ IH]; intros l' m m' F G; inversion F; subst; inversion G; subst; try reflexivity.
    cbn [eql_of]. f_equal; [apply H; assumption|apply IH; assumption].
  Qed.
  Lemma eqf_ro l : Forall (fun kx : string * value => eq_ok (snd kx)) l -> forall l' m m', refields l l' -> Forall2 reordered m m' -> eqf_of l m = eqf_of l' m'.
  Proof using.
    induction 1 as [|[k x] l H _ IH]; intros l' m m' F G; inversion F as [|a [k' x'] b c [E R] F']; subst; inversion G; subst; try reflexivity.
    cbn [eqf_of fst snd] in *. f_equal; [apply H; assumption|apply IH; assumption].
  Qed.
  Lemma eqs_ro l : Forall (fun kx : string * value => eq_ok (snd kx)) l -> forall l' m m', refields l l' -> refields m m' -> eqs_of l m = eqs_of l' m'.
  Proof using.
    induction 1 as [|[k x] l H _ IH]; intros l' m m' F G; inversion F as [|a [k' x'] b c [E R] F']; subst;
      inversion G as [|[q u] [q' u'] b' c' [E' R'] G']; subst; try reflexivity.
    cbn [eqs_of fst snd] in *. subst. f_equal. f_equal; [apply H; assumption|apply IH; assumption].
  Qed.
  Lemma sub_ro l : Forall eq_ok l -> forall l' m m', Forall2 reordered l l' -> Forall2 reordered m m' -> sub_of l m = sub_of l' m'.
  Proof using.
    induction 1 as [|x l H _ IH]; intros l' m m' F G; inversion F; subst; [reflexivity|].
    cbn [sub_of]. f_equal; [|apply IH; assumption]. clear - H G H2. induction G as [|u u' m m' R _ IHm]; [reflexivity|].
    cbn [existsb]. f_equal; [apply H; assumption|exact IHm].
  Qed.
  Lemma existsb_perm {A} (f : A -> bool) l l' : Permutation l l' -> existsb f l = existsb f l'.
  Proof using.
    induction 1 as [|x l l' _ IH|x y l|l l' l'' _ IH1 _ IH2]; cbn [existsb]; try congruence.
    rewrite !orb_assoc. f_equal. apply orb_comm.
  Qed.
  Lemma subd_perm_l l l' m : Permutation l l' -> subd_of l m = subd_of l' m.
  Proof using.
    induction 1 as [|[k x] l l' _ IH|[k x] [k' x'] l|l l' l'' _ IH1 _ IH2]; cbn [subd_of]; try congruence.
    rewrite !andb_assoc. f_equal. apply andb_comm.
  Qed.
  Lemma subd_perm_r l m m' : Permutation m m' -> subd_of l m = subd_of l m'.
  Proof using. intro P. induction l as [|[k x] l IH]; [reflexivity|]. cbn [subd_of]. rewrite IH. f_equal. apply existsb_perm. exact P. Qed.
  Lemma subd_ro l : Forall (fun kx : value * value => eq_ok (snd kx)) l -> forall l' m m', rekeys l l' -> rekeys m m' -> subd_of l m = subd_of l' m'.
  Proof using.
    induction 1 as [|[k x] l H _ IH]; intros l' m m' F G; inversion F as [|a [k' x'] b c [E R] F']; subst; [reflexivity|].
    cbn [subd_of fst snd] in *. subst k'. f_equal; [|apply IH; assumption]. clear - H G R.
    induction G as [|[q u] [q' u'] m m' [E' R'] _ IHm]; [reflexivity|]. cbn [existsb fst snd] in *. subst q'. f_equal; [|exact IHm]. f_equal. apply H; assumption.
  Qed.
  Lemma subs_perm_l l l' m : Permutation l l' -> subs_of l m = subs_of l' m.
  Proof using.
    induction 1 as [|[k x] l l' _ IH|[k x] [k' x'] l|l l' l'' _ IH1 _ IH2]; cbn [subs_of]; try congruence.
    rewrite !andb_assoc. f_equal. apply andb_comm.
  Qed.
  Lemma subs_perm_r l m m' : Permutation m m' -> subs_of l m = subs_of l m'.
  Proof using. intro P. induction l as [|[k x] l IH]; [reflexivity|]. cbn [subs_of]. rewrite IH. f_equal. apply existsb_perm. exact P. Qed.
  Lemma subs_ro l : Forall (fun kx : string * value => eq_ok (snd kx)) l -> forall l' m m', refields l l' -> refields m m' -> subs_of l m = subs_of l' m'.
  Proof using.
    induction 1 as [|[k x] l H _ IH]; intros l' m m' F G; inversion F as [|a [k' x'] b c [E R] F']; subst; [reflexivity|].
    cbn [subs_of fst snd] in *. subst k'. f_equal; [|apply IH; assumption]. clear - H G R.
    induction G as [|[q u] [q' u'] m m' [E' R'] _ IHm]; [reflexivity|]. cbn [existsb fst snd] in *. subst q'. f_equal; [|exact IHm]. f_equal. apply H; assumption.
  Qed.
  Lemma F2_length {A B} (R : A -> B -> Prop) l l' : Forall2 R l l' -> List.length l = List.length l'.
  Proof using. induction 1; cbn; congruence. Qed.
  Lemma refields_snd l l' : refields l l' -> Forall2 reordered (map snd l) (map snd l').
  Proof using. induction 1 as [|a b l l' [_ R] _ IH]; constructor; assumption. Qed.

  Lemma eq_ro a : eq_ok a.
  Proof using.
    induction a as [|ba|z|f|s|s|l IH|l IH|l IH|l IH|d IH|d IH|c d IH|c d IH|c m v IH|c v IH] using value_ind'; intros a' b b' Ra Rb.
    1-6: inversion Ra; subst; destruct Rb; reflexivity.
    - apply ro_list_inv in Ra as [l' [-> F]]. destruct b; inversion Rb; subst; try reflexivity; apply (eql_ro l IH l' _ _ F); [apply F2_refl; constructor|assumption].
    - apply ro_tuple_inv in Ra as [l' [-> F]]. destruct b; inversion Rb; subst; try reflexivity; apply (eql_ro l IH l' _ _ F);
        try assumption; try (apply F2_refl; constructor). apply refields_snd. assumption.
    - apply ro_set_inv in Ra as [l' [-> F]]. destruct b; inversion Rb; subst; try reflexivity; cbn [py_eqb]; rewrite (F2_length _ _ _ F);
        try (match goal with G : Forall2 reordered _ _ |- _ => rewrite (F2_length _ _ _ G) end); f_equal;
        apply (sub_ro l IH l' _ _ F); try assumption; apply F2_refl; constructor.
    - apply ro_frozen_inv in Ra as [l' [-> F]]. destruct b; inversion Rb; subst; try reflexivity; cbn [py_eqb]; rewrite (F2_length _ _ _ F);
        try (match goal with G : Forall2 reordered _ _ |- _ => rewrite (F2_length _ _ _ G) end); f_equal;
        apply (sub_ro l IH l' _ _ F); try assumption; apply F2_refl; constructor.
    - apply ro_dict_inv in Ra as [d1 [d' [-> [P F]]]].
      assert (IH1 : Forall (fun kx => eq_ok (snd kx)) d1).
      { eapply Permutation_Forall; [exact P|]. eapply Forall_impl; [|exact IH]. intros a [_ H]. exact H. }
      destruct b; try (inversion Rb; subst; reflexivity). apply ro_dict_inv in Rb as [e1 [e' [-> [Q G]]]]. cbn [py_eqb].
      rewrite (Permutation_length P), (Permutation_length Q), (F2_length _ _ _ F), (F2_length _ _ _ G). f_equal.
      change (subd_of d d0 = subd_of d' e'). rewrite (subd_perm_l _ _ _ P), (subd_perm_r _ _ _ Q). apply subd_ro; assumption.
    - apply ro_ns_inv in Ra as [d1 [d' [-> [P F]]]].
      assert (IH1 : Forall (fun kx => eq_ok (snd kx)) d1) by (eapply Permutation_Forall; [exact P|exact IH]).
      destruct b; try (inversion Rb; subst; reflexivity). apply ro_ns_inv in Rb as [e1 [e' [-> [Q G]]]]. cbn [py_eqb].
      rewrite (Permutation_length P), (Permutation_length Q), (F2_length _ _ _ F), (F2_length _ _ _ G). f_equal.
      change (subs_of d d0 = subs_of d' e'). rewrite (subs_perm_l _ _ _ P), (subs_perm_r _ _ _ Q). apply subs_ro; assumption.
    - apply ro_nt_inv in Ra as [l' [-> F]]. destruct b; inversion Rb; subst; try reflexivity; cbn [py_eqb].
      + apply (eqf_ro d IH l' _ _ F). apply F2_refl; constructor.
      + apply (eqf_ro d IH l' _ _ F). assumption.
      + apply (eqf_ro d IH l' _ _ F). apply F2_refl; constructor.
      + apply (eqf_ro d IH l' _ _ F). apply refields_snd. assumption.
    - apply ro_obj_inv in Ra as [l' [-> F]]. destruct b; inversion Rb; subst; try reflexivity; cbn [py_eqb]; f_equal; apply (eqs_ro d IH l' _ _ F); [apply refields_refl|assumption].
    - inversion Ra; subst. destruct Rb; reflexivity.
    - inversion Ra; subst. destruct Rb; reflexivity.
  Qed.

  Lemma in_ro x x' l l' : reordered x x' -> Forall2 reordered l l' -> py_in x l = py_in x' l'.
  Proof using.
    intros R F. unfold py_in. induction F as [|u u' l l' Ru _ IH]; [reflexivity|]. cbn [existsb]. f_equal; [apply eq_ro; assumption|exact IH].
  Qed.
  Lemma set_of_ro l l' : Forall2 reordered l l' -> Forall2 reordered (set_of l) (set_of l').
  Proof using.
    unfold set_of. intro F. assert (X : forall acc acc', Forall2 reordered acc acc' ->
      Forall2 reordered (fold_left (fun acc x => set_add x acc) l acc) (fold_left (fun acc x => set_add x acc) l' acc')).
    { induction F as [|x x' l l' R _ IH]; intros acc acc' G; [exact G|]. cbn [fold_left]. apply IH. unfold set_add.
      rewrite (in_ro x x' acc acc' R G). destruct (py_in x' acc'); [exact G|]. apply Forall2_app; [exact G|]. constructor; [exact R|constructor]. }
    apply X. constructor.
  Qed.
  Lemma hashable_ro w v : forall v', reordered v v' -> hashable w v = hashable w v'.
  Proof using.
    induction v as [|ba|z|f|s|s|l IH|l IH|l IH|l IH|d IH|d IH|c d IH|c d IH|c m v IH|c v IH] using value_ind'; intros v' R; try (inversion R; subst; reflexivity).
    - apply ro_tuple_inv in R as [l' [-> F]]. cbn [hashable]. induction F as [|x x' l l' Rx _ IHl]; [reflexivity|].
      inversion IH; subst. cbn [forallb]. f_equal; [auto|]. apply IHl. assumption.
    - apply ro_nt_inv in R as [l' [-> F]]. cbn [hashable]. induction F as [|[k x] [k' x'] l l' [E Rx] _ IHl]; [reflexivity|].
      inversion IH; subst. cbn [forallb fst snd] in *. f_equal; [auto|]. apply IHl. assumption.
  Qed.
End Equality.


(** ** Lists *)
Lemma ro_in_part v x y : inside v x -> part x y -> inside v y.
Proof. intro H. induction H as [z|z z1 z2 Q H IH]; intro P0; [eapply rt1n_trans; [exact P0|apply rt1n_refl]|eapply rt1n_trans; [exact Q|exact (IH P0)]]. Qed.
Lemma F2_in_combine {A B} (R : A -> B -> Prop) l l' a b : Forall2 R l l' -> In (a, b) (combine l l') -> R a b.
Proof. induction 1 as [|x y l l' r _ IH]; [intros []|]. intros [[= <- <-]|I]; auto. Qed.
Lemma F2_impl {A B} (R R' : A -> B -> Prop) l l' : (forall a b, R a b -> R' a b) -> Forall2 R l l' -> Forall2 R' l l'.
Proof. intro H. induction 1; constructor; auto. Qed.
Lemma F2_both {A B} (R R' : A -> B -> Prop) l l' : Forall2 R l l' -> Forall2 R' l l' -> Forall2 (fun a b => R a b /\ R' a b) l l'.
Proof. induction 1; intro Y; inversion Y; subst; constructor; auto. Qed.
Lemma choose {A B} (R : A -> A -> Prop) (Q : B -> B -> Prop) (G G' : A -> B -> Prop) l l' ys :
  Forall2 R l l' -> Forall2 G l ys -> (forall x x' y, R x x' -> G x y -> exists y', G' x' y' /\ Q y y') ->
  exists ys', Forall2 G' l' ys' /\ Forall2 Q ys ys'.
Proof.
  intros F. revert ys. induction F as [|x x' l l' r F IH]; intros ys G0 H; inversion G0; subst; [exists []; split; constructor|].
  destruct (H _ _ _ r H2) as [y' [g q]]. destruct (IH _ H4 H) as [ys' [Gs Qs]]. exists (y' :: ys'). split; constructor; assumption.
Qed.
Lemma F2_join {A B} (R R' : A -> B -> Prop) l l' : Forall2 R l l' -> (forall a b, In (a, b) (combine l l') -> R' a b) -> Forall2 (fun a b => R a b /\ R' a b) l l'.
Proof.
  induction 1 as [|x y l l' r F IH]; intro H; constructor; [split; [exact r|apply H; left; reflexivity]|]. apply IH. intros. apply H. right. assumption.
Qed.
Lemma choose_tuple {T A} (R : A -> A -> Prop) (G : T -> A -> A -> Prop) ts : forall l l' ys, Forall2 R l l' ->
  List.length ts <= List.length l -> List.length ys = List.length ts ->
  (forall i t x x' y, nth_error ts i = Some t -> nth_error l i = Some x -> In (t, (x, y)) (combine ts (combine l ys)) -> R x x' -> exists y', G t x' y' /\ R y y') ->
  exists ys', List.length ys' = List.length ts /\ Forall2 R ys ys' /\ forall t x y, In (t, (x, y)) (combine ts (combine l' ys')) -> G t x y.
Proof.
  induction ts as [|t ts IH]; intros l l' ys F Le Ly H.
  - destruct ys; [|discriminate]. exists []. split; [reflexivity|]. split; [constructor|intros ? ? ? []].
  - destruct ys as [|y ys]; [discriminate|]. destruct F as [|x x' l l' r F]; [cbn in Le; lia|].
    destruct (H 0 t x x' y) as [y' [g q]]; try reflexivity; [left; reflexivity|exact r|].
    destruct (IH l l' ys F) as [ys' [Ls [Qs Gs]]]; [cbn in Le; lia|cbn in Ly; lia| |].
    + intros i t0 x0 x0' y0 E1 E2 I. apply (H (S i)); try assumption. right. exact I.
    + exists (y' :: ys'). split; [cbn; congruence|]. split; [constructor; assumption|].
      intros t0 x0 y0 [[= <- <- <-]|I]; [exact g|apply Gs; exact I].
Qed.
Lemma FOP_perm {A} (R : A -> A -> Prop) l l' : (forall a b, R a b -> R b a) -> Permutation l l' -> ForallOrdPairs R l -> ForallOrdPairs R l'.
Proof.
  intros Sy P. induction P as [|x l l' P IH|x y l|l l' l'' _ IH1 _ IH2]; intro F; [constructor| | |auto].
  - inversion F as [|? ? H G]; subst. constructor; [eapply Permutation_Forall; eassumption|auto].
  - inversion F as [|? ? H G]; subst. inversion H; subst. inversion G as [|? ? H' G']; subst. constructor; [constructor; [apply Sy; assumption|assumption]|].
    constructor; assumption.
Qed.

(** ** Readings *)
Lemma rekeys_fst d d' : rekeys d d' -> map fst d' = map fst d.
Proof. induction 1 as [|[k x] [k' x'] d d' [E _] _ IH]; [reflexivity|]. cbn in *. congruence. Qed.
Lemma refields_fst d d' : refields d d' -> map fst d' = map fst d.
Proof. induction 1 as [|[k x] [k' x'] d d' [E _] _ IH]; [reflexivity|]. cbn in *. congruence. Qed.
Lemma refields_get k l l' : refields l l' ->
  match str_get k l, str_get k l' with Some x, Some x' => reordered x x' | None, None => True | _, _ => False end.
Proof.
  induction 1 as [|[q x] [q' x'] l l' [E R] _ IH]; [exact I|]. cbn [str_get fst snd] in *. subst q'. destruct (String.eqb k q); assumption.
Qed.
Lemma get_perm {A} k (l l' : list (string * A)) : NoDup (map fst l) -> Permutation l l' -> str_get k l = str_get k l'.
Proof.
  intros N P. induction P as [|[q x] l l' P IH|[q x] [q' x'] l|l l' l'' P1 IH1 _ IH2]; [reflexivity| | |].
  - cbn [str_get]. cbn in N. inversion N; subst. rewrite IH by assumption. reflexivity.
  - cbn [str_get]. cbn in N. inversion N as [|? ? N1 N2]; subst. destruct (String.eqb_spec k q), (String.eqb_spec k q'); try reflexivity.
    subst. exfalso. apply N1. left. reflexivity.
  - rewrite IH1 by assumption. apply IH2. eapply Permutation_NoDup; [apply Permutation_map; exact P1|exact N].
Qed.
Lemma refields_app a a' b b' : refields a a' -> refields b b' -> refields (a ++ b) (a' ++ b').
Proof. apply Forall2_app. Qed.
Lemma str_keys a a' : refields a a' -> rekeys (map (fun kv => (VStr (fst kv), snd kv)) a) (map (fun kv => (VStr (fst kv), snd kv)) a').
Proof. induction 1 as [|[k x] [k' x'] a a' [E R] _ IH]; [constructor|]. cbn in *. subst. constructor; [split; [reflexivity|exact R]|exact IH]. Qed.

Section Readings.
  Variable w : world.
  Variables basic strcons : list cid.
  Variable cfg : config.
  Variable env : string -> option ty.
  Notation p := (pep563 cfg).
  Variable data : value.
  Variable T : ty.
  Hypothesis Ob : order_blind w basic strcons cfg env data T.
  Hypothesis Dn : forall c, reach w p env T (TClass c) -> object_class w basic strcons c -> distinct_names w cfg c.
  Hypothesis Py : forall x, inside data x -> python_data x.
  Notation G0 := (gives w basic strcons cfg env (fun _ => False)).
  Notation R0 := (reads w basic strcons cfg env (fun _ => False)).
  Notation here := (inside data).
  Notation met := (meets w cfg env data T).
  Notation reached := (reach w p env T).

  Lemma ro_at_item v l x : here v -> elements v l -> In x l -> here x.
  Proof using. intros H [_ E] I. eapply ro_in_part; [exact H|]. eapply part_item; eassumption. Qed.
  Lemma ro_at_dict v d k x : here v -> dict_items cfg v d -> In (k, x) d -> here k /\ here x.
  Proof using.
    intros H [->|[_ [a [-> ->]]]] I.
    - split; (eapply ro_in_part; [exact H|]); [|eapply part_value; exact I]. eapply part_item; [reflexivity|]. apply (in_map fst) in I. exact I.
    - apply in_map_iff in I as [[k0 x0] [[= <- <-] I]]. split; (eapply ro_in_part; [exact H|]); [eapply part_ns_key|eapply part_ns_value]; exact I.
  Qed.
  Lemma met_move v t i x t1 : met v t -> move w cfg env v t i x t1 -> met x t1.
  Proof using. intros M Mv. eapply meets_trans; [exact M|]. eapply meets_move; [exact Mv|constructor]. Qed.
  Lemma met_alt v t t1 : met v t -> alternative w t t1 -> met v t1.
  Proof using. intros M Mv. eapply meets_trans; [exact M|]. eapply meets_alt; [exact Mv|constructor]. Qed.

  Lemma elements_ro v v' l : reordered v v' -> elements v l -> exists l', elements v' l' /\ Forall2 reordered l l'.
  Proof using.
    intros R [Nd E]. destruct R as [v|l0 l0' F|l0 l0' F|l0 l0' F|l0 l0' F|d d1 d' Pm F|d d1 d' Pm F|c fs fs' F|c fs fs' F].
    1: exists l; split; [split; assumption|apply F2_refl; constructor].
    1-4: injection E as <-; exists l0'; split; [split; [discriminate|reflexivity]|exact F].
    - destruct (Nd d eq_refl).
    - discriminate.
    - injection E as <-. exists (map snd fs'). split; [split; [discriminate|reflexivity]|apply refields_snd; exact F].
    - discriminate.
  Qed.
  Lemma items_ro v v' d : reordered v v' -> dict_items cfg v d -> exists d1 d', dict_items cfg v' d' /\ Permutation d d1 /\ rekeys d1 d'.
  Proof using.
    intros R [->|[De [a [-> ->]]]].
    - apply ro_dict_inv in R as [d1 [d' [-> [Pm F]]]]. exists d1, d'. split; [left; reflexivity|auto].
    - apply ro_ns_inv in R as [d1 [d' [-> [Pm F]]]]. eexists _, _. split; [right; split; [exact De|eexists; split; reflexivity]|].
      split; [apply Permutation_map; exact Pm|apply str_keys; exact F].
  Qed.
  Lemma obj_ro c v v' d : reordered v v' -> obj_data w cfg c v d -> exists d1 d', obj_data w cfg c v' d' /\ Permutation d d1 /\ rekeys d1 d'.
  Proof using.
    intros R [->|[De [Rn [a [-> ->]]]]].
    - apply ro_dict_inv in R as [d1 [d' [-> [Pm F]]]]. exists d1, d'. split; [left; reflexivity|auto].
    - apply ro_ns_inv in R as [d1 [d' [-> [Pm F]]]]. eexists _, _. split; [right; split; [exact De|split; [exact Rn|eexists; split; reflexivity]]|].
      split; [apply Permutation_map; exact Pm|apply str_keys; exact F].
  Qed.
  Lemma given_ro c d d1 d' : Permutation d d1 -> rekeys d1 d' -> Permutation (given w cfg c d) (given w cfg c d1) /\ refields (given w cfg c d1) (given w cfg c d').
  Proof using.
    intros Pm F. split; [apply Permutation_flat_map; exact Pm|]. clear Pm. unfold given. induction F as [|[k x] [k' x'] d1 d' [E R] _ IH]; [constructor|].
    cbn [flat_map fst snd] in *. subst k'. destruct (field_of w cfg c k); [|exact IH]. cbn [app]. constructor; [split; [reflexivity|exact R]|exact IH].
  Qed.
  Lemma kept_ro t x x' : reordered x x' -> kept w basic t x -> kept w basic t x'.
  Proof using. intros R [c [-> [B I]]]. exists c. split; [reflexivity|]. split; [exact B|]. unfold isinstance in *. rewrite (ro_type _ _ R). exact I. Qed.
  Lemma kept_ro' t x x' : reordered x x' -> kept w basic t x' -> kept w basic t x.
  Proof using. intros R [c [-> [B I]]]. exists c. split; [reflexivity|]. split; [exact B|]. unfold isinstance in *. rewrite (ro_type _ _ R) in I. exact I. Qed.
  Lemma ro_kept_cases t x : kept w basic t x \/ ~ kept w basic t x.
  Proof using.
    unfold kept. destruct t as [c| | | | | | | ]; try (right; intros [c0 [E _]]; discriminate E).
    destruct (mem_cid c basic) eqn:B; [|right; intros [c0 [[= <-] [I _]]]; apply mem_cid_In in I; congruence].
    destruct (isinstance w x c) eqn:I; [|right; intros [c0 [[= <-] [_ J]]]; congruence].
    left. exists c. split; [reflexivity|]. split; [apply mem_cid_In; exact B|exact I].
  Qed.
  Lemma member_ro c ms v v' r : reordered v v' -> member_for c ms v r -> exists r', member_for c ms v' r' /\ reordered r r'.
  Proof using.
    intros R [[E ->]|[E [pre [n [x [post [Em [Ex [Hp ->]]]]]]]]].
    - exists v'. split; [left; split; [rewrite (ro_type _ _ R); exact E|reflexivity]|exact R].
    - exists (VEnum c n x). split; [|constructor]. right. split; [rewrite (ro_type _ _ R); exact E|]. exists pre, n, x, post. split; [exact Em|].
      split; [rewrite <- (eq_ro v v' x x R (ro_same x)); exact Ex|]. split; [|reflexivity].
      intros n' x' I. rewrite <- (eq_ro v v' x' x' R (ro_same x')). eapply Hp. exact I.
  Qed.
  Lemma collect_ro k ys ys' r : Forall2 reordered ys ys' -> collect w k ys = Some r -> exists r', collect w k ys' = Some r' /\ reordered r r'.
  Proof using.
    intros F C. assert (Hh : forallb (hashable w) ys = forallb (hashable w) ys').
    { clear C. induction F as [|x x' l l' R _ IH]; [reflexivity|]. cbn [forallb]. rewrite IH, (hashable_ro w x x' R). reflexivity. }
    unfold collect in *. destruct k.
    - injection C as <-. eexists. split; [reflexivity|constructor; exact F].
    - injection C as <-. eexists. split; [reflexivity|constructor; exact F].
    - rewrite <- Hh. destruct (forallb _ ys); [|discriminate]. injection C as <-. eexists. split; [reflexivity|constructor; apply set_of_ro; exact F].
    - rewrite <- Hh. destruct (forallb _ ys); [|discriminate]. injection C as <-. eexists. split; [reflexivity|constructor; apply set_of_ro; exact F].
  Qed.

  Lemma unexpected_ro l ps ps1 ps' : Permutation ps ps1 -> refields ps1 ps' -> unexpected l ps = unexpected l ps'.
  Proof using.
    intros Pm F. unfold unexpected. rewrite (existsb_perm _ _ _ Pm). clear Pm. induction F as [|[k x] [k' x'] a b [E _] _ IH]; [reflexivity|].
    cbn [existsb fst] in *. congruence.
  Qed.
  Definition same_get (ps ps' : list (string * value)) : Prop := forall k,
    match str_get k ps, str_get k ps' with Some x, Some x' => reordered x x' | None, None => True | _, _ => False end.
  Lemma get_ro ps ps1 ps' : NoDup (map fst ps) -> Permutation ps ps1 -> refields ps1 ps' -> same_get ps ps'.
  Proof using. intros N Pm F k. rewrite (get_perm k _ _ N Pm). apply refields_get. exact F. Qed.
  Lemma nt_ro ps ps' : same_get ps ps' -> forall fs vals, bind_nt fs ps = Some vals -> exists vals', bind_nt fs ps' = Some vals' /\ refields vals vals'.
  Proof using.
    intro Sg. induction fs as [|[k d] fs IH]; intros vals E; cbn [bind_nt] in *; [injection E as <-; exists []; split; [reflexivity|constructor]|].
    pose proof (Sg k) as Sk.
    assert (X : forall x x' : value, reordered x x' -> option_map (cons (k, x)) (bind_nt fs ps) = Some vals ->
      exists vals', option_map (cons (k, x')) (bind_nt fs ps') = Some vals' /\ refields vals vals').
    { intros x x' R E0. destruct (bind_nt fs ps) as [l|]; [|discriminate]. injection E0 as <-. destruct (IH l eq_refl) as [l' [-> F]].
      exists ((k, x') :: l'). split; [reflexivity|constructor; [split; [reflexivity|exact R]|exact F]]. }
    destruct (str_get k ps) as [x|], (str_get k ps') as [x'|]; try contradiction; [exact (X x x' Sk E)|].
    destruct d as [x|]; [exact (X x x (ro_same x) E)|discriminate].
  Qed.
  Lemma fields_ro argname ps ps' (ok : field -> Prop) : same_get ps ps' ->
    (forall f g a a', ok f -> f_default f = DFactorySelf g -> refields a a' -> reordered (g a) (g a')) ->
    forall fs, Forall ok fs -> forall a a' vals, refields a a' -> bind_fields argname fs ps a = Some vals ->
    exists vals', bind_fields argname fs ps' a' = Some vals' /\ refields vals vals'.
  Proof using.
    intros Sg Hd fs Hf. induction Hf as [|f fs Of _ IH]; intros a a' vals Fa E; cbn [bind_fields] in *; [injection E as <-; eauto|].
    assert (X : forall x x' : value, reordered x x' -> bind_fields argname fs ps (a ++ [(f_name f, x)]) = Some vals ->
      exists vals', bind_fields argname fs ps' (a' ++ [(f_name f, x')]) = Some vals' /\ refields vals vals').
    { intros x x' R E0. eapply IH; [|exact E0]. apply refields_app; [exact Fa|]. constructor; [split; [reflexivity|exact R]|constructor]. }
    assert (D : match default_of (f_default f) a, default_of (f_default f) a' with Some x, Some x' => reordered x x' | None, None => True | _, _ => False end).
    { destruct (f_default f) as [|d|d|g] eqn:Ed; cbn [default_of]; try exact I; try apply ro_same. exact (Hd f g a a' Of Ed Fa). }
    pose proof (Sg (argname (f_name f))) as Sk.
    destruct (f_init f).
    - destruct (str_get (argname (f_name f)) ps) as [x|], (str_get (argname (f_name f)) ps') as [x'|]; try contradiction; [exact (X x x' Sk E)|].
      destruct (default_of (f_default f) a) as [x|], (default_of (f_default f) a') as [x'|]; try contradiction; [exact (X x x' D E)|discriminate].
    - destruct (default_of (f_default f) a) as [x|], (default_of (f_default f) a') as [x'|]; try contradiction; [exact (X x x' D E)|eapply IH; eassumption].
  Qed.
  Lemma construct_ro c ps ps1 ps' r : reached (TClass c) -> NoDup (map fst ps) -> Permutation ps ps1 -> refields ps1 ps' ->
    construct w (TClass c) ps = POk r -> exists r', construct w (TClass c) ps' = POk r' /\ reordered r r'.
  Proof using Ob.
    intros Rc N Pm F E. pose proof (get_ro ps ps1 ps' N Pm F) as Sg. cbn [construct] in *.
    assert (X : forall argname fs, ci_dc (class_of w c) = Some fs \/ ci_attrs (class_of w c) = Some fs -> construct_fields w argname c fs ps = POk r ->
      exists r', construct_fields w argname c fs ps' = POk r' /\ reordered r r').
    { intros argname fs Hc Ec. unfold construct_fields in *. rewrite <- (unexpected_ro _ ps ps1 ps' Pm F). destruct (unexpected _ ps); [discriminate|].
      destruct (bind_fields argname fs ps []) as [vals|] eqn:Eb; [|discriminate].
      destruct (fields_ro argname ps ps' (fun f => In f fs) Sg) with (fs := fs) (a := @nil (string * value)) (a' := @nil (string * value)) (vals := vals)
        as [vals' [-> Fv]]; [|apply Forall_forall; auto|constructor|exact Eb|].
      - intros f g a a' If Ed Fa. exact (ob_default _ _ _ _ _ _ _ Ob c fs f g a a' Rc Hc If Ed Fa).
      - destruct (ci_post (class_of w c) vals) as [v1|e] eqn:Ep; [|discriminate]. injection Ec as <-.
        destruct (ob_post _ _ _ _ _ _ _ Ob c vals vals' v1 Rc Fv Ep) as [v1' [-> F1]]. eexists. split; [reflexivity|constructor; exact F1]. }
    destruct (ci_nt (class_of w c)) as [fs|].
    - rewrite <- (unexpected_ro _ ps ps1 ps' Pm F). destruct (unexpected _ ps); [discriminate|].
      destruct (bind_nt fs ps) as [vals|] eqn:Eb; [|discriminate]. injection E as <-. destruct (nt_ro ps ps' Sg fs vals Eb) as [vals' [-> Fv]].
      eexists. split; [reflexivity|constructor; exact Fv].
    - destruct (ci_dc (class_of w c)) as [fs|]; [apply X; [left; reflexivity|exact E]|].
      destruct (ci_attrs (class_of w c)) as [fs|]; [apply X; [right; reflexivity|exact E]|].
      destruct (ci_td (class_of w c)); [|discriminate]. injection E as <-. eexists. split; [reflexivity|].
      eapply ro_dict; [apply Permutation_map; exact Pm|]. apply str_keys. exact F.
  Qed.

  Theorem gives_ro :
    (forall v t r, G0 v t r -> forall v', reordered v v' -> met v t -> here v -> reached t -> exists r', G0 v' t r' /\ reordered r r') /\
    (forall v t r, R0 v t r -> forall v', reordered v v' -> met v t -> here v -> reached t -> exists r', R0 v' t r' /\ reordered r r').
  Proof using Ob Dn Py.
    assert (Sc : forall v t r, G0 v t r -> passed w basic strcons cfg v t -> forall v', reordered v v' -> met v t -> exists r', G0 v' t r' /\ reordered r r').
    { intros v t r Gv Hs v' R M. rewrite (ob_scalar _ _ _ _ _ _ _ Ob v t M Hs v' R). exists r. split; [exact Gv|constructor]. }
    apply gives_reads_ind.
    - intros v' R M H Rc. inversion R; subst. exists VNone. split; [apply gv_none|constructor].
    - intros v c B N Te v' R M H Rc. exists v'. split; [apply gv_same; try assumption; rewrite (ro_type _ _ R); exact Te|exact R].
    - intros v c r B N Te BC Mk v' R M H Rc. eapply Sc; [eapply gv_cast; eassumption|eapply ps_cast; eassumption|exact R|exact M].
    - intros v v' R M H Rc. exists v'. split; [apply gv_any|exact R].
    - intros v vals I v' R M H Rc. exists v'. split; [apply gv_literal|exact R]. rewrite <- (in_ro v v' vals vals R); [exact I|]. apply F2_refl. constructor.
    - intros k n t rest v l ys r Su El L Kp Gv IH Co v' R M H Rc.
      assert (Rt : reached t) by (eapply reach_step; [exact Rc|]; destruct k; left; reflexivity).
      destruct (elements_ro v v' l R El) as [l' [El' Fl]].
      assert (Fs : Forall2 (fun x y => In (x, y) (combine l ys)) l ys) by (apply F2_combine; [exact L|auto]).
      destruct (choose reordered reordered (fun x y => In (x, y) (combine l ys)) (fun x' y' => (kept w basic t x' /\ y' = x') \/ (~ kept w basic t x' /\ G0 x' t y')) l l' ys Fl Fs)
        as [ys' [Gs Qs]].
      { intros x x' y Rx I. assert (Ix : In x l) by (eapply in_combine_l; exact I). destruct (ro_kept_cases t x) as [K|K].
        - rewrite (Kp x y I K). exists x'. split; [left; split; [eapply kept_ro; eassumption|reflexivity]|exact Rx].
        - destruct (IH x y I K x' Rx) as [y' [Gy Ry]].
          + apply In_nth_error in Ix as [i Ei]. eapply met_move; [exact M|]. eapply mv_index; [apply El|exact Ei|]. destruct k; reflexivity.
          + eapply ro_at_item; eassumption.
          + exact Rt.
          + exists y'. split; [right; split; [|exact Gy]|exact Ry]. intro K'. apply K. eapply kept_ro'; eassumption. }
      destruct (collect_ro k ys ys' r Qs Co) as [r' [Co' Rr]]. exists r'. split; [|exact Rr].
      eapply gv_collection; [exact Su|exact El'|exact (F2_length _ _ _ Gs)| | |exact Co'].
      + intros x y I K. destruct (F2_in_combine _ _ _ _ _ Gs I) as [[_ E]|[N _]]; [exact E|contradiction].
      + intros x y I K. destruct (F2_in_combine _ _ _ _ _ Gs I) as [[K' _]|[_ G]]; [contradiction|exact G].
    - intros n ts v l ys Fx El Le Ex Ly Gv IH v' R M H Rc.
      destruct (elements_ro v v' l R El) as [l' [El' Fl]].
      destruct (choose_tuple reordered (fun t x y => G0 x t y) ts l l' ys Fl Le Ly) as [ys' [Ly' [Qs Gs]]].
      { intros i t x x' y E1 E2 I Rx. apply (IH t x y I x' Rx).
        - eapply met_move; [exact M|]. eapply mv_index; [apply El|exact E2|]. rewrite <- E1. unfold item_type.
          destruct ts as [|a [|b [|? ?]]]; try reflexivity; destruct b; try reflexivity. destruct (Fx a eq_refl).
        - eapply ro_at_item; [exact H|exact El|]. eapply nth_error_In. exact E2.
        - eapply reach_step; [exact Rc|]. apply in_combine_l in I. exact I. }
      exists (VTuple ys'). split; [|constructor; exact Qs]. eapply gv_tuple; try eassumption.
      + rewrite <- (F2_length _ _ _ Fl). exact Le.
      + intro Fe. rewrite <- (F2_length _ _ _ Fl). exact (Ex Fe).
    - intros n kt vt v d kvs Sk Sv DI L Gk _ Gv IHv Hh v' R M H Rc.
      assert (Rv : reached vt) by (eapply reach_step; [exact Rc|]; right; left; reflexivity).
      destruct (items_ro v v' d R DI) as [d1 [d' [DI' [Pm F]]]].
      assert (Fs : Forall2 (fun kx ky => In (kx, ky) (combine d kvs)) d kvs) by (apply F2_combine; [exact L|auto]).
      destruct (Permutation_Forall2 Pm Fs) as [kvs1 [Pk F1]].
      destruct (choose (fun a b => fst a = fst b /\ reordered (snd a) (snd b)) (fun a b => fst a = fst b /\ reordered (snd a) (snd b))
        (fun kx ky => In (kx, ky) (combine d kvs)) (fun kx ky => R0 (fst kx) kt (fst ky) /\ R0 (snd kx) vt (snd ky)) d1 d' kvs1 F F1) as [kvs' [Gs Qs]].
      { intros [k x] [k0 x'] [k' y] [E Rx] I. cbn [fst snd] in *. subst k0. assert (Ix : In (k, x) d) by (eapply in_combine_l; exact I).
        destruct (IHv k x k' y I x' Rx) as [y' [Gy Ry]].
        - eapply met_move; [exact M|]. eapply mv_value; eassumption.
        - eapply ro_at_dict; eassumption.
        - exact Rv.
        - exists (k', y'). cbn [fst snd]. split; [split; [exact (Gk k x k' y I)|exact Gy]|split; [reflexivity|exact Ry]]. }
      assert (Ks : ForallOrdPairs (fun a b => py_eqb a b = false /\ py_eqb b a = false) (map fst kvs)).
      { apply (ob_keys _ _ _ _ _ _ _ Ob n kt vt v d (map fst kvs) M DI). clear - Fs Gk.
        assert (Z : Forall2 (fun kx ky => R0 (fst kx) kt (fst ky)) d kvs).
        { eapply F2_impl; [|exact Fs]. intros [k x] [k' y] I. exact (Gk k x k' y I). }
        clear - Z. induction Z; constructor; assumption. }
      assert (Kd : forall l, ForallOrdPairs (fun a b => py_eqb a b = false /\ py_eqb b a = false) (map fst l) -> py_dict l).
      { clear. unfold py_dict. induction l as [|a l IHl]; intro Fp; [constructor|]. cbn [map] in Fp. inversion Fp as [|? ? Ha Hl]; subst. constructor; [|auto].
        rewrite Forall_map in Ha. eapply Forall_impl; [|exact Ha]. intros b [_ E]. exact E. }
      assert (Ks' : ForallOrdPairs (fun a b => py_eqb a b = false /\ py_eqb b a = false) (map fst kvs')).
      { assert (E : map fst kvs' = map fst kvs1) by (apply rekeys_fst; exact Qs). rewrite E.
        eapply FOP_perm; [|apply Permutation_map; exact Pk|exact Ks]. intros a b [A B]. auto. }
      exists (VDict (dict_of kvs')). rewrite (dict_of_id _ (Kd _ Ks)). split.
      + eapply gv_dict; [exact Sk|exact Sv|exact DI'|exact (F2_length _ _ _ Gs)| | |].
        * intros k x k' y I. apply (F2_in_combine _ _ _ _ _ Gs) in I as [A _]. exact A.
        * intros k x k' y I. apply (F2_in_combine _ _ _ _ _ Gs) in I as [_ A]. exact A.
        * intros k I. apply Hh. apply (Permutation_in k (Permutation_sym (Permutation_map fst Pk))). rewrite (rekeys_fst _ _ Qs) in I. exact I.
      + rewrite (dict_of_id _ (Kd _ Ks')). eapply ro_dict; [exact Pk|exact Qs].
    - intros v c d ps r OC Rs OD Rq Fx Mf Md Gv IH Cn v' R M H Rc.
      destruct (obj_ro c v v' d R OD) as [d1 [d' [OD' [Pm F]]]].
      assert (Ek : forall k, In k (map fst d') <-> In k (map fst d)).
      { intro k. rewrite (rekeys_fst _ _ F). split; apply Permutation_in; apply Permutation_map; [apply Permutation_sym|]; exact Pm. }
      assert (DI : dict_items cfg v d) by (destruct OD as [->|[De [_ Q]]]; [left; reflexivity|right; auto]).
      assert (Pd : py_dict d).
      { pose proof (proj1 (Py v H)) as Pd. destruct DI as [->|[_ [a [-> ->]]]]; [exact Pd|]. cbn [proper_data] in Pd. clear - Pd.
        unfold py_dict. induction a as [|[k x] a IHa]; [constructor|]. cbn [map fst snd] in *. inversion Pd as [|? ? N1 N2]; subst. constructor; [|auto].
        apply Forall_forall. intros [k' x'] I. apply in_map_iff in I as [[q y] [[= <- <-] I]]. cbn [fst]. cbn [py_eqb]. apply String.eqb_neq. intros ->.
        apply N1. apply (in_map fst) in I. exact I. }
      pose proof (given_nodup w cfg c d (Dn c Rc OC) Pd) as Ng.
      destruct (given_ro c d d1 d' Pm F) as [Pg Fg].
      assert (Fs : Forall2 (fun a b => In (a, b) (combine (given w cfg c d) ps) /\ fst a = fst b) (given w cfg c d) ps).
      { assert (L : List.length (given w cfg c d) = List.length ps) by (rewrite <- (map_length fst), <- Mf; apply map_length).
        assert (Z : Forall2 (fun a b : string * value => In (a, b) (combine (given w cfg c d) ps)) (given w cfg c d) ps) by (apply F2_combine; [exact L|auto]).
        clear - Z Mf. assert (Y : Forall2 (fun a b : string * value => fst a = fst b) (given w cfg c d) ps).
        { clear Z. revert Mf. generalize (given w cfg c d) as g. induction ps as [|b ps IHp]; intros [|a g] E; try discriminate; [constructor|].
          cbn [map] in E. injection E as E1 E2. constructor; [congruence|auto]. }
        exact (F2_both _ _ _ _ Z Y). }
      destruct (Permutation_Forall2 Pg Fs) as [ps1 [Pp F1]].
      destruct (choose (fun a b : string * value => fst a = fst b /\ reordered (snd a) (snd b)) (fun a b => fst a = fst b /\ reordered (snd a) (snd b)) _
        (fun a b => fst a = fst b /\ forall t, str_get (fst a) (declared w p c) = Some t -> G0 (snd a) t (snd b)) _ _ ps1 Fg F1) as [ps' [Gs Qs]].
      { intros [f x] [f' x'] [f0 y] [E Rx] [I E']. cbn [fst snd] in *. subst f' f0.
        assert (If : In f (map fst ps)) by (apply in_combine_r in I; apply (in_map fst) in I; exact I).
        destruct (Md f If) as [t Et].
        assert (Ig : In (f, x) (given w cfg c d)) by (eapply in_combine_l; exact I).
        unfold given in Ig. apply in_flat_map in Ig as [[k x0] [J K]]. cbn [fst snd] in K.
        destruct (field_of w cfg c k) as [f0|] eqn:Ef; [|destruct K]. destruct K as [[= -> ->]|[]].
        destruct (IH f x y t I Et x' Rx) as [y' [Gy Ry]].
        - unfold field_of in Ef. destruct k as [| | | |e| | | | | | | | | | |]; try discriminate Ef. apply str_get_In in Ef.
          apply in_map_iff in Ef as [[f1 e1] [[= -> ->] Jf]].
          eapply met_move; [exact M|]. eapply mv_field with (d := d) (d' := [(VStr f, x)]) (e := e).
          + exact DI.
          + exact J.
          + left. exact Jf.
          + left. reflexivity.
          + right. exists d, [(VStr f, x)]. split; [exact DI|]. split; [reflexivity|]. intros k y0 [[= <- <-]|[]]. exists (VStr e). exact J.
          + apply str_get_In. exact Et.
        - eapply ro_at_dict; eassumption.
        - eapply reach_step; [exact Rc|]. eapply declared_comp. exact Et.
        - exists (f, y'). cbn [fst snd]. split; [split; [reflexivity|]|split; [reflexivity|exact Ry]]. intros t' Et'. replace t' with t by congruence. exact Gy. }
      assert (Np : NoDup (map fst ps)) by (rewrite Mf; exact Ng).
      destruct (construct_ro c ps ps1 ps' r Rc Np Pp Qs Cn) as [r' [Cn' Rr]]. exists r'. split; [|exact Rr].
      eapply gv_object; [exact OC|exact Rs|exact OD'| | | | | |exact Cn'].
      + intros e I. apply Ek. apply Rq. exact I.
      + intros Fe k x I. apply (in_map fst) in I. cbn [fst] in I. apply Ek in I. apply in_map_iff in I as [[k0 x0] [<- I]]. exact (Fx Fe k0 x0 I).
      + clear - Gs. induction Gs as [|a b l l' [E _] _ IHl]; [reflexivity|]. cbn [map]. congruence.
      + intros f I. apply Md. rewrite (refields_fst _ _ Qs) in I. exact (Permutation_in f (Permutation_sym (Permutation_map fst Pp)) I).
      + intros f x y t I Et. apply (F2_in_combine _ _ _ _ _ Gs) in I as [_ A]. exact (A t Et).
    - intros v c ms r E NB Mm v' R M H Rc. destruct (member_ro c ms v v' r R Mm) as [r' [Mm' Rr]]. exists r'. split; [eapply gv_enum; eassumption|exact Rr].
    - intros v c ms hints n t y r E NB N Hh I Gv IH Mm v' R M H Rc.
      destruct (IH v' R) as [y' [Gy Ry]].
      + eapply met_alt; [exact M|]. eapply alt_enum; [exact E|exact Hh|]. apply (in_map snd) in I. exact I.
      + exact H.
      + eapply reach_step; [exact Rc|]. unfold component, comps. apply in_or_app. right. rewrite E, Hh. apply (in_map snd) in I. exact I.
      + destruct (member_ro c ms y y' r Ry Mm) as [r' [Mm' Rr]]. exists r'. split; [|exact Rr]. eapply gv_enum_hint; try eassumption.
        destruct N as [N1 N2]. split; [rewrite (ro_type _ _ R); exact N1|]. intros n0 x0 I0. rewrite <- (eq_ro v v' x0 x0 R (ro_same x0)). eapply N2. exact I0.
    - intros c x r I Oc E v' R M H Rc. inversion R; subst. exists r. split; [apply gv_iso; assumption|constructor].
    - intros c v l r I Oc Ns It E v' R M H Rc. eapply Sc; [eapply gv_args; eassumption|eapply ps_args; eassumption|exact R|exact M].
    - intros v r Oc E v' R M H Rc. eapply Sc; [eapply gv_timedelta; eassumption|eapply ps_timedelta; eassumption|exact R|exact M].
    - intros v t r Ht E v' R M H Rc. eapply Sc; [eapply gv_pattern; eassumption|eapply ps_pattern; eassumption|exact R|exact M].
    - intros v c r I Oc Sp E v' R M H Rc. eapply Sc; [eapply gv_string; eassumption|eapply ps_string; eassumption|exact R|exact M].
    - intros v n t r _ IH v' R M H Rc. destruct (IH v' R) as [r' [Gr Rr]].
      + eapply met_move; [exact M|]. apply mv_newtype.
      + exact H.
      + eapply reach_step; [exact Rc|]. left. reflexivity.
      + exists r'. split; [apply gv_newtype; exact Gr|exact Rr].
    - intros v n t r E _ IH v' R M H Rc. destruct (IH v' R) as [r' [Gr Rr]].
      + eapply met_move; [exact M|]. apply mv_forward. exact E.
      + exact H.
      + eapply reach_step; [exact Rc|]. unfold component, comps. rewrite E. left. reflexivity.
      + exists r'. split; [eapply gv_forward; eassumption|exact Rr].
    - intros v n args Ow v' R M H Rc. exists v'. split; [apply gv_union_own|exact R]. unfold own_basic in *. rewrite (ro_type _ _ R). exact Ow.
    - intros v n args t r Nb I _ IH v' R M H Rc. destruct (IH v' R) as [r' [Gr Rr]].
      + eapply met_alt; [exact M|]. apply alt_union. exact I.
      + exact H.
      + eapply reach_step; [exact Rc|]. exact I.
      + exists r'. split; [eapply gv_union; [|exact I|exact Gr]|exact Rr]. unfold own_basic in *. rewrite (ro_type _ _ R). exact Nb.
    - intros n kt c v d kvs B Un. destruct Un.
    - intros x t y [-> K] v' R M H Rc. exists v'. split; [apply rd_same; split; [reflexivity|eapply kept_ro; eassumption]|exact R].
    - intros x t y _ IH v' R M H Rc. destruct (IH v' R M H Rc) as [y' [Gy Ry]]. exists y'. split; [apply rd_gives; exact Gy|exact Ry].
  Qed.
End Readings.

(** ** The other way round *)
Lemma F2_turn {A} (R R' : A -> A -> Prop) l l' : Forall2 R l l' -> (forall a b, In a l -> R a b -> R' b a) -> Forall2 R' l' l.
Proof.
  induction 1 as [|x y l l' r F IH]; intro H; constructor; [apply H; [left; reflexivity|exact r]|]. apply IH. intros a b I. apply H. right. exact I.
Qed.
Lemma F2_mono {A B} (R R' : A -> B -> Prop) l l' : Forall2 R l l' -> (forall a b, In a l -> In b l' -> R a b -> R' a b) -> Forall2 R' l l'.
Proof.
  induction 1 as [|x y l l' r F IH]; intro H; constructor; [apply H; [left; reflexivity|left; reflexivity|exact r]|]. apply IH. intros a b I J. apply H; right; assumption.
Qed.
Lemma perm_turn {K} (d d1 d' : list (K * value)) : Permutation d d1 -> Forall2 (fun a b => fst a = fst b /\ reordered (snd a) (snd b)) d1 d' ->
  (forall a b, In a d -> reordered (snd a) b -> reordered b (snd a)) ->
  exists d2, Permutation d' d2 /\ Forall2 (fun a b => fst a = fst b /\ reordered (snd a) (snd b)) d2 d.
Proof.
  intros P F H. destruct (Permutation_Forall2 (Permutation_sym P) F) as [d2 [P2 F2]]. exists d2. split; [exact P2|].
  eapply F2_turn; [exact F2|]. intros a b I [E R]. split; [congruence|apply H; assumption].
Qed.
Lemma ro_sym a : forall b, reordered a b -> reordered b a.
Proof.
  assert (X : forall (K : Type) (d : list (K * value)), Forall (fun kx => forall b, reordered (snd kx) b -> reordered b (snd kx)) d -> forall a b, In a d -> reordered (snd a) b -> reordered b (snd a)).
  { intros K d F a0 b0 I. rewrite Forall_forall in F. apply F. exact I. }
  induction a as [|ba|z|f|s|s|l IH|l IH|l IH|l IH|d IH|d IH|c d IH|c d IH|c m v IH|c v IH] using value_ind'; intros b R.
  1-6: inversion R; subst; constructor.
  - apply ro_list_inv in R as [l' [-> F]]. constructor. eapply F2_turn; [exact F|]. rewrite Forall_forall in IH. intros a b I. apply IH. exact I.
  - apply ro_tuple_inv in R as [l' [-> F]]. constructor. eapply F2_turn; [exact F|]. rewrite Forall_forall in IH. intros a b I. apply IH. exact I.
  - apply ro_set_inv in R as [l' [-> F]]. constructor. eapply F2_turn; [exact F|]. rewrite Forall_forall in IH. intros a b I. apply IH. exact I.
  - apply ro_frozen_inv in R as [l' [-> F]]. constructor. eapply F2_turn; [exact F|]. rewrite Forall_forall in IH. intros a b I. apply IH. exact I.
  - apply ro_dict_inv in R as [d1 [d' [-> [P F]]]]. destruct (perm_turn d d1 d' P F) as [d2 [P2 F2]]; [|eapply ro_dict; eassumption].
    apply X. eapply Forall_impl; [|exact IH]. intros a [_ H]. exact H.
  - apply ro_ns_inv in R as [d1 [d' [-> [P F]]]]. destruct (perm_turn d d1 d' P F) as [d2 [P2 F2]]; [|eapply ro_namespace; eassumption].
    apply X. exact IH.
  - apply ro_nt_inv in R as [l' [-> F]]. constructor. eapply F2_turn; [exact F|]. rewrite Forall_forall in IH. intros a b I [E R]. split; [congruence|apply IH; assumption].
  - apply ro_obj_inv in R as [l' [-> F]]. constructor. eapply F2_turn; [exact F|]. rewrite Forall_forall in IH. intros a b I [E R]. split; [congruence|apply IH; assumption].
  - inversion R; subst. constructor.
  - inversion R; subst. constructor.
Qed.

(** ** A simple case: JSON data and no casts *)

(** no class in the type takes a dictionary, a list or something containing
    them as its argument *)
Record classes_flat (w : world) (strcons : list cid) (p : bool) (env : string -> option ty) (v : value) (T : ty) : Prop := mkFlat {
  cf_string : forall c x r, reach w p env T (TClass c) -> In c strcons -> inside v x -> w_call w (TClass c) x = POk r -> flat x;
  cf_args : forall c x l r, reach w p env T (TClass c) -> In c [CDate; CTime; CDatetime] -> inside v x -> iter x = Some l ->
    w_callargs w c l = POk r -> flat x;
  cf_timedelta : forall x r, reach w p env T (TClass CTimedelta) -> inside v x -> w_timedelta w x = POk r -> flat x;
  cf_pattern : forall x t r, reach w p env T t -> t = TClass CPattern \/ (exists n a, t = TGen n OPattern a) ->
    inside v x -> w_compile w x = POk r -> flat x
}.
(** the keys in the data are strings, which are different from each other *)
Definition string_keys (v : value) : Prop :=
  forall x d k y, inside v x -> x = VDict d -> In (k, y) d -> exists s, k = VStr s.

Lemma flat_str s : flat (VStr s).
Proof. intros x R. inversion R; subst. reflexivity. Qed.
Lemma meets_inside w cfg env v t x t' : meets w cfg env v t x t' -> inside v x.
Proof.
  assert (Tr : forall a b c, inside a b -> inside b c -> inside a c).
  { intros a b c H. induction H as [z|z z1 z2 Q H IH]; intro J; [exact J|]. eapply rt1n_trans; [exact Q|exact (IH J)]. }
  induction 1 as [v t|v t i x t1 v' t' Mv M IH|v t t1 v' t' A M IH]; [apply rt1n_refl| |exact IH].
  eapply Tr; [|exact IH].
  assert (AD : forall d k y, dict_items cfg v d -> In (k, y) d -> inside v k /\ inside v y).
  { intros d k y [->|[_ [a [-> ->]]]] I.
    - split; (eapply rt1n_trans; [|apply rt1n_refl]); [|eapply part_value; exact I]. eapply part_item; [reflexivity|]. apply (in_map fst) in I. exact I.
    - apply in_map_iff in I as [[k0 x0] [[= <- <-] I]]. split; (eapply rt1n_trans; [|apply rt1n_refl]); [eapply part_ns_key|eapply part_ns_value]; exact I. }
  destruct Mv as [v t l i x et It En _|v c d d' e f x ft DI I _ _ _ _|v d n kt vt k x DI I|v d n kt vt k x DI I|v n t E|v n t].
  - eapply rt1n_trans; [|apply rt1n_refl]. eapply part_item; [exact It|]. eapply nth_error_In. exact En.
  - exact (proj2 (AD _ _ _ DI I)).
  - exact (proj1 (AD _ _ _ DI I)).
  - exact (proj2 (AD _ _ _ DI I)).
  - apply rt1n_refl.
  - apply rt1n_refl.
Qed.
Lemma meets_ty w cfg env v t x t' : meets w cfg env v t x t' -> reach w (pep563 cfg) env t t'.
Proof.
  intro H. induction H as [v t|v t i x t1 v' t' Mv _ IH|v t t1 v' t' A _ IH]; [apply rt1n_refl| |];
    (apply rt1n_trans with t1; [|exact IH]); unfold component.
  - inversion Mv as [v0 t0 l i0 x0 et E1 E2 E3|v0 c d d' e f x0 ft E1 E2 E3 E4 E5 E6|v0 d n kt vt k x0 E1 E2|v0 d n kt vt k x0 E1 E2|v0 n t0 E1|v0 n t0]; subst; cbn [comps].
    + destruct t; try discriminate. destruct args as [a|]; [|destruct o; discriminate]. 
      assert (N : forall j, nth_error a j = Some t1 -> In t1 a) by (intro j; apply nth_error_In).
      destruct o; cbn in E3; try discriminate; try (destruct a as [|e0 a]; [discriminate|injection E3 as <-; left; reflexivity]).
      revert E3. destruct a as [|e0 a]; [destruct i0; discriminate|].
      destruct a as [|e1 a]; [apply N|]. destruct a as [|e2 a]; [|destruct e1; apply N].
      destruct e1; try apply N. intros [= <-]. left. reflexivity.
    + apply in_or_app. left. apply in_map_iff. exists (f, t1). split; [reflexivity|exact E6].
    + left. reflexivity.
    + right. left. reflexivity.
    + rewrite E1. left. reflexivity.
    + left. reflexivity.
  - inversion A as [n args t0 I|c ms l t0 E1 E2 I]; subst; cbn [comps]; [exact I|].
    apply in_or_app. right. rewrite E1, E2. exact I.
Qed.

(** the defaults and __post_init__ do not look at the order *)
Definition code_blind (w : world) (p : bool) (env : string -> option ty) (T : ty) : Prop :=
  (forall c fs f g sofar sofar', reach w p env T (TClass c) ->
    ci_dc (class_of w c) = Some fs \/ ci_attrs (class_of w c) = Some fs -> In f fs -> f_default f = DFactorySelf g ->
    refields sofar sofar' -> reordered (g sofar) (g sofar')) /\
  (forall c fs fs1 r, reach w p env T (TClass c) -> refields fs fs1 -> ci_post (class_of w c) fs = POk r ->
    exists r1, ci_post (class_of w c) fs1 = POk r1 /\ refields r r1).

Lemma blind_json w basic strcons cfg env v T :
  In CStr basic -> basiccast cfg = false ->
  (forall x, inside v x -> python_data x) -> string_keys v -> classes_flat w strcons (pep563 cfg) env v T -> code_blind w (pep563 cfg) env T ->
  (forall n kt vt x, meets w cfg env v T x (TGen n ODict (Some [kt; vt])) -> kt = TClass CStr) ->
  order_blind w basic strcons cfg env v T.
Proof.
  intros Bs Bc Py Sk Cf [Cd Cp] Kt. constructor; [exact Cd|exact Cp| |].
  - intros x t M Hs. pose proof (meets_inside _ _ _ _ _ _ _ M) as Ix.
    pose proof (meets_ty _ _ _ _ _ _ _ M) as Rc. destruct Hs as [c x r B N Bc'|c x l r Ic Oc Ns It E|x r Oc E|x t r Ht E|c x r Ic Oc Sp E].
    + congruence.
    + exact (cf_args _ _ _ _ _ _ Cf c x l r Rc Ic Ix It E).
    + exact (cf_timedelta _ _ _ _ _ _ Cf x r Rc Ix E).
    + refine (cf_pattern _ _ _ _ _ _ Cf x t r Rc _ Ix E). destruct Ht as [[-> _]|Ht]; auto.
    + exact (cf_string _ _ _ _ _ _ Cf c x r Rc Ic Ix E).
  - intros n kt vt x d qs M DI Q. pose proof (Kt n kt vt x M) as ->. pose proof (meets_inside _ _ _ _ _ _ _ M) as Ix.
    assert (Sd : Forall (fun kx => exists a, fst kx = VStr a) d /\ ForallOrdPairs (fun a b => fst a <> fst b) d).
    { pose proof (proj1 (Py x Ix)) as Pd. destruct DI as [->|[_ [a [-> ->]]]].
      - split; [apply Forall_forall; intros [k y] I; exact (Sk _ d k y Ix eq_refl I)|].
        assert (Z : Forall (fun kx => exists a, fst kx = VStr a) d) by (apply Forall_forall; intros [k y] I; exact (Sk _ d k y Ix eq_refl I)).
        cbn [proper_data] in Pd. unfold py_dict in Pd. clear - Pd Z. induction Pd as [|a d H _ IH]; [constructor|]. inversion Z; subst. constructor; [|auto].
        eapply Forall_impl; [|exact H]. intros b E E'. cbn beta in E, E'. destruct H2 as [s E2]. rewrite <- E', E2 in E. cbn [py_eqb] in E. rewrite String.eqb_refl in E. discriminate.
      - split; [apply Forall_forall; intros kx I; apply in_map_iff in I as [kv [<- _]]; eexists; reflexivity|].
        cbn [proper_data] in Pd. clear - Pd. induction a as [|[k y] a IH]; [constructor|]. cbn [map fst snd] in *. inversion Pd as [|? ? N1 N2]; subst.
        constructor; [|auto]. apply Forall_forall. intros [k' y'] I. apply in_map_iff in I as [[q z] [[= <- <-] I]]. cbn [fst]. intros [= ->].
        apply N1. apply (in_map fst) in I. exact I. }
    assert (E : qs = map fst d).
    { destruct Sd as [Sd _]. clear - Q Sd Bc Bs. induction Q as [|[k y] q d qs Rd _ IH]; [reflexivity|]. inversion Sd as [|? ? [a Ea] Sd']; subst.
      cbn [map fst] in *. subst k. rewrite (IH Sd'). f_equal.
      inversion Rd as [x t y0 [E _] E1 E2 E3|x t y0 G E1 E2 E3]; subst; [reflexivity|].
      inversion G; subst; try reflexivity; try contradiction; try congruence; try (destruct k; discriminate); exfalso; unfold object_class, other_class in *;
        try tauto; cbn [type_of] in *; try congruence.
      destruct H as [[A _]|[? [? A]]]; discriminate A. }
    subst qs. destruct Sd as [S1 S2]. clear - S1 S2. induction S2 as [|a d H _ IH]; [constructor|]. inversion S1 as [|? ? [s Es] S1']; subst.
    cbn [map]. constructor; [|auto]. rewrite Forall_map. rewrite Forall_forall in S1', H |- *. intros b I. destruct (S1' b I) as [u Eu].
    specialize (H b I). rewrite Es, Eu in *. cbn [py_eqb]. split; apply String.eqb_neq; congruence.
Qed.
