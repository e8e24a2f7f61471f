(** * HLoad: the Loader on objects with identity computes what the Loader on
      trees computes, and writes only to objects it has created (C59) *)

From Verif Require Import Loader Spec Fuel Vocab Inv Std Sound HDumper HDump HLoader.

(** ** Reading an object completely *)
Lemma tells_imp (R R' : href -> value -> Prop) o v : (forall y a, In y (parts o) -> R y a -> R' y a) -> tells R o v -> tells R' o v.
Proof.
  assert (F1 : forall xs vs, (forall y a, In y xs -> R y a -> R' y a) -> Forall2 R xs vs -> Forall2 R' xs vs).
  { intros xs vs H F. induction F as [|x a xs vs r F IH]; constructor; [apply H; [left; reflexivity|exact r]|]. apply IH. intros y b I. apply H. right. exact I. }
  assert (F2 : forall (fs : list (string * href)) vs, (forall y a, In y (map snd fs) -> R y a -> R' y a) -> Forall2 (fun a b => fst a = fst b /\ R (snd a) (snd b)) fs vs ->
     Forall2 (fun a b => fst a = fst b /\ R' (snd a) (snd b)) fs vs).
  { intros xs vs H F. induction F as [|x a xs vs [r r'] F IH]; constructor; [split; [exact r|apply H; [left; reflexivity|exact r']]|]. apply IH. intros y b I. apply H. right. exact I. }
  intros H T. destruct T as [xs vs F|xs vs F|xs vs F|xs vs F|d vd F|c fs vs F|c fs vs F|c m y a F|fs vs F]; cbn [parts] in H; constructor; auto.
  - clear F1 F2. induction F as [|x a xs vs [r r'] F IH]; constructor; [|apply IH; intros y b I; apply H; apply in_app_or in I as [I|I]; apply in_or_app; [left; right|right; right]; exact I].
    split; apply H; try assumption; [left; reflexivity|]. apply in_or_app. right. left. reflexivity.
  - apply H; [left; reflexivity|exact F].
Qed.
Lemma tells_parts (R : href -> value -> Prop) o v y : tells R o v -> In y (parts o) -> exists a, R y a.
Proof.
  assert (F1 : forall xs vs, Forall2 R xs vs -> In y xs -> exists a, R y a).
  { intros xs vs F I. induction F as [|x a xs vs r F IH]; [contradiction|]. destruct I as [<-|I]; eauto. }
  assert (F2 : forall (fs : list (string * href)) vs, Forall2 (fun a b => fst a = fst b /\ R (snd a) (snd b)) fs vs -> In y (map snd fs) -> exists a, R y a).
  { intros xs vs F I. induction F as [|x a xs vs [r r'] F IH]; [contradiction|]. destruct I as [<-|I]; eauto. }
  intros T I. destruct T as [xs vs F|xs vs F|xs vs F|xs vs F|d vd F|c fs vs F|c fs vs F|c m y' a F|fs vs F]; cbn [parts] in I; eauto.
  - clear F1 F2. induction F as [|x a xs vs [r r'] F IH]; [contradiction|]. cbn in I. destruct I as [<-|I]; [eauto|].
    apply in_app_or in I as [I|[<-|I]]; [apply IH; apply in_or_app; left; exact I|eauto|apply IH; apply in_or_app; right; exact I].
Qed.
Lemma read_tells n g l o v : g l = Some o -> tells (fun y a => read n g y = Some a) o v -> read (S n) g (HR l) = Some v.
Proof.
  intros E T. cbn [read]. rewrite E.
  assert (F : forall (fs : list (string * href)) vs, Forall2 (fun a b => fst a = fst b /\ read n g (snd a) = Some (snd b)) fs vs ->
     mapo (fun kx : string * href => option_map (pair (fst kx)) (read n g (snd kx))) fs = Some vs).
  { intros fs vs F. apply mapo_spec. eapply F2i; [|exact F]. intros [k y] [k' a] [Q1 Q2]. cbn in *. subst k'. rewrite Q2. reflexivity. }
  destruct T as [xs vs T|xs vs T|xs vs T|xs vs T|d vd T|c fs vs T|c fs vs T|c m y a T|fs vs T]; try (apply mapo_spec in T; rewrite T; reflexivity); try (rewrite (F _ _ T); reflexivity).
  - match goal with |- option_map _ (mapo ?f d) = _ => assert (M : mapo f d = Some vd); [|rewrite M; reflexivity] end.
    apply mapo_spec. eapply F2i; [|exact T]. intros [k y] [a b] [Q1 Q2]. cbn in *. rewrite Q1, Q2. reflexivity.
  - rewrite T. reflexivity.
Qed.
Lemma ob_bound g xs : Forall (fun y => exists v, ob g y v) xs -> exists n, forall y v, In y xs -> ob g y v -> read n g y = Some v.
Proof.
  intro F. induction F as [|y xs [v [n R]] F [n' IH]]; [exists 0; contradiction|]. exists (Nat.max n n'). intros z b [<-|I] O.
  - destruct O as [k Q]. rewrite (read_det _ _ _ _ _ _ Q R). eapply read_mono; [|apply k_refl|exact R]. lia.
  - eapply read_mono; [|apply k_refl|apply IH; assumption]. lia.
Qed.
Lemma ob_at g l o v : g l = Some o -> tells (ob g) o v -> ob g (HR l) v.
Proof.
  intros E T. destruct (ob_bound g (parts o)) as [n B].
  { apply Forall_forall. intros y I. eapply tells_parts; eassumption. }
  exists (S n). apply (read_tells n g l o v E). eapply tells_imp; [|exact T]. exact B.
Qed.
Lemma ob_inv g l v : ob g (HR l) v -> exists o, g l = Some o /\ tells (ob g) o v.
Proof.
  intros [n R]. destruct (read_at _ _ _ _ R) as [o [n' [_ [G T]]]]. exists o. split; [exact G|]. eapply tells_imp; [|exact T].
  intros y a _ Q. exists n'. exact Q.
Qed.
Lemma ob_HV g a v : ob g (HV a) v -> v = a /\ scalar a = true.
Proof. intros [n R]. destruct n; cbn in R; destruct (scalar a) eqn:E; try discriminate; injection R as <-; auto. Qed.
Lemma ob_scalar g a : scalar a = true -> ob g (HV a) a.
Proof. intro E. exists 0. cbn. rewrite E. reflexivity. Qed.
Lemma ob_det g x v v' : ob g x v -> ob g x v' -> v = v'.
Proof. intros [n R] [n' R']. eapply read_det; eassumption. Qed.
Lemma ob_ref g x v : ob g x v -> scalar v = true -> x = HV v.
Proof.
  destruct x as [a|l]; intros O E; [apply ob_HV in O as [-> _]; reflexivity|].
  apply ob_inv in O as [o [_ T]]. destruct T; discriminate.
Qed.

(** no path in an object is longer than the heap *)
Lemma read_path (h : heap) n l : read (S n) (at_ h) (HR l) <> None -> read n (at_ h) (HR l) = None ->
  exists ls, List.length ls = S n /\ NoDup ls /\ forall l', In l' ls -> l' < List.length h /\ read (S n) (at_ h) (HR l') <> None /\ (l' <> l -> read n (at_ h) (HR l') <> None).
Proof.
  revert l. induction n as [|n IH]; intros l Y N.
  - exists [l]. split; [reflexivity|]. split; [repeat constructor; intros []|]. intros l' [<-|[]]. split; [|split; [exact Y|congruence]].
    apply nth_error_Some. intro E. apply Y. cbn [read]. rewrite E. reflexivity.
  - destruct (read (S (S n)) (at_ h) (HR l)) as [v|] eqn:R; [|congruence]. destruct (read_at _ _ _ _ R) as [o [n' [[= <-] [E T]]]].
    assert (C : exists y, In y (parts o) /\ read n (at_ h) y = None).
    { destruct (Exists_dec (fun y => read n (at_ h) y = None) (parts o)) as [C|C].
      - intro y. destruct (read n (at_ h) y); [right; discriminate|left; reflexivity].
      - apply Exists_exists in C. exact C.
      - exfalso. rewrite (read_tells n (at_ h) l o v E) in N; [discriminate|]. eapply tells_imp; [|exact T]. cbn beta. intros y a I Q.
        destruct (read n (at_ h) y) as [b|] eqn:Rn; [|exfalso; apply C, Exists_exists; exists y; split; assumption].
        rewrite (read_det _ _ _ _ _ _ Q Rn). reflexivity. }
    destruct C as [y [I Ny]]. destruct (tells_parts _ _ _ _ T I) as [b Ry]. cbn beta in Ry.
    destruct y as [a|l1]; [exfalso; destruct n; cbn in Ny, Ry; destruct (scalar a); discriminate|].
    destruct (IH l1) as [ls [Le [Nd H]]]; [congruence|exact Ny|]. exists (l :: ls). split; [cbn; congruence|]. split.
    + constructor; [|exact Nd]. intro J. apply H in J. destruct J as [_ [J _]]. congruence.
    + intros l' [<-|J].
      * split; [apply nth_error_Some; congruence|]. split; [congruence|congruence].
      * apply H in J as [J1 [J2 J3]]. split; [exact J1|]. destruct (read (S n) (at_ h) (HR l')) as [b'|] eqn:Q; [|congruence]. split; [|congruence].
        rewrite (read_mono (S n) (S (S n)) (at_ h) (at_ h) (HR l') b'); [discriminate|lia|apply k_refl|exact Q].
Qed.
Lemma see_ob (h : heap) x v : ob (at_ h) x v -> see h x = Some v.
Proof.
  intros [n R]. unfold see, full. destruct (le_lt_dec n (S (List.length h))) as [L|L]; [eapply read_mono; [exact L|apply k_refl|exact R]|].
  destruct (read (S (List.length h)) (at_ h) x) as [v'|] eqn:Q; [rewrite (read_det _ _ _ _ _ _ Q R); reflexivity|]. exfalso.
  destruct x as [a|l]; [destruct n; cbn in Q, R; destruct (scalar a); discriminate|].
  assert (X : exists k, S (List.length h) <= k /\ read k (at_ h) (HR l) = None /\ read (S k) (at_ h) (HR l) <> None).
  { remember (n - S (List.length h)) as d eqn:Ed. revert n R L Ed. induction d as [|d IH]; intros n R L Ed; [lia|].
    destruct n as [|n]; [lia|]. destruct (read n (at_ h) (HR l)) as [b|] eqn:Rn.
    - destruct (Nat.eq_dec n (S (List.length h))) as [->|Ne]; [congruence|]. apply (IH n); [rewrite (read_det _ _ _ _ _ _ R Rn); exact Rn|lia|lia].
    - exists n. split; [lia|]. split; [exact Rn|]. congruence. }
  destruct X as [k [Lk [N Y]]]. destruct (read_path h k l Y N) as [ls [Le [Nd H]]].
  assert (List.length ls <= List.length (seq 0 (List.length h))).
  { apply NoDup_incl_length; [exact Nd|]. intros l' I. apply in_seq. apply H in I. lia. }
  rewrite seq_length in *. lia.
Qed.
Lemma see_mask A (h : heap) x v : ob (mask A (at_ h)) x v -> see h x = Some v.
Proof. intro O. apply see_ob. eapply ob_kept; [apply mask_all|exact O]. Qed.

(** ** What an object is made of *)
Definition mf_all (h : heap) (L : loc -> Prop) (P : href -> list loc -> Prop) (R : forall y ls, made_from h L y ls -> P y ls) :=
  fix go xs lss (F : Forall2 (made_from h L) xs lss) {struct F} : Forall2 P xs lss :=
  match F with
  | Forall2_nil _ => Forall2_nil _
  | Forall2_cons _ _ M F' => Forall2_cons _ _ (R _ _ M) (go _ _ F')
  end.
Lemma mf_ind (h : heap) (L : loc -> Prop) (P : href -> list loc -> Prop)
  (Ps : forall v, scalar v = true -> P (HV v) [])
  (Po : forall l, L l -> P (HR l) [])
  (Pn : forall l o lss, at_ h l = Some o -> Forall2 (made_from h L) (parts o) lss -> Forall2 P (parts o) lss -> P (HR l) (l :: List.concat lss)) :
  forall y ls, made_from h L y ls -> P y ls.
Proof.
  fix R 3. intros y ls [v Q|l Q|l o lss E F].
  - apply Ps. exact Q.
  - apply Po. exact Q.
  - apply (Pn l o lss E F). exact (mf_all h L P R _ _ F).
Qed.
Lemma mf_kept h h' L y ls : (forall l o, In l ls -> at_ h l = Some o -> at_ h' l = Some o) -> made_from h L y ls -> made_from h' L y ls.
Proof.
  intros K M. revert K. induction M as [v Q|l Q|l o lss E F IH] using mf_ind; intro K.
  - constructor. exact Q.
  - apply mf_old. exact Q.
  - apply mf_new with (o := o); [apply K; [left; reflexivity|exact E]|]. apply (F2_concat _ _ _ _ IH). intros x ls I H. apply H.
    intros l0 o0 J. apply K. right. eapply in_concat_of; eassumption.
Qed.
Lemma mf_there h L y ls l : made_from h L y ls -> In l ls -> l < List.length h.
Proof.
  intro M. revert l. induction M as [v Q|l Q|l o lss E F IH] using mf_ind; intros l0; try contradiction.
  intros [<-|I]; [apply nth_error_Some; congruence|]. apply in_concat in I as [ls [I J]]. destruct (F2_in_r _ _ _ _ IH I) as [x [_ H]]. apply H. exact J.
Qed.
Lemma concat_perm {A} (l l' : list (list A)) : Permutation l l' -> Permutation (List.concat l) (List.concat l').
Proof.
  induction 1 as [|x l l' P IH|x y l|l1 l2 l3 P1 IH1 P2 IH2]; cbn; [constructor|apply Permutation_app_head; exact IH| |eapply Permutation_trans; eassumption].
  rewrite !app_assoc. apply Permutation_app_tail. apply Permutation_app_comm.
Qed.

(** the objects [ys] are made of places from [b] on, no two the same, and of the
    places [L] *)
Definition sep (L : loc -> Prop) (b : nat) (h : heap) (ys : list href) : Prop :=
  exists lss, Forall2 (made_from h L) ys lss /\ NoDup (List.concat lss) /\ forall l, In l (List.concat lss) -> b <= l.
Section Sep.
  Variable L : loc -> Prop.
  Notation sep := (sep L).
  Lemma sep_nil b h : sep b h [].
  Proof using. exists []. split; [constructor|]. split; [constructor|intros l []]. Qed.
  Lemma sep_imp b h h' ys : (forall l o, b <= l -> at_ h l = Some o -> at_ h' l = Some o) -> sep b h ys -> sep b h' ys.
  Proof using.
    intros K [lss [F [N B]]]. exists lss. split; [|split; assumption]. apply (F2_concat _ _ _ _ F). intros x ls I M.
    apply (mf_kept h h' L x ls); [|exact M]. intros l o J. apply K. apply B. eapply in_concat_of; eassumption.
  Qed.
  Lemma sep_kept b h h' ys : kept_in h h' -> sep b h ys -> sep b h' ys.
  Proof using. intro K. apply sep_imp. intros l o _. apply K. Qed.
  Lemma sep_weak b b' h ys : b' <= b -> sep b h ys -> sep b' h ys.
  Proof using. intros Le [lss [F [N B]]]. exists lss. split; [exact F|]. split; [exact N|]. intros l I. apply B in I. lia. Qed.
  Lemma sep_put b h r o ys : r < b -> sep b h ys -> sep b (put h r o) ys.
  Proof using. intro Le. apply sep_imp. intros l o' Q E. rewrite put_other; [exact E|lia]. Qed.
  Lemma sep_app b h h' xs ys : kept_in h h' -> b <= List.length h -> sep b h xs -> sep (List.length h) h' ys -> sep b h' (xs ++ ys).
  Proof using.
    intros K Le [lx [Fx [Nx Bx]]] [ly [Fy [Ny By]]]. exists (lx ++ ly). rewrite concat_app. split; [|split].
    - apply Forall2_app; [|exact Fy]. apply (F2_concat _ _ _ _ Fx). intros x ls I M. apply (mf_kept h h' L x ls); [|exact M]. intros l o _. apply K.
    - apply NoDup_app_in; [exact Nx|exact Ny|]. intros l I J. apply By in J. apply in_concat in I as [ls [I I']].
      destruct (F2_in_r _ _ _ _ Fx I) as [x [_ M]]. apply (mf_there _ _ _ _ _ M) in I'. lia.
    - intros l I. apply in_app_or in I as [I|I]; [apply Bx; exact I|]. apply By in I. lia.
  Qed.
  Lemma sep_part b h ys zs rest : Permutation ys (zs ++ rest) -> sep b h ys -> sep b h zs.
  Proof using.
    intros P [lss [F [N B]]]. destruct (Permutation_Forall2 P F) as [lss' [P' F']]. apply Forall2_app_inv_l in F' as [l1 [l2 [F1 [F2 ->]]]].
    apply concat_perm in P'. rewrite concat_app in P'. exists l1. split; [exact F1|]. split.
    - eapply NoDup_app_l. eapply Permutation_NoDup; [exact P'|exact N].
    - intros l I. apply B. eapply Permutation_in; [apply Permutation_sym; exact P'|]. apply in_or_app. left. exact I.
  Qed.
  Lemma sep_perm b h ys zs : Permutation ys zs -> sep b h ys -> sep b h zs.
  Proof using. intro P. apply (sep_part b h ys zs []). rewrite app_nil_r. exact P. Qed.
  Lemma sep_sub b h xs ys : sep b h (xs ++ ys) -> sep b h xs.
  Proof using. apply (sep_part b h (xs ++ ys) xs ys). apply Permutation_refl. Qed.
  Lemma sep_sub_r b h xs ys : sep b h (xs ++ ys) -> sep b h ys.
  Proof using. apply (sep_part b h (xs ++ ys) ys xs). apply Permutation_app_comm. Qed.
  Lemma sep_new b h l o : at_ h l = Some o -> sep (S l) h (parts o) -> b <= l -> sep b h [HR l].
  Proof using.
    intros E [lss [F [N B]]] Le. exists [l :: List.concat lss]. cbn. rewrite app_nil_r. split; [constructor; [|constructor]|split].
    - apply mf_new with (o := o); assumption.
    - constructor; [|exact N]. intro I. apply B in I. lia.
    - intros l' [<-|I]; [exact Le|]. apply B in I. lia.
  Qed.
  Lemma sep_place b h o : b <= List.length h -> sep b h (parts o) -> sep b (h ++ [o]) [HR (List.length h)].
  Proof using.
    intros Le [lss [F [N B]]]. exists [List.length h :: List.concat lss]. cbn. rewrite app_nil_r.
    assert (K : forall l, In l (List.concat lss) -> l < List.length h).
    { intros l I. apply in_concat in I as [ls [I J]]. destruct (F2_in_r _ _ _ _ F I) as [x [_ M]]. apply (mf_there _ _ _ _ _ M J). }
    split; [constructor; [|constructor]|split].
    - apply mf_new with (o := o); [apply alloc_there|]. apply (F2_concat _ _ _ _ F). intros x ls I M. apply (mf_kept h (h ++ [o]) L x ls); [|exact M].
      intros l o' _. apply kept_alloc.
    - constructor; [|exact N]. intro I. apply K in I. lia.
    - intros l' [<-|I]; [exact Le|]. apply B in I. lia.
  Qed.
  Definition leaf (y : href) : Prop := match y with HV v => scalar v = true | HR l => L l end.
  Lemma sep_leaf b h y : leaf y -> sep b h [y].
  Proof using.
    intro H. exists [[]]. split; [constructor; [|constructor]|split; [constructor|intros l []]].
    destruct y as [v|l]; [apply mf_scalar|apply mf_old]; exact H.
  Qed.
  Lemma sep_cons b h h' y ys : kept_in h h' -> b <= List.length h -> sep b h [y] -> sep (List.length h) h' ys -> sep b h' (y :: ys).
  Proof using. intros K Le A B. exact (sep_app b h h' [y] ys K Le A B). Qed.
End Sep.

(** ** New trees *)
Lemma pl_cons f x l h : plant_list f (x :: l) h = let (y, h1) := f x h in let (ys, h2) := plant_list f l h1 in (y :: ys, h2).
Proof. reflexivity. Qed.
Lemma pf_cons f k x l h : plant_fields f ((k, x) :: l) h = let (y, h1) := f x h in let (ys, h2) := plant_fields f l h1 in ((k, y) :: ys, h2).
Proof. reflexivity. Qed.
Lemma pi_cons f k x l h : plant_items f ((k, x) :: l) h = let (z, h0) := f k h in let (y, h1) := f x h0 in let (ys, h2) := plant_items f l h1 in ((z, y) :: ys, h2).
Proof. reflexivity. Qed.
Section Planted.
  Variable L : loc -> Prop.
  Variable A : loc -> bool.
  Variable pick : cid -> string -> value -> option href.
  (** the members which are picked are there *)
  Definition ready (h : heap) : Prop := below A h /\ forall c m x y, pick c m x = Some y -> ob (mask A (at_ h)) y (VEnum c m x) /\ leaf L y.
  Lemma below_kept h h' : kept_in h h' -> below A h -> below A h'.
  Proof using. intros K B l Q. apply B in Q. apply kept_length in K. lia. Qed.
  Lemma place_ok (h1 h : heap) o v : below A h1 -> kept_in h1 h -> tells (ob (mask A (at_ h))) o v -> sep L (List.length h1) h (parts o) ->
    let '(y, h') := place o h in kept_in h1 h' /\ ob (mask A (at_ h')) y v /\ sep L (List.length h1) h' [y].
  Proof using.
    intros B K T S1. unfold place. split; [eapply kept_trans; [exact K|apply kept_alloc]|]. split; [|apply sep_place; [apply kept_length; exact K|exact S1]].
    apply ob_at with (o := o).
    - unfold mask. destruct (A (List.length h)) eqn:Q; [apply B in Q; apply kept_length in K; lia|]. apply alloc_there.
    - eapply tells_imp; [|exact T]. intros y a _. apply ob_kept. apply mask_kept. apply (kept_alloc h o).
  Qed.
  Lemma ready_kept h h' : kept_in h h' -> ready h -> ready h'.
  Proof using.
    intros K [B G]. split; [eapply below_kept; eassumption|]. intros c m x y E. destruct (G c m x y E) as [O Lf]. split; [|exact Lf]. eapply ob_kept; [apply mask_kept; exact K|exact O].
  Qed.
  Lemma plant_ok v : forall h1, ready h1 ->
    let '(y, h') := plant pick v h1 in kept_in h1 h' /\ ob (mask A (at_ h')) y v /\ sep L (List.length h1) h' [y].
  Proof using.
    assert (Sc : forall v, scalar v = true -> forall h1, ready h1 -> kept_in h1 h1 /\ ob (mask A (at_ h1)) (HV v) v /\ sep L (List.length h1) h1 [HV v]).
    { intros a E h1 _. split; [apply kept_refl|]. split; [apply ob_scalar; exact E|]. apply sep_leaf. exact E. }
    assert (Li : forall l, Forall (fun v => forall h1, ready h1 ->
       let '(y, h') := plant pick v h1 in kept_in h1 h' /\ ob (mask A (at_ h')) y v /\ sep L (List.length h1) h' [y]) l -> forall h1, ready h1 ->
       let '(ys, h') := plant_list (plant pick) l h1 in kept_in h1 h' /\ Forall2 (ob (mask A (at_ h'))) ys l /\ sep L (List.length h1) h' ys).
    { induction 1 as [|x l Hx F IH]; intros h1 B; [split; [apply kept_refl|]; split; [constructor|apply sep_nil]|]. rewrite pl_cons.
      specialize (Hx h1 B). destruct (plant pick x h1) as [y h2]. destruct Hx as [K1 [O1 S1]]. specialize (IH h2 (ready_kept _ _ K1 B)).
      destruct (plant_list (plant pick) l h2) as [ys h3]. destruct IH as [K2 [O2 S2]]. split; [eapply kept_trans; eassumption|]. split.
      - constructor; [|exact O2]. eapply ob_kept; [apply mask_kept; exact K2|exact O1].
      - apply (sep_cons L _ h2); [exact K2|apply kept_length; exact K1|exact S1|exact S2]. }
    assert (Fi : forall l, Forall (fun kv : string * value => forall h1, ready h1 ->
       let '(y, h') := plant pick (snd kv) h1 in kept_in h1 h' /\ ob (mask A (at_ h')) y (snd kv) /\ sep L (List.length h1) h' [y]) l -> forall h1, ready h1 ->
       let '(ys, h') := plant_fields (plant pick) l h1 in kept_in h1 h' /\ Forall2 (fun a b => fst a = fst b /\ ob (mask A (at_ h')) (snd a) (snd b)) ys l /\ sep L (List.length h1) h' (map snd ys)).
    { induction 1 as [|[k x] l Hx F IH]; intros h1 B; [split; [apply kept_refl|]; split; [constructor|apply sep_nil]|]. rewrite pf_cons.
      cbn [snd] in Hx. specialize (Hx h1 B). destruct (plant pick x h1) as [y h2]. destruct Hx as [K1 [O1 S1]]. specialize (IH h2 (ready_kept _ _ K1 B)).
      destruct (plant_fields (plant pick) l h2) as [ys h3]. destruct IH as [K2 [O2 S2]]. split; [eapply kept_trans; eassumption|]. split.
      - constructor; [|exact O2]. split; [reflexivity|]. cbn. eapply ob_kept; [apply mask_kept; exact K2|exact O1].
      - cbn [map snd]. apply (sep_cons L _ h2); [exact K2|apply kept_length; exact K1|exact S1|exact S2]. }
    induction v as [|b|z|f|s|s|l F|l F|l F|l F|d F|d F|c d F|c d F|c m v IH|c v IH] using value_ind'; intros h1 B; cbn [plant]; try (apply Sc; [reflexivity|exact B]).
    1-4: specialize (Li l F h1 B); destruct (plant_list (plant pick) l h1) as [ys h2]; destruct Li as [K [O S1]]; apply place_ok; [apply B|exact K|constructor; exact O|exact S1].
    - assert (Di : forall h1, ready h1 -> let '(ys, h') := plant_items (plant pick) d h1 in kept_in h1 h' /\
         Forall2 (fun a b => ob (mask A (at_ h')) (fst a) (fst b) /\ ob (mask A (at_ h')) (snd a) (snd b)) ys d /\ sep L (List.length h1) h' (map fst ys ++ map snd ys)).
      { clear h1 B. induction F as [|[k x] l [Hk Hx] F IH]; intros h1 B; [split; [apply kept_refl|]; split; [constructor|apply sep_nil]|]. rewrite pi_cons.
        cbn [fst snd] in Hk, Hx. specialize (Hk h1 B). destruct (plant pick k h1) as [z h2]. destruct Hk as [K1 [O1 S1]]. specialize (Hx h2 (ready_kept _ _ K1 B)). destruct (plant pick x h2) as [y h3].
        destruct Hx as [K2 [O2 S2]]. specialize (IH h3 (ready_kept _ _ K2 (ready_kept _ _ K1 B))).
        destruct (plant_items (plant pick) l h3) as [ys h4]. destruct IH as [K3 [O3 S3]]. split; [eapply kept_trans; [exact K1|]; eapply kept_trans; eassumption|]. split.
        - constructor; [|exact O3]. cbn [fst snd]. split; (eapply ob_kept; [apply mask_kept|eassumption]); [eapply kept_trans; eassumption|exact K3].
        - assert (S4 : sep L (List.length h1) h4 (z :: y :: map fst ys ++ map snd ys)).
          { apply (sep_cons L _ h2); [eapply kept_trans; eassumption|apply kept_length; exact K1|exact S1|].
            apply (sep_cons L _ h3); [exact K3|apply kept_length; exact K2|exact S2|exact S3]. }
          eapply sep_perm; [|exact S4]. cbn [map fst snd app]. apply perm_skip. apply Permutation_cons_app. reflexivity. }
      specialize (Di h1 B). destruct (plant_items (plant pick) d h1) as [ys h2]. destruct Di as [K [O S1]]. apply place_ok; [apply B|exact K|constructor; exact O|exact S1].
    - specialize (Fi d F h1 B); destruct (plant_fields (plant pick) d h1) as [ys h2]; destruct Fi as [K [O S1]]; apply place_ok; [apply B|exact K|constructor; exact O|exact S1].
    - specialize (Fi d F h1 B); destruct (plant_fields (plant pick) d h1) as [ys h2]; destruct Fi as [K [O S1]]; apply place_ok; [apply B|exact K|constructor; exact O|exact S1].
    - specialize (Fi d F h1 B); destruct (plant_fields (plant pick) d h1) as [ys h2]; destruct Fi as [K [O S1]]; apply place_ok; [apply B|exact K|constructor; exact O|exact S1].
    - destruct (pick c m v) as [y|] eqn:Ep.
      { split; [apply kept_refl|]. destruct (proj2 B c m v y Ep) as [O Lf]. split; [exact O|apply sep_leaf; exact Lf]. }
      specialize (IH h1 B). destruct (plant pick v h1) as [y h2]. destruct IH as [K [O S1]]. apply place_ok; [apply B|exact K|constructor; exact O|exact S1].
  Qed.
End Planted.
Section PlantKept.
  Variable pick : cid -> string -> value -> option href.
  Lemma plant_kept v : forall h, kept_in h (snd (plant pick v h)).
  Proof using.
    assert (Pl : forall o h h', kept_in h h' -> kept_in h (snd (place o h'))) by (intros o h h' K; eapply kept_trans; [exact K|apply kept_alloc]).
    assert (Li : forall l, Forall (fun v => forall h, kept_in h (snd (plant pick v h))) l -> forall h, kept_in h (snd (plant_list (plant pick) l h))).
    { induction 1 as [|x l Hx F IH]; intro h; [apply kept_refl|]. rewrite pl_cons. specialize (Hx h). destruct (plant pick x h) as [y h1]. specialize (IH h1). destruct (plant_list (plant pick) l h1). eapply kept_trans; eassumption. }
    assert (Fi : forall l, Forall (fun kv : string * value => forall h, kept_in h (snd (plant pick (snd kv) h))) l -> forall h, kept_in h (snd (plant_fields (plant pick) l h))).
    { induction 1 as [|[k x] l Hx F IH]; intro h; [apply kept_refl|]. rewrite pf_cons. cbn [snd] in Hx. specialize (Hx h). destruct (plant pick x h) as [y h1]. specialize (IH h1). destruct (plant_fields (plant pick) l h1). eapply kept_trans; eassumption. }
    induction v as [|b|z|f|s|s|l F|l F|l F|l F|d F|d F|c d F|c d F|c m v IH|c v IH] using value_ind'; intro h; cbn [plant]; try apply kept_refl.
    1-4: specialize (Li l F h); destruct (plant_list (plant pick) l h); apply Pl; exact Li.
    - assert (Di : forall h, kept_in h (snd (plant_items (plant pick) d h))).
      { clear h. induction F as [|[k x] l [Hk Hx] F IH]; intro h; [apply kept_refl|]. rewrite pi_cons. cbn [fst snd] in Hk, Hx. specialize (Hk h). destruct (plant pick k h) as [z h1]. specialize (Hx h1). destruct (plant pick x h1) as [y h2].
        specialize (IH h2). destruct (plant_items (plant pick) l h2). eapply kept_trans; [exact Hk|]. eapply kept_trans; eassumption. }
      specialize (Di h). destruct (plant_items (plant pick) d h). apply Pl. exact Di.
    - specialize (Fi d F h); destruct (plant_fields (plant pick) d h); apply Pl; exact Fi.
    - specialize (Fi d F h); destruct (plant_fields (plant pick) d h); apply Pl; exact Fi.
    - specialize (Fi d F h); destruct (plant_fields (plant pick) d h); apply Pl; exact Fi.
    - destruct (pick c m v); [apply kept_refl|]. specialize (IH h). destruct (plant pick v h). apply Pl. exact IH.
  Qed.
End PlantKept.
