(** * HDump: the Dumper on objects with identity computes what the Dumper on
      trees computes, in new objects (C57) *)

From Verif Require Import Loader Dumper Spec Fuel Vocab Inv Dumps Facts5 HDumper.

(** ** The heap *)
Lemma put_length h l o : List.length (put h l o) = List.length h.
Proof. revert l. induction h as [|a h IH]; intros [|l]; cbn; auto. Qed.
Lemma put_same h l o : l < List.length h -> nth_error (put h l o) l = Some o.
Proof. revert l. induction h as [|a h IH]; intros [|l]; cbn; intro L; try lia; [reflexivity|]. apply IH. lia. Qed.
Lemma put_other h l l' o : l <> l' -> nth_error (put h l o) l' = nth_error h l'.
Proof. revert l l'. induction h as [|a h IH]; intros [|l] [|l'] N; cbn; try reflexivity; [congruence|]. apply IH. congruence. Qed.

Lemma kept_refl h : kept_in h h. Proof. intros l o H. exact H. Qed.
Lemma kept_trans h1 h2 h3 : kept_in h1 h2 -> kept_in h2 h3 -> kept_in h1 h3.
Proof. intros A B l o H. apply B, A, H. Qed.
Lemma kept_alloc h o : kept_in h (h ++ [o]).
Proof. intros l o' H. rewrite nth_error_app1; [exact H|]. apply nth_error_Some. congruence. Qed.
Lemma kept_put h h1 l o : kept_in h h1 -> List.length h <= l -> kept_in h (put h1 l o).
Proof.
  intros K L l' o' H. rewrite put_other; [apply K; exact H|]. assert (l' < List.length h) by (apply nth_error_Some; congruence). lia.
Qed.
Lemma kept_length h h' : kept_in h h' -> List.length h <= List.length h'.
Proof.
  intro K. destruct (List.length h) as [|k] eqn:E; [lia|].
  assert (X : nth_error h k <> None) by (apply nth_error_Some; lia). destruct (nth_error h k) as [o|] eqn:Q; [|congruence].
  apply K in Q. assert (k < List.length h') by (apply nth_error_Some; congruence). lia.
Qed.


(** ** Contents *)
Definition kept (g g' : contents) : Prop := forall l o, g l = Some o -> g' l = Some o.
Lemma k_refl g : kept g g. Proof. intros l o H. exact H. Qed.
Lemma k_trans g1 g2 g3 : kept g1 g2 -> kept g2 g3 -> kept g1 g3.
Proof. intros A B l o H. apply B, A, H. Qed.
(** without the places [A] *)
Definition mask (A : loc -> bool) (g : contents) : contents := fun l => if A l then None else g l.
Lemma mask_kept A g g' : kept g g' -> kept (mask A g) (mask A g').
Proof. unfold mask. intros K l o. destruct (A l); [discriminate|apply K]. Qed.
Lemma mask_less A A' g : (forall l, A' l = true -> A l = true) -> kept (mask A g) (mask A' g).
Proof. unfold mask. intros H l o. destruct (A l) eqn:E; [discriminate|]. destruct (A' l) eqn:E'; [apply H in E'; congruence|auto]. Qed.
Lemma mask_all A g : kept (mask A g) g.
Proof. unfold mask. intros l o. destruct (A l); [discriminate|auto]. Qed.
Definition also (r : loc) (A : loc -> bool) : loc -> bool := fun l => Nat.eqb l r || A l.
Lemma mask_put A r h o : kept (mask (also r A) (at_ h)) (mask (also r A) (at_ (put h r o))).
Proof.
  unfold mask, also. intros l o'. destruct (Nat.eqb l r) eqn:E; [discriminate|]. apply Nat.eqb_neq in E. cbn. destruct (A l); [discriminate|].
  rewrite put_other; auto.
Qed.

(** ** Reading *)
Lemma mapo_spec {A B} (f : A -> option B) l ys : mapo f l = Some ys <-> Forall2 (fun x y => f x = Some y) l ys.
Proof.
  split.
  - revert ys. induction l as [|x l IH]; cbn; intros ys; [intros [= <-]; constructor|].
    destruct (f x) as [y|] eqn:E; [|discriminate]. destruct (mapo f l) as [ys'|]; [|discriminate]. intros [= <-]. constructor; auto.
  - intro F. induction F as [|x y l ys E F IH]; cbn; [reflexivity|]. rewrite E, IH. reflexivity.
Qed.
Lemma mapo_imp {A B} (f g : A -> option B) l ys : (forall x y, In x l -> f x = Some y -> g x = Some y) -> mapo f l = Some ys -> mapo g l = Some ys.
Proof.
  revert ys. induction l as [|x l IH]; cbn; intros ys H; [auto|].
  destruct (f x) as [y|] eqn:E; [|discriminate]. destruct (mapo f l) as [ys'|] eqn:M; [|discriminate]. intros [= <-].
  rewrite (H x y (or_introl eq_refl) E). rewrite (IH ys'); [reflexivity| |reflexivity]. intros; apply H; [right|]; assumption.
Qed.

Lemma read_mono n n' h h' x v : n <= n' -> kept h h' -> read n h x = Some v -> read n' h' x = Some v.
Proof.
  intros L K. revert n' x v L. induction n as [|n IH]; intros n' x v L; (destruct x as [a|l]; [destruct n'; intro H; exact H|]); [discriminate|].
  destruct n' as [|n']; [lia|]. cbn [read]. destruct (h l) as [o|] eqn:E; [|discriminate]. rewrite (K l o E).
  assert (M : forall y a, read n h y = Some a -> read n' h' y = Some a) by (intros; apply IH; [lia|assumption]).
  assert (X : forall xs vs, mapo (read n h) xs = Some vs -> mapo (read n' h') xs = Some vs).
  { intros xs vs. apply mapo_imp. intros y a _. apply M. }
  assert (F : forall fs vs, mapo (fun kx : string * href => option_map (pair (fst kx)) (read n h (snd kx))) fs = Some vs ->
     mapo (fun kx : string * href => option_map (pair (fst kx)) (read n' h' (snd kx))) fs = Some vs).
  { intros fs vs. apply mapo_imp. intros [k y] a _. cbn [fst snd]. destruct (read n h y) as [b|] eqn:Q; [|discriminate]. rewrite (M y b Q). auto. }
  destruct o as [xs|xs|xs|xs|d|c fs|c fs|c m y|fs].
  - destruct (mapo (read n h) xs) as [vs|] eqn:Q; [|discriminate]. rewrite (X xs vs Q). auto.
  - destruct (mapo (read n h) xs) as [vs|] eqn:Q; [|discriminate]. rewrite (X xs vs Q). auto.
  - destruct (mapo (read n h) xs) as [vs|] eqn:Q; [|discriminate]. rewrite (X xs vs Q). auto.
  - destruct (mapo (read n h) xs) as [vs|] eqn:Q; [|discriminate]. rewrite (X xs vs Q). auto.
  - match goal with |- option_map _ (mapo ?f d) = _ -> option_map _ (mapo ?g d) = _ => destruct (mapo f d) as [vs|] eqn:Q; [|discriminate];
      rewrite (mapo_imp f g d vs); [auto| |exact Q] end.
    intros [k y] a _. cbn [fst snd]. destruct (read n h k) as [b|] eqn:Qk; [|discriminate]. destruct (read n h y) as [b'|] eqn:Qy; [|discriminate].
    rewrite (M k b Qk), (M y b' Qy). auto.
  - match goal with |- option_map _ (mapo ?f fs) = _ -> _ => destruct (mapo f fs) as [vs|] eqn:Q; [|discriminate] end. rewrite (F fs vs Q). auto.
  - match goal with |- option_map _ (mapo ?f fs) = _ -> _ => destruct (mapo f fs) as [vs|] eqn:Q; [|discriminate] end. rewrite (F fs vs Q). auto.
  - destruct (read n h y) as [b|] eqn:Q; [|discriminate]. rewrite (M y b Q). auto.
  - match goal with |- option_map _ (mapo ?f fs) = _ -> _ => destruct (mapo f fs) as [vs|] eqn:Q; [|discriminate] end. rewrite (F fs vs Q). auto.
Qed.
Lemma read_det n n' h x v v' : read n h x = Some v -> read n' h x = Some v' -> v = v'.
Proof.
  intros A B. apply (read_mono n (Nat.max n n') h h) in A; [|lia|apply k_refl]. apply (read_mono n' (Nat.max n n') h h) in B; [|lia|apply k_refl]. congruence.
Qed.

(** what the ob at [l] consists of *)
Inductive tells (R : href -> value -> Prop) : hobj -> value -> Prop :=
| tl_list xs vs : Forall2 R xs vs -> tells R (HList xs) (VList vs)
| tl_tuple xs vs : Forall2 R xs vs -> tells R (HTuple xs) (VTuple vs)
| tl_set xs vs : Forall2 R xs vs -> tells R (HSet xs) (VSet vs)
| tl_frozen xs vs : Forall2 R xs vs -> tells R (HFrozen xs) (VFrozen vs)
| tl_dict d vd : Forall2 (fun a b => R (fst a) (fst b) /\ R (snd a) (snd b)) d vd -> tells R (HDict d) (VDict vd)
| tl_nt c fs vs : Forall2 (fun a b => fst a = fst b /\ R (snd a) (snd b)) fs vs -> tells R (HNT c fs) (VNT c vs)
| tl_obj c fs vs : Forall2 (fun a b => fst a = fst b /\ R (snd a) (snd b)) fs vs -> tells R (HObj c fs) (VObj c vs)
| tl_enum c m y a : R y a -> tells R (HEnum c m y) (VEnum c m a)
| tl_ns fs vs : Forall2 (fun a b => fst a = fst b /\ R (snd a) (snd b)) fs vs -> tells R (HNamespace fs) (VNamespace vs).

Lemma F2i {A B} (R R' : A -> B -> Prop) l l' : (forall a b, R a b -> R' a b) -> Forall2 R l l' -> Forall2 R' l l'.
Proof. intros H F. induction F; constructor; auto. Qed.

Lemma read_at n h l v : read n h (HR l) = Some v ->
  exists o n', n = S n' /\ h l = Some o /\ tells (fun y a => read n' h y = Some a) o v.
Proof.
  destruct n as [|n]; [discriminate|]. cbn [read]. destruct (h l) as [o|]; [|discriminate]. intro H. exists o, n. split; [reflexivity|]. split; [reflexivity|].
  assert (F : forall fs vs, mapo (fun kx : string * href => option_map (pair (fst kx)) (read n h (snd kx))) fs = Some vs ->
     Forall2 (fun a b => fst a = fst b /\ read n h (snd a) = Some (snd b)) fs vs).
  { intros fs vs M. apply mapo_spec in M. eapply F2i; [|exact M]. intros [k y] [k' a]. cbn. destruct (read n h y); [|discriminate]. intros [= <- <-]. auto. }
  destruct o as [xs|xs|xs|xs|d|c fs|c fs|c m y|fs].
  1-4: destruct (mapo (read n h) xs) as [vs|] eqn:Q; [|discriminate]; injection H as <-; constructor; apply mapo_spec in Q; exact Q.
  - match type of H with option_map _ (mapo ?f d) = _ => destruct (mapo f d) as [vs|] eqn:Q; [|discriminate] end. injection H as <-. constructor.
    apply mapo_spec in Q. eapply F2i; [|exact Q]. intros [k y] [a b]. cbn. destruct (read n h k); [|discriminate]. destruct (read n h y); [|discriminate]. intros [= <- <-]. auto.
  - match type of H with option_map _ (mapo ?f fs) = _ => destruct (mapo f fs) as [vs|] eqn:Q; [|discriminate] end. injection H as <-. constructor. apply F. exact Q.
  - match type of H with option_map _ (mapo ?f fs) = _ => destruct (mapo f fs) as [vs|] eqn:Q; [|discriminate] end. injection H as <-. constructor. apply F. exact Q.
  - destruct (read n h y) eqn:Q; [|discriminate]. injection H as <-. constructor. exact Q.
  - match type of H with option_map _ (mapo ?f fs) = _ => destruct (mapo f fs) as [vs|] eqn:Q; [|discriminate] end. injection H as <-. constructor. apply F. exact Q.
Qed.

Definition ob (g : contents) (x : href) (v : value) : Prop := exists n, read n g x = Some v.
Lemma ob_all h xs vs : Forall2 (ob h) xs vs -> exists n, Forall2 (fun x v => read n h x = Some v) xs vs.
Proof.
  intro F. induction F as [|x v xs vs [n R] F [n' IH]]; [exists 0; constructor|].
  exists (Nat.max n n'). constructor; [eapply read_mono; [|apply k_refl|exact R]; lia|].
  eapply F2i; [|exact IH]. intros a b Q. eapply read_mono; [|apply k_refl|exact Q]; lia.
Qed.
Lemma ob_list h l xs vs : h l = Some (HList xs) -> Forall2 (ob h) xs vs -> ob h (HR l) (VList vs).
Proof.
  intros E F. destruct (ob_all _ _ _ F) as [n G]. exists (S n). cbn [read]. rewrite E.
  apply mapo_spec in G. rewrite G. reflexivity.
Qed.
Lemma ob_dict h l d vd : h l = Some (HDict d) ->
  Forall2 (fun a b => ob h (fst a) (fst b) /\ ob h (snd a) (snd b)) d vd -> ob h (HR l) (VDict vd).
Proof.
  intros E F. assert (G : exists n, Forall2 (fun a b => read n h (fst a) = Some (fst b) /\ read n h (snd a) = Some (snd b)) d vd).
  { clear E. induction F as [|x v xs vs [[n1 R1] [n2 R2]] F [n' IH]]; [exists 0; constructor|].
    exists (Nat.max (Nat.max n1 n2) n'). constructor.
    - split; (eapply read_mono; [|apply k_refl|eassumption]; lia).
    - eapply F2i; [|exact IH]. intros a b [Q1 Q2]. split; (eapply read_mono; [|apply k_refl|eassumption]; lia). }
  destruct G as [n G]. exists (S n). cbn [read]. rewrite E.
  match goal with |- option_map _ (mapo ?f d) = _ => assert (M : mapo f d = Some vd); [|rewrite M; reflexivity] end.
  apply mapo_spec. eapply F2i; [|exact G]. intros [k y] [a b] [Q1 Q2]. cbn in *. rewrite Q1, Q2. reflexivity.
Qed.
Lemma ob_kept h h' x v : kept h h' -> ob h x v -> ob h' x v.
Proof. intros K [n R]. exists n. eapply read_mono; [apply le_n|exact K|exact R]. Qed.

(** ** The parts of the results *)
Definition made_all h (P : href -> list loc -> Prop) (R : forall y ls, made_of h y ls -> P y ls) :=
  fix go xs lss (F : Forall2 (made_of h) xs lss) {struct F} : Forall2 P xs lss :=
  match F with
  | Forall2_nil _ => Forall2_nil _
  | Forall2_cons _ _ M F' => Forall2_cons _ _ (R _ _ M) (go _ _ F')
  end.
Lemma made_ind h (P : href -> list loc -> Prop)
  (Ps : forall v, scalar v = true -> P (HV v) [])
  (Pl : forall l xs lss, nth_error h l = Some (HList xs) -> Forall2 (made_of h) xs lss -> Forall2 P xs lss -> P (HR l) (l :: List.concat lss))
  (Pd : forall l d lss, nth_error h l = Some (HDict d) -> (forall k y, In (k, y) d -> exists a, k = HV a /\ scalar a = true) ->
     Forall2 (made_of h) (map snd d) lss -> Forall2 P (map snd d) lss -> P (HR l) (l :: List.concat lss)) :
  forall y ls, made_of h y ls -> P y ls.
Proof.
  fix R 3. intros y ls [v Q|l xs lss E F|l d lss E K F].
  - apply Ps. exact Q.
  - apply (Pl l xs lss E F). exact (made_all h P R _ _ F).
  - apply (Pd l d lss E K F). exact (made_all h P R _ _ F).
Qed.
Lemma F2_concat {A B} (R R' : A -> list B -> Prop) xs lss :
  Forall2 R xs lss -> (forall x ls, In ls lss -> R x ls -> R' x ls) -> Forall2 R' xs lss.
Proof. intros F H. induction F as [|x ls xs lss r F IH]; constructor; [apply H; [left; reflexivity|exact r]|]. apply IH. intros y l I. apply H. right. exact I. Qed.
Lemma in_concat_of {A} (x : A) ls lss : In ls lss -> In x ls -> In x (List.concat lss).
Proof. intros I J. apply in_concat. eauto. Qed.
Lemma made_kept h h' y ls : (forall l o, In l ls -> at_ h l = Some o -> at_ h' l = Some o) -> made_of h y ls -> made_of h' y ls.
Proof.
  intros K M. revert K. induction M as [v Q|l xs lss E F IH|l d lss E Ks F IH] using made_ind; intro K.
  - constructor. exact Q.
  - econstructor; [apply K; [left; reflexivity|exact E]|]. apply (F2_concat _ _ _ _ IH). intros x ls I H. apply H.
    intros l0 o J. apply K. right. eapply in_concat_of; eassumption.
  - eapply mo_dict; [apply K; [left; reflexivity|exact E]|exact Ks|]. apply (F2_concat _ _ _ _ IH). intros x ls I H. apply H.
    intros l0 o J. apply K. right. eapply in_concat_of; eassumption.
Qed.
Lemma F2_in_r {A B} (R : A -> B -> Prop) xs ys y : Forall2 R xs ys -> In y ys -> exists x, In x xs /\ R x y.
Proof. intro F. induction F as [|a b xs ys r F IH]; [contradiction|]. intros [<-|I]; [exists a; split; [left|]; auto|]. destruct (IH I) as [x [J Q]]. exists x. split; [right|]; auto. Qed.
Lemma made_there h y ls l : made_of h y ls -> In l ls -> l < List.length h.
Proof.
  intro M. revert l. induction M as [v Q|l xs lss E F IH|l d lss E Ks F IH] using made_ind; intros l0; [contradiction| |];
    (intros [<-|I]; [apply nth_error_Some; congruence|]; apply in_concat in I as [ls [I J]]; destruct (F2_in_r _ _ _ _ IH I) as [x [_ H]]; apply H; exact J).
Qed.
Lemma NoDup_app_in {A} (l l' : list A) : NoDup l -> NoDup l' -> (forall x, In x l -> ~ In x l') -> NoDup (l ++ l').
Proof.
  intros N N' D. induction N as [|x l I N IH]; cbn; [exact N'|]. constructor.
  - intro J. apply in_app_or in J as [J|J]; [exact (I J)|]. exact (D x (or_introl eq_refl) J).
  - apply IH. intros y J. apply D. right. exact J.
Qed.
Lemma NoDup_app_l {A} (l l' : list A) : NoDup (l ++ l') -> NoDup l.
Proof. induction l as [|x l IH]; cbn; intro N; [constructor|]. inversion N as [|y z I M]; subst. constructor; [|apply IH; exact M]. intro J. apply I. apply in_or_app. auto. Qed.
Lemma NoDup_app_r {A} (l l' : list A) : NoDup (l ++ l') -> NoDup l'.
Proof. induction l as [|x l IH]; cbn; intro N; [exact N|]. inversion N; subst. apply IH. assumption. Qed.
Lemma NoDup_app_d {A} (l l' : list A) x : NoDup (l ++ l') -> In x l -> ~ In x l'.
Proof.
  induction l as [|y l IH]; cbn; intros N I J; [contradiction|]. inversion N as [|a b I' M]; subst. destruct I as [->|I].
  - apply I'. apply in_or_app. auto.
  - exact (IH M I J).
Qed.

Section HDump.
  Variable w : world.
  Variables basic strcons : list cid.
  Variable cfg : dconfig.
  Hypothesis Hstd : is_dstd w basic strcons cfg.
  Variable m : nat.
  Variable cl : Prop.
  Notation dcoh := (dcoh w cfg).

  (** what the annotation and the basic types must be for the result to be new *)
  Definition clean (v : value) (t : ty) : Prop :=
    (forall x, within v x -> In (type_of x) basic -> scalar x = true) /\
    annotations_hold w basic v /\ ann_ok basic v t.
  Definition okv (v : value) : Prop := python_value w v /\ forall x, within v x -> library_object w x.

  (** the object [y] of [h] is [a], without looking at the places [A] *)
  Definition okres (A : loc -> bool) (h : heap) (y : href) (a : value) : Prop :=
    ob (mask A (at_ h)) y a /\
    (read m (mask A (at_ h)) y = Some a \/
     exists l, y = HR l /\ ((exists xs, at_ h l = Some (HList xs)) \/ (exists d, at_ h l = Some (HDict d)))).
  Definition newer (b : nat) (h : heap) (y : href) : Prop :=
    exists ls, made_of h y ls /\ NoDup ls /\ forall l, In l ls -> b <= l.

  Definition sim {A B} (h0 : heap) (R : A -> B -> heap -> Prop) (out : res A * (dstate * heap)) (p : res B * dstate) : Prop :=
    fst (snd out) = snd p /\ dcoh (snd p) /\ kept_in h0 (snd (snd out)) /\
    match fst out, fst p with
    | Ok y, Ok a => R y a (snd (snd out))
    | Exc e, Exc e' => e = e'
    | OOF, OOF => True
    | _, _ => False
    end.
  Lemma sim_bind {A B A' B'} h0 h1 (R : A -> B -> heap -> Prop) (R' : A' -> B' -> heap -> Prop) hm dm f g s h :
    kept_in h0 h1 ->
    sim h1 R (hm (s, h)) (dm s) ->
    (forall y a s' h', dcoh s' -> kept_in h1 h' -> R y a h' -> sim h0 R' (f y (s', h')) (g a s')) ->
    sim h0 R' (bind hm f (s, h)) (bind dm g s).
  Proof using.
    intros K0 [E [C [K H]]] F. unfold bind. destruct (hm (s, h)) as [[y|e|] [s1 h2]]; destruct (dm s) as [[a|e'|] s2]; cbn [fst snd] in *; try contradiction.
    - subst s2. exact (F y a s1 h2 C K H).
    - subst. split; [reflexivity|]. split; [exact C|]. split; [eapply kept_trans; eassumption|reflexivity].
    - subst. split; [reflexivity|]. split; [exact C|]. split; [eapply kept_trans; eassumption|exact Logic.I].
  Qed.
  Lemma sim_ret {A B} h0 (R : A -> B -> heap -> Prop) y a s h : dcoh s -> kept_in h0 h -> R y a h -> sim h0 R (ret y (s, h)) (ret a s).
  Proof using. intros C K H. split; [reflexivity|]. split; [exact C|]. split; [exact K|exact H]. Qed.
  Lemma sim_raise {A B} h0 (R : A -> B -> heap -> Prop) e s h : dcoh s -> kept_in h0 h -> sim h0 R (raise e (s, h)) (raise e s).
  Proof using. intros C K. split; [reflexivity|]. split; [exact C|]. split; [exact K|reflexivity]. Qed.

  Definition fine (A : loc -> bool) (h0 : heap) : res href * (dstate * heap) -> res value * dstate -> Prop :=
    sim h0 (fun y a h' => okres A h' y a /\ (cl -> newer (List.length h0) h' y)).

  (** looking at an object *)
  Lemma look_bind {A} (f : value -> HM A) x v s h : read m (at_ h) x = Some v -> bind (look m x) f (s, h) = f v (s, h).
  Proof using. intro E. unfold bind, look, the_heap, bind, budget. cbn [snd]. rewrite E. reflexivity. Qed.
  Lemma heap_bind {A} (f : heap -> HM A) s h : bind the_heap f (s, h) = f h (s, h).
  Proof using. reflexivity. Qed.
  Lemma read_all A h x v : read m (mask A (at_ h)) x = Some v -> read m (at_ h) x = Some v.
  Proof using. apply read_mono; [apply le_n|apply mask_all]. Qed.

  Lemma lift_bind {St A B} (a : A) (f : A -> MS St B) s : bind (lift (POk a)) f s = f a s.
  Proof using. reflexivity. Qed.

  (** the attributes *)
  Lemma str_get_F2 f (R : href -> value -> Prop) fs vs : Forall2 (fun a b => fst a = fst b /\ R (snd a) (snd b)) fs vs ->
    match str_get f vs with
    | Some a => exists y, str_get f fs = Some y /\ R y a
    | None => str_get f fs = None
    end.
  Proof using.
    intro F. induction F as [|[k y] [k' a] fs vs [Q r] F IH]; cbn; [reflexivity|]. cbn in Q, r. subst k'.
    destruct (String.eqb f k); [eauto|exact IH].
  Qed.
  Lemma getattr_read g h x v f : kept g (at_ h) -> read m g x = Some v ->
    match getattr v f with
    | POk a => exists y, hgetattr h x f = POk y /\ read m g y = Some a
    | PExc r => hgetattr h x f = PExc r
    end.
  Proof using.
    intros K E. destruct x as [a|l].
    - assert (Q : v = a /\ scalar a = true). { destruct m; cbn in E; destruct (scalar a) eqn:Z; try discriminate; injection E as <-; split; auto. }
      destruct Q as [-> Z]. unfold hgetattr, fields_of. cbn. destruct a; try discriminate Z; reflexivity.
    - destruct (read_at _ _ _ _ E) as [o [n' [Em [G T]]]]. unfold hgetattr, fields_of. rewrite (K _ _ G).
      assert (Up : forall y a, read n' g y = Some a -> read m g y = Some a).
      { intros y a. apply read_mono; [lia|apply k_refl]. }
      inversion T as [xs vs F|xs vs F|xs vs F|xs vs F|d vd F|c fs vs F|c fs vs F|c mm y a F|fs vs F]; subst; cbn; try reflexivity;
        (pose proof (str_get_F2 f (fun y b => read n' g y = Some b) fs vs F) as X; destruct (str_get f vs) as [a|];
         [destruct X as [y [X1 X2]]; rewrite X1; exists y; split; [reflexivity|apply Up; exact X2]|rewrite X; reflexivity]).
  Qed.

  (** ** The dictionary under construction *)
  Definition dinv (A : loc -> bool) (h0 : heap) (r : loc) (h : heap) (acc : list (value * value)) : Prop :=
    kept_in h0 h /\ List.length h0 <= r /\
    exists d, at_ h r = Some (HDict d) /\
      Forall2 (fun a b => read m (mask (also r A) (at_ h)) (fst a) = Some (fst b) /\ ob (mask (also r A) (at_ h)) (snd a) (snd b)) d acc /\
      (cl -> (forall k y, In (k, y) d -> exists a, k = HV a /\ scalar a = true) /\
             exists lss, Forall2 (made_of h) (map snd d) lss /\ NoDup (List.concat lss) /\ forall l, In l (List.concat lss) -> r < l).
  Definition linv (A : loc -> bool) (h0 : heap) (r : loc) (h : heap) (acc : list value) : Prop :=
    kept_in h0 h /\ List.length h0 <= r /\
    exists d, at_ h r = Some (HList d) /\ Forall2 (ob (mask (also r A) (at_ h))) d acc /\
      (cl -> exists lss, Forall2 (made_of h) d lss /\ NoDup (List.concat lss) /\ forall l, In l (List.concat lss) -> r < l).

  Lemma alloc_there (h : heap) o : nth_error (h ++ [o]) (List.length h) = Some o.
  Proof using. rewrite nth_error_app2, Nat.sub_diag; [reflexivity|apply le_n]. Qed.
  Lemma dinv_alloc A h0 h : kept_in h0 h -> dinv A h0 (List.length h) (h ++ [HDict []]) [].
  Proof using.
    intro K. split; [eapply kept_trans; [exact K|apply kept_alloc]|]. split; [apply kept_length; exact K|].
    exists []. split; [apply alloc_there|]. split; [constructor|]. intros _. split; [intros k y []|]. exists []. split; [constructor|]. split; [constructor|intros l []].
  Qed.
  Lemma linv_alloc A h0 h : kept_in h0 h -> linv A h0 (List.length h) (h ++ [HList []]) [].
  Proof using.
    intro K. split; [eapply kept_trans; [exact K|apply kept_alloc]|]. split; [apply kept_length; exact K|].
    exists []. split; [apply alloc_there|]. split; [constructor|]. intros _. exists []. split; [constructor|]. split; [constructor|intros l []].
  Qed.
  Lemma dinv_kept A h0 r h h' acc : kept_in h h' -> dinv A h0 r h acc -> dinv A h0 r h' acc.
  Proof using.
    intros K [K0 [L [d [E [F C]]]]]. split; [eapply kept_trans; eassumption|]. split; [exact L|]. exists d. split; [apply K; exact E|].
    assert (KM : kept (mask (also r A) (at_ h)) (mask (also r A) (at_ h'))) by (apply mask_kept; exact K).
    split.
    - eapply F2i; [|exact F]. intros a b [R1 R2]. split; [eapply read_mono; [apply le_n|exact KM|exact R1]|eapply ob_kept; eassumption].
    - intro c. destruct (C c) as [Ks [lss [M [N G]]]]. split; [exact Ks|]. exists lss. split; [|split; assumption].
      eapply F2i; [|exact M]. intros a b Q. apply (made_kept h h'); [|exact Q]. intros l o _. apply K.
  Qed.
  Lemma linv_kept A h0 r h h' acc : kept_in h h' -> linv A h0 r h acc -> linv A h0 r h' acc.
  Proof using.
    intros K [K0 [L [d [E [F C]]]]]. split; [eapply kept_trans; eassumption|]. split; [exact L|]. exists d. split; [apply K; exact E|].
    assert (KM : kept (mask (also r A) (at_ h)) (mask (also r A) (at_ h'))) by (apply mask_kept; exact K).
    split.
    - eapply F2i; [|exact F]. intros a b R2. eapply ob_kept; eassumption.
    - intro c. destruct (C c) as [lss [M [N G]]]. exists lss. split; [|split; assumption].
      eapply F2i; [|exact M]. intros a b Q. apply (made_kept h h'); [|exact Q]. intros l o _. apply K.
  Qed.
  Definition below (A : loc -> bool) (h : heap) : Prop := forall l, A l = true -> l < List.length h.
  Lemma dinv_fine A h0 r h acc : below A h0 -> dinv A h0 r h acc ->
    okres A h (HR r) (VDict acc) /\ (cl -> newer (List.length h0) h (HR r)).
  Proof using.
    intros B [K0 [L [d [E [F C]]]]].
    assert (Ar : A r = false). { destruct (A r) eqn:Q; [apply B in Q; lia|reflexivity]. }
    assert (KM : kept (mask (also r A) (at_ h)) (mask A (at_ h))).
    { apply mask_less. intros l Q. unfold also. rewrite Q. apply orb_true_r. }
    split; [split|].
    - apply ob_dict with (d := d); [unfold mask; rewrite Ar; exact E|]. eapply F2i; [|exact F]. intros a b [R1 R2].
      split; [eapply ob_kept; [exact KM|]; exists m; exact R1|eapply ob_kept; eassumption].
    - right. exists r. split; [reflexivity|]. right. exists d. exact E.
    - intro c. destruct (C c) as [Ks [lss [M [N G]]]]. exists (r :: List.concat lss). split; [eapply mo_dict; eassumption|]. split.
      + constructor; [|exact N]. intro I. apply G in I. lia.
      + intros l [<-|I]; [exact L|]. apply G in I. lia.
  Qed.
  Lemma linv_fine A h0 r h acc : below A h0 -> linv A h0 r h acc ->
    okres A h (HR r) (VList acc) /\ (cl -> newer (List.length h0) h (HR r)).
  Proof using.
    intros B [K0 [L [d [E [F C]]]]].
    assert (Ar : A r = false). { destruct (A r) eqn:Q; [apply B in Q; lia|reflexivity]. }
    assert (KM : kept (mask (also r A) (at_ h)) (mask A (at_ h))).
    { apply mask_less. intros l Q. unfold also. rewrite Q. apply orb_true_r. }
    split; [split|].
    - apply ob_list with (xs := d); [unfold mask; rewrite Ar; exact E|]. eapply F2i; [|exact F]. intros a b R2. eapply ob_kept; eassumption.
    - right. exists r. split; [reflexivity|]. left. exists d. exact E.
    - intro c. destruct (C c) as [lss [M [N G]]]. exists (r :: List.concat lss). split; [eapply mo_list; eassumption|]. split.
      + constructor; [|exact N]. intro I. apply G in I. lia.
      + intros l [<-|I]; [exact L|]. apply G in I. lia.
  Qed.
  (** the inputs of the parts are still there *)
  Lemma input_kept A h0 r h : kept_in h0 h -> List.length h0 <= r -> kept (mask A (at_ h0)) (mask (also r A) (at_ h)).
  Proof using.
    intros K L l o. unfold mask, also. destruct (A l); [discriminate|]. intro E. assert (l < List.length h0) by (apply nth_error_Some; congruence).
    destruct (Nat.eqb_spec l r); [lia|]. cbn. apply K. exact E.
  Qed.
  Lemma also_below A h0 r h acc : below A h0 -> dinv A h0 r h acc -> below (also r A) h.
  Proof using.
    intros B [K0 [L [d [E _]]]] l. unfold also. destruct (Nat.eqb_spec l r) as [->|_]; intro Q.
    - apply nth_error_Some. congruence.
    - apply B in Q. apply kept_length in K0. lia.
  Qed.
  Lemma also_below_l A h0 r h acc : below A h0 -> linv A h0 r h acc -> below (also r A) h.
  Proof using.
    intros B [K0 [L [d [E _]]]] l. unfold also. destruct (Nat.eqb_spec l r) as [->|_]; intro Q.
    - apply nth_error_Some. congruence.
    - apply B in Q. apply kept_length in K0. lia.
  Qed.

  Lemma hdict_set_spec h g k y a b d acc : kept g (at_ h) -> read m g k = Some a -> ob g y b ->
    Forall2 (fun p q => read m g (fst p) = Some (fst q) /\ ob g (snd p) (snd q)) d acc ->
    exists d', hdict_set m h k y d = Some d' /\
      Forall2 (fun p q => read m g (fst p) = Some (fst q) /\ ob g (snd p) (snd q)) d' (dict_set a b acc) /\
      ((exists v, k = HV v /\ scalar v = true) -> (forall k1 y1, In (k1, y1) d -> exists v, k1 = HV v /\ scalar v = true) ->
         forall k1 y1, In (k1, y1) d' -> exists v, k1 = HV v /\ scalar v = true) /\
      (forall ls lss, made_of h y ls -> NoDup ls -> Forall2 (made_of h) (map snd d) lss -> NoDup (List.concat lss) ->
         (forall l, In l ls -> ~ In l (List.concat lss)) ->
         exists lss', Forall2 (made_of h) (map snd d') lss' /\ NoDup (List.concat lss') /\
           forall l, In l (List.concat lss') -> In l ls \/ In l (List.concat lss)).
  Proof using.
    intros K Rk Ry F. induction F as [|[k1 y1] [a1 b1] d acc [R1 R2] F [d' [E [G [Ks Ls]]]]]; cbn [hdict_set dict_set].
    - exists [(k, y)]. split; [reflexivity|]. split; [constructor; [split; assumption|constructor]|]. split.
      + intros Hk _ k1 y1 [[= <- <-]|[]]. exact Hk.
      + intros ls lss M N F N' D. exists [ls]. split; [constructor; [exact M|constructor]|]. cbn. rewrite app_nil_r. split; [exact N|auto].
    - cbn [fst snd] in R1, R2. rewrite (read_mono m m g (at_ h) k a (le_n m) K Rk), (read_mono m m g (at_ h) k1 a1 (le_n m) K R1). destruct (py_eqb a a1) eqn:Q.
      + exists ((k1, y) :: d). split; [reflexivity|]. split; [constructor; [split; assumption|exact F]|]. split.
        * intros _ H k2 y2 [[= <- <-]|I]; [apply (H k1 y1); left; reflexivity|apply (H k2 y2); right; exact I].
        * intros ls lss M N FM N' D. cbn [map snd] in FM. inversion FM as [|? l1 ? lss1 M1 FM1]; subst. cbn [List.concat] in *.
          exists (ls :: lss1). cbn [map snd List.concat]. split; [constructor; assumption|]. split.
          -- apply NoDup_app_in; [exact N|eapply NoDup_app_r; exact N'|]. intros l I J. apply (D l I). apply in_or_app. auto.
          -- intros l I. apply in_app_or in I as [I|I]; [auto|]. right. apply in_or_app. auto.
      + rewrite E. exists ((k1, y1) :: d'). split; [reflexivity|]. split; [constructor; [split; assumption|exact G]|]. split.
        * intros Hk H k2 y2 [[= <- <-]|I]; [apply (H k1 y1); left; reflexivity|]. apply (Ks Hk) with (y1 := y2); [|exact I]. intros k3 y3 J. apply (H k3 y3). right. exact J.
        * intros ls lss M N FM N' D. cbn [map snd] in FM. inversion FM as [|? l1 ? lss1 M1 FM1]; subst. cbn [List.concat] in *.
          destruct (Ls ls lss1 M N FM1 (NoDup_app_r _ _ N')) as [lss' [FM' [N2 I2]]].
          { intros l I J. apply (D l I). apply in_or_app. auto. }
          exists (l1 :: lss'). cbn [map snd List.concat]. split; [constructor; assumption|]. split.
          -- apply NoDup_app_in; [eapply NoDup_app_l; exact N'|exact N2|]. intros l I J. apply I2 in J as [J|J].
             ++ apply (D l J). apply in_or_app. auto.
             ++ exact (NoDup_app_d _ _ _ N' I J).
          -- intros l I. apply in_app_or in I as [I|I]; [right; apply in_or_app; auto|]. apply I2 in I as [I|I]; [auto|]. right. apply in_or_app. auto.
  Qed.

  (** r[k] = y: [h] the heap before y was computed, [h'] after *)
  Lemma step_set A h0 r h h' acc k a y b :
    below A h0 -> dinv A h0 r h acc -> kept_in h h' ->
    read m (mask (also r A) (at_ h')) k = Some a -> (cl -> exists v, k = HV v /\ scalar v = true) ->
    okres (also r A) h' y b -> (cl -> newer (List.length h) h' y) ->
    exists h2, (forall s, set_item m r k y (s, h') = (Ok tt, (s, h2))) /\ dinv A h0 r h2 (dict_set a b acc).
  Proof using.
    intros B I K Rk Ck [Oy _] Cy. pose proof (dinv_kept _ _ _ _ _ _ K I) as [K0 [L [d [E [F C]]]]].
    destruct (hdict_set_spec h' (mask (also r A) (at_ h')) k y a b d acc (mask_all _ _) Rk Oy F) as [d' [E' [G [Ks Ls]]]].
    exists (put h' r (HDict d')). split.
    - intro s. unfold set_item. rewrite heap_bind. rewrite E. unfold bind, budget. rewrite E'. reflexivity.
    - assert (Lr : r < List.length h') by (apply nth_error_Some; congruence).
      split; [apply kept_put; assumption|]. split; [exact L|]. exists d'. split; [apply put_same; exact Lr|].
      pose proof (mask_put A r h' (HDict d')) as KM. split.
      + eapply F2i; [|exact G]. intros p q [R1 R2]. split; [eapply read_mono; [apply le_n|exact KM|exact R1]|eapply ob_kept; eassumption].
      + intro c. destruct (C c) as [Hk [lss [M [N Gt]]]]. split; [exact (Ks (Ck c) Hk)|].
        destruct (Cy c) as [ls [My [Ny By]]].
        assert (Lh : r < List.length h). { destruct I as [_ [_ [d0 [E0 _]]]]. apply nth_error_Some. congruence. }
        destruct I as [_ [_ [d0 [E0 [_ C0]]]]]. destruct (C0 c) as [_ [lss0 [M0 [N0 G0]]]].
        pose proof (K _ _ E0) as E0'. rewrite E in E0'. injection E0' as <-.
        assert (M0' : Forall2 (made_of h') (map snd d) lss0).
        { eapply F2i; [|exact M0]. intros p q Q. apply (made_kept h h'); [|exact Q]. intros l o _. apply K. }
        destruct (Ls ls lss0 My Ny M0' N0) as [lss' [M' [N' I']]].
        { intros l J J'. apply By in J. apply in_concat in J' as [l1 [J1 J2]]. destruct (F2_in_r _ _ _ _ M0 J1) as [z [_ Mz]].
          apply (made_there _ _ _ _ Mz) in J2. lia. }
        assert (Gt' : forall l, In l (List.concat lss') -> r < l).
        { intros l J. apply I' in J as [J|J]; [apply By in J; lia|apply G0; exact J]. }
        exists lss'. split; [|split; assumption].
        apply (F2_concat _ _ _ _ M'). intros z l1 J1 Mz. apply (made_kept h'); [|exact Mz]. intros l o J2 El. rewrite put_other; [exact El|].
        pose proof (Gt' l (in_concat_of _ _ _ J1 J2)). lia.
  Qed.
  Lemma step_append A h0 r h h' acc y b :
    below A h0 -> linv A h0 r h acc -> kept_in h h' ->
    okres (also r A) h' y b -> (cl -> newer (List.length h) h' y) ->
    exists h2, (forall s, append r y (s, h') = (Ok tt, (s, h2))) /\ linv A h0 r h2 (acc ++ [b]).
  Proof using.
    intros B I K [Oy _] Cy. pose proof (linv_kept _ _ _ _ _ _ K I) as [K0 [L [d [E [F C]]]]].
    exists (put h' r (HList (d ++ [y]))). split.
    - intro s. unfold append. rewrite heap_bind. rewrite E. reflexivity.
    - assert (Lr : r < List.length h') by (apply nth_error_Some; congruence).
      split; [apply kept_put; assumption|]. split; [exact L|]. exists (d ++ [y]). split; [apply put_same; exact Lr|].
      pose proof (mask_put A r h' (HList (d ++ [y]))) as KM. split.
      + apply Forall2_app; [|constructor; [eapply ob_kept; eassumption|constructor]]. eapply F2i; [|exact F]. intros p q R2. eapply ob_kept; eassumption.
      + intro c. destruct (Cy c) as [ls [My [Ny By]]].
        destruct I as [_ [_ [d0 [E0 [_ C0]]]]]. destruct (C0 c) as [lss0 [M0 [N0 G0]]].
        pose proof (K _ _ E0) as E0'. rewrite E in E0'. injection E0' as <-.
        assert (Lh : r < List.length h) by (apply nth_error_Some; congruence).
        assert (Sp : forall h2, (forall l o, r < l -> at_ h' l = Some o -> at_ h2 l = Some o) -> Forall2 (made_of h2) (d ++ [y]) (lss0 ++ [ls])).
        { intros h2 K2. apply Forall2_app.
          - apply (F2_concat _ _ _ _ M0). intros z l1 J1 Mz. apply (made_kept h h2); [|exact Mz]. intros l o J2 El. apply K2; [|apply K; exact El].
            apply G0. eapply in_concat_of; eassumption.
          - constructor; [|constructor]. apply (made_kept h' h2); [|exact My]. intros l o J2. apply K2. apply By in J2. lia. }
        exists (lss0 ++ [ls]). split; [apply Sp; intros l o Lt El; rewrite put_other; [exact El|lia]|].
        rewrite concat_app. cbn. rewrite app_nil_r. split.
        * apply NoDup_app_in; [exact N0|exact Ny|]. intros l J J'. apply By in J'. apply in_concat in J as [l1 [J1 J2]].
          destruct (F2_in_r _ _ _ _ M0 J1) as [z [_ Mz]]. apply (made_there _ _ _ _ Mz) in J2. lia.
        * intros l J. apply in_app_or in J as [J|J]; [apply G0; exact J|apply By in J; lia].
  Qed.

  (** ** The handlers *)
  Lemma okv_holds v x : okv v -> holds v x -> okv x.
  Proof using.
    intros [P L] H. split; [eapply pv_holds; eassumption|]. intros y I. apply L. eapply rt1n_trans; eassumption.
  Qed.
  Lemma clean_holds v t x t' : clean v t -> holds v x -> ann_ok basic x t' -> clean x t'.
  Proof using.
    intros [B [An _]] H O. split; [|split; [|exact O]].
    - intros y I. apply B. eapply rt1n_trans; eassumption.
    - intros c fs hs f t0 b n0 o x0 l y0 Hz. apply (An c fs hs f t0 b n0 o x0 l y0). eapply rt1n_trans; eassumption.
  Qed.
  Lemma ann_ok_any x : ann_ok basic x TAny.
  Proof using. intros l y _ B. discriminate. Qed.
  Lemma read_str g k : read m g (HV (VStr k)) = Some (VStr k).
  Proof using. destruct m; reflexivity. Qed.

  Section Body.
    Variable call : dhandler -> href -> ty -> HM href.
    Variable dcall : dhandler -> value -> ty -> DM value.
    Hypothesis Hc : forall A y a t s h, below A h -> dcoh s -> read m (mask A (at_ h)) y = Some a -> okv a -> (cl -> clean a t) ->
      fine A h (hdump_with cfg m call y t (s, h)) (dump_with cfg dcall a t s).

    Lemma item_step A h0 r h acc s y a t k rest prest :
      below A h0 -> dinv A h0 r h acc -> dcoh s -> read m (mask A (at_ h0)) y = Some a -> okv a -> (cl -> clean a t) ->
      (forall s' h2 b, dcoh s' -> dinv A h0 r h2 (dict_set (VStr k) b acc) -> fine A h0 (rest (s', h2)) (prest (dict_set (VStr k) b acc) s')) ->
      fine A h0 (bind (hdump_with cfg m call y t) (fun z => bind (set_item m r (HV (VStr k)) z) (fun _ => rest)) (s, h))
                (bind (dump_with cfg dcall a t) (fun b => prest (dict_set (VStr k) b acc)) s).
    Proof using Hc.
      intros B I C R V Cl Hr. pose proof I as [K0 [L _]].
      eapply sim_bind; [exact K0|apply (Hc (also r A)); [eapply also_below; eassumption|exact C| |exact V|exact Cl]|].
      - eapply read_mono; [apply le_n|apply input_kept; eassumption|exact R].
      - intros z b s' h' C' K' [O Nw].
        destruct (step_set A h0 r h h' acc (HV (VStr k)) (VStr k) z b B I K') as [h2 [E I2]]; [apply read_str|intros _; eauto|exact O|exact Nw|].
        unfold bind. rewrite E. exact (Hr s' h2 b C' I2).
    Qed.

    Lemma dinv_done A h0 r h acc s : below A h0 -> dinv A h0 r h acc -> dcoh s -> fine A h0 (ret (HR r) (s, h)) (ret (VDict acc) s).
    Proof using. intros B I C. apply sim_ret; [exact C|apply I|apply dinv_fine; assumption]. Qed.

    Lemma attr_sim A h0 x v : below A h0 -> read m (mask A (at_ h0)) x = Some v -> okv v -> (cl -> forall a, holds v a -> clean a TAny) ->
      forall fs r h acc s, dinv A h0 r h acc -> dcoh s ->
      fine A h0 (hattr_loop cfg m call x r fs (s, h)) (attr_loop cfg dcall v fs acc s).
    Proof using Hc.
      intros B R V Cl. induction fs as [|f fs IH]; intros r h acc s I C; cbn [hattr_loop attr_loop]; [apply dinv_done; assumption|].
      rewrite heap_bind. pose proof I as [K0 [L _]].
      assert (KM : kept (mask A (at_ h0)) (at_ h)) by (eapply k_trans; [apply mask_all|exact K0]).
      pose proof (getattr_read _ h x v (f_name f) KM R) as G. destruct (getattr v (f_name f)) as [a|e] eqn:Ea.
      - destruct G as [y [-> Ry]]. rewrite !lift_bind.
        destruct (negb (f_repr f)); [apply IH; assumption|].
        rewrite (look_bind _ y a) by (eapply read_mono; [apply le_n|exact KM|exact Ry]).
        destruct (attr_hidden cfg f a) as [[|]|e]; unfold lift.
        + apply (IH r h acc s I C).
        + pose proof (getattr_holds _ _ _ Ea) as Ha.
          apply (item_step A h0 r h acc s y a TAny (ext_name cfg f) (hattr_loop cfg m call x r fs) (attr_loop cfg dcall v fs) B I C Ry (okv_holds _ _ V Ha) (fun c => Cl c a Ha)).
          intros s' h2 b C' I'. apply IH; assumption.
        + apply sim_raise; [exact C|exact K0].
      - rewrite G. apply sim_raise; [exact C|exact K0].
    Qed.

    Lemma nt_sim A h0 ds : below A h0 ->
      forall fs vs, Forall2 (fun p q => fst p = fst q /\ read m (mask A (at_ h0)) (snd p) = Some (snd q)) fs vs ->
      (forall f a, In (f, a) vs -> okv a /\ (cl -> clean a TAny)) ->
      forall r h acc s, dinv A h0 r h acc -> dcoh s ->
      fine A h0 (hnt_loop cfg m call r ds fs (s, h)) (nt_loop cfg dcall ds vs acc s).
    Proof using Hc.
      intros B fs vs F. induction F as [|[k y] [k' a] fs vs [Q R] F IH]; intros V r h acc s I C; cbn [hnt_loop nt_loop]; [apply dinv_done; assumption|].
      cbn [fst snd] in Q, R. subst k'. pose proof I as [K0 _].
      assert (V' : forall f a, In (f, a) vs -> okv a /\ (cl -> clean a TAny)) by (intros f b J; apply (V f b); right; exact J).
      rewrite (look_bind _ y a). 2:{ eapply read_mono; [apply le_n| |exact R]. eapply k_trans; [apply mask_all|exact K0]. }
      destruct (_ && _); [apply IH; assumption|].
      destruct (V k a (or_introl eq_refl)) as [Va Ca].
      apply (item_step A h0 r h acc s y a TAny k (hnt_loop cfg m call r ds fs) (nt_loop cfg dcall ds vs) B I C R Va Ca).
      intros s' h2 b C' I'. apply IH; assumption.
    Qed.

    Lemma dc_sim A h0 x v fs info : below A h0 -> read m (mask A (at_ h0)) x = Some v -> okv v ->
      (cl -> forall k a, getattr v k = POk a -> clean a (match str_get k (dc_hints info) with Some h => h | None => TAny end)) ->
      forall names r h acc s, dinv A h0 r h acc -> dcoh s ->
      fine A h0 (hdc_loop cfg m call x r fs info names (s, h)) (dc_loop cfg dcall v fs info names acc s).
    Proof using Hc.
      intros B R V Cl. induction names as [|k names IH]; intros r h acc s I C; cbn [hdc_loop dc_loop]; [apply dinv_done; assumption|].
      pose proof I as [K0 [L _]].
      destruct (find _ fs) as [f|]; [|apply sim_raise; [exact C|exact K0]].
      rewrite heap_bind.
      assert (KM : kept (mask A (at_ h0)) (at_ h)) by (eapply k_trans; [apply mask_all|exact K0]).
      pose proof (getattr_read _ h x v k KM R) as G. destruct (getattr v k) as [a|e] eqn:Ea.
      - destruct G as [y [-> Ry]]. rewrite !lift_bind.
        rewrite (look_bind _ y a) by (eapply read_mono; [apply le_n|exact KM|exact Ry]).
        destruct (_ && _); [apply IH; assumption|].
        pose proof (getattr_holds _ _ _ Ea) as Ha.
        apply (item_step A h0 r h acc s y a _ (ext_name cfg f) (hdc_loop cfg m call x r fs info names) (dc_loop cfg dcall v fs info names) B I C Ry (okv_holds _ _ V Ha) (fun c => Cl c k a Ea)).
        intros s' h2 b C' I'. apply IH; assumption.
      - rewrite G. apply sim_raise; [exact C|exact K0].
    Qed.

    Lemma list_sim A h0 : below A h0 ->
      forall xs vs, Forall2 (fun p q => read m (mask A (at_ h0)) p = Some q) xs vs ->
      (forall a, In a vs -> okv a /\ (cl -> clean a TAny)) ->
      forall r h acc s, linv A h0 r h acc -> dcoh s ->
      fine A h0 (hdump_list cfg m call r xs (s, h)) (dump_list cfg dcall vs acc s).
    Proof using Hc.
      intros B xs vs F. induction F as [|y a xs vs R F IH]; intros V r h acc s I C; cbn [hdump_list dump_list].
      - apply sim_ret; [exact C|apply I|apply linv_fine; assumption].
      - pose proof I as [K0 [L _]].
        assert (V' : forall a, In a vs -> okv a /\ (cl -> clean a TAny)) by (intros b J; apply V; right; exact J).
        destruct (V a (or_introl eq_refl)) as [Va Ca].
        eapply sim_bind; [exact K0|apply (Hc (also r A)); [eapply also_below_l; eassumption|exact C| |exact Va|exact Ca]|].
        + eapply read_mono; [apply le_n|apply input_kept; eassumption|exact R].
        + intros z b s' h' C' K' [O Nw].
          destruct (step_append A h0 r h h' acc z b B I K' O Nw) as [h2 [E I2]].
          unfold bind. rewrite E. exact (IH V' r h2 (acc ++ [b]) s' I2 C').
    Qed.

    Lemma hhash_ok A h y a : okres A h y a -> hhash w m h y = Some (hashable w a).
    Proof using.
      intros [[n O] D]. destruct y as [v|l].
      - destruct n; cbn in O; destruct (scalar v); try discriminate; injection O as <-; reflexivity.
      - destruct (read_at _ _ _ _ O) as [o [n' [-> [G T]]]]. unfold mask in G. destruct (A l) eqn:Al; [discriminate|]. cbn [hhash]. rewrite G.
        assert (D' : match o with HList _ | HDict _ => True | _ => read m (at_ h) (HR l) = Some a end).
        { destruct D as [D|[l' [[= <-] [[xs D]|[d D]]]]]; [apply read_all in D; destruct o; auto| |]; rewrite D in G; injection G as <-; exact Logic.I. }
        destruct o; inversion T; subst; cbn [hashable]; try reflexivity; rewrite D'; reflexivity.
    Qed.

    Lemma dict_sim A h0 : below A h0 ->
      forall d vd, Forall2 (fun p q => read m (mask A (at_ h0)) (fst p) = Some (fst q) /\ read m (mask A (at_ h0)) (snd p) = Some (snd q)) d vd ->
      (forall k a, In (k, a) vd -> (okv k /\ (cl -> clean k TAny)) /\ (okv a /\ (cl -> clean a TAny))) ->
      forall r h acc s, dinv A h0 r h acc -> dcoh s ->
      fine A h0 (hdict_loop w cfg m call r d (s, h)) (dict_loop w cfg dcall vd acc s).
    Proof using Hc.
      intros B d vd F. induction F as [|[k y] [kv a] d vd [Rk R] F IH]; intros V r h acc s I C; cbn [hdict_loop dict_loop]; [apply dinv_done; assumption|].
      cbn [fst snd] in Rk, R. pose proof I as [K0 [L _]].
      assert (V' : forall k a, In (k, a) vd -> (okv k /\ (cl -> clean k TAny)) /\ (okv a /\ (cl -> clean a TAny))) by (intros f b J; apply (V f b); right; exact J).
      destruct (V kv a (or_introl eq_refl)) as [[Vk Ck] [Va Ca]].
      eapply sim_bind; [exact K0|apply (Hc (also r A)); [eapply also_below; eassumption|exact C| |exact Vk|exact Ck]|].
      { eapply read_mono; [apply le_n|apply input_kept; eassumption|exact Rk]. }
      intros k' kb s1 h1 C1 K1 [Ok1 N1]. pose proof (dinv_kept _ _ _ _ _ _ K1 I) as I1. pose proof I1 as [K01 _].
      eapply sim_bind; [exact K01|apply (Hc (also r A)); [eapply also_below; eassumption|exact C1| |exact Va|exact Ca]|].
      { eapply read_mono; [apply le_n|apply input_kept; eassumption|exact R]. }
      intros z b s2 h2 C2 K2 [Oz Nz].
      assert (Ok2 : okres (also r A) h2 k' kb).
      { destruct Ok1 as [O D]. assert (KM : kept (mask (also r A) (at_ h1)) (mask (also r A) (at_ h2))) by (apply mask_kept; exact K2).
        split; [eapply ob_kept; eassumption|]. destruct D as [D|[l [-> [[xs D]|[d0 D]]]]]; [left; eapply read_mono; [apply le_n|exact KM|exact D]| |];
          right; exists l; (split; [reflexivity|]); [left; exists xs|right; exists d0]; apply K2; exact D. }
      rewrite heap_bind. rewrite (hhash_ok _ _ _ _ Ok2). unfold budget, bind at 1, ret at 1. 
      destruct (hashable w kb) eqn:Hk.
      - assert (Rk2 : read m (mask (also r A) (at_ h2)) k' = Some kb).
        { destruct Ok2 as [[n O] [D|[l [-> D]]]]; [exact D|]. exfalso. destruct (read_at _ _ _ _ O) as [o [n' [-> [G T]]]].
          apply mask_all in G. destruct D as [[xs D]|[d0 D]]; rewrite D in G; injection G as <-; inversion T; subst; discriminate. }
        destruct (step_set A h0 r h1 h2 acc k' kb z b B I1 K2 Rk2) as [h3 [E I3]]; [|exact Oz|exact Nz|].
        + intro c. destruct (N1 c) as [ls [M _]]. inversion M as [v Sv|l xs lss El _|l d0 lss El _ _]; subst; [eauto| |]; exfalso;
            apply read_all in Rk2; destruct (read_at _ _ _ _ Rk2) as [o [n' [_ [G T]]]]; rewrite (K2 _ _ El) in G; injection G as <-; inversion T; subst; discriminate.
        + unfold bind. rewrite E. apply (IH V' r h3 _ s2 I3 C2).
      - apply sim_raise; [exact C2|]. eapply kept_trans; eassumption.
    Qed.
  
    Lemma scalar_ref A h x v : read m (mask A (at_ h)) x = Some v -> scalar v = true -> x = HV v.
    Proof.
      intros R Q. destruct x as [a|l].
      - destruct m; cbn in R; destruct (scalar a); try discriminate; injection R as <-; reflexivity.
      - exfalso. destruct (read_at _ _ _ _ R) as [o [n' [_ [_ T]]]]. inversion T; subst; discriminate.
    Qed.
    Lemma newer_scalar b h v : scalar v = true -> newer b h (HV v).
    Proof. intro Q. exists []. split; [constructor; exact Q|]. split; [constructor|intros l []]. Qed.
    Lemma okres_scalar A h v : scalar v = true -> okres A h (HV v) v.
    Proof. intro Q. assert (R : forall n, read n (mask A (at_ h)) (HV v) = Some v) by (intros [|n]; cbn; rewrite Q; reflexivity). split; [exists 0|left]; apply R. Qed.
    Lemma scalar_sim A h0 v s : scalar v = true -> dcoh s -> fine A h0 (ret (HV v) (s, h0)) (ret v s).
    Proof. intros Q C. apply sim_ret; [exact C|apply kept_refl|]. split; [apply okres_scalar; exact Q|intros _; apply newer_scalar; exact Q]. Qed.
    (** a new list of these *)
    Lemma fresh_list_sim A h0 xs vs s : below A h0 -> dcoh s -> Forall2 (fun p q => read m (mask A (at_ h0)) p = Some q) xs vs ->
      (cl -> forall x, In x xs -> exists v, x = HV v /\ scalar v = true) ->
      fine A h0 (bind (alloc (HList xs)) (fun r => ret (HR r)) (s, h0)) (ret (VList vs) s).
    Proof.
      intros B C F N. unfold bind, alloc. cbn [fst snd].
      assert (K : kept_in h0 (h0 ++ [HList xs])) by apply kept_alloc.
      apply sim_ret; [exact C|exact K|]. split; [split|].
      - apply ob_list with (xs := xs).
        + unfold mask. destruct (A (List.length h0)) eqn:Q; [apply B in Q; lia|apply alloc_there].
        + eapply F2i; [|exact F]. intros p q R. exists m. eapply read_mono; [apply le_n|apply mask_kept; exact K|exact R].
      - right. eexists. split; [reflexivity|]. left. exists xs. apply alloc_there.
      - intro c. exists [List.length h0].
        assert (M : made_of (h0 ++ [HList xs]) (HR (List.length h0)) (List.length h0 :: List.concat (map (fun _ : href => @nil loc) xs))).
        { econstructor; [apply alloc_there|]. specialize (N c). generalize (h0 ++ [HList xs]) as hh. intro hh. clear -N. induction xs as [|x xs IH]; cbn; constructor.
          - destruct (N x (or_introl eq_refl)) as [v [-> Q]]. constructor. exact Q.
          - apply IH. intros y I. apply N. right. exact I. }
        assert (E : List.concat (map (fun _ : href => @nil loc) xs) = []) by (clear; induction xs; cbn; auto). rewrite E in M.
        split; [exact M|]. split; [constructor; [intros []|constructor]|]. intros l [<-|[]]. apply le_n.
    Qed.

    Lemma choice_ident v : dfind cfg v = inl DIdent -> In (type_of v) basic.
    Proof using Hstd.
      rewrite (dfind_choice w basic strcons cfg Hstd). unfold dchoice.
      destruct (mem_cid (type_of v) basic) eqn:B; [intros _; apply mem_cid_In; exact B|].
      repeat match goal with |- context [if ?b then _ else _] => destruct b; [discriminate|] end; discriminate.
    Qed.
    Lemma choice_iter v : dfind cfg v = inl DIter -> exists l, iter v = Some l /\ (v = VList l \/ v = VTuple l \/ v = VSet l \/ v = VFrozen l).
    Proof using Hstd.
      rewrite (dfind_choice w basic strcons cfg Hstd). unfold dchoice.
      destruct v; cbn; try (intros _; eexists; split; [reflexivity|]; auto; fail);
        repeat match goal with |- context [if ?b then _ else _] => destruct b; [discriminate|] end; discriminate.
    Qed.
    Lemma choice_lib v (h : dhandler) : dfind cfg v = inl h -> 
      (h = DDatetime -> is_date_or_time w v = true) /\ (h = DTimedelta -> isinstance w v CTimedelta = true) /\
      (h = DPattern -> isinstance w v CPattern = true).
    Proof using Hstd.
      rewrite (dfind_choice w basic strcons cfg Hstd). unfold dchoice. intro F.
      repeat match type of F with context [if ?b then _ else _] => destruct b eqn:?; [injection F as <-; repeat split; intro; (discriminate || reflexivity)|] end; discriminate.
    Qed.
    Lemma sub_iter A h l vs v : read m (mask A (at_ h)) (HR l) = Some v -> iter v = Some vs ->
      v = VList vs \/ v = VTuple vs \/ v = VSet vs \/ v = VFrozen vs ->
      exists xs, hiter h (HR l) = Some xs /\ Forall2 (fun p q => read m (mask A (at_ h)) p = Some q) xs vs.
    Proof.
      intros R _ D. destruct (read_at _ _ _ _ R) as [o [n' [Em [G T]]]]. apply mask_all in G. cbn [hiter]. rewrite G.
      assert (Up : forall xs, Forall2 (fun y a => read n' (mask A (at_ h)) y = Some a) xs vs -> Forall2 (fun p q => read m (mask A (at_ h)) p = Some q) xs vs).
      { intros xs. apply F2i. intros a b. apply read_mono; [lia|apply k_refl]. }
      destruct D as [->|[->|[->| ->]]]; inversion T; subst; eexists; (split; [reflexivity|apply Up; assumption]).
    Qed.

    Lemma body_sim A h0 hd x v t s : dfind cfg v = inl hd -> below A h0 -> dcoh s -> read m (mask A (at_ h0)) x = Some v -> okv v -> (cl -> clean v t) ->
      fine A h0 (hbody w cfg m call hd x t (s, h0)) (dbody w cfg dcall hd v t s).
    Proof using Hstd Hc.
      intros F B C R V Cl. pose proof (read_all _ _ _ _ R) as Rh. pose proof (kept_refl h0) as K.
      assert (SubA : cl -> forall a, holds v a -> clean a TAny) by (intros c a Ha; exact (clean_holds v t a TAny (Cl c) Ha (ann_ok_any a))).
      destruct (choice_lib v hd F) as [Ld [Lt Lp]].
      destruct hd; cbn [hbody dbody].
      - apply sim_ret; [exact C|exact K|]. split; [split; [exists m; exact R|left; exact R]|].
        intro c. pose proof (proj1 (Cl c) v (rt1n_refl _ _ _) (choice_ident v F)) as Q.
        rewrite (scalar_ref _ _ _ _ R Q). apply newer_scalar. exact Q.
      - unfold hnamedtupledump, namedtupledump. rewrite (look_bind _ x v _ _ Rh), heap_bind.
        destruct v as [| | | | | | | | | | | |c vs| | |]; try (apply sim_raise; [exact C|exact K]).
        assert (Q : exists l fs, x = HR l /\ at_ h0 l = Some (HNT c fs) /\ Forall2 (fun p q => fst p = fst q /\ read m (mask A (at_ h0)) (snd p) = Some (snd q)) fs vs).
        { destruct x as [a|l]; [exfalso; destruct m; cbn in R; destruct (scalar a) eqn:Z; try discriminate; injection R as ->; discriminate|].
          destruct (read_at _ _ _ _ R) as [o [n' [Em [G T]]]]. apply mask_all in G. inversion T as [| | | | |c0 fs vs0 FF| | |]; subst c0 vs0 o. exists l, fs. split; [reflexivity|]. split; [exact G|].
          eapply F2i; [|exact FF]. intros p q [Q1 Q2]. split; [exact Q1|]. eapply read_mono; [|apply k_refl|exact Q2]. lia. }
        destruct Q as [l [fs [-> [E FF]]]]. cbn [fields_of]. rewrite E. unfold bind at 1, alloc at 1. cbn [fst snd].
        apply (nt_sim A h0 _ B fs vs FF).
        + intros f a J. split; [eapply okv_holds; [exact V|eapply holds_nt; exact J]|]. intro cc. apply (SubA cc). eapply holds_nt; exact J.
        + apply dinv_alloc. exact K.
        + exact C.
      - unfold hdataclassdump, dataclassdump. rewrite (look_bind _ x v _ _ Rh). cbv zeta.
        destruct (ci_dc (class_of w (type_of v))) as [fs|] eqn:Dc; [|apply sim_raise; [exact C|exact K]].
        eapply sim_bind with (h1 := h0) (R := fun i i' h' => i = i' /\ h' = h0 /\ dc_info w (type_of v) fs = POk i'); [exact K| |].
        + unfold caches. cbn [fst snd].
          assert (Cn : forall i, dc_info w (type_of v) fs = POk i -> dcoh (mkDState (ds_cache s) ((type_of v, i) :: ds_dc s))).
          { intros i Q. split; [apply C|]. cbn [ds_dc cid_get]. intros c j. destruct (cid_eqb c (type_of v)) eqn:Qc; [|apply (proj2 C)].
            apply cid_eqb_eq in Qc. subst c. intros [= <-]. eauto. }
          destruct (cid_get (type_of v) (ds_dc s)) as [i|] eqn:Qi.
          * destruct (proj2 C _ _ Qi) as [fs' [E' Ei]]. rewrite Dc in E'. injection E' as <-. split; [reflexivity|]. split; [exact C|]. split; [exact K|]. cbn [fst snd]. auto.
          * destruct (dc_info w (type_of v) fs) as [i|e] eqn:Ei; (split; [reflexivity|]); cbn [fst snd].
            -- split; [apply Cn; reflexivity|]. split; [exact K|auto].
            -- split; [exact C|]. split; [exact K|reflexivity].
        + intros i i' s' h' C' _ [-> [-> Ei]]. unfold bind at 1, alloc at 1. cbn [fst snd].
          apply (dc_sim A h0 x v fs i' B R V); [|apply dinv_alloc; exact K|exact C'].
          intros c k a Ea. pose proof (getattr_holds _ _ _ Ea) as Ha.
          assert (Hh : exists hs, ci_ihints (class_of w (type_of v)) = POk hs /\ dc_hints i' = hs).
          { unfold dc_info in Ei. destruct (ci_ihints (class_of w (type_of v))) as [hs|]; [|discriminate]. injection Ei as <-. eauto. }
          destruct Hh as [hs [Eh Qh]]. apply (clean_holds v t a _ (Cl c) Ha). rewrite Qh.
          destruct (str_get k hs) as [t0|] eqn:Eg; [|apply ann_ok_any].
          intros l y0 Hx Bb I. destruct (item_basic basic _ t0 Bb eq_refl) as [b [n0 [o [Ib [_ Ht]]]]].
          assert (Vo : exists c fs0, v = VObj c fs0 /\ In (k, a) fs0).
          { assert (G0 : forall (fs : list (string * value)), str_get k fs = Some a -> In (k, a) fs).
            { clear. induction fs as [|[k0 y] fs IH]; cbn; [discriminate|].
              destruct (String.eqb_spec k k0) as [->|_]; [intros [= <-]; left; reflexivity|right; auto]. }
            destruct v; cbn in Ea; try discriminate.
            - exfalso. rewrite (dfind_choice w basic strcons cfg Hstd) in F. unfold dchoice in F. cbn in F. destruct (mem_cid c0 basic); discriminate.
            - destruct (str_get k fs0) eqn:Es; [|discriminate]. injection Ea as ->. exists c0, fs0. split; [reflexivity|apply G0; exact Es]. }
          destruct Vo as [c0 [fs0 [-> I0]]]. cbn [type_of] in Eh.
          exact (proj1 (proj2 (Cl c)) c0 fs0 hs k t0 b n0 o a l y0 (rt1n_refl _ _ _) Eh Eg Ht Ib I0 Hx I).
      - destruct (choice_iter v F) as [vs [Ei D]]. unfold hiteratordump, iteratordump. rewrite heap_bind, Ei.
        assert (Hl : exists l, x = HR l).
        { destruct x as [a|l]; [|eauto]. exfalso. destruct m; cbn in R; destruct (scalar a) eqn:Z; try discriminate; injection R as ->;
            destruct D as [->|[->|[->| ->]]]; discriminate. }
        destruct Hl as [l ->]. destruct (sub_iter A h0 l vs v R Ei D) as [xs [Ex FF]]. rewrite Ex.
        assert (Hi : forall a, In a vs -> holds v a). { intros a I. destruct D as [->|[->|[->| ->]]]; constructor; exact I. }
        destruct (in_classes (d_basic cfg) (Dumper.item_type t) && ident_first cfg) eqn:Fast.
        + apply fresh_list_sim; [exact B|exact C|exact FF|]. intros c y I. apply andb_prop in Fast as [Fast _]. rewrite (proj2 Hstd) in Fast.
          assert (Q : exists a, In a vs /\ read m (mask A (at_ h0)) y = Some a).
          { clear -FF I. induction FF as [|p q xs vs r FF IH]; [contradiction|]. destruct I as [<-|I]; [exists q; split; [left|]; auto|]. destruct (IH I) as [a [J Q]]. exists a. split; [right|]; auto. }
          destruct Q as [a [J Ra]]. pose proof (proj2 (proj2 (Cl c)) vs a D Fast J) as Tb.
          pose proof (proj1 (Cl c) a (within_holds _ _ (Hi a J)) Tb) as Q. exists a. split; [|exact Q]. exact (scalar_ref _ _ _ _ Ra Q).
        + unfold bind at 1, alloc at 1. cbn [fst snd]. apply (list_sim A h0 B xs vs FF).
          * intros a J. split; [eapply okv_holds; [exact V|apply Hi; exact J]|]. intro c. apply (SubA c). apply Hi. exact J.
          * apply linv_alloc. exact K.
          * exact C.
      - rewrite heap_bind. destruct x as [a|l].
        + assert (Q : v = a /\ scalar a = true). { destruct m; cbn in R; destruct (scalar a) eqn:Z; try discriminate; injection R as <-; split; auto. }
          destruct Q as [-> Z]. destruct a; try discriminate Z; apply sim_raise; assumption.
        + destruct (read_at _ _ _ _ R) as [o [n' [Em [G T]]]]. pose proof G as Gh. apply mask_all in Gh. rewrite Gh.
          inversion T as [| | | | | | |c0 mm y a Ra|]; subst; try (apply sim_raise; assumption).
          apply (Hc A); [exact B|exact C|eapply read_mono; [|apply k_refl|exact Ra]; lia|eapply okv_holds; [exact V|constructor]|].
          intro c. apply (SubA c). constructor.
      - rewrite heap_bind. destruct x as [a|l].
        + assert (Q : v = a /\ scalar a = true). { destruct m; cbn in R; destruct (scalar a) eqn:Z; try discriminate; injection R as <-; split; auto. }
          destruct Q as [-> Z]. destruct a; try discriminate Z; apply sim_raise; assumption.
        + destruct (read_at _ _ _ _ R) as [o [n' [Em [G T]]]]. pose proof G as Gh. apply mask_all in Gh. rewrite Gh.
          inversion T as [| | | |d vd FF| | | |]; subst; try (apply sim_raise; assumption).
          unfold bind at 1, alloc at 1. cbn [fst snd]. apply (dict_sim A h0 B d vd).
          * eapply F2i; [|exact FF]. intros p q [Q1 Q2]. split; (eapply read_mono; [|apply k_refl|eassumption]; lia).
          * intros k a J. split; (split; [eapply okv_holds; [exact V|]|intro c; apply (SubA c)]); try (eapply holds_key; exact J); eapply holds_value; exact J.
          * apply dinv_alloc. exact K.
          * exact C.
      - unfold hattrdump, attrdump. rewrite (look_bind _ x v _ _ Rh).
        destruct (ci_attrs (class_of w (type_of v))) as [fs|]; [|apply sim_raise; assumption].
        unfold bind at 1, alloc at 1. cbn [fst snd]. apply (attr_sim A h0 x v B R V SubA); [apply dinv_alloc; exact K|exact C].
      - rewrite (look_bind _ x v _ _ Rh). unfold datetimedump. destruct (d_iso cfg); [apply scalar_sim; [reflexivity|exact C]|].
        destruct v as [| | | | | | | | | | | | | | |c p]; try (apply sim_raise; assumption).
        destruct p as [| | | | | | |l| | | | | | | |]; try (apply sim_raise; assumption).
        destruct (proj2 V _ (rt1n_refl _ _ _)) as [H1 _]. destruct (H1 (proj1 (orb_true_iff _ _) (Ld eq_refl))) as [zs [tz Q]]. injection Q as Ql.
        assert (LL : forall zs, fine A h0 (hscalar (ret (VList (map VInt zs))) (s, h0)) (ret (VList (map VInt zs)) s)).
        { intro z0. unfold hscalar. unfold bind at 1, caches at 1, ret at 1. cbn [fst snd].
          apply (fresh_list_sim A h0 (map HV (map VInt z0)) (map VInt z0) s B C).
          - clear. induction z0; cbn; constructor; [destruct m; reflexivity|assumption].
          - intros _ y I. apply in_map_iff in I as [a [<- I]]. apply in_map_iff in I as [z [<- _]]. exists (VInt z). split; reflexivity. }
        destruct (isinstance w (VInst c (VTuple l)) CDate && negb (isinstance w (VInst c (VTuple l)) CDatetime)).
        + rewrite Ql, app_nil_r. apply LL.
        + destruct (last l VNone) eqn:El; try (apply sim_raise; assumption). rewrite Ql, removelast_app by discriminate. cbn [removelast]. rewrite app_nil_r. apply LL.
      - rewrite (look_bind _ x v _ _ Rh). unfold timedeltadump.
        specialize (Lt eq_refl).
        assert (Vi : exists c p, v = VInst c p).
        { pose proof (pv_head w v (proj1 V)) as Po. clear -F Po Lt Hstd. rewrite (dfind_choice w basic strcons cfg Hstd) in F. unfold dchoice in F.
          destruct v; cbn in Lt; try discriminate; try (eexists; eexists; reflexivity); exfalso; cbn in F;
            try (destruct (mem_cid c basic); [discriminate|]); try discriminate.
          - unfold has_dc, has_attrs in F. cbn in F, Po. destruct (ci_dc (class_of w c)); [discriminate|].
            destruct (ci_attrs (class_of w c)); [discriminate|]. intuition congruence.
          - match type of F with context [has_dc w ?z] => destruct (has_dc w z); discriminate end. }
        destruct Vi as [c [p ->]]. destruct (proj2 V _ (rt1n_refl _ _ _)) as [_ [H1 _]]. destruct (H1 Lt) as [f ->]. apply scalar_sim; [reflexivity|exact C].
      - rewrite (look_bind _ x v _ _ Rh). unfold patterndump. destruct v as [| | | | | | | | | | | | | | |c p]; try (apply sim_raise; assumption).
        destruct (proj2 V _ (rt1n_refl _ _ _)) as [_ [_ H1]]. destruct (H1 (Lp eq_refl)) as [z [-> | ->]]; apply scalar_sim; (reflexivity || exact C).
      - rewrite (look_bind _ x v _ _ Rh). apply scalar_sim; [reflexivity|exact C].
      - exfalso. exact (dfind_not_custom w basic strcons cfg Hstd _ _ F f eq_refl).
    Qed.
  End Body.

  Lemma choose_sim a h s : python_object w a -> dcoh s ->
    sim h (fun i i' h' => i = i' /\ h' = h /\ dfind cfg a = inl i')
      (caches (fun s => match cid_get (type_of a) (ds_cache s) with
            | Some h => (Ok h, s)
            | None => match dfind cfg a with
                | inl h => (Ok h, mkDState ((type_of a, h) :: ds_cache s) (ds_dc s))
                | inr e => (Exc e, s) end end) (s, h))
      (match cid_get (type_of a) (ds_cache s) with
            | Some h => (Ok h, s)
            | None => match dfind cfg a with
                | inl h => (Ok h, mkDState ((type_of a, h) :: ds_cache s) (ds_dc s))
                | inr e => (Exc e, s) end end).
  Proof using Hstd.
    intros P C. unfold caches. cbn [fst snd].
    destruct (cid_get (type_of a) (ds_cache s)) as [hd|] eqn:E.
    - split; [reflexivity|]. split; [exact C|]. split; [apply kept_refl|]. cbn [fst snd]. split; [reflexivity|]. split; [reflexivity|]. exact (proj1 C a hd P E).
    - destruct (dfind cfg a) as [hd|e] eqn:F; (split; [reflexivity|]); cbn [fst snd].
      + split; [|split; [apply kept_refl|auto]]. split; [|apply C]. cbn [ds_cache]. intros v h1 Pv. cbn [cid_get].
        destruct (cid_eqb (type_of v) (type_of a)) eqn:Q; [|apply (proj1 C v h1 Pv)].
        apply cid_eqb_eq in Q. intros [= <-]. rewrite (dfind_choice w basic strcons cfg Hstd) in *. rewrite (dchoice_class w basic strcons v a Pv P Q).
        destruct (dchoice w basic strcons a); [exact F|discriminate].
      + split; [exact C|]. split; [apply kept_refl|reflexivity].
  Qed.
  Lemma dump_sim n : forall A y a t s h, below A h -> dcoh s -> read m (mask A (at_ h)) y = Some a -> okv a -> (cl -> clean a t) ->
    fine A h (hdump_with cfg m (hrun w cfg m n) y t (s, h)) (dump_with cfg (drun w cfg n) a t s).
  Proof using Hstd.
    induction n as [|n IH]; intros A y a t s h B C R V Cl; unfold hdump_with; rewrite (look_bind _ y a _ _ (read_all _ _ _ _ R)); unfold dump_with.
    - eapply sim_bind with (h1 := h) (R := fun i i' h' => i = i' /\ h' = h /\ dfind cfg a = inl i'); [apply kept_refl| |].
      + unfold caches. cbn [fst snd]. exact (choose_sim a h s (pv_head w a (proj1 V)) C).
      + intros i i' s' h' C' _ [-> [-> Ei]]. cbn [hrun drun]. split; [reflexivity|]. split; [exact C'|]. split; [apply kept_refl|exact Logic.I].
    - eapply sim_bind with (h1 := h) (R := fun i i' h' => i = i' /\ h' = h /\ dfind cfg a = inl i'); [apply kept_refl| |].
      + unfold caches. cbn [fst snd]. exact (choose_sim a h s (pv_head w a (proj1 V)) C).
      + intros i i' s' h' C' _ [-> [-> Ei]]. cbn [hrun drun]. apply (body_sim (hrun w cfg m n) (drun w cfg n) IH A h i' y a t s' Ei B C' R V Cl).
  Qed.
End HDump.

(** ** Nothing is written to an object which was there before *)
Section Safe.
  Variable w : world.
  Variable cfg : dconfig.
  Variable m : nat.
  Variable h0 : heap.
  Definition safe {A} (hm : HM A) : Prop := forall s h, kept_in h0 h -> kept_in h0 (snd (snd (hm (s, h)))).
  Lemma safe_ret {A} (a : A) : safe (ret a). Proof using. intros s h K. exact K. Qed.
  Lemma safe_raise {A} e : safe (raise (A := A) e). Proof using. intros s h K. exact K. Qed.
  Lemma safe_bind {A B} (hm : HM A) (f : A -> HM B) : safe hm -> (forall a, safe (f a)) -> safe (bind hm f).
  Proof using.
    intros H F s h K. unfold bind. specialize (H s h K). destruct (hm (s, h)) as [[a|e|] [s' h']]; cbn [fst snd] in *; [apply F; exact H|exact H|exact H].
  Qed.
  Lemma safe_heap : safe the_heap. Proof using. intros s h K. exact K. Qed.
  Lemma safe_budget {A} (o : option A) : safe (budget o). Proof using. destruct o; intros s h K; exact K. Qed.
  Lemma safe_lift {A} (o : pyres A) : safe (lift o). Proof using. destruct o; intros s h K; exact K. Qed.
  Lemma safe_caches {A} (d : DM A) : safe (caches d).
  Proof using. intros s h K. unfold caches. cbn [fst snd]. destruct (d s). exact K. Qed.
  Lemma safe_look x : safe (look m x).
  Proof using. apply safe_bind; [apply safe_heap|]. intro h. apply safe_budget. Qed.
  Lemma safe_alloc {B} o (f : loc -> HM B) : (forall r, List.length h0 <= r -> safe (f r)) -> safe (bind (alloc o) f).
  Proof using.
    intros F s h K. unfold bind, alloc. cbn [fst snd]. apply F; [apply kept_length; exact K|]. eapply kept_trans; [exact K|apply kept_alloc].
  Qed.
  Lemma safe_store l o : List.length h0 <= l -> safe (store l o).
  Proof using. intros L s h K. apply kept_put; assumption. Qed.
  Lemma safe_set l k y : List.length h0 <= l -> safe (set_item m l k y).
  Proof using.
    intro L. apply safe_bind; [apply safe_heap|]. intro h. destruct (nth_error h l) as [[]|]; try apply safe_raise.
    apply safe_bind; [apply safe_budget|]. intro d'. apply safe_store. exact L.
  Qed.
  Lemma safe_append l y : List.length h0 <= l -> safe (append l y).
  Proof using. intro L. apply safe_bind; [apply safe_heap|]. intro h. destruct (nth_error h l) as [[]|]; try apply safe_raise. apply safe_store. exact L. Qed.
  Lemma safe_scalar d : safe (hscalar d).
  Proof using. apply safe_bind; [apply safe_caches|]. intros []; try apply safe_ret. apply safe_alloc. intros r _. apply safe_ret. Qed.

  Section Body.
    Variable call : dhandler -> href -> ty -> HM href.
    Hypothesis Hc : forall hd x t, safe (call hd x t).
    Lemma safe_with x t : safe (hdump_with cfg m call x t).
    Proof using Hc. apply safe_bind; [apply safe_look|]. intro v. apply safe_bind; [apply safe_caches|]. intro hd. apply Hc. Qed.
    Lemma safe_attr x r fs : List.length h0 <= r -> safe (hattr_loop cfg m call x r fs).
    Proof using Hc.
      intro L. induction fs as [|f fs IH]; cbn [hattr_loop]; [apply safe_ret|]. apply safe_bind; [apply safe_heap|]. intro h.
      apply safe_bind; [apply safe_lift|]. intro y. destruct (negb _); [exact IH|]. apply safe_bind; [apply safe_look|]. intro yv.
      apply safe_bind; [apply safe_lift|]. intros [|]; [exact IH|]. apply safe_bind; [apply safe_with|]. intro z. apply safe_bind; [apply safe_set; exact L|]. intros _. exact IH.
    Qed.
    Lemma safe_nt r ds fs : List.length h0 <= r -> safe (hnt_loop cfg m call r ds fs).
    Proof using Hc.
      intro L. induction fs as [|[k y] fs IH]; cbn [hnt_loop]; [apply safe_ret|]. apply safe_bind; [apply safe_look|]. intro yv.
      destruct (_ && _); [exact IH|]. apply safe_bind; [apply safe_with|]. intro z. apply safe_bind; [apply safe_set; exact L|]. intros _. exact IH.
    Qed.
    Lemma safe_dc x r fs info names : List.length h0 <= r -> safe (hdc_loop cfg m call x r fs info names).
    Proof using Hc.
      intro L. induction names as [|k names IH]; cbn [hdc_loop]; [apply safe_ret|]. destruct (find _ fs) as [f|]; [|apply safe_raise].
      apply safe_bind; [apply safe_heap|]. intro h. apply safe_bind; [apply safe_lift|]. intro y. apply safe_bind; [apply safe_look|]. intro yv.
      destruct (_ && _); [exact IH|]. apply safe_bind; [apply safe_with|]. intro z. apply safe_bind; [apply safe_set; exact L|]. intros _. exact IH.
    Qed.
    Lemma safe_list r xs : List.length h0 <= r -> safe (hdump_list cfg m call r xs).
    Proof using Hc.
      intro L. induction xs as [|x xs IH]; cbn [hdump_list]; [apply safe_ret|]. apply safe_bind; [apply safe_with|]. intro z.
      apply safe_bind; [apply safe_append; exact L|]. intros _. exact IH.
    Qed.
    Lemma safe_dict r d : List.length h0 <= r -> safe (hdict_loop w cfg m call r d).
    Proof using Hc.
      intro L. induction d as [|[k x] d IH]; cbn [hdict_loop]; [apply safe_ret|]. apply safe_bind; [apply safe_with|]. intro k'.
      apply safe_bind; [apply safe_with|]. intro x'. apply safe_bind; [apply safe_heap|]. intro h. apply safe_bind; [apply safe_budget|]. intros [|]; [|apply safe_raise].
      apply safe_bind; [apply safe_set; exact L|]. intros _. exact IH.
    Qed.
    Lemma safe_body hd x t : safe (hbody w cfg m call hd x t).
    Proof using Hc.
      destruct hd; cbn [hbody]; try apply safe_ret; try apply safe_raise;
        try (apply safe_bind; [apply safe_look|intro v; apply safe_scalar]).
      - apply safe_bind; [apply safe_look|]. intro v. apply safe_bind; [apply safe_heap|]. intro h. destruct v; try apply safe_raise.
        apply safe_alloc. intros r L. apply safe_nt. exact L.
      - apply safe_bind; [apply safe_look|]. intro v. cbv zeta. destruct (ci_dc _) as [fs|]; [|apply safe_raise].
        apply safe_bind; [apply safe_caches|]. intro i. apply safe_alloc. intros r L. apply safe_dc. exact L.
      - apply safe_bind; [apply safe_heap|]. intro h. destruct (hiter h x) as [l|]; [|apply safe_raise].
        destruct (_ && _); apply safe_alloc; intros r L; [apply safe_ret|apply safe_list; exact L].
      - apply safe_bind; [apply safe_heap|]. intro h. destruct x as [a|l]; [apply safe_raise|]. destruct (nth_error h l) as [[]|]; try apply safe_raise. apply safe_with.
      - apply safe_bind; [apply safe_heap|]. intro h. destruct x as [a|l]; [apply safe_raise|]. destruct (nth_error h l) as [[]|]; try apply safe_raise.
        apply safe_alloc. intros r L. apply safe_dict. exact L.
      - apply safe_bind; [apply safe_look|]. intro v. destruct (ci_attrs _) as [fs|]; [|apply safe_raise]. apply safe_alloc. intros r L. apply safe_attr. exact L.
    Qed.
  End Body.
  Lemma safe_run n hd x t : safe (hrun w cfg m n hd x t).
  Proof using. revert hd x t. induction n as [|n IH]; intros hd x t; cbn [hrun]; [intros s h K; exact K|]. apply safe_body. exact IH. Qed.
  Lemma safe_dump n x t : safe (hdump_ann w cfg m n x t).
  Proof using. apply safe_with. intros hd y t'. apply safe_run. Qed.
End Safe.
Lemma hdumps_kept w cfg s h x r s' h' : hdumps w cfg s h x r s' h' -> kept_in h h'.
Proof.
  intros [_ [m [n E]]]. pose proof (safe_dump w cfg m h n x TAny s h (kept_refl h)) as K. rewrite E in K. exact K.
Qed.

(** ** Summary *)
Section Top.
  Variable w : world.
  Variables basic strcons : list cid.
  Variable cfg : dconfig.
  Hypothesis Hstd : is_dstd w basic strcons cfg.
  Notation none := (fun _ : loc => false).

  Lemma top_sim (cl : Prop) m n s (h : heap) x v t : dhistory w cfg s -> read m (at_ h) x = Some v -> okv w v -> (cl -> clean w basic v t) ->
    fine w cfg m cl none h (hdump_ann w cfg m n x t (s, h)) (dump_ann w cfg n v t s).
  Proof using Hstd.
    intros D R V Cl. apply (dump_sim w basic strcons cfg Hstd m cl n none x v t s h); try assumption.
    - intros l Q. discriminate.
    - eapply dhistory_coh; eassumption.
  Qed.
  Lemma hdumps_read s (h : heap) x r s' h' v : object h x v -> hdumps w cfg s h x r s' h' ->
    exists m n, read m (at_ h) x = Some v /\ r <> OOF /\ hdump_ann w cfg m n x TAny (s, h) = (r, (s', h')).
  Proof using.
    intros [n0 R0] [N [m [n E]]]. exists m, n. split; [|split; assumption].
    destruct (read m (at_ h) x) as [v'|] eqn:R; [rewrite (read_det _ _ _ _ _ _ R R0); reflexivity|].
    exfalso. apply N. unfold hdump_ann, hdump_with, bind, look, the_heap, budget in E. cbn [snd bind] in E. unfold bind in E. cbn [snd] in E. rewrite R in E. congruence.
  Qed.
  Lemma dump_TAny n v s : dump_ann w cfg n v TAny s = dump w cfg n v s.
  Proof using. reflexivity. Qed.

  Lemma c57_result s (h : heap) x v r s' h' : dhistory w cfg s -> object h x v -> okv w v -> hdumps w cfg s h x r s' h' ->
    dhistory w cfg s' /\
    match r with
    | Ok y => exists a, dumps w cfg s v (Ok a) /\ object h' y a
    | Exc e => dumps w cfg s v (Exc e)
    | OOF => False
    end.
  Proof using Hstd.
    intros D O V H. destruct (hdumps_read _ _ _ _ _ _ _ O H) as [m [n [R [N E]]]].
    destruct (top_sim False m n s h x v TAny D R V (fun f => match f with end)) as [Es [C [K M]]]. rewrite E in Es, K, M. cbn [fst snd] in Es, K, M.
    split; [rewrite Es; apply dhistory_again; [exact D|apply V]|].
    destruct r as [y|e|]; destruct (fst (dump_ann w cfg n v TAny s)) as [a|e'|] eqn:Q; try contradiction.
    - exists a. split; [split; [discriminate|exists n; exact Q]|]. destruct M as [[Ob _] _]. exact Ob.
    - subst e'. split; [discriminate|exists n; exact Q].
  Qed.
  Lemma c57_total s (h : heap) x v : dhistory w cfg s -> object h x v -> okv w v -> exists r s' h', hdumps w cfg s h x r s' h'.
  Proof using Hstd.
    intros D [m R] V. set (n := depth v). destruct (top_sim False m n s h x v TAny D R V (fun f => match f with end)) as [_ [_ [_ M]]].
    assert (T : fst (dump_ann w cfg n v TAny s) <> OOF) by (eapply c28; [exact Hstd|exact D|apply V|apply le_n]).
    destruct (hdump_ann w cfg m n x TAny (s, h)) as [r [s' h']] eqn:E. exists r, s', h'. split; [|exists m, n; exact E].
    intros ->. cbn [fst] in M. destruct (fst (dump_ann w cfg n v TAny s)); try contradiction.
  Qed.
  Lemma c57_new s (h : heap) x v y s' h' : dhistory w cfg s -> object h x v -> okv w v ->
    (forall z, within v z -> In (type_of z) basic -> scalar z = true) -> annotations_hold w basic v ->
    hdumps w cfg s h x (Ok y) s' h' ->
    exists ls, made_of h' y ls /\ NoDup ls /\ forall l, In l ls -> List.length h <= l.
  Proof using Hstd.
    intros D O V B An H. destruct (hdumps_read _ _ _ _ _ _ _ O H) as [m [n [R [N E]]]].
    destruct (top_sim True m n s h x v TAny D R V) as [Es [C [K M]]].
    { intros _. split; [exact B|]. split; [exact An|apply ann_ok_any]. }
    rewrite E in Es, K, M. cbn [fst snd] in Es, K, M. destruct (fst (dump_ann w cfg n v TAny s)) as [a|e'|]; try contradiction. apply M. exact Logic.I.
  Qed.
End Top.

(** what a result is depends only on its places *)
Lemma made_read h h' y ls : made_of h y ls -> (forall l o, In l ls -> at_ h l = Some o -> at_ h' l = Some o) -> forall n a, read n (at_ h) y = Some a -> read n (at_ h') y = Some a.
Proof.
  intros M K n. revert y ls M K. induction n as [|n IH]; intros y ls M K a; (destruct M as [v Q|l xs lss E F|l d lss E Ks F]; [auto|..]); try discriminate; cbn [read].
  - rewrite E, (K l _ (or_introl eq_refl) E).
    assert (Mo : forall vs, mapo (read n (at_ h)) xs = Some vs -> mapo (read n (at_ h')) xs = Some vs).
    { intro vs. apply mapo_imp. intros x b I. apply In_nth_error in I as [i I].
      assert (Q : exists ls, nth_error lss i = Some ls /\ made_of h x ls).
      { clear -F I. revert i I. induction F as [|p q xs lss r F IH]; intros [|i] I; try discriminate; cbn in I; [injection I as ->; eexists; split; [reflexivity|exact r]|]. apply IH. exact I. }
      destruct Q as [ls [J Mx]]. apply (IH x ls Mx). intros l0 o J0. apply K. right. eapply in_concat_of; [eapply nth_error_In; exact J|exact J0]. }
    destruct (mapo (read n (at_ h)) xs) as [vs|]; [|discriminate]. rewrite (Mo vs eq_refl). auto.
  - rewrite E, (K l _ (or_introl eq_refl) E).
    match goal with |- option_map _ (mapo ?f d) = _ -> option_map _ (mapo ?g d) = _ => destruct (mapo f d) as [vs|] eqn:Q; [|discriminate];
      rewrite (mapo_imp f g d vs); [auto| |exact Q] end.
    intros [k x] b I. cbn [fst snd]. destruct (Ks k x I) as [ka [-> Sa]].
    assert (Rk : forall g, read n g (HV ka) = Some ka) by (intro g; destruct n; cbn; rewrite Sa; reflexivity). rewrite !Rk.
    apply (in_map snd) in I. cbn [snd] in I. apply In_nth_error in I as [i I].
    assert (Q1 : exists ls, nth_error lss i = Some ls /\ made_of h x ls).
    { clear -F I. revert i I. induction F as [|p q xs lss r F IH]; intros [|i] I; try discriminate; cbn in I; [injection I as ->; eexists; split; [reflexivity|exact r]|]. apply IH. exact I. }
    destruct Q1 as [ls [J Mx]]. destruct (read n (at_ h) x) as [bx|] eqn:Rx; [|discriminate]. rewrite (IH x ls Mx) with (a := bx); [auto| |exact Rx].
    intros l0 o J0. apply K. right. eapply in_concat_of; [eapply nth_error_In; exact J|exact J0].
Qed.
Lemma edits_length P h h' : edits P h h' -> List.length h <= List.length h'.
Proof.
  induction 1 as [|h' o _ IH|h' l o _ IH _]; [apply le_n| |].
  - rewrite app_length. lia.
  - rewrite put_length. exact IH.
Qed.
Lemma edits_keep P h h' l o : edits P h h' -> ~ P l -> at_ h l = Some o -> at_ h' l = Some o.
Proof.
  intros E N Q. assert (L : l < List.length h) by (apply nth_error_Some; congruence).
  induction E as [|h' o' E IH|h' l' o' E IH D]; [exact Q| |].
  - apply edits_length in E. rewrite nth_error_app1; [exact IH|lia].
  - rewrite put_other; [exact IH|]. intros ->. destruct D; [contradiction|lia].
Qed.
