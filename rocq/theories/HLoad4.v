(** * HLoad4: load makes no copies of the members of enums (C59) *)

From Verif Require Import Loader Spec Vocab Inv Std Fuel Obs Hist Simple Reuse Local Sound HDumper HDump HLoader HLoad HLoad2 HLoad3.

Section Members.
  Variable w : world.
  Variable cfg : config.
  Variable ev : env.
  Variable h0 : heap.
  Hypothesis Hobj : class_objects w ev h0.
  Notation pk := (own w ev).
  Lemma own_there c m x y : pk c m x = Some y -> object h0 y (VEnum c m x).
  Proof using Hobj.
    unfold own. destruct (ci_enum (class_of w c)) as [ms|] eqn:Em; [|discriminate]. destruct (in_dec member_dec (m, x) ms) as [I|]; [|discriminate]. intros [= <-].
    exact (co_member _ _ _ Hobj c ms m x Em I).
  Qed.

  (** ** New trees *)
  (** a scalar, an object which is new, or one which was there *)
  Definition from (N : loc -> Prop) (y : href) : Prop := match y with HV _ => True | HR l => N l \/ exists v, object h0 y v end.
  Lemma from_imp (N N' : loc -> Prop) y : (forall l, N l -> N' l) -> from N y -> from N' y.
  Proof using. intro K. destruct y as [a|l]; [auto|]. cbn. intros [Q|Q]; [left; apply K; exact Q|right; exact Q]. Qed.
  Definition copy_free (h : heap) (o : hobj) : Prop := forall c m z, o = HEnum c m z -> exists x, object h z x /\ pk c m x = None.
  Lemma copy_kept (h h' : heap) o : kept_in h h' -> copy_free h o -> copy_free h' o.
  Proof using. intros K C c m z E. destruct (C c m z E) as [x [O Q]]. exists x. split; [|exact Q]. eapply ob_kept; [exact K|exact O]. Qed.
  Definition since (b : nat) (h : heap) (l : loc) : Prop := b <= l < List.length h.
  Definition tidy (b : nat) (h : heap) : Prop := forall l o, b <= l -> at_ h l = Some o -> Forall (from (since b h)) (parts o) /\ copy_free h o.
  Lemma tidy_more b h h' : b <= List.length h -> kept_in h h' -> tidy b h -> tidy (List.length h) h' -> tidy b h'.
  Proof using.
    intros Le K T1 T2 l o Q E. pose proof (kept_length _ _ K) as Lk. destruct (Nat.lt_ge_cases l (List.length h)) as [Lt|Ge].
    - destruct (nth_error h l) as [o'|] eqn:E'; [|apply nth_error_None in E'; lia]. pose proof (K _ _ E') as E2. rewrite E in E2. injection E2 as <-.
      destruct (T1 l o Q E') as [F C]. split; [|eapply copy_kept; eassumption]. eapply Forall_impl; [|exact F]. intro y. apply from_imp. unfold since. lia.
    - destruct (T2 l o Ge E) as [F C]. split; [|exact C]. eapply Forall_impl; [|exact F]. intro y. apply from_imp. unfold since. lia.
  Qed.
  Lemma tidy_none h : tidy (List.length h) h.
  Proof using. intros l o Q E. assert (l < List.length h) by (apply nth_error_Some; congruence). lia. Qed.
  Definition planting (v : value) : Prop := forall h, kept_in h0 h ->
    let '(y, h') := plant pk v h in kept_in h h' /\ tidy (List.length h) h' /\ from (since (List.length h) h') y.
  Lemma place_tidy (h h' : heap) o : kept_in h h' -> tidy (List.length h) h' -> Forall (from (since (List.length h) h')) (parts o) -> copy_free h' o ->
    let '(y, h'') := place o h' in kept_in h h'' /\ tidy (List.length h) h'' /\ from (since (List.length h) h'') y.
  Proof using.
    intros K T F C. unfold place. pose proof (kept_length _ _ K) as Le. assert (Ln : List.length (h' ++ [o]) = S (List.length h')) by (rewrite app_length; cbn; lia).
    split; [eapply kept_trans; [exact K|apply kept_alloc]|]. split.
    - intros l o' Q E. assert (Lt : l < List.length (h' ++ [o])) by (apply nth_error_Some; congruence).
      assert (W : forall y, from (since (List.length h) h') y -> from (since (List.length h) (h' ++ [o])) y) by (intro y; apply from_imp; unfold since; lia).
      destruct (Nat.eq_dec l (List.length h')) as [->|Ne].
      + rewrite alloc_there in E. injection E as <-. split; [eapply Forall_impl; [exact W|exact F]|eapply copy_kept; [apply kept_alloc|exact C]].
      + rewrite nth_error_app1 in E by lia. destruct (T l o' Q E) as [F' C']. split; [eapply Forall_impl; [exact W|exact F']|eapply copy_kept; [apply kept_alloc|exact C']].
    - left. unfold since. lia.
  Qed.
  Lemma plant_reads v h : kept_in h0 h -> let '(y, h') := plant pk v h in object h' y v.
  Proof using Hobj.
    intro K. pose proof (plant_ok (fun _ => True) (fun _ => false) pk v h) as Q. destruct (plant pk v h) as [y h'].
    assert (R : ready (fun _ => True) (fun _ => false) pk h).
    { split; [intros l E; discriminate E|]. intros c m x z E. apply own_there in E. split; [eapply ob_kept; [|exact E]; exact K|].
      destruct z as [a|l]; [|exact I]. destruct E as [n E]. destruct n; cbn in E; destruct (scalar a) eqn:Sc; try discriminate E; exact Sc. }
    apply Q in R as [_ [O _]]. exact O.
  Qed.
  Lemma from_more (b : nat) (h h' : heap) ys : b <= List.length h -> kept_in h h' -> Forall (from (since b h)) ys -> Forall (from (since b h')) ys.
  Proof using. intros Le K. apply Forall_impl. intro y. apply from_imp. apply kept_length in K. unfold since. lia. Qed.
  Lemma from_later (b b' : nat) (h : heap) ys : b <= b' -> Forall (from (since b' h)) ys -> Forall (from (since b h)) ys.
  Proof using. intro Le. apply Forall_impl. intro y. apply from_imp. unfold since. lia. Qed.
  Lemma plant_tidy v : planting v.
  Proof using Hobj.
    assert (St : forall x ys (h h1 h2 : heap), kept_in h h1 -> kept_in h1 h2 -> tidy (List.length h) h1 -> tidy (List.length h1) h2 -> from (since (List.length h) h1) x -> Forall (from (since (List.length h1) h2)) ys ->
       kept_in h h2 /\ tidy (List.length h) h2 /\ Forall (from (since (List.length h) h2)) (x :: ys)).
    { intros x ys h h1 h2 K1 K2 T1 T2 F1 F2. pose proof (kept_length _ _ K1). split; [eapply kept_trans; eassumption|]. split; [eapply tidy_more; eassumption|].
      constructor; [|eapply from_later; eassumption]. assert (Q : Forall (from (since (List.length h) h2)) [x]); [|inversion Q; assumption]. eapply from_more; [eassumption|exact K2|]. constructor; [exact F1|constructor]. }
    assert (Li : forall l, Forall planting l -> forall h, kept_in h0 h ->
       let '(ys, h') := plant_list (plant pk) l h in kept_in h h' /\ tidy (List.length h) h' /\ Forall (from (since (List.length h) h')) ys).
    { induction 1 as [|x l Hx F IH]; intros h K; [split; [apply kept_refl|]; split; [apply tidy_none|constructor]|]. rewrite pl_cons.
      specialize (Hx h K). destruct (plant pk x h) as [y h1]. destruct Hx as [K1 [T1 F1]]. specialize (IH h1 (kept_trans _ _ _ K K1)).
      destruct (plant_list (plant pk) l h1) as [ys h2]. destruct IH as [K2 [T2 F2]]. apply (St y ys h h1 h2); assumption. }
    assert (Fi : forall l, Forall (fun kv : string * value => planting (snd kv)) l -> forall h, kept_in h0 h ->
       let '(ys, h') := plant_fields (plant pk) l h in kept_in h h' /\ tidy (List.length h) h' /\ Forall (from (since (List.length h) h')) (map snd ys)).
    { induction 1 as [|[k x] l Hx F IH]; intros h K; [split; [apply kept_refl|]; split; [apply tidy_none|constructor]|]. rewrite pf_cons.
      specialize (Hx h K). cbn [snd] in Hx. destruct (plant pk x h) as [y h1]. destruct Hx as [K1 [T1 F1]]. specialize (IH h1 (kept_trans _ _ _ K K1)).
      destruct (plant_fields (plant pk) l h1) as [ys h2]. destruct IH as [K2 [T2 F2]]. apply (St y (map snd ys) h h1 h2); assumption. }
    assert (Ne : forall (h : heap) o, (forall c m z, o <> HEnum c m z) -> copy_free h o) by (intros h o N c m z E; exfalso; exact (N c m z E)).
    induction v as [|b|z|f|s|s|l F|l F|l F|l F|d F|d F|c d F|c d F|c m v IH|c v IH] using value_ind'; intros h K; cbn [plant]; try (split; [apply kept_refl|split; [apply tidy_none|exact I]]).
    1-4: specialize (Li l F h K); destruct (plant_list (plant pk) l h) as [ys h1]; destruct Li as [K1 [T1 F1]]; apply place_tidy; [exact K1|exact T1|exact F1|apply Ne; discriminate].
    - assert (Di : forall h, kept_in h0 h -> let '(ys, h') := plant_items (plant pk) d h in kept_in h h' /\ tidy (List.length h) h' /\ Forall (from (since (List.length h) h')) (map fst ys ++ map snd ys)).
      { clear h K. induction F as [|[k x] l [Hk Hx] F IH]; intros h K; [split; [apply kept_refl|]; split; [apply tidy_none|constructor]|]. rewrite pi_cons.
        cbn [fst snd] in Hk, Hx. specialize (Hk h K). destruct (plant pk k h) as [z h1]. destruct Hk as [K1 [T1 F1]]. specialize (Hx h1 (kept_trans _ _ _ K K1)). destruct (plant pk x h1) as [y h2].
        destruct Hx as [K2 [T2 F2]]. specialize (IH h2 (kept_trans _ _ _ K (kept_trans _ _ _ K1 K2))). destruct (plant_items (plant pk) l h2) as [ys h3]. destruct IH as [K3 [T3 F3]].
        destruct (St y _ h1 h2 h3 K2 K3 T2 T3 F2 F3) as [K4 [T4 F4]]. destruct (St z _ h h1 h3 K1 K4 T1 T4 F1 F4) as [K5 [T5 F5]]. split; [exact K5|]. split; [exact T5|].
        cbn [map fst snd app]. inversion F5 as [|? ? P1 P2]; subst. inversion P2 as [|? ? P3 P4]; subst. constructor; [exact P1|]. apply Forall_app in P4 as [P4 P5]. apply Forall_app. split; [exact P4|constructor; assumption]. }
      specialize (Di h K). destruct (plant_items (plant pk) d h) as [ys h1]. destruct Di as [K1 [T1 F1]]. apply place_tidy; [exact K1|exact T1|exact F1|apply Ne; discriminate].
    - specialize (Fi d F h K); destruct (plant_fields (plant pk) d h) as [ys h1]; destruct Fi as [K1 [T1 F1]]; apply place_tidy; [exact K1|exact T1|exact F1|apply Ne; discriminate].
    - specialize (Fi d F h K); destruct (plant_fields (plant pk) d h) as [ys h1]; destruct Fi as [K1 [T1 F1]]; apply place_tidy; [exact K1|exact T1|exact F1|apply Ne; discriminate].
    - specialize (Fi d F h K); destruct (plant_fields (plant pk) d h) as [ys h1]; destruct Fi as [K1 [T1 F1]]; apply place_tidy; [exact K1|exact T1|exact F1|apply Ne; discriminate].
    - destruct (pk c m v) as [y|] eqn:Ep.
      + split; [apply kept_refl|]. split; [apply tidy_none|]. apply own_there in Ep. destruct y as [a|l]; [exact I|]. right. eexists. exact Ep.
      + pose proof (plant_reads v h K) as Rd. specialize (IH h K). destruct (plant pk v h) as [y h1]. destruct IH as [K1 [T1 F1]]. apply place_tidy; [exact K1|exact T1|constructor; [exact F1|constructor]|].
        intros c' m' z [= <- <- <-]. exists v. split; assumption.
  Qed.

  (** ** The invariant: [F] are the new objects which are finished, [O] the
      dictionaries which are being filled *)
  Record clean (O : list loc) (h : heap) (F : loc -> Prop) : Prop := mkClean {
    cl_kept : kept_in h0 h;
    cl_new : forall l, F l -> List.length h0 <= l < List.length h;
    cl_parts : forall l o, F l -> at_ h l = Some o -> Forall (from F) (parts o);
    cl_enum : forall l c m z, List.length h0 <= l -> at_ h l = Some (HEnum c m z) -> F l /\ exists x, object h z x /\ pk c m x = None;
    cl_open : forall r, In r O -> List.length h0 <= r < List.length h /\ ~ F r
  }.
  Lemma from_read (F : loc -> Prop) (h h' : heap) z x : kept_in h0 h -> kept_in h0 h' -> (forall l o, F l -> at_ h l = Some o -> Forall (from F) (parts o)) ->
    (forall l o, F l -> at_ h l = Some o -> at_ h' l = Some o) -> from F z -> object h z x -> object h' z x.
  Proof using.
    intros K K' P Q. intros Fz [n R]. revert z x Fz R. induction n as [|n IH]; intros z x Fz R.
    - destruct z as [a|l]; [exists 0; exact R|discriminate R].
    - destruct z as [a|l]; [exists 0; exact R|]. destruct Fz as [Fz|[v Ov]].
      + destruct (read_at _ _ _ _ R) as [o [n' [[= <-] [E T]]]]. apply ob_at with (o := o); [apply Q; assumption|].
        eapply tells_imp; [|exact T]. intros y a J Ry. apply IH; [|exact Ry]. pose proof (P l o Fz E) as Pf. rewrite Forall_forall in Pf. apply Pf. exact J.
      + assert (x = v) by (eapply ob_det; [exists (S n); exact R|eapply ob_kept; [exact K|exact Ov]]). subst v. eapply ob_kept; [exact K'|exact Ov].
  Qed.
  Definition msafe (O : list loc) {A} (hm : LM A) : Prop := forall s h, (exists F, clean O h F) -> exists F, clean O (snd (snd (hm (s, h)))) F.
  Section Basics.
  Variable O : list loc.
  Notation msafe := (msafe O).
  Lemma mb_ret {A} (a : A) : msafe (ret a). Proof using. intros s h K. exact K. Qed.
  Lemma mb_raise {A} e : msafe (raise (A := A) e). Proof using. intros s h K. exact K. Qed.
  Lemma mb_bind {A B} (hm : LM A) (f : A -> LM B) : msafe hm -> (forall a, msafe (f a)) -> msafe (bind hm f).
  Proof using.
    intros H F s h K. unfold bind. specialize (H s h K). destruct (hm (s, h)) as [[a|e|] [s' h']]; cbn [fst snd] in *; [apply F; exact H|exact H|exact H].
  Qed.
  Lemma mb_catch {A} (hm : LM A) (f : exn -> LM A) : msafe hm -> (forall a, msafe (f a)) -> msafe (catch hm f).
  Proof using.
    intros H F s h K. unfold catch. specialize (H s h K). destruct (hm (s, h)) as [[a|e|] [s' h']]; cbn [fst snd] in *; [exact H|apply F; exact H|exact H].
  Qed.
  Lemma mb_attempt {A} (hm : LM A) : msafe hm -> msafe (attempt hm).
  Proof using.
    intros H s h K. unfold attempt. specialize (H s h K). destruct (hm (s, h)) as [[a|e|] [s' h']]; cbn [fst snd] in *; exact H.
  Qed.
  Lemma mb_heap : msafe the_heap. Proof using. intros s h K. exact K. Qed.
  Lemma mb_budget {A} (o : option A) : msafe (budget o). Proof using. destruct o; intros s h K; exact K. Qed.
  Lemma mb_lift {A} (o : pyres A) : msafe (lift o). Proof using. destruct o; intros s h K; exact K. Qed.
  Lemma mb_caches {A} (d : M A) : msafe (caches d).
  Proof using. intros s h K. unfold caches. cbn [fst snd]. destruct (d s). exact K. Qed.
  Lemma mb_looks x : msafe (looks x).
  Proof using. apply mb_bind; [apply mb_heap|]. intro h. apply mb_budget. Qed.
  Definition plainly (o : hobj) : Prop := forall c m z, o <> HEnum c m z.
  Lemma clean_alloc h F o : plainly o -> clean O h F -> clean (List.length h :: O) (h ++ [o]) F.
  Proof using.
    intros Pl [K Nw P E Op]. pose proof (kept_length _ _ K) as Le. assert (Ln : List.length (h ++ [o]) = S (List.length h)) by (rewrite app_length; cbn; lia).
    assert (Bk : forall l o', l < List.length h -> at_ (h ++ [o]) l = Some o' -> at_ h l = Some o') by (intros l o' Lt Q; rewrite nth_error_app1 in Q by exact Lt; exact Q).
    constructor.
    - eapply kept_trans; [exact K|apply kept_alloc].
    - intros l Fl. apply Nw in Fl. rewrite Ln. lia.
    - intros l o' Fl Q. apply (P l o' Fl). apply Bk; [apply Nw; exact Fl|exact Q].
    - intros l c m z Ge Q. assert (Lt : l < List.length (h ++ [o])) by (apply nth_error_Some; congruence). destruct (Nat.eq_dec l (List.length h)) as [->|Ne].
      + rewrite alloc_there in Q. injection Q as ->. exfalso. exact (Pl c m z eq_refl).
      + rewrite Ln in Lt. assert (Lt' : l < List.length h) by lia. destruct (E l c m z Ge (Bk _ _ Lt' Q)) as [Fl [x [Ox N]]]. split; [exact Fl|]. exists x. split; [|exact N]. eapply ob_kept; [apply (kept_alloc h o)|exact Ox].
    - intros r [<-|I]; rewrite Ln; [split; [lia|]; intro Q; apply Nw in Q; lia|]. destruct (Op r I) as [Q1 Q2]. split; [lia|exact Q2].
  Qed.
  Lemma clean_put h F r o : In r O -> plainly o -> clean O h F -> clean O (put h r o) F.
  Proof using.
    intros Ir Pl [K Nw P E Op]. destruct (Op r Ir) as [[Ge Lt] NF]. pose proof (kept_put h0 h r o K Ge) as K'.
    assert (Sm : forall l, l <> r -> at_ (put h r o) l = at_ h l) by (intros l Q; apply put_other; congruence).
    assert (Ln : List.length (put h r o) = List.length h) by apply put_length.
    constructor.
    - exact K'.
    - intros l Fl. rewrite Ln. apply Nw. exact Fl.
    - intros l o' Fl Q. apply (P l o' Fl). rewrite <- Sm; [exact Q|]. intros ->. exact (NF Fl).
    - intros l c m z G Q. destruct (Nat.eq_dec l r) as [->|Ne].
      + exfalso. rewrite put_same in Q by exact Lt. injection Q as ->. exact (Pl c m z eq_refl).
      + rewrite Sm in Q by exact Ne. destruct (E l c m z G Q) as [Fl [x [Ox N]]]. split; [exact Fl|]. exists x. split; [|exact N].
        apply (from_read F h (put h r o) z x); [exact K|exact K'|exact P| | |exact Ox].
        * intros l' o' Fl' Q'. rewrite Sm; [exact Q'|]. intros ->. exact (NF Fl').
        * pose proof (P l _ Fl Q) as Pf. rewrite Forall_forall in Pf. apply Pf. left. reflexivity.
    - intros r' I. rewrite Ln. apply Op. exact I.
  Qed.
  End Basics.
  Lemma clean_less O r h F : clean (r :: O) h F -> clean O h F.
  Proof using. intros [K Nw P E Op]. constructor; try assumption. intros q I. apply Op. right. exact I. Qed.
  Lemma mb_alloc O {B} o (f : loc -> LM B) : plainly o -> (forall r, msafe (r :: O) (f r)) -> msafe O (bind (alloc o) f).
  Proof using.
    intros Pl Hf s h [F C]. unfold bind, alloc. cbn [fst snd]. destruct (Hf (List.length h) s (h ++ [o])) as [F' C']; [exists F; apply clean_alloc; assumption|].
    exists F'. eapply clean_less. exact C'.
  Qed.
  Lemma mb_store O l o : In l O -> plainly o -> msafe O (store l o).
  Proof using. intros I Pl s h [F C]. exists F. apply clean_put; assumption. Qed.
  Lemma mb_sets O l k y : In l O -> msafe O (sets l k y).
  Proof using.
    intro I. apply mb_bind; [apply mb_heap|]. intro h. destruct (nth_error h l) as [[]|]; try apply mb_raise.
    apply mb_bind; [apply mb_budget|]. intro d'. apply mb_store; [exact I|discriminate].
  Qed.
  Lemma mb_adds O l k y : In l O -> msafe O (adds l k y).
  Proof using. intro I. apply mb_bind; [apply mb_heap|]. intro h. destruct (nth_error h l) as [[]|]; try apply mb_raise. apply mb_store; [exact I|discriminate]. Qed.
  Lemma mb_items O l : msafe O (the_items l).
  Proof using. apply mb_bind; [apply mb_heap|]. intro h. destruct (nth_error h l) as [[]|]; try apply mb_raise. apply mb_ret. Qed.
  Lemma mb_tree O v : msafe O (new_tree w ev v).
  Proof using Hobj.
    intros s h [F [K Nw P E Op]]. unfold new_tree. cbn [fst snd]. pose proof (plant_tidy v h K) as Q. destruct (plant pk v h) as [y h']. destruct Q as [K1 [T _]]. cbn [fst snd].
    pose proof (kept_length _ _ K) as L0. pose proof (kept_length _ _ K1) as L1.
    assert (Bk : forall l o, l < List.length h -> at_ h' l = Some o -> at_ h l = Some o).
    { intros l o Lt Q. destruct (nth_error h l) as [o'|] eqn:E'; [|apply nth_error_None in E'; lia]. rewrite (K1 _ _ E') in Q. exact Q. }
    exists (fun l => F l \/ since (List.length h) h' l). constructor.
    - eapply kept_trans; eassumption.
    - intros l [Fl|Fl]; [apply Nw in Fl; lia|unfold since in Fl; lia].
    - intros l o [Fl|Fl] Q.
      + eapply Forall_impl; [|apply (P l o Fl); apply Bk; [apply Nw; exact Fl|exact Q]]. intro z. apply from_imp. auto.
      + eapply Forall_impl; [|apply (T l o); [apply Fl|exact Q]]. intro z. apply from_imp. auto.
    - intros l c m z G Q. destruct (Nat.lt_ge_cases l (List.length h)) as [Lt|Ge].
      + destruct (E l c m z G (Bk _ _ Lt Q)) as [Fl [x [Ox N]]]. split; [left; exact Fl|]. exists x. split; [|exact N]. eapply ob_kept; [exact K1|exact Ox].
      + split; [right; split; [exact Ge|apply nth_error_Some; congruence]|]. exact (proj2 (T l _ Ge Q) c m z eq_refl).
    - intros r I. destruct (Op r I) as [Q1 Q2]. split; [lia|]. intros [Q|Q]; [exact (Q2 Q)|unfold since in Q; lia].
  Qed.
  Lemma plain_coll k l : plainly (hcoll k l).
  Proof using. destruct k; discriminate. Qed.
  Lemma mb_hashes O x : msafe O (hashes w x).
  Proof using. apply mb_bind; [apply mb_heap|]. intro h. apply mb_budget. Qed.
  Lemma mb_lib O r : msafe O (lib w ev r).
  Proof using Hobj. apply mb_bind; [apply mb_lift|]. intro v. apply mb_tree. Qed.
  Lemma mb_made O r : msafe O (made w ev r).
  Proof using Hobj. apply mb_bind; [apply mb_caches|]. intro v. apply mb_tree. Qed.
  Ltac ls := repeat first
    [ assumption
    | apply mb_ret | apply mb_raise | apply mb_heap | apply mb_budget | apply mb_lift | apply mb_caches | apply mb_looks | apply mb_items | apply mb_tree | apply mb_hashes | apply mb_lib | apply mb_made
    | apply mb_sets | apply mb_adds
    | apply mb_alloc; [first [discriminate|apply plain_coll]|intro]
    | apply mb_catch; [|intro] | apply mb_attempt
    | match goal with IH : context [msafe] |- _ => apply IH end
    | apply mb_bind; [|intro]
    | match goal with |- context [match ?x with _ => _ end] => destruct x end ].
  Lemma mb_looksall O fs : msafe O (looks_all fs).
  Proof using Hobj. induction fs as [|[k y] fs IH]; cbn [looks_all]; ls. Qed.
  Lemma mb_default O c f sofar d : hdefault w ev c f sofar = Some d -> msafe O d.
  Proof using Hobj. unfold hdefault. destruct (f_default f); intro E; try discriminate; injection E as <-; ls. apply mb_looksall. Qed.
  Lemma mb_bindfields O an c fs params : forall sofar, msafe O (hbind_fields w ev an c fs params sofar).
  Proof using Hobj.
    induction fs as [|f fs IH]; intro sofar; cbn [hbind_fields]; [apply mb_ret|]. destruct (if f_init f then _ else None) as [y|]; [apply IH|].
    destruct (hdefault w ev c f sofar) as [d|] eqn:E; [|destruct (f_init f); [apply mb_raise|apply IH]].
    apply mb_bind; [eapply mb_default; exact E|]. intro y. apply IH.
  Qed.
  Lemma mb_post O vs' : forall fs vs, msafe O (hpost w ev fs vs vs').
  Proof using Hobj. induction vs' as [|[k v] vs' IH]; intros fs vs; cbn [hpost]; ls. Qed.
  Lemma mb_construct O t params : msafe O (hconstruct w ev t params).
  Proof using Hobj.
    unfold hconstruct, hconstruct_fields. destruct t; try apply mb_raise.
    assert (Q : forall an c fs, msafe O (bind (hbind_fields w ev an c fs params []) (fun ys => bind (looks_all ys) (fun vs => bind (lift (ci_post (class_of w c) vs)) (fun vs' => bind (hpost w ev ys vs vs') (fun ys' => bind (alloc (HObj c ys')) (fun r => ret (HR r)))))))).
    { intros an c0 fs. apply mb_bind; [apply mb_bindfields|]. intro ys. apply mb_bind; [apply mb_looksall|]. intro vs. apply mb_bind; [apply mb_lift|]. intro vs'. apply mb_bind; [apply mb_post|]. intro ys'. ls. }
    cbv zeta. ls; apply Q.
  Qed.
  Lemma mb_calltype O t x v : msafe O (hcall_type w ev t x v).
  Proof using Hobj. unfold hcall_type. ls. Qed.
  Section Body.
    Variable call : handler -> href -> ty -> LM href.
    Hypothesis Hc : forall O hd x t, msafe O (call hd x t).
    Lemma mb_with O x t a : msafe O (hload_with w cfg call x t a).
    Proof using Hobj Hc. unfold hload_with. ls. Qed.
    Lemma mb_hasdict O x : msafe O (has_dict cfg x).
    Proof using Hobj. unfold has_dict. ls. Qed.
    Lemma mb_fast O kt vt kf vf d r : In r O -> msafe O (hdict_fast w cfg call kt vt kf vf d r).
    Proof using Hobj Hc. intro. induction d as [|[k x] d IH]; cbn [hdict_fast]; ls. Qed.
    Lemma mb_slow O kt vt d r : In r O -> msafe O (hdict_slow w cfg call kt vt d r).
    Proof using Hobj Hc.
      intro. induction d as [|[k x] d IH]; cbn [hdict_slow]; [ls|]. apply mb_bind; [ls|intro]. apply mb_bind; [apply mb_with|intro]. apply mb_bind; [ls|intro]. apply mb_bind; [apply mb_with|intro]. ls.
    Qed.
    Lemma mb_dict O x v t : msafe O (hdictload w cfg call x v t).
    Proof using Hobj Hc.
      unfold hdictload. destruct (ty_args t) as [[|kt [|vt [|]]]|]; try apply mb_raise. apply mb_bind; [ls|intro kf0]. apply mb_bind; [apply mb_caches|intros [kf vf]].
      apply mb_bind; [apply mb_hasdict|intro x']. apply mb_bind; [ls|intro h']. cbv zeta.
      apply mb_catch; [|intro e; apply mb_catch; [|intro; ls]]; (destruct (hitems h' x') as [d|]; [|ls]); (apply mb_alloc; [discriminate|]); intros r; [apply mb_fast|apply mb_slow]; left; reflexivity.
    Qed.
    Lemma mb_itererror O {A} v t i e : msafe O (hitem_error (A := A) v t i e).
    Proof using Hobj. unfold hitem_error. ls. Qed.
    Lemma mb_colladd O k y acc : msafe O (hcoll_add w k y acc).
    Proof using Hobj. unfold hcoll_add. ls. Qed.
    Lemma mb_iterloop O k mp f v t l : (forall x, msafe O (f x)) -> forall i acc, msafe O (hiter_loop w k mp f v t l i acc).
    Proof using Hobj.
      intro F. induction l as [|x l IH]; intros i acc; cbn [hiter_loop]; [ls|]. apply mb_bind.
      - apply mb_attempt. apply mb_bind; [apply F|]. intro y. apply mb_colladd.
      - intros [acc'|e]; [apply IH|destruct (stops mp e); [ls|apply mb_itererror]].
    Qed.
    Lemma mb_iteritem O hd et x : msafe O (hiter_item w cfg call hd et x).
    Proof using Hobj Hc. unfold hiter_item. ls. Qed.
    Lemma mb_iter O k x v t : msafe O (hiterload w cfg call k x v t).
    Proof using Hobj Hc.
      unfold hiterload. destruct v; try apply mb_raise; (destruct (ty_args t) as [[|et ?]|]; try apply mb_raise; (apply mb_bind; [ls|intro hd]); (apply mb_bind; [ls|intro h']); (destruct (hiter h' x); [|apply mb_raise]); apply mb_iterloop; intro; apply mb_iteritem).
    Qed.
    Lemma mb_tupleloop O v t ts : forall l i acc, msafe O (htuple_loop cfg call v t l ts i acc).
    Proof using Hobj Hc.
      induction ts as [|et ts IH]; intros [|x l] i acc; cbn [htuple_loop]; try (ls; fail). apply mb_bind; [ls|]. intros [y|e]; [apply IH|apply mb_itererror].
    Qed.
    Lemma mb_tuple O x v t : msafe O (htupleload w cfg call x v t).
    Proof using Hobj Hc.
      unfold htupleload. destruct (ty_args t) as [ts|]; [|apply mb_raise].
      assert (Q : msafe O (match v with
        | VDict _ => raise (XTL KType MDictTuple [] (Some v) (Some t) [])
        | _ =>
            h <- the_heap ;;
            match hiter h x with
            | None => raise (XRaw RType)
            | Some l =>
                if failonextra cfg && Nat.ltb (List.length ts) (List.length l)
                then raise (XTL KValue (MTooLong t) [] (Some v) (Some t) [])
                else if Nat.ltb (List.length l) (List.length ts)
                then raise (XTL KValue (MTooShort t) [] (Some v) (Some t) [])
                else htuple_loop cfg call v t l ts 0 []
            end
        end)).
      { destruct v; try apply mb_raise; (apply mb_bind; [ls|intro h']; destruct (hiter h' x); [|apply mb_raise]; destruct (_ && _); [apply mb_raise|]; destruct (Nat.ltb _ _); [apply mb_raise|apply mb_tupleloop]). }
      destruct ts as [|t1 [|t2 ts]]; try exact Q. destruct t2; try exact Q. destruct ts; [apply mb_iter|exact Q].
    Qed.
    Lemma mb_mangleloop O names skip d r : In r O -> msafe O (hmangle_loop cfg names skip d r).
    Proof using Hobj. intro. induction d as [|[k x] d IH]; cbn [hmangle_loop]; ls. Qed.
    Lemma mb_mangle O names x v t : msafe O (hmangle cfg names x v t).
    Proof using Hobj.
      unfold hmangle. destruct names; [ls|]. apply mb_bind; [ls|intro h']. destruct (hitems h' x) as [d|]; [|ls]. apply mb_alloc; [discriminate|]. intros r. apply mb_bind; [apply mb_mangleloop; left; reflexivity|]. intros [|]; ls.
    Qed.
    Lemma mb_fieldsloop O fields hints v t d r : In r O -> msafe O (hfields_loop cfg call fields hints v t d r).
    Proof using Hobj Hc. intro. induction d as [|[k x] d IH]; cbn [hfields_loop]; ls. Qed.
    Lemma mb_obj O fields nec hints x v t : msafe O (hobjloader w cfg ev call fields nec hints x v t).
    Proof using Hobj Hc.
      unfold hobjloader. apply mb_bind; [apply mb_hasdict|intro x']. apply mb_bind; [ls|intro h']. destruct (as_dict cfg v); try apply mb_raise. destruct (hitems h' x') as [d'|]; [|apply mb_raise]. cbv zeta.
      destruct (filter _ nec); [|apply mb_raise]. destruct (_ && _); [destruct (all_str _); apply mb_raise|]. apply mb_alloc; [discriminate|]. intros r. apply mb_bind; [apply mb_fieldsloop; left; reflexivity|intro]. apply mb_bind; [ls|intro]. apply mb_bind; [apply mb_attempt; apply mb_construct|intro]. ls.
    Qed.
    Lemma mb_trymembers O x v t ts : forall n r exs, msafe O (htry_members cfg call x v t ts n r exs).
    Proof using Hobj Hc. induction ts as [|mt ts IH]; intros n r exs; cbn [htry_members]; ls. Qed.
    Lemma mb_enumhints O x t ts : forall exs, msafe O (henum_hints w cfg ev call x t ts exs).
    Proof using Hobj Hc.
      induction ts as [|mt ts IH]; intros exs; cbn [henum_hints]; [ls|]. apply mb_bind; [|intros [|]; ls]. apply mb_attempt. apply mb_bind; [apply mb_with|intro]. apply mb_bind; [ls|intro]. apply mb_calltype.
    Qed.
    Lemma mb_body O hd x t : msafe O (lbody w cfg ev call hd x t).
    Proof using Hobj Hc.
      unfold lbody. apply mb_bind; [apply mb_looks|intro v]. destruct hd; try apply mb_iter; try apply mb_made; try apply mb_ret; try apply mb_raise; try apply mb_tuple; try apply mb_dict.
      - unfold hunionload. destruct (ty_args t); [|ls]. cbv zeta. destruct (_ && _); [ls|]. apply mb_bind; [ls|intro so]. apply mb_bind; [apply mb_trymembers|]. intros [[n r] exs]. destruct n as [|[|]]; ls.
      - unfold hbasicload. destruct (exact v t); [ls|]. destruct (basiccast cfg); [|ls]. apply mb_bind; [apply mb_attempt; apply mb_calltype|intro]. ls.
      - unfold henumload. apply mb_bind; [apply mb_attempt; apply mb_calltype|]. intros [y|e]; [ls|]. destruct t; try apply mb_raise. apply mb_bind; [ls|intro hints]. apply mb_bind; [apply mb_enumhints|]. intros [|]; ls.
      - unfold hnamedtupleload. destruct t; try apply mb_raise. destruct (ci_nt _); [|ls]. apply mb_bind; [ls|intro hints]. apply mb_obj.
      - unfold hdataclassload. apply mb_bind; [apply mb_caches|intro oi]. apply mb_bind; [apply mb_mangle|intro x']. apply mb_bind; [ls|intro]. apply mb_obj.
      - unfold hforwardrefload. apply mb_bind; [ls|intro st]. destruct (st_frefs st); [|ls]. destruct t; try apply mb_raise. destruct (str_get _ _); [apply mb_with|ls].
      - unfold hliteralload. ls.
      - unfold htypeddictload. destruct t; try apply mb_raise. destruct (ci_td _); [|ls]. apply mb_bind; [ls|intro st]. apply mb_bind; [apply mb_lift|intro hints]. cbv zeta. apply mb_bind; [apply mb_caches|intro]. apply mb_obj.
      - unfold hstrconsload. apply mb_bind; [apply mb_attempt; apply mb_calltype|intro]. ls.
      - unfold hattrload. destruct t; try apply mb_raise. destruct (ci_attrs _); [|ls]. apply mb_bind; [ls|intro hints]. cbv zeta. apply mb_bind; [apply mb_mangle|intro x']. apply mb_bind; [ls|intro]. apply mb_obj.
      - unfold hnewtypeload. destruct t; try apply mb_raise. apply mb_with.
    Qed.
  End Body.
  Lemma mb_run O n hd x t : msafe O (lrun w cfg ev n hd x t).
  Proof using Hobj. revert O hd x t. induction n as [|n IH]; intros O hd x t; cbn [lrun]; [intros s h K; exact K|]. apply mb_body. exact IH. Qed.
  Lemma mb_load O n x t : msafe O (hload w cfg ev n x t).
  Proof using Hobj. apply mb_with. intros O' hd y t'. apply mb_run. Qed.
End Members.

(** no object which load makes is a member of an enum *)
Lemma no_copies w cfg ev n s h x t l c m a ms : class_objects w ev h -> List.length h <= l -> ci_enum (class_of w c) = Some ms -> In (m, a) ms ->
  ~ object (snd (snd (hload w cfg ev n x t (s, h)))) (HR l) (VEnum c m a).
Proof.
  intros Co Ge Em I O.
  destruct (mb_load w cfg ev h Co [] n x t s h) as [F [K Nw P E Op]].
  { exists (fun _ => False). constructor; [apply kept_refl|intros l' []|intros l' o []| |intros r []].
    intros l' c' m' z G Q. assert (l' < List.length h) by (apply nth_error_Some; congruence). lia. }
  apply ob_inv in O as [o [Q T]]. inversion T as [| | | | | | |c' m' z a' Oz|]; subst. destruct (E l c m z Ge Q) as [_ [b [Ob N]]].
  rewrite (ob_det _ _ _ _ Ob Oz) in N. unfold own in N. rewrite Em in N. destruct (in_dec member_dec (m, a) ms); [discriminate|contradiction].
Qed.
Lemma inside_reads (h : heap) x v l : object h x v -> inside_of h x l -> exists a, object h (HR l) a.
Proof.
  intros O I. revert v O. induction I as [l|l o y l' E J I IH]; intros v O; [exists v; exact O|].
  apply ob_inv in O as [o' [E' T]]. rewrite E in E'. injection E' as <-. destruct (tells_parts _ _ _ _ T J) as [a Oa]. exact (IH a Oa).
Qed.
Lemma class_reads w ev h y : class_objects w ev h -> class_object w ev y -> exists v, object h y v.
Proof.
  intros Co [(c & ms & m & x & E & I & ->)|[(c & fs & k & d & E & I & ->)|(c & fs & f & d & E & I & D & ->)]]; eexists.
  - eapply co_member; eassumption.
  - eapply co_nt; eassumption.
  - eapply co_field; eassumption.
Qed.
Lemma old_inside (h h' : heap) x v l a : kept_in h h' -> object h x v -> inside_of h' x l -> object h' (HR l) a -> object h (HR l) a.
Proof.
  intros K O I Oa. assert (Mk : kept (at_ h) (mask (fun _ => false) (at_ h))) by (intros l0 o E; exact E).
  assert (J : inside_of h x l) by (apply (inside_back h h' (fun _ => false) x v l); [eapply ob_kept; [exact Mk|exact O]|exact K|exact I]).
  destruct (inside_reads h x v l O J) as [b Ob]. rewrite (ob_det _ _ _ _ Oa (ob_kept _ _ _ _ K Ob)). exact Ob.
Qed.
