(** * Properties, nineteenth part: dump and the identity of objects (C57)

    HDumper.v: the Dumper on objects in a heap, which can be shared and written
    to.  [object h x v]: in the heap [h] the object [x] is the tree [v].
    [hdumps w cfg s h x r s' h']: dump(x) with the caches [s] in the heap [h]
    ends with the outcome [r], the caches [s'] and the heap [h']. *)

From Verif Require Import Loader Dumper Spec Vocab Fuel Dumps Facts5 Examples Ground Properties5 HDumper HDump.

(** C57 dump does not change its argument, nor anything else which exists:
    whatever the outcome, also if the stack is exhausted after [n] levels,
    also if objects contain each other *)
Theorem C57_unchanged : forall w cfg m n s h x t, kept_in h (snd (snd (hdump_ann w cfg m n x t (s, h)))).
Proof. intros w cfg m n s h x t. apply safe_dump. apply kept_refl. Qed.
Print Assumptions C57_unchanged.

(** the outcome is the one for the tree which the object is, however its parts
    are shared, and dump finishes *)
Theorem C57_result : forall w basic strcons cfg, is_dstd w basic strcons cfg ->
  forall s h x v r s' h', dhistory w cfg s -> object h x v -> python_value w v ->
  (forall z, within v z -> library_object w z) ->
  hdumps w cfg s h x r s' h' ->
  dhistory w cfg s' /\
  match r with
  | Ok y => exists a, dumps w cfg s v (Ok a) /\ object h' y a
  | Exc e => dumps w cfg s v (Exc e)
  | OOF => False
  end.
Proof. intros w basic strcons cfg St s h x v r s' h' D O P L. apply (c57_result w basic strcons cfg St s h x v r s' h' D O (conj P L)). Qed.
Print Assumptions C57_result.
Theorem C57_finishes : forall w basic strcons cfg, is_dstd w basic strcons cfg ->
  forall s h x v, dhistory w cfg s -> object h x v -> python_value w v ->
  (forall z, within v z -> library_object w z) ->
  exists r s' h', hdumps w cfg s h x r s' h'.
Proof. intros w basic strcons cfg St s h x v D O P L. apply (c57_total w basic strcons cfg St s h x v D O (conj P L)). Qed.
Print Assumptions C57_finishes.

(** the result consists of new lists and dictionaries, no two the same, and of
    scalars.  As in C25, fields annotated with a collection of a basic type
    must contain that: see C57_refuted. *)
Theorem C57_new : forall w basic strcons cfg, is_dstd w basic strcons cfg ->
  forall s h x v y s' h', dhistory w cfg s -> object h x v -> python_value w v ->
  (forall z, within v z -> library_object w z) ->
  (forall z, within v z -> In (type_of z) basic -> scalar z = true) -> annotations_hold w basic v ->
  hdumps w cfg s h x (Ok y) s' h' ->
  exists ls, made_of h' y ls /\ NoDup ls /\ forall l, In l ls -> List.length h <= l.
Proof. intros w basic strcons cfg St s h x v y s' h' D O P L. apply (c57_new w basic strcons cfg St s h x v y s' h' D O (conj P L)). Qed.
Print Assumptions C57_new.

(** so that editing the result leaves every object as it was, and editing any
    object leaves the result as it was *)
Theorem C57_independent : forall w basic strcons cfg, is_dstd w basic strcons cfg ->
  forall s h x v y s' h', dhistory w cfg s -> object h x v -> python_value w v ->
  (forall z, within v z -> library_object w z) ->
  (forall z, within v z -> In (type_of z) basic -> scalar z = true) -> annotations_hold w basic v ->
  hdumps w cfg s h x (Ok y) s' h' ->
  exists ls, made_of h' y ls /\
    (forall h2, edits (fun l => In l ls) h' h2 -> forall x0 v0, object h x0 v0 -> object h2 x0 v0) /\
    (forall h2 a, edits (fun l => l < List.length h) h' h2 -> object h' y a -> object h2 y a).
Proof.
  intros w basic strcons cfg St s h x v y s' h' D O P L B An H.
  destruct (C57_new w basic strcons cfg St s h x v y s' h' D O P L B An H) as [ls [M [_ Nw]]]. exists ls. split; [exact M|].
  pose proof (hdumps_kept _ _ _ _ _ _ _ _ H) as K. split.
  - intros h2 E x0 v0 [n R]. exists n. eapply read_mono; [apply le_n| |exact R]. intros l o Q.
    apply (edits_keep _ _ _ _ _ E); [|apply K; exact Q]. intro I. apply Nw in I. assert (l < List.length h) by (apply nth_error_Some; congruence). lia.
  - intros h2 a E [n R]. exists n. apply (made_read h' h2 y ls M); [|exact R]. intros l o I. apply (edits_keep _ _ _ _ _ E).
    apply Nw in I. lia.
Qed.
Print Assumptions C57_independent.

(** l = [1]; p = Point(1, 3); r = Recs(l, p); [{"k": l}, r, r, p]: the list, the
    point and the Recs are shared *)
Definition H57 : heap :=
  [HList [HR 1; HR 2; HR 2; HR 4]; HDict [(HV (VStr "k"), HR 3)];
   HObj (CUser "Recs") [("l", HR 3); ("p", HR 4)]; HList [HV (VInt 1)];
   HObj (CUser "Point") [("x", HV (VInt 1)); ("y", HV (VInt 3))]].
Definition V57 : value :=
  let l := VList [VInt 1] in let r := VObj (CUser "Recs") [("l", l); ("p", VP 1 3)] in
  VList [VDict [(VStr "k", l)]; r; r; VP 1 3].
Definition R57 : value :=
  let l := VList [VInt 1] in let p := dict [("y", VInt 3); ("x", VInt 1)] in let r := dict [("p", p); ("l", l)] in
  VList [VDict [(VStr "k", l)]; r; r; p].
Lemma V57_py : python_value W0 V57.
Proof. within_now 6; cbn; repeat split; try discriminate; try (left; discriminate). Qed.
Lemma V57_ann : annotations_hold W0 default_basic V57.
Proof.
  intros c fs hs f t b n o x l y H Eh Ef Et Ib If Ex Iy.
  assert (K : forall z, within V57 z -> z = VObj c fs -> In z [VObj (CUser "Recs") [("l", VList [VInt 1]); ("p", VP 1 3)]; VP 1 3]).
  { within_now 6; intro Q; try discriminate; cbn; auto. }
  specialize (K _ H eq_refl). destruct K as [K|[K|[]]]; injection K as <- <-.
  - destruct If as [Q|[Q|[]]]; injection Q as <- <-.
    + destruct Ex as [Q|[Q|[Q|Q]]]; try discriminate. injection Q as <-. destruct Iy as [<-|[]]. cbn. auto.
    + destruct Ex as [Q|[Q|[Q|Q]]]; discriminate.
  - destruct If as [Q|[Q|[]]]; injection Q as <- <-; destruct Ex as [Q|[Q|[Q|Q]]]; discriminate.
Qed.
Example C57_ex : object H57 (HR 0) V57 /\ python_value W0 V57 /\
  (forall z, within V57 z -> library_object W0 z) /\
  (forall z, within V57 z -> In (type_of z) default_basic -> scalar z = true) /\
  annotations_hold W0 default_basic V57 /\
  exists y s' h', hdumps W0 D0 SD1 H57 (HR 0) (Ok y) s' h' /\ object h' y R57 /\
    made_of h' y [5; 6; 7; 8; 9; 10; 11; 12; 13; 14].
Proof.
  split; [exists 9; vm_compute; reflexivity|]. split; [exact V57_py|].
  split; [within_now 6; exact I|]. split; [within_now 6; cbn; intro Q; try reflexivity; repeat (destruct Q as [Q|Q]; [discriminate|]); contradiction|].
  split; [exact V57_ann|].
  exists (HR 5). eexists. eexists. split; [split; [discriminate|exists 9, 9; vm_compute; reflexivity]|].
  split; [exists 9; vm_compute; reflexivity|].
  assert (Leaf : forall h l a b c d, nth_error h l = Some (HDict [(HV (VStr a), HV (VInt b)); (HV (VStr c), HV (VInt d))]) -> made_of h (HR l) [l]).
  { intros h l a b c d E. apply (mo_dict h l _ [[]; []] E); [intros k z [Q|[Q|[]]]; injection Q as <- _; eexists; split; reflexivity|].
    repeat constructor. }
  assert (One : forall h l a, nth_error h l = Some (HList [HV (VInt a)]) -> made_of h (HR l) [l]).
  { intros h l a E. apply (mo_list h l _ [[]] E). repeat constructor. }
  assert (Rec : forall h l lp ll a b c d z, nth_error h l = Some (HDict [(HV (VStr "p"), HR lp); (HV (VStr "l"), HR ll)]) ->
    nth_error h lp = Some (HDict [(HV (VStr a), HV (VInt b)); (HV (VStr c), HV (VInt d))]) -> nth_error h ll = Some (HList [HV (VInt z)]) -> made_of h (HR l) [l; lp; ll]).
  { intros h l lp ll a b c d z E E1 E2. apply (mo_dict h l _ [[lp]; [ll]] E); [intros k y [Q|[Q|[]]]; injection Q as <- _; eexists; split; reflexivity|].
    constructor; [eapply Leaf; exact E1|]. constructor; [eapply One; exact E2|constructor]. }
  eapply (mo_list _ 5 _ [[6; 7]; [8; 9; 10]; [11; 12; 13]; [14]]); [reflexivity|].
  constructor; [|constructor; [|constructor; [|constructor; [|constructor]]]].
  - eapply (mo_dict _ 6 _ [[7]]); [reflexivity|intros k z [Q|[]]; injection Q as <- _; eexists; split; reflexivity|].
    constructor; [eapply One; reflexivity|constructor].
  - eapply Rec; reflexivity.
  - eapply Rec; reflexivity.
  - eapply Leaf; reflexivity.
Qed.
(** objects which contain each other: nothing changes *)
Example C57_ex_cycle : let h := [HList [HR 0; HR 1]; HDict [(HV (VStr "a"), HR 0)]] in
  (forall v, ~ object h (HR 0) v) /\ fst (hdump_ann W0 D0 9 9 (HR 0) TAny (SD1, h)) = OOF /\
  kept_in h (snd (snd (hdump_ann W0 D0 9 9 (HR 0) TAny (SD1, h)))).
Proof.
  intro h. split; [|split; [vm_compute; reflexivity|apply C57_unchanged]].
  intros v [n R]. assert (N : forall n, read n (at_ h) (HR 0) = None); [|congruence].
  clear. induction n as [|n IH]; [reflexivity|]. cbn [read]. change (nth_error h 0) with (Some (HList [HR 0; HR 1])). cbn [mapo]. rewrite IH. reflexivity.
Qed.

(** Recs([[1]], Point(1, 3)), where the field l is annotated List[int]: the
    list in it is not dumped but shared (line 294), so that appending to the
    one in the result changes the object *)
Definition H57r : heap :=
  [HObj (CUser "Recs") [("l", HR 1); ("p", HR 3)]; HList [HR 2]; HList [HV (VInt 1)];
   HObj (CUser "Point") [("x", HV (VInt 1)); ("y", HV (VInt 3))]].
Theorem C57_refuted : let v l := VObj (CUser "Recs") [("l", VList [VList l]); ("p", VP 1 3)] in
  let h := H57r in
  object h (HR 0) (v [VInt 1]) /\ python_value W0 (v [VInt 1]) /\
  (forall z, within (v [VInt 1]) z -> library_object W0 z) /\
  (forall z, within (v [VInt 1]) z -> In (type_of z) default_basic -> scalar z = true) /\
  exists y s' h' ll, hdumps W0 D0 dfresh h (HR 0) (Ok y) s' h' /\
    (* y["l"][0] *)
    (exists r lr, y = HR r /\ at_ h' r = Some (HDict [(HV (VStr "p"), HR (S r)); (HV (VStr "l"), HR lr)]) /\ at_ h' lr = Some (HList [HR ll])) /\
    (* y["l"][0].append(2) *)
    object (put h' ll (HList [HV (VInt 1); HV (VInt 2)])) (HR 0) (v [VInt 1; VInt 2]).
Proof.
  split; [exists 9; vm_compute; reflexivity|].
  split; [within_now 6; cbn; repeat split; try discriminate; try (left; discriminate)|].
  split; [within_now 6; exact I|]. split; [within_now 6; cbn; intro Q; try reflexivity; repeat (destruct Q as [Q|Q]; [discriminate|]); contradiction|].
  eexists. eexists. eexists. exists 2. split; [split; [discriminate|exists 9, 9; vm_compute; reflexivity]|].
  split; [eexists; eexists; split; [reflexivity|split; reflexivity]|]. exists 9. vm_compute. reflexivity.
Qed.
Print Assumptions C57_refuted.
