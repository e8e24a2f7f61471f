(** * Properties, thirty-second part: new fields in the dump (C72)

    [dump_upgrade new w w'] (GrowDump.v): [w'] is the program [w] after the fields [new c],
    which have constant defaults, were added to its dataclasses and attrs classes [c].
    [grow new x]: the object [x] in the changed program: it, and the objects inside of it, have
    the new fields, with the defaults.
    [old_value new w w' basic strcons x]: [x] is a value of the old program: its objects do not have the
    new fields yet.
    [same_dump]: the same data, the order of the keys aside (C58). *)

From Verif Require Import Loader Dumper Spec Vocab Inv Std Obs Hist Reuse Examples Ground Dumps DumpAny Seed Evolve GrowDump
  Properties1 Properties2 Properties3 Properties5 Properties24.

(** C72 With hidedefault, fields with a default can be added to a class: the objects in which
    they have the default are dumped as before *)
Theorem C72_dump : forall new w w' basic strcons cfg cfg',
  dump_upgrade new w w' ->
  is_dstd w basic strcons cfg -> is_dstd w' basic strcons cfg' -> same_dsettings cfg' cfg -> d_hide cfg = true ->
  forall s s' v,
  dhistory w cfg s -> dhistory w' cfg' s' ->
  python_value w v -> old_value new w w' basic strcons v -> annotations_hold w basic v ->
  (forall x fs, within v x -> ci_dc (class_of w' (type_of x)) = Some fs \/ ci_attrs (class_of w' (type_of x)) = Some fs ->
     NoDup (map f_name fs) /\ NoDup (map (dump_name cfg) fs)) ->
  forall r r', dumps w cfg s v r -> dumps w' cfg' s' (grow new v) r' -> same_dump r r'.
Proof.
  intros new w w' basic strcons cfg cfg' Up Hs Hs' Sm Hi s s' v H H' P O A Nd r r' Dm Dm'.
  exact (dump_grow new w w' basic strcons cfg cfg' Hs Hs' Sm Up Hi s s' v H H' P O A Nd r r' Dm Dm').
Qed.
Print Assumptions C72_dump.

(** Point, Node and the attrs class Atr of the example get fields (Properties24.v) *)
Definition D72 : dconfig := default_dconfig W63.
Lemma W63_dmore c fs : more_dfields new63 c fs (option_map (fun fs => map grow_field fs ++ new63 c) fs).
Proof.
  destruct fs as [fs|]; [|exact I]. cbn [option_map more_dfields]. exists (map grow_field fs). split; [|reflexivity].
  induction fs as [|f l IH]; [constructor|]. cbn [map]. constructor; [|exact IH]. constructor; try reflexivity.
  cbn [grow_field f_default]. destruct (f_default f); cbn [grow_default grown_default]; try reflexivity. eexists. reflexivity.
Qed.
Lemma W63_dump_up : dump_upgrade new63 W0 W63.
Proof.
  constructor.
  - intros []; reflexivity.
  - intros []; reflexivity.
  - intros []; reflexivity.
  - intros []; reflexivity.
  - intro c. rewrite W63_class. destruct c; try exact I. apply W63_dmore.
  - intro c. rewrite W63_class. destruct c; try exact I. apply W63_dmore.
  - intro c. rewrite W63_class. destruct c; try reflexivity. cbn [class_of W0 w_class grow_class ci_ihints].
    destruct (ci_ihints (classes0 n)); [reflexivity|exact I].
  - intros c f. apply (new63_all (fun _ l => In f l -> exists d, (f_default f = DValue d \/ f_default f = DFactory d) /\ py_eqb d d = true)); [|intros _ []].
    repeat apply Forall_cons; try apply Forall_nil; cbn [fst snd]; intros [<-|[]]; eexists; (split; [first [left; reflexivity|right; reflexivity]|reflexivity]).
  - intros c f d. apply (new63_all (fun _ l => In f l -> f_default f = DValue d \/ f_default f = DFactory d -> python_value W63 d)); [|intros _ []].
    repeat apply Forall_cons; try apply Forall_nil; cbn [fst snd]; intros [<-|[]] [E|E]; try discriminate E; injection E as <-;
      within_now 6; cbn; repeat split; try discriminate; left; discriminate.
Qed.

Definition V72 : value :=
  VDict [(VStr "p", VList [VObj (CUser "Point") [("x", VInt 1); ("y", VInt 2)]]); (VStr "a", VObj (CUser "Atr") [("a", VInt 1); ("l", VList [])])].
Definition In72 : list value :=
  [V72; VStr "p"; VList [VObj (CUser "Point") [("x", VInt 1); ("y", VInt 2)]]; VObj (CUser "Point") [("x", VInt 1); ("y", VInt 2)];
   VStr "a"; VObj (CUser "Atr") [("a", VInt 1); ("l", VList [])]; VList []; VInt 1; VInt 2].
Lemma in72 x : within V72 x -> In x In72.
Proof. revert x. within_now 6; cbn; tauto. Qed.
Example C72_ex :
  dump_upgrade new63 W0 W63 /\ is_dstd W0 default_basic default_dstrcons D0 /\ is_dstd W63 default_basic default_dstrcons D72 /\
  same_dsettings D72 D0 /\ d_hide D0 = true /\ dhistory W0 D0 SD1 /\ dhistory W63 D72 dfresh /\
  python_value W0 V72 /\ old_value new63 W0 W63 default_basic default_dstrcons V72 /\ annotations_hold W0 default_basic V72 /\
  (forall x fs, within V72 x -> ci_dc (class_of W63 (type_of x)) = Some fs \/ ci_attrs (class_of W63 (type_of x)) = Some fs ->
     NoDup (map f_name fs) /\ NoDup (map (dump_name D0) fs)) /\
  grow new63 V72 <> V72 /\
  (let r := Ok (dict [("p", VList [dict [("y", VInt 2); ("x", VInt 1)]]); ("a", dict [("A", VInt 1)])]) in
   dumps W0 D0 SD1 V72 r /\ exists r', dumps W63 D72 dfresh (grow new63 V72) r' /\ same_dump r r').
Proof.
  assert (Ov : old_value new63 W0 W63 default_basic default_dstrcons V72).
  { constructor.
    - intros x H. apply in72 in H. cbn in H.
      repeat (destruct H as [<-|H]; [first [intro N; exfalso; apply N; reflexivity|intros _; eauto]|]). contradiction.
    - intros c fs f H. apply in72 in H. cbn in H.
      repeat (destruct H as [H|H]; [first [discriminate H|injection H as <- <-]|]); try contradiction;
        intros [<-|[]]; cbn; intuition discriminate.
    - intros x H I. apply in72 in H. cbn in H. repeat (destruct H as [<-|H]; [first [reflexivity|exfalso; vm_compute in I; intuition discriminate]|]). contradiction.
    - intros c p H. apply in72 in H. cbn in H. repeat (destruct H as [H|H]; [discriminate H|]). contradiction.
    - intros x H I. apply in72 in H. cbn in H. repeat (destruct H as [<-|H]; [exfalso; vm_compute in I; intuition discriminate|]). contradiction.
    - intros x H I. apply in72 in H. cbn in H. repeat (destruct H as [<-|H]; [discriminate I|]). contradiction.
    - intros x H I. apply in72 in H. cbn in H. repeat (destruct H as [<-|H]; [discriminate I|]). contradiction. }
  split; [exact W63_dump_up|]. split; [split; reflexivity|]. split; [split; reflexivity|]. split; [repeat split|]. split; [reflexivity|].
  split; [exact SD1_used|]. split; [apply dhistory_new|].
  assert (P : python_value W0 V72).
  { intros x H. apply in72 in H. cbn in H. repeat (destruct H as [<-|H]; [cbn; repeat split; try discriminate; first [left; discriminate|right; discriminate]|]).
    contradiction. }
  split; [exact P|]. split; [exact Ov|].
  assert (AH : annotations_hold W0 default_basic V72).
  { intros c fs hs f t b n o x l y H. apply in72 in H. cbn in H.
    repeat (destruct H as [H|H]; [first [discriminate H|injection H as <- <-]|]); try contradiction; intros E K T B J Kx Iy;
      cbn in J; repeat (destruct J as [J|J]; [injection J as <- <-; destruct Kx as [Kx|[Kx|[Kx|Kx]]]; try discriminate Kx; injection Kx as <-; contradiction|]); contradiction. }
  assert (Nd : forall x fs, within V72 x -> ci_dc (class_of W63 (type_of x)) = Some fs \/ ci_attrs (class_of W63 (type_of x)) = Some fs ->
     NoDup (map f_name fs) /\ NoDup (map (dump_name D0) fs)).
  { intros x fs H. apply in72 in H. cbn in H.
    repeat (destruct H as [<-|H]; [intros [E|E]; vm_compute in E; first [discriminate E|injection E as <-]; split; cbn; repeat constructor; cbn; intuition discriminate|]).
    contradiction. }
  split; [exact AH|]. split; [exact Nd|]. split; [discriminate|].
  split; [split; [discriminate|exists 50; vm_compute; reflexivity]|].
  assert (Q : exists r', dumps W63 D72 dfresh (grow new63 V72) r').
  { eexists. split; [|exists 50; vm_compute; reflexivity]; discriminate. }
  destruct Q as [r' Q]. exists r'. split; [exact Q|].
  eapply (C72_dump new63 W0 W63 default_basic default_dstrcons D0 D72 W63_dump_up); try eassumption; try reflexivity; try (split; reflexivity).
  - repeat split.
  - exact SD1_used.
  - apply dhistory_new.
  - split; [discriminate|exists 50; vm_compute; reflexivity].
Qed.

(** without hidedefault the new fields appear *)
Definition without_hide (cfg : dconfig) : dconfig := mkDConfig (d_basic cfg) false (d_iso cfg) (d_rce cfg) (d_mk cfg) (d_handlers cfg).
Lemma forall2_length {A B} (R : A -> B -> Prop) l l' : Forall2 R l l' -> List.length l = List.length l'.
Proof. intro F. induction F; cbn; congruence. Qed.
Theorem C72_refuted_shown : exists r r', dumps W0 (without_hide D0) dfresh (VObj (CUser "Atr") [("a", VInt 1); ("l", VList [])]) r /\
  dumps W63 (without_hide D72) dfresh (grow new63 (VObj (CUser "Atr") [("a", VInt 1); ("l", VList [])])) r' /\ ~ same_dump r r'.
Proof.
  eexists. eexists. split; [split; [|exists 50; vm_compute; reflexivity]; discriminate|].
  split; [split; [|exists 50; vm_compute; reflexivity]; discriminate|].
  cbn. intro H. inversion H as [| |d d1 d' Pm F]; apply Permutation_length in Pm;
    apply forall2_length in F. rewrite F in Pm. cbn in Pm. discriminate Pm.
Qed.
Print Assumptions C72_refuted_shown.
