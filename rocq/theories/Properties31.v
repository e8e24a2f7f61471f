(** * Properties, thirty-first part: classes which are not involved (C71)

    [same_for w w' basic pep env t] (Apart.v): the programs [w] and [w'] agree about the
    types which loading into [t] can meet; all other classes can be different.
    [same_for_dump w w' v]: they agree about the classes of the objects inside [v]. *)

From Verif Require Import Loader Dumper Spec Vocab Inv Std Obs Hist Reuse Examples Ground Properties1 Properties2 Properties5 Dumps DumpAny Apart.
From Verif Require Local.

(** C71 Unrelated classes have no influence: a class which load(v, t) does not meet can be
    added, removed or changed.  The outcome is the same, and so is the effect on the loader *)
Theorem C71_load : forall w w' basic strcons cfg cfg',
  is_std w basic strcons cfg -> is_std w' basic strcons cfg' -> Local.same_settings cfg cfg' -> wf_reflect w ->
  forall env s v t, same_for w w' basic (pep563 cfg) env t -> used w cfg s ->
  (* the names which t refers to: what the loader knows is what they mean *)
  (forall n t', reach w (pep563 cfg) env t (TForward n) -> knows s n t' -> env n = Some t') ->
  (forall n t', reach w (pep563 cfg) env t (TForward n) -> reach w (pep563 cfg) env t t' ->
     w_name w t' = Some n -> env n = Some t') ->
  (* line 396: the handler of the values of a Dict may be run on the type of
     its keys, which looks at the annotations of that class *)
  (forall n o c vt t', reach w (pep563 cfg) env t (TGen n o (Some [TClass c; vt])) -> Local.annotated w c t' ->
     reach w (pep563 cfg) env t t') ->
  (forall r, loads w cfg s v t r <-> loads w' cfg' s v t r) /\
  (forall r s', ends w cfg s v t r s' <-> ends w' cfg' s v t r s').
Proof.
  intros w w' basic strcons cfg cfg' Hs Hs' Sm Wr env s v t F U Kn Nm Mi.
  pose proof (c71 w w' basic strcons cfg cfg' Hs Hs' Sm Wr env s v t F U Kn Nm Mi) as E. split.
  - intro r. unfold loads. split; intros [N [n X]]; (split; [exact N|]); exists n; rewrite <- X; f_equal; [symmetry|]; apply E.
  - intros r s'. unfold ends. split; intros [N [n X]]; (split; [exact N|]); exists n; rewrite <- X; [symmetry|]; apply E.
Qed.
Print Assumptions C71_load.

(** also when the loaders of the two programs have different histories *)
Theorem C71_loaders : forall w w' basic strcons cfg cfg',
  is_std w basic strcons cfg -> is_std w' basic strcons cfg' -> Local.same_settings cfg cfg' -> wf_reflect w -> wf_reflect w' ->
  forall env s s' v t, same_for w w' basic (pep563 cfg) env t -> used w cfg s -> used w' cfg' s' ->
  resolves w cfg env s t -> resolves w' cfg' env s' t ->
  (forall n t', reach w (pep563 cfg) env t (TForward n) -> reach w (pep563 cfg) env t t' ->
     w_name w t' = Some n -> env n = Some t') ->
  (forall n o c vt t', reach w (pep563 cfg) env t (TGen n o (Some [TClass c; vt])) -> Local.annotated w c t' ->
     reach w (pep563 cfg) env t t') ->
  (* see C20_refuted_dict *)
  (forall n kt vt, reach w (pep563 cfg) env t (TGen n ODict (Some [kt; vt])) ->
     det_dict w basic (inside v) kt vt /\ det_dict w' basic (inside v) kt vt) ->
  (* see C20_refuted_tag and C20_refuted_order *)
  (forall n args, reach w (pep563 cfg) env t (TGen n OUnion (Some args)) -> plain_tags w args /\ plain_tags w' args) ->
  forall r, loads w cfg s v t r <-> loads w' cfg' s' v t r.
Proof. exact c71_any. Qed.
Print Assumptions C71_loaders.

(** the same for dump, whatever was dumped before *)
Theorem C71_dump : forall w w' basic strcons cfg cfg',
  is_dstd w basic strcons cfg -> is_dstd w' basic strcons cfg' -> same_dsettings cfg' cfg ->
  forall s s' v r, dhistory w cfg s -> dhistory w' cfg' s' -> python_value w v -> same_for_dump w w' v ->
  (dumps w cfg s v r <-> dumps w' cfg' s' v r).
Proof. exact c71_dump. Qed.
Print Assumptions C71_dump.

(** a program where Point has other fields, Ren is an attrs class, and the
    class New is added, a subclass of TagA *)
Definition classes71 (n : string) : classinfo :=
  if String.eqb n "Point" then dcls [f0 "other" TStr DNo]
  else if String.eqb n "Ren" then acls [f0 "a" TInt DNo]
  else if String.eqb n "New" then mkClass [CUser "TagA"] [] (POk []) (POk []) (Some [("A", VInt 1)]) None None None None true (fun fs => POk fs)
  else classes0 n.
Definition W71 : world :=
  mkWorld classes71
    (fun t v => if ty_eqb t (CLS "New") then POk (VInt 5) else w_call W0 t v)
    (w_fromiso W0) (w_callargs W0) (w_timedelta W0) (w_compile W0) (w_name W0) (w_pick W0)
    (w_setorder W0) (w_str W0) (w_iso W0) (w_seconds W0).
Definition C71c : config := default_config W71.
Lemma W71_cases (P : classinfo -> classinfo -> Prop) : (forall ci, P ci ci) ->
  P (dcls [f0 "other" TStr DNo]) (classes0 "Point") -> P (acls [f0 "a" TInt DNo]) (classes0 "Ren") ->
  P (mkClass [CUser "TagA"] [] (POk []) (POk []) (Some [("A", VInt 1)]) None None None None true (fun fs => POk fs)) (classes0 "New") ->
  forall c, P (class_of W71 c) (class_of W0 c).
Proof.
  intros H H1 H2 H3 c. destruct c; try apply H. cbn [class_of w_class W71 W0]. unfold classes71.
  destruct (String.eqb_spec n "Point"); [subst; exact H1|]. destruct (String.eqb_spec n "Ren"); [subst; exact H2|].
  destruct (String.eqb_spec n "New"); [subst; exact H3|apply H].
Qed.
Lemma wr71 : wf_reflect W71.
Proof.
  destruct wr0 as [w1 w2 w3]. constructor.
  - intros c. specialize (w1 c). revert w1. apply (W71_cases (fun a b => (ci_td b <> None -> ci_attrs b = None) -> (ci_td a <> None -> ci_attrs a = None))).
    { auto. } all: cbn; intros; congruence.
  - intros c. specialize (w2 c). revert w2.
    apply (W71_cases (fun a b => (forall k t, ci_td b <> None -> In (k, t) (ci_ann b) -> unwrap (unwrap t) = unwrap t) ->
      (forall k t, ci_td a <> None -> In (k, t) (ci_ann a) -> unwrap (unwrap t) = unwrap t))); [auto| | | ]; cbn; intros; congruence.
  - intros c. specialize (w3 c). revert w3.
    apply (W71_cases (fun a b => (forall req k n x, ci_td b = Some req -> In (k, TGen n ONotRequired x) (ci_ann b) -> ~ In k req) ->
      (forall req k n x, ci_td a = Some req -> In (k, TGen n ONotRequired x) (ci_ann a) -> ~ In k req))); [auto| | | ]; cbn; intros; congruence.
Qed.
Lemma same71 c : ~ In c [CUser "Point"; CUser "Ren"; CUser "New"] -> class_of W71 c = class_of W0 c.
Proof.
  destruct c; try reflexivity. intro N. cbn [class_of w_class W71 W0]. unfold classes71.
  destruct (String.eqb_spec n "Point"); [subst; destruct N; left; reflexivity|].
  destruct (String.eqb_spec n "Ren"); [subst; destruct N; right; left; reflexivity|].
  destruct (String.eqb_spec n "New"); [subst; destruct N; right; right; left; reflexivity|reflexivity].
Qed.
Lemma call71 t v : t <> CLS "New" -> w_call W71 t v = w_call W0 t v.
Proof.
  intro N. cbn [w_call W71]. destruct (ty_eqb t (CLS "New")) eqn:E; [|reflexivity]. apply ty_eqb_eq in E. contradiction.
Qed.

Definition S71 : lstate := snd (load W71 C71c 50 (dict [("other", VStr "q")]) (CLS "Point") S0).
Definition T71 : ty := LIST (UNION [CLS "TagA"; CLS "TagB"]).
Definition env71 (n : string) : option ty := None.
(** they differ for Point; not for List[Union[TagA, TagB]] *)
Example C71_ex : let V := VList [dict [("type", VStr "b")]] in
  is_std W0 default_basic default_strcons C0 /\ is_std W71 default_basic default_strcons C71c /\ Local.same_settings C0 C71c /\
  wf_reflect W0 /\ wf_reflect W71 /\ used W0 C0 S2 /\ used W71 C71c S71 /\
  accepts W71 C71c S71 (dict [("other", VStr "q")]) (CLS "Point") /\ rejects W0 C0 S2 (dict [("other", VStr "q")]) (CLS "Point") /\
  same_for W0 W71 default_basic (pep563 C0) env71 T71 /\
  resolves W0 C0 env71 S2 T71 /\ resolves W71 C71c env71 S71 T71 /\
  (forall n, ~ reach W0 (pep563 C0) env71 T71 (TForward n)) /\
  (forall n o c vt t', reach W0 (pep563 C0) env71 T71 (TGen n o (Some [TClass c; vt])) -> Local.annotated W0 c t' ->
     reach W0 (pep563 C0) env71 T71 t') /\
  (forall n kt vt, ~ reach W0 (pep563 C0) env71 T71 (TGen n ODict (Some [kt; vt]))) /\
  (forall n args, reach W0 (pep563 C0) env71 T71 (TGen n OUnion (Some args)) -> plain_tags W0 args /\ plain_tags W71 args) /\
  accepts W0 C0 S2 V T71.
Proof.
  intro V.
  set (L := [T71; UNION [CLS "TagA"; CLS "TagB"]; CLS "TagA"; CLS "TagB"; TLiteral [VStr "a"]; TLiteral [VStr "b"]; TInt]).
  assert (R : forall x, reach W0 (pep563 C0) env71 T71 x -> In x L).
  { intro x. apply (reach_closed W0 C0 env71 L); vm_compute; reflexivity. }
  assert (R' : forall x, reach W71 (pep563 C71c) env71 T71 x -> In x L).
  { intro x. apply (reach_closed W71 C71c env71 L); vm_compute; reflexivity. }
  assert (Q : forall x, In x L -> reach W0 (pep563 C0) env71 T71 x).
  { assert (Ra : forall a b, reach W0 (pep563 C0) env71 T71 a -> In b (comps W0 (pep563 C0) env71 a) -> reach W0 (pep563 C0) env71 T71 b).
    { intros a b H I. eapply reach_step; [exact H|exact I]. }
    assert (R1 : reach W0 (pep563 C0) env71 T71 (UNION [CLS "TagA"; CLS "TagB"])) by (apply (Ra T71); [apply reach_refl|left; reflexivity]).
    assert (R2 : reach W0 (pep563 C0) env71 T71 (CLS "TagA")) by (apply (Ra _ _ R1); left; reflexivity).
    assert (R3 : reach W0 (pep563 C0) env71 T71 (CLS "TagB")) by (apply (Ra _ _ R1); right; left; reflexivity).
    intros x [<-|[<-|[<-|[<-|[<-|[<-|[<-|[]]]]]]]]; try assumption; [apply reach_refl| | | ].
    - apply (Ra _ _ R2). vm_compute. auto.
    - apply (Ra _ _ R3). vm_compute. auto.
    - apply (Ra _ _ R2). vm_compute. auto. }
  split; [split; reflexivity|]. split; [split; reflexivity|]. split; [repeat split|]. split; [exact wr0|]. split; [exact wr71|].
  split; [exact S2_used|]. split; [unfold S71; apply used_again; apply used_new|].
  split; [eexists; split; [|exists 50; vm_compute; reflexivity]; discriminate|].
  split; [eexists; split; [|exists 50; vm_compute; reflexivity]; discriminate|].
  split; [|split; [|split; [|split; [|split; [|split; [|split]]]]]].
  - constructor; try reflexivity.
    + intros c H. apply R in H. apply same71. intro I. cbn in H, I.
      destruct I as [<-|[<-|[<-|[]]]]; repeat (destruct H as [H|H]; [discriminate H|]); contradiction.
    + intros t' v H. apply R in H. apply call71. intros ->. cbn in H. repeat (destruct H as [H|H]; [discriminate H|]); contradiction.
    + apply (W71_cases (fun a b => ci_hash a = ci_hash b)); reflexivity.
    + intros c b Hb. destruct c; try reflexivity. cbn [mro].
      pose proof (W71_cases (fun x y => In b (ci_bases x) <-> In b (ci_bases y))) as X.
      assert (Y : forall c, In b (ci_bases (class_of W71 c)) <-> In b (ci_bases (class_of W0 c))).
      { apply X; [reflexivity|reflexivity|reflexivity|]. split; [|contradiction]. intros [<-|[]]. vm_compute in Hb.
        repeat (destruct Hb as [Hb|Hb]; [discriminate Hb|]). contradiction. }
      specialize (Y (CUser n)). cbn [class_of] in Y. cbn [In]. rewrite Y. reflexivity.
  - intros n H. apply R in H. cbn in H. repeat (destruct H as [H|H]; [discriminate H|]); contradiction.
  - intros n H. apply R' in H. cbn in H. repeat (destruct H as [H|H]; [discriminate H|]); contradiction.
  - intros n H. apply R in H. cbn in H. repeat (destruct H as [H|H]; [discriminate H|]); contradiction.
  - intros n o c vt t' H A. apply R in H. cbn in H.
    repeat (destruct H as [H|H]; [first [discriminate H|injection H as <- <- <- <-]|]); try contradiction.
    apply Q. destruct A as [[l [E A]]|[A|[A|[[fs [E A]]|[fs [E A]]]]]]; try (vm_compute in E; first [discriminate E|injection E as <-]); vm_compute in A; vm_compute; intuition (subst; auto).
  - intros n kt vt H. apply R in H. cbn in H. repeat (destruct H as [H|H]; [discriminate H|]); contradiction.
  - intros n args H. apply R in H. cbn in H.
    repeat (destruct H as [H|H]; [first [discriminate H|injection H as <- <-]|]); try contradiction.
    split; apply plain_tagsb_spec; vm_compute; reflexivity.
  - eexists. split; [|exists 50; vm_compute; reflexivity]; discriminate.
Qed.

(** dump of objects of which none is a Point, a Ren or a New, by dumpers with different histories *)
Definition D71 : dconfig := default_dconfig W71.
Definition V71 : value := VList [VObj (CUser "TagA") [("type", VStr "a"); ("n", VInt 2)]; VInt 3].
Example C71_dump_ex :
  is_dstd W0 default_basic default_dstrcons D0 /\ is_dstd W71 default_basic default_dstrcons D71 /\ same_dsettings D71 D0 /\
  dhistory W0 D0 SD1 /\ dhistory W71 D71 dfresh /\ python_value W0 V71 /\ same_for_dump W0 W71 V71 /\
  dumps W0 D0 SD1 V71 (Ok (VList [dict [("n", VInt 2); ("type", VStr "a")]; VInt 3])).
Proof.
  assert (I : forall x, within V71 x -> In x [V71; VObj (CUser "TagA") [("type", VStr "a"); ("n", VInt 2)]; VInt 3; VStr "a"; VInt 2]).
  { within_now 6; cbn; tauto. }
  split; [split; reflexivity|]. split; [split; reflexivity|]. split; [repeat split|]. split; [exact SD1_used|]. split; [apply dhistory_new|].
  split; [|split].
  - intros x H. apply I in H. cbn in H. destruct H as [<-|[<-|[<-|[<-|[<-|[]]]]]]; cbn; try exact Logic.I.
    split; [reflexivity|]. split; [reflexivity|]. left. discriminate.
  - constructor; try reflexivity.
    + intros x H. apply I in H. apply same71. cbn in H.
      destruct H as [<-|[<-|[<-|[<-|[<-|[]]]]]]; cbn; intuition discriminate.
    + apply (W71_cases (fun a b => ci_hash a = ci_hash b)); reflexivity.
  - split; [discriminate|]. exists 50. vm_compute. reflexivity.
Qed.
