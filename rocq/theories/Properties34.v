(** * Properties, thirty-fourth part: the annotation of a field with a converter (C74)

    [same_upto_converted w w' basic pep env t] (Apart.v): the programs [w] and [w']
    agree about the types which loading into [t] can meet, except that the fields of attrs
    classes which have a converter can be annotated with other types ([converted]). *)

From Verif Require Import Loader Dumper Spec Vocab Inv Std Obs Hist Reuse Examples Ground Properties1 Properties2 Properties5 Dumps DumpAny Apart.
From Verif Require Local.

(** C74 The annotation of an attrs field with a converter is ignored: what matters is the
    type of the parameter of the converter, or Any.  Writing another annotation changes
    neither the outcome of any load nor its effect on the loader *)
Theorem C74_load : forall w w' basic strcons cfg cfg',
  is_std w basic strcons cfg -> is_std w' basic strcons cfg' -> Local.same_settings cfg cfg' -> wf_reflect w ->
  forall env s v t, same_upto_converted w w' basic (pep563 cfg) env t -> used w cfg s ->
  (* the names which t refers to: what the loader knows is what they mean *)
  (forall n t', reach w (pep563 cfg) env t (TForward n) -> knows s n t' -> env n = Some t') ->
  (forall n t', reach w (pep563 cfg) env t (TForward n) -> reach w (pep563 cfg) env t t' ->
     w_name w t' = Some n -> env n = Some t') ->
  (* line 396: the handler of the values of a Dict may be run on the type of
     its keys, which looks at the annotations of that class *)
  (forall n o c vt t', reach w (pep563 cfg) env t (TGen n o (Some [TClass c; vt])) -> Local.annotated w c t' ->
     reach w (pep563 cfg) env t t') ->
  (forall r, loads w cfg s v t r <-> loads w' cfg' s v t r) /\
  (forall r s', ends w cfg s v t r s' <-> ends w' cfg' s v t r s').
Proof.
  intros w w' basic strcons cfg cfg' Hs Hs' Sm Wr env s v t F U Kn Nm Mi.
  pose proof (c74 w w' basic strcons cfg cfg' Hs Hs' Sm Wr env s v t F U Kn Nm Mi) as E. split.
  - intro r. unfold loads. split; intros [N [n X]]; (split; [exact N|]); exists n; rewrite <- X; f_equal; [symmetry|]; apply E.
  - intros r s'. unfold ends. split; intros [N [n X]]; (split; [exact N|]); exists n; rewrite <- X; [symmetry|]; apply E.
Qed.
Print Assumptions C74_load.

(** dump does not look at it either *)
Theorem C74_dump : forall w w' basic strcons cfg cfg',
  is_dstd w basic strcons cfg -> is_dstd w' basic strcons cfg' -> same_dsettings cfg' cfg ->
  forall s s' v r, dhistory w cfg s -> dhistory w' cfg' s' -> python_value w v -> same_for_dump_upto w w' v ->
  (dumps w cfg s v r <-> dumps w' cfg' s' v r).
Proof. exact c74_dump. Qed.
Print Assumptions C74_dump.

(** the program W0 with one more class, Cv *)
Definition classes74 (ci : classinfo) (n : string) : classinfo := if String.eqb n "Cv" then ci else classes0 n.
Definition W74 (ci : classinfo) : world :=
  mkWorld (classes74 ci) (w_call W0) (w_fromiso W0) (w_callargs W0) (w_timedelta W0) (w_compile W0) (w_name W0) (w_pick W0)
    (w_setorder W0) (w_str W0) (w_iso W0) (w_seconds W0).
Definition annotated_attrs (fs : list field) : classinfo :=
  mkClass [] (anns fs) (POk (anns fs)) (POk (anns fs)) None None None (Some fs) None false (fun v => POk v).
Definition cv (t1 t2 : ty) : classinfo :=
  annotated_attrs
    [mkField "x" t1 DNo true true [] (Some []);                        (* converter=str: no type hints *)
     mkField "y" t2 DNo true true [] (Some [("p", LIST TInt)]);        (* def conv(p: List[int]) *)
     mkField "z" TInt (DValue (VInt 0)) true true [] None].
(** class Cv: x: int, y: str; and the same class with x: List[Cv], y: Undefined *)
Definition W74a : world := W74 (cv TInt TStr).
Definition W74b : world := W74 (cv (LIST (CLS "Cv")) (TForward "Undefined")).
Definition C74a : config := default_config W74a.
Definition C74b : config := default_config W74b.

Lemma W74_same (P : classinfo -> classinfo -> Prop) a b : (forall ci, P ci ci) -> P a b ->
  forall c, P (class_of (W74 a) c) (class_of (W74 b) c).
Proof.
  intros H H1 c. destruct c; try apply H. cbn [class_of w_class W74]. unfold classes74. destruct (String.eqb n "Cv"); [exact H1|apply H].
Qed.
Lemma wr74 a : ci_td a = None -> wf_reflect (W74 a).
Proof.
  intro T. destruct wr0 as [w1 w2 w3].
  assert (X : forall P : classinfo -> Prop, (forall ci, ci_td ci = None -> P ci) -> forall c, P (class_of W0 c) -> P (class_of (W74 a) c)).
  { intros P H c Hc. destruct c; try exact Hc. cbn [class_of w_class W74 W0] in *. unfold classes74. destruct (String.eqb n "Cv"); [apply H; exact T|exact Hc]. }
  constructor.
  - intro c. apply (X (fun a => ci_td a <> None -> ci_attrs a = None)); [congruence|apply w1].
  - intro c. apply (X (fun a => forall k t, ci_td a <> None -> In (k, t) (ci_ann a) -> unwrap (unwrap t) = unwrap t)); [congruence|apply w2].
  - intro c. apply (X (fun a => forall req k n x, ci_td a = Some req -> In (k, TGen n ONotRequired x) (ci_ann a) -> ~ In k req)); [congruence|apply w3].
Qed.

Definition T74 : ty := LIST (CLS "Cv").
Definition V74 : value := VList [dict [("x", VNone); ("y", VList [VInt 1]); ("z", VInt 2)]].
Definition O74 : value := VList [VObj (CUser "Cv") [("x", VNone); ("y", VList [VInt 1]); ("z", VInt 2)]].
Definition S74 : lstate := snd (load W74a C74a 50 (VInt 1) T74 S0).
Definition env74 (n : string) : option ty := None.

Lemma converted74 : converted (cv TInt TStr) (cv (LIST (CLS "Cv")) (TForward "Undefined")).
Proof.
  constructor; try (repeat split; reflexivity).
  - exists [mkField "x" TInt DNo true true [] (Some []); mkField "y" TStr DNo true true [] (Some [("p", LIST TInt)]); mkField "z" TInt (DValue (VInt 0)) true true [] None].
    eexists. split; [reflexivity|]. split; [reflexivity|]. constructor; [|constructor; [|constructor; [|constructor]]]; repeat split; discriminate.
  - assert (N : forall t, match strip_notrequired t with TLiteral _ => False | _ => True end -> ~ a_literal t).
    { intros t H [l E]. rewrite E in H. exact H. }
    constructor; [|constructor; [|constructor; [|constructor]]]; split; try reflexivity; [right|right|left; reflexivity]; split; apply N; exact I.
Qed.

Example C74_ex :
  is_std W74a default_basic default_strcons C74a /\ is_std W74b default_basic default_strcons C74b /\ Local.same_settings C74a C74b /\
  wf_reflect W74a /\ same_upto_converted W74a W74b default_basic (pep563 C74a) env74 T74 /\ used W74a C74a S74 /\
  class_of W74a (CUser "Cv") <> class_of W74b (CUser "Cv") /\
  (forall n, ~ reach W74a (pep563 C74a) env74 T74 (TForward n)) /\
  (forall n o a b, ~ reach W74a (pep563 C74a) env74 T74 (TGen n o (Some [a; b]))) /\
  loads W74a C74a S74 V74 T74 (Ok O74) /\
  (* a value of the annotated type is not accepted for y *)
  rejects W74a C74a S74 (VList [dict [("x", VInt 1); ("y", VStr "a")]]) T74.
Proof.
  set (L := [T74; CLS "Cv"; TAny; LIST TInt; TInt]).
  assert (R : forall x, reach W74a (pep563 C74a) env74 T74 x -> In x L).
  { intro x. apply (reach_closed W74a C74a env74 L); vm_compute; reflexivity. }
  assert (NP : forall n o a b, ~ reach W74a (pep563 C74a) env74 T74 (TGen n o (Some [a; b]))).
  { intros n o a b H. apply R in H. cbn in H. repeat (destruct H as [H|H]; [discriminate H|]). contradiction. }
  split; [split; reflexivity|]. split; [split; reflexivity|]. split; [repeat split|]. split; [apply wr74; reflexivity|].
  split; [|split; [|split; [|split; [|split; [exact NP|split]]]]].
  - constructor; try reflexivity.
    + intros c _. pose proof (W74_same (fun a b => b = a \/ converted a b) (cv TInt TStr) (cv (LIST (CLS "Cv")) (TForward "Undefined"))
        (fun ci => or_introl eq_refl) (or_intror converted74) c) as [E|K]; [left; exact E|right; split; [exact K|intros; apply NP]].
    + apply (W74_same (fun a b => ci_hash b = ci_hash a)); reflexivity.
    + intros c b _. destruct c; try reflexivity. cbn [mro In].
      pose proof (W74_same (fun x y => ci_bases y = ci_bases x) (cv TInt TStr) (cv (LIST (CLS "Cv")) (TForward "Undefined"))
        (fun _ => eq_refl) eq_refl (CUser n)) as E. cbn [class_of] in E. unfold W74b, W74a. rewrite E. reflexivity.
  - unfold S74. apply used_again. apply used_new.
  - intro E. discriminate E.
  - intros n H. apply R in H. cbn in H. repeat (destruct H as [H|H]; [discriminate H|]). contradiction.
  - split; [discriminate|]. exists 50. vm_compute. reflexivity.
  - eexists. split; [|exists 50; vm_compute; reflexivity]; discriminate.
Qed.

(** the dump of the object which that load makes *)
Example C74_dump_ex :
  is_dstd W74a default_basic default_dstrcons (default_dconfig W74a) /\ is_dstd W74b default_basic default_dstrcons (default_dconfig W74b) /\
  same_dsettings (default_dconfig W74b) (default_dconfig W74a) /\
  dhistory W74a (default_dconfig W74a) dfresh /\ dhistory W74b (default_dconfig W74b) dfresh /\
  python_value W74a O74 /\ same_for_dump_upto W74a W74b O74 /\
  dumps W74a (default_dconfig W74a) dfresh O74 (Ok V74).
Proof.
  assert (I74 : forall x, within O74 x -> In x [O74; VObj (CUser "Cv") [("x", VNone); ("y", VList [VInt 1]); ("z", VInt 2)]; VNone; VList [VInt 1]; VInt 1; VInt 2]).
  { within_now 6; cbn; tauto. }
  split; [split; reflexivity|]. split; [split; reflexivity|]. split; [repeat split|]. split; [apply dhistory_new|]. split; [apply dhistory_new|].
  split; [|split].
  - intros x H. apply I74 in H. cbn in H. destruct H as [<-|[<-|[<-|[<-|[<-|[<-|[]]]]]]]; cbn; try exact Logic.I.
    split; [reflexivity|]. split; [reflexivity|]. right. discriminate.
  - constructor; try reflexivity.
    + intros x _. apply (W74_same (fun a b => b = a \/ converted a b)); [left; reflexivity|right; exact converted74].
    + apply (W74_same (fun a b => ci_hash b = ci_hash a)); reflexivity.
  - split; [discriminate|]. exists 50. vm_compute. reflexivity.
Qed.

(** except for Literals: the annotation kind: Literal['b'] of a field with a converter still
    decides which alternative of a Union is tried first *)
Definition tagged (l : ty) : classinfo := annotated_attrs [mkField "kind" l DNo true true [] (Some [])].
Definition classes74u (l1 l2 : ty) (n : string) : classinfo :=
  if String.eqb n "Ka" then tagged l1 else if String.eqb n "Kb" then tagged l2 else classes0 n.
Definition W74u (l1 l2 : ty) : world :=
  mkWorld (classes74u l1 l2) (w_call W0) (w_fromiso W0) (w_callargs W0) (w_timedelta W0) (w_compile W0) (w_name W0) (w_pick W0)
    (w_setorder W0) (w_str W0) (w_iso W0) (w_seconds W0).
Theorem C74_refuted_literal :
  let w := W74u TStr TStr in
  let w' := W74u (TLiteral [VStr "a"]) (TLiteral [VStr "b"]) in
  let v := dict [("kind", VStr "b")] in
  let t := UNION [CLS "Ka"; CLS "Kb"] in
  loads w (default_config w) S0 v t (Ok (VObj (CUser "Ka") [("kind", VStr "b")])) /\
  loads w' (default_config w') S0 v t (Ok (VObj (CUser "Kb") [("kind", VStr "b")])).
Proof. split; (split; [discriminate|]); exists 50; vm_compute; reflexivity. Qed.
Print Assumptions C74_refuted_literal.
