(** * Properties, twenty-seventh part: old versions of the classes (C67)

    [older new w w'] (Rollback.v): [w] is the old version of the program [w']: its
    dataclasses and attrs classes [c] do not have the fields [new c].
    [shrink new x]: the value [x] in the old program: its objects do not have
    the new fields.
    [apart new w' …]: the items of sets, the keys of dictionaries and what the
    annotations of Enums give are not objects with new fields. *)

From Verif Require Import Loader Dumper Spec Vocab Inv Std Obs Hist Reuse Transparent Examples Ground
  Properties1 Properties2 Properties3 RefSound RefComplete RefUse Properties9 Properties17 Evolve Properties24 Rollback.

(** C67 An old version of the program can read what a new one can: without
    failonextra the new fields are ignored *)
Theorem C67_rollback : forall new w w' basic strcons cfg cfg',
  older new w w' ->
  is_std w basic strcons cfg -> is_std w' basic strcons cfg' -> equal_settings cfg cfg' ->
  wf_reflect w -> wf_reflect w' -> uniondebugconflict cfg = false -> failonextra cfg = false ->
  forall env s s' v t,
  shrink new v = v -> apart new w' basic strcons cfg' env v t ->
  used w cfg s -> steady w basic cfg env s v t -> well_formed w basic strcons cfg env v t ->
  used w' cfg' s' -> steady w' basic cfg' env s' v t -> well_formed w' basic strcons cfg' env v t ->
  no_choice w basic strcons cfg env v t -> trials_end w basic cfg env s v t ->
  forall r, loads w' cfg' s' v t (Ok r) -> loads w cfg s v t (Ok (shrink new r)).
Proof.
  intros new w w' basic strcons cfg cfg' Ol Hs Hs' Sm Wr Wr' Ud Fe env s s' v t Da Ap U St Wl U' St' Wl' Nc Te r L.
  apply (C44_exact w basic strcons cfg Hs Wr Ud env s v t U St Wl Nc Te).
  apply (proj1 (gives_shrink new w w' Ol basic strcons cfg cfg' Hs Hs' Sm Fe env v Da t Ap)).
  - exact (C43_steady w' basic strcons cfg' Hs' Wr' env s' v t r U' St' Wl' L).
  - apply rt1n_refl.
  - apply rt1n_refl.
Qed.
Print Assumptions C67_rollback.

(** in particular, when there are neither unions nor annotated Enums in the type *)
Theorem C67_plain : forall new w w' basic strcons cfg cfg',
  older new w w' ->
  is_std w basic strcons cfg -> is_std w' basic strcons cfg' -> equal_settings cfg cfg' ->
  wf_reflect w -> wf_reflect w' -> uniondebugconflict cfg = false -> failonextra cfg = false ->
  forall env s s' v t,
  shrink new v = v -> apart new w' basic strcons cfg' env v t ->
  used w cfg s -> steady w basic cfg env s v t -> well_formed w basic strcons cfg env v t ->
  used w' cfg' s' -> steady w' basic cfg' env s' v t -> well_formed w' basic strcons cfg' env v t ->
  nothing_to_try w basic cfg env v t ->
  forall r, loads w' cfg' s' v t (Ok r) -> loads w cfg s v t (Ok (shrink new r)).
Proof.
  intros new w w' basic strcons cfg cfg' Ol Hs Hs' Sm Wr Wr' Ud Fe env s s' v t Da Ap U St Wl U' St' Wl' [Nu [Ne Nd]].
  apply (C67_rollback new w w' basic strcons cfg cfg' Ol Hs Hs' Sm Wr Wr' Ud Fe env s s' v t Da Ap U St Wl U' St' Wl'); constructor.
  - intros n args x t1 t2 r1 r2 R. destruct (Nu n args R).
  - intros c ms hints x t1 t2 y1 y2 r1 r2 R _ E _ H I1. rewrite (Ne c ms R E) in H. injection H as <-. destruct I1.
  - exact Nd.
  - intros n args x R. destruct (Nu n args R).
  - intros c ms hints x t' R _ E _ H I1. rewrite (Ne c ms R E) in H. injection H as <-. destruct I1.
Qed.
Print Assumptions C67_plain.

(** ** The program of C63: [W0] is the old version of [W63] *)
Definition back_defaults (fs : option (list field)) : Prop :=
  match fs with
  | Some l => Forall (fun f => match f_default f with
                               | DFactorySelf g => forall sofar, g (map (shrinkf new63) sofar) = shrink new63 (g sofar)
                               | DValue d | DFactory d => shrink new63 (grow new63 d) = d
                               | _ => True
                               end) l
  | None => True
  end.
Lemma W0_back n : back_defaults (ci_dc (classes0 n)) /\ back_defaults (ci_attrs (classes0 n)).
Proof.
  revert n. apply (classes63 (fun n ci => back_defaults (ci_dc ci) /\ back_defaults (ci_attrs ci))); [|intro n; split; exact I].
  unfold table0. repeat (apply Forall_cons; [cbn; split; repeat constructor|]); [|apply Forall_nil].
  intro sofar. cbn [f_default]. rewrite get_shrinkf. destruct (str_get "a" sofar); reflexivity.
Qed.
Lemma W0_fewer c fs : back_defaults fs -> fewer_fields new63 c fs (option_map (fun fs => map grow_field fs ++ new63 c) fs).
Proof.
  destruct fs as [fs|]; [|intros _; exact I]. cbn [back_defaults option_map fewer_fields]. intro F. exists (map grow_field fs). split; [|reflexivity].
  induction F as [|f l H _ IH]; [constructor|]. cbn [map]. constructor; [|exact IH]. constructor; try reflexivity.
  intro sofar. cbn [grow_field f_default]. destruct (f_default f); cbn [grow_default default_of option_map]; try reflexivity; rewrite H; reflexivity.
Qed.
Lemma W0_members : forall n ms k x, ci_enum (classes0 n) = Some ms -> In (k, x) ms -> grow new63 x = x /\ shrink new63 x = x.
Proof.
  intros n. apply (classes63 (fun n ci => forall ms k x, ci_enum ci = Some ms -> In (k, x) ms -> grow new63 x = x /\ shrink new63 x = x)); [|discriminate].
  unfold table0. repeat apply Forall_cons; try apply Forall_nil; cbn; intros ms k x E I; try discriminate E; injection E as <-; cbn in I;
    repeat (destruct I as [[= <- <-]|I]; [split; reflexivity|]); destruct I.
Qed.
Lemma W0_nt : forall n, ci_nt (classes0 n) =
  option_map (map (fun kd => (fst kd, option_map (shrink new63) (snd kd)))) (option_map (map (fun kd => (fst kd, option_map (grow new63) (snd kd)))) (ci_nt (classes0 n))).
Proof.
  apply (classes63 (fun n ci => ci_nt ci = option_map (map (fun kd => (fst kd, option_map (shrink new63) (snd kd)))) (option_map (map (fun kd => (fst kd, option_map (grow new63) (snd kd)))) (ci_nt ci)))); [|reflexivity].
  unfold table0. repeat apply Forall_cons; try apply Forall_nil; reflexivity.
Qed.
Lemma iter_shrink new l v : shrink new v = v -> iter v = Some l -> map (shrink new) l = l.
Proof.
  intros G E. rewrite <- (map_id l) at 2. apply map_ext_in. intros x I. eapply part_shrink; [exact G|]. eapply part_item; eassumption.
Qed.
Lemma W0_older : older new63 W0 W63.
Proof.
  constructor.
  - intros []; reflexivity.
  - intros []; try reflexivity. cbn [class_of W63 W0 w_class grow_class ci_enum]. destruct (ci_enum (classes0 n)) as [ms|] eqn:E; [|reflexivity].
    cbn [option_map]. f_equal. rewrite <- (map_id ms) at 2. apply map_ext_in. intros [k x] I. unfold growf. cbn [fst snd].
    destruct (W0_members n ms k x E I) as [-> _]. reflexivity.
  - intros [] ms n' x E I; try discriminate E. exact (proj2 (W0_members _ ms n' x E I)).
  - intros []; try reflexivity. apply W0_nt.
  - intro c. rewrite W63_class. destruct c; try exact I. apply W0_fewer. apply W0_back.
  - intro c. rewrite W63_class. destruct c; try exact I. apply W0_fewer. apply W0_back.
  - intros []; reflexivity.
  - intros [] N; try reflexivity. cbn [class_of W63 w_class grow_class ci_ann]. rewrite N. apply app_nil_r.
  - intros []; reflexivity.
  - intros [] l E; try (injection E as <-; exists []; split; reflexivity). cbn [class_of W63 w_class grow_class ci_hints W0] in *.
    destruct (ci_hints (classes0 n)) as [l0|r]; [|discriminate]. injection E as <-. eauto.
  - intros [] r E; try discriminate E. cbn [class_of W63 w_class grow_class ci_hints W0] in *. destruct (ci_hints (classes0 n)) as [l0|r0]; [discriminate|]. eauto.
  - intros c fs fs' E. rewrite W0_post. assert (fs' = fs) as ->; [|reflexivity]. destruct c; cbn in E; congruence.
  - apply (up_kind new63 W0 W63 W63_up).
  - intros c fs E. revert E. apply (new63_all (fun c l => ci_dc (class_of W0 c) = Some fs \/ ci_attrs (class_of W0 c) = Some fs -> other_names l fs)); [|intros _ _ f g []].
    repeat apply Forall_cons; try apply Forall_nil; cbn [fst snd]; intros [E|E]; vm_compute in E; try discriminate E; injection E as <-;
      (intros f g [<-|[]] Ig; cbn in Ig; repeat (destruct Ig as [<-|Ig]; [split; [|split]; vm_compute; discriminate|]); destruct Ig).
  - intros t v r G E. split; [exact E|]. revert E. cbn [w_call W63 W0]. unfold call0. intro E.
    repeat match type of E with
    | context [match iter v with _ => _ end] => destruct (iter v) as [l|] eqn:I; [|discriminate E]; injection E as <-; cbn [shrink]; rewrite (iter_shrink _ _ _ G I); reflexivity
    | POk _ = POk _ => injection E as <-; try exact G; reflexivity
    | PExc _ = POk _ => discriminate E
    | match ?x with _ => _ end = _ => destruct x
    end.
  - intros c x r E. split; [exact E|]. cbn [w_fromiso W63 W0] in E. destruct (String.eqb x "2020-01-02"); [|discriminate]. injection E as <-. reflexivity.
  - intros c l r G E. split; [exact E|]. cbn [w_callargs W63 W0] in E.
    destruct c; try (injection E as <-; cbn [shrink]; rewrite map_app, G; reflexivity).
    destruct (Nat.eqb (List.length l) 3); [|discriminate]. injection E as <-. cbn [shrink]. rewrite G. reflexivity.
  - intros v r G E. split; [exact E|]. cbn [w_timedelta W63 W0] in E.
    repeat match type of E with
    | POk _ = POk _ => injection E as <-; reflexivity
    | PExc _ = POk _ => discriminate E
    | match ?x with _ => _ end = _ => destruct x
    end.
  - intros v r G E. split; [exact E|]. cbn [w_compile W63 W0] in E.
    assert (X : VInst CPattern v = r); [|rewrite <- X; cbn [shrink]; rewrite G; reflexivity].
    repeat match type of E with
    | POk _ = POk _ => injection E as <-; reflexivity
    | PExc _ = POk _ => discriminate E
    | match ?x with _ => _ end = _ => destruct x
    end.
Qed.
(** data with the new fields, on loaders with a history *)
Definition v67 : value := dict [("v", VInt 1); ("next", dict [("v", VStr "2"); ("labels", VList [])]); ("labels", VList [VStr "a"; VStr "b"])].
Definition in67 : list value := all_inside 9 [v67].
Lemma in67_spec x : inside v67 x -> In x in67.
Proof. apply inside_closed; vm_compute; reflexivity. Qed.
Lemma L9_new t : reach W0 (pep563 C0) env63 (CLS "Node") t -> In t L9.
Proof. apply reach_closed; vm_compute; reflexivity. Qed.
Example C67_ex : let t := CLS "Node" in
  older new63 W0 W63 /\ is_std W63 default_basic default_strcons C63 /\ equal_settings C0 C63 /\ wf_reflect W63 /\ failonextra C0 = false /\
  shrink new63 v67 = v67 /\ apart new63 W63 default_basic default_strcons C63 env63 v67 t /\
  used W0 C0 S2 /\ steady W0 default_basic C0 env63 S2 v67 t /\ well_formed W0 default_basic default_strcons C0 env63 v67 t /\
  used W63 C63 S63 /\ steady W63 default_basic C63 env63 S63 v67 t /\
  well_formed W63 default_basic default_strcons C63 env63 v67 t /\
  no_choice W0 default_basic default_strcons C0 env63 v67 t /\ trials_end W0 default_basic C0 env63 S2 v67 t /\
  loads W63 C63 S63 v67 t (Ok (VObj (CUser "Node")
    [("v", VInt 1); ("next", VObj (CUser "Node") [("v", VInt 2); ("next", VNone); ("tags", VList [])]); ("tags", VList [VStr "a"; VStr "b"])])) /\
  loads W0 C0 S2 v67 t (Ok (VObj (CUser "Node") [("v", VInt 1); ("next", VObj (CUser "Node") [("v", VInt 2); ("next", VNone)])])).
Proof.
  cbv zeta. split; [exact W0_older|]. split; [split; reflexivity|]. split; [repeat split|]. split; [exact wr63|]. split; [reflexivity|]. split; [reflexivity|].
  split.
  { constructor.
    - intros n o et rest x r Ho R. apply L63_spec in R. cbn in R. destruct Ho as [-> | ->]; destruct R as [R|[R|[R|[R|[R|[R|[R|[]]]]]]]]; discriminate.
    - intros n kt vt x r R. apply L63_spec in R. cbn in R. destruct R as [R|[R|[R|[R|[R|[R|[R|[]]]]]]]]; discriminate.
    - intros c ms hints n t x r R E. apply L63_spec in R. cbn in R.
      destruct R as [R|[R|[R|[R|[R|[R|[R|[]]]]]]]]; try discriminate R; injection R as <-; discriminate E. }
  split; [exact S2_used|]. split; [apply (steady_by W0 C0 env63 S2 L9); vm_compute; reflexivity|].
  assert (Dt : forall x, inside v67 x -> python_data x /\ keys_hashable W0 x).
  { intros x I. apply in67_spec in I. apply data_okb_spec. assert (F : forallb data_okb in67 = true) by (vm_compute; reflexivity).
    rewrite forallb_forall in F. exact (F x I). }
  split.
  { constructor; [|exact Dt|apply (W0_never C0 _ L9); vm_compute; reflexivity].
    intros c R _. apply L9_new in R. cbn [L9 In] in R. destruct R as [[= <-]|[[= <-]|[R|[R|[[= <-]|[]]]]]]; try discriminate;
      split; cbn; repeat constructor; cbn; intuition discriminate. }
  split; [unfold S63; repeat constructor|].
  split; [apply (steady_by W63 C63 env63 S63 L63); vm_compute; reflexivity|].
  split; [|split; [|split; [|split]]].
  - constructor.
    + intros c R _. apply L63_spec in R. cbn [L63 In] in R. destruct R as [[= <-]|[[= <-]|[R|[R|[[= <-]|[R|[[= <-]|[]]]]]]]]; try discriminate;
        split; cbn; repeat constructor; cbn; intuition discriminate.
    + intros x I. apply data63; [|exact (Dt x I)]. apply in67_spec in I.
      assert (F : forallb (fun y => if value_eq_dec (grow new63 y) y then true else false) in67 = true) by (vm_compute; reflexivity).
      rewrite forallb_forall in F. specialize (F x I). destruct (value_eq_dec (grow new63 x) x); [assumption|discriminate].
    + apply (W63_never _ L63); vm_compute; reflexivity.
  - constructor.
    + intros n args x t1 t2 r1 r2 R I O I1 I2 N G1 G2. apply L9_new in R. cbn in R.
      destruct R as [R|[R|[R|[R|[R|[]]]]]]; try discriminate. injection R as <- <-. exfalso. apply O.
      assert (Q : x = VNone).
      { destruct I1 as [<-|[<-|[]]]; destruct I2 as [<-|[<-|[]]]; try congruence;
          (apply gives_none in G1; [exact G1|cbn; auto 10]) || (apply gives_none in G2; [exact G2|cbn; auto 10]). }
      subst x. split; cbn; auto 10.
    + intros c ms hints x t1 t2 y1 y2 r1 r2 R I E. apply L9_new in R. cbn in R.
      destruct R as [[= <-]|[[= <-]|[R|[R|[[= <-]|[]]]]]]; try discriminate; discriminate E.
    + intros n kt vt c x R. apply L9_new in R. cbn in R. destruct R as [R|[R|[R|[R|[R|[]]]]]]; discriminate.
  - assert (F1 : forallb (settledb C0 S2 (TForward "Node")) in67 = true) by (vm_compute; reflexivity).
    assert (F2 : forallb (settledb C0 S2 TNone) in67 = true) by (vm_compute; reflexivity).
    rewrite forallb_forall in F1, F2. constructor.
    + intros n args x R I O. apply L9_new in R. cbn in R.
      destruct R as [R|[R|[R|[R|[R|[]]]]]]; try discriminate R. injection R as <- <-. split.
      * intros d k y E L. destruct (L TNone) as [c [tk [vals [[= <-] [Q _]]]]]; [cbn; auto|destruct Q].
      * apply in67_spec in I. intros t' [<-|[<-|[]]]; apply settledb_spec; [exact (F1 x I)|exact (F2 x I)].
    + intros c ms hints x t' R I E. apply L9_new in R. cbn in R.
      destruct R as [R|[R|[R|[R|[R|[]]]]]]; try discriminate R; injection R as <-; discriminate E.
  - split; [discriminate|]. exists 50. vm_compute. reflexivity.
  - split; [discriminate|]. exists 50. vm_compute. reflexivity.
Qed.
(** a type without unions, with a dictionary of objects *)
Definition w67 : value := VDict [(VStr "a", dict [("x", VInt 1); ("z", VInt 7)]); (VInt 3, dict [("x", VInt 2); ("y", VInt 5)])].
Definition T67 : ty := DICT TStr (CLS "Point").
(** both loaders have read the same data before *)
Definition SO67 : lstate := snd (load W0 C0 50 w67 (DICT TStr (CLS "Point")) S2).
Definition SN67 : lstate := snd (load W63 C63 50 w67 (DICT TStr (CLS "Point")) S63).
Definition L67 : list ty := [T67; TStr; CLS "Point"; TInt].
Lemma in67' x : inside w67 x -> In x (all_inside 9 [w67]).
Proof. apply inside_closed; vm_compute; reflexivity. Qed.
Example C67_ex_plain :
  shrink new63 w67 = w67 /\ apart new63 W63 default_basic default_strcons C63 env63 w67 T67 /\
  used W0 C0 SO67 /\ steady W0 default_basic C0 env63 SO67 w67 T67 /\ well_formed W0 default_basic default_strcons C0 env63 w67 T67 /\
  used W63 C63 SN67 /\ steady W63 default_basic C63 env63 SN67 w67 T67 /\ well_formed W63 default_basic default_strcons C63 env63 w67 T67 /\
  nothing_to_try W0 default_basic C0 env63 w67 T67 /\
  loads W63 C63 SN67 w67 T67 (Ok (VDict [(VStr "a", VObj (CUser "Point") [("x", VInt 1); ("y", VInt 0); ("z", VInt 7)]);
                                       (VStr "3", VObj (CUser "Point") [("x", VInt 2); ("y", VInt 5); ("z", VInt 5)])])) /\
  loads W0 C0 SO67 w67 T67 (Ok (VDict [(VStr "a", VObj (CUser "Point") [("x", VInt 1); ("y", VInt 0)]);
                                    (VStr "3", VObj (CUser "Point") [("x", VInt 2); ("y", VInt 5)])])).
Proof.
  assert (LW : forall t, reach W63 (pep563 C63) env63 T67 t -> In t L67) by (intro t; apply reach_closed; vm_compute; reflexivity).
  assert (LO : forall t, reach W0 (pep563 C0) env63 T67 t -> In t L67) by (intro t; apply reach_closed; vm_compute; reflexivity).
  assert (Dt : forall x, inside w67 x -> python_data x /\ keys_hashable W0 x).
  { intros x I. apply in67' in I. apply data_okb_spec. assert (F : forallb data_okb (all_inside 9 [w67]) = true) by (vm_compute; reflexivity).
    rewrite forallb_forall in F. exact (F x I). }
  assert (Ty : forallb (fun x => implb (isinstance W0 x CStr) (cid_eqb (type_of x) CStr)) (all_inside 9 [w67]) = true) by (vm_compute; reflexivity).
  rewrite forallb_forall in Ty.
  split; [reflexivity|]. split.
  { constructor.
    - intros n o et rest x r Ho R. apply LW in R. cbn in R. destruct Ho as [-> | ->]; destruct R as [R|[R|[R|[R|[]]]]]; discriminate.
    - intros n kt vt x r R I G. apply LW in R. cbn in R. destruct R as [R|[R|[R|[R|[]]]]]; try discriminate. injection R as <- <- <-.
      assert (Q : exists y, r = VStr y).
      { inversion G; subst; try discriminate; try (destruct k; discriminate);
          try match goal with
          | O : object_class _ _ _ _ |- _ => exfalso; destruct O as [O _]; apply O; cbn; auto 10
          | O : other_class _ _ _ |- _ => exfalso; destruct O as [O _]; apply O; cbn; auto 10
          | E : ci_enum _ = Some _ |- _ => discriminate E
          | O : _ \/ _ |- _ => exfalso; destruct O as [[O _]|[n0 [a O]]]; discriminate O
          end.
        - apply in67' in I. vm_compute in I. match goal with H : type_of ?v = CStr |- _ => repeat (destruct I as [<-|I]; [try discriminate H; eauto|]); destruct I end.
        - match goal with M : makes _ _ _ _ |- _ => unfold makes in M; cbn in M end.
          match goal with M : _ = POk r |- _ => repeat match type of M with
            | POk _ = POk _ => injection M as <-; eauto
            | PExc _ = POk _ => discriminate M
            | match ?x with _ => _ end = _ => destruct x end end. }
      destruct Q as [y ->]. reflexivity.
    - intros c ms hints n t x r R E. apply LW in R. cbn in R.
      destruct R as [R|[R|[R|[R|[]]]]]; try discriminate R; injection R as <-; discriminate E. }
  split; [unfold SO67; constructor; exact S2_used|]. split; [apply (steady_by W0 C0 env63 SO67 L67); vm_compute; reflexivity|].
  split.
  { constructor; [|exact Dt|apply (W0_never C0 _ L67); vm_compute; reflexivity].
    intros c R _. apply LO in R. cbn in R. destruct R as [R|[R|[R|[R|[]]]]]; try discriminate R; injection R as <-;
      split; cbn; repeat constructor; cbn; intuition discriminate. }
  split; [unfold SN67, S63; repeat constructor|].
  split; [apply (steady_by W63 C63 env63 SN67 L67); vm_compute; reflexivity|].
  split; [|split; [|split]].
  - constructor.
    + intros c R _. apply LW in R. cbn in R. destruct R as [R|[R|[R|[R|[]]]]]; try discriminate R; injection R as <-;
        split; cbn; repeat constructor; cbn; intuition discriminate.
    + intros x I. apply data63; [|exact (Dt x I)]. apply in67' in I.
      assert (F : forallb (fun y => if value_eq_dec (grow new63 y) y then true else false) (all_inside 9 [w67]) = true) by (vm_compute; reflexivity).
      rewrite forallb_forall in F. specialize (F x I). destruct (value_eq_dec (grow new63 x) x); [assumption|discriminate].
    + apply (W63_never _ L67); vm_compute; reflexivity.
  - split; [|split].
    + intros n args R. apply LO in R. cbn in R. destruct R as [R|[R|[R|[R|[]]]]]; discriminate R.
    + intros c ms R E. apply LO in R. cbn in R. destruct R as [R|[R|[R|[R|[]]]]]; try discriminate R; injection R as <-; discriminate E.
    + intros n kt vt c x R I B E J. apply LO in R. cbn in R. destruct R as [R|[R|[R|[R|[]]]]]; try discriminate R. injection R as <- <- <-.
      destruct E as [[= ->]|[= ->]].
      * apply in67' in I. specialize (Ty x I). rewrite J in Ty. apply cid_eqb_eq. exact Ty.
      * cbn in B. repeat (destruct B as [B|B]; [discriminate B|]). destruct B.
  - split; [discriminate|]. exists 50. vm_compute. reflexivity.
  - split; [discriminate|]. exists 50. vm_compute. reflexivity.
Qed.
(** ** The conditions are needed *)
Definition strict (cfg : config) : config :=
  mkConfig (basictypes cfg) (basiccast cfg) true (raiseconditionerrors cfg) (dictequivalence cfg) (mangle_key cfg) (uniondebugconflict cfg) (pep563 cfg) (handlers cfg).
(** with failonextra, the old program refuses the new fields *)
Example C67_refuted_extra :
  older new63 W0 W63 /\ (exists r, loads W63 (strict C63) S63 v67 (CLS "Node") (Ok r)) /\ rejects W0 (strict C0) S2 v67 (CLS "Node").
Proof.
  split; [exact W0_older|]. split; [|rejects_now].
  eexists. (split; [|exists 50; vm_compute; reflexivity]); discriminate.
Qed.
(** objects in a set can be equal without the new field: here points are hashable *)
Definition hashed (w : world) : world :=
  mkWorld (fun n => let ci := w_class w n in mkClass (ci_bases ci) (ci_ann ci) (ci_hints ci) (ci_ihints ci) (ci_enum ci) (ci_nt ci) (ci_dc ci) (ci_attrs ci) (ci_td ci) true (ci_post ci))
    (w_call w) (w_fromiso w) (w_callargs w) (w_timedelta w) (w_compile w) (w_name w) (w_pick w) (w_setorder w) (w_str w) (w_iso w) (w_seconds w).
Lemma hashed_older new w w' : older new w w' -> older new (hashed w) (hashed w').
Proof.
  intros [A1 A2 A3 A4 A5 A6 A7 A8 A9 A10 A11 A12 A13 A14 A15 A16 A17 A18 A19].
  constructor; try assumption; intro c; try (specialize (A1 c)); try (specialize (A2 c)); try (specialize (A3 c)); try (specialize (A4 c));
    try (specialize (A5 c)); try (specialize (A6 c)); try (specialize (A7 c)); try (specialize (A8 c)); try (specialize (A10 c));
    try (specialize (A11 c)); try (specialize (A12 c)); try (specialize (A13 c)); try (specialize (A14 c)); destruct c; try assumption; reflexivity.
Qed.
Example C67_refuted_set : let p z := dict [("x", VInt 1); ("y", VInt 2); ("z", VInt z)] in let v := VList [p 1%Z; p 2%Z] in
  older new63 (hashed W0) (hashed W63) /\
  loads (hashed W63) C63 S63 v (SET (CLS "Point")) (Ok (VSet [VObj (CUser "Point") [("x", VInt 1); ("y", VInt 2); ("z", VInt 1)];
                                                              VObj (CUser "Point") [("x", VInt 1); ("y", VInt 2); ("z", VInt 2)]])) /\
  loads (hashed W0) C0 S2 v (SET (CLS "Point")) (Ok (VSet [VObj (CUser "Point") [("x", VInt 1); ("y", VInt 2)]])).
Proof.
  cbv zeta. split; [apply hashed_older; exact W0_older|].
  split; (split; [discriminate|exists 50; vm_compute; reflexivity]).
Qed.
