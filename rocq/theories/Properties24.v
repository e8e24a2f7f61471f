(** * Properties, twenty-fourth part: new versions of the classes (C63)

    [upgrade new w w'] (Evolve.v): [w'] is the program [w] after the fields
    [new c], which have defaults, were added to its dataclasses and attrs
    classes [c].
    [grow new x]: the value [x] in the changed program: its objects have the new
    fields, with the defaults.
    [old_data new cfg v]: data which do not know about the change: no key is the
    name of a new field. *)

From Verif Require Import Loader Dumper Spec Vocab Inv Std Obs Hist Reuse Transparent Examples Ground
  Properties1 Properties2 Properties3 RefSound RefComplete RefUse Properties9 Properties17 Evolve.

(** C63 Fields with a default can be added to a class: what was accepted before
    is accepted, and the result is the same, with the defaults in the new fields *)
Theorem C63_upgrade : forall new w w' basic strcons cfg cfg',
  upgrade new w w' ->
  is_std w basic strcons cfg -> is_std w' basic strcons cfg' -> equal_settings cfg cfg' ->
  wf_reflect w -> wf_reflect w' -> uniondebugconflict cfg' = false ->
  forall env s s' v t,
  old_data new cfg v ->
  used w cfg s -> steady w basic cfg env s v t -> well_formed w basic strcons cfg env v t ->
  used w' cfg' s' -> steady w' basic cfg' env s' v t -> well_formed w' basic strcons cfg' env v t ->
  no_choice w' basic strcons cfg' env v t -> trials_end w' basic cfg' env s' v t ->
  forall r, loads w cfg s v t (Ok r) -> loads w' cfg' s' v t (Ok (grow new r)).
Proof.
  intros new w w' basic strcons cfg cfg' Up Hs Hs' Sm Wr Wr' Ud env s s' v t O U St Wl U' St' Wl' Nc Te r L.
  apply (C44_exact w' basic strcons cfg' Hs' Wr' Ud env s' v t U' St' Wl' Nc Te).
  apply (proj1 (gives_grow new w w' Up basic strcons cfg cfg' Hs Hs' Sm env)); [|exact O].
  exact (C43_steady w basic strcons cfg Hs Wr env s v t r U St Wl L).
Qed.
Print Assumptions C63_upgrade.

(** in particular, when there are neither unions nor annotated Enums in the type *)
Theorem C63_plain : forall new w w' basic strcons cfg cfg',
  upgrade new w w' ->
  is_std w basic strcons cfg -> is_std w' basic strcons cfg' -> equal_settings cfg cfg' ->
  wf_reflect w -> wf_reflect w' -> uniondebugconflict cfg' = false ->
  forall env s s' v t,
  old_data new cfg v ->
  used w cfg s -> steady w basic cfg env s v t -> well_formed w basic strcons cfg env v t ->
  used w' cfg' s' -> steady w' basic cfg' env s' v t -> well_formed w' basic strcons cfg' env v t ->
  nothing_to_try w' basic cfg' env v t ->
  forall r, loads w cfg s v t (Ok r) -> loads w' cfg' s' v t (Ok (grow new r)).
Proof.
  intros new w w' basic strcons cfg cfg' Up Hs Hs' Sm Wr Wr' Ud env s s' v t O U St Wl U' St' Wl' [Nu [Ne Nd]].
  apply (C63_upgrade new w w' basic strcons cfg cfg' Up Hs Hs' Sm Wr Wr' Ud env s s' v t O U St Wl U' St' Wl'); constructor.
  - intros n args x t1 t2 r1 r2 R. destruct (Nu n args R).
  - intros c ms hints x t1 t2 y1 y2 r1 r2 R _ E _ H I1. rewrite (Ne c ms R E) in H. injection H as <-. destruct I1.
  - exact Nd.
  - intros n args x R. destruct (Nu n args R).
  - intros c ms hints x t' R _ E _ H I1. rewrite (Ne c ms R E) in H. injection H as <-. destruct I1.
Qed.
Print Assumptions C63_plain.

(** ** A program, and its new version: a field with a default for Point, one with a
    name in its metadata for the recursive Node, one for the attrs class Atr *)
Definition table63 : list (string * list field) :=
  [ ("Point", [f0 "z" TInt (DValue (VInt 5))]);
    ("Node", [fm "tags" "labels" (LIST TStr) (DFactory (VList [VStr "x"]))]);
    ("Atr", [f0 "extra" (CLS "Point") (DFactory (VObj (CUser "Point") [("x", VInt 0); ("y", VInt 0); ("z", VInt 5)]))]) ].
Definition new63 (c : cid) : list field :=
  match c with CUser n => match str_get n table63 with Some fs => fs | None => [] end | _ => [] end.
Definition grow_default (d : dflt) : dflt :=
  match d with DValue x => DValue (grow new63 x) | DFactory x => DFactory (grow new63 x) | _ => d end.
Definition grow_field (f : field) : field :=
  mkField (f_name f) (f_type f) (grow_default (f_default f)) (f_init f) (f_repr f) (f_meta f) (f_conv f).
Definition grow_class (c : cid) (ci : classinfo) : classinfo :=
  let more := map (fun f => (f_name f, f_type f)) (new63 c) in
  let hints h := match h with POk l => POk (l ++ more) | PExc r => PExc r end in
  mkClass (ci_bases ci) (ci_ann ci ++ more) (hints (ci_hints ci)) (hints (ci_ihints ci))
    (option_map (map (growf new63)) (ci_enum ci))
    (option_map (map (fun kd => (fst kd, option_map (grow new63) (snd kd)))) (ci_nt ci))
    (option_map (fun fs => map grow_field fs ++ new63 c) (ci_dc ci))
    (option_map (fun fs => map grow_field fs ++ new63 c) (ci_attrs ci))
    (ci_td ci) (ci_hash ci) (fun v => POk v).
Definition W63 : world :=
  mkWorld (fun n => grow_class (CUser n) (classes0 n)) (w_call W0) (w_fromiso W0) (w_callargs W0) (w_timedelta W0) (w_compile W0)
    (w_name W0) (w_pick W0) (w_setorder W0) (w_str W0) (w_iso W0) (w_seconds W0).

(** a property of all the classes of the example *)
Lemma classes63 (P : string -> classinfo -> Prop) :
  Forall (fun nc => P (fst nc) (snd nc)) table0 -> (forall n, P n no_class) -> forall n, P n (classes0 n).
Proof.
  intros F N n. unfold classes0. induction F as [|[k c] l H _ IH]; [apply N|]. cbn [str_get]. destruct (String.eqb n k) eqn:E; [|exact IH].
  apply String.eqb_eq in E. subst k. exact H.
Qed.
Lemma W63_class c : class_of W63 c = match c with CUser n => grow_class c (classes0 n) | _ => no_class end.
Proof. destruct c; reflexivity. Qed.
Definition plain_defaults (fs : option (list field)) : Prop :=
  match fs with
  | Some l => Forall (fun f => match f_default f with
                               | DFactorySelf g => forall sofar, g (map (growf new63) sofar) = grow new63 (g sofar)
                               | _ => True
                               end) l
  | None => True
  end.
Lemma W63_defaults n : plain_defaults (ci_dc (classes0 n)) /\ plain_defaults (ci_attrs (classes0 n)).
Proof.
  revert n. apply (classes63 (fun n ci => plain_defaults (ci_dc ci) /\ plain_defaults (ci_attrs ci))); [|intro n; split; exact I].
  unfold table0. repeat (constructor; [cbn; split; repeat constructor|]); [|constructor].
  intro sofar. cbn [f_default]. rewrite get_growf. destruct (str_get "a" sofar); reflexivity.
Qed.
Lemma W63_more c fs : plain_defaults fs -> more_fields new63 c fs (option_map (fun fs => map grow_field fs ++ new63 c) fs).
Proof.
  destruct fs as [fs|]; [|intros _; exact I]. cbn [plain_defaults option_map more_fields]. intro F. exists (map grow_field fs). split; [|reflexivity].
  induction F as [|f l H _ IH]; [constructor|]. cbn [map]. constructor; [|exact IH]. constructor; try reflexivity.
  intro sofar. cbn [grow_field f_default]. destruct (f_default f); cbn [grow_default default_of option_map]; try reflexivity. rewrite H. reflexivity.
Qed.
Lemma iter_grow new l v : grow new v = v -> iter v = Some l -> map (grow new) l = l.
Proof.
  intros G E. rewrite <- (map_id l) at 2. apply map_ext_in. intros x I. eapply part_grow; [exact G|]. eapply part_item; eassumption.
Qed.
Lemma new63_all (P : cid -> list field -> Prop) :
  Forall (fun nc => P (CUser (fst nc)) (snd nc)) table63 -> (forall c, P c []) -> forall c, P c (new63 c).
Proof.
  intros F N c. unfold new63. destruct c; try apply N.
  match goal with |- context [str_get ?n _] => destruct (str_get n table63) as [fs|] eqn:E end; [|apply N].
  apply str_get_In in E. rewrite Forall_forall in F. exact (F _ E).
Qed.
Lemma W0_post c fs : ci_post (class_of W0 c) fs = POk fs.
Proof.
  destruct c; try reflexivity. cbn [class_of W0 w_class]. revert n. apply (classes63 (fun _ ci => ci_post ci fs = POk fs)); [|reflexivity].
  unfold table0. repeat constructor.
Qed.
Ltac opt := apply Forall_cons; [|apply Forall_nil]; split;
  [eexists; split; [first [left; reflexivity|right; reflexivity]|reflexivity]
  |split; [first [discriminate|intros _; reflexivity]|intros g [<-|[<-|[]]]; vm_compute; discriminate]].
Lemma W63_up : upgrade new63 W0 W63.
Proof.
  constructor.
  - intros []; reflexivity.
  - intros []; reflexivity.
  - intros []; reflexivity.
  - intro c. rewrite W63_class. destruct c; try exact I. apply W63_more. apply W63_defaults.
  - intro c. rewrite W63_class. destruct c; try exact I. apply W63_more. apply W63_defaults.
  - intros []; reflexivity.
  - intros [] N; try reflexivity. cbn [class_of W63 w_class grow_class ci_ann]. rewrite N. apply app_nil_r.
  - intros []; reflexivity.
  - intros [] l E; try (injection E as <-; reflexivity). cbn [class_of W63 w_class grow_class ci_hints W0] in *. rewrite E. reflexivity.
  - intros [] r E; try discriminate E. cbn [class_of W63 w_class grow_class ci_hints W0] in *. rewrite E. eauto.
  - intros c fs fs' E. rewrite W0_post in E. injection E as <-. destruct c; reflexivity.
  - apply (new63_all (fun c fs => fs <> [] -> ci_nt (class_of W0 c) = None /\ ci_td (class_of W0 c) = None /\
      ci_enum (class_of W0 c) = None /\ (ci_dc (class_of W0 c) <> None \/ ci_attrs (class_of W0 c) <> None))); [|intros c N; destruct (N eq_refl)].
    repeat apply Forall_cons; try apply Forall_nil; cbn; intros _; repeat split; try reflexivity; try (left; discriminate); right; discriminate.
  - intros c fs E. revert E. apply (new63_all (fun c l => ci_dc (class_of W0 c) = Some fs -> Forall (optional_field false fs) l)); [|constructor].
    repeat apply Forall_cons; try apply Forall_nil; cbn [fst snd]; intros E; vm_compute in E; try discriminate E; injection E as <-; opt.
  - intros c fs _ E. revert E. apply (new63_all (fun c l => ci_attrs (class_of W0 c) = Some fs -> Forall (optional_field true fs) l)); [|constructor].
    repeat apply Forall_cons; try apply Forall_nil; cbn [fst snd]; intros E; vm_compute in E; try discriminate E; injection E as <-; opt.
  - intros t v r G E. split; [exact E|]. revert E. cbn [w_call W0]. unfold call0. intro E.
    repeat match type of E with
    | context [match iter v with _ => _ end] => destruct (iter v) as [l|] eqn:I; [|discriminate E]; injection E as <-; cbn [grow]; rewrite (iter_grow _ _ _ G I); reflexivity
    | POk _ = POk _ => injection E as <-; try exact G; reflexivity
    | PExc _ = POk _ => discriminate E
    | match ?x with _ => _ end = _ => destruct x
    end.
  - intros c x r E. split; [exact E|]. cbn [w_fromiso W0] in E. destruct (String.eqb x "2020-01-02"); [|discriminate]. injection E as <-. reflexivity.
  - intros c l r G E. split; [exact E|]. cbn [w_callargs W0] in E.
    destruct c; try (injection E as <-; cbn [grow]; rewrite map_app, G; reflexivity).
    destruct (Nat.eqb (List.length l) 3); [|discriminate]. injection E as <-. cbn [grow]. rewrite G. reflexivity.
  - intros v r G E. split; [exact E|]. cbn [w_timedelta W0] in E. 
    repeat match type of E with
    | POk _ = POk _ => injection E as <-; reflexivity
    | PExc _ = POk _ => discriminate E
    | match ?x with _ => _ end = _ => destruct x
    end.
  - intros v r G E. split; [exact E|]. cbn [w_compile W0] in E.
    assert (X : VInst CPattern v = r); [|rewrite <- X; cbn [grow]; rewrite G; reflexivity].
    repeat match type of E with
    | POk _ = POk _ => injection E as <-; reflexivity
    | PExc _ = POk _ => discriminate E
    | match ?x with _ => _ end = _ => destruct x
    end.
Qed.

(** the data of a recursive class, on loaders with a history *)
Definition C63 : config := default_config W63.
Definition S63 : lstate := snd (load W63 C63 50 NODE2 (CLS "Node") S0).
Definition env63 : string -> option ty := names_of S63.
Definition L63 : list ty := [CLS "Node"; TInt; OPT (TForward "Node"); TForward "Node"; TNone; LIST TStr; TStr].
Lemma L63_spec t : reach W63 (pep563 C63) env63 (CLS "Node") t -> In t L63.
Proof. apply reach_closed; vm_compute; reflexivity. Qed.
Lemma wr63 : wf_reflect W63.
Proof.
  destruct wr0 as [A B C]. assert (N : forall c, ci_td (class_of W0 c) <> None -> ci_ann (class_of W63 c) = ci_ann (class_of W0 c)).
  { intros c T. apply (up_ann new63 W0 W63 W63_up). destruct (new63 c) eqn:E; [reflexivity|].
    destruct (up_kind new63 W0 W63 W63_up c) as [_ [K _]]; [rewrite E; discriminate|]. contradiction. }
  constructor.
  - intro c. rewrite (up_td new63 W0 W63 W63_up). intro T. specialize (A c T). pose proof (up_attrs new63 W0 W63 W63_up c) as M.
    rewrite A in M. cbn in M. destruct (ci_attrs (class_of W63 c)); [destruct M|reflexivity].
  - intros c k t. rewrite (up_td new63 W0 W63 W63_up). intros T. rewrite (N c T). apply B. exact T.
  - intros c req k n a. rewrite (up_td new63 W0 W63 W63_up). intros T. rewrite (N c) by congruence. apply C. exact T.
Qed.
Lemma data63 x : grow new63 x = x -> python_data x /\ keys_hashable W0 x -> python_data x /\ keys_hashable W63 x.
Proof.
  intros G [A B]. split; [exact A|]. intros d k y -> I. rewrite <- (B d k y eq_refl I). rewrite <- (ev_hashable new63 W0 W63 W63_up). f_equal.
  symmetry. eapply part_grow; [exact G|]. eapply part_item; [reflexivity|]. apply (in_map fst) in I. exact I.
Qed.
Lemma W63_calm t : t <> CLS "Conv" -> calm W63 t.
Proof.
  intro NC. destruct (W0_calm t NC) as [A B C D E F G]. constructor; try assumption.
  - intros c fs ->. destruct c; discriminate.
  - intros c -> X. apply (B c eq_refl). destruct c; try discriminate X. cbn [class_of W63 w_class grow_class ci_hints W0] in *.
    destruct (ci_hints (classes0 n)); [discriminate X|exact X].
  - intros c fs f hs -> X I Fc. destruct c; try discriminate X. cbn [class_of W63 w_class grow_class ci_attrs] in X.
    destruct (ci_attrs (classes0 n)) as [fs0|] eqn:Y; [|discriminate X]. injection X as <-. apply in_app_or in I as [I|I].
    + apply in_map_iff in I as [f1 [<- I]]. exact (C (CUser n) fs0 f1 hs eq_refl Y I Fc).
    + exfalso. refine (new63_all (fun _ l => In f l -> f_conv f = Some hs -> False) _ _ (CUser n) I Fc); [|intros _ []].
      repeat apply Forall_cons; try apply Forall_nil; cbn [fst snd]; intros [<-|[]]; discriminate.
Qed.
Lemma W63_never env L T : closedb W63 C63 env L = true -> mem_ty T L = true -> mem_ty (CLS "Conv") L = false -> never_stops W63 (pep563 C63) env T.
Proof. intros C M N t' R. apply W63_calm. intros ->. apply (reach_closed W63 C63 env L T _ C M) in R. apply mem_ty_In in R. congruence. Qed.
Lemma names63 k : new_name new63 C0 k -> In k ["z"; "labels"; "extra"].
Proof.
  intros [c [f [b [I ->]]]]. revert c I. apply (new63_all (fun _ l => In f l -> In (external C0 b f) ["z"; "labels"; "extra"])); [|intros _ []].
  repeat apply Forall_cons; try apply Forall_nil; cbn [fst snd]; intros [<-|[]]; destruct b; vm_compute; auto.
Qed.
(** data in which only Dicts occur, without the new names *)
Definition oldb (v : value) : bool :=
  match v with
  | VNamespace _ => false
  | VDict d => forallb (fun kx => match fst kx with VStr k => negb (mem_str k ["z"; "labels"; "extra"]) | _ => true end) d
  | _ => true
  end.
Lemma old63 l v : grow new63 v = v -> (forall x, inside v x -> In x l) -> forallb oldb l = true -> old_data new63 C0 v.
Proof.
  intros G H F. rewrite forallb_forall in F. split; [exact G|]. split; [|split].
  - intros d k x I J N. specialize (F _ (H _ I)). cbn [oldb] in F. rewrite forallb_forall in F. specialize (F _ J). cbn [fst] in F.
    apply names63 in N. apply mem_str_In in N. rewrite N in F. discriminate F.
  - intros a k x I. specialize (F _ (H _ I)). discriminate F.
  - intros a c f b I. specialize (F _ (H _ I)). discriminate F.
Qed.
Definition settled63 (s : lstate) (t : ty) (v : value) : bool :=
  match fst (load W63 C63 50 v t s) with Ok _ => true | Exc (XTL _ _ _ _ _ _) => true | _ => false end.
Lemma settled63_spec s t v : settled63 s t v = true -> settles W63 C63 s v t.
Proof.
  unfold settled63. intro B. exists (fst (load W63 C63 50 v t s)). split.
  - split; [intro Q; rewrite Q in B; discriminate|]. exists 50. reflexivity.
  - destruct (fst (load W63 C63 50 v t s)) as [y|[]|]; try discriminate; [left; eauto|right; unfold raises_tl; eauto 10].
Qed.
Example C63_ex : let t := CLS "Node" in
  upgrade new63 W0 W63 /\ is_std W63 default_basic default_strcons C63 /\ equal_settings C0 C63 /\ wf_reflect W63 /\
  old_data new63 C0 NODE2 /\
  used W0 C0 S2 /\ steady W0 default_basic C0 env63 S2 NODE2 t /\ well_formed W0 default_basic default_strcons C0 env63 NODE2 t /\
  loads W0 C0 S2 NODE2 t (Ok NODE2r) /\
  used W63 C63 S63 /\ steady W63 default_basic C63 env63 S63 NODE2 t /\
  well_formed W63 default_basic default_strcons C63 env63 NODE2 t /\
  no_choice W63 default_basic default_strcons C63 env63 NODE2 t /\ trials_end W63 default_basic C63 env63 S63 NODE2 t /\
  loads W63 C63 S63 NODE2 t (Ok (VObj (CUser "Node")
    [("v", VInt 1); ("next", VObj (CUser "Node") [("v", VInt 2); ("next", VNone); ("tags", VList [VStr "x"])]); ("tags", VList [VStr "x"])])).
Proof.
  cbv zeta. split; [exact W63_up|]. split; [split; reflexivity|]. split; [repeat split|]. split; [exact wr63|].
  split; [exact (old63 in9 NODE2 eq_refl in9_spec eq_refl)|].
  split; [exact S2_used|]. split; [apply (steady_by W0 C0 env63 S2 L9); vm_compute; reflexivity|].
  split.
  { destruct wl9 as [_ B _].
    assert (L9_spec' : forall t, reach W0 (pep563 C0) env63 (CLS "Node") t -> In t L9) by (intro t; apply reach_closed; vm_compute; reflexivity).
    constructor; [|exact B|apply (W0_never C0 _ L9); vm_compute; reflexivity].
    intros c R _. apply L9_spec' in R. cbn [L9 In] in R. destruct R as [[= <-]|[[= <-]|[R|[R|[[= <-]|[]]]]]]; try discriminate;
      split; cbn; repeat constructor; cbn; intuition discriminate. }
  split; [split; [discriminate|exists 50; vm_compute; reflexivity]|].
  split; [unfold S63; repeat constructor|].
  split; [apply (steady_by W63 C63 env63 S63 L63); vm_compute; reflexivity|].
  split; [|split; [|split]].
  - destruct wl9 as [_ B _]. constructor.
    + intros c R _. apply L63_spec in R. cbn [L63 In] in R. destruct R as [[= <-]|[[= <-]|[R|[R|[[= <-]|[R|[[= <-]|[]]]]]]]]; try discriminate;
        split; cbn; repeat constructor; cbn; intuition discriminate.
    + intros x I. apply data63; [|exact (B x I)]. apply in9_spec in I.
      assert (F : forallb (fun y => if value_eq_dec (grow new63 y) y then true else false) in9 = true) by (vm_compute; reflexivity).
      rewrite forallb_forall in F. specialize (F x I). destruct (value_eq_dec (grow new63 x) x); [assumption|discriminate].
    + apply (W63_never _ L63); vm_compute; reflexivity.
  - constructor.
    + intros n args x t1 t2 r1 r2 R I O I1 I2 N G1 G2. apply L63_spec in R. cbn in R.
      destruct R as [R|[R|[R|[R|[R|[R|[R|[]]]]]]]]; try discriminate. injection R as <- <-. exfalso. apply O.
      assert (Q : x = VNone).
      { destruct I1 as [<-|[<-|[]]]; destruct I2 as [<-|[<-|[]]]; try congruence;
          (apply gives_none in G1; [exact G1|cbn; auto 10]) || (apply gives_none in G2; [exact G2|cbn; auto 10]). }
      subst x. split; cbn; auto 10.
    + intros c ms hints x t1 t2 y1 y2 r1 r2 R I E. apply L63_spec in R. cbn in R.
      destruct R as [[= <-]|[[= <-]|[R|[R|[[= <-]|[R|[[= <-]|[]]]]]]]]; try discriminate; discriminate E.
    + intros n kt vt c x R. apply L63_spec in R. cbn in R. destruct R as [R|[R|[R|[R|[R|[R|[R|[]]]]]]]]; discriminate.
  - assert (F1 : forallb (settled63 S63 (TForward "Node")) in9 = true) by (vm_compute; reflexivity).
    assert (F2 : forallb (settled63 S63 TNone) in9 = true) by (vm_compute; reflexivity).
    rewrite forallb_forall in F1, F2. constructor.
    + intros n args x R I O. apply L63_spec in R. cbn in R.
      destruct R as [R|[R|[R|[R|[R|[R|[R|[]]]]]]]]; try discriminate R. injection R as <- <-. split.
      * intros d k y E L. destruct (L TNone) as [c [tk [vals [[= <-] [Q _]]]]]; [cbn; auto|destruct Q].
      * apply in9_spec in I. intros t' [<-|[<-|[]]]; apply settled63_spec; [exact (F1 x I)|exact (F2 x I)].
    + intros c ms hints x t' R I E. apply L63_spec in R. cbn in R.
      destruct R as [R|[R|[R|[R|[R|[R|[R|[]]]]]]]]; try discriminate R; injection R as <-; discriminate E.
  - split; [discriminate|]. exists 50. vm_compute. reflexivity.
Qed.
(** the object of the old version, with the defaults *)
Example C63_ex_grow : grow new63 NODE2r = VObj (CUser "Node")
    [("v", VInt 1); ("next", VObj (CUser "Node") [("v", VInt 2); ("next", VNone); ("tags", VList [VStr "x"])]); ("tags", VList [VStr "x"])].
Proof. reflexivity. Qed.
(** data with the name of the new field: the old program ignores it, the new one
    checks it *)
Example C63_ex_new : let v := dict [("v", VInt 1); ("labels", VInt 3)] in
  (exists r, loads W0 C0 S2 v (CLS "Node") (Ok r)) /\ exists e, loads W63 C63 S63 v (CLS "Node") (Exc e).
Proof. split; eexists; (split; [|exists 50; vm_compute; reflexivity]); discriminate. Qed.
(** a type without unions *)
Definition v63 : value := VList [dict [("l", VList [VStr "1"]); ("p", dict [("x", VInt 1)])]].
Example C63_ex_plain : let t := LIST (CLS "Recs") in
  old_data new63 C0 v63 /\
  used W0 C0 S2 /\ steady W0 default_basic C0 env63 S2 v63 t /\ well_formed W0 default_basic default_strcons C0 env63 v63 t /\
  used W63 C63 S63 /\ steady W63 default_basic C63 env63 S63 v63 t /\ well_formed W63 default_basic default_strcons C63 env63 v63 t /\
  nothing_to_try W63 default_basic C63 env63 v63 t /\
  loads W63 C63 S63 v63 t (Ok (VList [VObj (CUser "Recs") [("l", VList [VInt 1]); ("p", VObj (CUser "Point") [("x", VInt 1); ("y", VInt 0); ("z", VInt 5)])]])).
Proof.
  assert (L57_spec' : forall t, reach W63 (pep563 C63) env63 (LIST (CLS "Recs")) t -> In t L57) by (intro t; apply reach_closed; vm_compute; reflexivity).
  assert (In57 : forall x, inside v63 x -> In x (all_inside 9 [v63])) by (intro x; apply inside_closed; vm_compute; reflexivity).
  cbv zeta. split; [exact (old63 (all_inside 9 [v63]) v63 eq_refl In57 eq_refl)|].
  split; [exact S2_used|]. split; [apply (steady_by W0 C0 env63 S2 L57); vm_compute; reflexivity|].
  split.
  { assert (L57_old : forall t, reach W0 (pep563 C0) env63 (LIST (CLS "Recs")) t -> In t L57) by (intro t; apply reach_closed; vm_compute; reflexivity).
    constructor; [| |apply (W0_never C0 _ L57); vm_compute; reflexivity].
    - intros c R _. apply L57_old in R. cbn in R. destruct R as [R|[R|[R|[R|[R|[]]]]]]; try discriminate R; injection R as <-;
        split; cbn; repeat constructor; cbn; intuition discriminate.
    - intros x I. apply In57 in I. apply data_okb_spec. assert (F : forallb data_okb (all_inside 9 [v63]) = true) by (vm_compute; reflexivity).
      rewrite forallb_forall in F. exact (F x I). }
  split; [unfold S63; repeat constructor|].
  split; [apply (steady_by W63 C63 env63 S63 L57); vm_compute; reflexivity|]. split; [|split].
  - constructor.
    + intros c R _. apply L57_spec' in R. cbn in R. destruct R as [R|[R|[R|[R|[R|[]]]]]]; try discriminate R; injection R as <-;
        split; cbn; repeat constructor; cbn; intuition discriminate.
    + intros x I. apply In57 in I. apply data63.
      * assert (F : forallb (fun y => if value_eq_dec (grow new63 y) y then true else false) (all_inside 9 [v63]) = true) by (vm_compute; reflexivity).
        rewrite forallb_forall in F. specialize (F x I). destruct (value_eq_dec (grow new63 x) x); [assumption|discriminate].
      * apply data_okb_spec. assert (F : forallb data_okb (all_inside 9 [v63]) = true) by (vm_compute; reflexivity).
        rewrite forallb_forall in F. exact (F x I).
    + apply (W63_never _ L57); vm_compute; reflexivity.
  - split; [|split].
    + intros n args R. apply L57_spec' in R. cbn in R. destruct R as [R|[R|[R|[R|[R|[]]]]]]; discriminate R.
    + intros c ms R E. apply L57_spec' in R. cbn in R. destruct R as [R|[R|[R|[R|[R|[]]]]]]; try discriminate R; injection R as <-; discriminate E.
    + intros n kt vt c x R. apply L57_spec' in R. cbn in R. destruct R as [R|[R|[R|[R|[R|[]]]]]]; discriminate R.
  - split; [discriminate|]. exists 50. vm_compute. reflexivity.
Qed.
