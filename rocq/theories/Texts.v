(** * Texts: the text of an exception (C62) *)

From Verif Require Import Loader Render Spec Vocab Facts4.

(** ** Specification *)

(** the attributes of an exception: trace, exceptions, value, type_ *)
Definition trace_of (e : exn) : list titem := match e with XTL _ _ tr _ _ _ => tr | XRaw _ => [] end.
Definition exceptions_of (e : exn) : list exn := match e with XTL _ _ _ _ _ subs => subs | XRaw _ => [] end.
Definition value_of (e : exn) : option value := match e with XTL _ _ _ ve _ _ => ve | XRaw _ => None end.
Definition type_of_exn (e : exn) : option ty := match e with XTL _ _ _ _ te _ => te | XRaw _ => None end.

(** a line, indented by two blanks for each level *)
Definition indented (n : nat) (s : string) : string := (String.concat "" (repeat "  " n) ++ s)%string.

(** The lines about the exception [e], which is at the place [place] of the data:
    the message, the path, and the lines about the exceptions nested in it, which
    are at the places where their traces lead from there (the first item of these
    traces only says which alternative was tried).
    [from_root]: the path of a nested exception goes on from [place]; else it goes
    on from where the trace of [e] starts. *)
Fixpoint report (P : printer) (from_root : bool) (n : nat) (place : list titem) (e : exn) : list string :=
  match e with
  | XRaw _ => []
  | XTL _ m tr _ _ subs =>
      indented n (p_msg P m) :: indented n ("Path: " ++ path P place) ::
      match subs with
      | [] => []
      | _ :: _ => indented n "Exceptions:" ::
                  flat_map (fun x => report P from_root (S n) ((if from_root then place else tr) ++ tl (trace_of x)) x) subs
      end
  end.

(** white space, for str.rstrip() *)
Definition white (c : Ascii.ascii) : Prop :=
  In (Ascii.nat_of_ascii c) [9; 10; 11; 12; 13; 28; 29; 30; 31; 32; 133; 160].
Definition white_space (s : string) : Prop := forall c, In c (list_ascii_of_string s) -> white c.

(** [text] consists of these lines, without the white space at the end *)
Definition text_of (lines : list string) (text : string) : Prop :=
  exists ws, white_space ws /\ String.concat nl lines = (text ++ ws)%string.

(** [nested_at p e p' x]: [x] is [e] or is nested in [e], at any depth; when [e] is
    at the place [p], [x] is at the place [p'] *)
Inductive nested_at : list titem -> exn -> list titem -> exn -> Prop :=
| na_here p e : nested_at p e p e
| na_sub p e x p' y : In x (exceptions_of e) -> nested_at (p ++ tl (trace_of x)) x p' y -> nested_at p e p' y.

(** from [v] and [t] the items of [tr] lead to [v'] and [t']; where a type has
    alternatives, one of them is chosen *)
Inductive leads (w : world) (cfg : config) (env : string -> option ty) : value -> ty -> list titem -> value -> ty -> Prop :=
| leads_here v t : leads w cfg env v t [] v t
| leads_move v t i x t1 tr v' t' : move w cfg env v t i x t1 -> leads w cfg env x t1 tr v' t' -> leads w cfg env v t (i :: tr) v' t'
| leads_alt v t t1 tr v' t' : alternative w t t1 -> leads w cfg env v t1 tr v' t' -> leads w cfg env v t tr v' t'.

(** ** Proofs *)

Lemma sapp_assoc (a b c : string) : ((a ++ b) ++ c)%string = (a ++ (b ++ c))%string.
Proof. induction a as [|x a IH]; cbn; [reflexivity|]. rewrite IH. reflexivity. Qed.
Lemma sapp_nil (a : string) : (a ++ "")%string = a.
Proof. induction a as [|x a IH]; cbn; congruence. Qed.

Lemma blanks_spaces n : String.concat "" (repeat "  " n) = spaces n.
Proof.
  induction n as [|n IH]; [reflexivity|]. cbn [repeat spaces]. rewrite <- IH. destruct n; reflexivity.
Qed.
Lemma spaces_S n : (spaces n ++ "  ")%string = spaces (S n).
Proof.
  induction n as [|n IH]; [reflexivity|]. cbn [spaces]. rewrite sapp_assoc, IH. reflexivity.
Qed.

(** every line followed by a newline *)
Definition each (l : list string) : string := fold_right (fun x r => (x ++ nl ++ r)%string) ""%string l.
Lemma each_app a b : each (a ++ b) = (each a ++ each b)%string.
Proof. induction a as [|x a IH]; cbn [each app fold_right]; [reflexivity|]. fold (each (a ++ b)). fold (each a). rewrite IH, !sapp_assoc. reflexivity. Qed.
Lemma each_concat l : l <> [] -> each l = (String.concat nl l ++ nl)%string.
Proof.
  induction l as [|x l IH]; intro N; [congruence|]. cbn [each fold_right]. fold (each l). destruct l as [|y l]; [cbn [each fold_right String.concat]; rewrite sapp_nil; reflexivity|].
  rewrite IH by discriminate. cbn [String.concat]. rewrite !sapp_assoc. reflexivity.
Qed.
Lemma concat_cons x l : l <> [] -> String.concat nl (x :: l) = (x ++ nl ++ String.concat nl l)%string.
Proof. destruct l; [congruence|reflexivity]. Qed.

Lemma sub_spec P e : forall n s, subexceptions P n e = POk s ->
  s = each (indented n "Exceptions:" :: flat_map (fun x => report P false (S n) (trace_of e ++ tl (trace_of x)) x) (exceptions_of e)).
Proof.
  revert e. fix IH 1. intros [k m tr ve te subs|r] n s H; [|discriminate].
  cbn [subexceptions] in H. cbn [trace_of exceptions_of].
  assert (G : forall l, (forall x n s, In x l -> subexceptions P n x = POk s ->
                s = each (indented n "Exceptions:" :: flat_map (fun y => report P false (S n) (trace_of x ++ tl (trace_of y)) y) (exceptions_of x))) ->
    forall acc s,
    (fix go (l : list exn) (acc : string) : pyres string :=
           match l with
           | [] => POk acc
           | x :: l' =>
               match x with
               | XRaw _ => PExc RAttr
               | XTL _ m tr' _ _ subs' =>
                   let acc1 := (acc ++ firstline P m (S n) ++ nl)%string in
                   let acc2 := (acc1 ++ spaces n ++ "  Path: " ++ path P (tr ++ tl tr') ++ nl)%string in
                   match subs' with
                   | [] => go l' acc2
                   | _ :: _ => match subexceptions P (S n) x with
                               | POk s => go l' (acc2 ++ s)%string
                               | PExc r => PExc r
                               end
                   end
               end
           end) l acc = POk s ->
    s = (acc ++ each (flat_map (fun x => report P false (S n) (tr ++ tl (trace_of x)) x) l))%string).
  { clear IH H s. induction l as [|x l IHl]; intros HI acc s H; [injection H as <-; cbn; rewrite sapp_nil; reflexivity|].
    destruct x as [k0 m0 tr0 ve0 te0 subs0|r]; [|discriminate].
    assert (PL : forall q : string, (spaces n ++ "  Path: " ++ q)%string = indented (S n) ("Path: " ++ q)).
    { intro q. unfold indented. rewrite blanks_spaces, <- spaces_S, sapp_assoc. reflexivity. }
    assert (FL : forall q, firstline P q (S n) = indented (S n) (p_msg P q)).
    { intro q. unfold firstline, indented. rewrite blanks_spaces. reflexivity. }
    rewrite FL in H. cbv zeta in H. cbn [flat_map report trace_of]. rewrite each_app.
    destruct subs0 as [|y subs0].
    - apply IHl in H; [|intros x0 n0 s0 I0; apply HI; right; exact I0]. rewrite H. cbn [each fold_right]. rewrite <- (PL (path P (tr ++ tl tr0))), !sapp_assoc. reflexivity.
    - destruct (subexceptions P (S n) (XTL k0 m0 tr0 ve0 te0 (y :: subs0))) as [z|] eqn:Z; [|discriminate].
      apply HI in Z; [|left; reflexivity]. cbn [trace_of exceptions_of] in Z.
      apply IHl in H; [|intros x0 n0 s0 I0; apply HI; right; exact I0]. rewrite H, Z.
      set (L := flat_map _ (y :: subs0)).
      change (each (indented (S n) (p_msg P m0) :: indented (S n) ("Path: " ++ path P (tr ++ tl tr0)) :: indented (S n) "Exceptions:" :: L))
        with (indented (S n) (p_msg P m0) ++ nl ++ indented (S n) ("Path: " ++ path P (tr ++ tl tr0)) ++ nl ++ each (indented (S n) "Exceptions:" :: L))%string.
      rewrite <- (PL (path P (tr ++ tl tr0))), !sapp_assoc. reflexivity. }
  apply G in H.
  - rewrite H. unfold indented at 1. rewrite blanks_spaces. cbn [each fold_right]. rewrite !sapp_assoc. reflexivity.
  - clear H G. induction subs as [|x subs IHs]; [intros x n0 s0 []|]. intros y n0 s0 [<-|I] Q; [exact (IH x n0 s0 Q)|exact (IHs y n0 s0 I Q)].
Qed.

Lemma is_space_white c : is_space c = true -> white c.
Proof.
  unfold is_space, white. intro H. apply existsb_exists in H as [d [I E]]. apply Ascii.eqb_eq in E. subst d.
  cbn [map In] in I |- *. repeat (destruct I as [<-|I]; [vm_compute; auto 20|]). destruct I.
Qed.
Lemma rstrip_spec s : exists ws, white_space ws /\ s = (rstrip s ++ ws)%string.
Proof.
  induction s as [|c s IH]; [exists EmptyString; split; [intros c []|reflexivity]|]. destruct IH as [ws [W E]]. cbn [rstrip].
  destruct (rstrip s) as [|d r] eqn:R.
  - destruct (is_space c) eqn:S1.
    + exists (String c s). split; [|reflexivity]. intros c' [<-|I]; [apply is_space_white; exact S1|]. apply W. rewrite E in I. exact I.
    + exists ws. split; [exact W|]. cbn. rewrite E at 1. reflexivity.
  - exists ws. split; [exact W|]. cbn [append]. rewrite E at 1. reflexivity.
Qed.
Lemma rstrip_nl s : rstrip (s ++ nl) = rstrip s.
Proof. induction s as [|c s IH]; [reflexivity|]. cbn [append rstrip]. rewrite IH. reflexivity. Qed.

Lemma report_text P e text : str_exn P e = POk text ->
  text_of (report P false 0 (trace_of e) e) text /\ (exceptions_of e = [] -> String.concat nl (report P false 0 (trace_of e) e) = text).
Proof.
  destruct e as [k m tr ve te subs|r]; [|discriminate]. intro H. cbn [str_exn] in H. cbn [trace_of exceptions_of].
  assert (I0 : forall q, indented 0 q = q) by reflexivity.
  destruct subs as [|y subs].
  - assert (E : String.concat nl (report P false 0 tr (XTL k m tr ve te [])) = text).
    { injection H as <-. cbn [report String.concat]. rewrite !I0. unfold firstline. cbn [spaces append]. rewrite ?sapp_assoc. reflexivity. }
    split; [|intros _; exact E]. exists EmptyString. split; [intros c []|]. rewrite sapp_nil. exact E.
  - split; [|discriminate]. destruct (subexceptions P 0 (XTL k m tr ve te (y :: subs))) as [s|] eqn:Q; [|discriminate].
    injection H as <-. apply sub_spec in Q. cbn [trace_of exceptions_of] in Q. cbn [report].
    set (L := indented 0 "Exceptions:" :: flat_map _ (y :: subs)) in *.
    assert (N : L <> []) by (subst L; discriminate). rewrite (each_concat L N) in Q. subst s. rewrite rstrip_nl.
    destruct (rstrip_spec (String.concat nl L)) as [ws [W E]]. exists ws. split; [exact W|].
    change (if false then tr else tr) with tr. fold L.
    rewrite !concat_cons by (try exact N; discriminate). rewrite E at 1. rewrite !I0. unfold firstline. cbn [spaces append]. rewrite !sapp_assoc. reflexivity.
Qed.

(** with one level the two ways to write the paths agree *)
Lemma report_shallow P n e : (forall x, In x (exceptions_of e) -> exceptions_of x = []) ->
  report P true n (trace_of e) e = report P false n (trace_of e) e.
Proof.
  destruct e as [k m tr ve te subs|r]; [|reflexivity]. cbn [exceptions_of trace_of report]. intro H. do 2 f_equal.
  destruct subs as [|y subs]; [reflexivity|]. f_equal.
  assert (G : forall l, (forall x, In x l -> exceptions_of x = []) -> flat_map (fun x => report P true (S n) (tr ++ tl (trace_of x)) x) l =
                        flat_map (fun x => report P false (S n) (tr ++ tl (trace_of x)) x) l); [|exact (G (y :: subs) H)].
  clear H. induction l as [|x l IH]; intro H; [reflexivity|]. cbn [flat_map]. rewrite IH by (intros z I; apply H; right; exact I).
  f_equal. specialize (H x (or_introl eq_refl)). destruct x as [k0 m0 tr0 ve0 te0 subs0|]; [|reflexivity]. cbn in H. subst subs0. reflexivity.
Qed.

Section Places.
  Variable w : world.
  Variable cfg : config.
  Variable env : string -> option ty.

  Lemma walk_leads v t tr v1 t1 tr' v2 t2 : walk w cfg env v t tr v1 t1 -> leads w cfg env v1 t1 tr' v2 t2 -> leads w cfg env v t (tr ++ tr') v2 t2.
  Proof. intros W L. induction W; [exact L|]. cbn [app]. eapply leads_move; eauto. Qed.
  Lemma leads_app v t tr v1 t1 tr' v2 t2 : leads w cfg env v t tr v1 t1 -> leads w cfg env v1 t1 tr' v2 t2 -> leads w cfg env v t (tr ++ tr') v2 t2.
  Proof. intros W L. induction W; [exact L| |]; [cbn [app]; eapply leads_move; eauto|eapply leads_alt; eauto]. Qed.

  (** [e] is about this place *)
  Definition about (e : exn) (v : value) (t : ty) : Prop :=
    reported w cfg env v t (value_of e) (type_of_exn e) /\ Forall (sub_explains w cfg env v t) (exceptions_of e).

  Lemma explains_about v t e : explains w cfg env v t e ->
    exists v' t', walk w cfg env v t (trace_of e) v' t' /\ about e v' t'.
  Proof. intros [v0 t0 k m tr ve te subs v' t' W R _ S1]. exists v', t'. split; [exact W|]. split; [exact R|exact S1]. Qed.

  Lemma nested_places p e p' y : nested_at p e p' y -> is_tl y = true ->
    forall i r v t v1 t1, p = i :: r -> leads w cfg env v t r v1 t1 -> about e v1 t1 ->
    exists r' v2 t2, p' = i :: r' /\ leads w cfg env v t r' v2 t2 /\ about y v2 t2.
  Proof.
    intro N. induction N as [p e|p e x p' y I N IH]; intros T i r v t v1 t1 -> L A; [eauto 6|].
    destruct A as [_ F]. rewrite Forall_forall in F. specialize (F x I). specialize (IH T).
    cbn [app] in IH.
    assert (K : forall tm x0, alternative w t1 tm -> explains w cfg env v1 tm x0 -> tl (trace_of x) = trace_of x0 -> (forall a b, about x0 a b -> about x a b) ->
      exists r' v2 t2, p' = i :: r' /\ leads w cfg env v t r' v2 t2 /\ about y v2 t2).
    { intros tm x0 Al X Tr Ab. destruct (explains_about _ _ _ X) as [v' [t' [W A]]].
      apply (IH i (r ++ tl (trace_of x)) v t v' t' eq_refl); [|apply Ab; exact A].
      rewrite Tr. eapply leads_app; [exact L|]. eapply leads_alt; [exact Al|]. rewrite <- (app_nil_r (trace_of x0)). eapply walk_leads; [exact W|apply leads_here]. }
    destruct F as [v0 n args tm e0 k m tr ve te subs Ia E X|v0 c tm e0 k m tr ve te subs Al E X|v0 c tm k m Al|v0 c tm q Al].
    - apply (K tm e0); [constructor; exact Ia|exact X| |]; subst e0; [reflexivity|]. intros a b H. exact H.
    - apply (K tm e0); [exact Al|exact X| |]; subst e0; [reflexivity|]. intros a b H. exact H.
    - apply (IH i (r ++ []) v t v0 tm eq_refl).
      + eapply leads_app; [exact L|]. eapply leads_alt; [exact Al|apply leads_here].
      + split; [|constructor]. right. exists v0, tm. split; [reflexivity|]. split; [reflexivity|]. split; [left; reflexivity|left; reflexivity].
    - exfalso. inversion N as [p0 e0 Q1 Q2 Q3|p0 e0 x0 p1 y0 In0 N0 Q1]; subst; [discriminate|destruct In0].
  Qed.
End Places.
