(** * Properties, part 23: the text of exceptions (C62) *)

From Verif Require Import Loader Render Spec Vocab Inv Std Fuel Trace Hist Facts4 Texts Examples Ground Properties1 Properties2 Properties3 Properties4.

(** C62 The text of an exception shows all the exceptions nested in it, in order,
    each with its message and with a path ([report], Texts.v) *)
Theorem C62_lines : forall P e text, str_exn P e = POk text -> text_of (report P false 0 (trace_of e) e) text.
Proof. intros P e text H. apply (report_text P e text H). Qed.
Print Assumptions C62_lines.

(** with one level of nesting, all the paths start at the root *)
Theorem C62_text : forall P e text, str_exn P e = POk text ->
  (forall x, In x (exceptions_of e) -> exceptions_of x = []) ->
  text_of (report P true 0 (trace_of e) e) text.
Proof. intros P e text H S1. rewrite report_shallow by exact S1. apply (report_text P e text H). Qed.
Print Assumptions C62_text.

(** without nested exceptions, nothing is removed at the end *)
Theorem C62_single : forall P k m tr ve te text, str_exn P (XTL k m tr ve te []) = POk text ->
  text = (p_msg P m ++ nl ++ "Path: " ++ path P tr)%string.
Proof. intros P k m tr ve te text H. destruct (report_text P _ text H) as [_ E]. symmetry. exact (E eq_refl). Qed.
Print Assumptions C62_single.

(** The place of a nested exception is a place in the data: following it from
    the loaded value, through one of the alternatives wherever a type has some,
    leads to the value and the type which the nested exception reports *)
Theorem C62_places : forall w basic strcons cfg, is_std w basic strcons cfg -> wf_reflect w ->
  forall s v t e s', used w cfg s -> supported cfg t -> ends w cfg s v t (Exc e) s' -> is_tl e = true ->
  forall p y, nested_at (trace_of e) e p y -> is_tl y = true ->
  exists r v' t', p = (v, t, None) :: r /\ leads w cfg (names_of s') v t r v' t' /\
    reported w cfg (names_of s') v' t' (value_of y) (type_of_exn y).
Proof.
  intros w basic strcons cfg Hs Hw s v t e s' U Su E T p y N Ty.
  destruct e as [k m tr ve te subs|]; [|discriminate].
  destruct (c18 w basic strcons cfg Hs Hw s v t k m tr ve te subs s' U E) as [[F _]|[tr' [-> X]]]; [contradiction|].
  destruct (explains_about _ _ _ _ _ _ X) as [v1 [t1 [W A]]]. cbn [trace_of] in *.
  destruct (nested_places w cfg (names_of s') _ _ _ _ N Ty (v, t, None) tr' v t v1 t1 eq_refl) as [r [v2 [t2 [-> [L [R _]]]]]].
  - rewrite <- (app_nil_r tr'). eapply walk_leads; [exact W|apply leads_here].
  - exact A.
  - eauto 6.
Qed.
Print Assumptions C62_places.

Definition U62 : ty := UNION [TLiteral [VInt 1]; TLiteral [VInt 2]].
Definition T62 : ty := LIST (UNION [LIST U62; TLiteral [VInt 3]]).
Definition V62 : value := VList [VInt 3; VList [VInt 2; VStr "x"]].
Definition exception_of (r : res value) : exn := match r with Exc e => e | _ => XRaw RType end.
Definition E62 : exn := exception_of (fst (load W0 C0 50 V62 T62 S2)).
Definition A62 : exn := exception_of (fst (load W0 C0 50 (VList [VInt 2; VStr "x"]) (LIST U62) S2)).

(** load([2, 'x'], List[Union[Literal[1], Literal[2]]]): the text is that of
    these lines; the text of the nested exceptions is not deeper *)
Example C62_ex : loads W0 C0 S2 (VList [VInt 2; VStr "x"]) (LIST U62) (Exc A62) /\
  (forall x, In x (exceptions_of A62) -> exceptions_of x = []) /\
  report P0 true 0 (trace_of A62) A62 =
    ["msg"; "Path: .[1]"; "Exceptions:"; "  msg"; "  Path: .[1]"; "  msg"; "  Path: .[1]"] /\
  str_exn P0 A62 = POk (String.concat nl (report P0 true 0 (trace_of A62) A62)).
Proof.
  split; [split; [discriminate|exists 50; vm_compute; reflexivity]|].
  split; [vm_compute; intros x [<-|[<-|[]]]; reflexivity|]. split; vm_compute; reflexivity.
Qed.

(** in [3, [2, 'x']] the exception of the alternative Literal[1] for the item 'x' is
    at .[1].[1] *)
Example C62_places_ex : supported C0 T62 /\
  exists s', ends W0 C0 S2 V62 T62 (Exc E62) s' /\
  exists p y, nested_at (trace_of E62) E62 p y /\ value_of y = Some (VStr "x") /\ type_of_exn y = Some (TLiteral [VInt 1]) /\ path P0 p = ".[1].[1]".
Proof.
  split; [eexists; reflexivity|]. eexists. split; [split; [discriminate|exists 50; vm_compute; reflexivity]|].
  do 2 eexists. split.
  - eapply na_sub; [vm_compute; left; reflexivity|]. eapply na_sub; [vm_compute; left; reflexivity|]. apply na_here.
  - repeat split; vm_compute; reflexivity.
Qed.

Lemma prefix_app (a b : string) : String.prefix a (a ++ b) = true.
Proof. induction a as [|c a IH]; [destruct b; reflexivity|]. cbn. destruct (Ascii.ascii_dec c c); [exact IH|congruence]. Qed.

(** Deeper in, the path in the text does not start at the root: here the text shows
    the path of that exception as the name of the type List[...] followed by .[1] *)
Theorem C62_refuted : exists w basic strcons cfg s v t e P text p y,
  is_std w basic strcons cfg /\ wf_world w basic strcons /\ used w cfg s /\ loads w cfg s v t (Exc e) /\
  str_exn P e = POk text /\ nested_at (trace_of e) e p y /\
  path P p = ".[1].[1]" /\ In "    Path: .[1].[1]" (report P true 0 (trace_of e) e) /\
  ~ text_of (report P true 0 (trace_of e) e) text /\
  text = String.concat nl
    ["msg"; "Path: .[1]"; "Exceptions:";
     "  msg"; "  Path: .[1].[1]"; "  Exceptions:";
     "    msg"; "    Path: T.[1]"; "    msg"; "    Path: T.[1]";
     "  msg"; "  Path: .[1]"].
Proof.
  destruct C62_places_ex as [_ [s' [[_ E] [p [y [N [_ [_ Q]]]]]]]].
  exists W0, default_basic, default_strcons, C0, S2, V62, T62, E62, P0. eexists. exists p, y.
  split; [exact C0_std|]. split; [exact wf0|]. split; [exact S2_used|].
  split; [split; [discriminate|exists 50; vm_compute; reflexivity]|].
  split; [|split; [exact N|split; [exact Q|split; [|split]]]]; [| | |reflexivity].
  - vm_compute. reflexivity.
  - vm_compute. tauto.
  - intros [ws [_ X]]. apply (f_equal (String.prefix (String.concat nl
    ["msg"; "Path: .[1]"; "Exceptions:";
     "  msg"; "  Path: .[1].[1]"; "  Exceptions:";
     "    msg"; "    Path: T.[1]"; "    msg"; "    Path: T.[1]";
     "  msg"; "  Path: .[1]"]))) in X. rewrite prefix_app in X. vm_compute in X. discriminate.
Qed.
Print Assumptions C62_refuted.
