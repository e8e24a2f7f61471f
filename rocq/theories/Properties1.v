(** * Properties, first part: scalars, selection of handlers, forward names,
      recursion budget (C02, C04, C05, C11, C12, C21, C31, C32, C33, C41, C42)

    [used w cfg s]: [s] is the state of a Loader after any sequence of loads.
    [loads w cfg s v t r]: load(v, t) on it ends with the outcome [r].
    [is_std w basic strcons cfg]: the default handlers, any other setting. *)

From Verif Require Import Loader Dumper Spec Inv Std Fuel Obs Scalars Index Simple Examples.

(** What the examples below use: a Loader() which already loaded something *)
Definition S1 : lstate := snd (load W0 C0 50 (dict [("x", VInt 1)]) (CLS "Point") S0).
Lemma S1_used : used W0 C0 S1. Proof. unfold S1. repeat constructor. Qed.
Definition S1s : lstate := snd (load W0 (strict C0) 50 (dict [("x", VInt 1)]) (CLS "Point") S0).
Lemma S1s_used : used W0 (strict C0) S1s. Proof. unfold S1s. repeat constructor. Qed.
Lemma C0_std : is_std W0 default_basic default_strcons C0. Proof. split; reflexivity. Qed.
Lemma C0s_std : is_std W0 default_basic default_strcons (strict C0). Proof. split; reflexivity. Qed.

(** C02 With basiccast disabled a scalar is never converted *)
Theorem C02_no_cast : forall w basic strcons cfg, is_std w basic strcons cfg -> forall s, used w cfg s ->
  forall c v r, basiccast cfg = false -> In c basic -> c <> CNone ->
    (loads w cfg s v (TClass c) r <->
     (type_of v = c /\ r = Ok v) \/
     (type_of v <> c /\ exists m, r = Exc (XTL KValue m [(v, TClass c, None)] (Some v) (Some (TClass c)) []) /\ m = MGot v (TClass c))).
Proof. exact c02. Qed.
Print Assumptions C02_no_cast.
Example C02_ex : is_std W0 default_basic default_strcons (strict C0) /\ used W0 (strict C0) S1s
  /\ basiccast (strict C0) = false /\ In CInt default_basic /\ CInt <> CNone
  /\ loads W0 (strict C0) S1s (VInt 3) TInt (Ok (VInt 3)) /\ rejects W0 (strict C0) S1s (VStr "3") TInt.
Proof.
  repeat split; try discriminate; try apply S1s_used; try (cbn; auto; fail).
  - exists 5. reflexivity.
  - eexists. split; [|exists 5; reflexivity]. discriminate.
Qed.

(** C04 Any and Literal return the value itself *)
Theorem C04_any : forall w basic strcons cfg, is_std w basic strcons cfg -> forall s, used w cfg s ->
  forall v r, loads w cfg s v TAny r <-> r = Ok v.
Proof. exact c04_any. Qed.
Print Assumptions C04_any.
Theorem C04_literal : forall w basic strcons cfg, is_std w basic strcons cfg -> forall s, used w cfg s ->
  forall v vals r,
    loads w cfg s v (TLiteral vals) r <->
    (py_in v vals = true /\ r = Ok v) \/
    (py_in v vals = false /\
     r = Exc (XTL KValue (MNotLiteral (TLiteral vals)) [(v, TLiteral vals, None)] (Some v) (Some (TLiteral vals)) [])).
Proof. exact c04_literal. Qed.
Print Assumptions C04_literal.
Example C04_ex : loads W0 C0 S1 (VBool true) (TLiteral [VStr "a"; VInt 1]) (Ok (VBool true))
  /\ rejects W0 C0 S1 (VStr "b") (TLiteral [VStr "a"; VInt 1]).
Proof. split; [split; [discriminate|exists 3; reflexivity]|eexists; split; [|exists 3; reflexivity]; discriminate]. Qed.

(** C05 NoneType accepts only None *)
Theorem C05_none : forall w basic strcons cfg, is_std w basic strcons cfg -> forall s, used w cfg s ->
  forall v r,
    loads w cfg s v (TClass CNone) r <->
    (v = VNone /\ r = Ok VNone) \/
    (v <> VNone /\ r = Exc (XTL KValue MNotNone [(v, TClass CNone, None)] (Some v) (Some (TClass CNone)) [])).
Proof. exact c05. Qed.
Print Assumptions C05_none.
Example C05_ex : basiccast C0 = true /\ loads W0 C0 S1 VNone TNone (Ok VNone) /\ rejects W0 C0 S1 (VStr "") TNone.
Proof. split; [reflexivity|]. split; [split; [discriminate|exists 3; reflexivity]|eexists; split; [|exists 3; reflexivity]; discriminate]. Qed.

(** C11 A dictionary is never loaded as a list, tuple or set *)
Theorem C11_dict_not_iterable : forall w basic strcons cfg, is_std w basic strcons cfg -> forall s, used w cfg s ->
  forall d nat_ o args,
    o = OTuple \/ ((o = OList \/ o = OSet \/ o = OFrozen) /\ args <> []) ->
    exists m, forall r,
      loads w cfg s (VDict d) (TGen nat_ o (Some args)) r <->
      r = Exc (XTL KType m [(VDict d, TGen nat_ o (Some args), None)]
                 (Some (VDict d)) (Some (TGen nat_ o (Some args))) []).
Proof. exact c11. Qed.
Print Assumptions C11_dict_not_iterable.
Example C11_ex : rejects W0 C0 S1 (dict [("a", VInt 1)]) (LIST TStr) /\ rejects W0 C0 S1 (dict []) (TUPLE [TStr; TInt]).
Proof. split; (eexists; split; [|exists 3; reflexivity]; discriminate). Qed.

(** C12 Unions return a basic value unchanged when its own type is a member *)
Theorem C12_union_passthrough : forall w basic strcons cfg, is_std w basic strcons cfg -> forall s, used w cfg s ->
  forall v nat_ args r,
    In (type_of v) basic -> In (TClass (type_of v)) args ->
    (loads w cfg s v (TGen nat_ OUnion (Some args)) r <-> r = Ok v).
Proof. exact c12. Qed.
Print Assumptions C12_union_passthrough.
Example C12_ex : In (type_of (VInt 1)) default_basic /\ In (TClass (type_of (VInt 1))) [CLS "Color"; TStr; TInt]
  /\ loads W0 C0 S1 (VInt 1) (UNION [CLS "Color"; TStr; TInt]) (Ok (VInt 1)).
Proof. split; [cbn; auto|]. split; [cbn; auto|]. split; [discriminate|exists 3; reflexivity]. Qed.

(** C21 Known names are never rebound; a resolved handler never changes *)
Theorem C21_names : forall w cfg s s' n t, later w cfg s s' -> knows s n t -> knows s' n t.
Proof. exact c21_names. Qed.
Print Assumptions C21_names.
Theorem C21_names_unique : forall s n t t', knows s n t -> knows s n t' -> t = t'.
Proof. exact knows_fun. Qed.
Print Assumptions C21_names_unique.
Theorem C21_handlers : forall w cfg s s' t h,
  later w cfg s s' -> ty_get t (st_index s) = Some h -> ty_get t (st_index s') = Some h.
Proof. exact c21_handlers. Qed.
Print Assumptions C21_handlers.
Theorem C21_disabled : forall w cfg s s', later w cfg s s' -> st_frefs s = None -> st_frefs s' = None.
Proof. exact c21_disabled. Qed.
Print Assumptions C21_disabled.
Example C21_ex : later W0 C0 S0 S1 /\ knows S1 "Point" (CLS "Point") /\ ty_get (CLS "Point") (st_index S1) = Some HDataclass.
Proof.
  split; [unfold S1; apply later_load; [constructor|apply adjusted_refl]|]. split; [|reflexivity].
  eexists. split; reflexivity.
Qed.

(** C31 Values without a matching handler are refused *)
Theorem C31_load : forall w cfg s v t r,
  used w cfg s ->
  (forall c h, In (c, h) (handlers cfg) ->
     c t = POk false \/ (raiseconditionerrors cfg = false /\ exists e, c t = PExc e)) ->
  (loads w cfg s v t r <-> r = Exc (XTL KType (MCannotDeal t) [] (Some v) (Some t) [])).
Proof. exact c31_load. Qed.
Print Assumptions C31_load.
Theorem C31_dump : forall w cfg s v r,
  dused w cfg s ->
  (forall c h v', In (c, h) (d_handlers cfg) -> type_of v' = type_of v -> c v' = c v) ->
  (forall c h, In (c, h) (d_handlers cfg) ->
     c v = POk false \/ (d_rce cfg = false /\ exists e, c v = PExc e)) ->
  (* [v] is not a tuple of any length but one *)
  (forall l, v = VTuple l -> List.length l = 1) -> (forall c fs, v = VNT c fs -> List.length fs = 1) ->
  (dumps w cfg s v r <->
   r = Exc (XTL KValue (MCustom "Unable to dump") [] (Some v) (Some (TClass (type_of v))) [])).
Proof.
  intros w cfg s v r U K N T1 T2. rewrite (c31_dump w cfg s v r U K N).
  destruct v; try reflexivity.
  - specialize (T1 _ eq_refl). destruct l as [|a [|b l]]; try discriminate T1. reflexivity.
  - specialize (T2 _ _ eq_refl). destruct fs as [|a [|b l]]; try discriminate T2. reflexivity.
Qed.
Print Assumptions C31_dump.
(** any value is refused, with some exception *)
Theorem C31_dump_any : forall w cfg s v r,
  dused w cfg s ->
  (forall c h v', In (c, h) (d_handlers cfg) -> type_of v' = type_of v -> c v' = c v) ->
  (forall c h, In (c, h) (d_handlers cfg) ->
     c v = POk false \/ (d_rce cfg = false /\ exists e, c v = PExc e)) ->
  dumps w cfg s v r -> exists e, r = Exc e.
Proof. intros w cfg s v r U K N D. apply (c31_dump w cfg s v r U K N) in D. eexists. exact D. Qed.
Print Assumptions C31_dump_any.
(** A tuple is formatted into the message of its own refusal, which raises a
    TypeError (not a typedload exception) in place of the TypedloadValueError. *)
Theorem C31_refuted : ~ (forall w cfg s v r,
  dused w cfg s ->
  (forall c h v', In (c, h) (d_handlers cfg) -> type_of v' = type_of v -> c v' = c v) ->
  (forall c h, In (c, h) (d_handlers cfg) -> c v = POk false) ->
  dumps w cfg s v r -> exists e, r = Exc e /\ is_tl e = true).
Proof.
  intro H.
  specialize (H W0 (mkDConfig [CInt] true false true "name" [(fun v => POk (mem_cid (type_of v) [CInt]), DIdent)])
                dfresh (VTuple [VInt 1; VInt 2]) (Exc (XRaw RType))).
  destruct H as [e [E T]].
  - repeat constructor.
  - intros c h v' I T. cbn in I. destruct I as [I|[]]. injection I as <- _. rewrite T. reflexivity.
  - intros c h I. cbn in I. destruct I as [I|[]]. injection I as <- _. reflexivity.
  - split; [discriminate|]. exists 3. reflexivity.
  - injection E as <-. discriminate T.
Qed.
Print Assumptions C31_refuted.
Example C31_ex : used W0 C0 S1 /\ (forall c h, In (c, h) (handlers C0) -> c (TClass CBytes) = POk false)
  /\ rejects W0 C0 S1 (VInt 1) (TClass CBytes).
Proof.
  split; [apply S1_used|]. split.
  - intros c h I. cbn in I. repeat (destruct I as [I|I]; [injection I as <- _; reflexivity|]). destruct I.
  - eexists; split; [|exists 3; reflexivity]; discriminate.
Qed.
Definition DH : dconfig :=
  mkDConfig [CInt] true false true "name"
    [ (fun v => POk (mem_cid (type_of v) [CInt]), DIdent); (fun v => POk (cid_eqb (type_of v) CList), DIter) ].
Example C31_dump_ex : dused W0 DH (snd (dump_ann W0 DH 5 (VList [VInt 1]) TAny dfresh))
  /\ (forall c h v', In (c, h) (d_handlers DH) -> type_of v' = type_of (VStr "x") -> c v' = c (VStr "x"))
  /\ (forall c h, In (c, h) (d_handlers DH) -> c (VStr "x") = POk false).
Proof.
  split; [repeat constructor|]. split.
  - intros c h v' I T. cbn in I.
    destruct I as [I|[I|[]]]; injection I as <- _; rewrite T; reflexivity.
  - intros c h I. cbn in I. destruct I as [I|[I|[]]]; injection I as <- _; reflexivity.
Qed.

(** C32 The first matching handler wins *)
Theorem C32_index : forall cfg t i,
  loader_index cfg t = POk i <-> least_match (raiseconditionerrors cfg) (handlers cfg) t i.
Proof. exact c32_least. Qed.
Print Assumptions C32_index.
Theorem C32_dump_index : forall cfg v i,
  dindex cfg v = inl i <-> dleast_match (d_rce cfg) (d_handlers cfg) v i.
Proof. exact c32_dleast. Qed.
Print Assumptions C32_dump_index.
(** a handler inserted anywhere does not change the types it does not match *)
Theorem C32_insert_other : forall rce l1 c h l2 t,
  c t = POk false -> pick rce (l1 ++ (c, h) :: l2) t = pick rce (l1 ++ l2) t.
Proof. exact pick_insert_no. Qed.
Print Assumptions C32_insert_other.
(** it takes over those it matches, unless an earlier one matches them *)
Theorem C32_insert_match : forall rce l1 c h l2 t,
  c t = POk true -> (forall c' h', In (c', h') l1 -> c' t = POk false) ->
  pick rce (l1 ++ (c, h) :: l2) t = POk h.
Proof. exact pick_insert_yes. Qed.
Print Assumptions C32_insert_match.
(** appending never changes the treatment of supported types *)
Theorem C32_append : forall rce l1 l2 t h, pick rce l1 t = POk h -> pick rce (l1 ++ l2) t = POk h.
Proof. exact pick_appended. Qed.
Print Assumptions C32_append.
(** [pick] is what the loader uses, and load gives what the selected custom
    handler gives *)
Theorem C32_used : forall cfg t, pick (raiseconditionerrors cfg) (handlers cfg) t = find_handler cfg t.
Proof. exact pick_find. Qed.
Print Assumptions C32_used.
Theorem C32_custom : forall w cfg s v t f o,
  used w cfg s -> find_handler cfg t = POk (HCustom f) ->
  f v t = match o with inl x => HPRet x | inr e => HPRaise e end ->
  forall r, loads w cfg s v t r <->
    r = match o with
        | inl x => Ok x
        | inr (XTL k m tr ve te subs) => Exc (XTL k m ((v, t, None) :: tr) ve te subs)
        | inr (XRaw _) => Exc (XRaw RAssert)
        end.
Proof. exact c32_custom. Qed.
Print Assumptions C32_custom.
Definition mine : cond * handler := (fun t => POk (ty_eqb t TInt), HCustom (fun _ _ => HPRet (VStr "mine"))).
Definition Cmine : config := with_handlers C0 (mine :: handlers C0).
Example C32_ex : find_handler Cmine TInt = POk (snd mine) /\ find_handler Cmine TStr = find_handler C0 TStr
  /\ loads W0 Cmine S0 (VInt 1) TInt (Ok (VStr "mine")).
Proof. repeat split; try discriminate. exists 2. reflexivity. Qed.

(** C33 raiseconditionerrors=False turns condition errors into non matches *)
Theorem C33_quiet : forall hs t i rce, index_from false hs t i = index_from rce (quiet hs) t i.
Proof. exact index_quiet. Qed.
Print Assumptions C33_quiet.
Theorem C33_never_raises : forall hs t i r, index_from false hs t i = PExc r -> r = RValue.
Proof. exact index_quiet_total. Qed.
Print Assumptions C33_never_raises.
Theorem C33_loud : forall l1 c h l2 t r,
  (forall c' h', In (c', h') l1 -> c' t = POk false) -> c t = PExc r ->
  forall i, index_from true (l1 ++ (c, h) :: l2) t i = PExc r.
Proof. exact index_loud. Qed.
Print Assumptions C33_loud.
Example C33_ex :
  let bad : cond * handler := (fun _ => PExc RKey, HAny) in
  index_from true (bad :: handlers C0) TInt 0 = PExc RKey /\ index_from false (bad :: handlers C0) TInt 0 = POk 3.
Proof. split; reflexivity. Qed.

(** C41 Results do not depend on the recursion budget *)
Theorem C41_load : forall w cfg n m v t a s,
  fst (load_ann w cfg n v t a s) <> OOF -> fst (load_ann w cfg m v t a s) <> OOF ->
  load_ann w cfg n v t a s = load_ann w cfg m v t a s.
Proof. exact load_fuel_independent. Qed.
Print Assumptions C41_load.
Theorem C41_dump : forall w cfg n m v t s,
  fst (dump_ann w cfg n v t s) <> OOF -> fst (dump_ann w cfg m v t s) <> OOF ->
  dump_ann w cfg n v t s = dump_ann w cfg m v t s.
Proof. exact dump_fuel_independent. Qed.
Print Assumptions C41_dump.
Example C41_ex :
  let v := dict [("v", VInt 1); ("next", dict [("v", VInt 2)])] in
  fst (load W0 C0 3 v (CLS "Node") S0) = OOF /\ fst (load W0 C0 6 v (CLS "Node") S0) <> OOF
  /\ fst (load W0 C0 7 v (CLS "Node") S0) <> OOF.
Proof. repeat split; vm_compute; try reflexivity; discriminate. Qed.

(** C42 Each supported kind of type is recognised by exactly one check *)
Theorem C42_generic : forall w basic strcons t,
  (forall c, t <> TClass c) ->
  matching (default_handlers w basic strcons) t = match own_handler t with Some h => [h] | None => [] end.
Proof. exact c42_generic. Qed.
Print Assumptions C42_generic.
Theorem C42_class : forall w basic strcons c k,
  special c = None -> of_sort w basic strcons c k ->
  (forall k', of_sort w basic strcons c k' -> k' = k) ->
  matching (default_handlers w basic strcons) (TClass c) = [sort_handler k].
Proof. exact c42_class. Qed.
Print Assumptions C42_class.
Theorem C42_special : forall w basic strcons c h,
  special c = Some h -> ~ In c strcons -> c <> CNone /\ ~ In c basic ->
  matching (default_handlers w basic strcons) (TClass c) = [h].
Proof. exact c42_special. Qed.
Print Assumptions C42_special.
Theorem C42_none : forall w basic strcons cfg, is_std w basic strcons cfg -> find_handler cfg (TClass CNone) = POk HNone.
Proof. exact c42_none. Qed.
Print Assumptions C42_none.
Theorem C42_selected : forall w basic strcons cfg t h,
  is_std w basic strcons cfg -> matching (handlers cfg) t = [h] -> find_handler cfg t = POk h.
Proof. exact matching_find. Qed.
Print Assumptions C42_selected.
Example C42_ex : of_sort W0 default_basic default_strcons (CUser "Point") SDataclass
  /\ (forall k, of_sort W0 default_basic default_strcons (CUser "Point") k -> k = SDataclass)
  /\ special CDate = Some HDatetime /\ own_handler (UNION [TInt; LIST TStr]) = Some HUnion.
Proof.
  repeat split; try (cbn; congruence).
  intros k. destruct k; cbn; intro H; try congruence; try reflexivity; exfalso.
  - repeat (destruct H as [H|H]; [discriminate|]). exact H.
  - repeat (destruct H as [H|H]; [discriminate|]). exact H.
Qed.
