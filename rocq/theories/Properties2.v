(** * Properties, second part: conformance, collections, dictionaries, reuse
      of the loader (C01, C09, C10, C20, C35, C36, C38, C39)

    [steady w basic cfg env s v t] (Vocab.v): for loading [v] into [t] the
    caches of the loader in the state [s] do not matter.  [env] is what the
    names of forward references mean. *)

From Verif Require Import Loader Dumper Spec Vocab Inv Std Sound Fuel Obs Scalars Index Simple Transparent Hist Reuse
  Items Eval Tuples Dicts Objects ObjFacts Facts2 Examples Ground Properties1.

(** ** The cases used to show that the hypotheses can be met *)

(** a Loader() which already loaded a tree, a dictionary and a TypedDict *)
Definition NODE2 : value := dict [("v", VInt 1); ("next", dict [("v", VInt 2)])].
Definition S2 : lstate :=
  snd (load W0 C0 50 (dict [("k", VInt 1)]) (CLS "TD")
  (snd (load W0 C0 50 (dict [("a", VInt 1)]) (DICT TStr (LIST TInt))
  (snd (load W0 C0 50 NODE2 (CLS "Node") S0))))).
Lemma S2_used : used W0 C0 S2. Proof. unfold S2. repeat constructor. Qed.
Definition env2 : string -> option ty := names_of S2.
Ltac steady_in L := apply (steady_by W0 C0 env2 S2 L); vm_compute; reflexivity.

(** C01 A successful load conforms to the requested type *)
Theorem C01_conforms : forall w basic strcons cfg,
  is_std w basic strcons cfg -> wf_world w basic strcons ->
  forall env s v t r,
  used w cfg s ->
  (* the names of forward references: what the loader knows is what they mean,
     and there is one type for each name it does not know yet *)
  (forall n t', reach w (pep563 cfg) env t (TForward n) -> knows s n t' -> env n = Some t') ->
  (forall n t', reach w (pep563 cfg) env t (TForward n) -> w_name w t' = Some n ->
     (exists t'', knows s n t'') \/ env n = Some t') ->
  (* the defect in line 396 of dataloader.py, see C01_refuted *)
  (forall n kt vt, reach w (pep563 cfg) env t (TGen n ODict (Some [kt; vt])) ->
     seen s vt \/ dict_ok w basic strcons kt vt) ->
  loads w cfg s v t (Ok r) -> conforms w (pep563 cfg) env r t.
Proof. exact c01. Qed.
Print Assumptions C01_conforms.
(** recursive class, on a new loader *)
Example C01_ex : let env := fun n => if String.eqb n "Node" then Some (CLS "Node") else None in
  let L := [CLS "Node"; TInt; OPT (TForward "Node"); TForward "Node"; TNone] in
  wf_world W0 default_basic default_strcons /\
  loads W0 C0 S0 NODE2 (CLS "Node")
    (Ok (VObj (CUser "Node") [("v", VInt 1); ("next", VObj (CUser "Node") [("v", VInt 2); ("next", VNone)])])) /\
  (forall n t', reach W0 (pep563 C0) env (CLS "Node") (TForward n) -> knows S0 n t' -> env n = Some t') /\
  (forall n t', reach W0 (pep563 C0) env (CLS "Node") (TForward n) -> w_name W0 t' = Some n ->
     (exists t'', knows S0 n t'') \/ n = "Node") /\
  (forall n kt vt, reach W0 (pep563 C0) env (CLS "Node") (TGen n ODict (Some [kt; vt])) -> False).
Proof.
  intros env L. split; [exact wf0|]. split; [split; [discriminate|exists 50; vm_compute; reflexivity]|].
  assert (R : forall t, reach W0 (pep563 C0) env (CLS "Node") t -> In t L).
  { intro t. apply (reach_closed W0 C0 env L); vm_compute; reflexivity. }
  split; [|split].
  - intros n t' _ [fr [[= <-] G]]. discriminate.
  - intros n t' H _. right. apply R in H. cbn in H. repeat (destruct H as [H|H]; try discriminate); [|contradiction]. congruence.
  - intros n kt vt H. apply R in H. cbn in H. repeat (destruct H as [H|H]; try discriminate). contradiction.
Qed.
(** a new Loader(): the key 'ab' of a Dict[Tuple[int, int], int] becomes ('a', 'b') *)
Theorem C01_refuted : exists w basic strcons cfg s v t r env,
  is_std w basic strcons cfg /\ wf_world w basic strcons /\ used w cfg s /\
  (forall n, ~ reach w (pep563 cfg) env t (TForward n)) /\
  loads w cfg s v t (Ok r) /\ ~ conforms w (pep563 cfg) env r t.
Proof.
  exists W0, default_basic, default_strcons, C0, S0, (dict [("ab", VInt 1)]), (DICT (TUPLE [TInt; TInt]) TInt),
    (VDict [(VTuple [VStr "a"; VStr "b"], VInt 1)]), (fun _ => None).
  split; [split; reflexivity|]. split; [exact wf0|]. split; [repeat constructor|]. split.
  - intros n R. apply (reach_closed W0 C0 (fun _ => None) [DICT (TUPLE [TInt; TInt]) TInt; TUPLE [TInt; TInt]; TInt]) in R;
      [|vm_compute; reflexivity|vm_compute; reflexivity]. cbn in R. repeat (destruct R as [R|R]; try discriminate). contradiction.
  - split; [split; [discriminate|exists 50; vm_compute; reflexivity]|].
    intro C. inversion C as [| | | | | | | | | | |? ? ? ? H| | | | ]; subst. clear C. specialize (H _ _ (or_introl eq_refl)).
    destruct H as [H _]. inversion H as [| | | | | | | | |? ? ? H0|? ? ? H0| | | | | ]; subst.
    inversion H0 as [|? ? ? ? H1 H2]; subst. inversion H1 as [| |? ? _ I| | | | | | | | | | | | | ]; subst. discriminate I.
Qed.
Print Assumptions C01_refuted.

(** C09 Fixed-size tuples have exactly the declared arity *)
Theorem C09_fixed_tuple : forall w basic strcons cfg,
  is_std w basic strcons cfg -> wf_reflect w ->
  forall env s v n ts,
  used w cfg s -> steady w basic cfg env s v (TGen n OTuple (Some ts)) ->
  (forall t, ts <> [t; TEllipsis]) ->
  forall r, loads w cfg s v (TGen n OTuple (Some ts)) (Ok r) <->
    (forall d, v <> VDict d) /\
    exists l ys, iter v = Some l /\
      List.length ts <= List.length l /\
      (failonextra cfg = true -> List.length l = List.length ts) /\
      (* [combine] stops at the end of [ts]: only the first items are used *)
      Forall2 (fun tx y => tuple_item_loads w basic cfg s (fst tx) (snd tx) y) (combine ts l) ys /\
      r = VTuple ys.
Proof.
  intros w basic strcons cfg Hs Hw env s v n ts U St FS r.
  exact (fixed_tuple w basic strcons cfg Hs Hw env s v _ U St n ts eq_refl FS r).
Qed.
Print Assumptions C09_fixed_tuple.
Theorem C09_arity : forall w basic strcons cfg,
  is_std w basic strcons cfg -> wf_reflect w ->
  forall env s v n ts,
  used w cfg s -> steady w basic cfg env s v (TGen n OTuple (Some ts)) ->
  (forall t, ts <> [t; TEllipsis]) ->
  forall r, loads w cfg s v (TGen n OTuple (Some ts)) (Ok r) ->
    exists ys, r = VTuple ys /\ List.length ys = List.length ts.
Proof.
  intros w basic strcons cfg Hs Hw env s v n ts U St FS r L.
  apply (C09_fixed_tuple w basic strcons cfg Hs Hw env s v n ts U St FS r) in L as [_ [l [ys [_ [LE [_ [F ->]]]]]]].
  exists ys. split; [reflexivity|]. apply F2len in F. rewrite combine_length in F. lia.
Qed.
Print Assumptions C09_arity.
Theorem C09_wrong_length : forall w basic strcons cfg s v n ts l,
  is_std w basic strcons cfg -> used w cfg s -> (forall t, ts <> [t; TEllipsis]) ->
  (forall d, v <> VDict d) -> iter v = Some l ->
  List.length l < List.length ts \/ (failonextra cfg = true /\ List.length ts < List.length l) ->
  forall r, loads w cfg s v (TGen n OTuple (Some ts)) r -> raises KValue r.
Proof. exact tuple_lengths. Qed.
Print Assumptions C09_wrong_length.
Example C09_ex :
  steady W0 default_basic C0 env2 S2 (VList [VInt 1; VStr "2"; VStr "x"]) (TUPLE [TInt; LIST TInt]) /\
  (forall t, [TInt; LIST TInt] <> [t; TEllipsis]) /\
  loads W0 C0 S2 (VList [VInt 1; VStr "2"; VStr "x"]) (TUPLE [TInt; LIST TInt]) (Ok (VTuple [VInt 1; VList [VInt 2]])) /\
  failonextra (strict C0) = true /\ rejects W0 (strict C0) S1 (VList [VInt 1; VInt 2; VInt 3]) (TUPLE [TInt; TInt]).
Proof.
  split; [steady_in [TUPLE [TInt; LIST TInt]; TInt; LIST TInt]|]. split; [intros t; discriminate|].
  split; [split; [discriminate|exists 50; vm_compute; reflexivity]|]. split; [reflexivity|].
  eexists. split; [|exists 50; vm_compute; reflexivity]. discriminate.
Qed.

(** C10 Iterables are loaded element by element, in order *)
Theorem C10_list : forall w basic strcons cfg,
  is_std w basic strcons cfg -> wf_reflect w ->
  forall env s v n et,
  used w cfg s -> steady w basic cfg env s v (TGen n OList (Some [et])) ->
  never_stops w (pep563 cfg) env et ->
  forall r, loads w cfg s v (TGen n OList (Some [et])) (Ok r) <->
    supported cfg et /\ (forall d, v <> VDict d) /\
    exists l ys, iter v = Some l /\ Forall2 (item_loads w basic cfg s et) l ys /\ r = VList ys.
Proof.
  intros w basic strcons cfg Hs Hw env s v n et U St NS0 r.
  rewrite (collection w basic strcons cfg Hs Hw env s v _ U St KoList n et [] eq_refl NS0 r). cbn [collect].
  split; intros [A [B [l [ys [C [D E]]]]]]; (split; [exact A|split; [exact B|exists l, ys; split; [exact C|split; [exact D|congruence]]]]).
Qed.
Print Assumptions C10_list.
Theorem C10_tuple : forall w basic strcons cfg,
  is_std w basic strcons cfg -> wf_reflect w ->
  forall env s v n et,
  used w cfg s -> steady w basic cfg env s v (TGen n OTuple (Some [et; TEllipsis])) ->
  never_stops w (pep563 cfg) env et ->
  forall r, loads w cfg s v (TGen n OTuple (Some [et; TEllipsis])) (Ok r) <->
    supported cfg et /\ (forall d, v <> VDict d) /\
    exists l ys, iter v = Some l /\ Forall2 (item_loads w basic cfg s et) l ys /\ r = VTuple ys.
Proof.
  intros w basic strcons cfg Hs Hw env s v n et U St NS0 r.
  rewrite (collection w basic strcons cfg Hs Hw env s v _ U St KoTuple n et [] eq_refl NS0 r). cbn [collect].
  split; intros [A [B [l [ys [C [D E]]]]]]; (split; [exact A|split; [exact B|exists l, ys; split; [exact C|split; [exact D|congruence]]]]).
Qed.
Print Assumptions C10_tuple.
(** in terms of positions *)
Theorem C10_positions : forall w basic strcons cfg,
  is_std w basic strcons cfg -> wf_reflect w ->
  forall env s v n et,
  used w cfg s -> steady w basic cfg env s v (TGen n OList (Some [et])) ->
  never_stops w (pep563 cfg) env et ->
  forall r, loads w cfg s v (TGen n OList (Some [et])) (Ok r) ->
  exists l ys, iter v = Some l /\ r = VList ys /\ List.length ys = List.length l /\
    forall i x, nth_error l i = Some x -> exists y, nth_error ys i = Some y /\
      ((exists c, et = TClass c /\ In c basic /\ isinstance w x c = true /\ y = x) \/ loads w cfg s x et (Ok y)).
Proof.
  intros w basic strcons cfg Hs Hw env s v n et U St NS0 r L.
  apply (C10_list w basic strcons cfg Hs Hw env s v n et U St NS0 r) in L as [_ [_ [l [ys [I [F ->]]]]]].
  exists l, ys. split; [exact I|]. split; [reflexivity|]. split; [symmetry; eapply F2len; exact F|].
  clear I U St. induction F as [|x y l ys R F IH]; intros i z Hi; [destruct i; discriminate|].
  destruct i as [|i]; cbn in Hi |- *; [|apply IH; exact Hi]. injection Hi as <-. exists y. split; [reflexivity|].
  destruct R as [[[c [E1 [E2 E3]]] ->]|[_ R]]; [left; exists c; auto|right; exact R].
Qed.
Print Assumptions C10_positions.
Example C10_ex :
  let v := VTuple [NODE2; dict [("v", VStr "7")]] in
  let L := [LIST (CLS "Node"); CLS "Node"; TInt; OPT (TForward "Node"); TForward "Node"; TNone] in
  steady W0 default_basic C0 env2 S2 v (LIST (CLS "Node")) /\ never_stops W0 (pep563 C0) env2 (CLS "Node") /\
  exists r, loads W0 C0 S2 v (LIST (CLS "Node")) (Ok r) /\ exists a b, r = VList [a; b].
Proof.
  intros v L. split; [steady_in L|]. split; [apply (W0_never C0 _ L); reflexivity|]. eexists. split; [split; [|exists 50; vm_compute; reflexivity]; discriminate|].
  eexists. eexists. reflexivity.
Qed.

(** the hypothesis about StopIteration is needed: "Conv" is an attrs class, the
    converter of whose field is annotated only with its result; List[Conv] accepts
    any list and returns an empty one, though no item is acceptable *)
Lemma Conv_stops n x s : run W0 C0 (S n) HAttrs x (CLS "Conv") s = (Exc (XRaw RStopIter), s).
Proof. reflexivity. Qed.
Lemma Conv_handler : find_handler C0 (CLS "Conv") = POk HAttrs.
Proof. vm_compute. reflexivity. Qed.
Theorem C10_refuted : exists w basic strcons cfg t,
  is_std w basic strcons cfg /\ wf_reflect w /\ supported cfg t /\
  forall s, used w cfg s ->
    (forall l, loads w cfg s (VList l) (LIST t) (Ok (VList []))) /\
    (forall x, ~ accepts w cfg s x t).
Proof.
  exists W0, default_basic, default_strcons, C0, (CLS "Conv").
  split; [exact C0_std|]. split; [exact wr0|]. split; [apply supported_find; exists HAttrs; exact Conv_handler|].
  intros s U. pose proof (used_coh _ _ _ U) as Co. split.
  - intro l. assert (F : find_handler C0 (LIST (CLS "Conv")) = POk HList) by (vm_compute; reflexivity).
    split; [discriminate|]. exists 2. unfold load. rewrite (load_enter_fst W0 C0 2 (VList l) (LIST (CLS "Conv")) None s _ Co F).
    set (s1 := enter W0 C0 (LIST (CLS "Conv")) HList s).
    assert (C1 : coh W0 C0 s1) by (unfold s1, enter; destruct (ty_get _ _); [exact Co|apply coh_register, coh_set_index; assumption]).
    cbn [run body]. unfold iterload. cbn [ty_args LIST iter]. unfold bind.
    assert (L : exists s2, lookup_handler C0 (XTL KType (MCannotDeal (CLS "Conv")) [] (Some (VList l)) (Some (CLS "Conv")) []) (CLS "Conv") s1 = (Ok HAttrs, s2)).
    { unfold lookup_handler. destruct (ty_get (CLS "Conv") (st_index s1)) as [h|] eqn:X.
      - pose proof (coh_index _ _ _ C1 _ _ X) as Y. rewrite Conv_handler in Y. injection Y as <-. eauto.
      - rewrite Conv_handler. eauto. }
    destruct L as [s2 ->]. destruct l as [|x l]; [reflexivity|]. cbn [iter_loop]. reflexivity.
  - intros x [r [_ [n E]]]. unfold load in E. rewrite (load_enter_fst W0 C0 n x (CLS "Conv") None s _ Co Conv_handler) in E.
    destruct n as [|n]; [discriminate|]. rewrite Conv_stops in E. discriminate.
Qed.
Print Assumptions C10_refuted.

(** C38 Set loading keeps exactly the distinct loaded elements *)
Theorem C38_set : forall w basic strcons cfg,
  is_std w basic strcons cfg -> wf_reflect w ->
  forall env s v n et (frozen : bool),
  let t := TGen n (if frozen then OFrozen else OSet) (Some [et]) in
  used w cfg s -> steady w basic cfg env s v t -> never_stops w (pep563 cfg) env et ->
  forall r, loads w cfg s v t (Ok r) <->
    supported cfg et /\ (forall d, v <> VDict d) /\
    exists l ys, iter v = Some l /\ Forall2 (item_loads w basic cfg s et) l ys /\
      (forall y, In y ys -> hashable w y = true) /\
      r = (if frozen then VFrozen (set_of ys) else VSet (set_of ys)).
Proof.
  intros w basic strcons cfg Hs Hw env s v n et frozen t U St NS0 r.
  destruct frozen.
  - rewrite (collection w basic strcons cfg Hs Hw env s v _ U St KoFrozen n et [] eq_refl NS0 r). cbn [collect].
    split; intros [A [B [l [ys [C [D E]]]]]]; (split; [exact A|split; [exact B|exists l, ys; split; [exact C|split; [exact D|]]]]).
    + destruct (forallb (hashable w) ys) eqn:H; [|discriminate]. rewrite forallb_forall in H. split; [exact H|congruence].
    + destruct E as [H ->]. apply forallb_forall in H. rewrite H. reflexivity.
  - rewrite (collection w basic strcons cfg Hs Hw env s v _ U St KoSet n et [] eq_refl NS0 r). cbn [collect].
    split; intros [A [B [l [ys [C [D E]]]]]]; (split; [exact A|split; [exact B|exists l, ys; split; [exact C|split; [exact D|]]]]).
    + destruct (forallb (hashable w) ys) eqn:H; [|discriminate]. rewrite forallb_forall in H. split; [exact H|congruence].
    + destruct E as [H ->]. apply forallb_forall in H. rewrite H. reflexivity.
Qed.
Print Assumptions C38_set.
(** [set_of ys]: the elements of [ys], without duplicates *)
Theorem C38_distinct : forall ys, distinct_of ys (set_of ys).
Proof. exact set_of_distinct. Qed.
Print Assumptions C38_distinct.
Example C38_ex :
  steady W0 default_basic C0 env2 S2 (VList [VInt 1; VStr "1"; VBool true; VInt 2]) (SET TInt) /\
  never_stops W0 (pep563 C0) env2 TInt /\
  loads W0 C0 S2 (VList [VInt 1; VStr "1"; VBool true; VInt 2]) (SET TInt) (Ok (VSet [VInt 1; VInt 2])).
Proof.
  split; [steady_in [SET TInt; TInt]|]. split; [apply (W0_never C0 _ [TInt]); reflexivity|]. split; [discriminate|exists 50; vm_compute; reflexivity].
Qed.

(** C39 Dict loading keeps the keys and the last value of each loaded key *)
Theorem C39_dict : forall w basic strcons cfg,
  is_std w basic strcons cfg -> wf_reflect w ->
  forall env s v n kt vt,
  used w cfg s -> steady w basic cfg env s v (TGen n ODict (Some [kt; vt])) ->
  keys_hashable w v ->
  forall r, loads w cfg s v (TGen n ODict (Some [kt; vt])) (Ok r) <->
    supported cfg kt /\ supported cfg vt /\
    exists d kvs, dict_items cfg v d /\
      items_rel (item_loads w basic cfg s kt) (item_loads w basic cfg s vt) d kvs /\
      forallb (fun kv => hashable w (fst kv)) kvs = true /\ r = VDict (dict_of kvs).
Proof.
  intros w basic strcons cfg Hs Hw env s v n kt vt U St Hh r.
  exact (dictionary w basic strcons cfg Hs Hw env s v _ U St Hh n kt vt eq_refl r).
Qed.
Print Assumptions C39_dict.
Theorem C39_items : forall w basic strcons cfg,
  is_std w basic strcons cfg -> wf_reflect w ->
  forall env s v n kt vt r,
  used w cfg s -> steady w basic cfg env s v (TGen n ODict (Some [kt; vt])) ->
  keys_hashable w v ->
  loads w cfg s v (TGen n ODict (Some [kt; vt])) (Ok r) ->
  exists d kvs rd,
    dict_items cfg v d /\ r = VDict rd /\
    (* the loaded items *)
    Forall2 (fun kx ky => item_loads w basic cfg s kt (fst kx) (fst ky) /\ item_loads w basic cfg s vt (snd kx) (snd ky)) d kvs /\
    (* each item of the result comes from them *)
    (forall k x, In (k, x) rd -> exists y k', In (k, y) kvs /\ In (k', x) kvs /\ (k' = k \/ py_eqb k' k = true)) /\
    (* each loaded key is in the result, with the last value *)
    (Forall plain_key (map fst kvs) ->
     forall k, In k (map fst kvs) -> exists x, dict_get k rd = Some x /\ last_with k kvs = Some x).
Proof. exact c39. Qed.
Print Assumptions C39_items.
Example C39_ex :
  let v := dict [("a", VStr "3"); ("b", VInt 2)] in
  steady W0 default_basic C0 env2 S2 v (DICT TStr TInt) /\ keys_hashable W0 v /\
  loads W0 C0 S2 v (DICT TStr TInt) (Ok (dict [("a", VInt 3); ("b", VInt 2)])) /\
  Forall plain_key [VStr "a"; VStr "b"].
Proof.
  intro v. split; [steady_in [DICT TStr TInt; TStr; TInt]|]. split.
  - intros d k x [= <-] H. cbn in H. repeat (destruct H as [H|H]; [injection H as <- _; reflexivity|]). contradiction.
  - split; [split; [discriminate|exists 50; vm_compute; reflexivity]|]. repeat constructor.
Qed.
(** the keys '1' and 1 become the same key: the last value stays *)
Example C39_ex2 :
  let v := VDict [(VStr "1", VInt 5); (VInt 1, VInt 6)] in
  steady W0 default_basic C0 env2 S2 v (DICT TInt TInt) /\ keys_hashable W0 v /\
  loads W0 C0 S2 v (DICT TInt TInt) (Ok (VDict [(VInt 1, VInt 6)])).
Proof.
  intro v. split; [steady_in [DICT TInt TInt; TInt]|]. split.
  - intros d k x [= <-] H. cbn in H. repeat (destruct H as [H|H]; [injection H as <- _; reflexivity|]). contradiction.
  - split; [discriminate|exists 50; vm_compute; reflexivity].
Qed.

(** C20 Loader reuse is transparent *)
Theorem C20_any_two_loaders : forall w basic strcons cfg,
  is_std w basic strcons cfg -> wf_reflect w ->
  forall env s1 s2 v t,
  used w cfg s1 -> used w cfg s2 ->
  (* the names in t mean the same to both *)
  resolves w cfg env s1 t -> resolves w cfg env s2 t ->
  (* see C20_refuted_dict *)
  (forall n kt vt, reach w (pep563 cfg) env t (TGen n ODict (Some [kt; vt])) ->
      (seen s1 vt /\ seen s2 vt) \/ det_dict w basic (inside v) kt vt) ->
  (* see C20_refuted_tag and C20_refuted_order *)
  (forall n args, reach w (pep563 cfg) env t (TGen n OUnion (Some args)) -> plain_tags w args) ->
  forall r, loads w cfg s1 v t r <-> loads w cfg s2 v t r.
Proof. exact c20. Qed.
Print Assumptions C20_any_two_loaders.
Theorem C20_as_fresh : forall w basic strcons cfg,
  is_std w basic strcons cfg -> wf_reflect w ->
  forall fr st st' s v t,
  later w cfg (fresh (Some fr) st) s ->
  let env := fun n => str_get n fr in
  (forall n, reach w (pep563 cfg) env t (TForward n) -> env n <> None) ->
  (forall n kt vt, reach w (pep563 cfg) env t (TGen n ODict (Some [kt; vt])) -> det_dict w basic (inside v) kt vt) ->
  (forall n args, reach w (pep563 cfg) env t (TGen n OUnion (Some args)) -> plain_tags w args) ->
  forall r, loads w cfg s v t r <-> loads w cfg (fresh (Some fr) st') v t r.
Proof. exact c20_fresh. Qed.
Print Assumptions C20_as_fresh.
Theorem C20_later : forall w basic strcons cfg,
  is_std w basic strcons cfg -> wf_reflect w ->
  forall env s s' v t,
  used w cfg s -> later w cfg s s' -> steady w basic cfg env s v t ->
  forall r, loads w cfg s v t r <-> loads w cfg s' v t r.
Proof. exact c20_later. Qed.
Print Assumptions C20_later.
(** a loader with a history, for a type with a union, and one for a recursive class *)
Example C20_ex : let t := LIST (UNION [CLS "TagA"; CLS "TagB"]) in
  let L := [t; UNION [CLS "TagA"; CLS "TagB"]; CLS "TagA"; CLS "TagB"; TLiteral [VStr "a"]; TLiteral [VStr "b"]; TInt] in
  later W0 C0 (fresh (Some []) []) S2 /\
  (forall n, ~ reach W0 (pep563 C0) (fun n => str_get n []) t (TForward n)) /\
  (forall n kt vt, ~ reach W0 (pep563 C0) (fun n => str_get n []) t (TGen n ODict (Some [kt; vt]))) /\
  plain_tags W0 [CLS "TagA"; CLS "TagB"] /\
  accepts W0 C0 S2 (VList [dict [("type", VStr "b")]]) t.
Proof.
  intros t L. split; [unfold S2; repeat constructor|].
  assert (R : forall x, reach W0 (pep563 C0) (fun n => str_get n []) t x -> In x L).
  { intro x. apply (reach_closed W0 C0 (fun n => str_get n []) L); vm_compute; reflexivity. }
  split; [|split; [|split]].
  - intros n H. apply R in H. cbn in H. repeat (destruct H as [H|H]; try discriminate). contradiction.
  - intros n kt vt H. apply R in H. cbn in H. repeat (destruct H as [H|H]; try discriminate). contradiction.
  - apply plain_tagsb_spec. vm_compute. reflexivity.
  - eexists. split; [discriminate|]. exists 50. vm_compute. reflexivity.
Qed.
Example C20_ex_later : later W0 C0 S2 (snd (load W0 C0 50 (VInt 1) TStr S2)) /\ steady W0 default_basic C0 env2 S2 NODE2 (CLS "Node").
Proof.
  split; [repeat constructor|]. steady_in [CLS "Node"; TInt; OPT (TForward "Node"); TForward "Node"; TNone].
Qed.
(** line 396: once the loader has seen int, the key 'ab' is refused *)
Theorem C20_refuted_dict : exists w basic strcons cfg s v t r,
  is_std w basic strcons cfg /\ wf_world w basic strcons /\ later w cfg (fresh (Some []) []) s /\
  (forall n, ~ reach w (pep563 cfg) (fun _ => None) t (TForward n)) /\
  loads w cfg (fresh (Some []) []) v t (Ok r) /\ rejects w cfg s v t.
Proof.
  exists W0, default_basic, default_strcons, C0, (snd (load W0 C0 50 (VInt 1) TInt S0)),
    (dict [("ab", VInt 1)]), (DICT (TUPLE [TInt; TInt]) TInt), (VDict [(VTuple [VStr "a"; VStr "b"], VInt 1)]).
  split; [split; reflexivity|]. split; [exact wf0|]. split; [repeat constructor|]. split.
  - intros n R. apply (reach_closed W0 C0 (fun _ => None) [DICT (TUPLE [TInt; TInt]) TInt; TUPLE [TInt; TInt]; TInt]) in R;
      [|vm_compute; reflexivity|vm_compute; reflexivity]. cbn in R. repeat (destruct R as [R|R]; try discriminate). contradiction.
  - split; [split; [discriminate|exists 50; vm_compute; reflexivity]|].
    eexists. split; [|exists 50; vm_compute; reflexivity]. discriminate.
Qed.
Print Assumptions C20_refuted_dict.
(** List[Node] caches the handler of Node without registering its name: loading
    Node later fails at the reference to itself *)
Theorem C20_refuted_names : exists w basic strcons cfg s v t,
  is_std w basic strcons cfg /\ wf_world w basic strcons /\ later w cfg (fresh (Some []) []) s /\
  accepts w cfg (fresh (Some []) []) v t /\ rejects w cfg s v t.
Proof.
  exists W0, default_basic, default_strcons, C0,
    (snd (load W0 C0 50 (VList [dict [("v", VInt 1)]]) (LIST (CLS "Node")) S0)), NODE2, (CLS "Node").
  split; [split; reflexivity|]. split; [exact wf0|]. split; [repeat constructor|]. split.
  - eexists. split; [discriminate|exists 50; vm_compute; reflexivity].
  - eexists. split; [|exists 50; vm_compute; reflexivity]. discriminate.
Qed.
Print Assumptions C20_refuted_names.

(** loading a TypedDict removes NotRequired from its annotations: unions of it
    then have a discriminator, and try their members in another order *)
Theorem C20_refuted_tag : exists w basic strcons cfg s v t r1 r2,
  is_std w basic strcons cfg /\ wf_world w basic strcons /\ later w cfg (fresh (Some []) []) s /\
  loads w cfg (fresh (Some []) []) v t (Ok r1) /\ loads w cfg s v t (Ok r2) /\ r1 <> r2.
Proof.
  exists W0, default_basic, default_strcons, C0,
    (snd (load W0 C0 50 (dict []) (CLS "NA") (snd (load W0 C0 50 (dict []) (CLS "NB") S0)))),
    (dict [("kind", VStr "b"); ("x", VInt 1)]), (UNION [CLS "NA"; CLS "NB"]),
    (dict [("kind", VStr "b"); ("x", VInt 1)]), (dict [("kind", VStr "b"); ("x", VStr "1")]).
  split; [split; reflexivity|]. split; [exact wf0|]. split; [repeat constructor|]. split; [|split].
  - split; [discriminate|exists 50; vm_compute; reflexivity].
  - split; [discriminate|exists 50; vm_compute; reflexivity].
  - discriminate.
Qed.
Print Assumptions C20_refuted_tag.
(** the cache of discriminators: the members of the union share the value of
    their tag, so the last one is preferred.  A loader that has loaded
    Union[SameB, SameA] uses what it found then for Union[SameA, SameB] too,
    although the data mean something else in that order *)
Theorem C20_refuted_order : exists w basic strcons cfg s v x n a b r1 r2,
  is_std w basic strcons cfg /\ wf_world w basic strcons /\
  loads w cfg (fresh (Some []) []) x (TGen n OUnion (Some [b; a])) (Ok r1) /\
  s = snd (load w cfg 50 x (TGen n OUnion (Some [b; a])) (fresh (Some []) [])) /\
  loads w cfg (fresh (Some []) []) v (TGen n OUnion (Some [a; b])) (Ok r2) /\
  exists r2', loads w cfg s v (TGen n OUnion (Some [a; b])) (Ok r2') /\ r2 <> r2'.
Proof.
  exists W0, default_basic, default_strcons, C0,
    (snd (load W0 C0 50 (dict [("type", VStr "a")]) (UNION [CLS "SameB"; CLS "SameA"]) (fresh (Some []) []))),
    (dict [("type", VStr "a"); ("n", VStr "7")]), (dict [("type", VStr "a")]), false, (CLS "SameA"), (CLS "SameB"),
    (VObj (CUser "SameA") [("type", VStr "a"); ("n", VInt 0)]), (VObj (CUser "SameB") [("type", VStr "a"); ("n", VStr "7")]).
  split; [split; reflexivity|]. split; [exact wf0|].
  split; [split; [discriminate|exists 50; vm_compute; reflexivity]|]. split; [reflexivity|].
  split; [split; [discriminate|exists 50; vm_compute; reflexivity]|].
  exists (VObj (CUser "SameA") [("type", VStr "a"); ("n", VInt 7)]).
  split; [split; [discriminate|exists 50; vm_compute; reflexivity]|discriminate].
Qed.
Print Assumptions C20_refuted_order.

(** C35 NewType is transparent *)
Theorem C35_newtype : forall w basic strcons cfg,
  is_std w basic strcons cfg -> wf_reflect w ->
  forall env s v nm t,
  used w cfg s -> steady w basic cfg env s v t ->
  forall r, loads w cfg s v (TNewType nm t) r <->
            exists r0, loads w cfg s v t r0 /\ r = rewrap v (TNewType nm t) r0.
Proof. exact c35. Qed.
Print Assumptions C35_newtype.
Theorem C35_value : forall w basic strcons cfg,
  is_std w basic strcons cfg -> wf_reflect w ->
  forall env s v nm t,
  used w cfg s -> steady w basic cfg env s v t ->
  forall y, loads w cfg s v (TNewType nm t) (Ok y) <-> loads w cfg s v t (Ok y).
Proof.
  intros w basic strcons cfg Hs Hw env s v nm t U St y. rewrite (c35 w basic strcons cfg Hs Hw env s v nm t U St). split.
  - intros [[z|[k m tr ve te subs|k]|] [L E]]; try discriminate. injection E as ->. exact L.
  - intro L. exists (Ok y). auto.
Qed.
Print Assumptions C35_value.
Example C35_ex : let t := TNewType "M" (LIST (CLS "Node")) in
  let L := [t; LIST (CLS "Node"); CLS "Node"; TInt; OPT (TForward "Node"); TForward "Node"; TNone] in
  steady W0 default_basic C0 env2 S2 (VList [NODE2]) t /\
  accepts W0 C0 S2 (VList [NODE2]) (TNewType "N" t) /\ rejects W0 C0 S2 (VList [VInt 1]) (TNewType "N" t).
Proof.
  intros t L. split; [steady_in L|]. split.
  - eexists. split; [discriminate|exists 50; vm_compute; reflexivity].
  - eexists. split; [|exists 50; vm_compute; reflexivity]. discriminate.
Qed.

(** C36 Repeated TypedDict loads agree.  [st1], [st2]: the TypedDict classes
    whose annotations this process already rewrote. *)
Theorem C36_typeddict : forall w basic strcons cfg,
  is_std w basic strcons cfg -> wf_reflect w ->
  forall fr st1 st2 s1 s2 v c,
  ci_td (class_of w c) <> None ->
  later w cfg (fresh (Some fr) st1) s1 -> later w cfg (fresh (Some fr) st2) s2 ->
  let env := fun n => str_get n fr in
  (forall n, reach w (pep563 cfg) env (TClass c) (TForward n) -> env n <> None) ->
  (forall n kt vt, reach w (pep563 cfg) env (TClass c) (TGen n ODict (Some [kt; vt])) -> det_dict w basic (inside v) kt vt) ->
  (forall n args, reach w (pep563 cfg) env (TClass c) (TGen n OUnion (Some args)) -> plain_tags w args) ->
  forall r, loads w cfg s1 v (TClass c) r <-> loads w cfg s2 v (TClass c) r.
Proof.
  intros w basic strcons cfg Hs Hw fr st1 st2 s1 s2 v c _ L1 L2 env N D U r.
  rewrite (c20_fresh w basic strcons cfg Hs Hw fr st1 [] s1 v (TClass c) L1 N D U r).
  symmetry. exact (c20_fresh w basic strcons cfg Hs Hw fr st2 [] s2 v (TClass c) L2 N D U r).
Qed.
Print Assumptions C36_typeddict.
(** the check of the required keys: one outcome for all states *)
Theorem C36_required : forall w basic strcons cfg,
  is_std w basic strcons cfg -> wf_reflect w ->
  forall c req d e,
  ci_td (class_of w c) = Some req ->
  object_class w basic strcons c -> resolvable w cfg c -> distinct_names w cfg c -> py_dict d ->
  In e (required_names w cfg c) -> ~ In (VStr e) (map fst d) ->
  exists x, raises KValue x /\ forall s, used w cfg s -> forall r, loads w cfg s (VDict d) (TClass c) r <-> r = x.
Proof.
  intros w basic strcons cfg Hs Hw c req d e _ OC R DN PD H1 H2.
  exact (c06 w basic strcons cfg Hs Hw c (VDict d) d e OC R DN PD (or_introl eq_refl) H1 H2).
Qed.
Print Assumptions C36_required.
Example C36_ex :
  let s1 := snd (load W0 C0 50 (dict [("k", VInt 1)]) (CLS "TD") S0) in
  let L := [CLS "TD"; TInt; TStr; TGen false ONotRequired (Some [TStr])] in
  later W0 C0 (fresh (Some []) []) s1 /\ st_stripped s1 <> [] /\
  (forall n, ~ reach W0 (pep563 C0) (fun n => str_get n []) (CLS "TD") (TForward n)) /\
  (forall n o args, reach W0 (pep563 C0) (fun n => str_get n []) (CLS "TD") (TGen n o args) -> o <> ODict /\ o <> OUnion) /\
  loads W0 C0 s1 (dict [("k", VInt 1); ("o", VStr "x")]) (CLS "TD") (Ok (dict [("k", VInt 1); ("o", VStr "x")])) /\
  object_class W0 default_basic default_strcons (CUser "TD") /\ resolvable W0 C0 (CUser "TD") /\ distinct_names W0 C0 (CUser "TD") /\
  In "k" (required_names W0 C0 (CUser "TD")) /\ ~ In "o" (required_names W0 C0 (CUser "TD")).
Proof.
  intros s1 L. split; [repeat constructor|]. split; [vm_compute; discriminate|].
  assert (R : forall x, reach W0 (pep563 C0) (fun n => str_get n []) (CLS "TD") x -> In x L).
  { intro x. apply (reach_closed W0 C0 (fun n => str_get n []) L); vm_compute; reflexivity. }
  split; [|split; [|split]].
  - intros n H. apply R in H. cbn in H. repeat (destruct H as [H|H]; try discriminate). contradiction.
  - intros n o args H. apply R in H. cbn in H. repeat (destruct H as [H|H]; [try discriminate; injection H as <- <- <-; split; discriminate|]). contradiction.
  - split; [discriminate|exists 50; vm_compute; reflexivity].
  - split; [repeat split; cbn; intuition discriminate|]. split; [discriminate|]. split; [|split; [left; reflexivity|cbn; intuition discriminate]].
    split; vm_compute; repeat constructor; cbn; intuition discriminate.
Qed.
