(** * Properties, thirty-fifth part: the first error is the one reported (C75) *)

From Verif Require Import Loader Spec Vocab Inv Std Obs Hist Reuse Transparent Examples Ground Index
  Properties1 Properties2 Items Tuples Objects Properties3 First FirstDict FirstRest.

(** C75 A failure is the failure of the first bad part.  [raised_inside v v' t a x xt e0 e]
    (First.v): [e0] is what load(x, xt) raises, without the first entry of its
    trace ([x] into [xt]), but with the entries of [v], the one which says where
    [x] is in [v] being [a], it is [e].  List: *)
Theorem C75_list : forall w basic strcons cfg,
  is_std w basic strcons cfg -> wf_reflect w ->
  forall env s v n et l, let t := TGen n OList (Some [et]) in
  used w cfg s -> steady w basic cfg env s v t ->
  supported cfg et -> (forall d, v <> VDict d) -> iter v = Some l ->
  (* loading an item ends, and fails with nothing but a TypedloadException: C17, C22 *)
  (forall x, In x l -> kept w basic et x \/ settles w cfg s x et) ->
  forall e, loads w cfg s v t (Exc e) <->
    exists l1 x l2 ys e0, l = l1 ++ x :: l2 /\ Forall2 (item_loads w basic cfg s et) l1 ys /\
      ~ kept w basic et x /\ loads w cfg s x et (Exc e0) /\ raised_inside v v t (AnIndex (List.length l1)) x et e0 e.
Proof.
  intros w basic strcons cfg Hs Hw env s v n et l t U St Sup ND Il HS e.
  rewrite (collection_first w basic strcons cfg Hs Hw env s v t U St KoList n et [] l e eq_refl Sup ND Il HS).
  split.
  - intros [e1 [[l1 [x [l2 [ys [-> [F [_ [[NK [k [m [tr [ve [te [subs [L ->]]]]]]]]|[y [_ [H _]]]]]]]]]]] ->]]; [|destruct H; exact I].
    exists l1, x, l2, ys. eexists. split; [reflexivity|]. split; [exact F|]. split; [exact NK|]. split; [exact L|].
    exists k, m, tr, ve, te, subs. split; reflexivity.
  - intros [l1 [x [l2 [ys [e0 [-> [F [NK [L [k [m [tr [ve [te [subs [-> ->]]]]]]]]]]]]]]]].
    exists (XTL k m ((v, t, Some (AnIndex (List.length l1))) :: tr) ve te subs). split; [|reflexivity].
    exists l1, x, l2, ys. split; [reflexivity|]. split; [exact F|]. split; [clear; induction ys; constructor; [exact I|assumption]|].
    left. split; [exact NK|]. exists k, m, tr, ve, te, subs. split; [exact L|reflexivity].
Qed.
Print Assumptions C75_list.
Theorem C75_tuple : forall w basic strcons cfg,
  is_std w basic strcons cfg -> wf_reflect w ->
  forall env s v n et l, let t := TGen n OTuple (Some [et; TEllipsis]) in
  used w cfg s -> steady w basic cfg env s v t ->
  supported cfg et -> (forall d, v <> VDict d) -> iter v = Some l ->
  (forall x, In x l -> kept w basic et x \/ settles w cfg s x et) ->
  forall e, loads w cfg s v t (Exc e) <->
    exists l1 x l2 ys e0, l = l1 ++ x :: l2 /\ Forall2 (item_loads w basic cfg s et) l1 ys /\
      ~ kept w basic et x /\ loads w cfg s x et (Exc e0) /\ raised_inside v v t (AnIndex (List.length l1)) x et e0 e.
Proof.
  intros w basic strcons cfg Hs Hw env s v n et l t U St Sup ND Il HS e.
  rewrite (collection_first w basic strcons cfg Hs Hw env s v t U St KoTuple n et [] l e eq_refl Sup ND Il HS).
  split.
  - intros [e1 [[l1 [x [l2 [ys [-> [F [_ [[NK [k [m [tr [ve [te [subs [L ->]]]]]]]]|[y [_ [H _]]]]]]]]]]] ->]]; [|destruct H; exact I].
    exists l1, x, l2, ys. eexists. split; [reflexivity|]. split; [exact F|]. split; [exact NK|]. split; [exact L|].
    exists k, m, tr, ve, te, subs. split; reflexivity.
  - intros [l1 [x [l2 [ys [e0 [-> [F [NK [L [k [m [tr [ve [te [subs [-> ->]]]]]]]]]]]]]]]].
    exists (XTL k m ((v, t, Some (AnIndex (List.length l1))) :: tr) ve te subs). split; [|reflexivity].
    exists l1, x, l2, ys. split; [reflexivity|]. split; [exact F|]. split; [clear; induction ys; constructor; [exact I|assumption]|].
    left. split; [exact NK|]. exists k, m, tr, ve, te, subs. split; [exact L|reflexivity].
Qed.
Print Assumptions C75_tuple.

(** Set and FrozenSet: the results have to be hashable too; about a result which
    is not, the exception says TypeError, at the place of the set *)
Theorem C75_set : forall w basic strcons cfg,
  is_std w basic strcons cfg -> wf_reflect w ->
  forall env s v n et l (frozen : bool), let t := TGen n (if frozen then OFrozen else OSet) (Some [et]) in
  used w cfg s -> steady w basic cfg env s v t ->
  supported cfg et -> (forall d, v <> VDict d) -> iter v = Some l ->
  (forall x, In x l -> kept w basic et x \/ settles w cfg s x et) ->
  forall e, loads w cfg s v t (Exc e) <->
    exists l1 x l2 ys, l = l1 ++ x :: l2 /\ Forall2 (item_loads w basic cfg s et) l1 ys /\
      (forall y, In y ys -> hashable w y = true) /\
      ((~ kept w basic et x /\ exists e0, loads w cfg s x et (Exc e0) /\ raised_inside v v t (AnIndex (List.length l1)) x et e0 e) \/
       (exists y, item_loads w basic cfg s et x y /\ hashable w y = false /\
          e = XTL KType (MPy RType) [(v, t, None)] (Some v) (Some t) [])).
Proof.
  intros w basic strcons cfg Hs Hw env s v n et l frozen t U St Sup ND Il HS e.
  set (k0 := if frozen then KoFrozen else KoSet).
  assert (HH : forall y, hashes w k0 y <-> hashable w y = true) by (intro y; unfold k0; destruct frozen; reflexivity).
  rewrite (collection_first w basic strcons cfg Hs Hw env s v t U St k0 n et [] l e (ltac:(unfold t, k0; destruct frozen; reflexivity)) Sup ND Il HS).
  split.
  - intros [e1 [[l1 [x [l2 [ys [-> [F [Hy B]]]]]]] ->]].
    exists l1, x, l2, ys. split; [reflexivity|]. split; [exact F|].
    split; [intros y I; apply HH; rewrite Forall_forall in Hy; apply Hy; exact I|].
    destruct B as [[NK [k [m [tr [ve [te [subs [L ->]]]]]]]]|[y [L [H ->]]]].
    + left. split; [exact NK|]. eexists. split; [exact L|]. exists k, m, tr, ve, te, subs. split; reflexivity.
    + right. exists y. split; [exact L|]. split; [|reflexivity]. rewrite HH in H. destruct (hashable w y); [destruct H; reflexivity|reflexivity].
  - intros [l1 [x [l2 [ys [-> [F [Hy B]]]]]]].
    assert (Hy' : Forall (hashes w k0) ys) by (apply Forall_forall; intros y I; apply HH; auto).
    destruct B as [[NK [e0 [L [k [m [tr [ve [te [subs [-> ->]]]]]]]]]]|[y [L [H ->]]]].
    + exists (XTL k m ((v, t, Some (AnIndex (List.length l1))) :: tr) ve te subs). split; [|reflexivity].
      exists l1, x, l2, ys. split; [reflexivity|]. split; [exact F|]. split; [exact Hy'|].
      left. split; [exact NK|]. exists k, m, tr, ve, te, subs. split; [exact L|reflexivity].
    + exists (XTL KType (MPy RType) [] (Some v) (Some t) []). split; [|reflexivity].
      exists l1, x, l2, ys. split; [reflexivity|]. split; [exact F|]. split; [exact Hy'|].
      right. exists y. split; [exact L|]. split; [|reflexivity]. rewrite HH, H. discriminate.
Qed.
Print Assumptions C75_set.

(** What comes after the bad item does not matter: nothing is assumed about it,
    it may be of any size, fail in any way, or never end loading. *)
Theorem C75_rest : forall w basic strcons cfg,
  is_std w basic strcons cfg -> wf_reflect w ->
  forall env s v t n et l1 x l2 ys e0 e,
  used w cfg s -> steady w basic cfg env s v t ->
  t = TGen n OList (Some [et]) \/ t = TGen n OTuple (Some [et; TEllipsis]) \/
  (t = TGen n OSet (Some [et]) \/ t = TGen n OFrozen (Some [et])) /\ (forall y, In y ys -> hashable w y = true) ->
  supported cfg et -> (forall d, v <> VDict d) -> iter v = Some (l1 ++ x :: l2) ->
  Forall2 (item_loads w basic cfg s et) l1 ys ->
  ~ kept w basic et x -> loads w cfg s x et (Exc e0) ->
  raised_inside v v t (AnIndex (List.length l1)) x et e0 e ->
  loads w cfg s v t (Exc e).
Proof.
  intros w basic strcons cfg Hs Hw env s v t n et l1 x l2 ys e0 e U St Ht Sup ND Il F NK L R.
  assert (X : exists k rest, t = coll_type k n et rest /\ Forall (hashes w k) ys).
  { destruct Ht as [Ht|[Ht|[[Ht|Ht] H]]]; subst t.
    - exists KoList, []. split; [reflexivity|]. clear. induction ys; constructor; [exact I|assumption].
    - exists KoTuple, []. split; [reflexivity|]. clear. induction ys; constructor; [exact I|assumption].
    - exists KoSet, []. split; [reflexivity|]. apply Forall_forall. exact H.
    - exists KoFrozen, []. split; [reflexivity|]. apply Forall_forall. exact H. }
  destruct X as [k [rest [ET H]]].
  exact (collection_raises w basic strcons cfg Hs Hw env s v t U St k n et rest l1 x l2 ys e0 e ET Sup ND Il F H NK L R).
Qed.
Print Assumptions C75_rest.

(** tuples of fixed size, when the number of items is right (for the others: C09) *)
Theorem C75_fixed : forall w basic strcons cfg,
  is_std w basic strcons cfg -> wf_reflect w ->
  forall env s v n ts l, let t := TGen n OTuple (Some ts) in
  used w cfg s -> steady w basic cfg env s v t -> (forall a, ts <> [a; TEllipsis]) ->
  (forall et, In et ts -> supported cfg et) -> (forall d, v <> VDict d) -> iter v = Some l ->
  List.length ts <= List.length l -> (failonextra cfg = true -> List.length l = List.length ts) ->
  (forall et x, In (et, x) (combine ts l) -> kept_exact basic et x \/ settles w cfg s x et) ->
  forall e, loads w cfg s v t (Exc e) <->
    exists l1 et x l2 ys e0, combine ts l = l1 ++ (et, x) :: l2 /\
      Forall2 (fun tx y => tuple_item_loads w basic cfg s (fst tx) (snd tx) y) l1 ys /\
      ~ kept_exact basic et x /\ loads w cfg s x et (Exc e0) /\ raised_inside v v t (AnIndex (List.length l1)) x et e0 e.
Proof.
  intros w basic strcons cfg Hs Hw env s v n ts l t U St FS Sup ND Il L1 L2 HS e.
  rewrite (fixed_first w basic strcons cfg Hs Hw env s v t U St n ts l e eq_refl FS Sup ND Il L1 L2 HS).
  split.
  - intros [e1 [[l1 [et [x [l2 [ys [k [m [tr [ve [te [subs [E [F [NK [L ->]]]]]]]]]]]]]]] ->]].
    exists l1, et, x, l2, ys. eexists. split; [exact E|]. split; [exact F|]. split; [exact NK|]. split; [exact L|].
    exists k, m, tr, ve, te, subs. split; reflexivity.
  - intros [l1 [et [x [l2 [ys [e0 [E [F [NK [L [k [m [tr [ve [te [subs [-> ->]]]]]]]]]]]]]]]]].
    exists (XTL k m ((v, t, Some (AnIndex (List.length l1))) :: tr) ve te subs). split; [|reflexivity].
    exists l1, et, x, l2, ys, k, m, tr, ve, te, subs. auto.
Qed.
Print Assumptions C75_fixed.

(** objects, when no required field is missing and there is no unknown key (for
    the others: C06, C07): the first field in the order of the data, not of the
    class; and the constructor is called only when all the fields are loaded *)
Theorem C75_object : forall w basic strcons cfg,
  is_std w basic strcons cfg -> wf_reflect w ->
  forall env s v c d, let t := TClass c in
  used w cfg s -> steady w basic cfg env s v t ->
  object_class w basic strcons c -> resolvable w cfg c -> distinct_names w cfg c -> proper_data v -> obj_data w cfg c v d ->
  (forall e, In e (required_names w cfg c) -> In (VStr e) (map fst d)) ->
  (failonextra cfg = true -> forall k x, In (k, x) d -> exists f, field_of w cfg c k = Some f) ->
  (forall f x, In (f, x) (given w cfg c d) ->
     exists ft, str_get f (declared w (pep563 cfg) c) = Some ft /\ supported cfg ft /\ settles w cfg s x ft) ->
  forall e, loads w cfg s v t (Exc e) <->
    (exists g1 f x g2 ps ft e0 v', given w cfg c d = g1 ++ (f, x) :: g2 /\
       Forall2 (field_loads w cfg s (declared w (pep563 cfg) c)) g1 ps /\
       str_get f (declared w (pep563 cfg) c) = Some ft /\ loads w cfg s x ft (Exc e0) /\
       (* the data, under the names of the fields *)
       v' = VDict (ren (obj_names w cfg c) d) /\
       raised_inside v v' t (AnField f) x ft e0 e) \/
    (exists ps r, Forall2 (field_loads w cfg s (declared w (pep563 cfg) c)) (given w cfg c d) ps /\
       construct w t ps = PExc r /\
       e = match r with
           | RType => XTL KType (MCtor RType) [(v, t, None)] None None []
           | RValue => XTL KValue (MCtor RValue) [(v, t, None)] None None []
           | _ => XRaw RAssert      (* see C17_refuted *)
           end).
Proof.
  intros w basic strcons cfg Hs Hw env s v c d t U St OC R DN PV OD HN HX HS e.
  rewrite (object_first w basic strcons cfg Hs Hw env s v t U St c d e eq_refl OC R DN PV OD HN HX HS).
  split.
  - intros [[v' [e1 [[g1 [f [x [g2 [ps [ft [k [m [tr [ve [te [subs [E [F [Q [L ->]]]]]]]]]]]]]]]] [-> ->]]]]|[ps [r [F [C ->]]]]].
    + left. exists g1, f, x, g2, ps, ft. eexists. eexists. split; [exact E|]. split; [exact F|]. split; [exact Q|]. split; [exact L|].
      split; [reflexivity|]. exists k, m, tr, ve, te, subs. split; reflexivity.
    + right. exists ps, r. split; [exact F|]. split; [exact C|]. unfold ctor_raises. destruct r; reflexivity.
  - intros [[g1 [f [x [g2 [ps [ft [e0 [v' [E [F [Q [L [-> [k [m [tr [ve [te [subs [-> ->]]]]]]]]]]]]]]]]]]]]|[ps [r [F [C ->]]]]].
    + left. eexists. eexists. split; [exists g1, f, x, g2, ps, ft, k, m, tr, ve, te, subs; split; [exact E|]; split; [exact F|]; split; [exact Q|]; split; [exact L|]; reflexivity|].
      split; reflexivity.
    + right. exists ps, r. split; [exact F|]. split; [exact C|]. unfold ctor_raises. destruct r; reflexivity.
Qed.
Print Assumptions C75_object.

(** nor does it matter what comes after the bad field of an object *)
Theorem C75_rest_object : forall w basic strcons cfg,
  is_std w basic strcons cfg -> wf_reflect w ->
  forall env s v c d g1 f x g2 ps ft e0 e, let t := TClass c in
  used w cfg s -> steady w basic cfg env s v t ->
  object_class w basic strcons c -> resolvable w cfg c -> distinct_names w cfg c -> proper_data v -> obj_data w cfg c v d ->
  (forall e, In e (required_names w cfg c) -> In (VStr e) (map fst d)) ->
  (failonextra cfg = true -> forall k x, In (k, x) d -> exists f, field_of w cfg c k = Some f) ->
  (forall f x, In (f, x) g1 -> exists ft, str_get f (declared w (pep563 cfg) c) = Some ft /\ supported cfg ft) ->
  given w cfg c d = g1 ++ (f, x) :: g2 ->
  Forall2 (field_loads w cfg s (declared w (pep563 cfg) c)) g1 ps ->
  str_get f (declared w (pep563 cfg) c) = Some ft -> supported cfg ft -> loads w cfg s x ft (Exc e0) ->
  raised_inside v (VDict (ren (obj_names w cfg c) d)) t (AnField f) x ft e0 e ->
  loads w cfg s v t (Exc e).
Proof.
  intros w basic strcons cfg Hs Hw env s v c d g1 f x g2 ps ft e0 e t U St OC R DN PV OD HN HX SG Eg F E Sup L [k [m [tr [ve [te [subs [-> ->]]]]]]].
  exact (object_raises w basic strcons cfg Hs Hw env s v t U St c d g1 f x g2 ps ft k m tr ve te subs eq_refl OC R DN PV OD HN HX SG Eg F E Sup L).
Qed.
Print Assumptions C75_rest_object.
(** with [g1 = []] the hypotheses are those of C75_ex_object; here the first field of the data is good *)
Example C75_ex_rest_object : let d := [(VStr "a", VStr "1"); (VStr "b", VStr "r")] in let v := VDict d in let t := CLS "Swap" in
  let v' := VDict [(VStr "b", VStr "1"); (VStr "a", VStr "r")] in let x := VStr "r" in
  steady W0 default_basic C0 env2 S2 v t /\ obj_ok (CUser "Swap") /\ proper_data v /\ obj_data W0 C0 (CUser "Swap") v d /\
  (forall e, In e (required_names W0 C0 (CUser "Swap")) -> In (VStr e) (map fst d)) /\
  given W0 C0 (CUser "Swap") d = [("b", VStr "1")] ++ ("a", x) :: [] /\
  Forall2 (field_loads W0 C0 S2 (declared W0 (pep563 C0) (CUser "Swap"))) [("b", VStr "1")] [("b", VInt 1)] /\
  str_get "a" (declared W0 (pep563 C0) (CUser "Swap")) = Some TInt /\ supported C0 TInt /\
  (exists k m tr ve te subs, loads W0 C0 S2 x TInt (Exc (XTL k m ((x, TInt, None) :: tr) ve te subs)) /\
    ren (obj_names W0 C0 (CUser "Swap")) d = [(VStr "b", VStr "1"); (VStr "a", VStr "r")] /\
    loads W0 C0 S2 v t (Exc (XTL k m ((v, t, None) :: (v', t, Some (AnField "a")) :: tr) ve te subs))).
Proof.
  intros d v t v' x. split; [steady_in [CLS "Swap"; TInt]|]. split; [exact ok_Swap|]. split; [unfold v, d; repeat constructor|].
  split; [left; reflexivity|]. split; [intros e H; vm_compute in H; vm_compute; intuition congruence|].
  split; [reflexivity|]. split.
  { constructor; [|constructor]. split; [reflexivity|]. exists TInt. split; [reflexivity|loads_now]. }
  split; [reflexivity|]. split; [eexists; reflexivity|].
  do 6 eexists. split; [split; [|exists 50; vm_compute; reflexivity]; discriminate|]. split; [reflexivity|].
  split; [|exists 50; vm_compute; reflexivity]; discriminate.
Qed.

(** a list with two bad items, and an object with two bad fields whose names are
    mangled: the data come in the other order than the fields of the class *)
Definition L75 : value := VList [VInt 1; VStr "x"; VStr "7"; VStr "y"].
Example C75_ex : let t := LIST TInt in
  used W0 C0 S2 /\ steady W0 default_basic C0 env2 S2 L75 t /\ supported C0 TInt /\
  (forall x, In x [VInt 1; VStr "x"; VStr "7"; VStr "y"] -> kept W0 default_basic TInt x \/ settles W0 C0 S2 x TInt) /\
  (exists k m ve te subs, loads W0 C0 S2 L75 t (Exc (XTL k m [(L75, t, None); (L75, t, Some (AnIndex 1))] ve te subs))) /\
  (exists y, loads W0 C0 S2 (VStr "7") TInt (Ok y)).
Proof.
  cbv zeta. split; [exact S2_used|]. split; [steady_in [LIST TInt; TInt]|]. split; [eexists; reflexivity|]. split; [|split].
  - intros x [<-|[<-|[<-|[<-|[]]]]]; right.
    + eexists. split; [split; [|exists 50; vm_compute; reflexivity]; discriminate|left; eexists; reflexivity].
    + eexists. split; [split; [|exists 50; vm_compute; reflexivity]; discriminate|right; repeat eexists; reflexivity].
    + eexists. split; [split; [|exists 50; vm_compute; reflexivity]; discriminate|left; eexists; reflexivity].
    + eexists. split; [split; [|exists 50; vm_compute; reflexivity]; discriminate|right; repeat eexists; reflexivity].
  - do 5 eexists. split; [|exists 50; vm_compute; reflexivity]; discriminate.
  - eexists. split; [|exists 50; vm_compute; reflexivity]; discriminate.
Qed.
Example C75_ex_object : let d := [(VStr "a", VStr "q"); (VStr "b", VStr "r")] in let v := VDict d in let t := CLS "Swap" in
  let v' := VDict [(VStr "b", VStr "q"); (VStr "a", VStr "r")] in
  steady W0 default_basic C0 env2 S2 v t /\ obj_ok (CUser "Swap") /\ proper_data v /\ obj_data W0 C0 (CUser "Swap") v d /\
  (forall e, In e (required_names W0 C0 (CUser "Swap")) -> In (VStr e) (map fst d)) /\
  given W0 C0 (CUser "Swap") d = [("b", VStr "q"); ("a", VStr "r")] /\
  (forall f x, In (f, x) (given W0 C0 (CUser "Swap") d) ->
     exists ft, str_get f (declared W0 (pep563 C0) (CUser "Swap")) = Some ft /\ supported C0 ft /\ settles W0 C0 S2 x ft) /\
  obj_fields W0 C0 (CUser "Swap") = [("a", "b"); ("b", "a")] /\
  (exists k m ve te subs, loads W0 C0 S2 v t (Exc (XTL k m [(v, t, None); (v', t, Some (AnField "b"))] ve te subs))).
Proof.
  intros d v t v'. split; [steady_in [CLS "Swap"; TInt]|]. split; [exact ok_Swap|]. split; [unfold v, d; repeat constructor|].
  split; [left; reflexivity|]. split; [intros e H; vm_compute in H; vm_compute; intuition congruence|].
  split; [reflexivity|]. split; [|split; [reflexivity|]].
  - intros f x H. vm_compute in H. destruct H as [H|[H|[]]]; injection H as <- <-; exists TInt;
      (split; [reflexivity|]; split; [eexists; reflexivity|]; eexists;
       split; [split; [|exists 50; vm_compute; reflexivity]; discriminate|right; repeat eexists; reflexivity]).
  - do 5 eexists. split; [|exists 50; vm_compute; reflexivity]; discriminate.
Qed.

(** Dictionaries: the first pair in the order of the data, the key before the
    value.  The exception of the key or value is in the trace with the annotation
    [AnKey] or [AnValue] ([annotated], FirstDict.v).  What the load of the dictionary
    makes of it is [raised_by_dict]: the trace with the dictionary in front, except
    for TypedloadAttributeError, whose trace and value are lost (lines 421-422, C18_refuted_dict);
    and when the loaded key is not hashable, which is an assertion failure
    (C17_refuted).  A dictionary whose items are all kept (C39) is
    accepted although [load] may refuse an item: this is why there is the first
    part. *)
Theorem C75_dict : forall w basic strcons cfg,
  is_std w basic strcons cfg -> wf_reflect w ->
  forall env s v n kt vt d, let t := TGen n ODict (Some [kt; vt]) in
  used w cfg s -> steady w basic cfg env s v t ->
  supported cfg kt -> supported cfg vt -> dict_items cfg v d ->
  (forall k x, In (k, x) d -> settles w cfg s k kt /\ settles w cfg s x vt) ->
  forall e, loads w cfg s v t (Exc e) <->
    (forall y, ~ loads w cfg s v t (Ok y)) /\
    exists d1 k x d2 kvs e1, d = d1 ++ (k, x) :: d2 /\
      items_rel (fun k y => loads w cfg s k kt (Ok y)) (fun x y => loads w cfg s x vt (Ok y)) d1 kvs /\
      (forall ky, In ky kvs -> hashable w (fst ky) = true) /\
      ((exists e0, loads w cfg s k kt (Exc e0) /\ annotated k kt (AnKey k) e0 e1) \/
       exists k', loads w cfg s k kt (Ok k') /\
         ((exists e0, loads w cfg s x vt (Exc e0) /\ annotated x vt (AnValue x) e0 e1) \/
          (exists x', loads w cfg s x vt (Ok x') /\ hashable w k' = false /\ e1 = XRaw RType))) /\
      e = raised_by_dict v (VDict d) t e1.
Proof.
  intros w basic strcons cfg Hs Hw env s v n kt vt d t U St Sk Sv Dd HS e.
  assert (E : as_dict cfg v = VDict d) by (apply dict_items_as; exact Dd).
  rewrite (dict_first w basic strcons cfg Hs Hw env s v t U St n kt vt d e eq_refl Sk Sv Dd HS). rewrite E.
  split.
  - intros [N [e1 [[d1 [k [x [d2 [kvs [Ed [F [H B]]]]]]]] Q]]]. split; [exact N|]. exists d1, k, x, d2, kvs, e1. auto.
  - intros [N [d1 [k [x [d2 [kvs [e1 [Ed [F [H [B Q]]]]]]]]]]]. split; [exact N|]. exists e1. split; [|exact Q]. exists d1, k, x, d2, kvs. auto.
Qed.
Print Assumptions C75_dict.
(** the second value is bad, and so is the third key; an attribute error, whose place is lost *)
Example C75_ex_dict : let d := [(VStr "1", VInt 1); (VStr "2", VStr "p"); (VStr "q", VInt 3)] in let v := VDict d in let t := DICT TInt TInt in
  let v2 := dict [("a", dict []); ("b", VInt 1)] in let t2 := DICT TStr (DICT TStr TInt) in
  steady W0 default_basic C0 env2 S2 v t /\ supported C0 TInt /\ dict_items C0 v d /\
  (forall k x, In (k, x) d -> settles W0 C0 S2 k TInt /\ settles W0 C0 S2 x TInt) /\
  (exists k m ve te subs, loads W0 C0 S2 v t (Exc (XTL k m [(v, t, None); (VStr "p", TInt, Some (AnValue (VStr "p")))] ve te subs))) /\
  (exists m, loads W0 C0 S2 v2 t2 (Exc (XTL KAttr m [(v2, t2, None)] (Some v2) (Some t2) []))).
Proof.
  intros d v t v2 t2. split; [steady_in [DICT TInt TInt; TInt]|]. split; [eexists; reflexivity|]. split; [left; reflexivity|]. split; [|split].
  - intros k x [H|[H|[H|[]]]]; injection H as <- <-;
      (split; (eexists; split; [split; [|exists 50; vm_compute; reflexivity]; discriminate|first [left; eexists; reflexivity|right; repeat eexists; reflexivity]])).
  - do 5 eexists. split; [|exists 50; vm_compute; reflexivity]; discriminate.
  - eexists. split; [|exists 50; vm_compute; reflexivity]; discriminate.
Qed.

(** the second item does not settle: it is a failure which is not of typedload *)
Example C75_ex_rest : let et := DICT (LIST TInt) TInt in let t := LIST et in
  let x := VInt 5 in let y := VDict [(VTuple [VInt 1], VInt 1)] in let v := VList [x; y] in
  steady W0 default_basic C0 env2 S2 v t /\ supported C0 et /\ iter v = Some ([] ++ x :: [y]) /\
  ~ kept W0 default_basic et x /\ loads W0 C0 S2 y et (Exc (XRaw RAssert)) /\
  (exists k m tr ve te subs, loads W0 C0 S2 x et (Exc (XTL k m ((x, et, None) :: tr) ve te subs)) /\
    loads W0 C0 S2 v t (Exc (XTL k m ((v, t, None) :: (v, t, Some (AnIndex 0)) :: tr) ve te subs))).
Proof.
  intros et t x y v. split; [steady_in [t; et; LIST TInt; TInt]|]. split; [eexists; reflexivity|]. split; [reflexivity|].
  split; [intros [c [Q _]]; discriminate|]. split; [loads_now|].
  do 6 eexists. split; (split; [|exists 50; vm_compute; reflexivity]; discriminate).
Qed.
