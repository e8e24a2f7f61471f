(** * Properties, thirteenth part: how a value is dumped (C51) and dumpers
    with additional handlers (C52)

    [is_dstd w basic strcons cfg]: the default handlers, any other setting.
    [dhistory w cfg s]: the state of a Dumper after any sequence of dumps.
    [dumps w cfg s v r]: dump(v) on it ends with the outcome [r]. *)

From Verif Require Import Loader Dumper Spec Vocab Inv Fuel Index Dumps Facts5 Examples Ground Properties5 DumpAny.

(** C51 dump is compositional.  A value of a basic type is returned as it is *)
Theorem C51_basic : forall w basic strcons cfg, is_dstd w basic strcons cfg ->
  forall s v r, dhistory w cfg s -> python_value w v -> In (type_of v) basic ->
  (dumps w cfg s v r <-> r = Ok v).
Proof. intros w basic strcons cfg St s v r H P I. eapply c30; eauto. apply json_basic. exact I. Qed.
Print Assumptions C51_basic.

(** a list, tuple, set or frozenset becomes the list of its dumped items, in
    the same order *)
Theorem C51_items : forall w basic strcons cfg, is_dstd w basic strcons cfg ->
  forall s v l r, dhistory w cfg s -> python_value w v -> collection_of v l -> ~ In (type_of v) basic ->
  (dumps w cfg s v (Ok r) <-> exists ys, Forall2 (fun x y => dumps w cfg s x (Ok y)) l ys /\ r = VList ys).
Proof. intros w basic strcons cfg St s v l r H P K N. eapply c51_items; eauto. Qed.
Print Assumptions C51_items.
(** and dump fails exactly with what the first failing item fails with *)
Theorem C51_items_fail : forall w basic strcons cfg, is_dstd w basic strcons cfg ->
  forall s v l e, dhistory w cfg s -> python_value w v -> collection_of v l -> ~ In (type_of v) basic ->
  (dumps w cfg s v (Exc e) <->
   exists l1 x l2, l = l1 ++ x :: l2 /\ (forall y, In y l1 -> exists a, dumps w cfg s y (Ok a)) /\ dumps w cfg s x (Exc e)).
Proof. intros w basic strcons cfg St s v l e H P K N. eapply c51_items_exc; eauto. Qed.
Print Assumptions C51_items_fail.

(** a dictionary: the keys and the values are dumped; the dumped keys have to
    be hashable, and when two of them are equal the last value remains (see
    [dict_of]) *)
Theorem C51_dict : forall w basic strcons cfg, is_dstd w basic strcons cfg ->
  forall s d r, dhistory w cfg s -> python_value w (VDict d) -> ~ In CDict basic ->
  (dumps w cfg s (VDict d) (Ok r) <->
   exists kys, Forall2 (fun kx ky => dumps w cfg s (fst kx) (Ok (fst ky)) /\ dumps w cfg s (snd kx) (Ok (snd ky)) /\
                                     hashable w (fst ky) = true) d kys /\
               r = VDict (dict_of kys)).
Proof. intros w basic strcons cfg St s d r H P N. eapply c51_dict; eauto. Qed.
Print Assumptions C51_dict.

(** a member of an enum is dumped as its value *)
Theorem C51_enum : forall w basic strcons cfg, is_dstd w basic strcons cfg ->
  forall s c m x r, dhistory w cfg s -> python_value w (VEnum c m x) -> ~ In c basic -> ci_dc (class_of w c) = None ->
  (dumps w cfg s (VEnum c m x) r <-> dumps w cfg s x r).
Proof. intros w basic strcons cfg St s c m x r H P N D. eapply c51_enum; eauto. Qed.
Print Assumptions C51_enum.

(** date, time, datetime: with isodates the ISO format; without, the list of
    the components, if there is no timezone *)
Theorem C51_iso : forall w basic strcons cfg, is_dstd w basic strcons cfg ->
  forall s c p r, dhistory w cfg s -> python_value w (VInst c p) -> plain_class w basic c ->
  isinstance w (VInst c p) CDate = true \/ isinstance w (VInst c p) CTime = true -> d_iso cfg = true ->
  (dumps w cfg s (VInst c p) r <-> r = Ok (VStr (w_iso w (VInst c p)))).
Proof. intros w basic strcons cfg St s c p r H P N K I. eapply c51_iso; eauto. Qed.
Print Assumptions C51_iso.
Theorem C51_date : forall w basic strcons cfg, is_dstd w basic strcons cfg ->
  forall s c l r, let v := VInst c (VTuple l) in
  dhistory w cfg s -> python_value w v -> plain_class w basic c ->
  isinstance w v CDate = true -> isinstance w v CDatetime = false -> d_iso cfg = false ->
  (dumps w cfg s v r <-> r = Ok (VList l)).
Proof. intros w basic strcons cfg St s c l r v H P N K K2 I. eapply c51_date; eauto. Qed.
Print Assumptions C51_date.
Theorem C51_time : forall w basic strcons cfg, is_dstd w basic strcons cfg ->
  forall s c l tz r, let v := VInst c (VTuple (l ++ [tz])) in
  dhistory w cfg s -> python_value w v -> plain_class w basic c ->
  (isinstance w v CDatetime = true /\ isinstance w v CDate = true) \/
  (isinstance w v CTime = true /\ isinstance w v CDate = false) ->
  d_iso cfg = false ->
  (dumps w cfg s v r <-> (tz = VNone /\ r = Ok (VList l)) \/ (tz <> VNone /\ r = Exc (XRaw RNotImpl))).
Proof. intros w basic strcons cfg St s c l tz r v H P N K I. subst v. eapply c51_time; eauto. Qed.
Print Assumptions C51_time.

(** the total seconds of a timedelta, the pattern of a regular expression, the
    string of the classes in strconstructed *)
Theorem C51_timedelta : forall w basic strcons cfg, is_dstd w basic strcons cfg ->
  forall s c p r, dhistory w cfg s -> python_value w (VInst c p) -> plain_class w basic c ->
  isinstance w (VInst c p) CTimedelta = true -> isinstance w (VInst c p) CDate = false -> isinstance w (VInst c p) CTime = false ->
  (dumps w cfg s (VInst c p) r <-> r = Ok (w_seconds w (VInst c p))).
Proof. intros w basic strcons cfg St s c p r H P N K K1 K2. eapply c51_timedelta; eauto. Qed.
Print Assumptions C51_timedelta.
Theorem C51_pattern : forall w basic strcons cfg, is_dstd w basic strcons cfg ->
  forall s c p r, dhistory w cfg s -> python_value w (VInst c p) -> plain_class w basic c ->
  isinstance w (VInst c p) CPattern = true ->
  (forall k, In k [CDate; CTime; CTimedelta] -> isinstance w (VInst c p) k = false) ->
  (dumps w cfg s (VInst c p) r <-> r = Ok p).
Proof. intros w basic strcons cfg St s c p r H P N K K1. eapply c51_pattern; eauto. Qed.
Print Assumptions C51_pattern.
Theorem C51_str : forall w basic strcons cfg, is_dstd w basic strcons cfg ->
  forall s c p r, dhistory w cfg s -> python_value w (VInst c p) -> plain_class w basic c -> In c strcons ->
  (forall k, In k [CDate; CTime; CTimedelta; CPattern] -> isinstance w (VInst c p) k = false) ->
  (dumps w cfg s (VInst c p) r <-> r = Ok (VStr (w_str w (VInst c p)))).
Proof. intros w basic strcons cfg St s c p r H P N K K1. eapply c51_str; eauto. Qed.
Print Assumptions C51_str.

(** all of them meet: a list, in a used dumper.  {1: [date(2020,1,2)],
    Color.GREEN: (time(1,2,3,0), Path("/a"))}, timedelta, re.compile("a*") *)
Definition VT51 (tz : value) : value := VInst CTime (VTuple ([VInt 1; VInt 2; VInt 3; VInt 0] ++ [tz])).
Definition V51 (tz : value) : value :=
  VList [VDict [(VInt 1, VSet [VInst CDate (VTuple [VInt 2020; VInt 1; VInt 2])]);
                (VEnum (CUser "Color") "GREEN" (VStr "g"), VTuple [VT51 tz; VInst (CUser "Path") (VStr "/a")])];
         VInst CPattern (VStr "a*")].
Lemma V51_py : python_value W0 (V51 VNone) /\ python_value W0 (V51 (VStr "utc")).
Proof.
  split; within_now 6; cbn; repeat split; try discriminate; try (left; discriminate);
    intro K; repeat (destruct K as [K|K]; [discriminate|]); contradiction.
Qed.
Lemma plain_builtin : plain_class W0 default_basic CDate /\ plain_class W0 default_basic CTime /\
  plain_class W0 default_basic CPattern /\ plain_class W0 default_basic CTimedelta /\ plain_class W0 default_basic (CUser "Path").
Proof.
  repeat split; try reflexivity; intro K; cbn in K; repeat (destruct K as [K|K]; [discriminate|]); contradiction.
Qed.
Example C51_ex : dhistory W0 D0 SD1 /\ python_value W0 (V51 VNone) /\ python_value W0 (V51 (VStr "utc")) /\
  ~ In CList default_basic /\ ~ In CDict default_basic /\ ~ In (CUser "Color") default_basic /\
  ci_dc (class_of W0 (CUser "Color")) = None /\ In (CUser "Path") default_dstrcons /\
  plain_class W0 default_basic CTime /\ isinstance W0 (VT51 VNone) CTime = true /\ isinstance W0 (VT51 VNone) CDate = false /\
  dumps W0 D0 SD1 (V51 VNone) (Ok (VList [VDict [(VInt 1, VList [VList [VInt 2020; VInt 1; VInt 2]]);
    (VStr "g", VList [VList [VInt 1; VInt 2; VInt 3; VInt 0]; VStr "/a"])]; VStr "a*"])) /\
  dumps W0 D0 SD1 (V51 (VStr "utc")) (Exc (XRaw RNotImpl)).
Proof.
  split; [exact SD1_used|]. split; [apply V51_py|]. split; [apply V51_py|].
  do 3 (split; [intro K; cbn in K; repeat (destruct K as [K|K]; [discriminate|]); contradiction|]).
  split; [reflexivity|]. split; [left; reflexivity|]. split; [apply plain_builtin|]. split; [reflexivity|]. split; [reflexivity|].
  split; (split; [discriminate|]; exists 9; vm_compute; reflexivity).
Qed.

(** C52 Dumpers with additional handlers.  As long as the handler is selected
    by the class of the object, and what the custom handlers pass to
    dumper.dump is Python data, the result does not depend on what was dumped
    before *)
Theorem C52_reuse : forall w cfg, class_handlers w cfg -> sane_handlers w cfg ->
  forall s1 s2 v t r, dhistory w cfg s1 -> dhistory w cfg s2 -> python_value w v ->
  (dumps_as w cfg s1 v t r <-> dumps_as w cfg s2 v t r).
Proof. exact c52_reuse. Qed.
Print Assumptions C52_reuse.

(** the result of a custom handler is the result of dump *)
Theorem C52_custom : forall w cfg, class_handlers w cfg -> sane_handlers w cfg ->
  forall s v t f y, dhistory w cfg s -> python_value w v -> dselects cfg v (DCustom f) -> f v t = DPRet y ->
  forall r, dumps_as w cfg s v t r <-> r = Ok y.
Proof. exact c52_custom. Qed.
Print Assumptions C52_custom.

(** the items of a collection are dumped one by one, with any handlers -- also
    if they are annotated as being of a basic type, unless the handler of the
    basic types is still the first one *)
Theorem C52_items : forall w cfg, class_handlers w cfg -> sane_handlers w cfg ->
  forall s v t l, dhistory w cfg s -> python_value w v -> dselects cfg v DIter -> iter v = Some l ->
  (exists c h hs, d_handlers cfg = (c, h) :: hs /\ h <> DIdent) \/
    (forall b n o, In b (d_basic cfg) -> t <> TGen n o (Some [TClass b]) /\ t <> TGen n o (Some [TClass b; TEllipsis])) ->
  forall r, dumps_as w cfg s v t (Ok r) <->
    exists ys, Forall2 (fun x y => dumps w cfg s x (Ok y)) l ys /\ r = VList ys.
Proof.
  intros w cfg Hc Hs s v t l H P Sel I A. apply (c52_items w cfg Hc Hs s v t l H P Sel I).
  intros [B F]. destruct A as [[c [h [hs [E N]]]]|A].
  - unfold ident_first in F. rewrite E in F. destruct h; congruence.
  - destruct t; cbn in B; try discriminate. destruct args as [[|x1 [|x2 [|]]]|]; try discriminate B.
    + destruct x1; try discriminate B. cbn in B. apply mem_cid_In in B. destruct (A c native o B) as [X _]. congruence.
    + destruct x2; try discriminate B. destruct x1; try discriminate B. cbn in B. apply mem_cid_In in B.
      destruct (A c native o B) as [_ X]. congruence.
    + destruct x2; discriminate B.
Qed.
Print Assumptions C52_items.

(** where both select the same handlers, a dumper with other handlers behaves
    as one with the default handlers *)
Theorem C52_local : forall w basic strcons cfg1 cfg2, is_dstd w basic strcons cfg2 -> same_dsettings cfg1 cfg2 ->
  class_handlers w cfg1 -> sane_handlers w cfg1 ->
  forall s1 s2 v r, dhistory w cfg1 s1 -> dhistory w cfg2 s2 -> python_value w v ->
  (forall x, within v x -> dfind cfg1 x = dfind cfg2 x) ->
  (exists c hs, d_handlers cfg1 = (c, DIdent) :: hs) \/ annotations_hold w basic v ->
  (dumps w cfg1 s1 v r <-> dumps w cfg2 s2 v r).
Proof.
  intros w basic strcons cfg1 cfg2 St Se Hc Hs s1 s2 v r H1 H2 P F A. apply (c52_local w basic strcons cfg1 cfg2); auto.
  destruct A as [[c [hs E]]|A]; [left; unfold ident_first; rewrite E; reflexivity|right; exact A].
Qed.
Print Assumptions C52_local.

(** in particular: handlers inserted at any place, whose conditions look at the
    class of the object and hold for nothing in [v] *)
Theorem C52_inserted : forall w basic strcons cfg1 cfg2 l1 extra l2, is_dstd w basic strcons cfg2 -> same_dsettings cfg1 cfg2 ->
  d_handlers cfg2 = l1 ++ l2 -> d_handlers cfg1 = l1 ++ extra ++ l2 -> d_rce cfg1 = d_rce cfg2 ->
  (forall c h v v', In (c, h) extra -> type_of v = type_of v' -> c v = c v') ->
  sane_handlers w cfg1 ->
  forall s1 s2 v r, dhistory w cfg1 s1 -> dhistory w cfg2 s2 -> python_value w v ->
  (forall x c h, within v x -> In (c, h) extra -> c x = POk false) ->
  (l1 <> [] \/ annotations_hold w basic v) ->
  (dumps w cfg1 s1 v r <-> dumps w cfg2 s2 v r).
Proof. exact c52_inserted. Qed.
Print Assumptions C52_inserted.

(** a handler for the class Path, in front of the default ones; it dumps the
    pair of the class name and of the string *)
Definition X52 : list ((value -> pyres bool) * dhandler) :=
  [(fun v => POk (cid_eqb (type_of v) (CUser "Path")),
    DCustom (fun v _ => DPDump (VTuple [VStr "path"; VStr (w_str W0 v)]) TAny (fun o => match o with inl y => DPRet y | inr e => DPRaise e end)))].
Definition D52 : dconfig := mkDConfig (d_basic D0) (d_hide D0) (d_iso D0) (d_rce D0) (d_mk D0) (X52 ++ d_handlers D0).
Lemma X52_class : forall c h v v', In (c, h) X52 -> type_of v = type_of v' -> c v = c v'.
Proof. intros c h v v' [E|[]] Q. injection E as <- _. rewrite Q. reflexivity. Qed.
Lemma D52_class : class_handlers W0 D52.
Proof. apply (class_conditions W0 default_basic default_dstrcons D52 [] X52 (d_handlers D0)); [reflexivity|reflexivity|exact X52_class]. Qed.
Lemma strs_pv w a b : python_value w (VTuple [VStr a; VStr b]).
Proof.
  intros x H. inversion H as [|y z Hy W]; subst; [exact I|]. inversion Hy as [|l x' I1| | | | | | |]; subst.
  destruct I1 as [<-|[<-|[]]]; inversion W as [|y' z' Hz]; subst; try exact I; inversion Hz.
Qed.
Lemma D52_sane : sane_handlers W0 D52.
Proof.
  intros c f v t I P. unfold D52, X52 in I. cbn [d_handlers app] in I. destruct I as [I|I].
  - injection I as _ <-. constructor; [apply strs_pv|]. intros [y|e]; constructor.
  - exfalso. cbn in I. repeat (destruct I as [I|I]; [discriminate|]). contradiction.
Qed.
Definition V52 : value := VList [VInt 3; VInst (CUser "Path") (VStr "/a")].
Lemma V52_py : python_value W0 V52.
Proof.
  within_now 6; cbn; repeat split; try discriminate; try (left; discriminate);
    intro K; repeat (destruct K as [K|K]; [discriminate|]); contradiction.
Qed.
Definition S52 : dstate := snd (dump_ann W0 D52 9 V52 TAny dfresh).
Lemma S52_used : dhistory W0 D52 S52. Proof. unfold S52. apply dhistory_again; [apply dhistory_new|apply V52_py]. Qed.
Definition R52 (p : value) : value := VObj (CUser "Recs") [("l", VList [VInt 1; VInt 2]); ("p", p)].
Example C52_ex : class_handlers W0 D52 /\ sane_handlers W0 D52 /\ dhistory W0 D52 S52 /\ dhistory W0 D0 SD1 /\
  python_value W0 V52 /\ dselects D52 V52 DIter /\
  (exists c h hs, d_handlers D52 = (c, h) :: hs /\ h <> DIdent) /\
  dumps W0 D52 S52 V52 (Ok (VList [VInt 3; VList [VStr "path"; VStr "/a"]])) /\
  (* and an object without paths *)
  python_value W0 (R52 (VP 1 3)) /\ annotations_hold W0 default_basic (R52 (VP 1 3)) /\
  (forall x c h, within (R52 (VP 1 3)) x -> In (c, h) X52 -> c x = POk false) /\
  dumps W0 D52 S52 (R52 (VP 1 3)) (Ok (dict [("p", dict [("y", VInt 3); ("x", VInt 1)]); ("l", VList [VInt 1; VInt 2])])).
Proof.
  split; [exact D52_class|]. split; [exact D52_sane|]. split; [exact S52_used|]. split; [exact SD1_used|]. split; [exact V52_py|].
  split; [apply dselects_find; reflexivity|].
  split; [do 3 eexists; split; [reflexivity|discriminate]|].
  split; [split; [discriminate|exists 9; vm_compute; reflexivity]|].
  split; [within_now 6; cbn; repeat split; try discriminate; left; discriminate|].
  split.
  { intros c fs hs f t b n o x l y W. revert W. intro W.
    assert (K : In (VObj c fs) (all_within 6 [R52 (VP 1 3)])) by (apply (within_closed _ (R52 (VP 1 3))); [vm_compute; reflexivity|vm_compute; reflexivity|exact W]).
    vm_compute in K. repeat (destruct K as [K|K]; [try discriminate K|]); [| |contradiction]; injection K as <- <-; cbn; intros [= <-];
      cbn; repeat match goal with |- context [String.eqb ?a ?b] => destruct (String.eqb a b) end;
      intros [= <-] T B Ix Kx Iy; destruct T as [T|T]; try discriminate T;
      repeat (destruct Ix as [Ix|Ix]; [injection Ix as <- <-; destruct Kx as [Kx|[Kx|[Kx|Kx]]]; try discriminate Kx; injection Kx as <-;
        repeat (destruct Iy as [<-|Iy]; [cbn; auto 6|]); contradiction|]); contradiction. }
  split.
  { intros x c h W [E|[]]. injection E as <- _. revert x W. within_now 6; reflexivity. }
  split; [discriminate|exists 9; vm_compute; reflexivity].
Qed.

(** the selection has to depend on the class: the handler found for an object
    is used for all the later objects of its class.  A handler for the numbers
    below 5: after dump(1) also 10 is dumped by it *)
Definition D52r : dconfig :=
  mkDConfig (d_basic D0) (d_hide D0) (d_iso D0) (d_rce D0) (d_mk D0)
    ((fun v => POk match v with VInt z => Z.ltb z 5 | _ => false end, DCustom (fun _ _ => DPRet (VStr "small"))) :: d_handlers D0).
Theorem C52_refuted : exists s, dhistory W0 D52r s /\ sane_handlers W0 D52r /\
  dumps W0 D52r dfresh (VInt 10) (Ok (VInt 10)) /\
  dumps W0 D52r s (VInt 10) (Ok (VStr "small")).
Proof.
  exists (snd (dump_ann W0 D52r 9 (VInt 1) TAny dfresh)). split.
  { apply dhistory_again; [apply dhistory_new|]. within_now 3. exact I. }
  split.
  { intros c f v t H P. unfold D52r in H. cbn [d_handlers] in H. destruct H as [H|H]; [injection H as _ <-; constructor|].
    exfalso. cbn in H. repeat (destruct H as [H|H]; [discriminate|]). contradiction. }
  split; (split; [discriminate|exists 9; vm_compute; reflexivity]).
Qed.
Print Assumptions C52_refuted.
