(** * Properties, twentieth part: load and the identity of objects (C59)

    HLoader.v: the Loader on objects in a heap, which can be shared and written
    to.  [object h x v]: in the heap [h] the object [x] is the tree [v].
    [hloads w cfg ev s h x t r s' h']: load(x, t) with the caches [s] in the
    heap [h] ends with the outcome [r], the caches [s'] and the heap [h'].
    [class_objects w ev h]: the members of the enums and the default values of
    the fields are objects of the heap [h]. *)

From Verif Require Import Loader Spec Vocab Inv Std Fuel Obs Simple Examples Ground Properties2 Properties5 HDumper HDump HLoader HLoad HLoad2 HLoad3 HLoad4.

(** C59 load does not change its argument, nor anything else which exists:
    whatever the outcome, the settings, the caches and the type, also if the
    stack is exhausted after [n] levels, also if objects contain each other *)
Theorem C59_unchanged : forall w cfg ev n s h x t, kept_in h (snd (snd (hload w cfg ev n x t (s, h)))).
Proof. intros w cfg ev n s h x t. apply ls_load. apply kept_refl. Qed.
Print Assumptions C59_unchanged.

(** the outcome, and the caches, are those of load for the tree which the
    object is, however its parts are shared *)
Theorem C59_result : forall w basic strcons cfg ev, is_std w basic strcons cfg ->
  forall s h x v t r s' h', used w cfg s -> class_objects w ev h -> object h x v ->
  hloads w cfg ev s h x t r s' h' ->
  match r with
  | Ok y => exists a, ends w cfg s v t (Ok a) s' /\ object h' y a
  | Exc e => ends w cfg s v t (Exc e) s'
  | OOF => False
  end.
Proof. intros w basic strcons cfg ev St s h x v t r s' h'. apply (top_result w basic strcons cfg St ev). Qed.
Print Assumptions C59_result.
Theorem C59_finishes : forall w basic strcons cfg ev, is_std w basic strcons cfg ->
  forall s h x v t r s', used w cfg s -> class_objects w ev h -> object h x v ->
  ends w cfg s v t r s' -> exists r' h', hloads w cfg ev s h x t r' s' h'.
Proof. intros w basic strcons cfg ev St s h x v t r s'. apply (top_total w basic strcons cfg St ev). Qed.
Print Assumptions C59_finishes.

(** the result consists of new objects, no two the same, of parts of the
    argument, of objects of the classes, and of scalars: nothing in it comes
    from earlier loads *)
Theorem C59_origin : forall w basic strcons cfg ev, is_std w basic strcons cfg ->
  forall s h x v t y s' h', used w cfg s -> class_objects w ev h -> distinct_arguments w -> object h x v ->
  hloads w cfg ev s h x t (Ok y) s' h' ->
  exists ls, made_from h' (fun l => inside_of h x l \/ of_class w ev h l) y ls /\ NoDup ls /\ forall l, In l ls -> List.length h <= l.
Proof. intros w basic strcons cfg ev St s h x v t y s' h'. apply (top_origin w basic strcons cfg St ev). Qed.
Print Assumptions C59_origin.

(** when the argument is data, and the type does not ask for values as they
    are, the result shares nothing with the argument *)
Theorem C59_new : forall w basic strcons cfg ev, is_std w basic strcons cfg -> wf_reflect w -> distinct_arguments w ->
  forall nm s h x v t y s' h', used w cfg s -> class_objects w ev h -> object h x v -> data v ->
  renews w basic strcons cfg nm s t ->
  hloads w cfg ev s h x t (Ok y) s' h' ->
  exists ls, made_from h' (of_class w ev h) y ls /\ NoDup ls /\ forall l, In l ls -> List.length h <= l.
Proof. intros w basic strcons cfg ev St Wr D nm s h x v t y s' h' U Co O Dv Rn H. exact (new_of w basic strcons cfg St ev Wr nm s t h x v y s' h' Rn U Co D O Dv H). Qed.
Print Assumptions C59_new.

(** so that editing the result leaves every object as it was, and editing any
    object, except those of the classes, leaves the result as it was *)
Theorem C59_independent : forall w basic strcons cfg ev, is_std w basic strcons cfg -> wf_reflect w -> distinct_arguments w ->
  forall nm s h x v t y s' h', used w cfg s -> class_objects w ev h -> object h x v -> data v ->
  renews w basic strcons cfg nm s t ->
  hloads w cfg ev s h x t (Ok y) s' h' ->
  exists ls, made_from h' (of_class w ev h) y ls /\
    (forall h2, edits (fun l => In l ls) h' h2 -> forall x0 v0, object h x0 v0 -> object h2 x0 v0) /\
    (forall h2 a, edits (fun l => l < List.length h /\ ~ of_class w ev h l) h' h2 -> object h' y a -> object h2 y a).
Proof.
  intros w basic strcons cfg ev St Wr D nm s h x v t y s' h' U Co O Dv Rn H.
  destruct (C59_new w basic strcons cfg ev St Wr D nm s h x v t y s' h' U Co O Dv Rn H) as [ls [M [_ Nw]]]. exists ls. split; [exact M|].
  pose proof (hloads_kept _ _ _ _ _ _ _ _ _ _ H) as K. split.
  - intros h2 E x0 v0 [n R]. exists n. eapply read_mono; [apply le_n| |exact R]. intros l o Q.
    apply (edits_keep _ _ _ _ _ E); [|apply K; exact Q]. intro I. apply Nw in I. assert (l < List.length h) by (apply nth_error_Some; congruence). lia.
  - intros h2 a E Oy. exact (stays w ev h h' h2 y a ls K Co M Nw E Oy).
Qed.
Print Assumptions C59_independent.

(** the results of two loads share nothing with each other, also if they are
    loads of the same object with the same loader *)
Theorem C59_twice : forall w basic strcons cfg ev, is_std w basic strcons cfg -> wf_reflect w -> distinct_arguments w ->
  forall nm s h x v t y s' h' x2 v2 y2 s2 h2, used w cfg s -> class_objects w ev h -> renews w basic strcons cfg nm s t ->
  object h x v -> data v -> hloads w cfg ev s h x t (Ok y) s' h' ->
  object h' x2 v2 -> data v2 -> hloads w cfg ev s' h' x2 t (Ok y2) s2 h2 ->
  exists ls ls2, made_from h2 (of_class w ev h) y ls /\ made_from h2 (of_class w ev h) y2 ls2 /\ NoDup (ls ++ ls2).
Proof.
  intros w basic strcons cfg ev St Wr D nm s h x v t y s' h' x2 v2 y2 s2 h2 U Co Rn O Dv H O2 Dv2 H2.
  destruct (C59_new w basic strcons cfg ev St Wr D nm s h x v t y s' h' U Co O Dv Rn H) as [ls [M [N B]]].
  destruct (renews_again w basic strcons cfg St ev Wr nm s t h x v (Ok y) s' h' Rn U Co O H) as [Rn' U'].
  pose proof (hloads_kept _ _ _ _ _ _ _ _ _ _ H) as K. pose proof (hloads_kept _ _ _ _ _ _ _ _ _ _ H2) as K2.
  pose proof (class_objects_kept _ _ _ _ K Co) as Co'.
  destruct (C59_new w basic strcons cfg ev St Wr D nm s' h' x2 v2 t y2 s2 h2 U' Co' O2 Dv2 Rn' H2) as [ls2 [M2 [N2 B2]]].
  exists ls, ls2. split; [eapply mf_kept; [intros l o _; apply K2|exact M]|]. split; [eapply mf_imp; [|exact M2]; intros l; apply of_class_kept; assumption|].
  apply NoDup_app_in; [exact N|exact N2|]. intros l I1 I2. apply B2 in I2. pose proof (mf_there _ _ _ _ _ M I1). lia.
Qed.
Print Assumptions C59_twice.

(** load makes no copy of a member of an enum, whatever the outcome: no new
    object is a member *)
Theorem C59_no_copies : forall w cfg ev n s h x t, class_objects w ev h ->
  forall l c ms m a, List.length h <= l -> ci_enum (class_of w c) = Some ms -> In (m, a) ms ->
  ~ object (snd (snd (hload w cfg ev n x t (s, h)))) (HR l) (VEnum c m a).
Proof. intros w cfg ev n s h x t Co l c ms m a Ge Em I. apply (no_copies w cfg ev n s h x t l c m a ms Co Ge Em I). Qed.
Print Assumptions C59_no_copies.
(** so that the members of enums in the result, at any depth, are those of the
    class: load(x, Color) is Color.RED *)
Theorem C59_members : forall w basic strcons cfg ev, is_std w basic strcons cfg ->
  forall s h x v t y s' h', used w cfg s -> class_objects w ev h -> distinct_arguments w -> only_members w ev h -> object h x v ->
  hloads w cfg ev s h x t (Ok y) s' h' ->
  forall l c ms m a, inside_of h' y l -> ci_enum (class_of w c) = Some ms -> In (m, a) ms ->
  object h' (HR l) (VEnum c m a) -> HR l = e_member ev c m.
Proof.
  intros w basic strcons cfg ev St s h x v t y s' h' U Co Da Om O H l c ms m a Il Em I Oa.
  destruct (C59_origin w basic strcons cfg ev St s h x v t y s' h' U Co Da O H) as [ls [M [_ Nw]]].
  pose proof (hloads_kept _ _ _ _ _ _ _ _ _ _ H) as K.
  destruct (inside_from _ _ _ _ _ M Il) as [J|[l0 [J Il0]]].
  - exfalso. destruct H as [_ [n E]]. pose proof (C59_no_copies w cfg ev n s h x t Co l c ms m a (Nw l J) Em I) as Q. rewrite E in Q. exact (Q Oa).
  - assert (R : exists b, object h (HR l0) b).
    { destruct J as [J|[z [Cz J]]]; [exact (inside_reads h x v l0 O J)|]. destruct (class_reads _ _ _ _ Co Cz) as [b Ob]. exact (inside_reads h z b l0 Ob J). }
    destruct R as [b Ob]. apply (Om l c ms m a Em I). exact (old_inside h h' (HR l0) b l _ K Ob Il0 Oa).
Qed.
Print Assumptions C59_members.

(** the members of Color, AEnum and Hue are at the places 0, 1, 2, 4, 6 and 7; the
    defaults of W0 are scalars *)
Definition default59 (ci : classinfo) (k : string) : value :=
  let of fs := match find (fun f => String.eqb k (f_name f)) fs with Some f => match f_default f with DValue d => d | _ => VNone end | None => VNone end in
  match ci_nt ci, ci_dc ci, ci_attrs ci with
  | Some fs, _, _ => match str_get k fs with Some (Some d) => d | _ => VNone end
  | None, Some fs, _ => of fs
  | None, None, Some fs => of fs
  | None, None, None => VNone
  end.
Definition E59 : env := mkEnv
  (fun c m => if cid_eqb c (CUser "AEnum") then HR 4 else if String.eqb m "RED" then HR 0 else if String.eqb m "GREEN" then HR 1 else
    if String.eqb m "WARM" then HR 6 else if String.eqb m "COLD" then HR 7 else HR 2)
  (fun c k => HV (default59 (class_of W0 c) k)).
Definition N59 : heap :=
  [HEnum (CUser "Color") "RED" (HV (VInt 1)); HEnum (CUser "Color") "GREEN" (HV (VStr "g")); HEnum (CUser "Color") "PAIR" (HR 3);
   HTuple [HV (VInt 1); HV (VInt 2)]; HEnum (CUser "AEnum") "P" (HR 5); HTuple [HV (VInt 1); HV (VInt 2)];
   HEnum (CUser "Hue") "WARM" (HV (VInt 1)); HEnum (CUser "Hue") "COLD" (HV (VStr "c"))].
(** l = [1]; r = {"l": l, "p": {"x": 1}}; [r, r, "g", l], loaded as a tuple of
    two Recs, a Color and a list *)
Definition H59 : heap := N59 ++
  [HList [HR 9; HR 9; HV (VStr "g"); HR 10]; HDict [(HV (VStr "l"), HR 10); (HV (VStr "p"), HR 11)];
   HList [HV (VInt 1)]; HDict [(HV (VStr "x"), HV (VInt 1))]].
Definition T59 : ty := TUPLE [CLS "Recs"; CLS "Recs"; CLS "Color"; LIST TInt].
Definition V59 : value :=
  let l := VList [VInt 1] in let r := dict [("l", l); ("p", dict [("x", VInt 1)])] in VList [r; r; VStr "g"; l].
Definition R59 : value :=
  let l := VList [VInt 1] in let r := VObj (CUser "Recs") [("l", l); ("p", VP 1 0)] in
  VTuple [r; r; VEnum (CUser "Color") "GREEN" (VStr "g"); l].
Lemma names0 (P : cid -> classinfo -> Prop) : (forall c, P c no_class) -> Forall (fun kc => P (CUser (fst kc)) (snd kc)) table0 -> forall c, P c (class_of W0 c).
Proof.
  intros P0 PF c. destruct c; try apply P0. cbn [class_of W0 w_class]. unfold classes0.
  destruct (str_get n table0) as [ci|] eqn:E; [|apply P0]. rewrite Forall_forall in PF. apply str_get_In in E. apply (PF _ E).
Qed.
Ltac each0 := apply Forall_forall; intros kc J; unfold table0 in J; repeat (destruct J as [<-|J]; [cbn [fst snd]|]); [..|contradiction].
Lemma N59_classes h : kept_in N59 h -> class_objects W0 E59 h.
Proof.
  intro K. apply (class_objects_kept _ _ _ _ K). constructor.
  - intros c. apply (names0 (fun c ci => forall ms m x, ci_enum ci = Some ms -> In (m, x) ms -> object N59 (e_member E59 c m) (VEnum c m x))); [discriminate|].
    each0; intros ms m x E I; try discriminate E; injection E as <-;
      repeat (destruct I as [I|I]; [injection I as <- <-; exists 9; vm_compute; reflexivity|]); contradiction.
  - intros c fs k d.
    assert (Q : ci_nt (class_of W0 c) = Some fs -> In (k, Some d) fs -> default59 (class_of W0 c) k = d /\ scalar d = true).
    { apply (names0 (fun c ci => ci_nt ci = Some fs -> In (k, Some d) fs -> default59 ci k = d /\ scalar d = true)); [discriminate|].
      each0; intros E I; try discriminate E; injection E as <-; cbn in I; destruct I as [I|[I|[]]]; try discriminate I; injection I as <- <-; split; reflexivity. }
    intros E I. destruct (Q E I) as [<- Sc]. exists 0. cbn. rewrite Sc. reflexivity.
  - intros c fs f d.
    assert (Q : ci_dc (class_of W0 c) = Some fs \/ ci_attrs (class_of W0 c) = Some fs -> In f fs -> f_default f = DValue d -> default59 (class_of W0 c) (f_name f) = d /\ scalar d = true).
    { apply (names0 (fun c ci => ci_dc ci = Some fs \/ ci_attrs ci = Some fs -> In f fs -> f_default f = DValue d -> default59 ci (f_name f) = d /\ scalar d = true)); [intros c0 [Q|Q]; discriminate Q|].
      each0; (intros [E|E]; try discriminate E; injection E as <-); intros I Df;
        repeat (destruct I as [<-|I]; [cbn in Df; try discriminate Df; injection Df as <-; split; reflexivity|]); contradiction. }
    intros E I Df. destruct (Q E I Df) as [<- Sc]. exists 0. cbn. rewrite Sc. reflexivity.
Qed.
Lemma W0_arguments : distinct_arguments W0.
Proof.
  constructor; intro c.
  - apply (classes0_all (fun ci => forall fs, ci_nt ci = Some fs -> NoDup (map fst fs))); [discriminate|].
    apply Forall_forall. intros ci J. cbn in J. repeat (destruct J as [<-|J]; [intros fs E; try discriminate E; injection E as <-; cbn; repeat (constructor; [cbn; intuition discriminate|]); constructor|]). contradiction.
  - apply (classes0_all (fun ci => forall fs, ci_dc ci = Some fs -> NoDup (map f_name (filter f_init fs)))); [discriminate|].
    apply Forall_forall. intros ci J. cbn in J. repeat (destruct J as [<-|J]; [intros fs E; try discriminate E; injection E as <-; cbn; repeat (constructor; [cbn; intuition discriminate|]); constructor|]). contradiction.
  - apply (classes0_all (fun ci => forall fs, ci_attrs ci = Some fs -> NoDup (map (fun f => strip_underscore (f_name f)) (filter f_init fs)))); [discriminate|].
    apply Forall_forall. intros ci J. cbn in J. repeat (destruct J as [<-|J]; [intros fs E; try discriminate E; injection E as <-; cbn; repeat (constructor; [cbn; intuition discriminate|]); constructor|]). contradiction.
Qed.
Lemma kept_more (h h' : heap) : kept_in h (h ++ h').
Proof. intros l o Q. rewrite nth_error_app1; [exact Q|]. apply nth_error_Some. congruence. Qed.
Lemma V59_data : data V59.
Proof.
  assert (L : data (VList [VInt 1])) by (apply data_list; apply Forall_cons; [apply data_scalar; reflexivity|apply Forall_nil]).
  assert (P : data (dict [("x", VInt 1)])) by (apply data_dict; apply Forall_cons; [split; apply data_scalar; reflexivity|apply Forall_nil]).
  assert (R : data (dict [("l", VList [VInt 1]); ("p", dict [("x", VInt 1)])])).
  { apply data_dict; apply Forall_cons; [split; [apply data_scalar; reflexivity|exact L]|apply Forall_cons; [split; [apply data_scalar; reflexivity|exact P]|apply Forall_nil]]. }
  apply data_list. apply Forall_cons; [exact R|]. apply Forall_cons; [exact R|]. apply Forall_cons; [apply data_scalar; reflexivity|]. apply Forall_cons; [exact L|apply Forall_nil].
Qed.
Definition L59 : list ty := [T59; CLS "Recs"; CLS "Color"; LIST TInt; TInt; CLS "Point"].
Lemma T59_renews nm s : renews W0 default_basic default_strcons C0 nm s T59.
Proof.
  assert (R : forall t, reach W0 (pep563 C0) nm T59 t -> In t L59) by (intro t; apply (reach_closed W0 C0 nm L59); vm_compute; reflexivity).
  constructor.
  - intro Q. apply R in Q. cbn in Q. intuition discriminate.
  - intros vals l Q. apply R in Q. cbn in Q. intuition discriminate.
  - intros c Q. split; intro I; cbn in I; repeat (destruct I as [<-|I]; [discriminate Q|]); contradiction.
  - intros n t' Q. apply R in Q. cbn in Q. intuition discriminate.
  - intros n t' Q. apply R in Q. cbn in Q. intuition discriminate.
Qed.
Example C59_ex : class_objects W0 E59 H59 /\ distinct_arguments W0 /\ object H59 (HR 8) V59 /\ data V59 /\
  (forall nm s, renews W0 default_basic default_strcons C0 nm s T59) /\
  exists s' h', hloads W0 C0 E59 S2 H59 (HR 8) T59 (Ok (HR 23)) s' h' /\ object h' (HR 23) R59 /\
    made_from h' (of_class W0 E59 H59) (HR 23) [23; 16; 13; 15; 21; 18; 20; 22] /\
    exists y2 s2 h2, hloads W0 C0 E59 s' h' (HR 8) T59 (Ok y2) s2 h2 /\ y2 <> HR 23.
Proof.
  split; [apply N59_classes; apply kept_more|].
  split; [exact W0_arguments|]. split; [exists 9; vm_compute; reflexivity|]. split; [exact V59_data|]. split; [exact T59_renews|].
  eexists. eexists. split; [split; [discriminate|exists 9; vm_compute; reflexivity]|].
  split; [exists 9; vm_compute; reflexivity|]. split.
  - set (h' := (_ :: _ : heap)). 
    assert (Li : forall h L l, at_ h l = Some (HList [HV (VInt 1)]) -> made_from h L (HR l) [l]).
    { intros h L l E. apply (mf_new h L l _ [[]] E). repeat constructor. }
    assert (Po : forall h L l, at_ h l = Some (HObj (CUser "Point") [("x", HV (VInt 1)); ("y", HV (VInt 0))]) -> made_from h L (HR l) [l]).
    { intros h L l E. apply (mf_new h L l _ [[]; []] E). repeat constructor. }
    assert (Re : forall h L l a b, at_ h l = Some (HObj (CUser "Recs") [("l", HR a); ("p", HR b)]) -> at_ h a = Some (HList [HV (VInt 1)]) ->
      at_ h b = Some (HObj (CUser "Point") [("x", HV (VInt 1)); ("y", HV (VInt 0))]) -> made_from h L (HR l) [l; a; b]).
    { intros h L l a b E E1 E2. apply (mf_new h L l _ [[a]; [b]] E). constructor; [apply Li; exact E1|]. constructor; [apply Po; exact E2|constructor]. }
    apply (mf_new h' _ 23 (HTuple [HR 16; HR 21; HR 1; HR 22]) [[16; 13; 15]; [21; 18; 20]; []; [22]]); [reflexivity|].
    constructor; [apply Re; reflexivity|]. constructor; [apply Re; reflexivity|]. constructor; [|constructor; [apply Li; reflexivity|constructor]].
    apply mf_old. exists (HR 1). split; [|apply io_self]. left. exists (CUser "Color"). eexists. exists "GREEN", (VStr "g"). split; [reflexivity|]. split; [right; left; reflexivity|reflexivity].
  - eexists. eexists. eexists. split; [split; [discriminate|exists 9; vm_compute; reflexivity]|discriminate].
Qed.
(** the member in the result is the object at the place 1 *)
Example C59_ex_members : only_members W0 E59 H59 /\
  exists y s' h', hloads W0 C0 E59 S2 H59 (HR 8) T59 (Ok (HR y)) s' h' /\ inside_of h' (HR y) 1 /\
    object h' (HR 1) (VEnum (CUser "Color") "GREEN" (VStr "g")) /\ HR 1 = e_member E59 (CUser "Color") "GREEN".
Proof.
  split.
  - intros l c ms m x Em I O. apply ob_inv in O as [o [E T]].
    do 12 (destruct l as [|l]; [injection E as <-; inversion T; subst; reflexivity|]). destruct l; discriminate E.
  - eexists. eexists. eexists. split; [split; [discriminate|exists 9; vm_compute; reflexivity]|]. split; [|split; [exists 9; vm_compute; reflexivity|reflexivity]].
    eapply io_part; [vm_compute; reflexivity|right; right; left; reflexivity|apply io_self].
Qed.
(** objects which contain each other: nothing changes *)
Example C59_ex_cycle : let h := [HList [HR 0; HR 1]; HDict [(HV (VStr "a"), HR 0)]] in
  (forall v, ~ object h (HR 0) v) /\ fst (hload W0 C0 E59 9 (HR 0) (LIST TAny) (S2, h)) = OOF /\
  kept_in h (snd (snd (hload W0 C0 E59 9 (HR 0) (LIST TAny) (S2, h)))).
Proof.
  intro h. split; [|split; [vm_compute; reflexivity|apply C59_unchanged]].
  intros v [n R]. assert (N : forall n, read n (at_ h) (HR 0) = None); [|congruence].
  clear. induction n as [|n IH]; [reflexivity|]. cbn [read]. change (nth_error h 0) with (Some (HList [HR 0; HR 1])). cbn [mapo]. rewrite IH. reflexivity.
Qed.

(** with Any the parts of the argument become parts of the result (line 327):
    load([[1]], List[Any]); appending to the list in the result changes the
    argument *)
Theorem C59_refuted : let h := N59 ++ [HList [HR 9]; HList [HV (VInt 1)]] in
  class_objects W0 E59 h /\ object h (HR 8) (VList [VList [VInt 1]]) /\ data (VList [VList [VInt 1]]) /\
  exists y s' h', hloads W0 C0 E59 S0 h (HR 8) (LIST TAny) (Ok (HR y)) s' h' /\ y <> 8 /\ at_ h' y = Some (HList [HR 9]) /\
    object (put h' 9 (HList [HV (VInt 1); HV (VInt 2)])) (HR 8) (VList [VList [VInt 1; VInt 2]]).
Proof.
  intro h. split; [apply N59_classes; apply kept_more|]. split; [exists 9; vm_compute; reflexivity|].
  split; [apply data_list; apply Forall_cons; [|apply Forall_nil]; apply data_list; apply Forall_cons; [apply data_scalar; reflexivity|apply Forall_nil]|].
  eexists. eexists. eexists. split; [split; [discriminate|exists 9; vm_compute; reflexivity]|]. split; [discriminate|]. split; [reflexivity|]. exists 9. vm_compute. reflexivity.
Qed.
Print Assumptions C59_refuted.

(** @attr.s class Shr: l: List[int] = attr.ib(default=[]) - two results share
    the default: load({}, Shr) twice *)
Definition W59 : world :=
  mkWorld (fun n => if String.eqb n "Shr" then acls [f0 "l" (LIST TInt) (DValue (VList []))] else no_class)
    (w_call W0) (w_fromiso W0) (w_callargs W0) (w_timedelta W0) (w_compile W0) (w_name W0) (w_pick W0) (w_setorder W0) (w_str W0) (w_iso W0) (w_seconds W0).
Definition C59c : config := default_config W59.
Definition E59d : env := mkEnv (fun _ _ => HV VNone) (fun _ _ => HR 0).
Theorem C59_refuted_default : let h := [HList []; HDict []] in let t := CLS "Shr" in
  is_std W59 default_basic default_strcons C59c /\ wf_reflect W59 /\ distinct_arguments W59 /\ class_objects W59 E59d h /\
  (forall nm s, renews W59 default_basic default_strcons C59c nm s t) /\ object h (HR 1) (VDict []) /\ data (VDict []) /\
  exists y s' h' y2 s2 h2, hloads W59 C59c E59d S0 h (HR 1) t (Ok (HR y)) s' h' /\ hloads W59 C59c E59d s' h' (HR 1) t (Ok (HR y2)) s2 h2 /\
    y <> y2 /\ at_ h2 y = Some (HObj (CUser "Shr") [("l", HR 0)]) /\
    object (put h2 0 (HList [HV (VInt 1)])) (HR y2) (VObj (CUser "Shr") [("l", VList [VInt 1])]).
Proof.
  intros h t. assert (Cl : forall c, class_of W59 c = no_class \/ (c = CUser "Shr" /\ class_of W59 c = acls [f0 "l" (LIST TInt) (DValue (VList []))])).
  { intros []; try (left; reflexivity). cbn [class_of W59 w_class]. destruct (String.eqb_spec n "Shr") as [->|]; [right; split; reflexivity|left; reflexivity]. }
  split; [split; reflexivity|].
  split; [constructor; intro c; destruct (Cl c) as [->|[_ ->]]; cbn; intros; try contradiction; try discriminate; reflexivity|].
  split; [constructor; intro c; destruct (Cl c) as [->|[_ ->]]; cbn; intros fs E; try discriminate; injection E as <-; cbn; repeat constructor; cbn; tauto|].
  split.
  { constructor; intro c; destruct (Cl c) as [->|[-> ->]]; cbn.
    - discriminate.
    - discriminate.
    - discriminate.
    - discriminate.
    - intros fs f d [Q|Q]; discriminate Q.
    - intros fs f d [Q|Q]; [discriminate Q|]. injection Q as <-. intros [<-|[]] Q. cbn in Q. injection Q as <-. exists 9. vm_compute. reflexivity. }
  split.
  { intros nm s. assert (R : forall t', reach W59 (pep563 C59c) nm t t' -> In t' [t; LIST TInt; TInt]) by (intro t'; apply (reach_closed W59 C59c nm); vm_compute; reflexivity).
    constructor.
    - intro Q. apply R in Q. cbn in Q. intuition discriminate.
    - intros vals l Q. apply R in Q. cbn in Q. intuition discriminate.
    - intros c Q. split; intro I; cbn in I; repeat (destruct I as [<-|I]; [discriminate Q|]); contradiction.
    - intros n t' Q. apply R in Q. cbn in Q. intuition discriminate.
    - intros n t' Q. apply R in Q. cbn in Q. intuition discriminate. }
  split; [exists 9; vm_compute; reflexivity|]. split; [apply data_dict; apply Forall_nil|].
  eexists. eexists. eexists. eexists. eexists. eexists.
  split; [split; [discriminate|exists 9; vm_compute; reflexivity]|]. split; [split; [discriminate|exists 9; vm_compute; reflexivity]|].
  split; [discriminate|]. split; [reflexivity|]. exists 9. vm_compute. reflexivity.
Qed.
Print Assumptions C59_refuted_default.
