(** * Ground: decision procedures used to show that concrete cases meet the
      hypotheses of the theorems (for the Examples beside the theorems) *)

From Verif Require Import Loader Spec Inv Std Sound Fuel Obs Scalars Transparent Hist Examples.

(** ** The example world is well formed *)
Lemma classes0_cases c : class_of W0 c = no_class \/ In (class_of W0 c) (map snd table0).
Proof.
  destruct c; try (left; reflexivity). cbn [class_of]. cbn [W0 w_class]. unfold classes0.
  destruct (str_get n table0) as [ci|] eqn:E; [right|left; reflexivity].
  revert E. induction table0 as [|[k c] l IH]; cbn [str_get map snd]; [discriminate|].
  destruct (String.eqb n k); [intros [= <-]; left; reflexivity|right; auto].
Qed.

Lemma classes0_all (P : classinfo -> Prop) :
  P no_class -> Forall P (map snd table0) -> forall c, P (class_of W0 c).
Proof.
  intros P0 PF c. destruct (classes0_cases c) as [->|I]; [exact P0|].
  rewrite Forall_forall in PF. apply PF. exact I.
Qed.

(** nothing in the example world raises StopIteration, except the class Conv *)
Lemma W0_calm t : t <> CLS "Conv" -> calm W0 t.
Proof.
  intro NC. split.
  - intros c fs _. apply (classes0_all (fun ci => ci_post ci fs <> PExc RStopIter)); [discriminate|].
    cbn. repeat (constructor; [cbn; repeat match goal with |- context [match ?x with _ => _ end] => destruct x end; discriminate|]). constructor.
  - intros c _. apply (classes0_all (fun ci => ci_hints ci <> PExc RStopIter)); [discriminate|].
    cbn. repeat (constructor; [cbn; discriminate|]). constructor.
  - intros c fs f hs -> A I0 Fc. destruct c; try discriminate A. revert A. cbn [class_of W0 w_class]. unfold classes0.
    assert (T0 : Forall (fun nc => fst nc = "Conv" \/ (ci_attrs (snd nc) = Some fs -> hs = [])) table0).
    { repeat (constructor; [cbn [fst snd]; first [left; reflexivity|right; cbn [ci_attrs]; first [discriminate|intros [= <-]; cbn in I0; repeat (destruct I0 as [<-|I0]; [cbn in Fc; first [discriminate Fc|injection Fc as <-; reflexivity]|]); contradiction]]|]). constructor. }
    revert T0. generalize table0. intro l. induction l as [|[k ci] l IH]; intro F; cbn [str_get]; [discriminate|].
    inversion F as [|? ? [F1|F1] F2]; subst; cbn [fst snd] in F1; destruct (String.eqb_spec n k) as [->|NE]; try (apply IH; exact F2).
    + subst k. exfalso. apply NC. reflexivity.
    + intro A. left. exact (F1 A).
  - intros c s _. cbn. destruct (String.eqb s "2020-01-02"); discriminate.
  - intros c l _. cbn. destruct c; try discriminate. destruct (Nat.eqb _ _); discriminate.
  - intro v. cbn. destruct v; try discriminate. destruct f; discriminate.
  - intro v. cbn [W0 w_compile]. repeat match goal with |- context [match ?x with _ => _ end] => destruct x end; discriminate.
Qed.

Lemma wr0 : wf_reflect W0.
Proof.
  split.
  - intros c. apply (classes0_all (fun ci => ci_td ci <> None -> ci_attrs ci = None)); [reflexivity|].
    cbn. repeat constructor; cbn; intro H; try reflexivity; congruence.
  - intros c. apply (classes0_all (fun ci => forall k t, ci_td ci <> None -> In (k, t) (ci_ann ci) -> unwrap (unwrap t) = unwrap t)); [contradiction|].
    cbn. repeat constructor; cbn; intros k t _ I; try contradiction;
      repeat (destruct I as [I|I]; [injection I as <- <-; reflexivity|]); contradiction.
  - intros c. apply (classes0_all (fun ci => forall req k n a, ci_td ci = Some req ->
      In (k, TGen n ONotRequired a) (ci_ann ci) -> ~ In k req)); [contradiction|].
    cbn. repeat constructor; cbn; intros req k n a H I; try discriminate; injection H as <-;
    repeat (destruct I as [I|I]; [try discriminate; injection I as <- <- <-; cbn; intuition discriminate|]); contradiction.
Qed.

Lemma wf0 : wf_world W0 default_basic default_strcons.
Proof.
  split.
  - intros c v r [H|H] E; cbn in H.
    + destruct H as [<-|[<-|[<-|[<-|[<-|[]]]]]]; cbn in E.
      * destruct v; try discriminate; try (injection E as <-; reflexivity).
        -- destruct f; try discriminate; injection E as <-; reflexivity.
        -- destruct (parse_int s); [injection E as <-; reflexivity|discriminate].
      * injection E as <-. reflexivity.
      * destruct v; try discriminate; try (injection E as <-; reflexivity).
        destruct (parse_int s); [injection E as <-; reflexivity|discriminate].
      * destruct v; injection E as <-; reflexivity.
      * destruct v; discriminate.
    + repeat (destruct H as [<-|H]; [cbn in E; try discriminate; destruct v; try discriminate; injection E as <-; reflexivity|]).
      contradiction.
  - intros c s r. cbn [W0 w_fromiso]. destruct (String.eqb s "2020-01-02"); [intros [= <-]; apply (isinstance_self W0 (VInst c (VTuple [VInt 2020; VInt 1; VInt 2])))|discriminate].
  - intros c l r. cbn [W0 w_callargs].
    assert (G0 : forall q, isinstance W0 (VInst c q) c = true) by (intro q; apply (isinstance_self W0 (VInst c q))).
    destruct c; try (intros [= <-]; apply G0).
    destruct (Nat.eqb (List.length l) 3); [intros [= <-]; apply G0|discriminate].
  - intros v r. cbn [W0 w_timedelta]. destruct v; try discriminate; try (intros [= <-]; reflexivity).
    destruct f; try discriminate; intros [= <-]; reflexivity.
  - intros v r. cbn [W0 w_compile]. destruct v as [|b|z|f|s|s|l|l|l|l|d|d|c fs|c fs|c m x|c x]; try discriminate; [|intros [= <-]; reflexivity].
    destruct s as [|a s]; [intros [= <-]; reflexivity|].
    destruct a as [[] [] [] [] [] [] [] []]; destruct s; try discriminate; intros [= <-]; reflexivity.
  - intros c H. cbn in H. destruct H as [<-|[<-|[<-|[<-|[<-|[]]]]]]; reflexivity.
  - intros c H. cbn in H. repeat (destruct H as [<-|H]; [reflexivity|]). contradiction.
  - intros c. unfold kind_of_class. apply (classes0_all (fun ci => ci_enum ci <> None ->
      match ci_nt ci, ci_dc ci, ci_attrs ci, ci_td ci with
      | Some fs, _, _, _ => Some (KNT fs)
      | None, Some fs, _, _ => Some (KDC fs)
      | None, None, Some fs, _ => Some (KAT fs)
      | None, None, None, Some r => Some (KTD r)
      | None, None, None, None => None
      end = None)); [reflexivity|].
    cbn. repeat constructor; cbn; intro H; try reflexivity; congruence.
  - intros c. apply (classes0_all (fun ci => ci_td ci <> None -> ci_attrs ci = None)); [reflexivity|].
    cbn. repeat constructor; cbn; intro H; try reflexivity; congruence.
  - intros c. apply (classes0_all (fun ci => forall fs f, ci_attrs ci = Some fs -> In f fs -> f_init f = true ->
      In (strip_underscore (f_name f)) (map f_name fs) -> strip_underscore (f_name f) = f_name f)); [discriminate|].
    cbn. repeat constructor; cbn; intros fs f H I _ J; try discriminate; injection H as <-;
      repeat (destruct I as [<-|I]; [cbn in *; try reflexivity; repeat (destruct J as [J|J]; try discriminate); contradiction|]); contradiction.
  - intros c. apply (classes0_all (fun ci => forall k t, In (k, t) (ci_ann ci) -> unwrap (unwrap t) = unwrap t)); [contradiction|].
    cbn. repeat constructor; cbn; intros k t I; try contradiction;
      repeat (destruct I as [I|I]; [injection I as <- <-; reflexivity|]); contradiction.
Qed.

(** ** Reachability by computation *)
(** ** Tags, by computation *)
Definition tagb (t : ty) : bool := match unwrap t with TLiteral _ => true | _ => false end.
Definition tag_names (w : world) (t : ty) : list string :=
  match t with TClass c => map fst (filter (fun kt => tagb (snd kt)) (ci_ann (class_of w c))) | _ => [] end.
Definition tag_lists (w : world) (t : ty) (k : string) : list (list value) :=
  match t with
  | TClass c => flat_map (fun kt => match snd kt with TLiteral vals => if String.eqb (fst kt) k then [vals] else [] | _ => [] end) (ci_ann (class_of w c))
  | _ => []
  end.
Definition shared_names (w : world) (args : list ty) : list string :=
  match args with
  | [] => []
  | t :: _ => filter (fun k => forallb (fun x => mem_str k (tag_names w x)) args) (tag_names w t)
  end.
Definition plainb (x : value) : bool :=
  match x with VNone | VBool _ | VInt _ | VStr _ | VBytes _ | VEnum _ _ _ => true | _ => false end.
Definition plain_tagsb (w : world) (args : list ty) : bool :=
  forallb (fun a => match a with
                    | TClass c => forallb (fun kt => match unwrap (snd kt) with
                                                     | TLiteral _ => match snd kt with TLiteral _ => true | _ => false end
                                                     | _ => true
                                                     end) (ci_ann (class_of w c))
                    | _ => true
                    end) args &&
  (let ks := shared_names w args in
   forallb (fun k => forallb (String.eqb k) ks) ks &&
   forallb (fun k =>
     forallb (fun x => forallb (fun vals => forallb plainb vals) (tag_lists w x k)) args &&
     forallb (fun x => forallb (fun x' =>
        ty_eqb x x' ||
        forallb (fun vals => forallb (fun l => forallb (fun vals' => forallb (fun l' => negb (py_eqb l l')) vals') (tag_lists w x' k)) vals) (tag_lists w x k)) args) args) ks).
Lemma has_tag_names w x k : has_tag w x k -> In k (tag_names w x).
Proof.
  intros [c [a [vals [-> [I U]]]]]. cbn [tag_names]. apply in_map_iff. exists (k, a). split; [reflexivity|]. apply filter_In. split; [exact I|].
  cbn [snd]. unfold tagb. rewrite U. reflexivity.
Qed.
Lemma tag_values_lists w x k vals : tag_values w x k vals -> In vals (tag_lists w x k).
Proof.
  intros [c [-> I]]. cbn [tag_lists]. apply in_flat_map. exists (k, TLiteral vals). split; [exact I|]. cbn. rewrite String.eqb_refl. left. reflexivity.
Qed.
Lemma shared_names_In w args k : args <> [] -> (forall x, In x args -> has_tag w x k) -> In k (shared_names w args).
Proof.
  intros N H. destruct args as [|t args]; [congruence|]. cbn [shared_names]. apply filter_In. split.
  - apply has_tag_names. apply H. left. reflexivity.
  - apply forallb_forall. intros x I. unfold mem_str. rewrite existsb_exists. exists k. split; [apply has_tag_names; auto|apply String.eqb_refl].
Qed.
Lemma plain_tagsb_spec w args : plain_tagsb w args = true -> plain_tags w args.
Proof.
  intro H. unfold plain_tagsb in H. apply andb_true_iff in H as [H1 H2]. apply andb_true_iff in H2 as [H2 H3].
  rewrite forallb_forall in H1, H2, H3. split.
  - intros c k tk vals I Ik U. specialize (H1 _ I). cbn in H1. rewrite forallb_forall in H1. specialize (H1 _ Ik). cbn in H1.
    rewrite U in H1. destruct tk; try discriminate. exact U.
  - intros N k k' S S'. specialize (H2 k (shared_names_In w args k N S)). rewrite forallb_forall in H2.
    apply String.eqb_eq. apply H2. apply shared_names_In; assumption.
  - intros k x vals S I V. assert (N : args <> []) by (intros ->; destruct I).
    specialize (H3 k (shared_names_In w args k N S)). apply andb_true_iff in H3 as [H3 _]. rewrite forallb_forall in H3.
    specialize (H3 x I). rewrite forallb_forall in H3. specialize (H3 vals (tag_values_lists _ _ _ _ V)). rewrite forallb_forall in H3.
    apply Forall_forall. intros l Il. specialize (H3 l Il). destruct l; try discriminate; exact Logic.I.
  - intros k x x' vals vals' l l' S I I' V V' Il Il' E. assert (N : args <> []) by (intros ->; destruct I).
    specialize (H3 k (shared_names_In w args k N S)). apply andb_true_iff in H3 as [_ H3]. rewrite forallb_forall in H3.
    specialize (H3 x I). rewrite forallb_forall in H3. specialize (H3 x' I'). apply orb_true_iff in H3 as [H3|H3]; [apply ty_eqb_eq; exact H3|].
    rewrite forallb_forall in H3. specialize (H3 vals (tag_values_lists _ _ _ _ V)). rewrite forallb_forall in H3. specialize (H3 l Il).
    rewrite forallb_forall in H3. specialize (H3 vals' (tag_values_lists _ _ _ _ V')). rewrite forallb_forall in H3. specialize (H3 l' Il').
    rewrite E in H3. discriminate.
Qed.

Section Closed.
  Variable w : world.
  Variable cfg : config.
  Variable env : string -> option ty.
  Notation p := (pep563 cfg).
  Definition closedb (L : list ty) : bool :=
    forallb (fun t => forallb (fun t' => mem_ty t' L) (comps w p env t)) L.
  Lemma mem_ty_In t L : mem_ty t L = true <-> In t L.
  Proof.
    unfold mem_ty. rewrite existsb_exists. split.
    - intros [x [I E]]. apply ty_eqb_eq in E. subst. exact I.
    - intro I. exists t. split; [exact I|apply ty_eqb_refl].
  Qed.
  Lemma reach_closed L T t : closedb L = true -> mem_ty T L = true -> reach w p env T t -> In t L.
  Proof.
    intros C M R. apply mem_ty_In in M. unfold closedb in C. rewrite forallb_forall in C.
    induction R as [x|x y z Cxy Ryz IH]; [exact M|]. apply IH.
    specialize (C x M). rewrite forallb_forall in C. apply mem_ty_In. apply C. exact Cxy.
  Qed.

  Variable s : lstate.
  Definition seenb (t : ty) : bool := match ty_get t (st_index s) with Some _ => true | None => false end.
  Definition steady_ty (t : ty) : bool :=
    match t with
    | TForward n => match env n, names_of s n with Some a, Some b => ty_eqb a b | _, _ => false end
    | TGen _ ODict (Some [kt; vt]) => seenb vt
    | TGen _ OUnion (Some args) =>
        plain_tagsb w args
    | _ => true
    end.
  Lemma names_knows n t : names_of s n = Some t -> knows s n t.
  Proof. unfold names_of, knows. destruct (st_frefs s) as [fr|]; [|discriminate]. intro E. eauto. Qed.
  Lemma steady_by L basic v T :
    closedb L = true -> mem_ty T L = true -> forallb steady_ty L = true -> steady w basic cfg env s v T.
  Proof.
    intros C M B. rewrite forallb_forall in B. split.
    - intros n R. apply (reach_closed L T _ C M) in R. specialize (B _ R). cbn in B.
      destruct (env n) as [a|]; [|discriminate]. destruct (names_of s n) as [b|] eqn:N; [|discriminate].
      apply ty_eqb_eq in B. subst b. exists a. split; [reflexivity|apply names_knows; exact N].
    - intros n kt vt R. apply (reach_closed L T _ C M) in R. specialize (B _ R). cbn in B.
      left. unfold seen. unfold seenb in B. destruct (ty_get vt (st_index s)); [discriminate|discriminate].
    - intros n args R. apply (reach_closed L T _ C M) in R. specialize (B _ R). apply plain_tagsb_spec. exact B.
  Qed.
End Closed.

Lemma W0_never cfg env L T : closedb W0 cfg env L = true -> mem_ty T L = true -> mem_ty (CLS "Conv") L = false -> never_stops W0 (pep563 cfg) env T.
Proof. intros C M N t' R. apply W0_calm. intros ->. apply (reach_closed W0 cfg env L T _ C M) in R. apply mem_ty_In in R. congruence. Qed.

(** the same when no Dict has been seen yet: any other condition on the
    Dicts may be used *)
Lemma steady_by_dict w cfg env s L basic v T :
  closedb w cfg env L = true -> mem_ty T L = true ->
  forallb (fun t => match t with TGen _ ODict _ => true | _ => steady_ty w env s t end) L = true ->
  (forall n kt vt, In (TGen n ODict (Some [kt; vt])) L -> seen s vt \/ det_dict w basic (inside v) kt vt) ->
  steady w basic cfg env s v T.
Proof.
  intros C M B D. rewrite forallb_forall in B. split.
  - intros n R. apply (reach_closed w cfg env L T _ C M) in R. specialize (B _ R). cbn in B.
    destruct (env n) as [a|]; [|discriminate]. destruct (names_of s n) as [b|] eqn:N; [|discriminate].
    apply ty_eqb_eq in B. subst b. exists a. split; [reflexivity|apply names_knows; exact N].
  - intros n kt vt R. apply (reach_closed w cfg env L T _ C M) in R. eapply D. exact R.
  - intros n args R. apply (reach_closed w cfg env L T _ C M) in R. specialize (B _ R). apply plain_tagsb_spec. exact B.
Qed.

(** ** Everything inside a value, by computation *)
Definition parts (v : value) : list value :=
  match iter v with Some l => l | None => [] end ++
  match v with
  | VDict d => map snd d
  | VNamespace d => flat_map (fun kx => [VStr (fst kx); snd kx]) d
  | _ => []
  end.
Lemma parts_spec v x : part v x -> In x (parts v).
Proof.
  intro P. unfold parts. apply in_or_app. inversion P as [v0 l x0 E I|d k x0 I|d k x0 I|d k x0 I]; subst.
  - left. rewrite E. exact I.
  - right. apply in_map_iff. exists (k, x). split; [reflexivity|exact I].
  - right. apply in_flat_map. exists (k, x0). split; [exact I|left; reflexivity].
  - right. apply in_flat_map. exists (k, x). split; [exact I|right; left; reflexivity].
Qed.
Definition memv (v : value) (l : list value) : bool := existsb (fun x => if value_eq_dec v x then true else false) l.
Lemma memv_In v l : memv v l = true -> In v l.
Proof. unfold memv. rewrite existsb_exists. intros [x [I E]]. destruct (value_eq_dec v x); [subst; exact I|discriminate]. Qed.
Fixpoint all_inside (n : nat) (l : list value) : list value :=
  match n with
  | 0 => l
  | S n' => all_inside n' (nodup value_eq_dec (l ++ flat_map parts l))
  end.
Lemma inside_closed l v x :
  forallb (fun y => forallb (fun z => memv z l) (parts y)) l = true -> memv v l = true -> inside v x -> In x l.
Proof.
  intros C Mv I. apply memv_In in Mv. rewrite forallb_forall in C.
  induction I as [v|v y x P _ IH]; [exact Mv|]. apply IH. apply parts_spec in P.
  specialize (C v Mv). rewrite forallb_forall in C. apply memv_In. apply C. exact P.
Qed.
Definition hashedb (w : world) (v : value) : bool :=
  match v with
  | VDict d => forallb (fun kx => hashable w (fst kx)) d
  | VSet l | VFrozen l => forallb (hashable w) l
  | _ => true
  end.
Lemma hashedb_spec w v : hashedb w v = true -> hashed w v.
Proof.
  destruct v; cbn; try (intros _; exact I); rewrite forallb_forall; intro H; [exact H|exact H|].
  intros k x J. exact (H _ J).
Qed.
Lemma hashed_inside w n v :
  (let l := all_inside n [v] in
   forallb (fun y => forallb (fun z => memv z l) (parts y)) l && memv v l && forallb (hashedb w) l) = true ->
  forall x, inside v x -> hashed w x.
Proof.
  cbv zeta. intros H x I. apply andb_prop in H as [H H3]. apply andb_prop in H as [H1 H2].
  apply hashedb_spec. rewrite forallb_forall in H3. apply H3. exact (inside_closed _ _ _ H1 H2 I).
Qed.

(** ** Everything within an object, by computation *)
Definition helds (v : value) : list value :=
  match v with
  | VList l | VTuple l | VSet l | VFrozen l => l
  | VDict d => map fst d ++ map snd d
  | VNT _ fs | VObj _ fs => map snd fs
  | VEnum _ _ x => [x]
  | _ => []
  end.
Lemma helds_spec v x : holds v x -> In x (helds v).
Proof.
  intro H. inversion H; subst; cbn; try assumption; try (apply in_or_app).
  - left. apply in_map_iff. eexists. split; [|eassumption]. reflexivity.
  - right. apply in_map_iff. eexists. split; [|eassumption]. reflexivity.
  - apply in_map_iff. eexists. split; [|eassumption]. reflexivity.
  - apply in_map_iff. eexists. split; [|eassumption]. reflexivity.
  - left. reflexivity.
Qed.
Fixpoint all_within (n : nat) (l : list value) : list value :=
  match n with
  | 0 => l
  | S n' => all_within n' (nodup value_eq_dec (l ++ flat_map helds l))
  end.
Lemma within_closed l v x :
  forallb (fun y => forallb (fun z => memv z l) (helds y)) l = true -> memv v l = true -> within v x -> In x l.
Proof.
  intros C Mv I. apply memv_In in Mv. rewrite forallb_forall in C.
  induction I as [v|v y x P _ IH]; [exact Mv|]. apply IH. apply helds_spec in P.
  specialize (C v Mv). rewrite forallb_forall in C. apply memv_In. apply C. exact P.
Qed.

(** ** Recursion of types by computation *)
Section Recursion.
  Variable w : world.
  (** the types of the list, by their __name__ *)
  Definition by_name (L : list ty) (n : string) : list ty :=
    filter (fun t => match w_name w t with Some m => String.eqb n m | None => false end) L.
  Definition closed_under (f : ty -> list ty) (L : list ty) : bool :=
    forallb (fun t => forallb (fun t' => mem_ty t' L) (f t)) L.
  Lemma involves_closed names L T t :
    closed_under (mentioned w names) L = true -> mem_ty T L = true -> involves w names T t -> In t L.
  Proof.
    intros C M R. apply mem_ty_In in M. unfold closed_under in C. rewrite forallb_forall in C.
    induction R as [x|x y z Cxy Ryz IH]; [exact M|]. apply IH.
    specialize (C x M). rewrite forallb_forall in C. apply mem_ty_In. apply C. exact Cxy.
  Qed.
  Lemma has_involved_by L T :
    closed_under (mentioned w (by_name L)) L = true -> mem_ty T L = true -> has_involved w (by_name L) T.
  Proof.
    intros C M n t I E. unfold by_name. apply filter_In. split; [eapply involves_closed; eassumption|].
    rewrite E. apply String.eqb_refl.
  Qed.
  Fixpoint descends (f : ty -> list ty) (L : list ty) : bool :=
    match L with
    | [] => true
    | t :: L' => forallb (fun t' => mem_ty t' L') (f t) && descends f L'
    end.
  Lemma acc_by (R : ty -> ty -> Prop) f L : (forall a b, R a b -> In b (f a)) -> descends f L = true ->
    forall t, In t L -> Acc (fun b a => R a b) t.
  Proof.
    intros HR. induction L as [|a L IH]; cbn [descends]; [intros _ t []|].
    intros D. apply andb_prop in D as [D1 D2]. specialize (IH D2). rewrite forallb_forall in D1.
    intros t [<-|I]; [|auto]. constructor. intros b Rb. apply IH. apply mem_ty_In. apply D1. apply HR. exact Rb.
  Qed.
  Definition passed_list (names : string -> list ty) (t : ty) : list ty :=
    match t with
    | TGen _ (OUnion | OList | OSet | OFrozen | OTuple) (Some args) => args
    | TNewType _ s => [s]
    | TForward n => names n
    | TClass c => match ci_enum (class_of w c), ci_hints (class_of w c) with Some _, POk l => map snd l | _, _ => [] end
    | _ => []
    end.
  Lemma passed_list_spec names a b : passed_on w names a b -> In b (passed_list names a).
  Proof.
    destruct a as [c|n o [args|]| | | | | |]; cbn; auto; try contradiction.
    - intros [E [hs [-> I]]]. destruct (ci_enum (class_of w c)); [exact I|congruence].
    - destruct o; auto; contradiction.
    - destruct o; contradiction.
  Qed.
End Recursion.
