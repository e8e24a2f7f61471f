(** * Unions: what a union accepts, and which member makes the result
      (C13, C14, C15, C16) *)

From Verif Require Import Loader Spec Inv Std Sound Fuel Obs Scalars Simple Transparent Hist Eval Items Tuples Dicts Objects ObjFacts.
From Coq Require Export Permutation.

(** ** Vocabulary *)





(** ** The order in which the members are tried *)
Lemma remove_first_perm p l : In p l -> Permutation (p :: remove_first p l) l.
Proof.
  induction l as [|x l IH]; cbn; [intros []|]. destruct (ty_eqb p x) eqn:E.
  - apply ty_eqb_eq in E. subst. reflexivity.
  - intros [->|H]; [rewrite ty_eqb_refl in E; discriminate|]. rewrite perm_swap. constructor. apply IH. exact H.
Qed.
Lemma filter_perm {A} (f : A -> bool) l : Permutation (filter (fun x => negb (f x)) l ++ filter f l) l.
Proof.
  induction l as [|x l IH]; cbn; [constructor|]. destruct (f x); cbn.
  - rewrite <- Permutation_middle. constructor. exact IH.
  - constructor. exact IH.
Qed.
Lemma disc_set_keys l t d : forall x, In x (map snd (disc_set l t d)) -> x = t \/ In x (map snd d).
Proof.
  induction d as [|[l' t'] d IH]; cbn; intros x.
  - intros [->|[]]. auto.
  - destruct (py_eqb l l'); cbn; intros [->|H]; auto. destruct (IH x H); auto.
Qed.

Section Disc.
  Variable w : world.
  Lemma literals_ann s c k vals :
    In (k, vals) (discriminatorliterals w s (TClass c)) -> exists tk, In (k, tk) (ci_ann (class_of w c)) /\ unwrap tk = TLiteral vals.
  Proof.
    cbn [discriminatorliterals]. intro H. apply in_flat_map in H as [[k' t] [H1 H2]]. cbn [fst snd] in H2.
    assert (Q : t = TLiteral vals /\ k = k').
    { destruct t; try (destruct H2; fail); destruct H2 as [[= -> ->]|[]]. auto. }
    destruct Q as [-> ->]. unfold annotations in H1. destruct (mem_cid c (st_stripped s)).
    - apply in_map_iff in H1 as [[k2 t2] [Q H1]]. cbn [fst snd] in Q. injection Q as -> Q. exists t2. split; [exact H1|exact Q].
    - eexists. split; [exact H1|reflexivity].
  Qed.
  Lemma build_disc_literal s args key cd :
    build_disc w s args = Some (key, cd) -> literal_field w args key.
  Proof.
    unfold build_disc. set (data := map (fun t => (t, discriminatorliterals w s t)) args).
    set (keysets := map (fun td : ty * list (string * list value) => map fst (snd td)) data).
    destruct (nth_error _ _) as [key'|] eqn:N; [|discriminate]. intros [= -> _]. apply nth_error_In in N.
    assert (K : forall ks, In ks keysets -> In key ks).
    { destruct keysets as [|ks rest]; [destruct N|]. apply filter_In in N. destruct N as [N1 N2]. rewrite forallb_forall in N2.
      intros ks' [<-|H]; [exact N1|]. apply mem_str_In. apply N2. exact H. }
    intros t Ht. assert (Hk : In key (map fst (discriminatorliterals w s t))).
    { apply K. unfold keysets, data. rewrite map_map. apply in_map_iff. exists t. split; [reflexivity|exact Ht]. }
    apply in_map_iff in Hk as [[k vals] [Q Hk]]. cbn in Q. subst k.
    destruct t; try (destruct Hk; fail). apply literals_ann in Hk.
    destruct Hk as [tk [H1 H2]]. exists c, tk, vals. auto.
  Qed.
End Disc.

Section Union.
  Variable w : world.
  Variables basic strcons : list cid.
  Variable cfg : config.
  Hypothesis Hstd : is_std w basic strcons cfg.
  Hypothesis Hwr : wf_reflect w.
  Variable env : string -> option ty.
  Notation p := (pep563 cfg).
  Variable s : lstate.
  Variable V : value.
  Variable n0 : bool.
  Variable args : list ty.
  Notation T := (TGen n0 OUnion (Some args)).
  Hypothesis Us : used w cfg s.
  Hypothesis St : steady w basic cfg env s V T.
  Notation G := (reach w p env T).
  Notation SETTLED := (settled w cfg env (reach w p env T) (seen s)).
  Notation conv := (conv w cfg env s T).
  Notation regular := (regular w cfg env s T).

  Definition sorted : list ty := filter (fun x => negb (basicb cfg x)) args ++ filter (basicb cfg) args.
  Lemma sorted_perm : Permutation sorted args. Proof using. apply filter_perm. Qed.

  (** the order is a permutation of the members; when the basic types have no
      annotations, the basic members come last *)
  Definition basic_last (l : list ty) : Prop :=
    exists a b, l = a ++ b /\ (forall x, In x a -> basicb cfg x = false) /\ (forall x, In x b -> basicb cfg x = true).
  Lemma order :
    exists r, (forall s1, SETTLED s1 -> SETTLED (snd (prefer w V T args sorted s1)) /\ fst (prefer w V T args sorted s1) = r) /\
      ((exists l, r = Ok l /\ Permutation l args /\
          ((forall c, In c basic -> ci_ann (class_of w c) = []) -> basic_last l)) \/
       (r = Exc (XRaw RType) /\ ~ tags_hashable w args V)).
  Proof using Hstd Us St.
    assert (GT : G T) by apply reach_refl.
    destruct (prefer_const w cfg env (reach w p env T) (seen s) (sd_union _ _ _ _ _ _ _ St) V n0 args sorted GT) as [r [NO [HL HC]]].
    { intros x Hx. eapply Permutation_in; [apply sorted_perm|exact Hx]. }
    exists r. split; [exact HC|].
    assert (BL : basic_last sorted).
    { exists (filter (fun x => negb (basicb cfg x)) args), (filter (basicb cfg) args). split; [reflexivity|]. split.
      - intros x Hx. apply filter_In in Hx. apply negb_true_iff. apply Hx.
      - intros x Hx. apply filter_In in Hx. apply Hx. }
    pose proof (HC s (settled_s w basic cfg env s V T Us St)) as [_ E].
    assert (SO : r = Ok sorted -> (exists l, r = Ok l /\ Permutation l args /\
          ((forall c, In c basic -> ci_ann (class_of w c) = []) -> basic_last l)) \/
       (r = Exc (XRaw RType) /\ ~ tags_hashable w args V)).
    { intros ->. left. exists sorted. split; [reflexivity|]. split; [apply sorted_perm|]. auto. }
    unfold prefer in E. destruct V as [| | | | | | | | | |d| | | | |] eqn:EV; try (apply SO; symmetry; exact E).
    rewrite bind_eq in E.
    set (K := fun disc : option (string * list (value * ty)) => match disc with
        | Some (key, ((_ :: _) as cd)) =>
            let tag := match dict_get (VStr key) d with Some x => x | None => VNone end in
            if hashable w tag then
              match disc_get tag cd with
              | Some p => ret (p :: remove_first p sorted)
              | None => ret sorted
              end
            else raise (XRaw RType)
        | _ => ret sorted
        end : M (list ty)).
    assert (X : exists dc s1 s2 args', (forall x, In x args <-> In x args') /\ dc = build_disc w s1 args' /\ fst (K dc s2) = r).
    { destruct (same_get T (st_disc s)) as [dc|] eqn:TD.
      - destruct (coh_disc _ _ _ (used_coh _ _ _ Us) _ _ TD) as [args0 [args' [s' [[= <-] [Sm ->]]]]]. eexists _, s', s, args'. split; [exact Sm|]. split; [reflexivity|exact E].
      - eexists _, s, _, args. split; [reflexivity|]. split; [reflexivity|exact E]. }
    destruct X as [dc [s1 [s2 [args' [Sm [ED ER]]]]]]. clear E. unfold K in ER. destruct dc as [[key [|lt cd]]|]; try (apply SO; symmetry; exact ER).
    cbv zeta in ER. symmetry in ED. pose proof (build_disc_literal w s1 args' key _ ED) as LF0.
    assert (LF : literal_field w args key) by (intros x Ix; apply LF0, Sm, Ix).
    destruct (hashable w _) eqn:H in ER.
    - destruct (disc_get _ (lt :: cd)) as [p0|] eqn:DG in ER; [|apply SO; symmetry; exact ER].
      assert (Pin : In p0 args). { apply Sm. eapply build_disc_types; [exact ED|]. eapply disc_get_types. exact DG. }
      left. exists (p0 :: remove_first p0 sorted). split; [symmetry; exact ER|].
      assert (Ps : In p0 sorted) by (eapply Permutation_in; [apply Permutation_sym; apply sorted_perm|exact Pin]).
      split; [rewrite (remove_first_perm p0 sorted Ps); apply sorted_perm|].
      intro HB. assert (NB : basicb cfg p0 = false).
      { destruct (LF p0 Pin) as [c [tk [vals [-> [Ha _]]]]]. unfold basicb. cbn. rewrite (proj2 Hstd).
        destruct (mem_cid c basic) eqn:M; [|reflexivity]. apply mem_cid_In in M. rewrite (HB c M) in Ha. destruct Ha. }
      destruct BL as [a [b [Eab [Ha Hb]]]]. exists (p0 :: remove_first p0 a), b.
      assert (Pa : In p0 a). { rewrite Eab in Ps. apply in_app_or in Ps as [Ps|Ps]; [exact Ps|]. rewrite (Hb p0 Ps) in NB. discriminate. }
      split; [|split; [|exact Hb]].
      + rewrite Eab. cbn [app]. f_equal. clear -Pa. induction a as [|x a IH]; [destruct Pa|]. cbn [app remove_first].
        destruct (ty_eqb p0 x) eqn:Q; [reflexivity|]. destruct Pa as [->|Pa]; [rewrite ty_eqb_refl in Q; discriminate|].
        rewrite IH by exact Pa. reflexivity.
      + intros x [<-|Hx]; [exact NB|]. apply Ha. eapply remove_first_In. exact Hx.
    - right. split; [symmetry; exact ER|]. intro TH. 
      destruct (dict_get (VStr key) d) as [x|] eqn:DGx; [|discriminate].
      rewrite (TH d key x eq_refl LF DGx) in H. discriminate.
  Qed.

  (** *** One member *)
  Definition mem_nf (x : ty) : exn := XTL KValue (MCannotKey x T) [] (Some V) (Some x) [].
  Definition member (x : ty) (m : nat) : M value :=
    bind (lookup_handler cfg (mem_nf x) x) (fun h => run w cfg m h V x).
  Lemma G_member x : In x args -> G x.
  Proof using. intro H. eapply reach_step; [apply reach_refl|]. exact H. Qed.
  Lemma regular_member x : In x args -> regular (member x).
  Proof using Hstd Hwr Us St.
    intro H. apply (regular_finds w basic cfg env s V T Us St _ x _ (fun h m => run w cfg m h V x)
      (finds_lookup w cfg env G (seen s) (mem_nf x) x)).
    intros h F. apply (regular_call w basic strcons cfg Hstd Hwr env s V T St h V x (G_member x H) (V_refl V) F).
  Qed.
  (** the outcome of a member *)
  Lemma conv_member x r :
    In x args ->
    (conv (member x) r <->
     (exists h, find_handler cfg x = POk h /\ calls w cfg env s T h V x r) \/
     ((forall h, find_handler cfg x <> POk h) /\ r = Exc (mem_nf x))).
  Proof using Hstd Hwr Us St.
    intro H. unfold member. destruct (find_handler cfg x) as [h|k] eqn:F.
    - rewrite (conv_found w basic cfg env s V T Us St _ x _ h (fun h m => run w cfg m h V x) r
         (finds_lookup w cfg env G (seen s) (mem_nf x) x) F (regular_call w basic strcons cfg Hstd Hwr env s V T St h V x (G_member x H) (V_refl V) F)).
      split; [intro C; left; eauto|]. intros [[h' [[= <-] C]]|[NF _]]; [exact C|]. exfalso. eapply NF. reflexivity.
    - assert (k = RValue) by (eapply std_exc; eassumption). subst k.
      rewrite (conv_notfound w basic cfg env s V T Us St _ x _ RValue (fun h m => run w cfg m h V x) r
         (finds_lookup w cfg env G (seen s) (mem_nf x) x) F).
      split; [intros ->; right; split; [discriminate|reflexivity]|]. intros [[h' [Q _]]|[_ ->]]; [discriminate|reflexivity].
  Qed.
  Lemma member_ok x y : In x args -> (conv (member x) (Ok y) <-> loads w cfg s V x (Ok y)).
  Proof using Hstd Hwr Us St.
    intro H. rewrite (conv_member x (Ok y) H). split.
    - intros [[h [F C]]|[_ Q]]; [|discriminate].
      apply (loads_ok_calls w basic strcons cfg Hstd Hwr env s V T Us St V x h y (G_member x H) (V_refl V) F). exact C.
    - intro L. destruct (loads_ok_find w basic strcons cfg Hstd env G (seen s) s V x y (settled_s w basic cfg env s V T Us St) L) as [h F].
      left. exists h. split; [exact F|].
      apply (loads_ok_calls w basic strcons cfg Hstd Hwr env s V T Us St V x h y (G_member x H) (V_refl V) F). exact L.
  Qed.
  Local Notation refusal := (refusal w cfg s V).
  Lemma member_tl x e0 : In x args -> conv (member x) (Exc e0) -> is_tl e0 = true -> refusal x e0 /\ rejects w cfg s V x.
  Proof using Hstd Hwr Us St.
    intros H C TL. apply (conv_member x (Exc e0) H) in C. destruct C as [[h [F C]]|[NF [= ->]]].
    - assert (L : loads w cfg s V x (Exc (push_trace (V, x, None) e0))).
      { apply (loads_calls w basic strcons cfg Hstd Hwr env s V T Us St V x h _ (G_member x H) (V_refl V) F).
        exists (Exc e0). split; [exact C|]. cbn. rewrite TL. reflexivity. }
      split; [left; exact L|]. eexists. exact L.
    - split; [right; rewrite supported_find; intros [h Q]; eapply NF; exact Q|].
      destruct (find_handler cfg x) as [h|k] eqn:F; [exfalso; eapply NF; reflexivity|].
      assert (k = RValue) by (eapply std_exc; eassumption). subst k.
      exists (XTL KType (MCannotDeal x) [] (Some V) (Some x) []). split; [discriminate|]. exists 0.
      apply load_nohandler; [apply used_coh; exact Us|exact F].
  Qed.
  Lemma member_settles x : In x args -> settles w cfg s V x ->
    (exists y, conv (member x) (Ok y)) \/ (exists e0, is_tl e0 = true /\ conv (member x) (Exc e0)).
  Proof using Hstd Hwr Us St.
    intros H [r [L D]]. destruct (find_handler cfg x) as [h|k] eqn:F.
    - apply (loads_calls w basic strcons cfg Hstd Hwr env s V T Us St V x h _ (G_member x H) (V_refl V) F) in L.
      destruct L as [r0 [C ->]]. assert (CM : conv (member x) r0) by (apply conv_member; [exact H|]; left; eauto).
      destruct r0 as [y|e|]; [left; eauto| |destruct C; congruence]. right. exists e. cbn in D. split; [|exact CM].
      destruct (is_tl e) eqn:TL; [reflexivity|]. destruct D as [[y Q]|[k [m [tr [v [t [su Q]]]]]]]; discriminate.
    - right. exists (mem_nf x). split; [reflexivity|]. apply conv_member; [exact H|]. right. split; [|reflexivity]. congruence.
  Qed.

  (** *** All the members *)
  Notation TRY := (fun l n r exs m => try_members cfg (run w cfg m) V T l n r exs).
  Lemma regular_try l n r exs : incl l args -> regular (TRY l n r exs).
  Proof using Hstd Hwr Us St.
    intro I. apply sim_regular. intro m.
    apply (sim_try_members w cfg env G (seen s) (inside V) (run w cfg m)); [|intros x Hx; apply G_member; apply I; exact Hx|apply V_refl].
    intros h x ft Gx Vx F. exact (Hsim w basic strcons cfg Hstd Hwr env s V T St m h x ft Gx Vx F).
  Qed.
  Lemma conv_try x l n r exs R :
    In x args -> incl l args ->
    (conv (TRY (x :: l) n r exs) R <->
     (exists y, conv (member x) (Ok y) /\
        if uniondebugconflict cfg then conv (TRY l (S n) y exs) R else R = Ok (S n, y, exs)) \/
     (exists e, is_tl e = true /\ conv (member x) (Exc e) /\ conv (TRY l n r (exs ++ [push_trace (V, T, Some (AnUnion x)) e])) R) \/
     (exists k, conv (member x) (Exc (XRaw k)) /\ R = Exc (XRaw k))).
  Proof using Hstd Hwr Us St.
    intros Hx I. cbn [try_members].
    assert (RM := regular_member x Hx).
    assert (RK : forall o : value + exn, regular (fun m => match o with
        | inl r' => if uniondebugconflict cfg then try_members cfg (run w cfg m) V T l (S n) r' exs else ret (S n, r', exs)
        | inr (XRaw k) => raise (XRaw k)
        | inr e => try_members cfg (run w cfg m) V T l n r (exs ++ [push_trace (V, T, Some (AnUnion x)) e])
        end)).
    { intros [y|[k m tr v t su|k]].
      - destruct (uniondebugconflict cfg); [apply (regular_try l (S n) y exs I)|apply regular_ret].
      - apply (regular_try l n r _ I).
      - apply regular_raise. }
    rewrite (conv_bind w basic cfg env s V T Us St (fun m => attempt (member x m)) (fun o m => match o with
        | inl r' => if uniondebugconflict cfg then try_members cfg (run w cfg m) V T l (S n) r' exs else ret (S n, r', exs)
        | inr (XRaw k) => raise (XRaw k)
        | inr e => try_members cfg (run w cfg m) V T l n r (exs ++ [push_trace (V, T, Some (AnUnion x)) e])
        end) R (regular_attempt w basic cfg env s V T Us St _ RM) (fun o _ => RK o)).
    pose proof (fun o => conv_attempt w basic cfg env s V T Us St (member x) o RM) as CA.
    split.
    - intros [[o [Co C]]|[e [Co _]]].
      + apply CA in Co. destruct Co as [[y [Cy [= ->]]]|[e [Ce [= ->]]]].
        * left. exists y. split; [exact Cy|]. destruct (uniondebugconflict cfg); [exact C|].
          apply (conv_ret w basic cfg env s V T Us St) in C. exact C.
        * right. destruct e as [k m tr v t su|k]; [left; eexists; split; [|split; [exact Ce|exact C]]; reflexivity|right].
          exists k. split; [exact Ce|]. apply (conv_raise w basic cfg env s V T Us St) in C. exact C.
      + exfalso. apply CA in Co. destruct Co as [[y [_ Q]]|[e' [_ Q]]]; discriminate.
    - intros [[y [Cy C]]|[[e [TL [Ce C]]]|[k [Ce ->]]]]; left.
      + exists (inl y). split; [apply CA; left; eauto|]. destruct (uniondebugconflict cfg); [exact C|].
        apply (conv_ret w basic cfg env s V T Us St). exact C.
      + exists (inr e). split; [apply CA; right; eauto|]. destruct e; [exact C|discriminate].
      + exists (inr (XRaw k)). split; [apply CA; right; eauto|]. apply (conv_raise w basic cfg env s V T Us St). reflexivity.
  Qed.

  (** *** The union *)
  Definition verdict (nr : nat * value * list exn) : res value :=
    let '(n, r, exs) := nr in
    match n with
    | 1 => Ok r
    | 0 => Exc (XTL KValue (MUnion (type_of V) T) [] (Some V) (Some T) exs)
    | _ => Exc (XTL KType (MConflict (type_of V) T n) [] (Some V) (Some T) exs)
    end.
  Lemma union_body :
    ~ own_basic basic args V ->
    (exists l, Permutation l args /\ ((forall c, In c basic -> ci_ann (class_of w c) = []) -> basic_last l) /\
       forall R, calls w cfg env s T HUnion V T R <->
         (exists nr, conv (TRY l 0 VNone []) (Ok nr) /\ R = verdict nr) \/ (exists e, conv (TRY l 0 VNone []) (Exc e) /\ R = Exc e)) \/
    (~ tags_hashable w args V /\ forall R, calls w cfg env s T HUnion V T R <-> R = Exc (XRaw RType)).
  Proof using Hstd Hwr Us St.
    intro NO. destruct order as [r [HC D]].
    assert (OB : basicb cfg (TClass (type_of V)) && mem_ty (TClass (type_of V)) args = false).
    { destruct (_ && _) eqn:Q; [|reflexivity]. exfalso. apply NO. apply andb_true_iff in Q. destruct Q as [Q1 Q2].
      split; [|apply mem_ty_In; exact Q2]. unfold basicb in Q1. cbn in Q1. rewrite (proj2 Hstd) in Q1. apply mem_cid_In. exact Q1. }
    assert (BE : forall R, calls w cfg env s T HUnion V T R <->
      conv (fun m => bind (prefer w V T args sorted) (fun sorted' => bind (try_members cfg (run w cfg m) V T sorted' 0 VNone []) (fun x =>
          let '(n, r, exs) := x in
          match n with
          | 1 => ret r
          | 0 => raise (XTL KValue (MUnion (type_of V) T) [] (Some V) (Some T) exs)
          | _ => raise (XTL KType (MConflict (type_of V) T n) [] (Some V) (Some T) exs)
          end))) R).
    { intro R. rewrite calls_body. apply conv_ext. intros m s1. cbn [body]. unfold unionload. cbn [ty_args]. cbv zeta. rewrite OB. reflexivity. }
    assert (RP : regular (fun _ => prefer w V T args sorted)) by (apply (regular_const' w cfg env s T _ r); exact HC).
    assert (NOr : r <> OOF) by (destruct D as [[l [-> _]]|[-> _]]; discriminate).
    pose proof (conv_const w basic cfg env s V T Us St (prefer w V T args sorted) r NOr HC) as CP.
    assert (RV : forall x : nat * value * list exn, regular (fun _ => let '(n, r, exs) := x in
          match n with
          | 1 => ret r
          | 0 => raise (XTL KValue (MUnion (type_of V) T) [] (Some V) (Some T) exs)
          | _ => raise (XTL KType (MConflict (type_of V) T n) [] (Some V) (Some T) exs)
          end)).
    { intros [[[|[|n]] y] exs]; try apply regular_ret; apply regular_raise. }
    assert (CVV : forall x R, conv (fun _ => let '(n, r, exs) := x in
          match n with
          | 1 => ret r
          | 0 => raise (XTL KValue (MUnion (type_of V) T) [] (Some V) (Some T) exs)
          | _ => raise (XTL KType (MConflict (type_of V) T n) [] (Some V) (Some T) exs)
          end) R <-> R = verdict x).
    { intros [[[|[|n]] y] exs] R; cbn [verdict]; try apply (conv_ret w basic cfg env s V T Us St); apply (conv_raise w basic cfg env s V T Us St). }
    assert (RT : forall l, incl l args -> regular (fun m => bind (try_members cfg (run w cfg m) V T l 0 VNone []) (fun x =>
          let '(n, r, exs) := x in
          match n with
          | 1 => ret r
          | 0 => raise (XTL KValue (MUnion (type_of V) T) [] (Some V) (Some T) exs)
          | _ => raise (XTL KType (MConflict (type_of V) T n) [] (Some V) (Some T) exs)
          end))).
    { intros l I. apply (regular_bind w basic cfg env s V T Us St (TRY l 0 VNone []) (fun x _ => let '(n, r, exs) := x in
          match n with
          | 1 => ret r
          | 0 => raise (XTL KValue (MUnion (type_of V) T) [] (Some V) (Some T) exs)
          | _ => raise (XTL KType (MConflict (type_of V) T n) [] (Some V) (Some T) exs)
          end) (regular_try l 0 VNone [] I)). intros x _. apply RV. }
    destruct D as [[l [Er [PM BL]]]|[Er NT]].
    - left. exists l. split; [exact PM|]. split; [exact BL|]. intro R. rewrite BE.
      assert (I : incl l args) by (intros x Hx; eapply Permutation_in; eassumption).
      rewrite (conv_bind w basic cfg env s V T Us St (fun _ => prefer w V T args sorted) (fun sorted' m => bind (try_members cfg (run w cfg m) V T sorted' 0 VNone []) (fun x =>
          let '(n, r, exs) := x in
          match n with
          | 1 => ret r
          | 0 => raise (XTL KValue (MUnion (type_of V) T) [] (Some V) (Some T) exs)
          | _ => raise (XTL KType (MConflict (type_of V) T n) [] (Some V) (Some T) exs)
          end)) R RP).
      2: { intros l' C. apply CP in C. assert (l' = l) by congruence. subst l'. apply RT. exact I. }
      assert (CB := conv_bind w basic cfg env s V T Us St (TRY l 0 VNone []) (fun x _ => let '(n, r, exs) := x in
          match n with
          | 1 => ret r
          | 0 => raise (XTL KValue (MUnion (type_of V) T) [] (Some V) (Some T) exs)
          | _ => raise (XTL KType (MConflict (type_of V) T n) [] (Some V) (Some T) exs)
          end) R (regular_try l 0 VNone [] I) (fun x _ => RV x)).
      split.
      + intros [[l' [C1 C2]]|[e [C _]]]; [|apply CP in C; congruence]. apply CP in C1. assert (l' = l) by congruence. subst l'.
        apply CB in C2. destruct C2 as [[nr [Ca Cb]]|[e [Ca ->]]]; [left|right; eauto]. exists nr. split; [exact Ca|]. apply CVV. exact Cb.
      + intro H. left. exists l. split; [apply CP; symmetry; exact Er|]. apply CB.
        destruct H as [[nr [Ca ->]]|[e [Ca ->]]]; [left|right; eauto]. exists nr. split; [exact Ca|]. apply CVV. reflexivity.
    - right. split; [exact NT|]. intro R. rewrite BE.
      rewrite (conv_bind w basic cfg env s V T Us St (fun _ => prefer w V T args sorted) (fun sorted' m => bind (try_members cfg (run w cfg m) V T sorted' 0 VNone []) (fun x =>
          let '(n, r, exs) := x in
          match n with
          | 1 => ret r
          | 0 => raise (XTL KValue (MUnion (type_of V) T) [] (Some V) (Some T) exs)
          | _ => raise (XTL KType (MConflict (type_of V) T n) [] (Some V) (Some T) exs)
          end)) R RP).
      2: { intros l' C. apply CP in C. congruence. }
      split.
      + intros [[l' [C1 C2]]|[e [C ->]]]; [apply CP in C1; congruence|]. apply CP in C. congruence.
      + intros ->. right. eexists. split; [apply CP; symmetry; exact Er|reflexivity].
  Qed.

  (** *** Summaries of the attempts *)
  Definition accepted (x : ty) : Prop := accepts w cfg s V x.
  Local Notation failed := (failed w cfg s V n0 args).

  (** whatever the setting: at least one success *)
  Lemma try_some l : incl l args -> forall n r exs n' y exs',
    conv (TRY l n r exs) (Ok (n', y, exs')) ->
    n <= n' /\
    ((n' = n /\ y = r /\ forall x, In x l -> rejects w cfg s V x) \/
     (n < n' /\ exists pre x post, l = pre ++ x :: post /\ loads w cfg s V x (Ok y) /\
        (forall z, In z post -> uniondebugconflict cfg = true -> rejects w cfg s V z) /\
        (n' = S n -> forall z, In z pre -> rejects w cfg s V z))).
  Proof using Hstd Hwr Us St.
    induction l as [|x l IH]; intros I n r exs n' y exs' C.
    { cbn in C. apply (conv_ret w basic cfg env s V T Us St) in C. injection C as -> -> _. split; [lia|]. left. split; [reflexivity|]. split; [reflexivity|]. intros x []. }
    assert (Hx : In x args) by (apply I; left; reflexivity).
    assert (I' : incl l args) by (intros z Hz; apply I; right; exact Hz).
    apply (conv_try x l n r exs _ Hx I') in C. destruct C as [[y0 [Cy C]]|[[e [TL [Ce C]]]|[k [_ Q]]]]; [| |discriminate].
    - destruct (uniondebugconflict cfg) eqn:UD.
      + destruct (IH I' _ _ _ _ _ _ C) as [L [[-> [-> H]]|[Lt [pre [z [post [-> [Lz [H1 H2]]]]]]]]].
        * split; [lia|]. right. split; [lia|]. exists [], x, l. split; [reflexivity|].
          split; [apply (member_ok x y0 Hx); exact Cy|]. split; [intros z Hz _; apply H; exact Hz|]. intros _ z [].
        * split; [lia|]. right. split; [lia|]. exists (x :: pre), z, post. split; [reflexivity|]. split; [exact Lz|]. split; [exact H1|].
          intro Q. lia.
      + injection C as -> -> _. split; [lia|]. right. split; [lia|]. exists [], x, l. split; [reflexivity|].
        split; [apply (member_ok x y0 Hx); exact Cy|]. split; [intros z _ Q; discriminate|]. intros _ z [].
    - destruct (member_tl x e Hx Ce TL) as [_ RJ].
      destruct (IH I' _ _ _ _ _ _ C) as [L [[-> [-> H]]|[Lt [pre [z [post [-> [Lz [H1 H2]]]]]]]]].
      + split; [lia|]. left. split; [reflexivity|]. split; [reflexivity|]. intros z [<-|Hz]; auto.
      + split; [lia|]. right. split; [lia|]. exists (x :: pre), z, post. split; [reflexivity|]. split; [exact Lz|]. split; [exact H1|].
        intros Q z' [<-|Hz]; auto.
  Qed.
  (** no success: one exception for each member *)
  Lemma try_none l : incl l args -> forall n r exs,
    (forall x, In x l -> settles w cfg s V x /\ ~ accepted x) ->
    exists es, Forall2 failed l es /\ conv (TRY l n r exs) (Ok (n, r, exs ++ es)).
  Proof using Hstd Hwr Us St.
    induction l as [|x l IH]; intros I n r exs H.
    { exists []. split; [constructor|]. rewrite app_nil_r. cbn. apply (conv_ret w basic cfg env s V T Us St). reflexivity. }
    assert (Hx : In x args) by (apply I; left; reflexivity).
    assert (I' : incl l args) by (intros z Hz; apply I; right; exact Hz).
    destruct (H x (or_introl eq_refl)) as [SX NA].
    destruct (member_settles x Hx SX) as [[y Cy]|[e [TL Ce]]].
    { exfalso. apply NA. exists y. apply (member_ok x y Hx). exact Cy. }
    destruct (IH I' n r (exs ++ [push_trace (V, T, Some (AnUnion x)) e])) as [es [F C]].
    { intros z Hz. apply H. right. exact Hz. }
    exists (push_trace (V, T, Some (AnUnion x)) e :: es). split.
    - constructor; [|exact F]. exists e. split; [reflexivity|]. apply (member_tl x e Hx Ce TL).
    - apply (conv_try x l n r exs _ Hx I'). right. left. exists e. split; [exact TL|]. split; [exact Ce|].
      rewrite <- app_assoc in C. exact C.
  Qed.
  (** the first success, with the option off *)
  Lemma try_first l : uniondebugconflict cfg = false -> incl l args -> forall n r exs,
    (forall x, In x l -> settles w cfg s V x) -> (exists x, In x l /\ accepted x) ->
    exists pre x post y exs', l = pre ++ x :: post /\ loads w cfg s V x (Ok y) /\ (forall z, In z pre -> ~ accepted z) /\
      conv (TRY l n r exs) (Ok (S n, y, exs')).
  Proof using Hstd Hwr Us St.
    intro UD. induction l as [|x l IH]; intros I n r exs H [x0 [Hin A]]; [destruct Hin|].
    assert (Hx : In x args) by (apply I; left; reflexivity).
    assert (I' : incl l args) by (intros z Hz; apply I; right; exact Hz).
    destruct (member_settles x Hx (H x (or_introl eq_refl))) as [[y Cy]|[e [TL Ce]]].
    - exists [], x, l, y, exs. split; [reflexivity|]. split; [apply (member_ok x y Hx); exact Cy|]. split; [intros z []|].
      apply (conv_try x l n r exs _ Hx I'). left. exists y. split; [exact Cy|]. rewrite UD. reflexivity.
    - assert (NX : ~ accepted x).
      { intros [y L]. apply (member_ok x y Hx) in L. pose proof (conv_det w basic cfg env s V T Us St _ _ _ L Ce). discriminate. }
      destruct (IH I' n r (exs ++ [push_trace (V, T, Some (AnUnion x)) e])) as [pre [x1 [post [y [exs' [-> [L [NP C]]]]]]]].
      { intros z Hz. apply H. right. exact Hz. }
      { destruct Hin as [->|Hin]; [contradiction|]. eauto. }
      exists (x :: pre), x1, post, y, exs'. split; [reflexivity|]. split; [exact L|]. split.
      + intros z [<-|Hz]; auto.
      + apply (conv_try x _ n r exs _ Hx I'). right. left. exists e. auto.
  Qed.
  (** how many successes, with the option on *)
  Lemma try_count l : uniondebugconflict cfg = true -> incl l args -> forall n r exs,
    (forall x, In x l -> settles w cfg s V x) ->
    exists os exs', Forall2 (fun x o => match o with Some y => loads w cfg s V x (Ok y) | None => ~ accepted x end) l os /\
      conv (TRY l n r exs) (Ok (n + List.length (filter (fun o => match o with Some _ => true | None => false end) os),
        fold_left (fun r o => match o with Some y => y | None => r end) os r, exs')).
  Proof using Hstd Hwr Us St.
    intro UD. induction l as [|x l IH]; intros I n r exs H.
    { exists [], exs. split; [constructor|]. cbn. rewrite Nat.add_0_r. apply (conv_ret w basic cfg env s V T Us St). reflexivity. }
    assert (Hx : In x args) by (apply I; left; reflexivity).
    assert (I' : incl l args) by (intros z Hz; apply I; right; exact Hz).
    assert (H' : forall z, In z l -> settles w cfg s V z) by (intros z Hz; apply H; right; exact Hz).
    destruct (member_settles x Hx (H x (or_introl eq_refl))) as [[y Cy]|[e [TL Ce]]].
    - destruct (IH I' (S n) y exs H') as [os [exs' [F C]]]. exists (Some y :: os), exs'. split.
      + constructor; [|exact F]. apply (member_ok x y Hx). exact Cy.
      + apply (conv_try x l n r exs _ Hx I'). left. exists y. split; [exact Cy|]. rewrite UD. cbn [filter List.length fold_left].
        rewrite Nat.add_succ_r. exact C.
    - destruct (IH I' n r (exs ++ [push_trace (V, T, Some (AnUnion x)) e]) H') as [os [exs' [F C]]]. exists (None :: os), exs'. split.
      + constructor; [|exact F]. intros [y L]. apply (member_ok x y Hx) in L. pose proof (conv_det w basic cfg env s V T Us St _ _ _ L Ce). discriminate.
      + apply (conv_try x l n r exs _ Hx I'). right. left. exists e. auto.
  Qed.

  Lemma find_T : find_handler cfg T = POk HUnion.
  Proof using Hstd. apply (find_union w basic strcons cfg Hstd). Qed.
  Lemma loads_union R : loads w cfg s V T R <-> exists r0, calls w cfg env s T HUnion V T r0 /\ R = wrap V T None r0.
  Proof using Hstd Hwr Us St.
    apply (loads_calls w basic strcons cfg Hstd Hwr env s V T Us St V T HUnion R (reach_refl _ _ _ _) (V_refl V) find_T).
  Qed.
  Lemma loads_union_ok r : loads w cfg s V T (Ok r) <-> calls w cfg env s T HUnion V T (Ok r).
  Proof using Hstd Hwr Us St.
    apply (loads_ok_calls w basic strcons cfg Hstd Hwr env s V T Us St V T HUnion r (reach_refl _ _ _ _) (V_refl V) find_T).
  Qed.

  Lemma verdict_ok nr r : verdict nr = Ok r -> exists exs, nr = (1, r, exs).
  Proof using. destruct nr as [[[|[|n]] y] exs]; cbn; intros [= ->]. eauto. Qed.

  (** C13 *)
  Lemma c13 r :
    loads w cfg s V T (Ok r) ->
    (own_basic basic args V /\ r = V) \/
    exists x, In x args /\ loads w cfg s V x (Ok r) /\
      ((forall c, In c basic -> ci_ann (class_of w c) = []) -> (exists c, x = TClass c /\ In c basic) ->
       forall z, In z args -> ~ (exists c, z = TClass c /\ In c basic) -> rejects w cfg s V z).
  Proof using Hstd Hwr Us St.
    intro L.
    assert (OD : own_basic basic args V \/ ~ own_basic basic args V).
    { unfold own_basic. rewrite <- mem_cid_In, <- mem_ty_In. destruct (mem_cid _ _), (mem_ty _ _); auto; right; intros [A B]; discriminate. }
    destruct OD as [OB|NO].
    { left. split; [exact OB|]. destruct OB as [B1 B2]. apply (c12 w basic strcons cfg Hstd s Us V n0 args (Ok r) B1 B2) in L. congruence. }
    right. apply loads_union_ok in L. destruct (union_body NO) as [[l [PM [BL E]]]|[_ E]]; apply E in L; [|discriminate].
    destruct L as [[nr [C Q]]|[e [_ Q]]]; [|discriminate]. symmetry in Q. apply verdict_ok in Q as [exs ->].
    assert (I : incl l args) by (intros z Hz; eapply Permutation_in; eassumption).
    destruct (try_some l I _ _ _ _ _ _ C) as [_ [[Q _]|[_ [pre [x [post [-> [Lx [_ Hpre]]]]]]]]]; [discriminate|].
    exists x. split; [apply I; apply in_or_app; right; left; reflexivity|]. split; [exact Lx|].
    intros HB [c [-> Bc]] z Hz NZ. destruct (BL HB) as [a [b [Eab [Ha Hb]]]].
    assert (Bx : basicb cfg (TClass c) = true) by (unfold basicb; cbn; rewrite (proj2 Hstd); apply mem_cid_In; exact Bc).
    assert (Bz : basicb cfg z = false).
    { destruct (basicb cfg z) eqn:Q; [|reflexivity]. exfalso. apply NZ. unfold basicb in Q. rewrite (proj2 Hstd) in Q.
      destruct z; try discriminate. eexists. split; [reflexivity|]. apply mem_cid_In. exact Q. }
    assert (Zl : In z (pre ++ TClass c :: post)) by (eapply Permutation_in; [apply Permutation_sym; exact PM|exact Hz]).
    assert (Za : In z a). { rewrite Eab in Zl. apply in_app_or in Zl as [Q|Q]; [exact Q|]. rewrite (Hb z Q) in Bz. discriminate. }
    assert (Zp : In z pre).
    { clear -Eab Za Ha Bx. revert a Eab Za Ha. induction pre as [|y pre IH]; intros a Eab Za Ha.
      - exfalso. destruct a as [|a0 a]; [destruct Za|]. cbn in Eab. injection Eab as <- _. rewrite (Ha (TClass c) (or_introl eq_refl)) in Bx. discriminate.
      - destruct a as [|a0 a]; [destruct Za|]. cbn in Eab. injection Eab as <- Eab. destruct Za as [->|Za]; [left; reflexivity|right].
        apply (IH a Eab Za). intros q Hq. apply Ha. right. exact Hq. }
    apply Hpre; [reflexivity|exact Zp].
  Qed.

  (** C14 *)
  Lemma c14_accept :
    uniondebugconflict cfg = false -> tags_hashable w args V -> (forall x, In x args -> settles w cfg s V x) ->
    (exists x, In x args /\ accepts w cfg s V x) -> accepts w cfg s V T.
  Proof using Hstd Hwr Us St.
    intros UD TH HS [x [Hx A]].
    assert (OD : own_basic basic args V \/ ~ own_basic basic args V).
    { unfold own_basic. rewrite <- mem_cid_In, <- mem_ty_In. destruct (mem_cid _ _), (mem_ty _ _); auto; right; intros [A' B']; discriminate. }
    destruct OD as [[B1 B2]|NO].
    { exists V. apply (c12 w basic strcons cfg Hstd s Us V n0 args (Ok V) B1 B2). reflexivity. }
    destruct (union_body NO) as [[l [PM [BL E]]]|[NT _]]; [|contradiction].
    assert (I : incl l args) by (intros z Hz; eapply Permutation_in; eassumption).
    destruct (try_first l UD I 0 VNone [] (fun z Hz => HS z (I z Hz))) as [pre [x1 [post [y [exs' [_ [_ [_ C]]]]]]]].
    { exists x. split; [eapply Permutation_in; [apply Permutation_sym; exact PM|exact Hx]|exact A]. }
    exists y. apply loads_union_ok. apply E. left. exists (1, y, exs'). split; [exact C|reflexivity].
  Qed.
  Lemma c14_refuse :
    tags_hashable w args V -> ~ own_basic basic args V ->
    (forall x, In x args -> settles w cfg s V x /\ ~ accepts w cfg s V x) ->
    exists l es m, Permutation l args /\ Forall2 failed l es /\
      forall R, loads w cfg s V T R <-> R = Exc (XTL KValue m [(V, T, None)] (Some V) (Some T) es).
  Proof using Hstd Hwr Us St.
    intros TH NO HS. destruct (union_body NO) as [[l [PM [BL E]]]|[NT _]]; [|contradiction].
    assert (I : incl l args) by (intros z Hz; eapply Permutation_in; eassumption).
    destruct (try_none l I 0 VNone [] (fun z Hz => HS z (I z Hz))) as [es [F C]]. cbn [app] in C.
    exists l, es, (MUnion (type_of V) T). split; [exact PM|]. split; [exact F|].
    assert (L : loads w cfg s V T (Exc (XTL KValue (MUnion (type_of V) T) [(V, T, None)] (Some V) (Some T) es))).
    { apply loads_union. eexists. split; [apply E; left; exists (0, VNone, es); split; [exact C|reflexivity]|]. reflexivity. }
    intro R. split; [intro L'; exact (loads_det _ _ _ _ _ _ _ L' L)|intros ->; exact L].
  Qed.

  (** C15 *)
  Local Notation exactly_one := (exactly_one w cfg s V args).
  Local Notation two_or_more := (two_or_more w cfg s V args).

  Notation hit := (fun o : option value => match o with Some _ => true | None => false end).
  Notation outc := (fun x o => match o with Some y => loads w cfg s V x (Ok y) | None => ~ accepted x end).
  Notation hits os := (List.length (filter hit os)).

  Lemma outc_perm l1 l2 os1 os2 : Permutation l1 l2 -> Forall2 outc l1 os1 -> Forall2 outc l2 os2 -> Permutation os1 os2.
  Proof using.
    intros P F1 F2.
    assert (U : forall x o1 o2, outc x o1 -> outc x o2 -> o1 = o2).
    { intros x [y1|] [y2|] H1 H2; try reflexivity.
      - pose proof (loads_det _ _ _ _ _ _ _ H1 H2). congruence.
      - exfalso. apply H2. exists y1. exact H1.
      - exfalso. apply H1. exists y2. exact H2. }
    assert (UL : forall l o1 o2, Forall2 outc l o1 -> Forall2 outc l o2 -> o1 = o2).
    { induction l as [|x l IH]; intros o1 o2 H1 H2; inversion H1; inversion H2; subst; [reflexivity|]. f_equal; eauto. }
    assert (IC : forall x l os, Forall2 outc (x :: l) os -> exists o os', os = o :: os' /\ outc x o /\ Forall2 outc l os').
    { intros x l os F. inversion F as [|x0 o0 l0 os0 H0 F0 Q1 Q2]. exists o0, os0. auto. }
    revert os1 os2 F1 F2. induction P; intros os1 os2 F1 F2.
    - inversion F1; inversion F2; subst. constructor.
    - apply IC in F1 as [o1 [p1 [-> [H1 G1]]]]. apply IC in F2 as [o2 [p2 [-> [H2 G2]]]]. rewrite (U x o1 o2) by assumption. constructor. eauto.
    - apply IC in F1 as [o1 [p1 [-> [H1 G1]]]]. apply IC in G1 as [o1' [p1' [-> [H1' G1]]]].
      apply IC in F2 as [o2 [p2 [-> [H2 G2]]]]. apply IC in G2 as [o2' [p2' [-> [H2' G2]]]].
      rewrite (U x o1' o2) by assumption. rewrite (U y o1 o2') by assumption. rewrite (UL l p1' p2') by assumption. apply perm_swap.
    - assert (X : exists os', Forall2 outc l' os').
      { assert (Y : forall x, In x l' -> exists o, outc x o).
        { intros x Hx. assert (Hl : In x l) by (eapply Permutation_in; [apply Permutation_sym; exact P1|exact Hx]).
          clear -F1 Hl. induction F1 as [|x0 o l os H F IH]; [destruct Hl|]. destruct Hl as [->|Hl]; [eauto|apply IH; exact Hl]. }
        clear -Y. induction l' as [|x l' IH]; [exists []; constructor|]. destruct (Y x (or_introl eq_refl)) as [o Ho].
        destruct IH as [os Hos]; [intros z Hz; apply Y; right; exact Hz|]. exists (o :: os). constructor; assumption. }
      destruct X as [os' F']. etransitivity; [eapply IHP1; eassumption|eapply IHP2; eassumption].
  Qed.
  Lemma hits_perm os1 os2 : Permutation os1 os2 -> hits os1 = hits os2.
  Proof using.
    induction 1; cbn; auto.
    - destruct x; cbn; lia.
    - destruct x, y; cbn; lia.
    - lia.
  Qed.
  Lemma hits_zero l os : Forall2 outc l os -> hits os = 0 -> forall z, In z l -> ~ accepted z.
  Proof using.
    intros F H. induction F as [|x o l os Ho F IH]; intros z []; destruct o; cbn in H; try discriminate.
    - subst. exact Ho.
    - apply IH; assumption.
  Qed.
  Lemma hits_one l os : Forall2 outc l os -> hits os = 1 -> forall r0,
    exists pre x post, l = pre ++ x :: post /\ loads w cfg s V x (Ok (fold_left (fun r o => match o with Some y => y | None => r end) os r0)) /\
      forall z, In z (pre ++ post) -> ~ accepted z.
  Proof using.
    intros F. induction F as [|x o l os Ho F IH]; intros H r0; [discriminate|]. destruct o as [y|]; cbn in H.
    - injection H as H. exists [], x, l. split; [reflexivity|]. split; [|exact (hits_zero l os F H)].
      cbn [fold_left]. assert (X : fold_left (fun r o => match o with Some y => y | None => r end) os y = y).
      { clear -H. revert y. induction os as [|[z|] os IH]; intro y; cbn in *; [reflexivity|discriminate|apply IH; exact H]. }
      rewrite X. exact Ho.
    - destruct (IH H r0) as [pre [x1 [post [-> [L N]]]]]. exists (x :: pre), x1, post. split; [reflexivity|]. split; [exact L|].
      intros z [<-|Hz]; auto.
  Qed.
  Lemma hits_split l os : Forall2 outc l os -> forall pre x post, l = pre ++ x :: post -> accepted x -> 1 <= hits os.
  Proof using.
    intros F. induction F as [|x0 o l os Ho F IH]; intros pre x post E A; [destruct pre; discriminate|].
    destruct pre as [|p0 pre]; cbn in E; injection E as -> E.
    - destruct o; cbn; [lia|contradiction].
    - specialize (IH pre x post E A). destruct o; cbn; lia.
  Qed.
  Lemma hits_two l os : Forall2 outc l os -> forall a x b y c, l = a ++ x :: b ++ y :: c -> accepted x -> accepted y -> 2 <= hits os.
  Proof using.
    intros F. induction F as [|x0 o l os Ho F IH]; intros a x b y c E A1 A2; [destruct a; discriminate|].
    destruct a as [|p0 a]; cbn in E; injection E as -> E.
    - pose proof (hits_split l os F b y c E A2). destruct o; cbn; [lia|contradiction].
    - specialize (IH a x b y c E A1 A2). destruct o; cbn; lia.
  Qed.
  Lemma hits_exactly l os r : Forall2 outc l os -> forall pre x post, l = pre ++ x :: post -> loads w cfg s V x (Ok r) ->
    (forall z, In z (pre ++ post) -> ~ accepted z) -> hits os = 1.
  Proof using.
    intros F. induction F as [|x0 o l os Ho F IH]; intros pre x post E A N; [destruct pre; discriminate|].
    assert (Z : forall l os, Forall2 outc l os -> (forall z, In z l -> ~ accepted z) -> hits os = 0).
    { clear. intros l os F. induction F as [|x o l os Ho F IH]; intro N; [reflexivity|]. destruct o; cbn.
      - exfalso. apply (N x (or_introl eq_refl)). eexists. exact Ho.
      - apply IH. intros z Hz. apply N. right. exact Hz. }
    destruct pre as [|p0 pre]; cbn in E; injection E as -> E.
    - subst l. destruct o; cbn; [f_equal; apply (Z post os F); exact N|]. exfalso. apply Ho. exists r. exact A.
    - assert (H1 : hits os = 1) by (apply (IH pre x post E A); intros z Hz; apply N; right; exact Hz).
      destruct o; cbn; [|exact H1]. exfalso. apply (N p0 (or_introl eq_refl)). eexists. exact Ho.
  Qed.
  Lemma all_outcomes l : incl l args -> (forall x, In x l -> settles w cfg s V x) -> exists os, Forall2 outc l os.
  Proof using Hstd Hwr Us St.
    induction l as [|x l IH]; intros I H; [exists []; constructor|].
    destruct IH as [os F]; [intros z Hz; apply I; right; exact Hz|intros z Hz; apply H; right; exact Hz|].
    assert (Hx : In x args) by (apply I; left; reflexivity).
    destruct (member_settles x Hx (H x (or_introl eq_refl))) as [[y Cy]|[e [TL Ce]]].
    - exists (Some y :: os). constructor; [|exact F]. apply (member_ok x y Hx). exact Cy.
    - exists (None :: os). constructor; [|exact F]. intros [y L]. apply (member_ok x y Hx) in L.
      pose proof (conv_det w basic cfg env s V T Us St _ _ _ L Ce). discriminate.
  Qed.
  Lemma c15_counts :
    uniondebugconflict cfg = true -> tags_hashable w args V -> ~ own_basic basic args V ->
    (forall x, In x args -> settles w cfg s V x) ->
    exists os os' r exs', Forall2 outc args os /\ hits os' = hits os /\
      (hits os = 1 -> exactly_one r) /\
      calls w cfg env s T HUnion V T (verdict (hits os, r, exs')).
  Proof using Hstd Hwr Us St.
    intros UD TH NO HS. destruct (union_body NO) as [[l [PM [_ E]]]|[NT _]]; [|contradiction].
    assert (I : incl l args) by (intros z Hz; eapply Permutation_in; eassumption).
    destruct (try_count l UD I 0 VNone [] (fun z Hz => HS z (I z Hz))) as [os' [exs' [F' C]]]. cbn [Nat.add] in C.
    destruct (all_outcomes args (incl_refl _) HS) as [os F].
    pose proof (hits_perm _ _ (outc_perm l args os' os PM F' F)) as EH.
    exists os, os', (fold_left (fun r o => match o with Some y => y | None => r end) os' VNone), exs'.
    split; [exact F|]. split; [exact EH|]. split.
    - intro H1. rewrite <- EH in H1. destruct (hits_one l os' F' H1 VNone) as [pre [x [post [El [Lx Nx]]]]].
      assert (Hx : In x args) by (apply I; rewrite El; apply in_or_app; right; left; reflexivity).
      apply in_split in Hx as [a [b Ea]]. exists a, x, b. split; [exact Ea|]. split; [exact Lx|].
      intros z Hz. apply Nx. subst l. rewrite Ea in PM.
      assert (P2 : Permutation (pre ++ post) (a ++ b)) by (eapply Permutation_app_inv; exact PM).
      eapply Permutation_in; [apply Permutation_sym; exact P2|exact Hz].
    - apply E. left. eexists. split; [exact C|]. rewrite EH. reflexivity.
  Qed.
  Lemma c15_one :
    uniondebugconflict cfg = true -> tags_hashable w args V -> ~ own_basic basic args V ->
    (forall x, In x args -> settles w cfg s V x) ->
    forall r, loads w cfg s V T (Ok r) <-> exactly_one r.
  Proof using Hstd Hwr Us St.
    intros UD TH NO HS r. destruct (c15_counts UD TH NO HS) as [os [os' [r' [exs' [F [EH [H1 C]]]]]]].
    rewrite loads_union_ok. split.
    - intro C'. pose proof (calls_det w basic cfg env s V T Us St _ _ _ _ _ C' C) as Q. symmetry in Q. apply verdict_ok in Q as [exs Q].
      injection Q as Q1 -> _. apply H1. exact Q1.
    - intros [pre [x [post [E [L N]]]]]. assert (HO : hits os = 1) by (apply (hits_exactly args os r F pre x post E L N)).
      rewrite HO in C. cbn [verdict] in C. destruct (H1 HO) as [pre' [x' [post' [E' [L' N']]]]].
      assert (r' = r); [|subst; exact C].
      assert (Q : Forall2 outc args os -> x' = x \/ In x' (pre ++ post)).
      { intros _. assert (Hx : In x' args) by (rewrite E'; apply in_or_app; right; left; reflexivity). rewrite E in Hx.
        apply in_app_or in Hx as [Hx|[Hx|Hx]]; [right; apply in_or_app; auto|left; auto|right; apply in_or_app; auto]. }
      destruct (Q F) as [->|Hin].
      + pose proof (loads_det _ _ _ _ _ _ _ L L'). congruence.
      + exfalso. apply (N x' Hin). eexists. exact L'.
  Qed.
  Lemma c15_two :
    uniondebugconflict cfg = true -> tags_hashable w args V -> ~ own_basic basic args V ->
    (forall x, In x args -> settles w cfg s V x) -> two_or_more ->
    exists R, raises KType R /\ forall r, loads w cfg s V T r <-> r = R.
  Proof using Hstd Hwr Us St.
    intros UD TH NO HS [a [x [b [y [c [E [A1 A2]]]]]]]. destruct (c15_counts UD TH NO HS) as [os [os' [r' [exs' [F [EH [H1 C]]]]]]].
    pose proof (hits_two args os F a x b y c E A1 A2) as H2.
    destruct (hits os) as [|[|k]]; [lia|lia|]. cbn [verdict] in C.
    exists (wrap V T None (Exc (XTL KType (MConflict (type_of V) T (S (S k))) [] (Some V) (Some T) exs'))). split; [cbn; repeat eexists|].
    assert (L : loads w cfg s V T (wrap V T None (Exc (XTL KType (MConflict (type_of V) T (S (S k))) [] (Some V) (Some T) exs')))).
    { apply loads_union. eexists. split; [exact C|reflexivity]. }
    intro R. split; [intro L'; exact (loads_det _ _ _ _ _ _ _ L' L)|intros ->; exact L].
  Qed.
End Union.
