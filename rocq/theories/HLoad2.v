(** * HLoad2: the handlers on the heap follow the handlers on trees (C59) *)

From Coq Require Import ListDec.
From Verif Require Import Loader Spec Fuel Vocab Inv Std Sound HDumper HDump HLoader HLoad.

Lemma data_part v z : data v -> part v z -> data z.
Proof. intros D Q y I. apply D. eapply rt1n_trans; [exact Q|exact I]. Qed.
Lemma data_top v : data v -> scalar v = true \/ basket v = true.
Proof. intro D. apply (D v (rt1n_refl _ _ _)). Qed.
Lemma chars_scalar s y : In y (chars s) -> scalar y = true.
Proof. induction s as [|c s IH]; cbn; [contradiction|]. intros [<-|I]; [reflexivity|auto]. Qed.
Lemma bytes_scalar s y : In y (bytes_of s) -> scalar y = true.
Proof. induction s as [|c s IH]; cbn; [contradiction|]. intros [<-|I]; [reflexivity|auto]. Qed.
Lemma iter_scalar v l y : iter v = Some l -> scalar v = true -> In y l -> scalar y = true.
Proof. destruct v; try discriminate; intros [= <-] _; [apply chars_scalar|apply bytes_scalar]. Qed.
Lemma data_scalar v : scalar v = true -> data v.
Proof.
  intros E z I. left. revert E. induction I as [z|z y u Q I IH]; [auto|]. intro E. apply IH. destruct Q as [z l y Q J|d k y J|d k y J|d k y J]; try discriminate E.
  eapply iter_scalar; eassumption.
Qed.
Lemma basket_container v : basket v = true -> container (type_of v) = true.
Proof. destruct v; try discriminate; reflexivity. Qed.
Lemma tells_part (R : href -> value -> Prop) o v y : tells R o v -> basket v = true -> In y (parts o) -> exists a, R y a /\ part v a.
Proof.
  assert (F1 : forall xs vs, Forall2 R xs vs -> In y xs -> exists a, R y a /\ In a vs).
  { intros xs vs F I. induction F as [|x a xs vs r F IH]; [contradiction|]. destruct I as [<-|I]; [exists a; split; [exact r|left; reflexivity]|].
    destruct (IH I) as [b [Q J]]. exists b. split; [exact Q|right; exact J]. }
  intros T B I. destruct T as [xs vs F|xs vs F|xs vs F|xs vs F|d vd F|c fs vs F|c fs vs F|c m y' a F|fs vs F]; try discriminate B; cbn [parts] in I.
  1-4: destruct (F1 _ _ F I) as [a [Q J]]; exists a; split; [exact Q|]; eapply part_item; [reflexivity|exact J].
  - apply in_app_or in I as [I|I].
    + assert (F' : Forall2 R (map fst d) (map fst vd)) by (clear I; induction F as [|p q d vd [Q1 Q2] F IH]; constructor; auto).
      destruct (F1 _ _ F' I) as [a [Q J]]. exists a. split; [exact Q|]. eapply part_item; [reflexivity|exact J].
    + assert (F' : Forall2 R (map snd d) (map snd vd)) by (clear I; induction F as [|p q d vd [Q1 Q2] F IH]; constructor; auto).
      destruct (F1 _ _ F' I) as [a [Q J]]. exists a. split; [exact Q|]. apply in_map_iff in J as [[k b] [<- J]]. eapply part_value. exact J.
  - assert (F' : Forall2 R (map snd fs) (map snd vs)) by (clear I; induction F as [|p q d vd [Q1 Q2] F IH]; constructor; auto).
    destruct (F1 _ _ F' I) as [a [Q J]]. exists a. split; [exact Q|]. apply in_map_iff in J as [[k b] [<- J]]. eapply part_ns_value. exact J.
Qed.

(** the parts of an object do not change with the rest of the heap *)
Lemma inside_back (h h' : heap) (B : loc -> bool) x v l : ob (mask B (at_ h)) x v -> kept (mask B (at_ h)) (at_ h') -> inside_of h' x l -> inside_of h x l.
Proof.
  intros O K I. revert v O. induction I as [l|l o y l' E J I IH]; intros v O; [apply io_self|].
  apply ob_inv in O as [o' [E' T]]. pose proof (K _ _ E') as E2. rewrite E in E2. injection E2 as <-.
  destruct (tells_parts _ _ _ _ T J) as [a Oa]. apply io_part with (o := o) (y := y); [|exact J|exact (IH a Oa)].
  unfold mask in E'. destruct (B l); [discriminate|exact E'].
Qed.

(** ** What may become part of the result *)
Section Inp.
  Variable L : loc -> Prop.
  Variable easy : bool.
  Definition inp (h : heap) (x : href) : Prop :=
    if easy then forall l, inside_of h x l -> L l else forall v, ob (at_ h) x v -> data v.
  Lemma inp_kept B (h h' : heap) x v : ob (mask B (at_ h)) x v -> kept (mask B (at_ h)) (at_ h') -> inp h x -> inp h' x.
  Proof using.
    unfold inp. intros O K I. destruct easy.
    - intros l J. apply I. exact (inside_back h h' B x v l O K J).
    - intros a Oa. rewrite (ob_det _ _ _ _ Oa (ob_kept _ _ _ _ K O)). apply I. eapply ob_kept; [apply mask_all|exact O].
  Qed.
  Lemma inp_scalar h a : scalar a = true -> inp h (HV a).
  Proof using.
    unfold inp. intro E. destruct easy; [intros l I; inversion I|]. intros v O. apply ob_HV in O as [-> _]. apply data_scalar. exact E.
  Qed.
  Lemma inp_part h l o y v : ob (at_ h) (HR l) v -> at_ h l = Some o -> In y (parts o) -> inp h (HR l) -> inp h y.
  Proof using.
    unfold inp. intros O E I Q. destruct easy.
    - intros l' J. apply Q. eapply io_part; eassumption.
    - intros a Oa. destruct (ob_inv _ _ _ O) as [o' [E' T]]. rewrite E in E'. injection E' as <-. specialize (Q v O).
      destruct (data_top v Q) as [Sc|Bk]; [destruct T; discriminate Sc|].
      destruct (tells_part _ _ _ _ T Bk I) as [b [Ob Pb]]. rewrite (ob_det _ _ _ _ Oa Ob). eapply data_part; eassumption.
  Qed.
  Lemma leaf_easy h x v : easy = true -> inp h x -> ob (at_ h) x v -> leaf L x.
  Proof using.
    unfold inp. intros -> I O. destruct x as [a|l]; cbn; [apply ob_HV in O; apply O|]. apply I. apply io_self.
  Qed.
End Inp.

Lemma bind_ok {S A B} (m : MS S A) (f : A -> MS S B) a s s' : m s = (Ok a, s') -> bind m f s = f a s'.
Proof. intro E. unfold bind. rewrite E. reflexivity. Qed.

Lemma F2_in_l {A B} (R R' : A -> B -> Prop) xs ys : Forall2 R xs ys -> (forall x y, In x xs -> In y ys -> R x y -> R' x y) -> Forall2 R' xs ys.
Proof. intros F. induction F as [|x y xs ys r F IH]; intro H; constructor; [apply H; [left; reflexivity|left; reflexivity|exact r]|]. apply IH. intros a b I J. apply H; right; assumption. Qed.
Lemma F2_size {A B} (R : A -> B -> Prop) xs ys : Forall2 R xs ys -> List.length xs = List.length ys.
Proof. induction 1; cbn; congruence. Qed.

Section Sim.
  Variable w : world.
  Variables basic strcons : list cid.
  Variable cfg : config.
  Hypothesis Hstd : is_std w basic strcons cfg.
  Variable ev : env.
  Variable L : loc -> Prop.
  Variable hb : heap.
  Hypothesis Hobj : class_objects w ev hb.
  Hypothesis Hcls : forall l, class_object w ev (HR l) -> L l.
  Variable easy : bool.
  Variable G : ty -> Prop.
  Variable nm : string -> option ty.
  Hypothesis Gcomp : forall t t', G t -> component w (pep563 cfg) nm t t' -> G t'.
  Variable P : lstate -> Prop.
  Hypothesis Pcoh : forall s, P s -> coh w cfg s.
  Hypothesis Pindex : forall s t h, find_handler cfg t = POk h -> P s -> P (set_index (cons (t, h)) s).
  Hypothesis Preg : forall s t, P s -> P (register w t s).
  Hypothesis Pfields : forall s c fs oi, ci_dc (class_of w c) = Some fs -> dataclass_info w cfg c fs = POk oi -> P s -> P (set_fields (cons (TClass c, oi)) s).
  Hypothesis Pdisc : forall s t args, ty_args t = Some args -> P s -> P (set_disc (cons (t, build_disc w s args)) s).
  Hypothesis Pstrip : forall s c, P s -> P (set_stripped (cons c) s).
  Hypothesis Gfwd : forall s fr n t, P s -> st_frefs s = Some fr -> str_get n fr = Some t -> G (TForward n) -> G t.
  Hypothesis Gany : easy = false -> ~ G TAny.
  Hypothesis Glit : forall vals l, easy = false -> G (TLiteral vals) -> In l vals -> plain_literal l.
  Hypothesis Href : easy = false -> wf_reflect w.
  Hypothesis Gbasic : forall c, easy = false -> container c = true -> ~ In c basic /\ ~ In c strcons.

  Notation inp := (inp L easy).
  Lemma leaf_scalar h x v : ob (at_ h) x v -> scalar v = true -> leaf L x.
  Proof using. intros O E. rewrite (ob_ref _ _ _ O E). exact E. Qed.
  (** instances of basic types *)
  Lemma leaf_inst h x v c : inp h x -> ob (at_ h) x v -> container c = false \/ easy = true \/ In c basic -> isinstance w v c = true -> leaf L x.
  Proof using Gbasic.
    intros I O B J. destruct (Bool.bool_dec easy true) as [Ea|Ea]; [exact (leaf_easy L easy h x v Ea I O)|]. apply Bool.not_true_is_false in Ea. unfold HLoad2.inp in I. rewrite Ea in I. specialize (I v O).
    destruct (data_top v I) as [Sc|Bk]; [eapply leaf_scalar; eassumption|]. exfalso.
    assert (c = type_of v).
    { unfold isinstance in J. apply mem_cid_In in J. destruct v; try discriminate Bk; cbn in J; destruct J as [<-|[]]; reflexivity. }
    subst c. pose proof (basket_container v Bk) as C. destruct B as [B|[B|B]]; [congruence|congruence|]. apply (proj1 (Gbasic _ Ea C)). exact B.
  Qed.

  (** ** The two runs *)
  Definition frame (A : loc -> bool) (h : heap) : Prop := kept_in hb h /\ below A h /\ forall l, A l = true -> List.length hb <= l.
  Lemma frame_kept A h h' : kept_in h h' -> frame A h -> frame A h'.
  Proof using. intros K [K0 [B C]]. split; [eapply kept_trans; eassumption|]. split; [eapply below_kept; eassumption|exact C]. Qed.
  Lemma frame_hb A h : frame A h -> kept (at_ hb) (mask A (at_ h)).
  Proof using.
    intros [K [B C]] l o E. unfold mask. destruct (A l) eqn:Q; [|apply K; exact E]. apply C in Q. apply nth_error_None in Q. congruence.
  Qed.

  Definition sim {A B} (h0 : heap) (R : A -> B -> heap -> Prop) (out : res A * (lstate * heap)) (p : res B * lstate) : Prop :=
    fst (snd out) = snd p /\ P (snd p) /\ kept_in h0 (snd (snd out)) /\
    match fst out, fst p with
    | Ok y, Ok a => R y a (snd (snd out))
    | Exc e, Exc e' => e = e'
    | OOF, OOF => True
    | _, _ => False
    end.
  Lemma sim_bind {A B A' B'} h0 h1 (R : A -> B -> heap -> Prop) (R' : A' -> B' -> heap -> Prop) hm dm f g s h :
    kept_in h0 h1 ->
    sim h1 R (hm (s, h)) (dm s) ->
    (forall y a s' h', P s' -> kept_in h1 h' -> R y a h' -> sim h0 R' (f y (s', h')) (g a s')) ->
    sim h0 R' (bind hm f (s, h)) (bind dm g s).
  Proof using.
    intros K0 [E [C [K H]]] F. unfold bind. destruct (hm (s, h)) as [[y|e|] [s1 h2]]; destruct (dm s) as [[a|e'|] s2]; cbn [fst snd] in *; try contradiction.
    - subst s2. exact (F y a s1 h2 C K H).
    - subst. split; [reflexivity|]. split; [exact C|]. split; [eapply kept_trans; eassumption|reflexivity].
    - subst. split; [reflexivity|]. split; [exact C|]. split; [eapply kept_trans; eassumption|exact Logic.I].
  Qed.
  (** a step which only the heap sees *)
  Lemma sim_step {A A' B'} h0 (R' : A' -> B' -> heap -> Prop) (hm : LM A) (f : A -> LM A') y s h h' (p : res B' * lstate) :
    hm (s, h) = (Ok y, (s, h')) -> sim h0 R' (f y (s, h')) p -> sim h0 R' (bind hm f (s, h)) p.
  Proof using. intros E H. unfold bind. rewrite E. exact H. Qed.
  Lemma sim_ret {A B} h0 (R : A -> B -> heap -> Prop) y a s h : P s -> kept_in h0 h -> R y a h -> sim h0 R (ret y (s, h)) (ret a s).
  Proof using. intros C K H. split; [reflexivity|]. split; [exact C|]. split; [exact K|exact H]. Qed.
  Lemma sim_raise {A B} h0 (R : A -> B -> heap -> Prop) e s h : P s -> kept_in h0 h -> sim h0 R (raise e (s, h)) (raise e s).
  Proof using. intros C K. split; [reflexivity|]. split; [exact C|]. split; [exact K|reflexivity]. Qed.
  Lemma sim_imp {A B} h0 h1 (R R' : A -> B -> heap -> Prop) out p : kept_in h0 h1 -> sim h1 R out p ->
    (forall y a h', kept_in h1 h' -> R y a h' -> R' y a h') -> sim h0 R' out p.
  Proof using.
    intros K0 [E [C [K H]]] I. split; [exact E|]. split; [exact C|]. split; [eapply kept_trans; eassumption|].
    destruct (fst out); destruct (fst p); auto.
  Qed.
  Lemma sim_catch {A B} h0 h1 (R R' : A -> B -> heap -> Prop) hm dm f g s h :
    kept_in h0 h1 ->
    sim h1 R (hm (s, h)) (dm s) ->
    (forall y a s' h', P s' -> kept_in h1 h' -> R y a h' -> R' y a h') ->
    (forall e s' h', P s' -> kept_in h1 h' -> sim h0 R' (f e (s', h')) (g e s')) ->
    sim h0 R' (catch hm f (s, h)) (catch dm g s).
  Proof using.
    intros K0 [E [C [K H]]] I F. unfold catch. destruct (hm (s, h)) as [[y|e|] [s1 h2]]; destruct (dm s) as [[a|e'|] s2]; cbn [fst snd] in *; try contradiction; subst.
    - split; [reflexivity|]. split; [exact C|]. split; [eapply kept_trans; eassumption|]. cbn. eapply I; eassumption.
    - apply F; assumption.
    - split; [reflexivity|]. split; [exact C|]. split; [eapply kept_trans; eassumption|exact Logic.I].
  Qed.
  Definition either {A B} (R : A -> B -> heap -> Prop) (y : A + exn) (a : B + exn) (h : heap) : Prop :=
    match y, a with inl y', inl a' => R y' a' h | inr e, inr e' => e = e' | _, _ => False end.
  Lemma sim_attempt {A B} h0 (R : A -> B -> heap -> Prop) hm dm s h : sim h0 R (hm (s, h)) (dm s) ->
    sim h0 (either R) (attempt hm (s, h)) (attempt dm s).
  Proof using.
    intros [E [C [K H]]]. unfold attempt. destruct (hm (s, h)) as [[y|e|] [s1 h2]]; destruct (dm s) as [[a|e'|] s2]; cbn [fst snd] in *; try contradiction; subst;
      (split; [reflexivity|]; split; [exact C|]; split; [exact K|]; cbn); auto.
  Qed.

  Definition fine (A : loc -> bool) (h0 : heap) (cl : Prop) : res href * (lstate * heap) -> res value * lstate -> Prop :=
    sim h0 (fun y a h' => ob (mask A (at_ h')) y a /\ (cl -> sep L (List.length h0) h' [y])).
  Lemma fine_imp A h0 h1 (cl cl' : Prop) out p : kept_in h0 h1 -> (cl' -> cl) -> fine A h1 cl out p -> fine A h0 cl' out p.
  Proof using.
    intros K I F. eapply sim_imp; [exact K|exact F|]. cbn. intros y a h' K' [O C]. split; [exact O|]. intro c. apply (sep_weak L (List.length h1)); [apply kept_length; exact K|]. auto.
  Qed.

  (** looking at an object *)
  Lemma looks_ok (x : href) v s h A : ob (mask A (at_ h)) x v -> @looks lstate x (s, h) = (Ok v, (s, h)).
  Proof using. intro O. unfold looks, bind, the_heap, budget. cbn [snd]. rewrite (see_mask A h x v O). reflexivity. Qed.
  Lemma looks_sim {A' B'} h0 (R' : A' -> B' -> heap -> Prop) A x v (f : value -> LM A') s h p :
    ob (mask A (at_ h)) x v -> sim h0 R' (f v (s, h)) p -> sim h0 R' (bind (looks x) f (s, h)) p.
  Proof using. intros O. apply sim_step. eapply looks_ok. exact O. Qed.
  Lemma heap_sim {A' B'} h0 (R' : A' -> B' -> heap -> Prop) (f : heap -> LM A') s h (p : res B' * lstate) :
    sim h0 R' (f h (s, h)) p -> sim h0 R' (bind the_heap f (s, h)) p.
  Proof using. exact (fun H => H). Qed.

  (** the caches *)
  Lemma caches_sim {A} (cm : M A) (Q : A -> Prop) s h : P (snd (cm s)) -> (forall a, fst (cm s) = Ok a -> Q a) ->
    sim h (fun y a h' => y = a /\ Q a /\ h' = h) (caches cm (s, h)) (cm s).
  Proof using.
    intros C H. unfold caches. cbn [fst snd]. destruct (cm s) as [[a|e|] s']; cbn [fst snd] in *; (split; [reflexivity|]; split; [exact C|]; split; [apply kept_refl|]); cbn; auto.
  Qed.
  Lemma lift_sim {A} (r : pyres A) s h : P s -> sim h (fun y a h' => y = a /\ r = POk a /\ h' = h) (lift r (s, h)) (lift r s).
  Proof using. intro C. destruct r as [a|k]; cbn; (split; [reflexivity|]; split; [exact C|]; split; [apply kept_refl|]); cbn; auto. Qed.
  Lemma lookup_sim nf t s h : P s -> sim h (fun y a h' => y = a /\ find_handler cfg t = POk a /\ h' = h) (caches (lookup_handler cfg nf t) (s, h)) (lookup_handler cfg nf t s).
  Proof using Pcoh Pindex.
    intro C. apply caches_sim.
    - unfold lookup_handler. destruct (ty_get t (st_index s)); [exact C|]. destruct (find_handler cfg t) as [k|[]] eqn:F; try exact C. apply Pindex; assumption.
    - intro a. unfold lookup_handler. destruct (ty_get t (st_index s)) as [k|] eqn:E; [intros [= <-]; apply (coh_index _ _ _ (Pcoh s C)); exact E|].
      destruct (find_handler cfg t) as [k|[]] eqn:F; try discriminate. cbn. intros [= <-]. reflexivity.
  Qed.
  Lemma not_custom t hd : find_handler cfg t = POk hd -> forall f, hd <> HCustom f.
  Proof using Hstd. intros F f ->. exact (std_selected w basic strcons cfg t _ Hstd F). Qed.

  Lemma class_leaf y v : class_object w ev y -> object hb y v -> leaf L y.
  Proof using Hcls. intros C [n O]. destruct y as [a|l]; cbn; [destruct n; cbn in O; destruct (scalar a); congruence|]. apply Hcls. exact C. Qed.
  Lemma class_here A h y v : frame A h -> object hb y v -> ob (mask A (at_ h)) y v.
  Proof using. intros Fr O. eapply ob_kept; [apply frame_hb; exact Fr|exact O]. Qed.
  Lemma ready_here A h : frame A h -> ready L A (own w ev) h.
  Proof using Hcls Hobj.
    intro Fr. split; [apply Fr|]. intros c m x y E. unfold own in E. destruct (ci_enum (class_of w c)) as [ms|] eqn:Em; [|discriminate]. destruct (in_dec member_dec (m, x) ms) as [I|]; [|discriminate]. injection E as <-.
    pose proof (co_member _ _ _ Hobj c ms m x Em I) as O. split; [eapply class_here; eassumption|]. eapply class_leaf; [|exact O]. left. exists c, ms, m, x. auto.
  Qed.
  (** new trees *)
  Lemma new_sim A h0 h v s cl : frame A h -> P s -> kept_in h0 h -> fine A h0 cl (new_tree w ev v (s, h)) (ret v s).
  Proof using  Hobj Hcls.
    intros Fr C K. unfold new_tree. cbn [fst snd]. pose proof (plant_ok L A (own w ev) v h (ready_here A h Fr)) as Q. destruct (plant (own w ev) v h) as [y h']. destruct Q as [K1 [O S1]].
    split; [reflexivity|]. split; [exact C|]. split; [eapply kept_trans; eassumption|]. cbn [fst snd]. split; [exact O|]. intros _.
    apply (sep_weak L (List.length h)); [apply kept_length; exact K|exact S1].
  Qed.
  Lemma lib_sim A h0 h r s cl : frame A h -> P s -> kept_in h0 h -> fine A h0 cl (lib w ev r (s, h)) (lift r s).
  Proof using  Hobj Hcls. intros Fr C K. destruct r as [v|k]; [apply new_sim; assumption|]. apply sim_raise; assumption. Qed.
  Lemma place_sim A h0 h o v s (cl : Prop) : frame A h -> P s -> kept_in h0 h -> tells (ob (mask A (at_ h))) o v -> (cl -> sep L (List.length h0) h (parts o)) ->
    fine A h0 cl ((r <- alloc o ;; ret (HR r)) (s, h)) (ret v s).
  Proof using.
    intros [_ [B _]] C K T S1. unfold bind, alloc, ret. cbn [fst snd]. split; [reflexivity|]. split; [exact C|]. split; [eapply kept_trans; [exact K|apply kept_alloc]|]. cbn [fst snd]. split.
    - apply ob_at with (o := o).
      + unfold mask. destruct (A (List.length h)) eqn:Q; [apply B in Q; lia|]. apply alloc_there.
      + eapply tells_imp; [|exact T]. intros y a _. apply ob_kept. apply mask_kept. apply (kept_alloc h o).
    - intro c. apply sep_place; [apply kept_length; exact K|apply S1; exact c].
  Qed.

  (** hashing and comparing *)
  Lemma hashes_ok A h y a s : ob (mask A (at_ h)) y a -> hashes w y (s, h) = (Ok (hashable w a), (s, h)).
  Proof using.
    intro O. unfold hashes, bind, the_heap, budget. cbn [snd].
    assert (E : hhash w (full h) h y = Some (hashable w a)); [|rewrite E; reflexivity].
    pose proof (see_mask A h y a O) as Se. unfold see in Se. destruct y as [b|l]; cbn [hhash].
    - apply ob_HV in O as [-> _]. reflexivity.
    - apply ob_inv in O as [o [E T]]. assert (E' : at_ h l = Some o) by (apply (mask_all A); exact E). rewrite E'.
      destruct T; try reflexivity; rewrite Se; reflexivity.
  Qed.

  (** what the load of [v] with type [t] by [hd] needs to give something new *)
  Definition okh (hd : handler) (v : value) (t : ty) : Prop :=
    easy = true \/ scalar v = true \/ (G t /\ find_handler cfg t = POk hd) \/
    ((hd = HBasic \/ hd = HNone) /\ forall c, t = TClass c -> container c = false).
  Definition cond (hd : handler) (h : heap) (x : href) (v : value) (t : ty) : Prop :=
    distinct_arguments w /\ inp h x /\ okh hd v t.
  Definition good (v : value) (t : ty) : Prop := easy = true \/ scalar v = true \/ G t.
  Lemma good_okh hd v t : find_handler cfg t = POk hd -> good v t -> okh hd v t.
  Proof using. intros F [Q|[Q|Q]]; unfold okh; auto. Qed.

  (** ** The objects of the classes *)
  Lemma sep_leaf_cons b h y ys : leaf L y -> sep L b h ys -> sep L b h (y :: ys).
  Proof using.
    intros Q [lss [F [N B]]]. exists ([] :: lss). split; [constructor; [|exact F]|split; assumption].
    destruct y as [v|l]; [apply mf_scalar|apply mf_old]; exact Q.
  Qed.

  Lemma calltype_sim A h0 h x v t s (cl : Prop) : frame A h -> P s -> kept_in h0 h -> ob (mask A (at_ h)) x v ->
    (cl -> (exists c ms, t = TClass c /\ ci_enum (class_of w c) = Some ms /\ type_of v = c) -> sep L (List.length h0) h [x]) ->
    fine A h0 cl (hcall_type w ev t x v (s, h)) (lift (call_type w t v) s).
  Proof using Hobj Hcls.
    intros Fr C K O S1. unfold hcall_type, call_type. destruct t as [c|? ? ?|?| |?| |? ?|?]; try (apply lib_sim; assumption).
    destruct (ci_enum (class_of w c)) as [ms|] eqn:E; [|apply lib_sim; assumption].
    unfold enum_call. destruct (cid_eqb (type_of v) c) eqn:T.
    - apply sim_ret; [exact C|exact K|]. split; [exact O|]. intro cc. apply S1; [exact cc|]. exists c, ms. apply cid_eqb_eq in T. auto.
    - destruct (find _ ms) as [[name z]|] eqn:Fd; [|apply sim_raise; assumption]. apply find_some in Fd as [I _].
      pose proof (co_member _ _ _ Hobj c ms name z E I) as Ob. apply sim_ret; [exact C|exact K|]. split; [eapply class_here; eassumption|]. intros _.
      apply sep_leaf. eapply class_leaf; [|exact Ob]. left. exists c, ms, name, z. auto.
  Qed.

  (** ** Calling a class with keyword arguments *)
  Definition obf (A : loc -> bool) (h : heap) : list (string * href) -> list (string * value) -> Prop :=
    Forall2 (fun a b => fst a = fst b /\ ob (mask A (at_ h)) (snd a) (snd b)).
  Lemma obf_kept A h h' fs vs : kept_in h h' -> obf A h fs vs -> obf A h' fs vs.
  Proof using. intros K F. eapply F2i; [|exact F]. intros a b [Q O]. split; [exact Q|]. eapply ob_kept; [apply mask_kept; exact K|exact O]. Qed.
  Lemma str_take {A} k (l : list (string * A)) y : str_get k l = Some y ->
    exists l', Permutation (map snd l) (y :: map snd l') /\ forall k', k' <> k -> str_get k' l' = str_get k' l.
  Proof using.
    induction l as [|[k1 z] l IH]; cbn; [discriminate|]. destruct (String.eqb_spec k k1) as [->|N].
    - intros [= ->]. exists l. split; [apply Permutation_refl|]. intros k' Ne. destruct (String.eqb_spec k' k1); [congruence|reflexivity].
    - intro E. destruct (IH E) as [l' [Pm Q]]. exists ((k1, z) :: l'). split.
      + cbn. eapply Permutation_trans; [apply perm_skip; exact Pm|]. apply perm_swap.
      + intros k' Ne. cbn. destruct (String.eqb k' k1); [reflexivity|]. apply Q. exact Ne.
  Qed.
  Lemma sep_move b h X y zs rest : Permutation rest (y :: zs) -> sep L b h (X ++ rest) -> sep L b h ((X ++ [y]) ++ zs).
  Proof using.
    intros Pm. apply sep_perm. rewrite <- app_assoc. apply Permutation_app_head. exact Pm.
  Qed.
  Lemma sep_insert b h X y zs : leaf L y -> sep L b h (X ++ zs) -> sep L b h ((X ++ [y]) ++ zs).
  Proof using.
    intros Q S1. apply (sep_leaf_cons b h y) in S1; [|exact Q]. eapply sep_perm; [|exact S1]. rewrite <- app_assoc. apply Permutation_cons_app. apply Permutation_refl.
  Qed.
  Lemma sep_insert_new b h h' X y zs : kept_in h h' -> b <= List.length h -> sep L b h (X ++ zs) -> sep L (List.length h) h' [y] -> sep L b h' ((X ++ [y]) ++ zs).
  Proof using.
    intros K Le S1 S2. pose proof (sep_app L b h h' _ _ K Le S1 S2) as S3. eapply sep_perm; [|exact S3]. rewrite <- !app_assoc. apply Permutation_app_head. apply Permutation_app_comm.
  Qed.

  Lemma nt_ok A h c fs ps vps : frame A h -> obf A h ps vps ->
    (forall k d, In (k, Some d) fs -> class_object w ev (e_default ev c k) /\ object hb (e_default ev c k) d) ->
    match bind_nt fs vps with
    | Some vals => exists ys, hbind_nt ev c fs ps = Some ys /\ obf A h ys vals /\
        (NoDup (map fst fs) -> forall b X rest, (forall k, In k (map fst fs) -> str_get k rest = str_get k ps) -> sep L b h (X ++ map snd rest) -> sep L b h (X ++ map snd ys))
    | None => hbind_nt ev c fs ps = None
    end.
  Proof using Hcls.
    intros Fr O. induction fs as [|[k d] fs IH]; intro Hd; cbn [bind_nt hbind_nt].
    - exists []. split; [reflexivity|]. split; [constructor|]. intros _ b X rest _ S1. cbn. rewrite app_nil_r. eapply sep_sub; exact S1.
    - specialize (IH (fun k' d' I => Hd k' d' (or_intror I))). pose proof (str_get_F2 k (ob (mask A (at_ h))) ps vps O) as Sg.
      destruct (str_get k vps) as [a|] eqn:Ek.
      + destruct Sg as [y [Ey Oy]]. rewrite Ey. destruct (bind_nt fs vps) as [vals|]; cbn [option_map]; [|rewrite IH; reflexivity].
        destruct IH as [ys [E1 [E2 E3]]]. rewrite E1. exists ((k, y) :: ys). split; [reflexivity|]. split; [constructor; [split; [reflexivity|exact Oy]|exact E2]|].
        intros N b X rest Q S1. inversion N as [|? ? N1 N2]; subst. destruct (str_take k rest y) as [rest' [Pm Q']]; [rewrite Q; [exact Ey|left; reflexivity]|].
        cbn [map snd]. replace (X ++ y :: map snd ys) with ((X ++ [y]) ++ map snd ys) by (rewrite <- app_assoc; reflexivity).
        apply (E3 N2 b _ rest'); [|exact (sep_move _ _ _ _ _ _ Pm S1)]. intros k' I. rewrite Q'; [apply Q; right; exact I|]. intros ->. exact (N1 I).
      + rewrite Sg. destruct d as [d|]; [|reflexivity]. destruct (Hd k d (or_introl eq_refl)) as [Cl Od].
        destruct (bind_nt fs vps) as [vals|]; cbn [option_map]; [|rewrite IH; reflexivity].
        destruct IH as [ys [E1 [E2 E3]]]. rewrite E1. exists ((k, e_default ev c k) :: ys). split; [reflexivity|]. split; [constructor; [split; [reflexivity|]|exact E2]|].
        * cbn. eapply class_here; eassumption.
        * intros N b X rest Q S1. inversion N as [|? ? N1 N2]; subst. cbn [map snd].
          replace (X ++ e_default ev c k :: map snd ys) with ((X ++ [e_default ev c k]) ++ map snd ys) by (rewrite <- app_assoc; reflexivity).
          apply (E3 N2 b _ rest); [intros k' I; apply Q; right; exact I|]. apply sep_insert; [eapply class_leaf; eassumption|exact S1].
  Qed.

  Lemma looks_all_ok A h fs vs s : obf A h fs vs -> @looks_all lstate fs (s, h) = (Ok vs, (s, h)).
  Proof using.
    intro F. induction F as [|[k y] [k' a] fs vs [Q O] F IH]; [reflexivity|]. cbn in Q, O. subst k'. cbn [looks_all]. rewrite (bind_ok _ _ _ _ _ (looks_ok y a s h A O)), (bind_ok _ _ _ _ _ IH). reflexivity.
  Qed.

  Definition okfs (A : loc -> bool) (h0 : heap) (cl : Prop) (ys : list (string * href)) (vs : list (string * value)) (h : heap) : Prop :=
    obf A h ys vs /\ (cl -> sep L (List.length h0) h (map snd ys)).
  Lemma bindf_sim A h0 (cl : Prop) an c ps vps fs :
    (forall f d, In f fs -> f_default f = DValue d -> class_object w ev (e_default ev c (f_name f)) /\ object hb (e_default ev c (f_name f)) d) ->
    (cl -> NoDup (map (fun f => an (f_name f)) (filter f_init fs))) ->
    forall sofar vsofar rest s h, frame A h -> P s -> kept_in h0 h -> obf A h ps vps -> obf A h sofar vsofar ->
    (forall f, In f fs -> f_init f = true -> str_get (an (f_name f)) rest = str_get (an (f_name f)) ps) ->
    (cl -> sep L (List.length h0) h (map snd sofar ++ map snd rest)) ->
    sim h0 (okfs A h0 cl) (hbind_fields w ev an c fs ps sofar (s, h))
        (match bind_fields an fs vps vsofar with Some vals => ret vals s | None => raise (XRaw RType) s end).
  Proof using Hcls Hobj.
    induction fs as [|f fs IH]; intros Hd N sofar vsofar rest s h Fr C K Ops Osf Q S1; cbn [hbind_fields bind_fields].
    - apply sim_ret; [exact C|exact K|]. split; [exact Osf|]. intro c0. eapply sep_sub. apply S1. exact c0.
    - assert (Hd' : forall g d, In g fs -> f_default g = DValue d -> class_object w ev (e_default ev c (f_name g)) /\ object hb (e_default ev c (f_name g)) d) by (intros g d I; apply Hd; right; exact I).
      assert (N' : cl -> NoDup (map (fun f => an (f_name f)) (filter f_init fs))).
      { intro c0. specialize (N c0). cbn [filter] in N. destruct (f_init f); [|exact N]. cbn in N. inversion N; assumption. }
      assert (Q' : forall g, In g fs -> f_init g = true -> str_get (an (f_name g)) rest = str_get (an (f_name g)) ps) by (intros g I; apply Q; right; exact I).
      (* what happens without an argument *)
      assert (Df : sim h0 (okfs A h0 cl)
         (match hdefault w ev c f sofar with
          | Some d => (y <- d;; hbind_fields w ev an c fs ps (sofar ++ [(f_name f, y)])) (s, h)
          | None => if f_init f then raise (XRaw RType) (s, h) else hbind_fields w ev an c fs ps sofar (s, h)
          end)
         (match default_of (f_default f) vsofar with
          | Some v => match bind_fields an fs vps (vsofar ++ [(f_name f, v)]) with Some vals => ret vals s | None => raise (XRaw RType) s end
          | None => if f_init f then raise (XRaw RType) s
                    else match bind_fields an fs vps vsofar with Some vals => ret vals s | None => raise (XRaw RType) s end
          end)).
      { assert (New : forall v, sim h0 (okfs A h0 cl) ((y <- new_tree w ev v;; hbind_fields w ev an c fs ps (sofar ++ [(f_name f, y)])) (s, h))
           (match bind_fields an fs vps (vsofar ++ [(f_name f, v)]) with Some vals => ret vals s | None => raise (XRaw RType) s end)).
        { intro v. pose proof (plant_ok L A (own w ev) v h (ready_here A h Fr)) as Pl. destruct (plant (own w ev) v h) as [y h1] eqn:Ep. destruct Pl as [K1 [O1 S2]].
          apply (sim_step h0 _ _ _ y s h h1); [unfold new_tree; cbn [snd]; rewrite Ep; reflexivity|].
          apply (IH Hd' N' _ _ rest); [eapply frame_kept; eassumption|exact C|eapply kept_trans; eassumption|eapply obf_kept; eassumption| |exact Q'|].
          - apply Forall2_app; [eapply obf_kept; eassumption|]. constructor; [|constructor]. split; [reflexivity|exact O1].
          - intro c0. rewrite map_app. cbn [map snd]. apply (sep_insert_new _ h); [exact K1|apply kept_length; exact K|apply S1; exact c0|exact S2]. }
        unfold hdefault. destruct (f_default f) as [|d|v|g] eqn:Ed; cbn [default_of].
        - destruct (f_init f); [apply sim_raise; assumption|]. apply (IH Hd' N' _ _ rest); assumption.
        - destruct (Hd f d (or_introl eq_refl) Ed) as [Cl Od]. apply (sim_step h0 _ _ _ (e_default ev c (f_name f)) s h h); [reflexivity|].
          apply (IH Hd' N' _ _ rest); try assumption.
          + apply Forall2_app; [exact Osf|]. constructor; [|constructor]. split; [reflexivity|]. cbn. eapply class_here; eassumption.
          + intro c0. rewrite map_app. cbn [map snd]. apply sep_insert; [eapply class_leaf; eassumption|apply S1; exact c0].
        - apply New.
        - assert (Es : (y <- (vs <- looks_all sofar ;; new_tree w ev (g vs)) ;; hbind_fields w ev an c fs ps (sofar ++ [(f_name f, y)])) (s, h) =
                       (y <- new_tree w ev (g vsofar) ;; hbind_fields w ev an c fs ps (sofar ++ [(f_name f, y)])) (s, h)).
          { unfold bind at 1. rewrite (bind_ok _ _ _ _ _ (looks_all_ok A h sofar vsofar s Osf)). reflexivity. }
          rewrite Es. apply New. }
      destruct (f_init f) eqn:Ei.
      + pose proof (str_get_F2 (an (f_name f)) (ob (mask A (at_ h))) ps vps Ops) as Sg.
        destruct (str_get (an (f_name f)) vps) as [a|] eqn:Ea.
        * destruct Sg as [y [Ey Oy]]. rewrite Ey. destruct (str_take (an (f_name f)) rest y) as [rest' [Pm Qr]]; [rewrite Q; [exact Ey|left; reflexivity|exact Ei]|].
          (* without cl the rest does not matter *)
          destruct (ListDec.NoDup_dec String.string_dec (map (fun f => an (f_name f)) (filter f_init (f :: fs)))) as [Nd|Nd].
          -- apply (IH Hd' N' _ _ rest'); try assumption.
             ++ apply Forall2_app; [exact Osf|]. constructor; [|constructor]. split; [reflexivity|exact Oy].
             ++ intros g I Ig. rewrite Qr; [apply Q'; assumption|]. intro Eq. cbn [filter] in Nd. rewrite Ei in Nd. cbn in Nd. inversion Nd as [|? ? N1 N2]; subst.
                apply N1. rewrite <- Eq. apply (in_map (fun f => an (f_name f))). apply filter_In. auto.
             ++ intro c0. rewrite map_app. cbn [map snd]. exact (sep_move _ _ _ _ _ _ Pm (S1 c0)).
          -- apply (IH Hd' N' _ _ rest); try assumption.
             ++ apply Forall2_app; [exact Osf|]. constructor; [|constructor]. split; [reflexivity|exact Oy].
             ++ intro c0. exfalso. apply Nd. apply N. exact c0.
        * rewrite Sg. revert Df. destruct (hdefault w ev c f sofar); destruct (default_of (f_default f) vsofar); exact (fun H => H).
      + revert Df. destruct (hdefault w ev c f sofar); destruct (default_of (f_default f) vsofar); exact (fun H => H).
  Qed.

  (** __post_init__ *)
  Lemma take_ok A h k v fs vs y fs' vs' : obf A h fs vs -> take k v fs vs = Some (y, fs', vs') ->
    ob (mask A (at_ h)) y v /\ obf A h fs' vs' /\ Permutation (map snd fs) (y :: map snd fs').
  Proof using.
    intro F. revert y fs' vs'. induction F as [|[k1 y1] [k2 v1] fs vs [Qk O] F IH]; intros y fs' vs'; cbn [take]; [discriminate|]. cbn in Qk, O. subst k2.
    destruct (String.eqb k k1).
    - destruct (value_eq_dec v1 v) as [->|]; [|discriminate]. intros [= <- <- <-]. split; [exact O|]. split; [exact F|apply Permutation_refl].
    - destruct (take k v fs vs) as [[[z fs1] vs1]|]; [|discriminate]. intros [= <- <- <-]. destruct (IH z fs1 vs1 eq_refl) as [E1 [E2 E3]].
      split; [exact E1|]. split; [constructor; [split; [reflexivity|exact O]|exact E2]|]. cbn. eapply Permutation_trans; [apply perm_skip; exact E3|]. apply perm_swap.
  Qed.
  Lemma post_sim A h0 (cl : Prop) vs' : forall fs vs X s h, frame A h -> P s -> kept_in h0 h -> obf A h fs vs ->
    (cl -> sep L (List.length h0) h (X ++ map snd fs)) ->
    sim h0 (fun ys a h' => kept_in h h' /\ obf A h' ys a /\ (cl -> sep L (List.length h0) h' (X ++ map snd ys))) (hpost w ev fs vs vs' (s, h)) (ret vs' s).
  Proof using  Hobj Hcls.
    induction vs' as [|[k v'] vs' IH]; intros fs vs X s h Fr C K O S1; cbn [hpost].
    - apply sim_ret; [exact C|exact K|]. split; [apply kept_refl|]. split; [constructor|]. intro c. cbn. rewrite app_nil_r. eapply sep_sub. apply S1. exact c.
    - destruct (take k v' fs vs) as [[[y fs1] vs1]|] eqn:T.
      + destruct (take_ok A h _ _ _ _ _ _ _ O T) as [Oy [O1 Pm]].
        pose proof (IH fs1 vs1 (X ++ [y]) s h Fr C K O1 (fun c => sep_move _ _ _ _ _ _ Pm (S1 c))) as H.
        destruct H as [E1 [E2 [E3 E4]]]. unfold bind. destruct (hpost w ev fs1 vs1 vs' (s, h)) as [[ys|e|] [s1 h1]]; cbn [fst snd ret] in *; try contradiction. subst s1.
        split; [reflexivity|]. split; [exact C|]. split; [exact E3|]. cbn [fst snd]. destruct E4 as [K1 [O2 S2]]. split; [exact K1|]. split.
        * constructor; [|exact O2]. split; [reflexivity|]. cbn. eapply ob_kept; [apply mask_kept; exact K1|exact Oy].
        * intro c. specialize (S2 c). rewrite <- app_assoc in S2. exact S2.
      + pose proof (plant_ok L A (own w ev) v' h (ready_here A h Fr)) as Pl. destruct (plant (own w ev) v' h) as [y h1] eqn:Ep. destruct Pl as [K1 [O1 S2]].
        apply (sim_step h0 _ _ _ y s h h1); [unfold new_tree; cbn [snd]; rewrite Ep; reflexivity|].
        pose proof (IH fs vs (X ++ [y]) s h1 (frame_kept _ _ _ K1 Fr) C (kept_trans _ _ _ K K1) (obf_kept _ _ _ _ _ K1 O)
          (fun c => sep_insert_new _ h h1 X y _ K1 (kept_length _ _ K) (S1 c) S2)) as H.
        destruct H as [E1 [E2 [E3 E4]]]. unfold bind. destruct (hpost w ev fs vs vs' (s, h1)) as [[ys|e|] [s1 h2]]; cbn [fst snd ret] in *; try contradiction. subst s1.
        split; [reflexivity|]. split; [exact C|]. split; [exact E3|]. cbn [fst snd]. destruct E4 as [K2 [O2 S3]]. split; [eapply kept_trans; eassumption|]. split.
        * constructor; [|exact O2]. split; [reflexivity|]. cbn. eapply ob_kept; [apply mask_kept; exact K2|exact O1].
        * intro c. specialize (S3 c). rewrite <- app_assoc in S3. exact S3.
  Qed.

  Lemma unexpected_eq A h l ps vps : obf A h ps vps -> hunexpected l ps = unexpected l vps.
  Proof using.
    intro F. unfold hunexpected, unexpected. induction F as [|[k y] [k' a] ps vps [Q _] F IH]; [reflexivity|]. cbn in Q. subst k'. cbn [existsb fst]. rewrite IH. reflexivity.
  Qed.
  Lemma cfields_sim A h0 h (cl : Prop) an c fs ps vps s :
    (forall f d, In f fs -> f_default f = DValue d -> class_object w ev (e_default ev c (f_name f)) /\ object hb (e_default ev c (f_name f)) d) ->
    (cl -> NoDup (map (fun f => an (f_name f)) (filter f_init fs))) ->
    frame A h0 -> P s -> kept_in h0 h -> obf A h ps vps -> (cl -> sep L (List.length h0) h (map snd ps)) ->
    fine A h0 cl (hconstruct_fields w ev an c fs ps (s, h)) (lift (construct_fields w an c fs vps) s).
  Proof using Hcls Hobj.
    intros Hd N Fr C K O S1. unfold hconstruct_fields, construct_fields. rewrite (unexpected_eq A h _ _ _ O). destruct (unexpected _ vps); [apply sim_raise; assumption|].
    pose proof (bindf_sim A h0 cl an c ps vps fs Hd N [] [] ps s h (frame_kept _ _ _ K Fr) C K O (Forall2_nil _) (fun f _ _ => eq_refl) S1) as [E1 [E2 [E3 E4]]].
    unfold bind at 1. destruct (hbind_fields w ev an c fs ps [] (s, h)) as [[ys|e|] [s1 h1]]; destruct (bind_fields an fs vps []) as [vals|]; cbn [fst snd ret raise] in *; try contradiction; subst s1.
    2: subst e; apply sim_raise; assumption.
    destruct E4 as [O1 S2].
    rewrite (bind_ok _ _ _ _ _ (looks_all_ok A h1 ys vals s O1)). unfold bind at 1.
    destruct (ci_post (class_of w c) vals) as [vals'|r]; cbn [lift]; [|apply sim_raise; assumption].
    pose proof (post_sim A h0 cl vals' ys vals [] s h1 (frame_kept _ _ _ E3 Fr) C E3 O1 S2) as [D1 [D2 [D3 D4]]].
    unfold bind at 1. cbn [ret]. destruct (hpost w ev ys vals vals' (s, h1)) as [[zs|e|] [s1 h2]]; cbn [fst snd ret] in *; try contradiction. subst s1.
    destruct D4 as [K2 [O2 S3]]. apply place_sim; [exact (frame_kept _ _ _ D3 Fr)|exact C|exact D3|constructor; exact O2|exact S3].
  Qed.
  Lemma construct_sim A h0 h (cl : Prop) t ps vps s :
    frame A h0 -> P s -> kept_in h0 h -> obf A h ps vps -> (cl -> distinct_arguments w) -> (cl -> sep L (List.length h0) h (map snd ps)) ->
    fine A h0 cl (hconstruct w ev t ps (s, h)) (lift (construct w t vps) s).
  Proof using Hobj Hcls.
    intros Fr C K O D S1. unfold hconstruct, construct. destruct t as [c|? ? ?|?| |?| |? ?|?]; try (apply sim_raise; assumption). cbn zeta.
    assert (Fd : forall fs, ci_dc (class_of w c) = Some fs \/ ci_attrs (class_of w c) = Some fs -> forall f d, In f fs -> f_default f = DValue d ->
       class_object w ev (e_default ev c (f_name f)) /\ object hb (e_default ev c (f_name f)) d).
    { intros fs Q f d I Ed. split; [right; right; exists c, fs, f, d; auto|]. exact (co_field _ _ _ Hobj c fs f d Q I Ed). }
    destruct (ci_nt (class_of w c)) as [nt|] eqn:En.
    - rewrite (unexpected_eq A h _ _ _ O). destruct (unexpected _ vps); [apply sim_raise; assumption|].
      pose proof (nt_ok A h c nt ps vps (frame_kept _ _ _ K Fr) O) as Q. destruct (bind_nt nt vps) as [vals|].
      + destruct Q as [ys [E1 [E2 E3]]]. { intros k d I. split; [right; left; exists c, nt, k, d; auto|]. exact (co_nt _ _ _ Hobj c nt k d En I). }
        rewrite E1. apply place_sim; [eapply frame_kept; eassumption|exact C|exact K|constructor; exact E2|]. intro c0. cbn [parts].
        exact (E3 (da_nt _ (D c0) c nt En) _ [] ps (fun _ _ => eq_refl) (S1 c0)).
      + rewrite Q; [apply sim_raise; assumption|]. intros k d I. split; [right; left; exists c, nt, k, d; auto|]. exact (co_nt _ _ _ Hobj c nt k d En I).
    - destruct (ci_dc (class_of w c)) as [fs|] eqn:Ed.
      { apply cfields_sim; try assumption; [apply Fd; left; reflexivity|]. intro c0. exact (da_dc _ (D c0) c fs Ed). }
      destruct (ci_attrs (class_of w c)) as [fs|] eqn:Ea.
      { apply cfields_sim; try assumption; [apply Fd; right; reflexivity|]. intro c0. exact (da_attrs _ (D c0) c fs Ea). }
      destruct (ci_td (class_of w c)) as [req|]; [|apply sim_raise; assumption].
      apply place_sim; [eapply frame_kept; eassumption|exact C|exact K| |].
      + constructor. clear S1. induction O as [|[k y] [k' a] ps vps [Q Oy] O IH]; cbn [map]; constructor; [|exact IH]. cbn in *. subst k'. split; [apply ob_scalar; reflexivity|exact Oy].
      + intro c0. specialize (S1 c0). cbn [parts]. rewrite !map_map. cbn [fst snd].
        assert (Q : sep L (List.length h0) h (map (fun ky : string * href => HV (VStr (fst ky))) ps ++ map snd ps)).
        { generalize (map snd ps) S1. intros zs Sz. induction ps as [|[k y] ps IHp]; [exact Sz|]. cbn [map app]. apply sep_leaf_cons; [reflexivity|]. clear IHp S1 O.
          induction ps as [|[k' y'] ps IHp]; [exact Sz|]. cbn [map app]. apply sep_leaf_cons; [reflexivity|exact IHp]. }
        exact Q.
  Qed.

  (** ** Inputs *)
  Definition inq (B : loc -> bool) (cl : Prop) (h : heap) (x : href) (v : value) : Prop := ob (mask B (at_ h)) x v /\ (cl -> inp h x).
  Lemma inq_kept B cl h h' x v : kept (mask B (at_ h)) (mask B (at_ h')) -> inq B cl h x v -> inq B cl h' x v.
  Proof using.
    intros K [O I]. split; [eapply ob_kept; eassumption|]. intro c. eapply inp_kept; [exact O| |apply I; exact c]. eapply k_trans; [exact K|apply mask_all].
  Qed.
  Definition inpairs (B : loc -> bool) (cl : Prop) (h : heap) : list (href * href) -> list (value * value) -> Prop :=
    Forall2 (fun p q => inq B cl h (fst p) (fst q) /\ inq B cl h (snd p) (snd q)).
  Lemma inpairs_kept B cl h h' d vd : kept (mask B (at_ h)) (mask B (at_ h')) -> inpairs B cl h d vd -> inpairs B cl h' d vd.
  Proof using. intros K F. eapply F2i; [|exact F]. intros p q [Q1 Q2]. split; eapply inq_kept; eassumption. Qed.
  Definition feed (h : heap) (x : href) : Prop := forall l o y, x = HR l -> at_ h l = Some o -> In y (parts o) -> inp h y.
  Lemma inp_feed h x v : ob (at_ h) x v -> inp h x -> feed h x.
  Proof using. intros O I l o y -> E J. eapply inp_part; eassumption. Qed.
  Lemma also_out A h0 h r : below A h0 -> List.length h0 <= r -> kept_in h0 h -> kept (mask A (at_ h0)) (mask (also r A) (at_ h)).
  Proof using.
    intros B Le K l o E. unfold mask, also in *. destruct (A l) eqn:Q; [discriminate|]. rewrite orb_false_r. destruct (Nat.eqb_spec l r) as [->|N]; [|apply K; exact E].
    exfalso. apply nth_error_None in Le. congruence.
  Qed.
  Lemma frame_also A h0 h r : frame A h0 -> kept_in h0 h -> List.length h0 <= r -> r < List.length h -> frame (also r A) h.
  Proof using.
    intros [K [B C]] K0 Le Lt. pose proof (kept_length _ _ K). split; [eapply kept_trans; eassumption|]. unfold also. split; intros l Q; apply orb_true_iff in Q as [Q|Q].
    - apply Nat.eqb_eq in Q. subst l. exact Lt.
    - apply B in Q. apply kept_length in K0. lia.
    - apply Nat.eqb_eq in Q. subst l. lia.
    - apply C. exact Q.
  Qed.

  (** ** A dictionary under construction *)
  Definition pairs (B : loc -> bool) (h : heap) : list (href * href) -> list (value * value) -> Prop :=
    Forall2 (fun p q => ob (mask B (at_ h)) (fst p) (fst q) /\ ob (mask B (at_ h)) (snd p) (snd q)).
  Lemma pairs_kept B h h' d vd : kept (mask B (at_ h)) (mask B (at_ h')) -> pairs B h d vd -> pairs B h' d vd.
  Proof using. intros K F. eapply F2i; [|exact F]. intros p q [Q1 Q2]. split; eapply ob_kept; eassumption. Qed.
  Lemma dict_set_ok B h k y a b d acc : ob (mask B (at_ h)) k a -> ob (mask B (at_ h)) y b -> pairs B h d acc ->
    exists d', hdict_set (full h) h k y d = Some d' /\ pairs B h d' (dict_set a b acc) /\
      exists rest, Permutation (k :: y :: map fst d ++ map snd d) ((map fst d' ++ map snd d') ++ rest).
  Proof using.
    intros Ok Oy F. induction F as [|[k1 y1] [a1 b1] d acc [O1 O2] F [d' [E [F' [rest Pm]]]]]; cbn [hdict_set dict_set].
    - exists [(k, y)]. split; [reflexivity|]. split; [constructor; [split; assumption|constructor]|]. exists []. cbn. apply Permutation_refl.
    - cbn [fst snd] in O1, O2. pose proof (see_mask B h k a Ok) as Ek. pose proof (see_mask B h k1 a1 O1) as Ek1. unfold see in Ek, Ek1. rewrite Ek, Ek1.
      destruct (py_eqb a a1).
      + exists ((k1, y) :: d). split; [reflexivity|]. split; [constructor; [split; assumption|exact F]|]. exists [k; y1]. cbn [map fst snd app].
        apply (Permutation_trans (l' := k :: y1 :: k1 :: y :: map fst d ++ map snd d)).
        * apply perm_skip. apply (Permutation_trans (l' := y :: k1 :: y1 :: map fst d ++ map snd d)).
          { apply perm_skip, perm_skip. apply Permutation_sym. apply Permutation_middle. }
          apply (Permutation_trans (l' := y :: y1 :: k1 :: map fst d ++ map snd d)); [apply perm_skip, perm_swap|].
          apply (Permutation_trans (l' := y1 :: y :: k1 :: map fst d ++ map snd d)); [apply perm_swap|]. apply perm_skip, perm_swap.
        * change (k :: y1 :: k1 :: y :: map fst d ++ map snd d) with ([k; y1] ++ k1 :: y :: map fst d ++ map snd d).
          eapply Permutation_trans; [apply Permutation_app_comm|].
          change (Permutation ((k1 :: y :: map fst d ++ map snd d) ++ [k; y1]) ((k1 :: map fst d ++ y :: map snd d) ++ [k; y1])).
          apply Permutation_app_tail. apply perm_skip. apply Permutation_middle.
      + rewrite E. exists ((k1, y1) :: d'). split; [reflexivity|]. split; [constructor; [split; assumption|exact F']|]. exists rest. cbn [map fst snd app].
        apply (Permutation_trans (l' := k1 :: y1 :: k :: y :: map fst d ++ map snd d)).
        * apply (Permutation_trans (l' := k :: y :: k1 :: y1 :: map fst d ++ map snd d)).
          { do 3 apply perm_skip. apply Permutation_sym. apply Permutation_middle. }
          change (Permutation ([k; y] ++ [k1; y1] ++ map fst d ++ map snd d) ([k1; y1] ++ [k; y] ++ map fst d ++ map snd d)).
          rewrite (app_assoc [k; y]), (app_assoc [k1; y1]). apply Permutation_app_tail. apply Permutation_app_comm.
        * apply perm_skip. apply (Permutation_trans (l' := y1 :: (map fst d' ++ map snd d') ++ rest)); [apply perm_skip; exact Pm|].
          rewrite <- !app_assoc. cbn [app]. apply Permutation_middle.
  Qed.
  Definition dinv (A : loc -> bool) (h0 : heap) (cl : Prop) (r : loc) (h : heap) (acc : list (value * value)) : Prop :=
    kept_in h0 h /\ List.length h0 <= r /\
    exists d, at_ h r = Some (HDict d) /\ pairs (also r A) h d acc /\ (cl -> sep L (S r) h (map fst d ++ map snd d)).
  Lemma dinv_alloc A h0 h cl : kept_in h0 h -> dinv A h0 cl (List.length h) (h ++ [HDict []]) [].
  Proof using.
    intro K. split; [eapply kept_trans; [exact K|apply kept_alloc]|]. split; [apply kept_length; exact K|].
    exists []. split; [apply alloc_there|]. split; [constructor|]. intros _. apply sep_nil.
  Qed.
  Lemma dinv_there A h0 cl r h acc : dinv A h0 cl r h acc -> r < List.length h.
  Proof using. intros [_ [_ [d [E _]]]]. apply nth_error_Some. congruence. Qed.
  Lemma dinv_kept A h0 cl r h h' acc : kept_in h h' -> dinv A h0 cl r h acc -> dinv A h0 cl r h' acc.
  Proof using.
    intros K [K0 [Le [d [E [F C]]]]]. split; [eapply kept_trans; eassumption|]. split; [exact Le|]. exists d. split; [apply K; exact E|].
    split; [eapply pairs_kept; [apply mask_kept; exact K|exact F]|]. intro c. eapply sep_kept; [exact K|apply C; exact c].
  Qed.
  Lemma dinv_set A h0 (cl : Prop) r h h' acc k y a b : dinv A h0 cl r h acc -> kept_in h h' ->
    ob (mask (also r A) (at_ h')) k a -> ob (mask (also r A) (at_ h')) y b -> (cl -> sep L (List.length h) h' [k; y]) ->
    exists h2, (forall s : lstate, sets r k y (s, h') = (Ok tt, (s, h2))) /\ dinv A h0 cl r h2 (dict_set a b acc) /\
      kept (mask (also r A) (at_ h')) (mask (also r A) (at_ h2)).
  Proof using.
    intros I K Ok Oy S1. pose proof (dinv_there _ _ _ _ _ _ I) as Lt. pose proof (dinv_kept _ _ _ _ _ _ _ K I) as [K0 [Le [d [E [F C]]]]].
    destruct (dict_set_ok (also r A) h' k y a b d acc Ok Oy F) as [d' [E' [F' [rest Pm]]]].
    exists (put h' r (HDict d')). split; [|split].
    - intro s. unfold sets. rewrite (bind_ok the_heap _ h' (s, h') (s, h') eq_refl). rewrite E. unfold bind, budget. rewrite E'. reflexivity.
    - split; [apply kept_put; assumption|]. split; [exact Le|]. exists d'. split; [apply put_same; apply nth_error_Some; congruence|].
      split; [eapply pairs_kept; [apply mask_put|exact F']|]. intro c. apply sep_put; [lia|].
      eapply sep_part; [exact Pm|]. change (k :: y :: map fst d ++ map snd d) with ([k; y] ++ map fst d ++ map snd d).
      eapply sep_perm; [apply Permutation_app_comm|]. apply (sep_app L _ h); [exact K|lia| |apply S1; exact c].
      destruct I as [_ [_ [d0 [E0 [_ C0]]]]]. pose proof (K _ _ E0) as E0'. rewrite E in E0'. injection E0' as <-. apply C0. exact c.
    - apply mask_put.
  Qed.
  Lemma not_in A h0 r : below A h0 -> List.length h0 <= r -> A r = false.
  Proof using. intros B Le. destruct (A r) eqn:Q; [apply B in Q; lia|reflexivity]. Qed.
  Lemma also_less A r g : kept (mask (also r A) g) (mask A g).
  Proof using. apply mask_less. intros l Q. unfold also. rewrite Q. apply orb_true_r. Qed.
  Lemma dinv_ob A h0 cl r h acc : frame A h0 -> dinv A h0 cl r h acc -> ob (mask A (at_ h)) (HR r) (VDict acc).
  Proof using.
    intros [_ [B _]] [K [Le [d [E [F _]]]]]. apply ob_at with (o := HDict d); [unfold mask; rewrite (not_in A h0 r B Le); exact E|].
    constructor. eapply F2i; [|exact F]. intros p q [Q1 Q2]. split; (eapply ob_kept; [apply also_less|eassumption]).
  Qed.
  Lemma dinv_done A h0 cl r h acc s : frame A h0 -> dinv A h0 cl r h acc -> P s -> fine A h0 cl (ret (HR r) (s, h)) (ret (VDict acc) s).
  Proof using.
    intros Fr I C. apply sim_ret; [exact C|apply I|]. split; [eapply dinv_ob; eassumption|]. destruct I as [K [Le [d [E [F Cl]]]]]. intro c.
    apply sep_new with (o := HDict d); [exact E|apply Cl; exact c|exact Le].
  Qed.

  Lemma hitems_ok A h x v : ob (mask A (at_ h)) x v ->
    match v with
    | VDict vd => exists l d, x = HR l /\ at_ h l = Some (HDict d) /\ hitems h x = Some d /\ pairs A h d vd
    | _ => hitems h x = None
    end.
  Proof using.
    intro O. destruct x as [a|l].
    - apply ob_HV in O as [-> Sc]. destruct a; try reflexivity. discriminate Sc.
    - apply ob_inv in O as [o [E T]]. assert (E' : at_ h l = Some o) by (apply (mask_all A); exact E). destruct T; cbn [hitems]; rewrite E'; try reflexivity.
      exists l, d. auto.
  Qed.
  Lemma hasdict_ok A h x v s : frame A h -> ob (mask A (at_ h)) x v ->
    exists x' h1, has_dict cfg x (s, h) = (Ok x', (s, h1)) /\ kept_in h h1 /\ ob (mask A (at_ h1)) x' (as_dict cfg v) /\ (feed h x -> feed h1 x').
  Proof using.
    intros [_ [B _]] O. unfold has_dict. rewrite (bind_ok the_heap _ h (s, h) (s, h) eq_refl). destruct x as [a|l].
    - exists (HV a), h. split; [reflexivity|]. split; [apply kept_refl|]. split; [|auto]. pose proof (ob_HV _ _ _ O) as [-> Sc]. destruct a; try exact O. discriminate Sc.
    - destruct (ob_inv _ _ _ O) as [o [E T]]. assert (E' : at_ h l = Some o) by (apply (mask_all A); exact E). rewrite E'.
      assert (Same : as_dict cfg v = v -> exists x' h1, ret (HR l) (s, h) = (Ok x', (s, h1)) /\ kept_in h h1 /\ ob (mask A (at_ h1)) x' (as_dict cfg v) /\ (feed h (HR l) -> feed h1 x')).
      { intro Q. exists (HR l), h. split; [reflexivity|]. split; [apply kept_refl|]. rewrite Q. auto. }
      destruct T as [xs vs F|xs vs F|xs vs F|xs vs F|d vd F|c fs vs F|c fs vs F|c m y a F|fs vs F]; try (apply Same; reflexivity).
      cbn [as_dict]. destruct (dictequivalence cfg) eqn:Dq; [|cbn [as_dict] in Same; rewrite Dq in Same; apply Same; reflexivity].
      eexists. eexists. split; [reflexivity|]. cbn [fst snd]. split; [apply kept_alloc|]. split.
      + eapply ob_at.
        * unfold mask. destruct (A (List.length h)) eqn:Q; [apply B in Q; lia|]. apply alloc_there.
        * constructor. pose proof (kept_alloc h (HDict (map (fun ky : string * href => (HV (VStr (fst ky)), snd ky)) fs))) as K1. revert K1.
          generalize (h ++ [HDict (map (fun ky : string * href => (HV (VStr (fst ky)), snd ky)) fs)]). intros h1 K1. clear Same E E' O.
          induction F as [|[k y] [k' a] fs vs [Qk Oy] F IH]; cbn [map]; constructor; [|exact IH]. cbn in *. subst k'.
          split; [apply ob_scalar; reflexivity|]. eapply ob_kept; [apply mask_kept; exact K1|exact Oy].
      + intros Fd l1 o1 y1 [= <-] E1 I1. rewrite alloc_there in E1. injection E1 as <-. cbn [parts] in I1. rewrite !map_map in I1. cbn [fst snd] in I1.
        apply in_app_or in I1 as [I1|I1]; apply in_map_iff in I1 as [[k y] [<- J]]; [apply inp_scalar; reflexivity|]. cbn [snd].
        assert (Jy : In y (map snd fs)) by (apply (in_map snd) in J; exact J).
        destruct (tells_parts _ _ _ y (tl_ns _ _ _ F) Jy) as [a Oa]. eapply inp_kept; [exact Oa| |eapply Fd; [reflexivity|exact E'|exact Jy]].
        eapply k_trans; [apply mask_all|]. exact (kept_alloc h _).
  Qed.

  (** ** The handlers *)
  Section Body.
    Variable hcall : handler -> href -> ty -> LM href.
    Variable call : handler -> value -> ty -> M value.
    Hypothesis Hcall : forall A hd x v t s h, (forall f, hd <> HCustom f) -> frame A h -> P s -> ob (mask A (at_ h)) x v ->
      fine A h (cond hd h x v t) (hcall hd x t (s, h)) (call hd v t s).

    Definition new_from (cl : Prop) (h : heap) (x : href) (v : value) (t : ty) : Prop := cl -> distinct_arguments w /\ inp h x /\ good v t.
    Lemma call_sim A h0 hd x v t s h cl : find_handler cfg t = POk hd -> frame A h -> P s -> kept_in h0 h -> ob (mask A (at_ h)) x v ->
      new_from cl h x v t -> fine A h0 cl (hcall hd x t (s, h)) (call hd v t s).
    Proof using Hcall Hstd.
      intros Fd Fr C K O N. apply (fine_imp A h0 h (cond hd h x v t)); [exact K| |apply Hcall; try assumption; eapply not_custom; exact Fd].
      intro c. destruct (N c) as [N1 [N2 N3]]. split; [exact N1|]. split; [exact N2|]. apply good_okh; assumption.
    Qed.
    Lemma load_sim A h0 x v t a s h cl : frame A h -> P s -> kept_in h0 h -> ob (mask A (at_ h)) x v -> new_from cl h x v t ->
      fine A h0 cl (hload_with w cfg hcall x t a (s, h)) (load_with w cfg call v t a s).
    Proof using Hcall Hstd Pcoh Pindex Preg.
      intros Fr C K O N. unfold hload_with, load_with. apply (looks_sim h0 _ A x v); [exact O|].
      eapply sim_bind with (h1 := h) (R := fun y b h' => y = b /\ find_handler cfg t = POk b /\ h' = h); [exact K| |].
      - apply (caches_sim (fun s => match ty_get t (st_index s) with
            | Some h => (Ok h, s)
            | None =>
                match find_handler cfg t with
                | POk h => (Ok h, register w t (set_index (cons (t, h)) s))
                | PExc RValue =>
                    (Exc (XTL KType (MCannotDeal t) [] (Some v) (Some t) []), s)
                | PExc r => (Exc (XRaw r), s)
                end
            end)).
        + destruct (ty_get t (st_index s)); [exact C|]. destruct (find_handler cfg t) as [k|[]] eqn:F; try exact C. apply Preg. apply Pindex; assumption.
        + intro b. destruct (ty_get t (st_index s)) as [k|] eqn:E; [intros [= <-]; apply (coh_index _ _ _ (Pcoh s C)); exact E|].
          destruct (find_handler cfg t) as [k|[]] eqn:F; try discriminate. cbn. intros [= <-]. reflexivity.
      - intros hd hd' s' h' C' K' [-> [Fd ->]]. eapply sim_catch with (h1 := h); [exact K|exact (call_sim A h hd' x v t s' h cl Fd Fr C' (kept_refl h) O N)| |].
        + cbn. intros y b s1 h1 _ K1 [O1 S1]. split; [exact O1|]. intro c. apply (sep_weak L (List.length h)); [apply kept_length; exact K|auto].
        + intros e s1 h1 C1 K1. destruct (is_tl e); (apply sim_raise; [exact C1|eapply kept_trans; eassumption]).
    Qed.

    (** *** Dictionaries *)
    Lemma find_container c hd : easy = false -> find_handler cfg (TClass c) = POk hd -> container c = false.
    Proof using Hstd Gbasic.
      intros Ea F. destruct (container c) eqn:Q; [|reflexivity]. exfalso. destruct (Gbasic c Ea Q) as [B1 B2].
      assert (Cl : class_of w c = no_class) by (destruct c; try discriminate Q; reflexivity).
      apply (std_selected w basic strcons cfg _ _ Hstd) in F. destruct hd; cbn [selected] in F;
        repeat match goal with H : exists _, _ |- _ => destruct H | H : _ /\ _ |- _ => destruct H | H : _ \/ _ |- _ => destruct H end;
        try discriminate; try contradiction;
        repeat match goal with H : TClass _ = TClass _ |- _ => injection H as <- || injection H as -> end;
        rewrite ?Cl in *; try discriminate; try contradiction.
    Qed.
    Lemma basic_handler t hd : find_handler cfg t = POk hd -> basicb cfg t = true -> hd = HBasic \/ hd = HNone.
    Proof using Hstd.
      intros F B. unfold basicb in B. rewrite (proj2 Hstd) in B. rewrite (find_std w basic strcons cfg t Hstd) in F. unfold chain in F.
      destruct (is_nonetype t); [injection F as <-; auto|]. destruct t as [c|? ? ?|?| |?| |? ?|?]; try discriminate B. cbn [is_union] in F. rewrite B in F. injection F as <-. auto.
    Qed.
    Lemma inst_leaf A h x v t : inp h x -> ob (mask A (at_ h)) x v -> basicb cfg t = true -> isinst w v t = true -> leaf L x.
    Proof using Hstd Gbasic.
      intros I O B J. unfold basicb in B. rewrite (proj2 Hstd) in B. destruct t as [c|? ? ?|?| |?| |? ?|?]; try discriminate J. cbn in B, J. apply mem_cid_In in B.
      eapply (leaf_inst h x v c); [exact I|eapply ob_kept; [apply mask_all|exact O]|right; right; exact B|exact J].
    Qed.
    (** an item which is kept or loaded *)
    Lemma kept_sim A h0 x v t hd s h (cl : Prop) : (forall f, hd <> HCustom f) -> frame A h -> P s -> kept_in h0 h -> ob (mask A (at_ h)) x v ->
      fine A h0 (distinct_arguments w /\ inp h x /\ okh hd v t) (if basicb cfg t && isinst w v t then ret x (s, h) else hcall hd x t (s, h))
        (if basicb cfg t && isinst w v t then ret v s else call hd v t s).
    Proof using Hcall Hstd Gbasic.
      intros Nc Fr C K O. destruct (basicb cfg t && isinst w v t) eqn:B.
      - apply andb_true_iff in B as [B1 B2]. apply sim_ret; [exact C|exact K|]. split; [exact O|]. intros [_ [I _]]. apply sep_leaf. exact (inst_leaf A h x v t I O B1 B2).
      - apply (fine_imp A h0 h (cond hd h x v t)); [exact K|exact (fun c => c)|apply Hcall; assumption].
    Qed.

    Lemma mask_step A r h h' : kept_in h h' -> kept (mask (also r A) (at_ h)) (mask (also r A) (at_ h')).
    Proof using. intro K. apply mask_kept. exact K. Qed.
    Definition vfind (kt vt : ty) (kf : handler) (vf : option handler) : Prop :=
      match vf with
      | Some hv => find_handler cfg kt = POk kf /\ find_handler cfg vt = POk hv
      | None => (exists kf0, find_handler cfg kt = POk kf0) /\ find_handler cfg vt = POk kf
      end.
    Lemma fast_sim A h0 (cl : Prop) kt vt kf vf r : frame A h0 -> vfind kt vt kf vf -> (cl -> distinct_arguments w /\ (easy = true \/ (G kt /\ G vt))) ->
      forall d vd acc s h, dinv A h0 cl r h acc -> P s -> inpairs (also r A) cl h d vd ->
      fine A h0 cl (hdict_fast w cfg hcall kt vt kf vf d r (s, h)) (dict_fast w cfg call kt vt kf vf vd acc s).
    Proof using Hcall Hstd Gbasic.
      intros Fr Fd Gd d vd acc s h I C F. revert acc s h I C F. revert vd.
      assert (Nc : forall f, kf <> HCustom f) by (destruct vf; destruct Fd as [Q1 Q2]; eapply not_custom; eassumption).
      assert (Nv : forall hv, vf = Some hv -> forall f, hv <> HCustom f) by (intros hv ->; destruct Fd as [Q1 Q2]; eapply not_custom; eassumption).
      induction d as [|[k x] d IH]; intros vd acc s h I C F; inversion F as [|? [ka xa] ? vd' [[Ok Ik] [Ox Ix]] F']; subst; cbn [hdict_fast dict_fast]; [apply dinv_done; assumption|].
      cbn [fst snd] in Ok, Ik, Ox, Ix. pose proof (proj1 I) as K0. pose proof (dinv_there _ _ _ _ _ _ I) as Lt. pose proof (frame_also A h0 h r Fr K0 (proj1 (proj2 I)) Lt) as Fr1.
      apply (looks_sim h0 _ (also r A) k ka); [exact Ok|].
      eapply sim_bind with (h1 := h) (R := fun y a h' => ob (mask (also r A) (at_ h')) y a /\ ((distinct_arguments w /\ inp h k /\ okh kf ka kt) -> sep L (List.length h) h' [y])); [exact K0| |].
      { pose proof (kept_sim (also r A) h k ka kt kf s h cl Nc Fr1 C (kept_refl h) Ok) as Q. destruct (basicb cfg kt && isinst w ka kt); exact Q. }
      intros k' ka' s1 h1 C1 K1 [Ok' Sk']. pose proof (frame_kept _ _ _ K1 Fr1) as Fr2.
      assert (Ox1 : ob (mask (also r A) (at_ h1)) x xa) by (eapply ob_kept; [apply mask_step; exact K1|exact Ox]).
      assert (Ix1 : cl -> inp h1 x). { intro c. eapply inp_kept; [exact Ox| |apply Ix; exact c]. eapply k_trans; [apply mask_all|exact K1]. }
      apply (looks_sim h0 _ (also r A) x xa); [exact Ox1|].
      (* the key is new *)
      assert (Kn : cl -> (vf = None -> basicb cfg vt = true) -> sep L (List.length h) h1 [k']).
      { intros c Hv. destruct (Gd c) as [Gd1 Gd2]. apply Sk'. split; [exact Gd1|]. split; [apply Ik; exact c|]. destruct Gd2 as [Ea|[Gk Gv]]; [left; exact Ea|].
        destruct vf as [hv|]; [destruct Fd as [Q1 Q2]; right; right; left; auto|]. destruct Fd as [[kf0 Q1] Q2]. specialize (Hv eq_refl).
        destruct (Bool.bool_dec easy true) as [Ea|Ea]; [left; exact Ea|]. apply Bool.not_true_is_false in Ea. right. right. right.
        split; [exact (basic_handler vt kf Q2 Hv)|]. intros c' ->. exact (find_container c' kf0 Ea Q1). }
      eapply sim_bind with (h1 := h1) (R := fun y a h' => ob (mask (also r A) (at_ h')) y a /\ (cl -> sep L (List.length h) h1 [k'] /\ sep L (List.length h1) h' [y])); [eapply kept_trans; eassumption| |].
      { destruct vf as [hv|].
        - pose proof (kept_sim (also r A) h1 x xa vt hv s1 h1 cl (Nv hv eq_refl) Fr2 C1 (kept_refl h1) Ox1) as Q.
          assert (Q' : fine (also r A) h1 cl (if basicb cfg vt && isinst w xa vt then ret x (s1, h1) else hcall hv x vt (s1, h1)) (if basicb cfg vt && isinst w xa vt then ret xa s1 else call hv xa vt s1)).
          { eapply fine_imp; [apply kept_refl| |exact Q]. intro c. destruct (Gd c) as [Gd1 Gd2]. split; [exact Gd1|]. split; [apply Ix1; exact c|].
            destruct Fd as [Q1 Q2]. destruct Gd2 as [Ea|[Gk Gv]]; [left; exact Ea|right; right; left; auto]. }
          assert (Imp : fine (also r A) h1 cl (if basicb cfg vt && isinst w xa vt then ret x (s1, h1) else hcall hv x vt (s1, h1)) (if basicb cfg vt && isinst w xa vt then ret xa s1 else call hv xa vt s1) ->
             sim h1 (fun y a h' => ob (mask (also r A) (at_ h')) y a /\ (cl -> sep L (List.length h) h1 [k'] /\ sep L (List.length h1) h' [y]))
               (if basicb cfg vt && isinst w xa vt then ret x (s1, h1) else hcall hv x vt (s1, h1)) (if basicb cfg vt && isinst w xa vt then ret xa s1 else call hv xa vt s1)).
          { intro H. eapply sim_imp; [apply kept_refl|exact H|]. cbn. intros y a h' _ [O1 S1]. split; [exact O1|]. intro c. split; [apply Kn; [exact c|discriminate]|apply S1; exact c]. }
          apply Imp in Q'. destruct (basicb cfg vt && isinst w xa vt); exact Q'.
        - destruct (basicb cfg vt && isinst w xa vt) eqn:B; [|apply sim_raise; [exact C1|apply kept_refl]].
          apply andb_true_iff in B as [B1 B2]. apply sim_ret; [exact C1|apply kept_refl|]. split; [exact Ox1|]. intro c. split; [apply Kn; auto|].
          apply sep_leaf. exact (inst_leaf (also r A) h1 x xa vt (Ix1 c) Ox1 B1 B2). }
      intros x' xa' s2 h2 C2 K2 [Ox' Sx'].
      assert (Ok2 : ob (mask (also r A) (at_ h2)) k' ka') by (eapply ob_kept; [apply mask_step; exact K2|exact Ok']).
      apply (sim_step h0 _ (hashes w k') _ (hashable w ka') s2 h2 h2); [exact (hashes_ok (also r A) h2 k' ka' s2 Ok2)|].
      destruct (hashable w ka'); [|apply sim_raise; [exact C2|]; eapply kept_trans; [exact K0|]; eapply kept_trans; eassumption].
      destruct (dinv_set A h0 cl r h h2 acc k' x' ka' xa' I (kept_trans _ _ _ K1 K2) Ok2 Ox') as [h3 [E3 [I3 K3]]].
      { intro c. destruct (Sx' c) as [S1 S2]. apply (sep_cons L _ h1); [exact K2|apply kept_length; exact K1|exact S1|exact S2]. }
      apply (sim_step h0 _ (sets r k' x') _ tt s2 h2 h3); [apply E3|]. apply IH; [exact I3|exact C2|].
      eapply inpairs_kept; [exact K3|]. eapply inpairs_kept; [apply mask_step; exact (kept_trans _ _ _ K1 K2)|exact F'].
    Qed.

    Lemma slow_sim A h0 (cl : Prop) kt vt r : frame A h0 -> (cl -> distinct_arguments w /\ (easy = true \/ (G kt /\ G vt))) ->
      forall d vd acc s h, dinv A h0 cl r h acc -> P s -> inpairs (also r A) cl h d vd ->
      fine A h0 cl (hdict_slow w cfg hcall kt vt d r (s, h)) (dict_slow w cfg call kt vt vd acc s).
    Proof using Hcall Hstd Pcoh Pindex Preg.
      intros Fr Gd d. induction d as [|[k x] d IH]; intros vd acc s h I C F; inversion F as [|? [ka xa] ? vd' [[Ok Ik] [Ox Ix]] F']; subst; cbn [hdict_slow dict_slow]; [apply dinv_done; assumption|].
      cbn [fst snd] in Ok, Ik, Ox, Ix. pose proof (proj1 I) as K0. pose proof (dinv_there _ _ _ _ _ _ I) as Lt. pose proof (frame_also A h0 h r Fr K0 (proj1 (proj2 I)) Lt) as Fr1.
      apply (looks_sim h0 _ (also r A) k ka); [exact Ok|].
      eapply sim_bind with (h1 := h) (R := fun y a h' => ob (mask (also r A) (at_ h')) y a /\ (cl -> sep L (List.length h) h' [y])); [exact K0| |].
      { apply load_sim; [exact Fr1|exact C|apply kept_refl|exact Ok|]. intro c. destruct (Gd c) as [Gd1 Gd2]. split; [exact Gd1|]. split; [apply Ik; exact c|].
        destruct Gd2 as [Ea|[Gk Gv]]; [left; exact Ea|right; right; exact Gk]. }
      intros k' ka' s1 h1 C1 K1 [Ok' Sk']. pose proof (frame_kept _ _ _ K1 Fr1) as Fr2.
      assert (Ox1 : ob (mask (also r A) (at_ h1)) x xa) by (eapply ob_kept; [apply mask_step; exact K1|exact Ox]).
      assert (Ix1 : cl -> inp h1 x). { intro c. eapply inp_kept; [exact Ox| |apply Ix; exact c]. eapply k_trans; [apply mask_all|exact K1]. }
      apply (looks_sim h0 _ (also r A) x xa); [exact Ox1|].
      eapply sim_bind with (h1 := h1) (R := fun y a h' => ob (mask (also r A) (at_ h')) y a /\ (cl -> sep L (List.length h1) h' [y])); [eapply kept_trans; eassumption| |].
      { apply load_sim; [exact Fr2|exact C1|apply kept_refl|exact Ox1|]. intro c. destruct (Gd c) as [Gd1 Gd2]. split; [exact Gd1|]. split; [apply Ix1; exact c|].
        destruct Gd2 as [Ea|[Gk Gv]]; [left; exact Ea|right; right; exact Gv]. }
      intros x' xa' s2 h2 C2 K2 [Ox' Sx'].
      assert (Ok2 : ob (mask (also r A) (at_ h2)) k' ka') by (eapply ob_kept; [apply mask_step; exact K2|exact Ok']).
      apply (sim_step h0 _ (hashes w k') _ (hashable w ka') s2 h2 h2); [exact (hashes_ok (also r A) h2 k' ka' s2 Ok2)|].
      destruct (hashable w ka'); [|apply sim_raise; [exact C2|]; eapply kept_trans; [exact K0|]; eapply kept_trans; eassumption].
      destruct (dinv_set A h0 cl r h h2 acc k' x' ka' xa' I (kept_trans _ _ _ K1 K2) Ok2 Ox') as [h3 [E3 [I3 K3]]].
      { intro c. apply (sep_cons L _ h1); [exact K2|apply kept_length; exact K1|apply Sk'; exact c|apply Sx'; exact c]. }
      apply (sim_step h0 _ (sets r k' x') _ tt s2 h2 h3); [apply E3|]. apply IH; [exact I3|exact C2|].
      eapply inpairs_kept; [exact K3|]. eapply inpairs_kept; [apply mask_step; exact (kept_trans _ _ _ K1 K2)|exact F'].
    Qed.

    Lemma comp_args t ts t1 : ty_args t = Some ts -> In t1 ts -> G t -> G t1.
    Proof using Gcomp.
      intros E I Gt. eapply Gcomp; [exact Gt|]. destruct t as [c|n o [ar|]|l| |?| |? ?|?]; try discriminate E; cbn in E; injection E as <-; exact I.
    Qed.
    Definition may (cl : Prop) (h : heap) (x : href) (v : value) (t : ty) : Prop := cl -> distinct_arguments w /\ inp h x /\ good v t.

    Lemma pair_caches_sim kt vt kf0 e s h : find_handler cfg kt = POk kf0 -> P s ->
      sim h (fun y a h' => y = a /\ vfind kt vt (fst a) (snd a) /\ h' = h)
        (caches (fun s => match ty_get vt (st_index s) with
             | Some h => (Ok (kf0, Some h), s)
             | None =>
                 match find_handler cfg vt with
                 | POk h => (Ok (h, None), set_index (cons (vt, h)) s)
                 | PExc RValue => (Exc e, s)
                 | PExc r => (Exc (XRaw r), s)
                 end
             end) (s, h))
        ((fun s => match ty_get vt (st_index s) with
             | Some h => (Ok (kf0, Some h), s)
             | None =>
                 match find_handler cfg vt with
                 | POk h => (Ok (h, None), set_index (cons (vt, h)) s)
                 | PExc RValue => (Exc e, s)
                 | PExc r => (Exc (XRaw r), s)
                 end
             end) s).
    Proof using Pcoh Pindex.
      intros F C. apply (caches_sim (fun s => match ty_get vt (st_index s) with
             | Some h => (Ok (kf0, Some h), s)
             | None =>
                 match find_handler cfg vt with
                 | POk h => (Ok (h, None), set_index (cons (vt, h)) s)
                 | PExc RValue => (Exc e, s)
                 | PExc r => (Exc (XRaw r), s)
                 end
             end) (fun a => vfind kt vt (fst a) (snd a))).
      - destruct (ty_get vt (st_index s)); [exact C|]. destruct (find_handler cfg vt) as [k|[]] eqn:Fv; try exact C. apply Pindex; assumption.
      - intros [kf vf]. cbn [fst snd]. destruct (ty_get vt (st_index s)) as [k|] eqn:E.
        + intros [= <- <-]. split; [exact F|]. apply (coh_index _ _ _ (Pcoh s C)). exact E.
        + destruct (find_handler cfg vt) as [k|[]] eqn:Fv; try discriminate. cbn. intros [= <- <-]. split; [exists kf0; exact F|exact Fv].
    Qed.
    Lemma inpairs_of A (cl : Prop) (h : heap) l d vd : at_ h l = Some (HDict d) -> pairs A h d vd -> (cl -> feed h (HR l)) -> inpairs A cl h d vd.
    Proof using.
      intros E F Fd. refine (F2_in_l _ _ _ _ F _).
      intros [k y] [a b] I _ [O1 O2]. cbn [fst snd] in *. split; (split; [assumption|]); intro c; (eapply Fd; [exact c|reflexivity|exact E|]); cbn [parts]; apply in_or_app.
      - left. apply (in_map fst) in I. exact I.
      - right. apply (in_map snd) in I. exact I.
    Qed.
    Lemma dictload_sim A h x v t s (cl : Prop) : frame A h -> P s -> ob (mask A (at_ h)) x v -> may cl h x v t ->
      fine A h cl (hdictload w cfg hcall x v t (s, h)) (dictload w cfg call v t s).
    Proof using Hcall Hstd Gbasic Gcomp Pcoh Pindex Preg.
      intros Fr C O N. unfold hdictload, dictload. destruct (ty_args t) as [ts|] eqn:Et; [|apply sim_raise; [exact C|apply kept_refl]].
      destruct ts as [|kt [|vt [|? ?]]]; try (apply sim_raise; [exact C|apply kept_refl]).
      eapply sim_bind with (h1 := h); [apply kept_refl|apply lookup_sim; exact C|]. intros kf0 kf0' s1 h1 C1 _ [-> [F1 ->]].
      eapply sim_bind with (h1 := h); [apply kept_refl|exact (pair_caches_sim kt vt _ _ s1 h F1 C1)|]. intros [kf vf] [kf' vf'] s2 h2 C2 _ [[= -> ->] [F2 ->]]. cbn [fst snd] in F2.
      destruct (hasdict_ok A h x v s2 Fr O) as [x' [h1 [Eh [K1 [O1 Fd]]]]].
      apply (sim_step h _ _ _ x' s2 h h1 _ Eh). apply heap_sim.
      assert (Fd' : cl -> feed h1 x'). { intro c. apply Fd. eapply inp_feed; [eapply ob_kept; [apply mask_all|exact O]|apply N; exact c]. }
      pose proof (hitems_ok A h1 x' _ O1) as Hi.
      assert (Gd : forall vd, as_dict cfg v = VDict vd -> cl -> distinct_arguments w /\ (easy = true \/ (G kt /\ G vt))).
      { intros vd Ev c. destruct (N c) as [N1 [_ N3]]. split; [exact N1|]. destruct N3 as [Ea|[Sc|Gt]]; [left; exact Ea| |].
        - exfalso. destruct v; try discriminate Sc; discriminate Ev.
        - right. split; (eapply comp_args; [exact Et| |exact Gt]); [left|right; left]; reflexivity. }
      cbv zeta. destruct (as_dict cfg v) as [|b|z|f|s0|s0|l|l|l|l|vd|d|c d|c d|c m u|c u]; try
        (rewrite Hi; eapply sim_catch with (h1 := h1) (R := fun _ _ _ => False); [exact K1|apply sim_raise; [exact C2|apply kept_refl]|contradiction|];
         intros e s3 h3 C3 K3; eapply sim_catch with (h1 := h1) (R := fun _ _ _ => False); [exact K1|apply sim_raise; [exact C3|exact K3]|contradiction|];
         intros e' s4 h4 C4 K4; destruct e' as [k0 m0 tr vv tt subs|r]; [destruct k0|destruct r]; apply sim_raise; try exact C4; exact (kept_trans _ _ _ K1 K4)).
      destruct Hi as [l [d [-> [El [Hi F]]]]]. rewrite Hi.
      assert (Ip : forall h3, kept_in h1 h3 -> inpairs (also (List.length h3) A) cl (h3 ++ [HDict []]) d vd).
      { intros h3 K3. eapply F2i; [|exact (inpairs_of A cl h1 l d vd El F Fd')].
        assert (Kk : kept (mask A (at_ h1)) (mask (also (List.length h3) A) (at_ (h3 ++ [HDict []])))).
        { apply also_out; [exact (proj1 (proj2 (frame_kept _ _ _ K1 Fr)))|apply kept_length; exact K3|eapply kept_trans; [exact K3|apply kept_alloc]]. }
        assert (Iq : forall y a, inq A cl h1 y a -> inq (also (List.length h3) A) cl (h3 ++ [HDict []]) y a).
        { intros y a [Oy Iy]. split; [eapply ob_kept; eassumption|]. intro c. eapply inp_kept; [exact Oy| |apply Iy; exact c]. eapply k_trans; [exact Kk|apply mask_all]. }
        intros p q [Q1 Q2]. split; apply Iq; assumption. }
      pose proof (frame_kept _ _ _ K1 Fr) as Fr1. apply (fine_imp A h h1 cl cl); [exact K1|exact (fun c => c)|].
      eapply sim_catch with (h1 := h1) (R := fun y a h' => ob (mask A (at_ h')) y a /\ (cl -> sep L (List.length h1) h' [y])); [apply kept_refl| | |].
      - apply (sim_step h1 _ (alloc (HDict [])) _ (List.length h1) s2 h1 (h1 ++ [HDict []])); [reflexivity|].
        apply (fast_sim A h1 cl kt vt kf' vf' (List.length h1) Fr1 F2 (Gd vd eq_refl)); [apply dinv_alloc; apply kept_refl|exact C2|apply Ip; apply kept_refl].
      - auto.
      - intros e s3 h3 C3 K3. eapply sim_catch with (h1 := h1) (R := fun y a h' => ob (mask A (at_ h')) y a /\ (cl -> sep L (List.length h1) h' [y])); [apply kept_refl| | |].
        + apply (sim_step h1 _ (alloc (HDict [])) _ (List.length h3) s3 h3 (h3 ++ [HDict []])); [reflexivity|].
          apply (slow_sim A h1 cl kt vt (List.length h3) Fr1 (Gd vd eq_refl)); [apply dinv_alloc; exact K3|exact C3|apply Ip; exact K3].
        + auto.
        + intros e' s4 h4 C4 K4. destruct e' as [k0 m0 tr vv tt subs|r]; [destruct k0|destruct r]; apply sim_raise; assumption.
    Qed.

    (** *** Collections *)
    Definition obs (A : loc -> bool) (h : heap) : list href -> list value -> Prop := Forall2 (ob (mask A (at_ h))).
    Lemma obs_kept A h h' xs vs : kept_in h h' -> obs A h xs vs -> obs A h' xs vs.
    Proof using. intros K F. eapply F2i; [|exact F]. intros a b O. eapply ob_kept; [apply mask_kept; exact K|exact O]. Qed.
    Lemma hmem_ok A h a acc vacc : obs A h acc vacc -> hmem a h acc = Some (existsb (py_eqb a) vacc).
    Proof using.
      intro F. induction F as [|z b acc vacc O F IH]; [reflexivity|]. cbn [hmem existsb]. rewrite (see_mask A h z b O), IH. destruct (py_eqb a b); reflexivity.
    Qed.
    Definition okl (A : loc -> bool) (h0 : heap) (cl : Prop) (acc : list href) (vacc : list value) (h : heap) : Prop :=
      obs A h acc vacc /\ (cl -> sep L (List.length h0) h acc).
    Lemma okl_kept A h0 (cl : Prop) acc vacc h h' : kept_in h h' -> okl A h0 cl acc vacc h -> okl A h0 cl acc vacc h'.
    Proof using. intros K [O S1]. split; [eapply obs_kept; eassumption|]. intro c. eapply sep_kept; [exact K|apply S1; exact c]. Qed.
    Lemma add_sim A h0 h h' (cl : Prop) k y a acc vacc s : P s -> kept_in h0 h -> kept_in h h' -> okl A h0 cl acc vacc h -> ob (mask A (at_ h')) y a -> (cl -> sep L (List.length h) h' [y]) ->
      sim h (okl A h0 cl) (hcoll_add w k y acc (s, h')) (lift (coll_add w k a vacc) s).
    Proof using.
      intros C K K' [O S1] Oy Sy.
      assert (App : okl A h0 cl (acc ++ [y]) (vacc ++ [a]) h').
      { split; [apply Forall2_app; [eapply obs_kept; eassumption|constructor; [exact Oy|constructor]]|]. intro c.
        apply (sep_app L _ h); [exact K'|apply kept_length; exact K|apply S1; exact c|apply Sy; exact c]. }
      pose proof K' as Kk.
      assert (St : sim h (okl A h0 cl)
         ((b <- hashes w y ;; if b : bool then a <- looks y ;; h <- the_heap ;; i <- budget (hmem a h acc) ;; ret (if i : bool then acc else acc ++ [y]) else raise (XRaw RType)) (s, h'))
         (lift (if hashable w a then POk (set_add a vacc) else PExc RType) s)).
      { apply (sim_step h _ (hashes w y) _ (hashable w a) s h' h'); [exact (hashes_ok A h' y a s Oy)|].
        destruct (hashable w a); [|apply sim_raise; assumption].
        apply (looks_sim h _ A y a); [exact Oy|]. apply heap_sim.
        apply (sim_step h _ _ _ (existsb (py_eqb a) vacc) s h' h'); [rewrite (hmem_ok A h' a acc vacc); [reflexivity|eapply obs_kept; eassumption]|].
        unfold set_add, py_in. destruct (existsb (py_eqb a) vacc).
        - apply sim_ret; [exact C|exact Kk|]. split; [eapply obs_kept; eassumption|]. intro c. eapply sep_kept; [exact K'|apply S1; exact c].
        - apply sim_ret; [exact C|exact Kk|exact App]. }
      destruct k; cbn [hcoll_add coll_add]; try exact St; apply sim_ret; assumption.
    Qed.
    Lemma item_error_sim {T T'} h0 (R : T -> T' -> heap -> Prop) v t i e s h : P s -> kept_in h0 h -> sim h0 R (hitem_error v t i e (s, h)) (item_error v t i e s).
    Proof using. intros C K. destruct e as [k m tr vv tt subs|r]; [|destruct r]; apply sim_raise; assumption. Qed.
    Lemma coll_tells (R : href -> value -> Prop) k xs vs : Forall2 R xs vs -> tells R (hcoll k xs) (mk_coll k vs) /\ parts (hcoll k xs) = xs.
    Proof using. intro F. destruct k; (split; [constructor; exact F|reflexivity]). Qed.
    Definition initem (A : loc -> bool) (cl : Prop) (h : heap) (et : ty) (x : href) (v : value) : Prop := inq A cl h x v /\ (cl -> good v et).
    Lemma initems_kept A (cl : Prop) h h' et xs vs : kept_in h h' -> Forall2 (initem A cl h et) xs vs -> Forall2 (initem A cl h' et) xs vs.
    Proof using. intros K F. eapply F2i; [|exact F]. intros x v [Q1 Q2]. split; [|exact Q2]. eapply inq_kept; [apply mask_kept; exact K|exact Q1]. Qed.
    Lemma iterloop_sim A h0 (cl : Prop) k mp (f : href -> LM href) (g : value -> M value) et v t : frame A h0 ->
      (forall x a s h, frame A h -> P s -> initem A cl h et x a -> fine A h cl (f x (s, h)) (g a s)) ->
      forall l vl i acc vacc s h, P s -> kept_in h0 h -> Forall2 (initem A cl h et) l vl -> okl A h0 cl acc vacc h ->
      fine A h0 cl (hiter_loop w k mp f v t l i acc (s, h)) (iter_loop w k mp g v t vl i vacc s).
    Proof using.
      intros Fr Hf l. induction l as [|x l IH]; intros vl i acc vacc s h C K F I; inversion F as [|? a ? vl' Ix F']; subst; cbn [hiter_loop iter_loop].
      - destruct I as [O S1]. destruct (coll_tells _ k acc vacc O) as [T Pt]. apply place_sim; [exact (frame_kept _ _ _ K Fr)|exact C|exact K|exact T|]. rewrite Pt. exact S1.
      - eapply sim_bind with (h1 := h) (R := either (okl A h0 cl)); [exact K|apply sim_attempt|].
        + eapply sim_bind with (h1 := h); [apply kept_refl|apply Hf; [exact (frame_kept _ _ _ K Fr)|exact C|exact Ix]|].
          cbn. intros y b s1 h1 C1 K1 [Oy Sy]. exact (add_sim A h0 h h1 cl k y b acc vacc s1 C1 K K1 I Oy Sy).
        + intros [ys|e] [zs|e'] s1 h1 C1 K1 Q; cbn in Q; try contradiction.
          * apply IH; [exact C1|eapply kept_trans; eassumption|eapply initems_kept; eassumption|exact Q].
          * subst e'. destruct (stops mp e).
            -- destruct (okl_kept _ _ _ _ _ _ _ K1 I) as [O S1]. destruct (coll_tells _ k acc vacc O) as [T Pt]. apply place_sim; [exact (frame_kept _ _ _ (kept_trans _ _ _ K K1) Fr)|exact C1|eapply kept_trans; eassumption|exact T|]. rewrite Pt. exact S1.
            -- apply item_error_sim; [exact C1|eapply kept_trans; eassumption].
    Qed.

    Lemma fine_same A h0 (cl : Prop) (b : bool) x a (m : LM href) (m' : M value) s h :
      (b = true -> P s /\ kept_in h0 h /\ ob (mask A (at_ h)) x a /\ (cl -> leaf L x)) -> (b = false -> fine A h0 cl (m (s, h)) (m' s)) ->
      fine A h0 cl ((if b then ret x else m) (s, h)) ((if b then ret a else m') s).
    Proof using.
      intros Q1 Q2. destruct b; [|apply Q2; reflexivity]. destruct (Q1 eq_refl) as [C [K [O Lf]]]. apply sim_ret; [exact C|exact K|]. split; [exact O|]. intro c. apply sep_leaf. apply Lf. exact c.
    Qed.
    Lemma iteritem_sim A (cl : Prop) hd et x a s h : find_handler cfg et = POk hd -> (cl -> distinct_arguments w) -> frame A h -> P s -> initem A cl h et x a ->
      fine A h cl (hiter_item w cfg hcall hd et x (s, h)) (iter_item w cfg call hd et a s).
    Proof using Hcall Hstd Gbasic.
      intros F D Fr C [[O I] Gd]. unfold hiter_item, iter_item. apply (looks_sim h _ A x a); [exact O|].
      assert (Go : fine A h cl (hcall hd x et (s, h)) (call hd a et s)).
      { apply call_sim; try assumption; [apply kept_refl|]. intro c. auto. }
      destruct (basicb cfg et) eqn:B.
      - apply (fine_same A h cl (isinst w a et) x a (hcall hd x et) (call hd a et)); [|intros _; exact Go].
        intro J. split; [exact C|]. split; [apply kept_refl|]. split; [exact O|]. intro c. exact (inst_leaf A h x a et (I c) O B J).
      - destruct et as [c|n [| | | | | | | |?] [us|]|l| |?| |? ?|?]; try exact Go.
        apply (fine_same A h cl (forallb (basicb cfg) us && mem_ty (TClass (type_of a)) us) x a (hcall hd x _) (call hd a _)); [|intros _; exact Go].
        intro J. apply andb_true_iff in J as [J1 J2]. split; [exact C|]. split; [apply kept_refl|]. split; [exact O|]. intro c.
        apply mem_ty_In in J2. rewrite forallb_forall in J1. apply J1 in J2. eapply (inst_leaf A h x a _ (I c) O J2). apply isinstance_self.
    Qed.
    Lemma hiter_ok A h x v : ob (mask A (at_ h)) x v ->
      match iter v with
      | Some vl => exists l, hiter h x = Some l /\ obs A h l vl /\ (forall y, In y l -> (exists a, y = HV a /\ scalar a = true) \/ exists p o, x = HR p /\ at_ h p = Some o /\ In y (parts o))
      | None => hiter h x = None
      end.
    Proof using.
      intro O. destruct x as [a|l].
      - apply ob_HV in O as [-> Sc]. cbn [hiter]. destruct (iter a) as [vl|] eqn:E; [|reflexivity]. exists (map HV vl). split; [reflexivity|].
        assert (Ss : forall y, In y vl -> scalar y = true) by (intros y; exact (iter_scalar a vl y E Sc)). split.
        + clear E. induction vl as [|y vl IH]; cbn; constructor; [apply ob_scalar; apply Ss; left; reflexivity|]. apply IH. intros z J. apply Ss. right. exact J.
        + intros y I. apply in_map_iff in I as [b [<- I]]. left. exists b. auto.
      - apply ob_inv in O as [o [E T]]. assert (E' : at_ h l = Some o) by (apply (mask_all A); exact E). cbn [hiter].
        destruct T as [xs vs F|xs vs F|xs vs F|xs vs F|d vd F|c fs vs F|c fs vs F|c m y a F|fs vs F]; cbn [iter]; rewrite E'; try reflexivity;
          (eexists; split; [reflexivity|]; split; [|intros y I; right; eexists; eexists; split; [reflexivity|]; split; [exact E'|]; cbn [parts]]); try exact F; try exact I.
        + clear E E'. induction F as [|p q d vd [Q1 Q2] F IH]; constructor; assumption.
        + apply in_or_app. left. exact I.
        + clear E E'. induction F as [|p q d vd [Q1 Q2] F IH]; constructor; assumption.
    Qed.
    Lemma inqs_of A (cl : Prop) h x v l vl : ob (mask A (at_ h)) x v -> iter v = Some vl -> hiter h x = Some l -> (cl -> inp h x) -> Forall2 (inq A cl h) l vl.
    Proof using.
      intros O Ei Eh I. pose proof (hiter_ok A h x v O) as Q. rewrite Ei in Q. destruct Q as [l' [E' [F Pt]]]. rewrite Eh in E'. injection E' as <-.
      apply (F2_in_l _ _ _ _ F). intros y a J Ja Oy. split; [exact Oy|].
      intro c. destruct (Pt y J) as [[b [-> Sb]]|[p [o [-> [Eo Jo]]]]]; [apply inp_scalar; exact Sb|].
      eapply inp_part; [eapply ob_kept; [apply mask_all|exact O]|exact Eo|exact Jo|apply I; exact c].
    Qed.
    Lemma initems_of A (cl : Prop) h x v l vl (et : ty) : ob (mask A (at_ h)) x v -> iter v = Some vl -> hiter h x = Some l -> (cl -> inp h x) -> (cl -> easy = true \/ scalar v = true \/ G et) ->
      Forall2 (initem A cl h et) l vl.
    Proof using.
      intros O Ei Eh I Gd. apply (F2_in_l _ _ _ _ (inqs_of A cl h x v l vl O Ei Eh I)). intros y a J Ja Q. split; [exact Q|].
      intro c. destruct (Gd c) as [Ea|[Sv|Ge]]; [left; exact Ea|right; left; exact (iter_scalar v vl a Ei Sv Ja)|right; right; exact Ge].
    Qed.
    Lemma iterload_sim A h k x v t s (cl : Prop) : frame A h -> P s -> ob (mask A (at_ h)) x v -> may cl h x v t ->
      fine A h cl (hiterload w cfg hcall k x v t (s, h)) (iterload w cfg call k v t s).
    Proof using Hcall Hstd Gbasic Gcomp Pcoh Pindex.
      intros Fr C O N.
      assert (Go : fine A h cl
        ((match ty_args t with
        | None => raise (XRaw RAttr)
        | Some [] => raise (XRaw RIndex)
        | Some (et :: _) =>
            hd <- caches (lookup_handler cfg (XTL KType (MCannotDeal et) [] (Some v) (Some et) []) et) ;;
            h <- the_heap ;;
            match hiter h x with
            | None => raise (XTL KType (MPy RType) [] (Some v) (Some t) [])
            | Some l => hiter_loop w k (mapped cfg et) (hiter_item w cfg hcall hd et) v t l 0 []
            end
        end) (s, h))
        ((match ty_args t with
        | None => raise (XRaw RAttr)
        | Some [] => raise (XRaw RIndex)
        | Some (et :: _) =>
            h <- lookup_handler cfg (XTL KType (MCannotDeal et) [] (Some v) (Some et) []) et ;;
            match iter v with
            | None => raise (XTL KType (MPy RType) [] (Some v) (Some t) [])
            | Some l => iter_loop w k (mapped cfg et) (iter_item w cfg call h et) v t l 0 []
            end
        end) s)).
      { destruct (ty_args t) as [[|et ts]|] eqn:Et; try (apply sim_raise; [exact C|apply kept_refl]).
        eapply sim_bind with (h1 := h); [apply kept_refl|apply lookup_sim; exact C|]. intros hd hd' s1 h1 C1 _ [-> [F1 ->]]. apply heap_sim.
        pose proof (hiter_ok A h x v O) as Hi. destruct (iter v) as [vl|] eqn:Ei; [|rewrite Hi; apply sim_raise; [exact C1|apply kept_refl]].
        destruct Hi as [l [E1 [F _]]]. rewrite E1.
        apply (iterloop_sim A h cl k _ _ _ et v t Fr); [|exact C1|apply kept_refl| |split; [constructor|intros _; apply sep_nil]].
        - intros y a s2 h2 Fr2 C2 I2. apply iteritem_sim; try assumption. intro c. apply N. exact c.
        - apply (initems_of A cl h x v l vl et O Ei E1); [intro c; apply N; exact c|]. intro c. destruct (N c) as [_ [_ N3]].
          destruct N3 as [Ea|[Sc|Gt]]; [left; exact Ea|right; left; exact Sc|right; right]. eapply comp_args; [exact Et|left; reflexivity|exact Gt]. }
      unfold hiterload, iterload. destruct v; try exact Go. apply sim_raise; [exact C|apply kept_refl].
    Qed.

    Lemma index_sim et s h : P s -> sim h (fun y a h' => y = a /\ find_handler cfg et = POk a /\ h' = h)
      (caches (fun s => match ty_get et (st_index s) with Some h => (Ok h, s) | None => lift (find_handler cfg et) s end) (s, h))
      ((fun s => match ty_get et (st_index s) with Some h => (Ok h, s) | None => lift (find_handler cfg et) s end) s).
    Proof using Pcoh.
      intro C. apply (caches_sim (fun s => match ty_get et (st_index s) with Some h => (Ok h, s) | None => lift (find_handler cfg et) s end) (fun a => find_handler cfg et = POk a)).
      - destruct (ty_get et (st_index s)); [exact C|]. destruct (find_handler cfg et); exact C.
      - intro a. destruct (ty_get et (st_index s)) as [k|] eqn:E; [intros [= <-]; apply (coh_index _ _ _ (Pcoh s C)); exact E|].
        destruct (find_handler cfg et) as [k|r]; [|discriminate]. cbn. intros [= <-]. reflexivity.
    Qed.
    Lemma exact_leaf A h x v t : inp h x -> ob (mask A (at_ h)) x v -> basicb cfg t = true -> exact v t = true -> leaf L x.
    Proof using Hstd Gbasic.
      intros I O B J. apply (inst_leaf A h x v t I O B). unfold exact in J. apply ty_eqb_eq in J. subst t. apply isinstance_self.
    Qed.
    Lemma tupleloop_sim A h0 (cl : Prop) v t : frame A h0 -> (cl -> distinct_arguments w) ->
      forall ts l vl i acc vacc s h, P s -> kept_in h0 h -> Forall2 (inq A cl h) l vl -> (cl -> forall a et, In a vl -> In et ts -> good a et) -> okl A h0 cl acc vacc h ->
      fine A h0 cl (htuple_loop cfg hcall v t l ts i acc (s, h)) (tuple_loop cfg call v t vl ts i vacc s).
    Proof using Hcall Hstd Gbasic Pcoh.
      intros Fr D ts. induction ts as [|et ts IH]; intros l vl i acc vacc s h C K F Gd I; cbn [htuple_loop tuple_loop].
      - destruct F; (apply place_sim; [exact (frame_kept _ _ _ K Fr)|exact C|exact K|constructor; apply I|apply I]).
      - inversion F as [|x a l' vl' Ix F' Q1 Q2]; subst.
        + apply place_sim; [exact (frame_kept _ _ _ K Fr)|exact C|exact K|constructor; apply I|apply I].
        + destruct Ix as [Ox Ix]. eapply sim_bind with (h1 := h) (R := either (fun y a h' => ob (mask A (at_ h')) y a /\ (cl -> sep L (List.length h) h' [y]))); [exact K|apply sim_attempt|].
          * eapply sim_bind with (h1 := h); [apply kept_refl|exact (index_sim et s h C)|]. intros hd hd' s1 h1 C1 _ [-> [F1 ->]].
            apply (looks_sim h _ A x a); [exact Ox|].
            apply (fine_same A h cl (basicb cfg et && exact a et) x a (hcall hd' x et) (call hd' a et)).
            -- intro J. apply andb_true_iff in J as [J1 J2]. split; [exact C1|]. split; [apply kept_refl|]. split; [exact Ox|]. intro c. exact (exact_leaf A h x a et (Ix c) Ox J1 J2).
            -- intros _. apply call_sim; try assumption; [exact (frame_kept _ _ _ K Fr)|apply kept_refl|]. intro c. split; [apply D; exact c|]. split; [apply Ix; exact c|]. apply Gd; [exact c|left; reflexivity|left; reflexivity].
          * intros [y|e] [b|e'] s1 h1 C1 K1 Q; cbn in Q; try contradiction.
            -- destruct Q as [Oy Sy]. apply IH; [exact C1|eapply kept_trans; eassumption| | |].
               ++ eapply F2i; [|exact F']. intros z zb. apply inq_kept. apply mask_kept. exact K1.
               ++ intros c z zt Z1 Z2. apply Gd; [exact c|right; exact Z1|right; exact Z2].
               ++ destruct I as [O S1]. split; [apply Forall2_app; [eapply obs_kept; eassumption|constructor; [exact Oy|constructor]]|]. intro c.
                  apply (sep_app L _ h); [exact K1|apply kept_length; exact K|apply S1; exact c|apply Sy; exact c].
            -- subst e'. apply item_error_sim; [exact C1|eapply kept_trans; eassumption].
    Qed.
    Lemma tupleload_sim A h x v t s (cl : Prop) : frame A h -> P s -> ob (mask A (at_ h)) x v -> may cl h x v t ->
      fine A h cl (htupleload w cfg hcall x v t (s, h)) (tupleload w cfg call v t s).
    Proof using Hcall Hstd Gbasic Gcomp Pcoh Pindex.
      intros Fr C O N.
      assert (Go : forall ts, ty_args t = Some ts -> fine A h cl
        ((match v with
        | VDict _ => raise (XTL KType MDictTuple [] (Some v) (Some t) [])
        | _ =>
            h <- the_heap ;;
            match hiter h x with
            | None => raise (XRaw RType)
            | Some l =>
                if failonextra cfg && Nat.ltb (List.length ts) (List.length l)
                then raise (XTL KValue (MTooLong t) [] (Some v) (Some t) [])
                else if Nat.ltb (List.length l) (List.length ts)
                then raise (XTL KValue (MTooShort t) [] (Some v) (Some t) [])
                else htuple_loop cfg hcall v t l ts 0 []
            end
        end) (s, h))
        ((match v with
        | VDict _ => raise (XTL KType MDictTuple [] (Some v) (Some t) [])
        | _ =>
            match iter v with
            | None => raise (XRaw RType)
            | Some l =>
                if failonextra cfg && Nat.ltb (List.length ts) (List.length l)
                then raise (XTL KValue (MTooLong t) [] (Some v) (Some t) [])
                else if Nat.ltb (List.length l) (List.length ts)
                then raise (XTL KValue (MTooShort t) [] (Some v) (Some t) [])
                else tuple_loop cfg call v t l ts 0 []
            end
        end) s)).
      { intros ts Et.
        assert (Go : fine A h cl
          ((h <- the_heap ;;
            match hiter h x with
            | None => raise (XRaw RType)
            | Some l =>
                if failonextra cfg && Nat.ltb (List.length ts) (List.length l)
                then raise (XTL KValue (MTooLong t) [] (Some v) (Some t) [])
                else if Nat.ltb (List.length l) (List.length ts)
                then raise (XTL KValue (MTooShort t) [] (Some v) (Some t) [])
                else htuple_loop cfg hcall v t l ts 0 []
            end) (s, h))
          ((match iter v with
            | None => raise (XRaw RType)
            | Some l =>
                if failonextra cfg && Nat.ltb (List.length ts) (List.length l)
                then raise (XTL KValue (MTooLong t) [] (Some v) (Some t) [])
                else if Nat.ltb (List.length l) (List.length ts)
                then raise (XTL KValue (MTooShort t) [] (Some v) (Some t) [])
                else tuple_loop cfg call v t l ts 0 []
            end) s)).
        { apply heap_sim. pose proof (hiter_ok A h x v O) as Hi. destruct (iter v) as [vl|] eqn:Ei; [|rewrite Hi; apply sim_raise; [exact C|apply kept_refl]].
          destruct Hi as [l [E1 [F _]]]. rewrite E1. rewrite (F2_size _ _ _ F).
          destruct (failonextra cfg && _); [apply sim_raise; [exact C|apply kept_refl]|].
          destruct (Nat.ltb _ _); [apply sim_raise; [exact C|apply kept_refl]|].
          apply (tupleloop_sim A h cl v t Fr); [intro c; apply N; exact c|exact C|apply kept_refl| | |split; [constructor|intros _; apply sep_nil]].
          - exact (inqs_of A cl h x v l vl O Ei E1 (fun c => proj1 (proj2 (N c)))).
          - intros c a et Ia It. destruct (N c) as [_ [_ N3]]. destruct N3 as [Ea|[Sc|Gt]]; [left; exact Ea|right; left|right; right].
            + exact (iter_scalar v vl a Ei Sc Ia).
            + eapply comp_args; eassumption. }
        destruct v; try exact Go. apply sim_raise; [exact C|apply kept_refl]. }
      unfold htupleload, tupleload. destruct (ty_args t) as [ts|] eqn:Et; [|apply sim_raise; [exact C|apply kept_refl]].
      destruct ts as [|t1 [|[] [|? ?]]]; try (apply Go; reflexivity). apply iterload_sim; assumption.
    Qed.

    (** *** Objects *)
    Definition minv (A : loc -> bool) (h0 : heap) (cl : Prop) (r : loc) (h : heap) (acc : list (value * value)) : Prop :=
      kept_in h0 h /\ List.length h0 <= r /\
      exists d, at_ h r = Some (HDict d) /\ pairs (also r A) h d acc /\ (cl -> forall y, In y (map fst d ++ map snd d) -> inp h y).
    Lemma minv_set A h0 (cl : Prop) r h acc k y a b : minv A h0 cl r h acc -> inq (also r A) cl h k a -> inq (also r A) cl h y b ->
      exists h2, (forall s : lstate, sets r k y (s, h) = (Ok tt, (s, h2))) /\ minv A h0 cl r h2 (dict_set a b acc) /\
        kept (mask (also r A) (at_ h)) (mask (also r A) (at_ h2)).
    Proof using.
      intros [K0 [Le [d [E [F C]]]]] [Ok Ik] [Oy Iy].
      destruct (dict_set_ok (also r A) h k y a b d acc Ok Oy F) as [d' [E' [F' [rest Pm]]]].
      assert (Km : kept (mask (also r A) (at_ h)) (mask (also r A) (at_ (put h r (HDict d'))))) by apply mask_put.
      exists (put h r (HDict d')). split; [|split].
      - intro s. unfold sets. rewrite (bind_ok the_heap _ h (s, h) (s, h) eq_refl). rewrite E. unfold bind, budget. rewrite E'. reflexivity.
      - split; [apply kept_put; assumption|]. split; [exact Le|]. exists d'. split; [apply put_same; apply nth_error_Some; congruence|].
        split; [eapply pairs_kept; [apply mask_put|exact F']|]. intros c z J.
        assert (Jz : In z (k :: y :: map fst d ++ map snd d)). { eapply Permutation_in; [apply Permutation_sym; exact Pm|]. apply in_or_app. left. exact J. }
        assert (Oz : exists u, ob (mask (also r A) (at_ h)) z u).
        { destruct Jz as [<-|[<-|Jz]]; [exists a; exact Ok|exists b; exact Oy|]. apply (tells_parts _ (HDict d) (VDict acc)); [constructor; exact F|exact Jz]. }
        destruct Oz as [u Oz]. eapply inp_kept; [exact Oz|eapply k_trans; [exact Km|apply mask_all]|].
        destruct Jz as [<-|[<-|Jz]]; [apply Ik; exact c|apply Iy; exact c|apply (C c); exact Jz].
      - exact Km.
    Qed.
    Lemma mangleloop_sim A h0 (cl : Prop) names skip r : forall d vd acc s h, minv A h0 cl r h acc -> P s -> inpairs (also r A) cl h d vd ->
      sim h0 (fun o o' h' => match o, o' with inl _, inl acc' => minv A h0 cl r h' acc' | inr k, inr k' => k = k' | _, _ => False end)
        (hmangle_loop cfg names skip d r (s, h)) (ret (mangle_loop cfg names skip vd acc) s).
    Proof using.
      intro d. induction d as [|[k x] d IH]; intros vd acc s h I C F; inversion F as [|? [ka xa] ? vd' [Ik Ix] F']; subst; cbn [hmangle_loop mangle_loop].
      - apply sim_ret; [exact C|apply I|exact I].
      - cbn [fst snd] in Ik, Ix. apply (looks_sim h0 _ (also r A) k ka); [apply Ik|].
        assert (Set1 : forall k0 ka0, inq (also r A) cl h k0 ka0 -> sim h0 (fun o o' h' => match o, o' with inl _, inl acc' => minv A h0 cl r h' acc' | inr k, inr k' => k = k' | _, _ => False end)
            ((_ <- sets r k0 x ;; hmangle_loop cfg names skip d r) (s, h)) (ret (mangle_loop cfg names skip vd' (dict_set ka0 xa acc)) s)).
        { intros k0 ka0 I0. destruct (minv_set A h0 cl r h acc k0 x ka0 xa I I0 Ix) as [h3 [E3 [I3 K3]]].
          apply (sim_step h0 _ (sets r k0 x) _ tt s h h3); [apply E3|]. apply IH; [exact I3|exact C|eapply inpairs_kept; eassumption]. }
        destruct ka; try (apply Set1; exact Ik).
        destruct (str_get s0 names) as [s'|]; [apply Set1; split; [apply ob_scalar; reflexivity|intros _; apply inp_scalar; reflexivity]|].
        destruct (mem_str s0 skip); [|apply Set1; exact Ik].
        destruct (failonextra cfg); [apply sim_ret; [exact C|apply I|reflexivity]|]. apply IH; assumption.
    Qed.
    Definition source (A : loc -> bool) (cl : Prop) (x : href) (v : value) (h : heap) : Prop := ob (mask A (at_ h)) x v /\ (cl -> feed h x).
    Lemma inpairs_after A (cl : Prop) h1 h3 l d vd : below A h1 -> at_ h1 l = Some (HDict d) -> pairs A h1 d vd -> (cl -> feed h1 (HR l)) -> kept_in h1 h3 ->
      inpairs (also (List.length h3) A) cl (h3 ++ [HDict []]) d vd.
    Proof using.
      intros B El F Fd' K3. eapply F2i; [|exact (inpairs_of A cl h1 l d vd El F Fd')].
      assert (Kk : kept (mask A (at_ h1)) (mask (also (List.length h3) A) (at_ (h3 ++ [HDict []])))).
      { apply also_out; [exact B|apply kept_length; exact K3|eapply kept_trans; [exact K3|apply kept_alloc]]. }
      assert (Iq : forall y a, inq A cl h1 y a -> inq (also (List.length h3) A) cl (h3 ++ [HDict []]) y a).
      { intros y a [Oy Iy]. split; [eapply ob_kept; eassumption|]. intro c. eapply inp_kept; [exact Oy| |apply Iy; exact c]. eapply k_trans; [exact Kk|apply mask_all]. }
      intros p q [Q1 Q2]. split; apply Iq; assumption.
    Qed.
    Lemma mangle_sim A h (cl : Prop) names x v t s : frame A h -> P s -> ob (mask A (at_ h)) x v -> (cl -> inp h x) ->
      sim h (fun y a h' => source A cl y a h' /\ (scalar a = scalar v)) (hmangle cfg names x v t (s, h)) (mangle cfg names v t s).
    Proof using.
      intros Fr C O I. unfold hmangle, mangle.
      assert (Fd : cl -> feed h x). { intro c. eapply inp_feed; [eapply ob_kept; [apply mask_all|exact O]|apply I; exact c]. }
      destruct names as [|n0 names0] eqn:En; [apply sim_ret; [exact C|apply kept_refl|split; [split; assumption|reflexivity]]|]. rewrite <- En.
      apply heap_sim. pose proof (hitems_ok A h x v O) as Hi.
      destruct v as [|b|z|f|s0|s0|l|l|l|l|vd|d|c d|c d|c m u|c u]; try (rewrite Hi; apply sim_raise; [exact C|apply kept_refl]).
      destruct Hi as [l [d [-> [El [Hi F]]]]]. rewrite Hi.
      apply (sim_step h _ (alloc (HDict [])) _ (List.length h) s h (h ++ [HDict []])); [reflexivity|].
      assert (I0 : minv A h cl (List.length h) (h ++ [HDict []]) []).
      { split; [apply kept_alloc|]. split; [lia|]. exists []. split; [apply alloc_there|]. split; [constructor|]. intros _ y []. }
      pose proof (mangleloop_sim A h cl names (map snd names) (List.length h) d vd [] s _ I0 C (inpairs_after A cl h h l d vd (proj1 (proj2 Fr)) El F Fd (kept_refl h))) as [E1 [E2 [E3 E4]]].
      unfold bind. match type of E1 with fst (snd ?T) = _ => destruct T as [[o|e|] [s1 h1]] end; cbn [fst snd ret] in *; try contradiction.
      subst s1. destruct o as [u|k]; destruct (mangle_loop cfg names (map snd names) vd []) as [acc|k']; try contradiction.
      - destruct E4 as [K [Le [d' [Ed [Fp Cp]]]]]. apply sim_ret; [exact C|exact E3|]. split; [split|reflexivity].
        + apply ob_at with (o := HDict d'); [unfold mask; rewrite (not_in A h (List.length h) (proj1 (proj2 Fr)) (le_n _)); exact Ed|].
          constructor. eapply F2i; [|exact Fp]. intros p q [Q1 Q2]. split; (eapply ob_kept; [apply also_less|eassumption]).
        + intros c l' o' y [= <-] Eo J. rewrite Ed in Eo. injection Eo as <-. exact (Cp c y J).
      - subst k'. apply sim_raise; [exact C|exact E3].
    Qed.

    Definition names_to (ps : list (string * href)) : list (href * href) := map (fun ky => (HV (VStr (fst ky)), snd ky)) ps.
    Definition finv (A : loc -> bool) (h0 : heap) (cl : Prop) (r : loc) (h : heap) (acc : list (string * value)) : Prop :=
      kept_in h0 h /\ List.length h0 <= r /\
      exists ps, at_ h r = Some (HDict (names_to ps)) /\ obf (also r A) h ps acc /\ (cl -> sep L (S r) h (map snd ps)).
    Lemma keywords ps : flat_map keyword (names_to ps) = ps.
    Proof using. unfold names_to. induction ps as [|[k y] ps IH]; [reflexivity|]. cbn. rewrite IH. reflexivity. Qed.
    Lemma fieldsloop_sim A h0 (cl : Prop) fields hints v t r : frame A h0 ->
      (cl -> distinct_arguments w /\ forall k ft, str_get k hints = Some ft -> easy = true \/ G ft) ->
      forall d vd acc s h, finv A h0 cl r h acc -> P s -> inpairs (also r A) cl h d vd ->
      sim h0 (fun _ acc' h' => finv A h0 cl r h' acc') (hfields_loop cfg hcall fields hints v t d r (s, h)) (fields_loop cfg call fields hints v t vd acc s).
    Proof using Hcall Hstd Pcoh Pindex.
      intros Fr D d. induction d as [|[k x] d IH]; intros vd acc s h I C F; inversion F as [|? [ka xa] ? vd' [Ik Ix] F']; subst; cbn [hfields_loop fields_loop].
      - apply sim_ret; [exact C|apply I|exact I].
      - cbn [fst snd] in Ik, Ix. apply (looks_sim h0 _ (also r A) k ka); [apply Ik|].
        destruct ka; try (apply IH; assumption). destruct (mem_str s0 fields); [|apply IH; assumption].
        destruct I as [K0 [Le [ps [E [O S1]]]]]. assert (Lt : r < List.length h) by (apply nth_error_Some; congruence).
        pose proof (frame_also A h0 h r Fr K0 Le Lt) as Fr1.
        destruct (str_get s0 hints) as [ft|] eqn:Eh; [|apply sim_raise; assumption].
        eapply sim_bind with (h1 := h); [exact K0|apply lookup_sim; exact C|]. intros hd hd' s1 h1 C1 _ [-> [F1 ->]].
        eapply sim_bind with (h1 := h) (R := fun y a h' => ob (mask (also r A) (at_ h')) y a /\ (cl -> sep L (List.length h) h' [y])); [exact K0| |].
        + eapply sim_catch with (h1 := h); [apply kept_refl| | |].
          * apply (call_sim (also r A) h hd' x xa ft s1 h cl F1 Fr1 C1 (kept_refl h)); [apply Ix|]. intro c. destruct (D c) as [D1 D2]. split; [exact D1|]. split; [apply Ix; exact c|].
            destruct (D2 _ _ Eh) as [Ea|Ge]; [left; exact Ea|right; right; exact Ge].
          * auto.
          * intros e s2 h2 C2 K2. apply sim_raise; assumption.
        + intros y a s2 h2 C2 K2 [Oy Sy].
          assert (E2 : at_ h2 r = Some (HDict (names_to ps))) by (apply K2; exact E).
          apply (sim_step h0 _ (adds r (HV (VStr s0)) y) _ tt s2 h2 (put h2 r (HDict (names_to (ps ++ [(s0, y)]))))).
          { unfold adds. rewrite (bind_ok the_heap _ h2 (s2, h2) (s2, h2) eq_refl). rewrite E2. unfold names_to. rewrite map_app. reflexivity. }
          assert (Km : kept (mask (also r A) (at_ h2)) (mask (also r A) (at_ (put h2 r (HDict (names_to (ps ++ [(s0, y)]))))))) by apply mask_put.
          apply IH; [|exact C2|eapply inpairs_kept; [exact Km|eapply inpairs_kept; [apply mask_step; exact K2|exact F']]].
          split; [apply kept_put; [eapply kept_trans; eassumption|exact Le]|]. split; [exact Le|]. exists (ps ++ [(s0, y)]).
          split; [apply put_same; apply nth_error_Some; congruence|]. split.
          * apply Forall2_app; [|constructor; [split; [reflexivity|eapply ob_kept; [exact Km|exact Oy]]|constructor]].
            eapply F2i; [|exact O]. intros p q [Q1 Q2]. split; [exact Q1|]. eapply ob_kept; [eapply k_trans; [apply mask_step; exact K2|exact Km]|exact Q2].
          * intro c. apply sep_put; [lia|]. rewrite map_app. apply (sep_app L _ h); [exact K2|lia|apply S1; exact c|apply Sy; exact c].
    Qed.
    Lemma objloader_sim A h x v t fields necessary hints s (cl : Prop) : frame A h -> P s -> source A cl x v h ->
      (cl -> distinct_arguments w /\ (easy = true \/ scalar v = true \/ forall k ft, str_get k hints = Some ft -> G ft)) ->
      fine A h cl (hobjloader w cfg ev hcall fields necessary hints x v t (s, h)) (objloader w cfg call fields necessary hints v t s).
    Proof using Hcall Hstd Pcoh Pindex Hobj Hcls.
      intros Fr C [O Fd] D. unfold hobjloader, objloader.
      destruct (hasdict_ok A h x v s Fr O) as [x' [h1 [Eh [K1 [O1 Fd1]]]]].
      apply (sim_step h _ _ _ x' s h h1 _ Eh). apply heap_sim. pose proof (hitems_ok A h1 x' _ O1) as Hi.
      assert (Ns : forall vd, as_dict cfg v = VDict vd -> scalar v = false) by (intros vd; destruct v; try discriminate; reflexivity).
      destruct (as_dict cfg v) as [|b|z|f|s0|s0|l|l|l|l|vd|d|c d|c d|c m u|c u]; try (apply sim_raise; [exact C|exact K1]).
      destruct Hi as [l [d [-> [El [Hi F]]]]]. rewrite Hi. cbv zeta.
      destruct (filter (fun s1 => negb (has_key vd s1)) necessary); [|apply sim_raise; [exact C|exact K1]].
      destruct (failonextra cfg && _); [destruct (all_str _); apply sim_raise; [exact C|exact K1|exact C|exact K1]|].
      apply (sim_step h _ (alloc (HDict [])) _ (List.length h1) s h1 (h1 ++ [HDict []])); [reflexivity|].
      pose proof (frame_kept _ _ _ K1 Fr) as Fr1.
      apply (fine_imp A h h1 cl cl); [exact K1|exact (fun c => c)|].
      eapply sim_bind with (h1 := h1) (R := fun _ acc' h' => finv A h1 cl (List.length h1) h' acc'); [apply kept_refl| |].
      - apply fieldsloop_sim; [exact Fr1| | |exact C|].
        + intro c. destruct (D c) as [D1 D2]. split; [exact D1|]. intros k ft E. destruct D2 as [Ea|[Sc|Gh]]; [left; exact Ea|rewrite (Ns vd eq_refl) in Sc; discriminate|right; eapply Gh; exact E].
        + split; [apply kept_alloc|]. split; [lia|]. exists []. split; [apply alloc_there|]. split; [constructor|]. intros _. apply sep_nil.
        + exact (inpairs_after A cl h1 h1 l d vd (proj1 (proj2 Fr1)) El F (fun c => Fd1 (Fd c)) (kept_refl h1)).
      - intros [] acc s2 h2 C2 K2 [_ [Le [ps [E [Ops S1]]]]].
        apply (sim_step h1 _ (the_items (List.length h1)) _ (names_to ps) s2 h2 h2); [unfold the_items; rewrite (bind_ok the_heap _ h2 (s2, h2) (s2, h2) eq_refl), E; reflexivity|].
        rewrite keywords.
        assert (Ops' : obf A h2 ps acc). { eapply F2i; [|exact Ops]. intros p q [Q1 Q2]. split; [exact Q1|]. eapply ob_kept; [apply also_less|exact Q2]. }
        pose proof (construct_sim A h1 h2 cl t ps acc s2 Fr1 C2 K2 Ops' (fun c => proj1 (D c)) (fun c => sep_weak L _ _ _ _ (Nat.le_succ_diag_r _) (S1 c))) as [E1 [E2 [E3 E4]]].
        unfold bind, attempt. destruct (hconstruct w ev t ps (s2, h2)) as [[y|e|] [s3 h3]]; destruct (construct w t acc) as [a|k]; cbn [fst snd lift ret raise] in *; try contradiction; subst s3.
        + apply sim_ret; assumption.
        + subst e. destruct k; apply sim_raise; assumption.
    Qed.

    Definition must (cl : Prop) (hd : handler) (h : heap) (x : href) (v : value) (t : ty) : Prop :=
      cl -> distinct_arguments w /\ inp h x /\ (easy = true \/ scalar v = true \/ (G t /\ find_handler cfg t = POk hd)).
    Lemma must_may cl hd h x v t : must cl hd h x v t -> may cl h x v t.
    Proof using. intros N c. destruct (N c) as [N1 [N2 N3]]. split; [exact N1|]. split; [exact N2|]. destruct N3 as [Q|[Q|[Q _]]]; unfold good; auto. Qed.
    Lemma declared_G c k ft : G (TClass c) -> str_get k (declared w (pep563 cfg) c) = Some ft -> G ft.
    Proof using Gcomp.
      intros Gc E. eapply Gcomp; [exact Gc|]. unfold component, comps. apply in_or_app. left. apply str_get_In in E. apply (in_map snd) in E. exact E.
    Qed.
    Lemma dataclassload_sim A h x v t s (cl : Prop) : frame A h -> P s -> ob (mask A (at_ h)) x v -> must cl HDataclass h x v t ->
      fine A h cl (hdataclassload w cfg ev hcall x v t (s, h)) (dataclassload w cfg call v t s).
    Proof using Hcall Hstd Gcomp Pcoh Pindex Pfields Hobj Hcls.
      intros Fr C O N. unfold hdataclassload, dataclassload.
      eapply sim_bind with (h1 := h) (R := fun y a h' => y = a /\ (exists c fs, t = TClass c /\ ci_dc (class_of w c) = Some fs /\ dataclass_info w cfg c fs = POk a) /\ h' = h); [apply kept_refl| |].
      - apply (caches_sim (fun s =>
             match ty_get t (st_fields s) with
             | Some oi => (Ok oi, s)
             | None =>
                 match t with
                 | TClass c =>
                     match ci_dc (class_of w c) with
                     | None => (Exc (XRaw RAttr), s)
                     | Some fs =>
                         match dataclass_info w cfg c fs with
                         | POk oi => (Ok oi, set_fields (cons (t, oi)) s)
                         | PExc r => (Exc (XRaw r), s)
                         end
                     end
                 | _ => (Exc (XRaw RAttr), s)
                 end
             end) (fun a => exists c fs, t = TClass c /\ ci_dc (class_of w c) = Some fs /\ dataclass_info w cfg c fs = POk a)).
        + destruct (ty_get t (st_fields s)); [exact C|]. destruct t as [c|? ? ?|?| |?| |? ?|?]; try exact C. destruct (ci_dc (class_of w c)) as [fs|] eqn:D; [|exact C].
          destruct (dataclass_info w cfg c fs) as [oi|r] eqn:E; [|exact C]. exact (Pfields s c fs oi D E C).
        + intro a. destruct (ty_get t (st_fields s)) as [oi|] eqn:E; [intros [= <-]; exact (coh_fields _ _ _ (Pcoh s C) t oi E)|].
          destruct t as [c|? ? ?|?| |?| |? ?|?]; try discriminate. destruct (ci_dc (class_of w c)) as [fs|] eqn:D; [|discriminate].
          destruct (dataclass_info w cfg c fs) as [oi|r] eqn:E2; [|discriminate]. cbn. intros [= <-]. exists c, fs. auto.
      - intros oi oi' s1 h1 C1 _ [-> [[c [fs [-> [D E]]]] ->]].
        eapply sim_bind with (h1 := h); [apply kept_refl|apply (mangle_sim A h cl); [exact Fr|exact C1|exact O|intro c0; apply (N c0)]|].
        intros x' v' s2 h2 C2 K2 [[Ox Sx] Sc]. apply (looks_sim h _ A x' v'); [exact Ox|].
        apply (fine_imp A h h2 cl cl); [exact K2|exact (fun c => c)|]. apply objloader_sim; [exact (frame_kept _ _ _ K2 Fr)|exact C2|split; assumption|].
        intro c0. destruct (N c0) as [N1 [_ N3]]. split; [exact N1|]. destruct N3 as [Ea|[Sv|[Gt F]]]; [left; exact Ea|right; left; congruence|right; right].
        apply (std_selected w basic strcons cfg _ _ Hstd) in F. destruct F as [c' [fs' [[= <-] [D' [N' _]]]]].
        intros k ft Eh. eapply declared_G; [exact Gt|]. rewrite <- (dataclass_info_hints w cfg c fs oi'); [exact Eh| |exact E].
        unfold kind_of_class. rewrite N', D. reflexivity.
    Qed.
    Lemma namedtupleload_sim A h x v t s (cl : Prop) : frame A h -> P s -> ob (mask A (at_ h)) x v -> must cl HNamedTuple h x v t ->
      fine A h cl (hnamedtupleload w cfg ev hcall x v t (s, h)) (namedtupleload w cfg call v t s).
    Proof using Hcall Hstd Gcomp Pcoh Pindex Hobj Hcls.
      intros Fr C O N. unfold hnamedtupleload, namedtupleload. destruct t as [c|? ? ?|?| |?| |? ?|?]; try (apply sim_raise; [exact C|apply kept_refl]).
      destruct (ci_nt (class_of w c)) as [nt|] eqn:En; [|apply sim_raise; [exact C|apply kept_refl]].
      eapply sim_bind with (h1 := h); [apply kept_refl|apply lift_sim; exact C|]. intros hints hints' s1 h1 C1 _ [-> [Eh ->]]. cbv zeta.
      apply objloader_sim; [exact Fr|exact C1| |].
      - split; [exact O|]. intro c0. eapply inp_feed; [eapply ob_kept; [apply mask_all|exact O]|apply (N c0)].
      - intro c0. destruct (N c0) as [N1 [_ N3]]. split; [exact N1|]. destruct N3 as [Ea|[Sv|[Gt F]]]; [left; exact Ea|right; left; exact Sv|right; right].
        intros k ft E. eapply declared_G; [exact Gt|]. unfold declared, kind_of_class, declared_types. rewrite En.
        revert Eh. case (pep563 cfg); intro Eh; [rewrite Eh; exact E|]. injection Eh as <-. exact E.
    Qed.
    Lemma typeddictload_sim A h x v t s (cl : Prop) : frame A h -> P s -> ob (mask A (at_ h)) x v -> must cl HTypedDict h x v t ->
      fine A h cl (htypeddictload w cfg ev hcall x v t (s, h)) (typeddictload w cfg call v t s).
    Proof using Hcall Hstd Gcomp Pcoh Pindex Pstrip Hobj Hcls Href.
      intros Fr C O N. unfold htypeddictload, typeddictload. destruct t as [c|? ? ?|?| |?| |? ?|?]; try (apply sim_raise; [exact C|apply kept_refl]).
      destruct (ci_td (class_of w c)) as [req|] eqn:En; [|apply sim_raise; [exact C|apply kept_refl]].
      eapply sim_bind with (h1 := h) (R := fun y a h' => y = a /\ a = s /\ h' = h); [apply kept_refl|apply (caches_sim get_st (fun a => a = s)); [exact C|intros a [= <-]; reflexivity]|].
      intros st st' s0 h0 C0 _ [-> [-> ->]].
      eapply sim_bind with (h1 := h); [apply kept_refl|apply lift_sim; exact C0|]. intros hints hints' s1 h1 C1 _ [-> [Eh ->]]. cbv zeta.
      eapply sim_bind with (h1 := h) (R := fun y a h' => y = a /\ True /\ h' = h); [apply kept_refl|apply (caches_sim _ (fun _ => True)); [|auto]|].
      { cbn. case (pep563 cfg); [exact C1|]. apply Pstrip. exact C1. }
      intros [] [] s2 h2 C2 _ [_ [_ ->]].
      apply objloader_sim; [exact Fr|exact C2| |].
      - split; [exact O|]. intro c0. eapply inp_feed; [eapply ob_kept; [apply mask_all|exact O]|apply (N c0)].
      - intro c0. destruct (N c0) as [N1 [_ N3]]. split; [exact N1|]. destruct N3 as [Ea|[Sv|[Gt F]]]; [left; exact Ea|right; left; exact Sv|].
        destruct (Bool.bool_dec easy true) as [Ea|Ea]; [left; exact Ea|right; right]. apply Bool.not_true_is_false in Ea. pose proof (Href Ea) as Rf.
        apply (std_selected w basic strcons cfg _ _ Hstd) in F. destruct F as [c' [r' [[= <-] [D' [N' [D'' _]]]]]].
        assert (At : ci_attrs (class_of w c) = None) by (apply (wr_td _ Rf); congruence).
        intros k ft E. eapply declared_G; [exact Gt|]. unfold declared, kind_of_class. rewrite N', D'', At, En. unfold declared_types.
        assert (Eq : map (fun kt => (fst kt, strip_notrequired (snd kt))) hints' = map (fun kt => (fst kt, unwrap (snd kt))) (if pep563 cfg then match ci_hints (class_of w c) with POk l => l | PExc _ => [] end else ci_ann (class_of w c))).
        { revert Eh. case (pep563 cfg); intro Eh; [rewrite Eh; reflexivity|]. injection Eh as <-. unfold annotations. destruct (mem_cid c (st_stripped s)); [|reflexivity].
          rewrite map_map. apply map_ext_in. intros [k' t'] J. cbn [fst snd]. f_equal. rewrite !unwrap_strip. apply (wr_nested _ Rf c k'); [rewrite En; discriminate|exact J]. }
        rewrite <- Eq. exact E.
    Qed.
    Lemma attrload_sim A h x v t s (cl : Prop) : frame A h -> P s -> ob (mask A (at_ h)) x v -> must cl HAttrs h x v t ->
      fine A h cl (hattrload w cfg ev hcall x v t (s, h)) (attrload w cfg call v t s).
    Proof using Hcall Hstd Gcomp Pcoh Pindex Hobj Hcls.
      intros Fr C O N. unfold hattrload, attrload. destruct t as [c|? ? ?|?| |?| |? ?|?]; try (apply sim_raise; [exact C|apply kept_refl]).
      destruct (ci_attrs (class_of w c)) as [fs|] eqn:En; [|apply sim_raise; [exact C|apply kept_refl]].
      eapply sim_bind with (h1 := h); [apply kept_refl|apply lift_sim; exact C|]. intros hints hints' s1 h1 C1 _ [-> [Eh ->]]. cbv zeta.
      eapply sim_bind with (h1 := h); [apply kept_refl|apply (mangle_sim A h cl); [exact Fr|exact C1|exact O|intro c0; apply (N c0)]|].
      intros x' v' s2 h2 C2 K2 [[Ox Sx] Sc]. apply (looks_sim h _ A x' v'); [exact Ox|].
      apply (fine_imp A h h2 cl cl); [exact K2|exact (fun c => c)|]. apply objloader_sim; [exact (frame_kept _ _ _ K2 Fr)|exact C2|split; assumption|].
      intro c0. destruct (N c0) as [N1 [_ N3]]. split; [exact N1|]. destruct N3 as [Ea|[Sv|[Gt F]]]; [left; exact Ea|right; left; congruence|right; right].
      apply (std_selected w basic strcons cfg _ _ Hstd) in F. destruct F as [c' [r' [[= <-] [D' [N' [D'' _]]]]]].
      intros k ft E. eapply declared_G; [exact Gt|]. unfold declared, kind_of_class. rewrite N', D'', En. apply attr_hints_spec in Eh. rewrite <- Eh. exact E.
    Qed.

    (** *** Unions *)
    Lemma prefer_sim v t args sorted s h : ty_args t = Some args -> (forall y, In y sorted -> In y args) -> P s ->
      sim h (fun y a h' => y = a /\ (forall z, In z a -> In z args) /\ h' = h) (caches (prefer w v t args sorted) (s, h)) (prefer w v t args sorted s).
    Proof using Pcoh Pdisc nm.
      intros Ea Hs C. apply (caches_sim _ (fun a => forall z, In z a -> In z args)).
      - unfold prefer. destruct v; try exact C. unfold bind. destruct (same_get t (st_disc s)) as [dc|]; cbv zeta.
        + destruct dc as [[key [|lt cd]]|]; try exact C. destruct (hashable w _); [|exact C]. destruct (disc_get _ _); exact C.
        + assert (C' : P (set_disc (cons (t, build_disc w s args)) s)) by (apply Pdisc; assumption).
          destruct (build_disc w s args) as [[key [|lt cd]]|]; try exact C'. destruct (hashable w _); [|exact C']. destruct (disc_get _ _); exact C'.
      - intros a E.
        assert (I0 : Inv w cfg nm (fun _ => False) (fun _ => False) (fun _ => False) s).
        { split; [apply Pcoh; exact C|]. repeat split; intros; contradiction. }
        pose proof (sl_prefer w cfg nm (fun _ => False) (fun _ => False) (fun _ => False) v t args sorted Ea Hs s I0) as Q.
        destruct (prefer w v t args sorted s) as [[b|e|] s']; cbn [fst] in E; try discriminate. injection E as ->. apply Q.
    Qed.
    Lemma trymembers_sim A h0 (cl : Prop) x v t : frame A h0 -> inq A cl h0 x v -> (cl -> distinct_arguments w) ->
      forall ts n r a exs s h, (cl -> forall mt, In mt ts -> good v mt) -> P s -> kept_in h0 h -> ob (mask A (at_ h)) r a -> (cl -> sep L (List.length h0) h [r]) ->
      sim h0 (fun p q h' => fst (fst p) = fst (fst q) /\ snd p = snd q /\ ob (mask A (at_ h')) (snd (fst p)) (snd (fst q)) /\ (cl -> sep L (List.length h0) h' [snd (fst p)]))
        (htry_members cfg hcall x v t ts n r exs (s, h)) (try_members cfg call v t ts n a exs s).
    Proof using Hcall Hstd Pcoh Pindex.
      intros Fr Ix D ts. induction ts as [|mt ts IH]; intros n r a exs s h Gd C K O Sr; cbn [htry_members try_members].
      - apply sim_ret; [exact C|exact K|]. cbn [fst snd]. auto.
      - pose proof (inq_kept A cl h0 h x v (mask_kept A _ _ K) Ix) as Ix'.
        eapply sim_bind with (h1 := h) (R := either (fun y b h' => ob (mask A (at_ h')) y b /\ (cl -> sep L (List.length h) h' [y]))); [exact K|apply sim_attempt|].
        + eapply sim_bind with (h1 := h); [apply kept_refl|apply lookup_sim; exact C|]. intros hd hd' s1 h1 C1 _ [-> [F1 ->]].
          apply (call_sim A h hd' x v mt s1 h cl F1 (frame_kept _ _ _ K Fr) C1 (kept_refl h)); [apply Ix'|]. intro c. split; [apply D; exact c|]. split; [apply Ix'; exact c|]. apply Gd; [exact c|left; reflexivity].
        + assert (Gd' : cl -> forall mt', In mt' ts -> good v mt') by (intros c mt' J; apply Gd; [exact c|right; exact J]).
          intros [y|e] [b|e'] s1 h1 C1 K1 Q; cbn in Q; try contradiction.
          * destruct Q as [Oy Sy]. assert (Sy' : cl -> sep L (List.length h0) h1 [y]) by (intro c; apply (sep_weak L (List.length h)); [apply kept_length; exact K|apply Sy; exact c]).
            destruct (uniondebugconflict cfg); [apply IH; try assumption; eapply kept_trans; eassumption|].
            apply sim_ret; [exact C1|eapply kept_trans; eassumption|]. cbn [fst snd]. auto.
          * subst e'. destruct e as [k m tr vv tt subs|k]; [|apply sim_raise; [exact C1|eapply kept_trans; eassumption]].
            apply IH; [exact Gd'|exact C1|eapply kept_trans; eassumption|eapply ob_kept; [apply mask_kept; exact K1|exact O]|]. intro c. eapply sep_kept; [exact K1|apply Sr; exact c].
    Qed.
    Lemma self_leaf A h x v c : inp h x -> ob (mask A (at_ h)) x v -> container c = false \/ easy = true \/ In c basic -> type_of v = c -> leaf L x.
    Proof using Gbasic w. intros I O B <-. eapply (leaf_inst h x v); [exact I|eapply ob_kept; [apply mask_all|exact O]|exact B|apply isinstance_self]. Qed.
    Lemma unionload_sim A h x v t s (cl : Prop) : frame A h -> P s -> ob (mask A (at_ h)) x v -> may cl h x v t ->
      fine A h cl (hunionload w cfg hcall x v t (s, h)) (unionload w cfg call v t s).
    Proof using Hcall Hstd Gcomp Gbasic Pcoh Pindex Pdisc.
      intros Fr C O N. unfold hunionload, unionload. destruct (ty_args t) as [args|] eqn:Et; [|apply sim_raise; [exact C|apply kept_refl]]. cbv zeta.
      apply (fine_same A h cl (basicb cfg (TClass (type_of v)) && mem_ty (TClass (type_of v)) args) x v).
      - intro J. apply andb_true_iff in J as [J _]. split; [exact C|]. split; [apply kept_refl|]. split; [exact O|]. intro c. eapply (inst_leaf A h x v (TClass (type_of v))); [apply (N c)|exact O|exact J|apply isinstance_self].
      - intros _. eapply sim_bind with (h1 := h); [apply kept_refl|apply (prefer_sim v t args _ s h Et); [|exact C]|].
        { intros y J. apply in_app_or in J as [J|J]; apply filter_In in J; apply J. }
        intros so so' s1 h1 C1 _ [-> [Sub ->]].
        eapply sim_bind with (h1 := h); [apply kept_refl|apply (trymembers_sim A h cl x v t Fr); [|intro c; apply (N c)| |exact C1|apply kept_refl|apply ob_scalar; reflexivity|intros _; apply sep_leaf; reflexivity]|].
        + split; [exact O|]. intro c. apply (N c).
        + intros c mt J. destruct (N c) as [_ [_ N3]]. destruct N3 as [Ea|[Sv|Gt]]; [left; exact Ea|right; left; exact Sv|right; right]. eapply comp_args; [exact Et|apply Sub; exact J|exact Gt].
        + intros [[n r] exs] [[n' a] exs'] s2 h2 C2 K2 [Q1 [Q2 [Q3 Q4]]]. cbn [fst snd] in Q1, Q2, Q3, Q4. subst n' exs'.
          destruct n as [|[|n]]; [apply sim_raise; assumption| |apply sim_raise; assumption]. apply sim_ret; [exact C2|exact K2|]. split; assumption.
    Qed.

    (** *** The others *)
    Lemma called_leaf A h x v t : inp h x -> ob (mask A (at_ h)) x v -> (exists c ms, t = TClass c /\ ci_enum (class_of w c) = Some ms /\ type_of v = c) -> leaf L x.
    Proof using Gbasic.
      intros I O [c [ms [_ [E T]]]]. eapply self_leaf; [exact I|exact O| |exact T]. left. destruct (container c) eqn:Q; [|reflexivity]. exfalso. destruct c; try discriminate Q; discriminate E.
    Qed.
    Lemma calling_sim A h x v t s (cl : Prop) : frame A h -> P s -> ob (mask A (at_ h)) x v -> (cl -> inp h x) -> fine A h cl (hcall_type w ev t x v (s, h)) (lift (call_type w t v) s).
    Proof using Hobj Hcls Gbasic.
      intros Fr C O I. apply calltype_sim; [exact Fr|exact C|apply kept_refl|exact O|]. intros c Q. apply sep_leaf. exact (called_leaf A h x v t (I c) O Q).
    Qed.
    Lemma basicload_sim A h hd x v t s (cl : Prop) : hd = HBasic -> frame A h -> P s -> ob (mask A (at_ h)) x v -> (cl -> cond hd h x v t) ->
      fine A h cl (hbasicload w cfg ev x v t (s, h)) (basicload w cfg v t s).
    Proof using Hobj Hcls Gbasic Hstd.
      intros Hd Fr C O N. unfold hbasicload, basicload. apply (fine_same A h cl (exact v t) x v).
      - intro J. split; [exact C|]. split; [apply kept_refl|]. split; [exact O|]. intro c. destruct (N c) as [_ [I Q]]. unfold exact in J. apply ty_eqb_eq in J. subst t.
        destruct Q as [Ea|[Sv|[[Gt F]|[_ Nc]]]].
        + eapply leaf_easy; [exact Ea|exact I|eapply ob_kept; [apply mask_all|exact O]].
        + eapply (leaf_scalar h); [eapply ob_kept; [apply mask_all|exact O]|exact Sv].
        + subst hd. apply (std_selected w basic strcons cfg _ _ Hstd) in F. destruct F as [c' [[= <-] [B _]]]. eapply self_leaf; [exact I|exact O|right; right; exact B|reflexivity].
        + eapply self_leaf; [exact I|exact O|left; apply Nc; reflexivity|reflexivity].
      - intros _. destruct (basiccast cfg); [|apply sim_raise; [exact C|apply kept_refl]].
        pose proof (calling_sim A h x v t s cl Fr C O (fun c => proj1 (proj2 (N c)))) as [E1 [E2 [E3 E4]]]. unfold bind, attempt.
        destruct (hcall_type w ev t x v (s, h)) as [[y|e|] [s3 h3]]; destruct (call_type w t v) as [a|k]; cbn [fst snd lift ret raise] in *; try contradiction; subst s3.
        + apply sim_ret; assumption.
        + subst e. destruct k; apply sim_raise; assumption.
    Qed.
    Lemma strconsload_sim A h x v t s (cl : Prop) : frame A h -> P s -> ob (mask A (at_ h)) x v -> (cl -> inp h x) ->
      fine A h cl (hstrconsload w ev x v t (s, h)) (strconsload w v t s).
    Proof using Hobj Hcls Gbasic.
      intros Fr C O N. unfold hstrconsload, strconsload. pose proof (calling_sim A h x v t s cl Fr C O N) as [E1 [E2 [E3 E4]]]. unfold bind, attempt.
      destruct (hcall_type w ev t x v (s, h)) as [[y|e|] [s3 h3]]; destruct (call_type w t v) as [a|k]; cbn [fst snd lift ret raise] in *; try contradiction; subst s3.
      - apply sim_ret; assumption.
      - subst e. destruct k; apply sim_raise; assumption.
    Qed.
    Lemma enumhints_sim A h0 (cl : Prop) x v t : frame A h0 -> inq A cl h0 x v -> (cl -> distinct_arguments w) ->
      forall ts exs s h, (cl -> forall mt, In mt ts -> good v mt) -> P s -> kept_in h0 h ->
      sim h0 (fun p q h' => match p, q with inl y, inl a => ob (mask A (at_ h')) y a /\ (cl -> sep L (List.length h0) h' [y]) | inr e, inr e' => e = e' | _, _ => False end)
        (henum_hints w cfg ev hcall x t ts exs (s, h)) (enum_hints w cfg call v t ts exs s).
    Proof using Hcall Hstd Pcoh Pindex Preg Hobj Hcls.
      intros Fr Ix D ts. induction ts as [|mt ts IH]; intros exs s h Gd C K; cbn [henum_hints enum_hints].
      - apply sim_ret; [exact C|exact K|reflexivity].
      - pose proof (inq_kept A cl h0 h x v (mask_kept A _ _ K) Ix) as Ix'. pose proof (frame_kept _ _ _ K Fr) as Fr1.
        eapply sim_bind with (h1 := h) (R := either (fun y b h' => ob (mask A (at_ h')) y b /\ (cl -> sep L (List.length h) h' [y]))); [exact K|apply sim_attempt|].
        + eapply sim_bind with (h1 := h); [apply kept_refl|apply (load_sim A h x v mt (Some (AnUnion mt)) s h cl Fr1 C (kept_refl h)); [apply Ix'|]|].
          * intro c. split; [apply D; exact c|]. split; [apply Ix'; exact c|]. apply Gd; [exact c|left; reflexivity].
          * intros y b s1 h1 C1 K1 [Oy Sy]. apply (looks_sim h _ A y b); [exact Oy|]. apply calltype_sim; [exact (frame_kept _ _ _ K1 Fr1)|exact C1|exact K1|exact Oy|]. intros c _. apply Sy. exact c.
        + intros [y|e] [b|e'] s1 h1 C1 K1 Q; cbn in Q; try contradiction.
          * destruct Q as [Oy Sy]. apply sim_ret; [exact C1|eapply kept_trans; eassumption|]. split; [exact Oy|]. intro c. apply (sep_weak L (List.length h)); [apply kept_length; exact K|apply Sy; exact c].
          * subst e'. apply IH; [|exact C1|eapply kept_trans; eassumption]. intros c mt' J. apply Gd; [exact c|right; exact J].
    Qed.
    Lemma enumload_sim A h x v t s (cl : Prop) : frame A h -> P s -> ob (mask A (at_ h)) x v -> must cl Loader.HEnum h x v t ->
      fine A h cl (henumload w cfg ev hcall x v t (s, h)) (enumload w cfg call v t s).
    Proof using Hcall Hstd Gcomp Gbasic Pcoh Pindex Preg Hobj Hcls.
      intros Fr C O N. unfold henumload, enumload. pose proof (calling_sim A h x v t s cl Fr C O (fun c => proj1 (proj2 (N c)))) as [E1 [E2 [E3 E4]]]. unfold bind at 1. unfold attempt at 1.
      destruct (hcall_type w ev t x v (s, h)) as [[y|e|] [s3 h3]]; destruct (call_type w t v) as [a|k]; cbn [fst snd lift ret raise] in *; try contradiction; subst s3.
      - apply sim_ret; assumption.
      - destruct t as [c|? ? ?|?| |?| |? ?|?]; try (apply sim_raise; assumption).
        pose proof (frame_kept _ _ _ E3 Fr) as Fr3. assert (Iq : inq A cl h3 x v). { eapply inq_kept; [apply mask_kept; exact E3|]. split; [exact O|]. intro c0. apply (N c0). }
        apply (fine_imp A h h3 cl cl); [exact E3|exact (fun c => c)|].
        eapply sim_bind with (h1 := h3); [apply kept_refl|apply lift_sim; exact C|]. intros hints hints' s1 h1 C1 _ [-> [Eh ->]].
        eapply sim_bind with (h1 := h3); [apply kept_refl|apply (enumhints_sim A h3 cl x v (TClass c) Fr3 Iq); [intro c0; apply (N c0)| |exact C1|apply kept_refl]|].
        + intros c0 mt J. destruct (N c0) as [_ [_ N3]]. destruct N3 as [Ea|[Sv|[Gt F]]]; [left; exact Ea|right; left; exact Sv|right; right].
          apply (std_selected w basic strcons cfg _ _ Hstd) in F. destruct F as [c' [ms [[= <-] [Em _]]]]. eapply Gcomp; [exact Gt|]. unfold component, comps. apply in_or_app. right. rewrite Em, Eh. exact J.
        + intros [y|exs] [b|exs'] s2 h2 C2 K2 Q; try contradiction; [apply sim_ret; assumption|]. subst exs'. apply sim_raise; assumption.
    Qed.
    Lemma forwardload_sim A h x v t s (cl : Prop) : frame A h -> P s -> ob (mask A (at_ h)) x v -> may cl h x v t ->
      fine A h cl (hforwardrefload w cfg hcall x v t (s, h)) (forwardrefload w cfg call v t s).
    Proof using Hcall Hstd Gfwd Pcoh Pindex Preg.
      intros Fr C O N. unfold hforwardrefload, forwardrefload.
      eapply sim_bind with (h1 := h) (R := fun y a h' => y = a /\ a = s /\ h' = h); [apply kept_refl|apply (caches_sim get_st (fun a => a = s)); [exact C|intros a [= <-]; reflexivity]|].
      intros st st' s0 h0 C0 _ [-> [-> ->]]. destruct (st_frefs s) as [fr|] eqn:Ef; [|apply sim_raise; [exact C0|apply kept_refl]].
      destruct t as [c|? ? ?|?| |n| |? ?|?]; try (apply sim_raise; [exact C0|apply kept_refl]).
      destruct (str_get n fr) as [t'|] eqn:Es; [|apply sim_raise; [exact C0|apply kept_refl]].
      apply load_sim; [exact Fr|exact C0|apply kept_refl|exact O|]. intro c. destruct (N c) as [N1 [N2 N3]]. split; [exact N1|]. split; [exact N2|].
      destruct N3 as [Ea|[Sv|Gt]]; [left; exact Ea|right; left; exact Sv|right; right]. exact (Gfwd s fr n t' C Ef Es Gt).
    Qed.
    Lemma basket_literal v l : basket v = true -> plain_literal l -> py_eqb v l = false.
    Proof using. destruct v; try discriminate; intros _; destruct l; try contradiction; reflexivity. Qed.
    Lemma literalload_sim A h x v t s (cl : Prop) : frame A h -> P s -> ob (mask A (at_ h)) x v -> may cl h x v t ->
      fine A h cl (hliteralload x v t (s, h)) (literalload v t s).
    Proof using Glit.
      intros Fr C O N. unfold hliteralload, literalload. destruct t as [c|? ? ?|vals| |n| |? ?|?]; try (apply sim_raise; [exact C|apply kept_refl]).
      apply (fine_same A h cl (py_in v vals) x v); [|intros _; apply sim_raise; [exact C|apply kept_refl]].
      intro J. split; [exact C|]. split; [apply kept_refl|]. split; [exact O|]. intro c. destruct (N c) as [_ [I Q]].
      destruct (Bool.bool_dec easy true) as [Ea|Ea]; [eapply leaf_easy; [exact Ea|exact I|eapply ob_kept; [apply mask_all|exact O]]|].
      apply Bool.not_true_is_false in Ea. destruct Q as [Q|[Q|Gt]]; [congruence|eapply (leaf_scalar h); [eapply ob_kept; [apply mask_all|exact O]|eassumption]|].
      unfold HLoad2.inp in I. rewrite Ea in I. specialize (I v (ob_kept _ _ _ _ (mask_all A (at_ h)) O)). destruct (data_top v I) as [Sc|Bk]; [eapply (leaf_scalar h); [eapply ob_kept; [apply mask_all|exact O]|eassumption]|].
      exfalso. unfold py_in in J. apply existsb_exists in J as [l [Jl El]]. rewrite (basket_literal v l Bk (Glit vals l Ea Gt Jl)) in El. discriminate.
    Qed.
    Lemma newtypeload_sim A h x v t s (cl : Prop) : frame A h -> P s -> ob (mask A (at_ h)) x v -> may cl h x v t ->
      fine A h cl (hnewtypeload w cfg hcall x t (s, h)) (newtypeload w cfg call v t s).
    Proof using Hcall Hstd Gcomp Pcoh Pindex Preg.
      intros Fr C O N. unfold hnewtypeload, newtypeload. destruct t as [c|? ? ?|vals| |n| |n su|?]; try (apply sim_raise; [exact C|apply kept_refl]).
      apply load_sim; [exact Fr|exact C|apply kept_refl|exact O|]. intro c. destruct (N c) as [N1 [N2 N3]]. split; [exact N1|]. split; [exact N2|].
      destruct N3 as [Ea|[Sv|Gt]]; [left; exact Ea|right; left; exact Sv|right; right]. eapply Gcomp; [exact Gt|left; reflexivity].
    Qed.
    Lemma made_sim A h (res : M value) s (cl : Prop) : frame A h -> P s -> snd (res s) = s -> fine A h cl (made w ev res (s, h)) (res s).
    Proof using  Hobj Hcls.
      intros Fr C E. unfold made, bind, caches. cbn [fst snd]. destruct (res s) as [[a|e|] s']; cbn [snd] in E; subst s'.
      - apply (new_sim A h h a s cl Fr C (kept_refl h)).
      - apply sim_raise; [exact C|apply kept_refl].
      - split; [reflexivity|]. split; [exact C|]. split; [apply kept_refl|exact Logic.I].
    Qed.

    Lemma lbody_sim A hd x v t s h : (forall f, hd <> HCustom f) -> frame A h -> P s -> ob (mask A (at_ h)) x v ->
      fine A h (cond hd h x v t) (lbody w cfg ev hcall hd x t (s, h)) (body w cfg call hd v t s).
    Proof using Hcall Hstd Hobj Hcls Gcomp Pcoh Pindex Preg Pfields Pdisc Pstrip Gfwd Gany Glit Gbasic Href.
      intros Nc Fr C O. unfold lbody. apply (looks_sim h _ A x v); [exact O|].
      assert (Ms : hd <> HBasic -> hd <> HNone -> must (cond hd h x v t) hd h x v t).
      { intros N1 N2 [D [I Q]]. split; [exact D|]. split; [exact I|]. destruct Q as [Q|[Q|[Q|[[Q|Q] _]]]]; try contradiction; auto. }
      assert (My : hd <> HBasic -> hd <> HNone -> may (cond hd h x v t) h x v t) by (intros N1 N2; eapply must_may; apply Ms; assumption).
      destruct hd; cbn [body].
      - apply made_sim; [exact Fr|exact C|]. destruct v; reflexivity.
      - apply unionload_sim; try assumption. apply My; discriminate.
      - apply (basicload_sim A h HBasic); auto.
      - apply enumload_sim; try assumption. apply Ms; discriminate.
      - apply tupleload_sim; try assumption. apply My; discriminate.
      - apply iterload_sim; try assumption. apply My; discriminate.
      - apply dictload_sim; try assumption. apply My; discriminate.
      - apply iterload_sim; try assumption. apply My; discriminate.
      - apply iterload_sim; try assumption. apply My; discriminate.
      - apply namedtupleload_sim; try assumption. apply Ms; discriminate.
      - apply dataclassload_sim; try assumption. apply Ms; discriminate.
      - apply forwardload_sim; try assumption. apply My; discriminate.
      - apply literalload_sim; try assumption. apply My; discriminate.
      - apply typeddictload_sim; try assumption. apply Ms; discriminate.
      - apply made_sim; [exact Fr|exact C|]. unfold datetimeload. destruct t; try reflexivity. destruct (match v with VStr s0 => _ | _ => _ end) as [|[]]; reflexivity.
      - apply made_sim; [exact Fr|exact C|]. unfold patternload. destruct (w_compile w v) as [|[]]; reflexivity.
      - apply made_sim; [exact Fr|exact C|]. unfold timedeltaload. destruct (w_timedelta w v) as [|[]]; reflexivity.
      - apply strconsload_sim; try assumption. intros [_ [I _]]. exact I.
      - apply attrload_sim; try assumption. apply Ms; discriminate.
      - apply sim_ret; [exact C|apply kept_refl|]. split; [exact O|]. intro c. apply sep_leaf.
        destruct (Ms ltac:(discriminate) ltac:(discriminate) c) as [_ [I Q]]. destruct (Bool.bool_dec easy true) as [Ea|Ea]; [eapply leaf_easy; [exact Ea|exact I|eapply ob_kept; [apply mask_all|exact O]]|].
        apply Bool.not_true_is_false in Ea. destruct Q as [Q|[Q|[Gt F]]]; [congruence|eapply (leaf_scalar h); [eapply ob_kept; [apply mask_all|exact O]|eassumption]|].
        exfalso. apply (std_selected w basic strcons cfg _ _ Hstd) in F. cbn in F. subst t. exact (Gany Ea Gt).
      - apply newtypeload_sim; try assumption. apply My; discriminate.
      - exfalso. eapply Nc. reflexivity.
    Qed.
  End Body.
  Lemma lrun_sim n : forall A hd x v t s h, (forall f, hd <> HCustom f) -> frame A h -> P s -> ob (mask A (at_ h)) x v ->
    fine A h (cond hd h x v t) (lrun w cfg ev n hd x t (s, h)) (run w cfg n hd v t s).
  Proof using Hstd Hobj Hcls Gcomp Pcoh Pindex Preg Pfields Pdisc Pstrip Gfwd Gany Glit Gbasic Href.
    induction n as [|n IH]; intros A hd x v t s h Nc Fr C O; cbn [lrun run].
    - split; [reflexivity|]. split; [exact C|]. split; [apply kept_refl|exact Logic.I].
    - apply lbody_sim; assumption.
  Qed.
  Lemma hload_sim n x v t s : P s -> object hb x v ->
    fine (fun _ => false) hb (distinct_arguments w /\ inp hb x /\ good v t) (hload w cfg ev n x t (s, hb)) (load w cfg n v t s).
  Proof using Hstd Hobj Hcls Gcomp Pcoh Pindex Preg Pfields Pdisc Pstrip Gfwd Gany Glit Gbasic Href.
    intros C O. unfold hload, load. apply load_sim; [apply lrun_sim|..].
    - split; [apply kept_refl|]. split; intros l Q; discriminate.
    - exact C.
    - apply kept_refl.
    - exact O.
    - intro Q. exact Q.
  Qed.
End Sim.
