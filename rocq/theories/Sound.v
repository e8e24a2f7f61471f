(** * Sound: a successful load conforms to the requested type (towards C01) *)

From Verif Require Import Loader Spec Inv Std.
From Verif Require Export Vocab.

Lemma isinstance_self w v : isinstance w v (type_of v) = true.
Proof.
  unfold isinstance. apply mem_cid_In. destruct (type_of v); cbn; auto.
Qed.



Lemma unwrap_strip t : strip_notrequired t = unwrap t.
Proof. reflexivity. Qed.

Lemma converter_type_spec hs :
  (only_return hs -> converter_type hs = PExc RStopIter) /\ (~ only_return hs -> exists t, converter_type hs = POk t).
Proof.
  assert (F : forall l : list (string * ty), (forall k x, In (k, x) l -> k = "return") \/
            exists k x r, filter (fun kt => negb (String.eqb (fst kt) "return")) l = (k, x) :: r).
  { induction l as [|[k x] l [IH|IH]]; [left; intros k x []| |].
    - cbn [filter fst]. destruct (String.eqb k "return") eqn:E; cbn [negb].
      + left. apply String.eqb_eq in E. intros k' x' [Q|Q]; [congruence|eauto].
      + right. eauto.
    - right. cbn [filter fst]. destruct (String.eqb k "return"); cbn [negb]; eauto. }
  assert (N : forall l : list (string * ty), (forall k x, In (k, x) l -> k = "return") -> filter (fun kt => negb (String.eqb (fst kt) "return")) l = []).
  { induction l as [|[k x] l IH]; intro H; [reflexivity|]. cbn [filter fst]. rewrite (H k x (or_introl eq_refl)). cbn. apply IH. intros k' x' Q. eapply H. right. exact Q. }
  split.
  - intros [L H]. unfold converter_type. rewrite (N hs H).
    destruct L as [L|L]; rewrite L; reflexivity.
  - intro R. unfold converter_type. destruct (Nat.ltb 0 (List.length hs) && Nat.leb (List.length hs) 2) eqn:B; [|eauto].
    apply andb_prop in B. destruct B as [B1 B2]. apply Nat.ltb_lt in B1. apply Nat.leb_le in B2.
    destruct (F hs) as [H|[k [x [r E]]]]; [exfalso; apply R; split; [lia|exact H]|]. rewrite E. eauto.
Qed.

Lemma attr_hints_iff fs :
  (exists l, attr_hints fs = POk l) <-> (forall f hs, In f fs -> f_conv f = Some hs -> ~ only_return hs).
Proof.
  induction fs as [|f fs IH]; cbn [attr_hints]; [split; [intros _ f hs []|eauto]|].
  split.
  - intros [l E] g hs [<-|I] C; [rewrite C in E|].
    + intro R. rewrite (proj1 (converter_type_spec hs) R) in E. discriminate.
    + refine (proj1 IH _ g hs I C). destruct (match f_conv f with Some _ => _ | None => _ end); [|discriminate].
      destruct (attr_hints fs); [eauto|discriminate].
  - intro H. destruct (proj2 IH (fun g hs I => H g hs (or_intror I))) as [l E]. rewrite E.
    destruct (f_conv f) as [hs|] eqn:C; [|eauto].
    destruct (proj2 (converter_type_spec hs) (H f hs (or_introl eq_refl) C)) as [t T]. rewrite T. eauto.
Qed.

Lemma attr_hints_exc fs r : attr_hints fs = PExc r -> exists f hs, In f fs /\ f_conv f = Some hs /\ only_return hs.
Proof.
  induction fs as [|f fs IH]; cbn [attr_hints]; [discriminate|]. intro E.
  assert (D : forall hs, only_return hs \/ ~ only_return hs).
  { intro hs. destruct (converter_type hs) as [t|q] eqn:T.
    - right. intro R. rewrite (proj1 (converter_type_spec hs) R) in T. discriminate.
    - unfold converter_type in T. destruct (_ && _) eqn:B; [|discriminate].
      apply andb_prop in B. destruct B as [B1 B2]. apply Nat.ltb_lt in B1. apply Nat.leb_le in B2.
      left. split; [lia|]. intros k x I. destruct (filter _ hs) as [|[? ?] ?] eqn:Fl; [|discriminate].
      destruct (String.eqb k "return") eqn:K; [apply String.eqb_eq; exact K|]. exfalso.
      assert (Q : In (k, x) []) by (rewrite <- Fl; apply filter_In; split; [exact I|cbn [fst]; rewrite K; reflexivity]). destruct Q. }
  destruct (f_conv f) as [hs|] eqn:C.
  - destruct (D hs) as [R|R]; [exists f, hs; repeat split; auto; [left; reflexivity|apply R..]|].
    destruct (proj2 (converter_type_spec hs) R) as [t T]. rewrite T in E. destruct (attr_hints fs) as [l|q]; [discriminate|].
    destruct (IH E) as [g [hs' [I Q]]]. exists g, hs'. split; [right; exact I|exact Q].
  - destruct (attr_hints fs) as [l|q]; [discriminate|]. destruct (IH E) as [g [hs' [I Q]]]. exists g, hs'. split; [right; exact I|exact Q].
Qed.

Section Sound.
  Variable w : world.
  Variables basic strcons : list cid.
  Variable cfg : config.
  Hypothesis Hstd : is_std w basic strcons cfg.
  Hypothesis Hwf : wf_world w basic strcons.
  Variable env : string -> option ty.
  (** a set of types closed under components *)
  Variable G : ty -> Prop.
  Notation p := (pep563 cfg).
  Hypothesis Gcomp : forall t t', G t -> component w p env t t' -> G t'.
  Variable warm : ty -> Prop.
  Variable pinned : string -> Prop.
  Hypothesis Gname : forall t n, w_name w t = Some n -> G (TForward n) -> pinned n \/ env n = Some t.
  Hypothesis Gdict : forall n kt vt, G (TGen n ODict (Some [kt; vt])) ->
      warm vt \/ dict_ok w basic strcons kt vt.

  Definition Inv (s : lstate) : Prop :=
    coh w cfg s /\
    (forall fr n t, st_frefs s = Some fr -> str_get n fr = Some t -> G (TForward n) -> env n = Some t) /\
    (forall t, warm t -> ty_get t (st_index s) <> None) /\
    (forall fr n, st_frefs s = Some fr -> pinned n -> str_get n fr <> None).

  Lemma Inv_index s t h :
    find_handler cfg t = POk h -> Inv s -> Inv (set_index (cons (t, h)) s).
  Proof using.
    intros F [H1 [H2 [H3 H4]]]. split; [apply coh_set_index; assumption|]. split; [exact H2|].
    split; [|exact H4].
    intros t' W. cbn [set_index st_index]. rewrite ty_get_cons. destruct (ty_eqb t' t); [discriminate|].
    apply H3. exact W.
  Qed.
  Lemma Inv_register s t : Inv s -> Inv (register w t s).
  Proof using Gname.
    intros H0. assert (H0' := H0). destruct H0 as [H1 [H2 [H3 H4]]].
    unfold register. destruct (st_frefs s) as [fr|] eqn:F; [|exact H0'].
    destruct (w_name w t) as [n|] eqn:N; [|exact H0'].
    destruct (str_get n fr) eqn:GN; [exact H0'|].
    split; [split; apply H1|]. split; [|split; [exact H3|]]; cbn [set_frefs st_frefs].
    - intros fr' m t' [= <-] S Gm.
      rewrite str_get_app in S. destruct (str_get m fr) eqn:E.
      + injection S as ->. eapply H2; eauto.
      + cbn in S. destruct (String.eqb_spec m n) as [->|]; [|discriminate].
        injection S as <-. destruct (Gname _ _ N Gm) as [P|P]; [|exact P].
        exfalso. eapply H4; eauto.
    - intros fr' m [= <-] P. rewrite str_get_app. destruct (str_get m fr) eqn:E; [discriminate|].
      exfalso. eapply H4; eauto.
  Qed.

  Notation H m Q := (hl Inv m Q (fun _ => True)).

  Lemma sl_ret {A} (a : A) (Q : A -> Prop) : Q a -> H (ret a) Q.
  Proof using. apply hl_ret. Qed.
  Lemma sl_raise {A} e (Q : A -> Prop) : H (raise e) Q.
  Proof using. apply hl_raise. exact I. Qed.
  Lemma sl_lift {A} (r : pyres A) (Q : A -> Prop) : (forall a, r = POk a -> Q a) -> H (lift r) Q.
  Proof using. intro HQ. apply hl_lift; auto. Qed.
  Lemma sl_bind {A B} (m : M A) (f : A -> M B) Q1 Q :
    H m Q1 -> (forall a, Q1 a -> H (f a) Q) -> H (bind m f) Q.
  Proof using. apply hl_bind. Qed.
  Lemma sl_catch {A} (m : M A) f (Q : A -> Prop) : H m Q -> (forall e, H (f e) Q) -> H (catch m f) Q.
  Proof using. intros H1 H2. eapply hl_catch with (E1 := fun _ => True); [exact H1|]. intros e _. apply H2. Qed.
  Lemma sl_attempt {A} (m : M A) (Q : A -> Prop) :
    H m Q -> H (attempt m) (fun r => match r with inl a => Q a | inr _ => True end).
  Proof using.
    intro Hm. eapply hl_weak with (E := fun _ => True); [eapply hl_attempt; exact Hm| |auto].
    intros [a|e]; auto.
  Qed.
  Lemma sl_weak {A} (m : M A) (Q Q' : A -> Prop) : H m Q -> (forall a, Q a -> Q' a) -> H m Q'.
  Proof using. intros Hm HQ. eapply hl_weak; eauto. Qed.

  Lemma sl_lookup nf t : H (lookup_handler cfg nf t) (fun h => find_handler cfg t = POk h).
  Proof using.
    intros s Hs. unfold lookup_handler. destruct (ty_get t (st_index s)) eqn:E.
    - split; [exact Hs|]. destruct Hs as [[C _ _] _]. apply C. exact E.
    - destruct (find_handler cfg t) as [h|[]] eqn:F; split; auto. apply Inv_index; assumption.
  Qed.

  Variable call : handler -> value -> ty -> M value.
  Hypothesis Hcall : forall h v t, G t -> find_handler cfg t = POk h ->
      H (call h v t) (fun r => conforms w p env r t).
  (** the handler of a basic type applied to the key type (line 396) *)
  Hypothesis Hcall_key : forall v kt c, kt = TClass c -> kind_of_class w c = None ->
      In c basic \/ In c strcons \/ ci_enum (class_of w c) <> None ->
      H (call HBasic v kt) (fun r => conforms w p env r kt).

  Hypothesis Hpres : forall h v t s, Inv s -> Inv (snd (call h v t s)).

  Lemma sl_any h v t : H (call h v t) (fun _ => True).
  Proof using Hpres. apply hl_true; auto. Qed.

  Lemma sl_load_with v t a : G t -> H (load_with w cfg call v t a) (fun r => conforms w p env r t).
  Proof using Gname Hcall.
    intro Gt. unfold load_with. eapply sl_bind with (Q1 := fun h => find_handler cfg t = POk h).
    - intros s Hs. destruct (ty_get t (st_index s)) eqn:E.
      + split; [exact Hs|]. destruct Hs as [[C _ _] _]. apply C. exact E.
      + destruct (find_handler cfg t) as [h|[]] eqn:F; split; auto.
        apply Inv_register. apply Inv_index; assumption.
    - intros h F. apply sl_catch; [apply Hcall; assumption|].
      intro e. destruct (is_tl e); apply sl_raise.
  Qed.

  Lemma call_type_inst c v r :
    In c basic \/ In c strcons \/ ci_enum (class_of w c) <> None ->
    call_type w (TClass c) v = POk r -> isinstance w r c = true.
  Proof using Hwf.
    intros Hc. unfold call_type. destruct (ci_enum (class_of w c)) as [ms|] eqn:E.
    - unfold enum_call. destruct (cid_eqb (type_of v) c) eqn:T.
      + intros [= <-]. apply cid_eqb_eq in T. subst c. apply isinstance_self.
      + destruct (find _ ms) as [[m x]|]; [|discriminate]. intros [= <-].
        apply (isinstance_self w (VEnum c m x)).
    - intro C. eapply wf_call; eauto. destruct Hc as [|[|]]; auto. congruence.
  Qed.

  Lemma exact_conf v t c :
    t = TClass c -> kind_of_class w c = None -> exact v t = true -> conforms w p env v t.
  Proof using.
    intros -> K E. unfold exact in E. apply ty_eqb_eq in E. injection E as <-.
    apply cf_class; [exact K|apply isinstance_self].
  Qed.

  Lemma sl_basicload v c :
    kind_of_class w c = None -> In c basic \/ In c strcons \/ ci_enum (class_of w c) <> None ->
    H (basicload w cfg v (TClass c)) (fun r => conforms w p env r (TClass c)).
  Proof using Hwf.
    intros K Hc. unfold basicload. destruct (exact v (TClass c)) eqn:E.
    - apply sl_ret. eapply exact_conf; eauto.
    - destruct (basiccast cfg); [|apply sl_raise].
      destruct (call_type w (TClass c) v) as [r|[]] eqn:C; try apply sl_raise.
      apply sl_ret. apply cf_class; [exact K|]. eapply call_type_inst; eauto.
  Qed.

  (** ** Dictionaries *)
  Lemma basicb_in t : basicb cfg t = in_classes basic t.
  Proof using Hstd. unfold basicb. destruct Hstd as [_ ->]. reflexivity. Qed.
  Lemma isinst_conf v t : basicb cfg t = true -> isinst w v t = true -> conforms w p env v t.
  Proof using Hstd Hwf.
    rewrite basicb_in. destruct t; cbn; try discriminate. intros B E.
    apply cf_class; [|exact E]. apply (wf_basic _ _ _ Hwf). apply mem_cid_In. exact B.
  Qed.

  Definition kv_conf (kt vt : ty) (d : list (value * value)) : Prop :=
    forall k x, In (k, x) d -> conforms w p env k kt /\ conforms w p env x vt.
  Lemma dict_set_In k x d k' x' : In (k', x') (dict_set k x d) ->
    (In (k', x') d) \/ (x' = x /\ (k' = k \/ exists y, In (k', y) d)).
  Proof using.
    induction d as [|[k0 x0] d IH]; cbn.
    - intros [[= <- <-]|[]]. right. auto.
    - destruct (py_eqb k k0).
      + intros [[= <- <-]|Hin]; [right; split; [reflexivity|right; exists x0; left; reflexivity]|left; right; exact Hin].
      + intros [[= <- <-]|Hin]; [left; left; reflexivity|].
        destruct (IH Hin) as [H1|[H1 [H2|[y H2]]]]; [left; right; exact H1|right; auto|].
        right. split; [exact H1|]. right. exists y. right. exact H2.
  Qed.
  Lemma kv_conf_set kt vt k x d :
    kv_conf kt vt d -> conforms w p env k kt -> conforms w p env x vt -> kv_conf kt vt (dict_set k x d).
  Proof using.
    intros Hd Hk Hx k' x' Hin. destruct (dict_set_In _ _ _ _ _ Hin) as [H1|[-> [->|[y H2]]]].
    - apply Hd. exact H1.
    - auto.
    - split; [|exact Hx]. apply (Hd _ _ H2).
  Qed.

  Lemma sl_dict_fast n0 kt vt kf vf d acc :
    G kt -> G vt ->
    (* the handler for the keys conforms, or the values make the loop fail *)
    (forall k, H (call kf k kt) (fun r => conforms w p env r kt)) \/ (vf = None /\ basicb cfg vt = false) ->
    (forall h, vf = Some h -> find_handler cfg vt = POk h) ->
    kv_conf kt vt acc ->
    H (dict_fast w cfg call kt vt kf vf d acc) (fun r => conforms w p env r (TGen n0 ODict (Some [kt; vt]))).
  Proof using Hstd Hwf Hcall Hpres.
    intros Gk Gv Hk Hv Ha.
    destruct Hk as [Hk|[-> B]].
    2: { destruct d as [|[k x] d]; cbn [dict_fast]; [apply sl_ret; apply cf_dict; exact Ha|].
         apply sl_bind with (Q1 := fun _ => True).
         { destruct (basicb cfg kt && isinst w k kt); [apply sl_ret; exact I|apply sl_any]. }
         intros k' _. rewrite B. cbn [andb].
         apply sl_bind with (Q1 := fun _ => False); [apply sl_raise|intros a []]. }
    revert acc Ha. induction d as [|[k x] d IH]; intros acc Ha; cbn [dict_fast].
    { apply sl_ret. apply cf_dict. exact Ha. }
    apply sl_bind with (Q1 := fun r => conforms w p env r kt).
    { destruct (basicb cfg kt) eqn:B; cbn [andb]; [|apply Hk].
      destruct (isinst w k kt) eqn:E; [|apply Hk]. apply sl_ret. apply isinst_conf; assumption. }
    intros k' Ck. apply sl_bind with (Q1 := fun r => conforms w p env r vt).
    { destruct (basicb cfg vt && isinst w x vt) eqn:E.
      - apply andb_prop in E as [B E]. apply sl_ret. apply isinst_conf; assumption.
      - destruct vf as [h|]; [|apply sl_raise]. apply Hcall; auto. }
    intros x' Cx. destruct (hashable w k'); [|apply sl_raise].
    apply IH. apply kv_conf_set; assumption.
  Qed.

  Lemma sl_dict_slow n0 kt vt d acc :
    G kt -> G vt -> kv_conf kt vt acc ->
    H (dict_slow w cfg call kt vt d acc) (fun r => conforms w p env r (TGen n0 ODict (Some [kt; vt]))).
  Proof using Gname Hcall.
    intros Gk Gv. revert acc. induction d as [|[k x] d IH]; intros acc Ha; cbn [dict_slow].
    { apply sl_ret. apply cf_dict. exact Ha. }
    eapply sl_bind; [apply sl_load_with; exact Gk|]. intros k' Ck.
    eapply sl_bind; [apply sl_load_with; exact Gv|]. intros x' Cx. cbv beta in *.
    destruct (hashable w k'); [|apply sl_raise]. apply IH. apply kv_conf_set; assumption.
  Qed.

  Lemma sl_dictload v n0 args :
    G (TGen n0 ODict args) ->
    H (dictload w cfg call v (TGen n0 ODict args))
      (fun r => conforms w p env r (TGen n0 ODict args)).
  Proof using Hstd Hwf Gcomp Gname Gdict Hcall Hcall_key Hpres.
    intro Gt. unfold dictload. cbn [ty_args].
    destruct args as [[|kt [|vt [|? ?]]]|]; try apply sl_raise.
    assert (Gk : G kt) by (eapply Gcomp; [exact Gt|left; reflexivity]).
    assert (Gv : G vt) by (eapply Gcomp; [exact Gt|right; left; reflexivity]).
    eapply sl_bind; [apply sl_lookup|]. intros kf0 F0. cbv beta in F0.
    apply sl_bind with (Q1 := fun kv =>
      (snd kv <> None /\ find_handler cfg kt = POk (fst kv) \/
       snd kv = None /\ find_handler cfg vt = POk (fst kv) /\ ~ warm vt) /\
      (forall h, snd kv = Some h -> find_handler cfg vt = POk h)).
    { intros s Hs. destruct (ty_get vt (st_index s)) as [h|] eqn:E.
      - split; [exact Hs|]. cbn [fst snd]. split; [left; split; [discriminate|exact F0]|].
        intros h' [= <-]. destruct Hs as [[C _ _] _]. apply C. exact E.
      - destruct (find_handler cfg vt) as [h|[]] eqn:F; split; auto.
        + apply Inv_index; assumption.
        + cbn [fst snd]. split; [|discriminate]. right. repeat split; auto.
          intro W. destruct Hs as [_ [_ [W' _]]]. exact (W' _ W E). }
    intros [kf vf] [HF Hv]. cbn [fst snd] in HF, Hv. apply sl_catch.
    - destruct (as_dict cfg v); try apply sl_raise.
      apply sl_dict_fast; auto; [|intros k x []].
      destruct HF as [[_ F]|[-> [F NW]]]; [left; intro k; apply Hcall; auto|].
      destruct (Gdict _ _ _ Gt) as [W|[B|[NN [c [-> [K Kc]]]]]]; [contradiction| |].
      + right. split; [reflexivity|]. rewrite basicb_in. exact B.
      + destruct (basicb cfg vt) eqn:B; [|right; auto]. left. intro k.
        assert (kf = HBasic) as ->.
        { rewrite (find_std w basic strcons) in F by exact Hstd. unfold chain in F.
          destruct (is_nonetype vt) eqn:N; [apply ty_eqb_eq in N; contradiction|].
          rewrite basicb_in in B. destruct vt; try discriminate. cbn [is_union] in F.
          rewrite B in F. congruence. }
        apply (Hcall_key k (TClass c) c); auto.
    - intro e. apply sl_catch.
      + destruct (as_dict cfg v); try apply sl_raise. apply sl_dict_slow; auto. intros k x [].
      + intros [[] m tr v0 t0 subs|[]]; apply sl_raise.
  Qed.

  (** ** Iterables *)
  Lemma set_add_In x y l : In y (set_add x l) -> y = x \/ In y l.
  Proof using.
    unfold set_add. destruct (py_in x l); [auto|]. rewrite in_app_iff. cbn. intuition.
  Qed.
  Lemma coll_add_In k x acc l : coll_add w k x acc = POk l -> forall y, In y l -> y = x \/ In y acc.
  Proof using.
    destruct k; cbn; try (intros [= <-] y; rewrite in_app_iff; cbn; intuition; fail);
      destruct (hashable w x); try discriminate; intros [= <-] y; apply set_add_In.
  Qed.
  Lemma sl_iter_loop k mp f v t l i acc (Q : value -> Prop) :
    (forall x, H (f x) Q) -> (forall x, In x acc -> Q x) ->
    H (iter_loop w k mp f v t l i acc) (fun r => exists l', r = mk_coll k l' /\ forall x, In x l' -> Q x).
  Proof using.
    intro Hf. revert i acc. induction l as [|x l IH]; intros i acc Ha; cbn [iter_loop].
    { apply sl_ret. eauto. }
    eapply sl_bind.
    { apply sl_attempt with (Q := fun l' => forall y, In y l' -> Q y).
      eapply sl_bind; [apply Hf|]. intros y Qy. apply sl_lift. intros l' C z Hz.
      destruct (coll_add_In _ _ _ _ C z Hz) as [->|Hz']; [exact Qy|auto]. }
    intros [acc'|e] Ha'; [apply IH; exact Ha'|]. destruct (stops mp e); [apply sl_ret; eauto|].
    destruct e as [k0 m tr v0 t0 subs|[]]; apply sl_raise.
  Qed.

  Lemma sl_iter_item h et x :
    G et -> find_handler cfg et = POk h -> H (iter_item w cfg call h et x) (fun r => conforms w p env r et).
  Proof using Hstd Hwf Hcall.
    intros Ge F. unfold iter_item. destruct (basicb cfg et) eqn:B.
    { destruct (isinst w x et) eqn:E; [apply sl_ret; apply isinst_conf; assumption|apply Hcall; assumption]. }
    assert (D : H (call h x et) (fun r => conforms w p env r et)) by (apply Hcall; assumption).
    destruct et as [| n o args | | | | | | ]; try exact D.
    destruct o; try exact D. destruct args as [us|]; try exact D.
    destruct (forallb (basicb cfg) us && mem_ty (TClass (type_of x)) us) eqn:E; [|exact D].
    apply andb_prop in E as [E1 E2]. apply mem_ty_In in E2. apply sl_ret.
    apply cf_union with (t := TClass (type_of x)); [exact E2|].
    apply isinst_conf; [|apply isinstance_self].
    rewrite forallb_forall in E1. apply E1. exact E2.
  Qed.

  Lemma sl_iterload k v n o et rest :
    G (TGen n o (Some (et :: rest))) ->
    H (iterload w cfg call k v (TGen n o (Some (et :: rest))))
      (fun r => exists l', r = mk_coll k l' /\ forall x, In x l' -> conforms w p env x et).
  Proof using Hstd Hwf Gcomp Hcall.
    intro Gt. assert (Ge : G et) by (eapply Gcomp; [exact Gt|left; reflexivity]).
    unfold iterload. cbn [ty_args].
    assert (D : H (h <- lookup_handler cfg (XTL KType (MCannotDeal et) [] (Some v) (Some et) []) et ;;
                   match iter v with
                   | Some l => iter_loop w k (mapped cfg et) (iter_item w cfg call h et) v (TGen n o (Some (et :: rest))) l 0 []
                   | None => raise (XTL KType (MPy RType) [] (Some v) (Some (TGen n o (Some (et :: rest)))) [])
                   end)
                  (fun r => exists l', r = mk_coll k l' /\ forall x, In x l' -> conforms w p env x et)).
    { eapply sl_bind; [apply sl_lookup|]. intros h F. cbv beta in F.
      destruct (iter v); [|apply sl_raise].
      apply sl_iter_loop; [intro x; apply sl_iter_item; assumption|intros x []]. }
    destruct v; try exact D. apply sl_raise.
  Qed.

  Lemma iterload_noargs k v t (Q : value -> Prop) :
    (ty_args t = None \/ ty_args t = Some []) -> H (iterload w cfg call k v t) Q.
  Proof using.
    intro A. unfold iterload. destruct v; try apply sl_raise; destruct A as [-> | ->]; apply sl_raise.
  Qed.

  Lemma sl_tuple_loop v t l ts i acc tacc :
    (forall x, In x ts -> G x) -> List.length ts <= List.length l ->
    Forall2 (conforms w p env) acc tacc ->
    H (tuple_loop cfg call v t l ts i acc)
      (fun r => exists ys, r = VTuple ys /\ Forall2 (conforms w p env) ys (tacc ++ ts)).
  Proof using Hstd Hwf Hcall.
    intros Gts. revert l i acc tacc. induction ts as [|et ts IH]; intros l i acc tacc L Ha; cbn [tuple_loop].
    { destruct l; apply sl_ret; exists acc; rewrite app_nil_r; auto. }
    destruct l as [|x l]; [cbn in L; lia|]. cbn in L.
    eapply sl_bind.
    { apply sl_attempt with (Q := fun y => conforms w p env y et).
      apply sl_bind with (Q1 := fun h => find_handler cfg et = POk h).
      - intros s Hs. destruct (ty_get et (st_index s)) as [h|] eqn:E.
        + split; [exact Hs|]. destruct Hs as [[C _ _] _]. apply C. exact E.
        + destruct (find_handler cfg et) as [h|r]; cbn; auto.
      - intros h F. destruct (basicb cfg et && exact x et) eqn:E.
        + apply andb_prop in E as [B E]. apply sl_ret. apply isinst_conf; [exact B|].
          unfold exact in E. apply ty_eqb_eq in E. subst et. apply isinstance_self.
        + apply Hcall; [apply Gts; left; reflexivity|exact F]. }
    intros [y|e] Hy.
    - eapply sl_weak; [apply IH with (tacc := tacc ++ [et])|].
      + intros z Hz. apply Gts. right. exact Hz.
      + lia.
      + apply Forall2_app; [exact Ha|]. constructor; [exact Hy|constructor].
      + intros r [ys [-> Hys]]. exists ys. split; [reflexivity|]. rewrite <- app_assoc in Hys. exact Hys.
    - destruct e as [k0 m tr v0 t0 subs|[]]; apply sl_raise.
  Qed.

  Lemma sl_tupleload v n args :
    G (TGen n OTuple args) ->
    H (tupleload w cfg call v (TGen n OTuple args)) (fun r => conforms w p env r (TGen n OTuple args)).
  Proof using Hstd Hwf Gcomp Hcall.
    intro Gt. unfold tupleload. cbn [ty_args]. destruct args as [ts|]; [|apply sl_raise].
    assert (D : H (match v with
                   | VDict _ => raise (XTL KType MDictTuple [] (Some v) (Some (TGen n OTuple (Some ts))) [])
                   | _ => match iter v with
                          | Some l =>
                              if failonextra cfg && Nat.ltb (List.length ts) (List.length l)
                              then raise (XTL KValue (MTooLong (TGen n OTuple (Some ts))) [] (Some v) (Some (TGen n OTuple (Some ts))) [])
                              else if Nat.ltb (List.length l) (List.length ts)
                              then raise (XTL KValue (MTooShort (TGen n OTuple (Some ts))) [] (Some v) (Some (TGen n OTuple (Some ts))) [])
                              else tuple_loop cfg call v (TGen n OTuple (Some ts)) l ts 0 []
                          | None => raise (XRaw RType)
                          end
                   end) (fun r => conforms w p env r (TGen n OTuple (Some ts)))).
    { assert (D2 : forall l, H (if failonextra cfg && Nat.ltb (List.length ts) (List.length l)
                              then raise (XTL KValue (MTooLong (TGen n OTuple (Some ts))) [] (Some v) (Some (TGen n OTuple (Some ts))) [])
                              else if Nat.ltb (List.length l) (List.length ts)
                              then raise (XTL KValue (MTooShort (TGen n OTuple (Some ts))) [] (Some v) (Some (TGen n OTuple (Some ts))) [])
                              else tuple_loop cfg call v (TGen n OTuple (Some ts)) l ts 0 [])
                           (fun r => conforms w p env r (TGen n OTuple (Some ts)))).
      { intro l. destruct (failonextra cfg && _); [apply sl_raise|].
        destruct (Nat.ltb_spec (List.length l) (List.length ts)); [apply sl_raise|].
        eapply sl_weak; [apply sl_tuple_loop with (tacc := [])|].
        - intros x Hx. eapply Gcomp; [exact Gt|exact Hx].
        - assumption.
        - constructor.
        - intros r [ys [-> Hys]]. apply cf_tuple. exact Hys. }
      destruct v; try apply sl_raise; cbn [iter]; try apply sl_raise; apply D2. }
    destruct ts as [|a [|b [|c ts]]]; try exact D; destruct b; try exact D.
    eapply sl_weak; [apply sl_iterload; exact Gt|]. intros r [l' [-> Hl]]. apply cf_vtuple. exact Hl.
  Qed.

  (** ** Objects *)
  Definition params_conf (c : cid) (ps : list (string * value)) : Prop :=
    forall k x, In (k, x) ps -> exists t, In (k, t) (declared w p c) /\ conforms w p env x t.

  Lemma sl_fields_loop c fields hints v t d acc :
    G (TClass c) ->
    (forall k ft, str_get k hints = Some ft -> In (k, ft) (declared w p c)) ->
    params_conf c acc ->
    H (fields_loop cfg call fields hints v t d acc) (params_conf c).
  Proof using Gcomp Hcall.
    intros Gc Hh. revert acc. induction d as [|[k x] d IH]; intros acc Ha; cbn [fields_loop].
    { apply sl_ret. exact Ha. }
    destruct k; try (apply IH; exact Ha).
    destruct (mem_str s fields); [|apply IH; exact Ha].
    destruct (str_get s hints) as [ft|] eqn:E; [|apply sl_raise].
    apply Hh in E.
    assert (Gf : G ft).
    { eapply Gcomp; [exact Gc|]. unfold component, comps. apply in_or_app. left.
      apply (in_map snd) in E. exact E. }
    eapply sl_bind; [apply sl_lookup|]. intros h F. cbv beta in F.
    apply sl_bind with (Q1 := fun r => conforms w p env r ft).
    { apply sl_catch; [apply Hcall; assumption|intro; apply sl_raise]. }
    intros y Cy. apply IH. intros k' x' Hin. apply in_app_or in Hin as [Hin|[[= <- <-]|[]]]; [auto|].
    eauto.
  Qed.

  Lemma bind_nt_spec nt ps vals :
    bind_nt nt ps = Some vals ->
    map fst vals = map fst nt /\
    forall k x, In (k, x) vals -> In (k, x) ps \/ In (k, Some x) nt.
  Proof using.
    revert vals. induction nt as [|[k d] nt IH]; intros vals; cbn [bind_nt].
    { intros [= <-]. split; [reflexivity|intros k x []]. }
    destruct (str_get k ps) as [x|] eqn:E.
    - destruct (bind_nt nt ps) as [vs|] eqn:B; cbn [option_map]; [|discriminate].
      intros [= <-]. destruct (IH _ eq_refl) as [I1 I2]. split; [cbn; f_equal; exact I1|].
      intros k' x' [[= <- <-]|Hin]; [left; apply str_get_In; exact E|].
      destruct (I2 _ _ Hin); [left; assumption|right; right; assumption].
    - destruct d as [x|]; [|discriminate].
      destruct (bind_nt nt ps) as [vs|] eqn:B; cbn [option_map]; [|discriminate].
      intros [= <-]. destruct (IH _ eq_refl) as [I1 I2]. split; [cbn; f_equal; exact I1|].
      intros k' x' [[= <- <-]|Hin]; [right; left; reflexivity|].
      destruct (I2 _ _ Hin); [left; assumption|right; right; assumption].
  Qed.

  Definition fdefault (f : field) (x : value) : Prop :=
    match f_default f with
    | DNo => False
    | DValue d | DFactory d => x = d
    | DFactorySelf g => exists sofar, x = g sofar
    end.
  Lemma default_of_spec f sofar x : default_of (f_default f) sofar = Some x -> fdefault f x.
  Proof using.
    unfold fdefault, default_of. destruct (f_default f); try discriminate; intros [= <-]; eauto.
  Qed.
  Lemma bind_fields_spec an fs ps sofar vals :
    bind_fields an fs ps sofar = Some vals ->
    exists new, vals = sofar ++ new /\ map fst new = instance_fields fs /\
      forall k x, In (k, x) new ->
        exists f, In f fs /\ f_name f = k /\
          (fdefault f x \/ f_init f = true /\ In (an k, x) ps).
  Proof using.
    revert sofar vals. induction fs as [|f fs IH]; intros sofar vals; cbn [bind_fields].
    { intros [= <-]. exists []. rewrite app_nil_r. repeat split; auto. intros k x []. }
    assert (STEP : forall x, (fdefault f x \/ f_init f = true /\ In (an (f_name f), x) ps) ->
              (f_init f = true \/ exists y, fdefault f y) ->
              bind_fields an fs ps (sofar ++ [(f_name f, x)]) = Some vals ->
              exists new, vals = sofar ++ new /\ map fst new = instance_fields (f :: fs) /\
              forall k x, In (k, x) new ->
              exists f0, In f0 (f :: fs) /\ f_name f0 = k /\
              (fdefault f0 x \/ f_init f0 = true /\ In (an k, x) ps)).
    { intros x Hx Hf B. destruct (IH _ _ B) as [new [E1 [E2 E3]]].
      exists ((f_name f, x) :: new). split; [rewrite E1, <- app_assoc; reflexivity|]. split.
      - unfold instance_fields in *. cbn [filter].
        assert ((f_init f || match f_default f with DNo => false | _ => true end) = true) as ->.
        { destruct Hf as [->|[y Hy]]; [reflexivity|]. apply orb_true_iff. right.
          unfold fdefault in Hy. destruct (f_default f); auto. }
        cbn [map fst]. f_equal. exact E2.
      - intros k y [[= <- <-]|Hin]; [exists f; split; [left; reflexivity|auto]|].
        destruct (E3 _ _ Hin) as [f0 [? ?]]. exists f0. split; [right; assumption|assumption]. }
    destruct (f_init f) eqn:FI.
    - destruct (str_get (an (f_name f)) ps) as [x|] eqn:E.
      { apply STEP; [right; split; [reflexivity|apply str_get_In; exact E]|auto]. }
      destruct (default_of (f_default f) sofar) as [x|] eqn:D; [|discriminate].
      apply default_of_spec in D. apply STEP; auto.
    - destruct (default_of (f_default f) sofar) as [x|] eqn:D.
      { apply default_of_spec in D. apply STEP; eauto. }
      intro B. destruct (IH _ _ B) as [new [E1 [E2 E3]]].
      exists new. split; [exact E1|]. split.
      + unfold instance_fields in *. cbn [filter]. rewrite FI.
        unfold default_of in D. destruct (f_default f); try discriminate. exact E2.
      + intros k y Hin. destruct (E3 _ _ Hin) as [f0 [? ?]]. exists f0. split; [right; assumption|assumption].
  Qed.

  Lemma declared_names_attrs c fs :
    kind_of_class w c = Some (KAT fs) -> map fst (declared w p c) = map f_name fs.
  Proof using. intro K. unfold declared. rewrite K. rewrite map_map. reflexivity. Qed.

  Lemma construct_conf c ps r :
    params_conf c ps -> construct w (TClass c) ps = POk r -> conforms w p env r (TClass c).
  Proof using Hwf.
    intros Hp. unfold construct.
    destruct (ci_nt (class_of w c)) as [nt|] eqn:N.
    { assert (K : kind_of_class w c = Some (KNT nt)) by (unfold kind_of_class; rewrite N; reflexivity).
      destruct (unexpected _ ps); [discriminate|].
      destruct (bind_nt nt ps) as [vals|] eqn:B; [|discriminate]. intros [= <-].
      destruct (bind_nt_spec _ _ _ B) as [B1 B2].
      eapply cf_namedtuple; [exact K|exact B1|]. intros k x Hin.
      destruct (B2 _ _ Hin) as [Hx|Hx]; [right; apply Hp; exact Hx|left].
      unfold is_default. rewrite K. exact Hx. }
    destruct (ci_dc (class_of w c)) as [fs|] eqn:D.
    { assert (K : kind_of_class w c = Some (KDC fs)) by (unfold kind_of_class; rewrite N, D; reflexivity).
      unfold construct_fields. destruct (unexpected _ ps); [discriminate|].
      destruct (bind_fields _ fs ps []) as [vals|] eqn:B; [|discriminate].
      destruct (ci_post (class_of w c) vals) as [vals'|] eqn:PO; [|discriminate]. intros [= <-].
      destruct (bind_fields_spec _ _ _ _ _ B) as [new [-> [B1 B2]]]. cbn [app] in *.
      eapply cf_object; [left; exact K|exact PO|exact B1|]. intros k x Hin.
      destruct (B2 _ _ Hin) as [f [Hf [Hn [Hd|[_ Hx]]]]]; [left|right; apply Hp; exact Hx].
      unfold is_default. rewrite K. exists f. auto. }
    destruct (ci_attrs (class_of w c)) as [fs|] eqn:A.
    { assert (K : kind_of_class w c = Some (KAT fs)) by (unfold kind_of_class; rewrite N, D, A; reflexivity).
      unfold construct_fields. destruct (unexpected _ ps); [discriminate|].
      destruct (bind_fields _ fs ps []) as [vals|] eqn:B; [|discriminate].
      destruct (ci_post (class_of w c) vals) as [vals'|] eqn:PO; [|discriminate]. intros [= <-].
      destruct (bind_fields_spec _ _ _ _ _ B) as [new [-> [B1 B2]]]. cbn [app] in *.
      eapply cf_object; [right; exact K|exact PO|exact B1|]. intros k x Hin.
      destruct (B2 _ _ Hin) as [f [Hf [Hn [Hd|[FI Hx]]]]].
      - left. unfold is_default. rewrite K. exists f. auto.
      - right. subst k. destruct (Hp _ _ Hx) as [t [Ht Hc]]. exists t. split; [|exact Hc].
        assert (strip_underscore (f_name f) = f_name f) as E; [|rewrite E in Ht; exact Ht].
        eapply wf_attrs; eauto. rewrite <- (declared_names_attrs c fs K).
        apply (in_map fst) in Ht. exact Ht. }
    destruct (ci_td (class_of w c)) as [req|] eqn:T; [|discriminate].
    assert (K : kind_of_class w c = Some (KTD req)) by (unfold kind_of_class; rewrite N, D, A, T; reflexivity).
    intros [= <-]. eapply cf_typeddict; [exact K|]. intros k x Hin.
    apply in_map_iff in Hin as [[s y] [[= <- <-] Hin]]. destruct (Hp _ _ Hin) as [t [Ht Hc]].
    exists s, t. auto.
  Qed.

  Lemma sl_objloader c fields nec hints v :
    G (TClass c) ->
    (forall k ft, str_get k hints = Some ft -> In (k, ft) (declared w p c)) ->
    H (objloader w cfg call fields nec hints v (TClass c)) (fun r => conforms w p env r (TClass c)).
  Proof using Hwf Gcomp Hcall.
    intros Gc Hh. unfold objloader. destruct (as_dict cfg v); try apply sl_raise.
    destruct (filter _ nec); [|apply sl_raise].
    destruct (_ && _); [destruct (all_str _); apply sl_raise|].
    eapply sl_bind; [apply sl_fields_loop with (c := c); auto; intros k x []|].
    intros ps Hp. destruct (construct w (TClass c) ps) as [r|[]] eqn:C; try apply sl_raise.
    apply sl_ret. eapply construct_conf; eauto.
  Qed.

  Lemma sl_mangle names v t : H (mangle cfg names v t) (fun _ => True).
  Proof using.
    unfold mangle. destruct names; [apply sl_ret; exact I|]. destruct v; try apply sl_raise.
    destruct (mangle_loop _ _ _ _ _); [apply sl_ret; exact I|apply sl_raise].
  Qed.

  Lemma dataclass_info_hints c fs oi :
    kind_of_class w c = Some (KDC fs) -> dataclass_info w cfg c fs = POk oi -> oi_hints oi = declared w p c.
  Proof using.
    intro K. unfold dataclass_info, declared, declared_types. rewrite K.
    case p; [destruct (ci_hints (class_of w c)); try discriminate|]; intros [= <-]; reflexivity.
  Qed.

  Lemma sl_dataclassload v c fs :
    G (TClass c) -> ci_dc (class_of w c) = Some fs -> ci_nt (class_of w c) = None ->
    H (dataclassload w cfg call v (TClass c)) (fun r => conforms w p env r (TClass c)).
  Proof using Hwf Gcomp Hcall.
    intros Gc D N. assert (K : kind_of_class w c = Some (KDC fs)) by (unfold kind_of_class; rewrite N, D; reflexivity).
    unfold dataclassload. apply sl_bind with (Q1 := fun oi => dataclass_info w cfg c fs = POk oi).
    { intros s Hs. destruct (ty_get (TClass c) (st_fields s)) as [oi|] eqn:E.
      - split; [exact Hs|]. destruct Hs as [[_ C _] _]. destruct (C _ _ E) as [c' [fs' [[= <-] [D' O]]]].
        congruence.
      - rewrite D. destruct (dataclass_info w cfg c fs) as [oi|r] eqn:O; split; auto.
        destruct Hs as [Hs R]. split; [|exact R]. eapply coh_set_fields; eauto. }
    intros oi O. eapply sl_bind; [apply sl_mangle|]. intros v' _.
    apply sl_objloader; [exact Gc|]. rewrite (dataclass_info_hints _ _ _ K O).
    intros k ft E. apply str_get_In. exact E.
  Qed.

  Lemma sl_namedtupleload v c nt :
    G (TClass c) -> ci_nt (class_of w c) = Some nt ->
    H (namedtupleload w cfg call v (TClass c)) (fun r => conforms w p env r (TClass c)).
  Proof using Hwf Gcomp Hcall.
    intros Gc N. assert (K : kind_of_class w c = Some (KNT nt)) by (unfold kind_of_class; rewrite N; reflexivity).
    unfold namedtupleload. rewrite N.
    eapply sl_bind with (Q1 := fun hints => hints = declared w p c).
    { apply sl_lift. intros a E. unfold declared, declared_types. rewrite K.
      revert E. case p; intro E; [rewrite E; reflexivity|congruence]. }
    intros hints ->. apply sl_objloader; [exact Gc|]. intros k ft E. apply str_get_In. exact E.
  Qed.

  Lemma strip_strip c :
    map (fun kt => (fst kt, strip_notrequired (snd kt)))
        (map (fun kt => (fst kt, strip_notrequired (snd kt))) (ci_ann (class_of w c)))
    = map (fun kt => (fst kt, unwrap (snd kt))) (ci_ann (class_of w c)).
  Proof using Hwf.
    rewrite map_map. apply map_ext_in. intros [k t] Hin. cbn [fst snd]. f_equal.
    rewrite !unwrap_strip. eapply wf_notrequired; eauto.
  Qed.

  Lemma sl_typeddictload v c req :
    G (TClass c) -> ci_td (class_of w c) = Some req ->
    ci_nt (class_of w c) = None -> ci_dc (class_of w c) = None ->
    H (typeddictload w cfg call v (TClass c)) (fun r => conforms w p env r (TClass c)).
  Proof using Hwf Gcomp Hcall.
    intros Gc T N D.
    assert (A : ci_attrs (class_of w c) = None) by (apply (wf_td _ _ _ Hwf); congruence).
    assert (K : kind_of_class w c = Some (KTD req)) by (unfold kind_of_class; rewrite N, D, A, T; reflexivity).
    unfold typeddictload. rewrite T.
    eapply sl_bind; [apply hl_get|]. intros s Hs. cbv beta in Hs.
    eapply sl_bind with (Q1 := fun hints =>
        map (fun kt => (fst kt, strip_notrequired (snd kt))) hints = declared w p c).
    { apply sl_lift. intros a E. unfold declared, declared_types. rewrite K.
      revert E. case p; intro E; [rewrite E; reflexivity|]. injection E as <-. unfold annotations.
      destruct (mem_cid c (st_stripped s)); [apply strip_strip|reflexivity]. }
    intros hints Eh. eapply sl_bind.
    { apply hl_mod. intros s' Hs'. case p; [exact Hs'|].
      destruct Hs' as [C R]. split; [apply coh_set_stripped; exact C|exact R]. }
    intros _ _. apply sl_objloader; [exact Gc|]. rewrite Eh. intros k ft E. apply str_get_In. exact E.
  Qed.

  Lemma attr_hints_spec fs hints :
    attr_hints fs = POk hints -> hints = map (fun f => (f_name f, attr_type f)) fs.
  Proof using.
    revert hints. induction fs as [|f fs IH]; intros hints; cbn [attr_hints]; [intros [= <-]; reflexivity|].
    assert (E : forall t, (match f_conv f with Some hs => converter_type hs | None => POk (f_type f) end) = POk t ->
                          t = attr_type f).
    { intro t. unfold attr_type. destruct (f_conv f) as [hs|]; [|intros [= <-]; reflexivity].
      unfold converter_type. destruct hs as [|h1 [|h2 [|h3 hs]]]; cbn [List.length Nat.ltb Nat.leb andb];
        try (intros [= <-]; reflexivity); destruct (filter _ _) as [|[? ?] ?]; congruence. }
    destruct (match f_conv f with Some hs => converter_type hs | None => POk (f_type f) end) as [t|]; [|discriminate].
    destruct (attr_hints fs) as [l|]; [|discriminate]. intros [= <-]. cbn [map].
    rewrite (E t eq_refl), (IH l eq_refl). reflexivity.
  Qed.

  Lemma sl_attrload v c fs :
    G (TClass c) -> ci_attrs (class_of w c) = Some fs ->
    ci_nt (class_of w c) = None -> ci_dc (class_of w c) = None ->
    H (attrload w cfg call v (TClass c)) (fun r => conforms w p env r (TClass c)).
  Proof using Hwf Gcomp Hcall.
    intros Gc A N D.
    assert (K : kind_of_class w c = Some (KAT fs)) by (unfold kind_of_class; rewrite N, D, A; reflexivity).
    unfold attrload. rewrite A.
    eapply sl_bind with (Q1 := fun hints => hints = declared w p c).
    { apply sl_lift. intros a E. unfold declared. rewrite K. apply attr_hints_spec. exact E. }
    intros hints ->. eapply sl_bind; [apply sl_mangle|]. intros v' _.
    apply sl_objloader; [exact Gc|]. intros k ft E. apply str_get_In. exact E.
  Qed.

  (** ** Unions *)
  Lemma disc_set_types l t d x : In x (map snd (disc_set l t d)) -> x = t \/ In x (map snd d).
  Proof using.
    induction d as [|[l' t'] d IH]; cbn; [intuition|].
    destruct (py_eqb l l'); cbn; intuition.
  Qed.
  Lemma disc_get_types l d x : disc_get l d = Some x -> In x (map snd d).
  Proof using.
    induction d as [|[l' t'] d IH]; cbn; [discriminate|].
    destruct (py_eqb l l'); [intros [= <-]; auto|auto].
  Qed.
  Lemma build_disc_types s args key cd x :
    build_disc w s args = Some (key, cd) -> In x (map snd cd) -> In x args.
  Proof using.
    unfold build_disc. destruct (nth_error _ _) as [key'|]; [|discriminate]. intros [= -> <-].
    assert (Hacc : forall x, In x (map snd (@nil (value * ty))) -> In x args) by (intros ? []).
    assert (Hdata : forall td, In td (map (fun t => (t, discriminatorliterals w s t)) args) -> In (fst td) args).
    { intros td Hin. apply in_map_iff in Hin as [t [<- Ht]]. exact Ht. }
    revert Hacc Hdata. generalize (@nil (value * ty)) as acc.
    generalize (map (fun t => (t, discriminatorliterals w s t)) args) as data.
    induction data as [|td data IH]; intros acc Hacc Hdata; cbn [fold_left]; [apply Hacc|].
    apply IH; [|intros td' Hin; apply Hdata; right; exact Hin].
    destruct (str_get key (snd td)) as [vals|]; [|exact Hacc].
    assert (Ht : In (fst td) args) by (apply Hdata; left; reflexivity).
    clear IH Hdata. revert acc Hacc. induction vals as [|l vals IHv]; intros acc Hacc; cbn [fold_left]; [exact Hacc|].
    apply IHv. intros y Hy. apply disc_set_types in Hy as [->|Hy]; auto.
  Qed.
  Lemma remove_first_In x t l : In x (remove_first t l) -> In x l.
  Proof using.
    induction l as [|y l IH]; cbn; [auto|]. destruct (ty_eqb t y); cbn; intuition.
  Qed.

  Lemma sl_prefer v t args sorted :
    ty_args t = Some args -> (forall x, In x sorted -> In x args) ->
    H (prefer w v t args sorted) (fun l => forall x, In x l -> In x args).
  Proof using.
    intros A Hs. unfold prefer. destruct v; try (apply sl_ret; exact Hs).
    apply sl_bind with (Q1 := fun dc => forall key cd x, dc = Some (key, cd) -> In x (map snd cd) -> In x args).
    { intros s I0. destruct (same_get t (st_disc s)) as [dc|] eqn:E.
      - split; [exact I0|]. destruct I0 as [[_ _ C] _]. destruct (C _ _ E) as [args0 [args' [s' [A' [Sm ->]]]]].
        assert (args0 = args) by congruence. subst args0. intros key cd x B I. apply Sm. revert B I. apply build_disc_types.
      - split; [|intros key cd x; apply build_disc_types].
        destruct I0 as [C R]. split; [apply coh_set_disc; assumption|exact R]. }
    intros [[key [|lt cd]]|] Hd; try (apply sl_ret; exact Hs).
    destruct (hashable w _); [|apply sl_raise].
    destruct (disc_get _ (lt :: cd)) as [pt|] eqn:DG; apply sl_ret; [|exact Hs].
    intros x [<-|Hin]; [|apply Hs; eapply remove_first_In; exact Hin].
    eapply Hd; [reflexivity|]. eapply disc_get_types. exact DG.
  Qed.

  Lemma sl_try_members v t args ts n r exs :
    (forall x, In x args -> G x) -> (forall x, In x ts -> In x args) ->
    (n = 0 \/ exists x, In x args /\ conforms w p env r x) ->
    H (try_members cfg call v t ts n r exs)
      (fun nre => fst (fst nre) = 0 \/ exists x, In x args /\ conforms w p env (snd (fst nre)) x).
  Proof using Hcall.
    intros Ga. revert n r exs. induction ts as [|x ts IH]; intros n r exs Hts Hn; cbn [try_members].
    { apply sl_ret. exact Hn. }
    eapply sl_bind.
    { apply sl_attempt with (Q := fun r' => conforms w p env r' x).
      eapply sl_bind; [apply sl_lookup|]. intros h F. apply Hcall; [|exact F].
      apply Ga. apply Hts. left. reflexivity. }
    assert (Hx : In x args) by (apply Hts; left; reflexivity).
    intros [r'|e] Hr.
    - destruct (uniondebugconflict cfg).
      + apply IH; [intros y Hy; apply Hts; right; exact Hy|eauto].
      + apply sl_ret. cbn. eauto.
    - destruct e as [k m tr v0 t0 subs|k]; [|apply sl_raise].
      apply IH; [intros y Hy; apply Hts; right; exact Hy|exact Hn].
  Qed.

  Lemma sl_unionload v n args :
    G (TGen n OUnion (Some args)) ->
    H (unionload w cfg call v (TGen n OUnion (Some args)))
      (fun r => conforms w p env r (TGen n OUnion (Some args))).
  Proof using Hstd Hwf Gcomp Hcall.
    intro Gt. unfold unionload. cbn [ty_args].
    destruct (basicb cfg (TClass (type_of v)) && mem_ty (TClass (type_of v)) args) eqn:E.
    { apply andb_prop in E as [B E]. apply mem_ty_In in E. apply sl_ret.
      eapply cf_union; [exact E|]. apply isinst_conf; [exact B|apply isinstance_self]. }
    eapply sl_bind.
    { apply sl_prefer; [reflexivity|]. intros x Hx.
      apply in_app_or in Hx as [Hx|Hx]; apply filter_In in Hx; apply Hx. }
    intros ts Hts. eapply sl_bind.
    { apply sl_try_members with (args := args); [|exact Hts|left; reflexivity].
      intros x Hx. eapply Gcomp; [exact Gt|exact Hx]. }
    intros [[k r] exs] Hr. cbn [fst snd] in Hr.
    destruct k as [|[|k]]; try apply sl_raise. destruct Hr as [Hr|[x [Hx Cx]]]; [discriminate|].
    apply sl_ret. eapply cf_union; eassumption.
  Qed.

  (** ** The remaining handlers *)
  Lemma sl_enum_hints v c ts exs :
    (forall x, In x ts -> G x) ->
    H (enum_hints w cfg call v (TClass c) ts exs)
      (fun o => match o with inl r => exists y, call_type w (TClass c) y = POk r | inr _ => True end).
  Proof using Gname Hcall.
    intros Gts. revert exs. induction ts as [|x ts IH]; intros exs; cbn [enum_hints].
    { apply sl_ret. exact I. }
    eapply sl_bind.
    { apply sl_attempt with (Q := fun r => exists y, call_type w (TClass c) y = POk r).
      eapply sl_bind; [apply sl_load_with; apply Gts; left; reflexivity|].
      intros y _. apply sl_lift. eauto. }
    intros [r|e] Hr; [apply sl_ret; exact Hr|]. apply IH. intros y Hy. apply Gts. right. exact Hy.
  Qed.

  Lemma sl_enumload v c ms :
    G (TClass c) -> ci_enum (class_of w c) = Some ms ->
    H (enumload w cfg call v (TClass c)) (fun r => conforms w p env r (TClass c)).
  Proof using Hwf Gcomp Gname Hcall.
    intros Gc E. assert (NE : ci_enum (class_of w c) <> None) by congruence.
    assert (K : kind_of_class w c = None) by (eapply wf_enum; eauto).
    assert (D : forall y r, call_type w (TClass c) y = POk r -> conforms w p env r (TClass c)).
    { intros y r C. apply cf_class; [exact K|]. eapply call_type_inst; eauto. }
    unfold enumload. destruct (call_type w (TClass c) v) as [r|r] eqn:C; [apply sl_ret; eauto|].
    eapply sl_bind with (Q1 := fun hints => ci_hints (class_of w c) = POk hints).
    { apply sl_lift. auto. }
    intros hints Hh. eapply sl_bind; [apply sl_enum_hints|].
    { intros x Hx. eapply Gcomp; [exact Gc|]. unfold component, comps. apply in_or_app. right.
      rewrite E, Hh. exact Hx. }
    intros [r'|exs] Hr; [apply sl_ret|apply sl_raise]. destruct Hr as [y Hy]. eauto.
  Qed.

  Lemma builtin_plain c : (match c with CUser _ => False | _ => True end) -> kind_of_class w c = None.
  Proof using. destruct c; intros []; reflexivity. Qed.

  Lemma sl_body h v t :
    G t -> find_handler cfg t = POk h -> H (body w cfg call h v t) (fun r => conforms w p env r t).
  Proof using Hstd Hwf Gcomp Gname Gdict Hcall Hcall_key Hpres.
    intros Gt F. pose proof (std_selected w basic strcons cfg t h Hstd F) as Sel.
    destruct h; cbn [selected] in Sel; cbn [body].
    - subst t. unfold noneload. destruct v; try apply sl_raise. apply sl_ret.
      apply cf_class; [apply builtin_plain; exact I|reflexivity].
    - destruct Sel as [n [args ->]]. apply sl_unionload. exact Gt.
    - destruct Sel as [c [-> [B _]]]. apply sl_basicload; [eapply wf_basic; eauto|auto].
    - destruct Sel as [c [ms [-> [E _]]]]. eapply sl_enumload; eauto.
    - destruct Sel as [n [args ->]]. apply sl_tupleload. exact Gt.
    - destruct Sel as [n [args ->]].
      destruct args as [[|et rest]|]; try (apply iterload_noargs; cbn; auto; fail).
      eapply sl_weak; [apply sl_iterload; exact Gt|]. intros r [l [-> Hl]]. apply cf_list. exact Hl.
    - destruct Sel as [n [args ->]]. apply sl_dictload. exact Gt.
    - destruct Sel as [n [args ->]].
      destruct args as [[|et rest]|]; try (apply iterload_noargs; cbn; auto; fail).
      eapply sl_weak; [apply sl_iterload; exact Gt|]. intros r [l [-> Hl]]. apply cf_set. exact Hl.
    - destruct Sel as [n [args ->]].
      destruct args as [[|et rest]|]; try (apply iterload_noargs; cbn; auto; fail).
      eapply sl_weak; [apply sl_iterload; exact Gt|]. intros r [l [-> Hl]]. apply cf_frozenset. exact Hl.
    - destruct Sel as [c [nt [-> [N _]]]]. eapply sl_namedtupleload; eauto.
    - destruct Sel as [c [fs [-> [D [N _]]]]]. eapply sl_dataclassload; eauto.
    - destruct Sel as [n ->]. unfold forwardrefload.
      eapply sl_bind; [apply hl_get|]. intros s [_ [Hs _]].
      destruct (st_frefs s) as [fr|]; [|apply sl_raise].
      destruct (str_get n fr) as [t'|] eqn:E; [|apply sl_raise].
      pose proof (Hs _ _ _ eq_refl E Gt) as En.
      eapply sl_weak; [apply sl_load_with|].
      + eapply Gcomp; [exact Gt|]. unfold component, comps. rewrite En. left. reflexivity.
      + intros r Hr. eapply cf_forward; eassumption.
    - destruct Sel as [vals ->]. unfold literalload. destruct (py_in v vals) eqn:E; [|apply sl_raise].
      apply sl_ret. apply cf_literal. exact E.
    - destruct Sel as [c [req [-> [T [N [D _]]]]]]. eapply sl_typeddictload; eauto.
    - assert (K : exists c, t = TClass c /\ kind_of_class w c = None).
      { destruct Sel as [->|[->| ->]]; eexists; split; try reflexivity. }
      destruct K as [c [-> K]]. unfold datetimeload.
      assert (D : forall r, (match v with
               | VStr s => w_fromiso w c s
               | _ => match iter v with
                      | Some l => w_callargs w c l
                      | None => PExc RType
                      end
               end) = POk r -> conforms w p env r (TClass c)).
      { intros r E. apply cf_class; [exact K|].
        destruct v; cbn in E; try discriminate; try (eapply wf_callargs; eassumption).
        eapply wf_fromiso; eassumption. }
      destruct (match v with VStr s => w_fromiso w c s | _ => _ end) as [r|[]]; try apply sl_raise.
      apply sl_ret. apply D. reflexivity.
    - unfold patternload. destruct (w_compile w v) as [r|[]] eqn:C; try apply sl_raise.
      apply sl_ret. apply (wf_compile _ _ _ Hwf) in C.
      destruct Sel as [->|[n [args ->]]]; [apply cf_class; [reflexivity|exact C]|apply cf_pattern; exact C].
    - subst t. unfold timedeltaload. destruct (w_timedelta w v) as [r|[]] eqn:C; try apply sl_raise.
      apply sl_ret. apply cf_class; [reflexivity|]. eapply wf_timedelta; eauto.
    - destruct Sel as [c [-> [SC [NB [NE [N [D T]]]]]]]. unfold strconsload.
      destruct (call_type w (TClass c) v) as [r|[]] eqn:C; try apply sl_raise.
      apply sl_ret. apply cf_class; [|eapply call_type_inst; eauto].
      unfold kind_of_class. rewrite N, D, T, (wf_strcons _ _ _ Hwf c SC). reflexivity.
    - destruct Sel as [c [fs [-> [A [N [D _]]]]]]. eapply sl_attrload; eauto.
    - subst t. apply sl_ret. apply cf_any.
    - destruct Sel as [n [su ->]]. unfold newtypeload.
      eapply sl_weak; [apply sl_load_with; eapply Gcomp; [exact Gt|left; reflexivity]|].
      intros r Hr. apply cf_newtype. exact Hr.
    - contradiction.
  Qed.
End Sound.

Section SoundRun.
  Variable w : world.
  Variables basic strcons : list cid.
  Variable cfg : config.
  Hypothesis Hstd : is_std w basic strcons cfg.
  Hypothesis Hwf : wf_world w basic strcons.
  Variable env : string -> option ty.
  Variable G : ty -> Prop.
  Notation p := (pep563 cfg).
  Hypothesis Gcomp : forall t t', G t -> component w p env t t' -> G t'.
  Variable warm : ty -> Prop.
  Variable pinned : string -> Prop.
  Hypothesis Gname : forall t n, w_name w t = Some n -> G (TForward n) -> pinned n \/ env n = Some t.
  Hypothesis Gdict : forall n kt vt, G (TGen n ODict (Some [kt; vt])) ->
      warm vt \/ dict_ok w basic strcons kt vt.
  Notation INV := (Inv w cfg env G warm pinned).

  Lemma Inv_run n h v t s : INV s -> INV (snd (run w cfg n h v t s)).
  Proof using Gname.
    apply (pr_run w cfg (fun a b => INV a -> INV b)); auto.
    - intros s0 t0 h0 _ F. apply Inv_index. exact F.
    - intros s0 t0. apply Inv_register. exact Gname.
    - intros s0 c fs oi _ D O [C R]. split; [eapply coh_set_fields; eauto|exact R].
    - intros s0 t0 args _ A [C R]. split; [apply coh_set_disc; assumption|exact R].
    - intros s0 c _ [C R]. split; [apply coh_set_stripped; exact C|exact R].
  Qed.

  Lemma sound_run n :
    (forall h v t, G t -> find_handler cfg t = POk h ->
       hl INV (run w cfg n h v t) (fun r => conforms w p env r t) (fun _ => True)) /\
    (forall v kt c, kt = TClass c -> kind_of_class w c = None ->
       In c basic \/ In c strcons \/ ci_enum (class_of w c) <> None ->
       hl INV (run w cfg n HBasic v kt) (fun r => conforms w p env r kt) (fun _ => True)).
  Proof using Hstd Hwf Gcomp Gname Gdict.
    induction n as [|n [IH1 IH2]].
    { split; intros; intros s Hs; exact Hs. }
    split.
    - intros h v t Gt F. cbn [run]. eapply sl_body; eauto.
      intros h' v' t' s'. apply Inv_run.
    - intros v kt c -> K Kc. cbn [run body]. eapply sl_basicload; eauto.
  Qed.

  Lemma sound_load n v t a s r :
    G t -> INV s ->
    fst (load_ann w cfg n v t a s) = Ok r -> conforms w p env r t.
  Proof using Hstd Hwf Gcomp Gname Gdict.
    intros Gt Hs0. unfold load_ann.
    pose proof (sl_load_with w cfg env G warm pinned Gname (run w cfg n) (proj1 (sound_run n)) v t a Gt s Hs0) as L.
    destruct (load_with w cfg (run w cfg n) v t a s) as [[x|e|] s1]; cbn [fst]; intros [= <-]; apply L.
  Qed.
End SoundRun.
