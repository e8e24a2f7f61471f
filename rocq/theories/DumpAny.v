(** * Dumpers with any handlers *)

From Verif Require Import Loader Dumper Spec Vocab Inv Fuel Simple Index Dumps Facts5.

Section DumpAny.
  Variable w : world.
  Variable cfg : dconfig.

  (** the handlers, without the caches *)
  Section Pure.
    Variable D : value -> ty -> res value.
    Fixpoint gprog (p : dprog) : res value :=
      match p with
      | DPRet v => Ok v
      | DPRaise e => Exc e
      | DPDump v t k =>
          match D v t with
          | Ok a => gprog (k (inl a))
          | Exc e => gprog (k (inr e))
          | OOF => OOF
          end
      end.
    Definition gbody (h : dhandler) (v : value) (t : ty) : res value :=
      match h with
      | DCustom f => gprog (f v t)
      | _ => pbody w cfg D h v t
      end.
  End Pure.
  Fixpoint gdump (n : nat) (v : value) (t : ty) : res value :=
    match dfind cfg v with
    | inr e => Exc e
    | inl h => match n with 0 => OOF | S n' => gbody (gdump n') h v t end
    end.

  Lemma dselects_find v h : dselects cfg v h <-> dfind cfg v = inl h.
  Proof using.
    unfold dselects, dfind. split.
    - intros [i [c [M E]]]. apply c32_dleast in M. rewrite M, E. reflexivity.
    - destruct (dindex cfg v) as [i|] eqn:Q; [|discriminate].
      destruct (nth_error (d_handlers cfg) i) as [[c h']|] eqn:E; [|discriminate]. intros [= ->].
      exists i, c. split; [apply c32_dleast; exact Q|exact E].
  Qed.

  Hypothesis Hcls : class_handlers w cfg.
  Hypothesis Hsane : sane_handlers w cfg.
  Notation agrees := (agrees w cfg).
  Notation dcoh := (dcoh w cfg).

  Lemma find_class v v' h : python_object w v -> python_object w v' -> type_of v = type_of v' -> dfind cfg v = inl h -> dfind cfg v' = inl h.
  Proof using Hcls. intros P P' E. rewrite <- !dselects_find. apply Hcls; assumption. Qed.
  Lemma dfind_In v h : dfind cfg v = inl h -> exists c, In (c, h) (d_handlers cfg).
  Proof using.
    unfold dfind. destruct (dindex cfg v) as [i|]; [|discriminate].
    destruct (nth_error (d_handlers cfg) i) as [[c h']|] eqn:E; [|discriminate]. intros [= ->].
    exists c. eapply nth_error_In. exact E.
  Qed.

  Lemma gg_dump_with call x t r :
    python_object w x ->
    (forall h, dfind cfg x = inl h -> agrees (call h x t) (r h)) ->
    agrees (dump_with cfg call x t) (match dfind cfg x with inr e => Exc e | inl h => r h end).
  Proof using Hcls.
    intros P H s C. unfold dump_with, bind.
    destruct (cid_get (type_of x) (ds_cache s)) as [h|] eqn:E.
    - rewrite (proj1 C x h P E). apply (H h (proj1 C x h P E) s C).
    - destruct (dfind cfg x) as [h|e] eqn:F; [|split; [reflexivity|split; [exact C|constructor]]].
      assert (C' : dcoh (mkDState ((type_of x, h) :: ds_cache s) (ds_dc s))); [|
        destruct (H h eq_refl _ C') as [E1 [C1 W1]]; split; [exact E1|]; split; [exact C1|];
        eapply dw_then; [eapply dw_handler; eassumption|exact W1]].
      split; [|apply C]. cbn [ds_cache]. intros v h0 Pv. cbn [cid_get].
      destruct (cid_eqb (type_of v) (type_of x)) eqn:Q; [|apply (proj1 C v h0 Pv)].
      apply cid_eqb_eq in Q. intros [= <-]. apply (find_class x v); auto.
  Qed.

  Lemma chars_pv s x : In x (chars s) -> python_value w x.
  Proof using.
    induction s as [|c s IH]; cbn; [contradiction|]. intros [<-|I]; [|apply IH; exact I].
    intros y Hy. inversion Hy as [|z z' Hz _]; subst; [exact Logic.I|inversion Hz].
  Qed.
  Lemma bytes_pv s x : In x (bytes_of s) -> python_value w x.
  Proof using.
    induction s as [|c s IH]; cbn [bytes_of]; [contradiction|]. intros [<-|I]; [|apply IH; exact I].
    intros y Hy. inversion Hy as [|z z' Hz _]; subst; [exact Logic.I|inversion Hz].
  Qed.
  Lemma iter_pv v l x : python_value w v -> iter v = Some l -> In x l -> python_value w x.
  Proof using.
    intros P E I. destruct v; cbn in E; try discriminate; injection E as <-;
      try (eapply pv_holds; [exact P|constructor; exact I]).
    - eapply chars_pv; exact I.
    - eapply bytes_pv; exact I.
    - apply in_map_iff in I as [[k x'] [<- I]]. eapply pv_holds; [exact P|]. eapply holds_key. exact I.
    - apply in_map_iff in I as [[k x'] [<- I]]. eapply pv_holds; [exact P|]. eapply holds_nt. exact I.
  Qed.

  Lemma gg_prog call D p : sane_prog w p ->
    (forall x t', python_value w x -> agrees (dump_with cfg call x t') (D x t')) ->
    agrees (run_dprog cfg call p) (gprog D p).
  Proof using.
    intros Sp H. induction Sp as [v|e|v t k Pv _ IH]; cbn [run_dprog gprog]; [apply ag_ret|apply ag_raise|].
    intros s C. unfold bind, attempt. destruct (H v t Pv s C) as [E [C' W]].
    destruct (dump_with cfg call v t s) as [[a|e|] s'] eqn:Q; cbn [fst snd] in *; rewrite <- E;
      [destruct (IH (inl a) s' C') as [E2 [C2 W2]]|destruct (IH (inr e) s' C') as [E2 [C2 W2]]|split; [reflexivity|split; assumption]];
      (split; [exact E2|]; split; [exact C2|]; eapply dw_then; eassumption).
  Qed.

  Lemma gg_body call D h v t :
    dfind cfg v = inl h -> python_value w v ->
    (forall x t', python_value w x -> agrees (dump_with cfg call x t') (D x t')) ->
    agrees (dbody w cfg call h v t) (gbody D h v t).
  Proof using Hsane.
    intros F P H. assert (Hh : forall x t', holds v x -> agrees (dump_with cfg call x t') (D x t')).
    { intros x t' I. apply H. eapply pv_holds; eassumption. }
    destruct h; cbn [dbody gbody pbody].
    - apply ag_ret.
    - unfold namedtupledump. destruct v; try apply ag_raise. apply ag_nt_loop.
      intros f x I t'. apply Hh. eapply holds_nt. exact I.
    - unfold dataclassdump. destruct (ci_dc (class_of w (type_of v))) as [fs|] eqn:E; [|apply ag_raise].
      apply ag_bind; [|intros i _; apply ag_dc_loop; intros f x G t'; apply Hh; eapply getattr_holds; exact G].
      intros s C. destruct (cid_get (type_of v) (ds_dc s)) as [i|] eqn:Q.
      + destruct (proj2 C _ _ Q) as [fs' [E' I]]. rewrite E in E'. injection E' as <-. rewrite I. split; [reflexivity|split; [exact C|constructor]].
      + destruct (dc_info w (type_of v) fs) as [i|r] eqn:I; [|split; [reflexivity|split; [exact C|constructor]]].
        split; [reflexivity|]. split; [|eapply dw_fields; eassumption]. split; [apply C|]. cbn [ds_dc snd cid_get]. intros c j.
        destruct (cid_eqb c (type_of v)) eqn:Q'; [|apply (proj2 C)].
        apply cid_eqb_eq in Q'. subst c. intros [= <-]. eauto.
    - unfold iteratordump. destruct (iter v) as [l|] eqn:E; [|apply ag_raise].
      destruct (_ && _); [apply ag_ret|]. apply ag_dump_list. intros x I t'. apply H. eapply iter_pv; eassumption.
    - destruct v; try apply ag_raise. apply Hh. constructor.
    - destruct v; try apply ag_raise. apply ag_dict_loop. intros k x I t'.
      split; apply Hh; [eapply holds_key|eapply holds_value]; exact I.
    - unfold attrdump. destruct (ci_attrs _); [|apply ag_raise]. apply ag_attr_loop.
      intros f x G t'. apply Hh. eapply getattr_holds. exact G.
    - unfold datetimedump. destruct (d_iso cfg); [apply ag_ret|]. destruct v as [| | | | | | | | | | | | | | |c p]; try apply ag_raise.
      destruct p; try apply ag_raise. destruct (_ && _); [apply ag_ret|]. destruct (last l VNone); try apply ag_raise. apply ag_ret.
    - apply ag_ret.
    - unfold patterndump. destruct v; try apply ag_raise. apply ag_ret.
    - apply ag_ret.
    - destruct (dfind_In _ _ F) as [c I]. apply gg_prog; [eapply Hsane; eassumption|exact H].
  Qed.

  Lemma gg_dump n v t : python_value w v -> agrees (dump_ann w cfg n v t) (gdump n v t).
  Proof using Hcls Hsane.
    revert v t. induction n as [|n IH]; intros v t P; unfold dump_ann.
    - cbn [gdump]. apply (gg_dump_with (drun w cfg 0) v t (fun _ => OOF) (pv_head w v P)).
      intros h _ s C. split; [reflexivity|split; [exact C|constructor]].
    - cbn [gdump]. apply (gg_dump_with (drun w cfg (S n)) v t (fun h => gbody (gdump n) h v t) (pv_head w v P)).
      intros h F. cbn [drun]. apply gg_body; [exact F|exact P|]. intros x t' Hx. apply IH. exact Hx.
  Qed.
End DumpAny.

Lemma dadjusted_class w cfg cfg' : dadjusted cfg cfg' -> class_handlers w cfg' -> class_handlers w cfg.
Proof.
  intros A C v v' h P P' E. rewrite !dselects_find, <- !(dadjusted_find cfg cfg') by exact A. rewrite <- !dselects_find.
  apply C; assumption.
Qed.
Lemma dadjusted_sane w cfg cfg' : dadjusted cfg cfg' -> sane_handlers w cfg' -> sane_handlers w cfg.
Proof. intros [A _] C c f v t I. rewrite <- A in I. eapply C. exact I. Qed.
Lemma ghistory_coh w cfg s : class_handlers w cfg -> sane_handlers w cfg -> dhistory w cfg s -> dcoh w cfg s.
Proof.
  intros C S H. revert C S. induction H as [cfg|cfg n v t s H IH P|cfg cfg' s H IH A]; intros C S; [apply dcoh_fresh| |].
  - apply (gg_dump w cfg C S n v t P s (IH C S)).
  - apply (dcoh_adjusted w cfg cfg' s A). apply IH; [eapply dadjusted_class|eapply dadjusted_sane]; eassumption.
Qed.

Section DumpAny2.
  Variable w : world.
  Variable cfg : dconfig.
  Hypothesis Hcls : class_handlers w cfg.
  Hypothesis Hsane : sane_handlers w cfg.
  Notation gdump := (gdump w cfg).
  Lemma gdump_spec n s v t : dhistory w cfg s -> python_value w v -> fst (dump_ann w cfg n v t s) = gdump n v t.
  Proof using Hcls Hsane. intros H P. apply (gg_dump w cfg Hcls Hsane n v t P s (ghistory_coh w cfg s Hcls Hsane H)). Qed.

  Lemma c52_reuse s1 s2 v t r : dhistory w cfg s1 -> dhistory w cfg s2 -> python_value w v ->
    (dumps_as w cfg s1 v t r <-> dumps_as w cfg s2 v t r).
  Proof using Hcls Hsane.
    intros H1 H2 P. unfold dumps_as. split; intros [NO [n E]]; (split; [exact NO|]); exists n;
      rewrite <- E; rewrite !gdump_spec by assumption; reflexivity.
  Qed.
End DumpAny2.

(** ** What one handler gives *)
Section OneHandler.
  Variable w : world.
  Variable cfg : dconfig.
  Hypothesis Hcls : class_handlers w cfg.
  Hypothesis Hsane : sane_handlers w cfg.

  Lemma dumps_as_gdump s v t r : dhistory w cfg s -> python_value w v ->
    (dumps_as w cfg s v t r <-> r <> OOF /\ exists n, gdump w cfg n v t = r).
  Proof using Hcls Hsane.
    intros H P. unfold dumps_as. split; intros [NO [n E]]; (split; [exact NO|]); exists n;
      [rewrite <- (gdump_spec w cfg Hcls Hsane n s v t H P)|rewrite (gdump_spec w cfg Hcls Hsane n s v t H P)]; exact E.
  Qed.
  Lemma gdump_mono n m v t r : python_value w v -> n <= m -> r <> OOF -> gdump w cfg n v t = r -> gdump w cfg m v t = r.
  Proof using Hcls Hsane.
    intros P L NO E. rewrite <- (gdump_spec w cfg Hcls Hsane n dfresh v t (dhistory_new w cfg) P) in E.
    rewrite <- (gdump_spec w cfg Hcls Hsane m dfresh v t (dhistory_new w cfg) P).
    rewrite <- E. symmetry. f_equal. apply ext_agree; [apply dump_mono; exact L|congruence].
  Qed.

  Lemma c52_custom s v t f y : dhistory w cfg s -> python_value w v -> dselects cfg v (DCustom f) -> f v t = DPRet y ->
    forall r, dumps_as w cfg s v t r <-> r = Ok y.
  Proof using Hcls Hsane.
    intros H P Sel E r. rewrite (dumps_as_gdump _ _ _ _ H P). apply dselects_find in Sel. split.
    - intros [NO [[|n] Q]]; cbn [gdump] in Q; rewrite Sel in Q; [congruence|]. cbn [gbody] in Q. rewrite E in Q. cbn in Q. congruence.
    - intros ->. split; [discriminate|]. exists 1. cbn [gdump]. rewrite Sel. cbn [gbody]. rewrite E. reflexivity.
  Qed.

  Lemma pdump_list_ok D l acc r :
    pdump_list D l acc = Ok r <-> exists ys, Forall2 (fun x y => D x TAny = Ok y) l ys /\ r = VList (acc ++ ys).
  Proof using.
    revert acc. induction l as [|x l IH]; intro acc; cbn [pdump_list].
    - split; [intros [= <-]; exists []; rewrite app_nil_r; split; [constructor|reflexivity]|].
      intros [ys [F ->]]. inversion F; subst. rewrite app_nil_r. reflexivity.
    - split.
      + destruct (D x TAny) as [y|e|] eqn:E; cbn [rbind]; try discriminate. intro R. apply IH in R as [ys [F ->]].
        exists (y :: ys). split; [constructor; assumption|]. rewrite <- app_assoc. reflexivity.
      + intros [ys [F ->]]. inversion F as [|x0 y l0 ys' E F']; subst. rewrite E. cbn [rbind]. apply IH.
        exists ys'. split; [exact F'|]. rewrite <- app_assoc. reflexivity.
  Qed.

  Lemma forall_fuel l ys : (forall x, In x l -> python_value w x) ->
    Forall2 (fun x y => exists n, gdump w cfg n x TAny = Ok y) l ys -> exists n, Forall2 (fun x y => gdump w cfg n x TAny = Ok y) l ys.
  Proof using Hcls Hsane.
    intros P F. induction F as [|x y l ys [n E] F IH]; [exists 0; constructor|].
    destruct IH as [m G]; [intros z I; apply P; right; exact I|]. exists (Nat.max n m).
    constructor; [eapply gdump_mono; [apply P; left; reflexivity| |discriminate|exact E]; lia|].
    clear F E. assert (P' : forall z, In z l -> python_value w z) by (intros z I; apply P; right; exact I).
    clear P. induction G as [|x' y' l ys E G IH]; [constructor|].
    constructor; [eapply gdump_mono; [apply P'; left; reflexivity| |discriminate|exact E]; lia|].
    apply IH. intros z I. apply P'. right. exact I.
  Qed.

  Lemma c52_items s v t l : dhistory w cfg s -> python_value w v -> dselects cfg v DIter -> iter v = Some l ->
    ~ (in_classes (d_basic cfg) (Dumper.item_type t) = true /\ ident_first cfg = true) ->
    forall r, dumps_as w cfg s v t (Ok r) <-> exists ys, Forall2 (fun x y => dumps w cfg s x (Ok y)) l ys /\ r = VList ys.
  Proof using Hcls Hsane.
    intros H P Sel I B r. rewrite (dumps_as_gdump _ _ _ _ H P). apply dselects_find in Sel.
    assert (PL : forall x, In x l -> python_value w x) by (intros x Ix; eapply iter_pv; eassumption).
    assert (B' : in_classes (d_basic cfg) (Dumper.item_type t) && ident_first cfg = false) by (destruct (in_classes _ _), (ident_first cfg); try reflexivity; exfalso; apply B; auto).
    assert (U : forall n, gdump w cfg (S n) v t = pdump_list (gdump w cfg n) l []).
    { intro n. cbn [gdump]. rewrite Sel. cbn [gbody pbody]. rewrite I, B'. reflexivity. }
    assert (X : forall ys, Forall2 (fun x y => dumps w cfg s x (Ok y)) l ys <-> Forall2 (fun x y => exists n, gdump w cfg n x TAny = Ok y) l ys).
    { intro ys. split; intro F.
      - clear -F H PL Hcls Hsane. induction F as [|x y l ys D F IH]; [constructor|]. constructor.
        + change (dumps_as w cfg s x TAny (Ok y)) in D. apply dumps_as_gdump in D as [_ D]; auto. apply PL. left. reflexivity.
        + apply IH. intros z I. apply PL. right. exact I.
      - clear -F H PL Hcls Hsane. induction F as [|x y l ys D F IH]; [constructor|]. constructor.
        + change (dumps_as w cfg s x TAny (Ok y)). apply dumps_as_gdump; [exact H|apply PL; left; reflexivity|]. split; [discriminate|exact D].
        + apply IH. intros z I. apply PL. right. exact I. }
    split.
    - intros [_ [[|n] Q]]; [cbn [gdump] in Q; rewrite Sel in Q; discriminate|]. rewrite U in Q. apply pdump_list_ok in Q as [ys [F ->]].
      exists ys. split; [|reflexivity]. apply X. clear -F. induction F; constructor; eauto.
    - intros [ys [F ->]]. split; [discriminate|]. apply X in F. apply forall_fuel in F as [n F]; [|exact PL].
      exists (S n). rewrite U. apply pdump_list_ok. exists ys. split; [exact F|reflexivity].
  Qed.
End OneHandler.

(** ** Locality *)
Section LocalDump.
  Variable w : world.
  Variables basic strcons : list cid.
  Variables cfg1 cfg2 : dconfig.
  Hypothesis Hstd : is_dstd w basic strcons cfg2.
  Hypothesis Hset : same_dsettings cfg1 cfg2.
  Notation dval := (dval w cfg2).

  Lemma pbody_settings D h v t : h <> DIter -> pbody w cfg1 D h v t = pbody w cfg2 D h v t.
  Proof using Hset.
    clear Hstd. destruct cfg1 as [b1 h1 i1 r1 m1 l1], cfg2 as [b2 h2 i2 r2 m2 l2]. destruct Hset as [E1 [E2 [E3 E4]]].
    cbn in E1, E2, E3, E4. subst. intro N. destruct h; try reflexivity. congruence.
  Qed.

  Lemma pbody_ext2 D1 D2 h v t :
    h <> DIter ->
    (forall x, holds v x -> D1 x TAny = D2 x TAny) ->
    (forall k x hs t', h = DDataclass -> ci_ihints (class_of w (type_of v)) = POk hs -> str_get k hs = Some t' -> getattr v k = POk x -> D1 x t' = D2 x t') ->
    pbody w cfg2 D1 h v t = pbody w cfg2 D2 h v t.
  Proof using.
    intros N H HH. destruct h; cbn [pbody]; try reflexivity; try congruence.
    - destruct v; try reflexivity. generalize (match ci_nt (class_of w c) with Some l => l | None => [] end) as ds. intro ds.
      assert (H' : forall f x, In (f, x) fs -> D1 x TAny = D2 x TAny) by (intros f x I; apply H; eapply holds_nt; exact I).
      clear H HH. generalize (@nil (value * value)) as acc. induction fs as [|[k x] fs IH]; intro acc; cbn [pnt_loop]; [reflexivity|].
      rewrite (H' k x) by (left; reflexivity). assert (IH' := fun acc => IH (fun f x I => H' f x (or_intror I)) acc).
      destruct (_ && _); [apply IH'|]. destruct (D2 x TAny); cbn; [apply IH'|reflexivity|reflexivity].
    - destruct (ci_dc _) as [fs|]; [|reflexivity]. destruct (dc_info w (type_of v) fs) as [info|] eqn:EI; [|reflexivity].
      assert (Qi : ci_ihints (class_of w (type_of v)) = POk (dc_hints info)).
      { unfold dc_info in EI. destruct (ci_ihints (class_of w (type_of v))) as [hs|]; [|discriminate]. injection EI as <-. reflexivity. }
      cbn [rlift rbind]. generalize (@nil (value * value)) as acc.
      induction (dc_fields info) as [|k names IH]; intro acc; cbn [pdc_loop]; [reflexivity|].
      destruct (find _ fs) as [f|]; [|reflexivity]. destruct (getattr v k) as [x|] eqn:G; cbn [rlift rbind]; [|reflexivity].
      destruct (_ && _); [apply IH|].
      assert (Q : D1 x match str_get k (dc_hints info) with Some h => h | None => TAny end = D2 x match str_get k (dc_hints info) with Some h => h | None => TAny end).
      { destruct (str_get k (dc_hints info)) as [t'|] eqn:K; [eapply HH; eauto|apply H; eapply getattr_holds; exact G]. }
      rewrite Q. destruct (D2 x _); cbn; [apply IH|reflexivity|reflexivity].
    - destruct v; try reflexivity. apply H. constructor.
    - destruct v as [| | | | | | | | | |d| | | | |]; try reflexivity.
      assert (H' : forall k x, In (k, x) d -> D1 k TAny = D2 k TAny /\ D1 x TAny = D2 x TAny).
      { intros k x I; split; apply H; [eapply holds_key|eapply holds_value]; exact I. }
      clear H HH. generalize (@nil (value * value)) as acc. induction d as [|[k x] d IH]; intro acc; cbn [pdict_loop]; [reflexivity|].
      destruct (H' k x) as [-> ->]; [left; reflexivity|].
      destruct (D2 k TAny); cbn; [|reflexivity|reflexivity]. destruct (D2 x TAny); cbn; [|reflexivity|reflexivity].
      destruct (hashable w a); [|reflexivity]. apply IH. intros k0 x0 I. apply H'. right. exact I.
    - destruct (ci_attrs _) as [fs|]; [|reflexivity].
      generalize (@nil (value * value)) as acc. induction fs as [|f fs IH]; intro acc; cbn [pattr_loop]; [reflexivity|].
      destruct (getattr v (f_name f)) as [x|] eqn:G; cbn [rlift rbind]; [|reflexivity].
      destruct (negb (f_repr f)); [apply IH|]. destruct (attr_hidden cfg2 f x) as [[|]|]; cbn; [apply IH| |reflexivity].
      rewrite (H x) by (eapply getattr_holds; exact G). destruct (D2 x _); cbn; [apply IH|reflexivity|reflexivity].
  Qed.

  (** the annotation does not promise more than the items are *)
  Definition ann_ok (v : value) (t : ty) : Prop :=
    ident_first cfg1 = true \/
    forall l y, v = VList l \/ v = VTuple l \/ v = VSet l \/ v = VFrozen l ->
    in_classes basic (Dumper.item_type t) = true -> In y l -> In (type_of y) basic.

  Lemma dval_basic y t : In (type_of y) basic -> dval y t = Ok y.
  Proof using Hstd.
    intro I. rewrite (dval_eq w basic strcons cfg2 Hstd), (dfind_choice w basic strcons cfg2 Hstd). unfold dchoice.
    assert (M : mem_cid (type_of y) basic = true) by (apply mem_cid_In; exact I). rewrite M. reflexivity.
  Qed.

  Lemma local_dval n v t :
    (forall x, within v x -> dfind cfg1 x = dfind cfg2 x) ->
    ident_first cfg1 = true \/ annotations_hold w basic v ->
    ann_ok v t -> depth v <= n -> gdump w cfg1 n v t = dval v t.
  Proof using Hstd Hset.
    revert v t. induction n as [|n IH]; intros v t F AH A L; [destruct v; cbn in L; lia|].
    assert (Fv : dfind cfg1 v = dfind cfg2 v) by (apply F; apply rt1n_refl).
    assert (IHx : forall x t', holds v x -> ann_ok x t' -> gdump w cfg1 n x t' = dval x t').
    { intros x t' Hx Ax. apply IH; [|destruct AH as [AH|AH]; [left; exact AH|right]|exact Ax|apply depth_holds in Hx; lia].
      - intros y Hy. apply F. eapply rt1n_trans; eassumption.
      - intros c fs hs f t0 b k o z l y W. apply AH. eapply rt1n_trans; eassumption. }
    assert (AnyOk : forall x, ann_ok x TAny) by (intro x; right; intros l y _ X; discriminate X).
    rewrite (dval_eq w basic strcons cfg2 Hstd). cbn [gdump]. rewrite Fv.
    destruct (dfind cfg2 v) as [h|e] eqn:Fh; [|reflexivity].
    destruct (match h with DIter => true | _ => false end) eqn:Qh.
    - destruct h; try discriminate Qh. clear Qh. cbn [gbody pbody].
      destruct (iter v) as [l|] eqn:I; [|reflexivity].
      assert (Kind : v = VList l \/ v = VTuple l \/ v = VSet l \/ v = VFrozen l).
      { rewrite (dfind_choice w basic strcons cfg2 Hstd) in Fh. unfold dchoice in Fh.
        destruct v; cbn in Fh, I;
          try (repeat match type of Fh with context [if ?b then _ else _] => destruct b; [discriminate|] end; discriminate);
          injection I as <-; auto. }
      destruct Hset as [-> _]. rewrite (proj2 Hstd).
      assert (I2 : ident_first cfg2 = true) by (unfold ident_first; rewrite (proj1 Hstd); reflexivity). rewrite I2, andb_true_r.
      assert (PL : pdump_list (gdump w cfg1 n) l [] = pdump_list dval l []).
      { assert (H' : forall x, In x l -> gdump w cfg1 n x TAny = dval x TAny).
        { intros x Ix. apply IHx; [|apply AnyOk]. destruct Kind as [-> | [-> | [-> | ->]]]; constructor; exact Ix. }
        clear -H'. generalize (@nil value) as acc. induction l as [|x l IH]; intro acc; cbn [pdump_list]; [reflexivity|].
        rewrite (H' x) by (left; reflexivity). destruct (dval x TAny); cbn; [|reflexivity|reflexivity].
        apply IH. intros y I. apply H'. right. exact I. }
      destruct (in_classes basic (Dumper.item_type t)) eqn:B; cbn [andb]; [|exact PL].
      destruct (ident_first cfg1) eqn:I1; [reflexivity|]. rewrite PL.
      destruct A as [A|A]; [congruence|].
      apply pdump_list_ok. exists l. split; [|reflexivity].
      assert (H' : forall y, In y l -> In (type_of y) basic) by (intros y Iy; eapply A; eauto).
      clear -H' Hstd. induction l as [|x l IH]; constructor; [apply dval_basic; apply H'; left; reflexivity|].
      apply IH. intros y I. apply H'. right. exact I.
    - assert (N : h <> DIter) by (intros ->; discriminate).
      assert (NC : forall f, h <> DCustom f) by (eapply (dfind_not_custom w basic strcons cfg2 Hstd); exact Fh).
      transitivity (pbody w cfg1 (gdump w cfg1 n) h v t).
      { destruct h; try reflexivity. exfalso. eapply NC. reflexivity. }
      rewrite (pbody_settings _ _ _ _ N). apply pbody_ext2; [exact N|intros x Hx; apply IHx; [exact Hx|apply AnyOk]|].
      intros k x hs t' HD EH K G. apply IHx; [eapply getattr_holds; exact G|].
      destruct AH as [AH|AH]; [left; exact AH|right]. intros l y Kx B Iy.
      destruct (Dumper.item_type t') as [b| | | | | | |] eqn:IT; try discriminate B.
      assert (Sh : exists n o, t' = TGen n o (Some [TClass b]) \/ t' = TGen n o (Some [TClass b; TEllipsis])).
      { destruct t'; cbn in IT; try discriminate. destruct args as [[|x1 [|x2 [|]]]|]; try discriminate IT; [|destruct x2; try discriminate IT|destruct x2; discriminate IT]; subst; eauto. }
      destruct Sh as [n0 [o Sh]]. destruct v as [| | | | | | | | | | | |c fs|c fs| |]; cbn in G; try discriminate G.
      + subst h. rewrite (dfind_choice w basic strcons cfg2 Hstd) in Fh. unfold dchoice in Fh.
        destruct (mem_cid _ basic); discriminate Fh.
      + refine (AH c fs hs k t' b n0 o x l y (rt1n_refl _ _ _) EH K Sh (proj1 (mem_cid_In b basic) B) _ Kx Iy).
        destruct (str_get k fs) as [x'|] eqn:SG; [|discriminate]. injection G as ->. apply str_get_In. exact SG.
  Qed.
End LocalDump.

Lemma c52_local w basic strcons cfg1 cfg2 : is_dstd w basic strcons cfg2 -> same_dsettings cfg1 cfg2 ->
  class_handlers w cfg1 -> sane_handlers w cfg1 ->
  forall s1 s2 v r, dhistory w cfg1 s1 -> dhistory w cfg2 s2 -> python_value w v ->
  (forall x, within v x -> dfind cfg1 x = dfind cfg2 x) ->
  (ident_first cfg1 = true \/ annotations_hold w basic v) ->
  (dumps w cfg1 s1 v r <-> dumps w cfg2 s2 v r).
Proof.
  intros St Se Hc Hs s1 s2 v r H1 H2 P F A.
  change (dumps_as w cfg1 s1 v TAny r <-> dumps w cfg2 s2 v r).
  rewrite (dumps_as_gdump w cfg1 Hc Hs _ _ _ _ H1 P), (dumps_dval w basic strcons cfg2 St s2 v r H2 P).
  assert (L : forall n, depth v <= n -> gdump w cfg1 n v TAny = dval w cfg2 v TAny).
  { intros n Ln. apply (local_dval w basic strcons cfg1 cfg2 St Se); auto. right. intros l y _ X. discriminate X. }
  split.
  - intros [NO [n E]]. rewrite <- (L (Nat.max n (depth v))) by lia. symmetry.
    apply (gdump_mono w cfg1 Hc Hs n (Nat.max n (depth v)) v TAny r P); [lia|exact NO|exact E].
  - intros ->. split; [apply (dval_OOF w basic strcons cfg2 St)|]. exists (depth v). apply L. lia.
Qed.

Lemma dindex_from_app cfg l1 l2 v i :
  (forall c h, In (c, h) l1 -> c v = POk false) -> dindex_from cfg (l1 ++ l2) v i = dindex_from cfg l2 v (List.length l1 + i).
Proof.
  revert i. induction l1 as [|[c h] l1 IH]; intros i H; [reflexivity|]. cbn [app dindex_from].
  rewrite (H c h) by (left; reflexivity). rewrite IH by (intros c' h' I; apply (H c' h'); right; exact I). cbn [List.length].
  f_equal. lia.
Qed.

(** the handlers themselves, rather than their positions *)
Fixpoint hfind (cfg : dconfig) (hs : list ((value -> pyres bool) * dhandler)) (v : value) : dhandler + exn :=
  match hs with
  | [] => inr (cannot_dump v)
  | (c, h) :: hs' =>
      match c v with
      | PExc r => if d_rce cfg then inr (XRaw r) else hfind cfg hs' v
      | POk true => inl h
      | POk false => hfind cfg hs' v
      end
  end.
Lemma hfind_from cfg hs v pre : d_handlers cfg = pre ++ hs ->
  match dindex_from cfg hs v (List.length pre) with
  | inr e => inr e
  | inl i => match nth_error (d_handlers cfg) i with Some (_, h) => inl h | None => inr (XRaw RIndex) end
  end = hfind cfg hs v.
Proof.
  revert pre. induction hs as [|[c h] hs IH]; intros pre E; [reflexivity|]. cbn [dindex_from hfind].
  assert (IH' := IH (pre ++ [(c, h)])). rewrite app_length in IH'. cbn [List.length] in IH'. rewrite Nat.add_1_r in IH'.
  rewrite <- app_assoc in IH'. specialize (IH' E).
  destruct (c v) as [[|]|r]; [|exact IH'|destruct (d_rce cfg); [reflexivity|exact IH']].
  rewrite E, nth_error_app2, Nat.sub_diag by lia. reflexivity.
Qed.
Lemma dfind_hfind cfg v : dfind cfg v = hfind cfg (d_handlers cfg) v.
Proof. exact (hfind_from cfg (d_handlers cfg) v [] eq_refl). Qed.
Lemma hfind_inserted cfg1 cfg2 l1 extra l2 v : d_rce cfg1 = d_rce cfg2 ->
  (forall c h, In (c, h) extra -> c v = POk false) ->
  hfind cfg1 (l1 ++ extra ++ l2) v = hfind cfg2 (l1 ++ l2) v.
Proof.
  intros R H. induction l1 as [|[c h] l1 IH]; cbn [app hfind].
  - induction extra as [|[c h] extra IH]; cbn [app hfind].
    + induction l2 as [|[c h] l2 IH]; cbn [hfind]; [reflexivity|]. rewrite IH, R. reflexivity.
    + rewrite (H c h) by (left; reflexivity). apply IH. intros c' h' I. apply (H c' h'). right. exact I.
  - rewrite IH, R. reflexivity.
Qed.

(** ** The default handlers, one by one *)
Section Parts.
  Variable w : world.
  Variables basic strcons : list cid.
  Variable cfg : dconfig.
  Hypothesis Hstd : is_dstd w basic strcons cfg.
  Notation dval := (dval w cfg).
  Notation D := (fun s x r => dumps w cfg s x r).

  Lemma dd s v r : dhistory w cfg s -> python_value w v -> (dumps w cfg s v r <-> r = dval v TAny).
  Proof using Hstd. apply (dumps_dval w basic strcons cfg Hstd). Qed.

  Notation items_of := collection_of.
  Lemma items_dval v l : items_of v l -> ~ In (type_of v) basic -> dval v TAny = pdump_list dval l [].
  Proof using Hstd.
    intros K N. rewrite (dval_eq w basic strcons cfg Hstd), (dfind_choice w basic strcons cfg Hstd). unfold dchoice.
    rewrite (mem_cid_false _ _ N). destruct K as [-> | [-> | [-> | ->]]]; reflexivity.
  Qed.
  Lemma items_pv v l x : items_of v l -> python_value w v -> In x l -> python_value w x.
  Proof using. intros K P I. eapply pv_holds; [exact P|]. destruct K as [-> | [-> | [-> | ->]]]; constructor; exact I. Qed.

  Lemma c51_items s v l : dhistory w cfg s -> python_value w v -> items_of v l -> ~ In (type_of v) basic ->
    forall r, dumps w cfg s v (Ok r) <-> exists ys, Forall2 (fun x y => dumps w cfg s x (Ok y)) l ys /\ r = VList ys.
  Proof using Hstd.
    intros H P K N r. rewrite (dd s v _ H P), (items_dval v l K N).
    assert (E : forall ys, Forall2 (fun x y => dumps w cfg s x (Ok y)) l ys <-> Forall2 (fun x y => dval x TAny = Ok y) l ys).
    { assert (PL : forall x, In x l -> python_value w x) by (intros x; apply items_pv with (v := v); assumption).
      clear K. intro ys. split; intro F; induction F as [|x y l ys D F IH]; constructor;
        try (apply IH; intros z I; apply PL; right; exact I).
      - symmetry. apply (dd s x); [exact H|apply PL; left; reflexivity|exact D].
      - apply (dd s x); [exact H|apply PL; left; reflexivity|symmetry; exact D]. }
    split.
    - intro R. symmetry in R. apply pdump_list_ok in R as [ys [F ->]]. exists ys. split; [apply E; exact F|reflexivity].
    - intros [ys [F ->]]. symmetry. apply pdump_list_ok. exists ys. split; [apply E; exact F|reflexivity].
  Qed.

  Lemma pdump_list_exc l acc e :
    (forall x, dval x TAny <> OOF) ->
    (pdump_list dval l acc = Exc e <->
     exists l1 x l2, l = l1 ++ x :: l2 /\ (forall y, In y l1 -> exists a, dval y TAny = Ok a) /\ dval x TAny = Exc e).
  Proof using.
    intro NO. revert acc. induction l as [|x l IH]; intro acc; cbn [pdump_list].
    - split; [discriminate|]. intros [[|a l1] [x [l2 [E _]]]]; discriminate E.
    - destruct (dval x TAny) as [y|e'|] eqn:Q; cbn [rbind].
      + rewrite IH. split.
        * intros [l1 [z [l2 [-> [A B]]]]]. exists (x :: l1), z, l2. split; [reflexivity|]. split; [|exact B].
          intros u [<-|I]; [exists y; exact Q|apply A; exact I].
        * intros [[|u l1] [z [l2 [E [A B]]]]]; injection E as <- ->; [congruence|]. exists l1, z, l2.
          split; [reflexivity|]. split; [|exact B]. intros v I. apply A. right. exact I.
      + split.
        * intros [= ->]. exists [], x, l. split; [reflexivity|]. split; [intros y []|exact Q].
        * intros [[|u l1] [z [l2 [E [A B]]]]]; injection E as <- ->; [congruence|].
          destruct (A x (or_introl eq_refl)). congruence.
      + exfalso. exact (NO x Q).
  Qed.
  Lemma c51_items_exc s v l : dhistory w cfg s -> python_value w v -> items_of v l -> ~ In (type_of v) basic ->
    forall e, dumps w cfg s v (Exc e) <->
    exists l1 x l2, l = l1 ++ x :: l2 /\ (forall y, In y l1 -> exists a, dumps w cfg s y (Ok a)) /\ dumps w cfg s x (Exc e).
  Proof using Hstd.
    intros H P K N e. rewrite (dd s v _ H P), (items_dval v l K N).
    assert (PL : forall x, In x l -> python_value w x) by (intros x; apply items_pv with (v := v); assumption).
    pose proof (pdump_list_exc l [] e (fun x => dval_OOF w basic strcons cfg Hstd x TAny)) as X.
    split.
    - intro R. symmetry in R. apply X in R as [l1 [x [l2 [-> [A B]]]]]. exists l1, x, l2. split; [reflexivity|]. split.
      + intros y I. destruct (A y I) as [a Q]. exists a. apply (dd s y); [exact H|apply PL; apply in_or_app; left; exact I|symmetry; exact Q].
      + apply (dd s x); [exact H|apply PL; apply in_or_app; right; left; reflexivity|symmetry; exact B].
    - intros [l1 [x [l2 [-> [A B]]]]]. symmetry. apply X. exists l1, x, l2. split; [reflexivity|]. split.
      + intros y I. destruct (A y I) as [a Q]. exists a. symmetry. apply (dd s y); [exact H|apply PL; apply in_or_app; left; exact I|exact Q].
      + symmetry. apply (dd s x); [exact H|apply PL; apply in_or_app; right; left; reflexivity|exact B].
  Qed.

  Lemma pdict_loop_ok d acc r :
    pdict_loop w dval d acc = Ok r <->
    exists kys, Forall2 (fun kx ky => dval (fst kx) TAny = Ok (fst ky) /\ dval (snd kx) TAny = Ok (snd ky) /\ hashable w (fst ky) = true) d kys /\
                r = VDict (fold_left (fun acc kv => dict_set (fst kv) (snd kv) acc) kys acc).
  Proof using.
    revert acc. induction d as [|[k x] d IH]; intro acc; cbn [pdict_loop].
    - split; [intros [= <-]; exists []; split; [constructor|reflexivity]|]. intros [kys [F ->]]. inversion F. reflexivity.
    - split.
      + destruct (dval k TAny) as [k'|e|] eqn:Ek; cbn [rbind]; try discriminate.
        destruct (dval x TAny) as [x'|e|] eqn:Ex; cbn [rbind]; try discriminate.
        destruct (hashable w k') eqn:Hk; [|discriminate]. intro R. apply IH in R as [kys [F ->]].
        exists ((k', x') :: kys). split; [constructor; [cbn; auto|exact F]|reflexivity].
      + intros [kys [F ->]]. inversion F as [|a [k' x'] b c [Ek [Ex Hk]] F']; subst. cbn [fst snd] in *.
        rewrite Ek. cbn [rbind]. rewrite Ex. cbn [rbind]. rewrite Hk. apply IH. exists c. split; [exact F'|reflexivity].
  Qed.
  Lemma c51_dict s d : dhistory w cfg s -> python_value w (VDict d) -> ~ In CDict basic ->
    forall r, dumps w cfg s (VDict d) (Ok r) <->
    exists kys, Forall2 (fun kx ky => dumps w cfg s (fst kx) (Ok (fst ky)) /\ dumps w cfg s (snd kx) (Ok (snd ky)) /\ hashable w (fst ky) = true) d kys /\
                r = VDict (dict_of kys).
  Proof using Hstd.
    intros H P N r. rewrite (dd s _ _ H P).
    assert (U : dval (VDict d) TAny = pdict_loop w dval d []).
    { rewrite (dval_eq w basic strcons cfg Hstd), (dfind_choice w basic strcons cfg Hstd). unfold dchoice. cbn [type_of].
      rewrite (mem_cid_false _ _ N). reflexivity. }
    rewrite U.
    assert (E : forall kys, Forall2 (fun kx ky => dumps w cfg s (fst kx) (Ok (fst ky)) /\ dumps w cfg s (snd kx) (Ok (snd ky)) /\ hashable w (fst ky) = true) d kys <->
      Forall2 (fun kx ky => dval (fst kx) TAny = Ok (fst ky) /\ dval (snd kx) TAny = Ok (snd ky) /\ hashable w (fst ky) = true) d kys).
    { assert (PL : forall k x, In (k, x) d -> python_value w k /\ python_value w x).
      { intros k x I. split; (eapply pv_holds; [exact P|]); [eapply holds_key|eapply holds_value]; exact I. }
      clear U P. intro kys. split; intro F; induction F as [|[k x] [k' x'] d kys [Dk [Dx Hk]] F IH]; constructor;
        try (apply IH; intros k0 x0 I; apply PL; right; exact I); cbn [fst snd] in *;
        destruct (PL k x (or_introl eq_refl)) as [Pk Px].
      - apply (dd s k _ H Pk) in Dk. apply (dd s x _ H Px) in Dx. auto.
      - symmetry in Dk, Dx. apply (dd s k _ H Pk) in Dk. apply (dd s x _ H Px) in Dx. auto. }
    split.
    - intro R. symmetry in R. apply pdict_loop_ok in R as [kys [F ->]]. exists kys. split; [apply E; exact F|reflexivity].
    - intros [kys [F ->]]. symmetry. apply pdict_loop_ok. exists kys. split; [apply E; exact F|reflexivity].
  Qed.

  Lemma c51_enum s c m x r : dhistory w cfg s -> python_value w (VEnum c m x) -> ~ In c basic -> ci_dc (class_of w c) = None ->
    (dumps w cfg s (VEnum c m x) r <-> dumps w cfg s x r).
  Proof using Hstd.
    intros H P N DC. assert (Px : python_value w x) by (eapply pv_holds; [exact P|constructor]).
    rewrite (dd s _ r H P), (dd s x r H Px).
    rewrite (dval_eq w basic strcons cfg Hstd), (dfind_choice w basic strcons cfg Hstd). unfold dchoice, has_dc. cbn [type_of].
    rewrite (mem_cid_false _ _ N), DC. reflexivity.
  Qed.

  Notation plain_class := (plain_class w basic).
  Lemma inst_choice c p : plain_class c ->
    dchoice w basic strcons (VInst c p) =
      if is_date_or_time w (VInst c p) then Some DDatetime
      else if isinstance w (VInst c p) CTimedelta then Some DTimedelta
      else if isinstance w (VInst c p) CPattern then Some DPattern
      else if mem_cid c strcons then Some DStr else None.
  Proof using.
    intros [N [DC AT]]. unfold dchoice, has_dc, has_attrs. cbn [type_of]. rewrite (mem_cid_false _ _ N), DC, AT. reflexivity.
  Qed.
  Lemma inst_dval c p : plain_class c -> dval (VInst c p) TAny =
    match dchoice w basic strcons (VInst c p) with Some h => pbody w cfg dval h (VInst c p) TAny | None => Exc (unable (VInst c p)) end.
  Proof using Hstd.
    intro N. rewrite (dval_eq w basic strcons cfg Hstd), (dfind_choice w basic strcons cfg Hstd).
    destruct (dchoice w basic strcons (VInst c p)); reflexivity.
  Qed.

  Lemma c51_iso s c p r : dhistory w cfg s -> python_value w (VInst c p) -> plain_class c ->
    isinstance w (VInst c p) CDate = true \/ isinstance w (VInst c p) CTime = true -> d_iso cfg = true ->
    (dumps w cfg s (VInst c p) r <-> r = Ok (VStr (w_iso w (VInst c p)))).
  Proof using Hstd.
    intros H P N K I. rewrite (dd s _ r H P), (inst_dval c p N), (inst_choice c p N). unfold is_date_or_time.
    assert (Q : isinstance w (VInst c p) CDate || isinstance w (VInst c p) CTime = true) by (apply orb_true_iff; exact K).
    rewrite Q. cbn [pbody]. rewrite I. reflexivity.
  Qed.
  Lemma c51_date s c l r : dhistory w cfg s -> python_value w (VInst c (VTuple l)) -> plain_class c ->
    isinstance w (VInst c (VTuple l)) CDate = true -> isinstance w (VInst c (VTuple l)) CDatetime = false -> d_iso cfg = false ->
    (dumps w cfg s (VInst c (VTuple l)) r <-> r = Ok (VList l)).
  Proof using Hstd.
    intros H P N K K2 I. rewrite (dd s _ r H P), (inst_dval c _ N), (inst_choice c _ N). unfold is_date_or_time.
    rewrite K. cbn [orb pbody]. rewrite I, K, K2. reflexivity.
  Qed.
  Lemma c51_time s c l tz r : dhistory w cfg s -> python_value w (VInst c (VTuple (l ++ [tz]))) -> plain_class c ->
    (isinstance w (VInst c (VTuple (l ++ [tz]))) CDatetime = true /\ isinstance w (VInst c (VTuple (l ++ [tz]))) CDate = true) \/
      (isinstance w (VInst c (VTuple (l ++ [tz]))) CTime = true /\ isinstance w (VInst c (VTuple (l ++ [tz]))) CDate = false) ->
    d_iso cfg = false ->
    (dumps w cfg s (VInst c (VTuple (l ++ [tz]))) r <->
     (tz = VNone /\ r = Ok (VList l)) \/ (tz <> VNone /\ r = Exc (XRaw RNotImpl))).
  Proof using Hstd.
    intros H P N K I. rewrite (dd s _ r H P), (inst_dval c _ N), (inst_choice c _ N). unfold is_date_or_time.
    assert (Q : isinstance w (VInst c (VTuple (l ++ [tz]))) CDate || isinstance w (VInst c (VTuple (l ++ [tz]))) CTime = true).
    { destruct K as [[_ K]|[K _]]; rewrite K; [reflexivity|apply orb_true_r]. }
    assert (Q2 : isinstance w (VInst c (VTuple (l ++ [tz]))) CDate && negb (isinstance w (VInst c (VTuple (l ++ [tz]))) CDatetime) = false).
    { destruct K as [[K _]|[_ K]]; rewrite K; [apply andb_false_r|reflexivity]. }
    rewrite Q. cbn [pbody]. rewrite I, Q2, last_last, removelast_last.
    destruct tz; (split; [intros ->; ((left; split; reflexivity) || (right; split; [discriminate|reflexivity]))|intros [[X ->]|[X ->]]; congruence]).
  Qed.
  Lemma c51_timedelta s c p r : dhistory w cfg s -> python_value w (VInst c p) -> plain_class c ->
    isinstance w (VInst c p) CTimedelta = true -> isinstance w (VInst c p) CDate = false -> isinstance w (VInst c p) CTime = false ->
    (dumps w cfg s (VInst c p) r <-> r = Ok (w_seconds w (VInst c p))).
  Proof using Hstd.
    intros H P N K K1 K2. rewrite (dd s _ r H P), (inst_dval c p N), (inst_choice c p N). unfold is_date_or_time.
    rewrite K1, K2, K. reflexivity.
  Qed.
  Lemma c51_pattern s c p r : dhistory w cfg s -> python_value w (VInst c p) -> plain_class c ->
    isinstance w (VInst c p) CPattern = true ->
    (forall k, In k [CDate; CTime; CTimedelta] -> isinstance w (VInst c p) k = false) ->
    (dumps w cfg s (VInst c p) r <-> r = Ok p).
  Proof using Hstd.
    intros H P N K K1. rewrite (dd s _ r H P), (inst_dval c p N), (inst_choice c p N). unfold is_date_or_time.
    rewrite !K1, K by (cbn; auto). reflexivity.
  Qed.
  Lemma c51_str s c p r : dhistory w cfg s -> python_value w (VInst c p) -> plain_class c -> In c strcons ->
    (forall k, In k [CDate; CTime; CTimedelta; CPattern] -> isinstance w (VInst c p) k = false) ->
    (dumps w cfg s (VInst c p) r <-> r = Ok (VStr (w_str w (VInst c p)))).
  Proof using Hstd.
    intros H P N K K1. rewrite (dd s _ r H P), (inst_dval c p N), (inst_choice c p N). unfold is_date_or_time.
    rewrite !K1 by (cbn; auto). rewrite (proj2 (mem_cid_In c strcons) K). reflexivity.
  Qed.
End Parts.

Lemma default_cond_class w basic strcons c h v v' : In (c, h) (default_dhandlers w basic strcons) ->
  python_object w v -> python_object w v' -> type_of v = type_of v' -> c v = c v'.
Proof.
  intros I P P' E. unfold default_dhandlers, has_dc, has_attrs, is_date_or_time, isinstance in I. cbn in I.
  repeat (destruct I as [I|I]; [injection I as <- <-; rewrite ?E; try reflexivity;
    destruct v, v'; cbn in *; subst; cbn in *; try discriminate; try reflexivity; exfalso; intuition congruence|]). contradiction.
Qed.
Lemma hfind_class cfg hs v v' :
  (forall c h, In (c, h) hs -> c v = c v') -> forall h, hfind cfg hs v = inl h -> hfind cfg hs v' = inl h.
Proof.
  induction hs as [|[c h0] hs IH]; intros H h; cbn [hfind]; [discriminate|].
  rewrite <- (H c h0) by (left; reflexivity). assert (IH' := IH (fun c' h' I => H c' h' (or_intror I)) h).
  destruct (c v) as [[|]|r]; [auto|exact IH'|]. destruct (d_rce cfg); [discriminate|exact IH'].
Qed.
Lemma class_conditions w basic strcons cfg l1 extra l2 :
  default_dhandlers w basic strcons = l1 ++ l2 -> d_handlers cfg = l1 ++ extra ++ l2 ->
  (forall c h v v', In (c, h) extra -> type_of v = type_of v' -> c v = c v') ->
  class_handlers w cfg.
Proof.
  intros E1 E2 H v v' h P P' Q. rewrite !dselects_find, !dfind_hfind, E2. apply hfind_class.
  intros c h' I. apply in_app_or in I as [I|I]; [|apply in_app_or in I as [I|I]].
  - eapply (default_cond_class w basic strcons); eauto. rewrite E1. apply in_or_app. left. exact I.
  - eapply H; eassumption.
  - eapply (default_cond_class w basic strcons); eauto. rewrite E1. apply in_or_app. right. exact I.
Qed.
Lemma c52_inserted w basic strcons cfg1 cfg2 l1 extra l2 : is_dstd w basic strcons cfg2 -> same_dsettings cfg1 cfg2 ->
  d_handlers cfg2 = l1 ++ l2 -> d_handlers cfg1 = l1 ++ extra ++ l2 -> d_rce cfg1 = d_rce cfg2 ->
  (forall c h v v', In (c, h) extra -> type_of v = type_of v' -> c v = c v') ->
  sane_handlers w cfg1 ->
  forall s1 s2 v r, dhistory w cfg1 s1 -> dhistory w cfg2 s2 -> python_value w v ->
  (forall x c h, within v x -> In (c, h) extra -> c x = POk false) ->
  (l1 <> [] \/ annotations_hold w basic v) ->
  (dumps w cfg1 s1 v r <-> dumps w cfg2 s2 v r).
Proof.
  intros St Se E2 E1 R Cl Sa s1 s2 v r H1 H2 P F A.
  apply (c52_local w basic strcons cfg1 cfg2); auto.
  - eapply (class_conditions w basic strcons); eauto. rewrite <- E2. symmetry. apply St.
  - intros x W. rewrite !dfind_hfind, E1, E2. apply hfind_inserted; [exact R|]. intros c h I. eapply F; eauto.
  - destruct A as [A|A]; [left|right; exact A]. unfold ident_first. rewrite E1.
    destruct St as [St _]. rewrite E2 in St. destruct l1 as [|[c h] l1]; [congruence|]. cbn [app] in *. injection St as _ -> _. reflexivity.
Qed.
