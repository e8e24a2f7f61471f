(** * Dumps: the dumper without its caches (towards C25 - C30) *)

From Verif Require Import Loader Dumper Spec Fuel.
From Verif Require Export Vocab.

Definition rbind {A B} (r : res A) (f : A -> res B) : res B :=
  match r with Ok a => f a | Exc e => Exc e | OOF => OOF end.
Definition rlift {A} (r : pyres A) : res A := match r with POk a => Ok a | PExc k => Exc (XRaw k) end.

Section Dumps.
  Variable w : world.
  Variables basic strcons : list cid.
  Variable cfg : dconfig.
  Hypothesis Hstd : is_dstd w basic strcons cfg.

  (** ** The handlers, without the caches *)
  Section Pure.
    Variable D : value -> ty -> res value.
    Fixpoint pattr_loop (v : value) (fs : list field) (acc : list (value * value)) : res value :=
      match fs with
      | [] => Ok (VDict acc)
      | f :: fs' =>
          rbind (rlift (getattr v (f_name f))) (fun x =>
          if negb (f_repr f) then pattr_loop v fs' acc
          else rbind (rlift (attr_hidden cfg f x)) (fun hid : bool =>
               if hid then pattr_loop v fs' acc
               else rbind (D x TAny) (fun y => pattr_loop v fs' (dict_set (VStr (ext_name cfg f)) y acc))))
      end.
    Fixpoint pnt_loop (defaults : list (string * option value)) (fs : list (string * value))
             (acc : list (value * value)) : res value :=
      match fs with
      | [] => Ok (VDict acc)
      | (k, x) :: fs' =>
          if d_hide cfg && match str_get k defaults with Some (Some d) => py_eqb d x | _ => false end
          then pnt_loop defaults fs' acc
          else rbind (D x TAny) (fun y => pnt_loop defaults fs' (dict_set (VStr k) y acc))
      end.
    Fixpoint pdc_loop (v : value) (fs : list field) (info : dcinfo) (names : list string)
             (acc : list (value * value)) : res value :=
      match names with
      | [] => Ok (VDict acc)
      | k :: names' =>
          match find (fun f => String.eqb (f_name f) k) fs with
          | None => Exc (XRaw RKey)
          | Some f =>
              rbind (rlift (getattr v k)) (fun x =>
              if d_hide cfg && match str_get k (dc_defaults info) with Some d => py_eqb d x | None => false end
              then pdc_loop v fs info names' acc
              else rbind (D x (match str_get k (dc_hints info) with Some h => h | None => TAny end))
                     (fun y => pdc_loop v fs info names' (dict_set (VStr (ext_name cfg f)) y acc)))
          end
      end.
    Fixpoint pdump_list (l : list value) (acc : list value) : res value :=
      match l with
      | [] => Ok (VList acc)
      | x :: l' => rbind (D x TAny) (fun y => pdump_list l' (acc ++ [y]))
      end.
    Fixpoint pdict_loop (d : list (value * value)) (acc : list (value * value)) : res value :=
      match d with
      | [] => Ok (VDict acc)
      | (k, x) :: d' =>
          rbind (D k TAny) (fun k' => rbind (D x TAny) (fun x' =>
          if hashable w k' then pdict_loop d' (dict_set k' x' acc) else Exc (XRaw RType)))
      end.
    Definition pbody (h : dhandler) (v : value) (t : ty) : res value :=
      match h with
      | DIdent => Ok v
      | DNamedTuple =>
          match v with
          | VNT c fs => pnt_loop (match ci_nt (class_of w c) with Some l => l | None => [] end) fs []
          | _ => Exc (XRaw RAttr)
          end
      | DDataclass =>
          match ci_dc (class_of w (type_of v)) with
          | None => Exc (XRaw RAttr)
          | Some fs => rbind (rlift (dc_info w (type_of v) fs)) (fun info => pdc_loop v fs info (dc_fields info) [])
          end
      | DIter =>
          match iter v with
          | None => Exc (XRaw RType)
          | Some l => if in_classes (d_basic cfg) (Dumper.item_type t) && ident_first cfg then Ok (VList l) else pdump_list l []
          end
      | DEnum => match v with VEnum _ _ x => D x TAny | _ => Exc (XRaw RAttr) end
      | DDict => match v with VDict d => pdict_loop d [] | _ => Exc (XRaw RAttr) end
      | DAttrs => match ci_attrs (class_of w (type_of v)) with Some fs => pattr_loop v fs [] | None => Exc (XRaw RAttr) end
      | DDatetime =>
          if d_iso cfg then Ok (VStr (w_iso w v))
          else match v with
               | VInst _ (VTuple l) =>
                   if isinstance w v CDate && negb (isinstance w v CDatetime) then Ok (VList l)
                   else match last l VNone with VNone => Ok (VList (removelast l)) | _ => Exc (XRaw RNotImpl) end
               | _ => Exc (XRaw RAttr)
               end
      | DTimedelta => Ok (w_seconds w v)
      | DPattern => match v with VInst _ p => Ok p | _ => Exc (XRaw RAttr) end
      | DStr => Ok (VStr (w_str w v))
      | DCustom _ => OOF
      end.
  End Pure.

  Fixpoint pdump (n : nat) (v : value) (t : ty) : res value :=
    match dfind cfg v with
    | inr e => Exc e
    | inl h => match n with 0 => OOF | S n' => pbody (pdump n') h v t end
    end.

  (** ** The caches do not matter *)
  Definition dcoh (s : dstate) : Prop :=
    (forall v h, python_object w v -> cid_get (type_of v) (ds_cache s) = Some h -> dfind cfg v = inl h) /\
    (forall c i, cid_get c (ds_dc s) = Some i -> exists fs, ci_dc (class_of w c) = Some fs /\ dc_info w c fs = POk i).

  Definition agrees {A} (m : DM A) (r : res A) : Prop := 
    forall s, dcoh s -> fst (m s) = r /\ dcoh (snd (m s)) /\ dwrites w cfg s (snd (m s)).
  Lemma ag_ret {A} (a : A) : agrees (ret a) (Ok a).
  Proof using. intros s H. split; [reflexivity|split; [exact H|constructor]]. Qed.
  Lemma ag_raise {A} e : agrees (raise (A := A) e) (Exc e).
  Proof using. intros s H. split; [reflexivity|split; [exact H|constructor]]. Qed.
  Lemma ag_bind {A B} (m : DM A) (f : A -> DM B) r g :
    agrees m r -> (forall a, r = Ok a -> agrees (f a) (g a)) -> agrees (bind m f) (rbind r g).
  Proof using.
    intros Hm Hf s H. unfold bind. destruct (Hm s H) as [E [C W]]. destruct (m s) as [x s'] eqn:Q. cbn [fst snd] in *. subst x.
    destruct r as [a|e|]; cbn [rbind]; [|split; [reflexivity|split; assumption]|split; [reflexivity|split; assumption]].
    destruct (Hf a eq_refl s' C) as [E' [C' W']]. split; [exact E'|]. split; [exact C'|]. eapply dw_then; eassumption.
  Qed.
  Lemma ag_lift {A} (r : pyres A) : agrees (lift r) (rlift r).
  Proof using. destruct r; [apply ag_ret|apply ag_raise]. Qed.

  Lemma dfind_not_custom v h : dfind cfg v = inl h -> forall f, h <> DCustom f.
  Proof using Hstd.
    unfold dfind. destruct (dindex cfg v) as [i|]; [|discriminate]. destruct Hstd as [-> _].
    intros H f ->. destruct (nth_error _ i) as [[c h]|] eqn:E; [|discriminate]. injection H as ->.
    apply nth_error_In in E. cbn in E. repeat (destruct E as [E|E]; [discriminate|]). contradiction.
  Qed.

  (** which handler the default ones are for *)
  Definition dchoice (v : value) : option dhandler :=
    if mem_cid (type_of v) basic then Some DIdent
    else if match v with VNT _ _ => true | _ => false end then Some DNamedTuple
    else if has_dc w v then Some DDataclass
    else if match v with VList _ | VTuple _ | VSet _ | VFrozen _ | VNT _ _ => true | _ => false end then Some DIter
    else if match v with VEnum _ _ _ => true | _ => false end then Some DEnum
    else if match v with VDict _ => true | _ => false end then Some DDict
    else if has_attrs w v then Some DAttrs
    else if is_date_or_time w v then Some DDatetime
    else if isinstance w v CTimedelta then Some DTimedelta
    else if isinstance w v CPattern then Some DPattern
    else if mem_cid (type_of v) strcons then Some DStr
    else None.
  Definition unable (v : value) : exn := cannot_dump v.
  Lemma dfind_choice v : dfind cfg v = match dchoice v with Some h => inl h | None => inr (unable v) end.
  Proof using Hstd.
    unfold dfind, dindex, dchoice. destruct Hstd as [-> _].
    cbn [default_dhandlers dindex_from].
    repeat match goal with |- context [if ?b then _ else _] => destruct b; [reflexivity|] end. reflexivity.
  Qed.

  Lemma dchoice_class v v' : python_object w v -> python_object w v' -> type_of v = type_of v' -> dchoice v = dchoice v'.
  Proof using.
    intros P P' E. unfold dchoice, has_dc, has_attrs, is_date_or_time, isinstance. rewrite E.
    destruct v, v'; cbn in *; subst; cbn in *; try discriminate; try reflexivity; exfalso; intuition congruence.
  Qed.

  Lemma dcoh_fresh : dcoh dfresh.
  Proof using. split; intros; discriminate. Qed.

  Lemma ag_dump_with call x t r :
    python_object w x ->
    (forall h, dfind cfg x = inl h -> agrees (call h x t) (r h)) ->
    agrees (dump_with cfg call x t) (match dfind cfg x with inr e => Exc e | inl h => r h end).
  Proof using Hstd.
    intros P H s C. unfold dump_with, bind.
    destruct (cid_get (type_of x) (ds_cache s)) as [h|] eqn:E.
    - rewrite (proj1 C x h P E). apply (H h (proj1 C x h P E) s C).
    - destruct (dfind cfg x) as [h|e] eqn:F; [|split; [reflexivity|split; [exact C|constructor]]].
      assert (C' : dcoh (mkDState ((type_of x, h) :: ds_cache s) (ds_dc s))); [|
        destruct (H h eq_refl _ C') as [E1 [C1 W1]]; split; [exact E1|]; split; [exact C1|];
        eapply dw_then; [eapply dw_handler; eassumption|exact W1]].
      split; [|apply C]. cbn [ds_cache]. intros v h0 Pv. cbn [cid_get].
      destruct (cid_eqb (type_of v) (type_of x)) eqn:Q; [|apply (proj1 C v h0 Pv)].
      apply cid_eqb_eq in Q. intros [= <-]. rewrite dfind_choice in *. rewrite (dchoice_class v x Pv P Q).
      destruct (dchoice x); [exact F|discriminate].
  Qed.

  Section Body.
    Variable call : dhandler -> value -> ty -> DM value.
    Variable D : value -> ty -> res value.

    Lemma ag_attr_loop v fs acc :
      (forall f x, getattr v f = POk x -> forall t, agrees (dump_with cfg call x t) (D x t)) ->
      agrees (attr_loop cfg call v fs acc) (pattr_loop D v fs acc).
    Proof using.
      intro H. revert acc. induction fs as [|f fs IH]; intro acc; cbn [attr_loop pattr_loop]; [apply ag_ret|].
      apply ag_bind; [apply ag_lift|]. intros x Q.
      destruct (negb (f_repr f)); [apply IH|]. apply ag_bind; [apply ag_lift|]. intros hid _.
      destruct hid; [apply IH|]. apply ag_bind; [|intros y _; apply IH].
      apply (H (f_name f)). destruct (getattr v (f_name f)); cbn in Q; congruence.
    Qed.
    Lemma ag_nt_loop ds fs acc :
      (forall f x, In (f, x) fs -> forall t, agrees (dump_with cfg call x t) (D x t)) ->
      agrees (nt_loop cfg call ds fs acc) (pnt_loop D ds fs acc).
    Proof using.
      revert acc. induction fs as [|[k x] fs IH]; intros acc H; cbn [nt_loop pnt_loop]; [apply ag_ret|].
      assert (H' : forall f x, In (f, x) fs -> forall t, agrees (dump_with cfg call x t) (D x t)) by (intros f y I; apply (H f y); right; exact I).
      destruct (_ && _); [apply IH; exact H'|]. apply ag_bind; [apply (H k x); left; reflexivity|]. intros y _. apply IH. exact H'.
    Qed.
    Lemma ag_dc_loop v fs info names acc :
      (forall f x, getattr v f = POk x -> forall t, agrees (dump_with cfg call x t) (D x t)) ->
      agrees (dc_loop cfg call v fs info names acc) (pdc_loop D v fs info names acc).
    Proof using.
      intro H. revert acc. induction names as [|k names IH]; intro acc; cbn [dc_loop pdc_loop]; [apply ag_ret|].
      destruct (find _ fs) as [f|]; [|apply ag_raise].
      apply ag_bind; [apply ag_lift|]. intros x Q.
      destruct (_ && _); [apply IH|]. apply ag_bind; [|intros y _; apply IH].
      apply (H k). destruct (getattr v k); cbn in Q; congruence.
    Qed.
    Lemma ag_dump_list l acc :
      (forall x, In x l -> forall t, agrees (dump_with cfg call x t) (D x t)) ->
      agrees (dump_list cfg call l acc) (pdump_list D l acc).
    Proof using.
      revert acc. induction l as [|x l IH]; intros acc H; cbn [dump_list pdump_list]; [apply ag_ret|].
      apply ag_bind; [apply H; left; reflexivity|]. intros y _. apply IH. intros z I. apply H. right. exact I.
    Qed.
    Lemma ag_dict_loop d acc :
      (forall k x, In (k, x) d -> forall t, agrees (dump_with cfg call k t) (D k t) /\ agrees (dump_with cfg call x t) (D x t)) ->
      agrees (dict_loop w cfg call d acc) (pdict_loop D d acc).
    Proof using.
      revert acc. induction d as [|[k x] d IH]; intros acc H; cbn [dict_loop pdict_loop]; [apply ag_ret|].
      apply ag_bind; [apply (H k x); left; reflexivity|]. intros k' _.
      apply ag_bind; [apply (H k x); left; reflexivity|]. intros x' _.
      destruct (hashable w k'); [|apply ag_raise]. apply IH. intros k0 x0 I. apply H. right. exact I.
    Qed.

    Lemma getattr_holds v f x : getattr v f = POk x -> holds v x.
    Proof using.
      assert (G : forall (fs : list (string * value)), str_get f fs = Some x -> In (f, x) fs).
      { induction fs as [|[k y] fs IH]; cbn; [discriminate|].
        destruct (String.eqb_spec f k) as [->|_]; [intros [= <-]; left; reflexivity|right; auto]. }
      destruct v; cbn; try discriminate; destruct (str_get f fs) as [y|] eqn:E; try discriminate; intros [= <-];
        apply G in E; [eapply holds_nt|eapply holds_obj]; exact E.
    Qed.
    (** the handler DIter is only for lists, tuples, sets *)
    Lemma iter_holds v l x : dfind cfg v = inl DIter -> iter v = Some l -> In x l -> holds v x.
    Proof using Hstd.
      rewrite dfind_choice. unfold dchoice. destruct v; cbn;
        try (repeat match goal with |- context [if ?b then _ else _] => destruct b; [discriminate|] end; discriminate);
        intros _ [= <-] I; constructor; exact I.
    Qed.

    Lemma ag_body h v t :
      dfind cfg v = inl h ->
      (forall x t', holds v x -> agrees (dump_with cfg call x t') (D x t')) ->
      agrees (dbody w cfg call h v t) (pbody D h v t).
    Proof using Hstd.
      intros F H. destruct h; cbn [dbody pbody].
      - apply ag_ret.
      - unfold namedtupledump. destruct v; try apply ag_raise. apply ag_nt_loop.
        intros f x I t'. apply H. eapply holds_nt. exact I.
      - unfold dataclassdump. destruct (ci_dc (class_of w (type_of v))) as [fs|] eqn:E; [|apply ag_raise].
        apply ag_bind; [|intros i _; apply ag_dc_loop; intros f x G t'; apply H; eapply getattr_holds; exact G].
        intros s C. destruct (cid_get (type_of v) (ds_dc s)) as [i|] eqn:Q.
        + destruct (proj2 C _ _ Q) as [fs' [E' I]]. rewrite E in E'. injection E' as <-. rewrite I. split; [reflexivity|split; [exact C|constructor]].
        + destruct (dc_info w (type_of v) fs) as [i|r] eqn:I; [|split; [reflexivity|split; [exact C|constructor]]].
          split; [reflexivity|]. split; [|eapply dw_fields; eassumption]. split; [apply C|]. cbn [ds_dc snd cid_get]. intros c j.
          destruct (cid_eqb c (type_of v)) eqn:Q'; [|apply (proj2 C)].
          apply cid_eqb_eq in Q'. subst c. intros [= <-]. eauto.
      - unfold iteratordump. destruct (iter v) as [l|] eqn:E; [|apply ag_raise].
        destruct (_ && _); [apply ag_ret|]. apply ag_dump_list. intros x I t'. apply H. eapply iter_holds; eassumption.
      - destruct v; try apply ag_raise. apply H. constructor.
      - destruct v; try apply ag_raise. apply ag_dict_loop. intros k x I t'.
        split; apply H; [eapply holds_key|eapply holds_value]; exact I.
      - unfold attrdump. destruct (ci_attrs _); [|apply ag_raise]. apply ag_attr_loop.
        intros f x G t'. apply H. eapply getattr_holds. exact G.
      - unfold datetimedump. destruct (d_iso cfg); [apply ag_ret|]. destruct v as [| | | | | | | | | | | | | | |c p]; try apply ag_raise.
        destruct p; try apply ag_raise. destruct (_ && _); [apply ag_ret|]. destruct (last l VNone); try apply ag_raise. apply ag_ret.
      - apply ag_ret.
      - unfold patterndump. destruct v; try apply ag_raise. apply ag_ret.
      - apply ag_ret.
      - exfalso. exact (dfind_not_custom _ _ F f eq_refl).
    Qed.
  End Body.

  Lemma pv_holds v x : python_value w v -> holds v x -> python_value w x.
  Proof using. intros P H y I. apply P. eapply rt1n_trans; eassumption. Qed.
  Lemma pv_head v : python_value w v -> python_object w v.
  Proof using. intro P. apply P. apply rt1n_refl. Qed.

  Lemma ag_dump n v t : python_value w v -> agrees (dump_ann w cfg n v t) (pdump n v t).
  Proof using Hstd.
    revert v t. induction n as [|n IH]; intros v t P; unfold dump_ann.
    - cbn [pdump]. apply (ag_dump_with (drun w cfg 0) v t (fun _ => OOF) (pv_head v P)).
      intros h _ s C. split; [reflexivity|split; [exact C|constructor]].
    - cbn [pdump]. apply (ag_dump_with (drun w cfg (S n)) v t (fun h => pbody (pdump n) h v t) (pv_head v P)).
      intros h F. cbn [drun]. apply ag_body; [exact F|]. intros x t' Hx. apply IH. eapply pv_holds; eassumption.
  Qed.
End Dumps.

Lemma dadjusted_find cfg cfg' v : dadjusted cfg cfg' -> dfind cfg' v = dfind cfg v.
Proof.
  intros [A [_ C]]. unfold dfind, dindex. rewrite A.
  assert (E : forall hs i, dindex_from cfg' hs v i = dindex_from cfg hs v i); [|rewrite E; reflexivity].
  induction hs as [|[c h] hs IH]; intro i; cbn [dindex_from]; [reflexivity|]. rewrite C, IH. reflexivity.
Qed.
Lemma dcoh_adjusted w cfg cfg' s : dadjusted cfg cfg' -> dcoh w cfg s -> dcoh w cfg' s.
Proof.
  intros A [H1 H2]. split; [|exact H2]. intros v h P E. rewrite (dadjusted_find cfg cfg' v A). apply H1; assumption.
Qed.
Lemma dadjusted_sym cfg cfg' : dadjusted cfg cfg' -> dadjusted cfg' cfg.
Proof. intros [A [B C]]. repeat split; congruence. Qed.
Lemma dadjusted_std w basic strcons cfg cfg' : dadjusted cfg cfg' -> is_dstd w basic strcons cfg' -> is_dstd w basic strcons cfg.
Proof. intros [A [B C]] [D E]. split; congruence. Qed.
Lemma dhistory_coh w basic strcons cfg s : is_dstd w basic strcons cfg -> dhistory w cfg s -> dcoh w cfg s.
Proof.
  intros St H. revert St. induction H as [cfg|cfg n v t s H IH P|cfg cfg' s H IH A]; intro St; [apply dcoh_fresh| |].
  - apply (ag_dump w basic strcons cfg St n v t P s (IH St)).
  - apply (dcoh_adjusted w cfg cfg' s A). apply IH. eapply dadjusted_std; eassumption.
Qed.

Section Dumps2.
  Variable w : world.
  Variables basic strcons : list cid.
  Variable cfg : dconfig.
  Hypothesis Hstd : is_dstd w basic strcons cfg.
  Notation pdump := (pdump w cfg).
  Notation pbody := (pbody w cfg).

  (** ** Termination *)
  Lemma list_max_In n l : In n l -> n <= list_max l.
  Proof using. intro I. pose proof (proj1 (list_max_le l (list_max l)) (le_n _)) as F. rewrite Forall_forall in F. apply F. exact I. Qed.
  Lemma depth_holds v x : holds v x -> depth x < depth v.
  Proof using.
    assert (L : forall l, In x l -> depth x < S (list_max (map depth l))).
    { intros l I. apply Nat.lt_succ_r. apply list_max_In. apply in_map. exact I. }
    assert (F : forall (fs : list (string * value)) f, In (f, x) fs -> depth x < S (list_max (map (fun kx => depth (snd kx)) fs))).
    { intros fs f I. apply Nat.lt_succ_r. apply list_max_In. apply (in_map (fun kx => depth (snd kx)) fs (f, x) I). }
    intro H. inversion H as [l y I|l y I|l y I|l y I|d k y I|d k y I|c fs f y I|c fs f y I|c m y]; subst; cbn [depth]; eauto.
    - apply (in_map (fun kx => Nat.max (depth (fst kx)) (depth (snd kx)))) in I. apply list_max_In in I. cbn [fst snd] in I. lia.
    - apply (in_map (fun kx => Nat.max (depth (fst kx)) (depth (snd kx)))) in I. apply list_max_In in I. cbn [fst snd] in I. lia.
  Qed.

  (** the handlers use the recursive calls on what the value holds *)
  Lemma pbody_ext D1 D2 h v t :
    dfind cfg v = inl h -> (forall x t', holds v x -> D1 x t' = D2 x t') -> pbody D1 h v t = pbody D2 h v t.
  Proof using Hstd.
    intros F H. destruct h; cbn [pbody]; try reflexivity.
    - destruct v; try reflexivity. generalize (match ci_nt (class_of w c) with Some l => l | None => [] end) as ds. intro ds.
      assert (H' : forall f x, In (f, x) fs -> forall t', D1 x t' = D2 x t') by (intros f x I t'; apply H; eapply holds_nt; exact I).
      clear H F. generalize (@nil (value * value)) as acc. induction fs as [|[k x] fs IH]; intro acc; cbn [pnt_loop]; [reflexivity|].
      rewrite (H' k x) by (left; reflexivity). assert (IH' := fun acc => IH (fun f x I => H' f x (or_intror I)) acc).
      destruct (_ && _); [apply IH'|]. destruct (D2 x TAny); cbn; [apply IH'|reflexivity|reflexivity].
    - destruct (ci_dc _) as [fs|]; [|reflexivity]. destruct (dc_info _ _ _) as [info|]; [|reflexivity]. cbn [rlift rbind].
      generalize (@nil (value * value)) as acc. induction (dc_fields info) as [|k names IH]; intro acc; cbn [pdc_loop]; [reflexivity|].
      destruct (find _ fs) as [f|]; [|reflexivity]. destruct (getattr v k) as [x|] eqn:G; cbn [rlift rbind]; [|reflexivity].
      destruct (_ && _); [apply IH|]. rewrite (H x) by (eapply getattr_holds; exact G).
      destruct (D2 x _); cbn; [apply IH|reflexivity|reflexivity].
    - destruct (iter v) as [l|] eqn:E; [|reflexivity]. destruct (_ && _); [reflexivity|].
      assert (H' : forall x, In x l -> D1 x TAny = D2 x TAny) by (intros x I; apply H; eapply iter_holds; eassumption).
      clear E. generalize (@nil value) as acc. induction l as [|x l IH]; intro acc; cbn [pdump_list]; [reflexivity|].
      rewrite (H' x) by (left; reflexivity). destruct (D2 x TAny); cbn; [|reflexivity|reflexivity].
      apply IH. intros y I. apply H'. right. exact I.
    - destruct v; try reflexivity. apply H. constructor.
    - destruct v as [| | | | | | | | | |d| | | | |]; try reflexivity.
      assert (H' : forall k x, In (k, x) d -> D1 k TAny = D2 k TAny /\ D1 x TAny = D2 x TAny).
      { intros k x I; split; apply H; [eapply holds_key|eapply holds_value]; exact I. }
      clear H F. generalize (@nil (value * value)) as acc. induction d as [|[k x] d IH]; intro acc; cbn [pdict_loop]; [reflexivity|].
      destruct (H' k x) as [-> ->]; [left; reflexivity|].
      destruct (D2 k TAny); cbn; [|reflexivity|reflexivity]. destruct (D2 x TAny); cbn; [|reflexivity|reflexivity].
      destruct (hashable w a); [|reflexivity]. apply IH. intros k0 x0 I. apply H'. right. exact I.
    - destruct (ci_attrs _) as [fs|]; [|reflexivity].
      generalize (@nil (value * value)) as acc. induction fs as [|f fs IH]; intro acc; cbn [pattr_loop]; [reflexivity|].
      destruct (getattr v (f_name f)) as [x|] eqn:G; cbn [rlift rbind]; [|reflexivity].
      destruct (negb (f_repr f)); [apply IH|]. destruct (attr_hidden cfg f x) as [[|]|]; cbn; [apply IH| |reflexivity].
      rewrite (H x) by (eapply getattr_holds; exact G). destruct (D2 x _); cbn; [apply IH|reflexivity|reflexivity].
  Qed.

  Lemma pdump_enough n m v t : depth v <= n -> depth v <= m -> pdump n v t = pdump m v t.
  Proof using Hstd.
    revert m v t. induction n as [|n IH]; intros m v t L1 L2; [destruct v; cbn in L1; lia|].
    destruct m as [|m]; [destruct v; cbn in L2; lia|]. cbn [pdump].
    destruct (dfind cfg v) as [h|] eqn:F; [|reflexivity]. apply pbody_ext; [exact F|].
    intros x t' Hx. apply depth_holds in Hx. apply IH; lia.
  Qed.

  (** the outcome of dump(v, annotated_type=t) *)
  Definition dval (v : value) (t : ty) : res value := pdump (depth v) v t.
  Lemma pdump_dval n v t : depth v <= n -> pdump n v t = dval v t.
  Proof using Hstd. intro L. apply pdump_enough; [exact L|apply le_n]. Qed.
  Lemma dval_eq v t : dval v t = match dfind cfg v with inr e => Exc e | inl h => pbody dval h v t end.
  Proof using Hstd.
    unfold dval at 1. assert (Q : exists m, depth v = S m) by (destruct v; eexists; reflexivity). destruct Q as [m Q].
    rewrite Q. cbn [pdump]. destruct (dfind cfg v) as [h|] eqn:F; [|reflexivity].
    apply pbody_ext; [exact F|]. intros x t' Hx. apply depth_holds in Hx. apply pdump_dval. lia.
  Qed.

  Lemma rbind_OOF {A B} (r : res A) (f : A -> res B) : r <> OOF -> (forall a, f a <> OOF) -> rbind r f <> OOF.
  Proof using. destruct r; cbn; congruence. Qed.
  Lemma rlift_OOF {A} (r : pyres A) : rlift r <> OOF.
  Proof using. destruct r; discriminate. Qed.
  Lemma pbody_OOF D h v t :
    dfind cfg v = inl h -> (forall x t', holds v x -> D x t' <> OOF) -> pbody D h v t <> OOF.
  Proof using Hstd.
    intros F H. destruct h; cbn [pbody]; try discriminate.
    - destruct v; try discriminate. generalize (match ci_nt (class_of w c) with Some l => l | None => [] end) as ds. intro ds.
      assert (H' : forall f x, In (f, x) fs -> D x TAny <> OOF) by (intros f x I; apply H; eapply holds_nt; exact I).
      clear H F. generalize (@nil (value * value)) as acc. induction fs as [|[k x] fs IH]; intro acc; cbn [pnt_loop]; [discriminate|].
      assert (IH' := fun acc => IH (fun f x I => H' f x (or_intror I)) acc).
      destruct (_ && _); [apply IH'|]. apply rbind_OOF; [apply (H' k x); left; reflexivity|intro; apply IH'].
    - destruct (ci_dc _) as [fs|]; [|discriminate]. destruct (dc_info _ _ _) as [info|]; [|discriminate]. cbn [rlift rbind].
      generalize (@nil (value * value)) as acc. induction (dc_fields info) as [|k names IH]; intro acc; cbn [pdc_loop]; [discriminate|].
      destruct (find _ fs) as [f|]; [|discriminate]. destruct (getattr v k) as [x|] eqn:G; cbn [rlift rbind]; [|discriminate].
      destruct (_ && _); [apply IH|]. apply rbind_OOF; [apply H; eapply getattr_holds; exact G|intro; apply IH].
    - destruct (iter v) as [l|] eqn:E; [|discriminate]. destruct (_ && _); [discriminate|].
      assert (H' : forall x, In x l -> D x TAny <> OOF) by (intros x I; apply H; eapply iter_holds; eassumption).
      clear E. generalize (@nil value) as acc. induction l as [|x l IH]; intro acc; cbn [pdump_list]; [discriminate|].
      apply rbind_OOF; [apply H'; left; reflexivity|]. intro. apply IH. intros y I. apply H'. right. exact I.
    - destruct v; try discriminate. apply H. constructor.
    - destruct v as [| | | | | | | | | |d| | | | |]; try discriminate.
      assert (H' : forall k x, In (k, x) d -> D k TAny <> OOF /\ D x TAny <> OOF).
      { intros k x I; split; apply H; [eapply holds_key|eapply holds_value]; exact I. }
      clear H F. generalize (@nil (value * value)) as acc. induction d as [|[k x] d IH]; intro acc; cbn [pdict_loop]; [discriminate|].
      apply rbind_OOF; [apply (H' k x); left; reflexivity|]. intro k'.
      apply rbind_OOF; [apply (H' k x); left; reflexivity|]. intro x'.
      destruct (hashable w k'); [|discriminate]. apply IH. intros k0 x0 I. apply H'. right. exact I.
    - destruct (ci_attrs _) as [fs|]; [|discriminate].
      generalize (@nil (value * value)) as acc. induction fs as [|f fs IH]; intro acc; cbn [pattr_loop]; [discriminate|].
      destruct (getattr v (f_name f)) as [x|] eqn:G; cbn [rlift rbind]; [|discriminate].
      destruct (negb (f_repr f)); [apply IH|]. apply rbind_OOF; [apply rlift_OOF|]. intros [|]; [apply IH|].
      apply rbind_OOF; [apply H; eapply getattr_holds; exact G|intro; apply IH].
    - destruct (d_iso cfg); [discriminate|]. destruct v as [| | | | | | | | | | | | | | |c p]; try discriminate.
      destruct p; try discriminate. destruct (_ && _); [discriminate|]. destruct (last l VNone); discriminate.
    - destruct v; discriminate.
    - exfalso. exact (dfind_not_custom w basic strcons cfg Hstd _ _ F f eq_refl).
  Qed.
  Lemma dval_OOF v t : dval v t <> OOF.
  Proof using Hstd.
    remember (depth v) as n eqn:Q. assert (L : depth v <= n) by lia. clear Q.
    revert v t L. induction n as [|n IH]; intros v t L; [destruct v; cbn in L; lia|].
    rewrite dval_eq. destruct (dfind cfg v) as [h|] eqn:F; [|discriminate].
    apply pbody_OOF; [exact F|]. intros x t' Hx. apply IH. apply depth_holds in Hx. lia.
  Qed.

  Lemma dump_dval n s v t : dhistory w cfg s -> python_value w v -> depth v <= n -> fst (dump_ann w cfg n v t s) = dval v t.
  Proof using Hstd.
    intros H P L. destruct (ag_dump w basic strcons cfg Hstd n v t P s (dhistory_coh w basic strcons cfg s Hstd H)) as [-> _]. apply pdump_dval. exact L.
  Qed.
  Lemma dumps_dval s v r : dhistory w cfg s -> python_value w v -> (dumps w cfg s v r <-> r = dval v TAny).
  Proof using Hstd.
    intros H P. split.
    - intros [NO [n E]]. unfold dump in E. rewrite <- (dump_dval (depth v) s v TAny H P (le_n _)).
      rewrite <- E. f_equal. apply dump_fuel_independent; [congruence|]. rewrite (dump_dval _ _ _ _ H P (le_n _)). apply dval_OOF.
    - intros ->. split; [apply dval_OOF|]. exists (depth v). apply dump_dval; [exact H|exact P|apply le_n].
  Qed.
End Dumps2.
