(** * Scalars: lemmas for C02, C04, C05, C11, C12, C31-C35, C42 *)

From Verif Require Import Loader Dumper Spec Inv Std Obs.

Definition tlerr (k : tlkind) (m : msg) (v : value) (t : ty) (e : exn) : Prop :=
  e = XTL k m [(v, t, None)] (Some v) (Some t) [].

Section Scalars.
  Variable w : world.
  Variables basic strcons : list cid.
  Variable cfg : config.
  Hypothesis Hstd : is_std w basic strcons cfg.
  Variable s : lstate.
  Hypothesis Hs : coh w cfg s.

  Lemma find_basic c : In c basic -> c <> CNone -> find_handler cfg (TClass c) = POk HBasic.
  Proof using Hstd.
    intros B N. rewrite (find_std w basic strcons) by exact Hstd. unfold chain.
    destruct (is_nonetype (TClass c)) eqn:E; [apply ty_eqb_eq in E; congruence|].
    cbn [is_union in_classes]. apply mem_cid_In in B. rewrite B. reflexivity.
  Qed.
  Lemma find_any : find_handler cfg TAny = POk HAny.
  Proof using Hstd. rewrite (find_std w basic strcons) by exact Hstd. reflexivity. Qed.
  Lemma find_literal vals : find_handler cfg (TLiteral vals) = POk HLiteral.
  Proof using Hstd. rewrite (find_std w basic strcons) by exact Hstd. reflexivity. Qed.
  Lemma find_none : find_handler cfg (TClass CNone) = POk HNone.
  Proof using Hstd. rewrite (find_std w basic strcons) by exact Hstd. reflexivity. Qed.
  Lemma find_union n args : find_handler cfg (TGen n OUnion (Some args)) = POk HUnion.
  Proof using Hstd. rewrite (find_std w basic strcons) by exact Hstd. reflexivity. Qed.
  Lemma find_list n args : find_handler cfg (TGen n OList args) = POk HList.
  Proof using Hstd. rewrite (find_std w basic strcons) by exact Hstd. reflexivity. Qed.
  Lemma find_tuple n args : find_handler cfg (TGen n OTuple args) = POk HTuple.
  Proof using Hstd. rewrite (find_std w basic strcons) by exact Hstd. reflexivity. Qed.
  Lemma find_set n args : find_handler cfg (TGen n OSet args) = POk HSet.
  Proof using Hstd. rewrite (find_std w basic strcons) by exact Hstd. reflexivity. Qed.
  Lemma find_frozen n args : find_handler cfg (TGen n OFrozen args) = POk HFrozen.
  Proof using Hstd. rewrite (find_std w basic strcons) by exact Hstd. reflexivity. Qed.
  Lemma find_dict n args : find_handler cfg (TGen n ODict args) = POk HDict.
  Proof using Hstd. rewrite (find_std w basic strcons) by exact Hstd. reflexivity. Qed.
  Lemma find_newtype n t : find_handler cfg (TNewType n t) = POk HNewType.
  Proof using Hstd. rewrite (find_std w basic strcons) by exact Hstd. reflexivity. Qed.
  Lemma find_forward n : find_handler cfg (TForward n) = POk HForward.
  Proof using Hstd. rewrite (find_std w basic strcons) by exact Hstd. reflexivity. Qed.
  Lemma find_enum c : ci_enum (class_of w c) <> None -> ~ In c basic -> find_handler cfg (TClass c) = POk HEnum.
  Proof using Hstd.
    intros E B. rewrite (find_std w basic strcons) by exact Hstd. unfold chain.
    destruct (is_nonetype (TClass c)) eqn:N.
    { apply ty_eqb_eq in N. injection N as ->. cbn in E. congruence. }
    cbn [is_union in_classes is_enum]. destruct (mem_cid c basic) eqn:M.
    { apply mem_cid_In in M. contradiction. }
    destruct (ci_enum (class_of w c)); [reflexivity|congruence].
  Qed.

  (** C02 *)
  Lemma basic_same c v n :
    In c basic -> c <> CNone -> type_of v = c ->
    fst (load w cfg (S n) v (TClass c) s) = Ok v.
  Proof using Hstd Hs.
    intros B N T. rewrite (load_pure w cfg n s v (TClass c) HBasic (Ok v)); auto.
    - apply find_basic; assumption.
    - intros call s'. cbn [body]. unfold basicload, exact. rewrite T, ty_eqb_refl. reflexivity.
  Qed.
  Lemma basic_other c v n :
    In c basic -> c <> CNone -> basiccast cfg = false -> type_of v <> c ->
    fst (load w cfg (S n) v (TClass c) s)
    = Exc (XTL KValue (MGot v (TClass c)) [(v, TClass c, None)] (Some v) (Some (TClass c)) []).
  Proof using Hstd Hs.
    intros B N BC T.
    rewrite (load_pure w cfg n s v (TClass c) HBasic (Exc (XTL KValue (MGot v (TClass c)) [] (Some v) (Some (TClass c)) []))); auto.
    - apply find_basic; assumption.
    - intros call s'. cbn [body]. unfold basicload, exact.
      destruct (ty_eqb (TClass (type_of v)) (TClass c)) eqn:E; [apply ty_eqb_eq in E; congruence|].
      rewrite BC. reflexivity.
  Qed.
  (** basiccast: the outcome is the one of calling the type *)
  Lemma basic_cast c v n :
    In c basic -> c <> CNone -> basiccast cfg = true -> type_of v <> c ->
    ci_enum (class_of w c) = None ->
    match w_call w (TClass c) v with
    | POk r => fst (load w cfg (S n) v (TClass c) s) = Ok r
    | PExc r => exists k, fst (load w cfg (S n) v (TClass c) s)
                = Exc (XTL k (MPy r) [(v, TClass c, None)] (Some v) (Some (TClass c)) [])
    end.
  Proof using Hstd Hs.
    intros B N BC T NE.
    assert (E : exact v (TClass c) = false).
    { unfold exact. apply ty_eqb_neq. congruence. }
    destruct (w_call w (TClass c) v) as [r|r] eqn:W.
    - rewrite (load_pure w cfg n s v (TClass c) HBasic (Ok r)); auto; [apply find_basic; assumption|].
      intros call s'. cbn [body]. unfold basicload, call_type. rewrite E, BC, NE, W. reflexivity.
    - exists (match r with RValue => KValue | RType => KType | _ => KBase end).
      rewrite (load_pure w cfg n s v (TClass c) HBasic
        (Exc (XTL (match r with RValue => KValue | RType => KType | _ => KBase end) (MPy r) [] (Some v) (Some (TClass c)) []))).
      + reflexivity.
      + exact Hs.
      + apply find_basic; assumption.
      + intros call s'. cbn [body]. unfold basicload, call_type. rewrite E, BC, NE, W. destruct r; reflexivity.
  Qed.

  (** C04 *)
  Lemma any_same v n : fst (load w cfg (S n) v TAny s) = Ok v.
  Proof using Hstd Hs.
    rewrite (load_pure w cfg n s v TAny HAny (Ok v)); auto. apply find_any.
  Qed.
  Lemma literal_in v vals n :
    fst (load w cfg (S n) v (TLiteral vals) s)
    = if py_in v vals then Ok v
      else Exc (XTL KValue (MNotLiteral (TLiteral vals)) [(v, TLiteral vals, None)] (Some v) (Some (TLiteral vals)) []).
  Proof using Hstd Hs.
    rewrite (load_pure w cfg n s v (TLiteral vals) HLiteral
      (if py_in v vals then Ok v
       else Exc (XTL KValue (MNotLiteral (TLiteral vals)) [] (Some v) (Some (TLiteral vals)) []))); auto.
    - destruct (py_in v vals); reflexivity.
    - apply find_literal.
    - intros call s'. cbn [body literalload]. destruct (py_in v vals); reflexivity.
  Qed.

  (** C05 *)
  Lemma none_only v n :
    fst (load w cfg (S n) v (TClass CNone) s)
    = match v with
      | VNone => Ok VNone
      | _ => Exc (XTL KValue MNotNone [(v, TClass CNone, None)] (Some v) (Some (TClass CNone)) [])
      end.
  Proof using Hstd Hs.
    rewrite (load_pure w cfg n s v (TClass CNone) HNone
      (match v with
       | VNone => Ok VNone
       | _ => Exc (XTL KValue MNotNone [] (Some v) (Some (TClass CNone)) [])
       end)); auto.
    - destruct v; reflexivity.
    - apply find_none.
    - intros call s'. cbn [body noneload]. destruct v; reflexivity.
  Qed.

  (** C11 *)
  Lemma dict_not_iter d n nat_ o args :
    o = OTuple \/ ((o = OList \/ o = OSet \/ o = OFrozen) /\ args <> []) ->
    exists m, fst (load w cfg (S n) (VDict d) (TGen nat_ o (Some args)) s)
      = Exc (XTL KType m [(VDict d, TGen nat_ o (Some args), None)]
                 (Some (VDict d)) (Some (TGen nat_ o (Some args))) []).
  Proof using Hstd Hs.
    intro O.
    assert (exists h m, find_handler cfg (TGen nat_ o (Some args)) = POk h /\
      forall call s', fst (body w cfg call h (VDict d) (TGen nat_ o (Some args)) s')
        = Exc (XTL KType m [] (Some (VDict d)) (Some (TGen nat_ o (Some args))) [])) as [h [m [F B]]].
    { destruct O as [->|[O NE]].
      - exists HTuple. destruct args as [|a [|b [|c rest]]].
        + exists MDictTuple. split; [apply find_tuple|reflexivity].
        + exists MDictTuple. split; [apply find_tuple|reflexivity].
        + destruct (ty_eqb b TEllipsis) eqn:E.
          * apply ty_eqb_eq in E. subst b. exists MDictIter. split; [apply find_tuple|reflexivity].
          * exists MDictTuple. split; [apply find_tuple|]. intros call s'. cbn [body]. unfold tupleload.
            cbn [ty_args]. destruct b; try reflexivity. rewrite ty_eqb_refl in E. discriminate.
        + exists MDictTuple. split; [apply find_tuple|]. intros call s'. cbn [body]. unfold tupleload.
          cbn [ty_args]. destruct b; reflexivity.
      - destruct args as [|a rest]; [destruct (NE eq_refl)|].
        destruct O as [->|[->| ->]].
        + exists HList, MDictIter. split; [apply find_list|reflexivity].
        + exists HSet, MDictIter. split; [apply find_set|reflexivity].
        + exists HFrozen, MDictIter. split; [apply find_frozen|reflexivity]. }
    exists m. rewrite (load_pure w cfg n s (VDict d) _ h _ Hs F B). reflexivity.
  Qed.

  (** C12 *)
  Lemma union_passthrough v n nat_ args :
    In (type_of v) basic -> In (TClass (type_of v)) args ->
    fst (load w cfg (S n) v (TGen nat_ OUnion (Some args)) s) = Ok v.
  Proof using Hstd Hs.
    intros B A. rewrite (load_pure w cfg n s v _ HUnion (Ok v)); auto; [apply find_union|].
    intros call s'. cbn [body]. unfold unionload. cbn [ty_args].
    assert (basicb cfg (TClass (type_of v)) = true) as ->.
    { unfold basicb. destruct Hstd as [_ ->]. cbn. apply mem_cid_In. exact B. }
    apply mem_ty_In in A. rewrite A. reflexivity.
  Qed.

  (** C35 *)
  Lemma newtype_transparent v n nm t a :
    exists s', coh w cfg s' /\
    fst (load_ann w cfg (S n) v (TNewType nm t) a s)
    = wrap v (TNewType nm t) a (fst (load w cfg n v t s')).
  Proof using Hstd Hs.
    destruct (load_run w cfg (S n) v (TNewType nm t) a s HNewType Hs (find_newtype nm t)) as [s' [C E]].
    exists s'. split; [exact C|]. rewrite E. reflexivity.
  Qed.
End Scalars.
