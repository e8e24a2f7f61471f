(** * Facts4: exceptions (towards C17, C18, C19, C40) *)

From Verif Require Import Loader Render Spec Inv Std Fuel Trace Hist.
From Verif Require Export Vocab.

Section Facts4.
  Variable w : world.
  Variables basic strcons : list cid.
  Variable cfg : config.
  Hypothesis Hstd : is_std w basic strcons cfg.
  Hypothesis Hwf : wf_reflect w.

  Lemma used_coh s : used w cfg s -> coh w cfg s.
  Proof using. apply Obs.used_coh. Qed.

  Lemma ends_LE s v t e s' : used w cfg s -> ends w cfg s v t (Exc e) s' ->
    exists s1, LE w basic strcons cfg s' (failed_run w cfg s1) v t None e.
  Proof using Hstd Hwf.
    intros U [_ [n E]]. pose proof (trace_load w basic strcons cfg Hstd Hwf n v t s e (used_coh s U)) as T.
    rewrite E in T. cbn [fst snd] in T. apply T. reflexivity.
  Qed.

  Lemma c17 s v t r s' :
    hashable_results w basic strcons -> used w cfg s ->
    (forall x, inside v x -> hashed w x) ->
    (forall x t', meets w cfg (names_of s') v t x t' -> ~ hazard w cfg (names_of s') x t') ->
    ends w cfg s v t r s' -> (exists y, r = Ok y) \/ raises_tl r.
  Proof using Hstd Hwf.
    intros HR U HV NH E. destruct r as [y|e|]; [left; eauto| |destruct E as [E _]; congruence].
    right. destruct (ends_LE s v t e s' U E) as [s1 L]. destruct e as [k m tr ve te subs|r]; [repeat eexists|].
    exfalso. exact (L HR HV NH).
  Qed.

  Lemma not_supported t : find_handler cfg t = PExc RValue -> ~ supported cfg t.
  Proof using.
    unfold find_handler, supported. intros F [i I]. rewrite I in F. destruct (nth_error _ i) as [[? ?]|]; discriminate.
  Qed.

  Lemma c18 s v t k m tr ve te subs s' :
    used w cfg s -> ends w cfg s v t (Exc (XTL k m tr ve te subs)) s' ->
    (~ supported cfg t /\ tr = [] /\ ve = Some v /\ te = Some t /\ subs = []) \/
    exists tr', tr = (v, t, None) :: tr' /\ explains w cfg (names_of s') v t (XTL k m tr' ve te subs).
  Proof using Hstd Hwf.
    intros U E. destruct (ends_LE _ _ _ _ _ U E) as [s1 [[F Q]|[e0 [T [[X _] Q]]]]]; [|apply blames_explains in X].
    - injection Q as -> -> -> -> -> ->. left. split; [apply not_supported; exact F|auto].
    - right. destruct e0 as [k0 m0 tr0 ve0 te0 subs0|]; [|discriminate]. cbn [push_trace] in Q.
      injection Q as -> -> -> -> -> ->. eauto.
  Qed.

  (** ** str(e) *)
  Variable P : printer.
  Section RawFree.
    (** no raw exception inside *)
    Fixpoint rawfree (e : exn) : bool :=
      match e with
      | XRaw _ => false
      | XTL _ _ _ _ _ subs => (fix go (l : list exn) : bool := match l with [] => true | x :: l' => rawfree x && go l' end) subs
      end.
  End RawFree.
  Lemma rawfree_In k m tr ve te subs x : rawfree (XTL k m tr ve te subs) = true -> In x subs -> rawfree x = true.
  Proof using.
    cbn [rawfree]. induction subs as [|y subs IH]; [intros _ []|]. intros H [<-|I].
    - apply andb_prop in H. apply H.
    - apply IH; [|exact I]. apply andb_prop in H. apply H.
  Qed.
  Lemma rawfree_nested e : (forall r, ~ nested e (XRaw r)) -> rawfree e = true.
  Proof using.
    revert e. fix IH 1. intros [k m tr ve te subs|r] H; [|exfalso; exact (H r (nested_here _))].
    cbn [rawfree]. assert (Hs : forall x, In x subs -> forall r, ~ nested x (XRaw r)).
    { intros x I r N. apply (H r). eapply nested_sub; eassumption. }
    clear H. induction subs as [|x subs IHs]; [reflexivity|]. apply andb_true_intro. split.
    - apply IH. apply Hs. left. reflexivity.
    - apply IHs. intros y I. apply Hs. right. exact I.
  Qed.

  Lemma sub_total e : forall indent, rawfree e = true -> exists x, subexceptions P indent e = POk x.
  Proof using.
    revert e. fix IH 1. intros [k m tr ve te subs|r] indent H; [|discriminate].
    cbn [subexceptions]. cbn [rawfree] in H.
    generalize (spaces indent ++ "Exceptions:" ++ nl)%string as acc. revert H.
    induction subs as [|x subs IHs]; intros H acc; [eauto|].
    apply andb_prop in H as [Hx Hs]. specialize (IH x (S indent) Hx).
    destruct x as [k0 m0 tr0 ve0 te0 subs0|r]; [|discriminate].
    destruct subs0 as [|y subs0]; [apply (IHs Hs)|].
    destruct IH as [z ->]. apply (IHs Hs).
  Qed.
  Lemma str_total e : rawfree e = true -> exists x, str_exn P e = POk x.
  Proof using.
    intro H. destruct e as [k m tr ve te subs|r]; [|discriminate]. cbn [str_exn].
    destruct subs as [|y subs]; [eauto|]. destruct (sub_total _ 0 H) as [x E]. rewrite E. eauto.
  Qed.

  Lemma walk_meets env v t tr v' t' : walk w cfg env v t tr v' t' -> meets w cfg env v t v' t'.
  Proof using. intro W. induction W; [apply meets_here|eapply meets_move; eassumption]. Qed.

  Definition set_trace (tr : list titem) (e : exn) : exn :=
    match e with XTL k m _ ve te subs => XTL k m tr ve te subs | XRaw r => XRaw r end.
  Lemma explains_rawfree0 env e : forall v t tr,
    explains w cfg env v t (set_trace tr e) ->
    (forall x c, meets w cfg env v t x (TClass c) -> ~ annotated_enum w c) -> rawfree e = true.
  Proof using.
    revert e. fix IH 1. intros e v t tr X NE. destruct e as [k m tr0 ve te subs|r]; [|inversion X].
    cbn [set_trace] in X. inversion X as [v0 t0 k0 m0 tr1 ve0 te0 subs0 v' t' Wk Rp Su Fs]; subst.
    apply walk_meets in Wk. cbn [rawfree].
    clear X Rp Su. induction subs as [|x subs IHs]; [reflexivity|].
    inversion Fs as [|x0 l0 Fx Fs']; subst. apply andb_true_intro. split; [|apply IHs; exact Fs'].
    clear IHs Fs Fs'.
    assert (AE : forall c t1, alternative w (TClass c) t1 -> t' = TClass c -> False).
    { intros c t1 A ->. inversion A as [|c0 ms l t2 E1 E2 E3]; subst. apply (NE v' c Wk). split; [congruence|].
      destruct l as [|y l]; [contradiction|]. eauto. }
    assert (Y : (exists t1 tr1, alternative w t' t1 /\ explains w cfg env v' t1 (set_trace tr1 x)) -> rawfree x = true).
    { intros [t1 [tr1 [A1 Q]]]. apply (IH x v' t1 tr1 Q). intros y c M. apply (NE y c).
      eapply meets_trans; [exact Wk|]. eapply meets_alt; [exact A1|exact M]. }
    inversion Fx as [v1 n args t1 e1 k1 m1 tr1 ve1 te1 subs1 I1 E1 X1|v1 c t1 e1 k1 m1 tr1 ve1 te1 subs1 A1 E1 X1|v1 c t1 k1 m1 A1|v1 c t1 r A1]; subst;
      try (exfalso; eapply AE; [exact A1|reflexivity]).
    apply Y. exists t1, tr1. split; [constructor; exact I1|exact X1].
  Qed.

  Lemma c19 s v t e s' :
    used w cfg s -> ends w cfg s v t (Exc e) s' -> is_tl e = true ->
    (forall x c, meets w cfg (names_of s') v t x (TClass c) -> ~ annotated_enum w c) ->
    exists text, str_exn P e = POk text.
  Proof using Hstd Hwf.
    intros U E TL NE. apply str_total. destruct e as [k m tr ve te subs|]; [|discriminate].
    destruct (c18 _ _ _ _ _ _ _ _ _ _ U E) as [[_ [_ [_ [_ ->]]]]|[tr' [-> X]]]; [reflexivity|].
    exact (explains_rawfree0 _ (XTL k m ((v, t, None) :: tr') ve te subs) v t tr' X NE).
  Qed.
  Lemma c19_raw e : (forall r, ~ nested e (XRaw r)) <-> exists text, str_exn P e = POk text.
  Proof using.
    split; [intro H; apply str_total; apply rawfree_nested; exact H|].
    intros [text H] r N.
    assert (R : rawfree e = false).
    { clear H. remember (XRaw r) as y eqn:Q. induction N as [|k m tr ve te subs x y I N IHN]; [subst; reflexivity|].
      specialize (IHN Q). cbn [rawfree]. clear N.
      induction subs as [|z subs IHs]; [contradiction|]. cbn. destruct I as [<-|I]; [rewrite IHN; reflexivity|].
      rewrite (IHs I). apply andb_false_r. }
    assert (SUB : forall e indent, rawfree e = false -> exists q, subexceptions P indent e = PExc q).
    { clear. fix IH 1. intros [k m tr ve te subs|q] indent H; [|eexists; reflexivity].
      cbn [subexceptions]. cbn [rawfree] in H.
      generalize (spaces indent ++ "Exceptions:" ++ nl)%string as acc. revert H.
      induction subs as [|x subs IHs]; intros H acc; [discriminate|].
      specialize (IH x (S indent)).
      destruct x as [k0 m0 tr0 ve0 te0 subs0|q]; [|eexists; reflexivity].
      apply andb_false_iff in H. destruct subs0 as [|y subs0].
      - destruct H as [H|H]; [discriminate|]. apply (IHs H).
      - destruct (subexceptions P (S indent) _) as [z|q]; [|eexists; reflexivity].
        destruct H as [H|H]; [destruct (IH H); discriminate|]. apply (IHs H). }
    destruct e as [k m tr ve te subs|q]; [|discriminate]. cbn [str_exn] in H.
    destruct subs as [|y subs]; [discriminate|]. destruct (SUB _ 0 R) as [q Q]. rewrite Q in H. discriminate.
  Qed.

  (** ** Paths *)
  Lemma concat_dotted l : String.concat "." l = dotted l.
  Proof using. induction l as [|x [|y l] IH]; [reflexivity|reflexivity|].
    change (x ++ "." ++ String.concat "." (y :: l) = x ++ "." ++ dotted (y :: l))%string. rewrite IH. reflexivity. Qed.
  Lemma path_root v t tr :
    path P ((v, t, None) :: tr) = ("." ++ dotted (map (fun i => path_item P (snd i)) tr))%string.
  Proof using.
    unfold path. cbn [map snd path_item].
    destruct (map (fun i => path_item P (snd i)) tr) as [|x l] eqn:E; [reflexivity|].
    rewrite String.eqb_refl. rewrite <- concat_dotted. reflexivity.
  Qed.

  Lemma decimal_app a b acc : decimal_value (a ++ b)%string acc =
    match decimal_value a acc with Some x => decimal_value b x | None => None end.
  Proof using.
    revert acc. induction a as [|c a IH]; intro acc; cbn; [reflexivity|].
    destruct (digit_value c); [apply IH|reflexivity].
  Qed.
  Lemma digit_digit n : decimal_value (digit n) 0 = Some (n mod 10) /\ forall acc, decimal_value (digit n) acc = Some (10 * acc + n mod 10).
  Proof using.
    assert (D : digit_value (Ascii.ascii_of_nat (48 + n mod 10)) = Some (n mod 10)).
    { assert (B : n mod 10 < 10) by (apply Nat.mod_upper_bound; lia).
      unfold digit_value. rewrite Ascii.nat_ascii_embedding by lia.
      replace (Nat.leb 48 (48 + n mod 10)) with true by (symmetry; apply Nat.leb_le; lia).
      replace (Nat.leb (48 + n mod 10) 57) with true by (symmetry; apply Nat.leb_le; lia).
      cbn [andb]. f_equal. lia. }
    unfold digit. split; [|intro acc]; cbn [decimal_value]; rewrite D; f_equal.
  Qed.
  Lemma dec_aux_spec f n : n < f -> numeral (dec_aux f n) n /\ (n <> 0 -> forall s', dec_aux f n <> String "0"%char s').
  Proof using.
    revert n. induction f as [|f IH]; intros n L; [lia|]. cbn [dec_aux].
    assert (Z : forall m, m mod 10 <> 0 -> forall s', digit m <> String "0"%char s').
    { intros m N s' E. destruct (digit_digit m) as [D _].
      assert (L1 : String.length (digit m) = 1) by reflexivity. rewrite E in D, L1.
      destruct s'; [|discriminate]. apply N. injection D as D. symmetry. exact D. }
    destruct (Nat.ltb_spec n 10) as [B|B].
    - destruct (digit_digit n) as [D _]. rewrite Nat.mod_small in D by exact B. split.
      + split; [exact D|]. unfold digit. eexists; eexists; split; reflexivity.
      + intro N. apply Z. rewrite Nat.mod_small by exact B. exact N.
    - assert (L1 : n / 10 < n) by (apply Nat.div_lt; lia).
      assert (L0 : 1 <= n / 10) by (apply Nat.div_le_lower_bound; lia).
      destruct (IH (n / 10) ltac:(lia)) as [[V [c [s' [E H0]]]] NZ].
      specialize (NZ ltac:(lia)). rewrite E in *. split.
      + split.
        * rewrite decimal_app, V. destruct (digit_digit n) as [_ ->]. f_equal.
          pose proof (Nat.div_mod n 10 ltac:(lia)). lia.
        * exists c. eexists. split; [reflexivity|]. intros ->. exfalso. exact (NZ s' eq_refl).
      + intros _ s2 Q. cbn in Q. injection Q as -> _. exact (NZ s' eq_refl).
  Qed.
  Lemma dec_numeral n : numeral (dec n) n.
  Proof using. apply dec_aux_spec. lia. Qed.

  Lemma zdec_aux_dec f : forall p g, (0 <= p < 2 ^ Z.of_nat f)%Z -> Z.to_nat p < g -> f <> 0 -> zdec_aux f p = dec_aux g (Z.to_nat p).
  Proof using.
    induction f as [|f IH]; intros p g B L N; [congruence|]. destruct g as [|g]; [lia|]. cbn [zdec_aux dec_aux].
    assert (T : Z.ltb p 10 = Nat.ltb (Z.to_nat p) 10).
    { destruct (Z.ltb_spec p 10), (Nat.ltb_spec (Z.to_nat p) 10); try reflexivity; lia. }
    rewrite T. destruct (Nat.ltb_spec (Z.to_nat p) 10) as [S1|S1]; [reflexivity|].
    assert (Q : Z.to_nat (p / 10) = Z.to_nat p / 10) by (rewrite Z2Nat.inj_div by lia; reflexivity).
    assert (R : Z.to_nat (p mod 10) = Z.to_nat p mod 10) by (rewrite Z2Nat.inj_mod by lia; reflexivity).
    f_equal.
    - rewrite <- Q. apply IH.
      + rewrite Nat2Z.inj_succ, Z.pow_succ_r in B by lia. split; [apply Z.div_pos; lia|].
        apply Z.div_lt_upper_bound; lia.
      + rewrite Q. assert (Z.to_nat p / 10 < Z.to_nat p) by (apply Nat.div_lt; lia). lia.
      + intros ->. cbn in B. lia.
    - unfold digit. rewrite R, Nat.mod_mod by lia. reflexivity.
  Qed.
  Lemma zdec_numeral z : signed_numeral (zdec z) z.
  Proof using.
    assert (PN : forall p, (0 <= p)%Z -> numeral (zdec_aux (S (Z.to_nat (Z.log2 p))) p) (Z.to_nat p)).
    { intros p G. rewrite (zdec_aux_dec _ p (S (Z.to_nat p))); [apply dec_numeral| |lia|discriminate].
      split; [exact G|]. rewrite Nat2Z.inj_succ, Z2Nat.id by apply Z.log2_nonneg.
      destruct (Z.eq_dec p 0) as [->|N]; [reflexivity|]. apply Z.log2_spec. lia. }
    unfold signed_numeral, zdec. destruct (Z.ltb_spec z 0) as [L|L]; eexists; (split; [|reflexivity]).
    - replace (Z.abs_nat z) with (Z.to_nat (- z)) by lia. apply PN. lia.
    - replace (Z.abs_nat z) with (Z.to_nat z) by lia. apply PN. lia.
  Qed.

  Lemma first_lines e text :
    str_exn P e = POk text ->
    exists k m tr ve te subs rest, e = XTL k m tr ve te subs /\
      text = (p_msg P m ++ nl ++ "Path: " ++ path P tr ++ rest)%string /\
      (rest = EmptyString <-> subs = []).
  Proof using.
    destruct e as [k m tr ve te subs|q]; [|discriminate]. cbn [str_exn]. intro H.
    assert (A : forall a b c : string, ((a ++ b) ++ c)%string = (a ++ (b ++ c))%string).
    { induction a as [|x a IH]; intros b c; cbn; [reflexivity|]. rewrite IH. reflexivity. }
    destruct subs as [|y subs].
    - injection H as <-. exists k, m, tr, ve, te, [], EmptyString. split; [reflexivity|]. split; [|tauto].
      cbn. do 2 f_equal. do 6 f_equal. clear. induction (path P tr); cbn; congruence.
    - destruct (subexceptions P 0 _) as [z|]; [|discriminate]. injection H as <-.
      exists k, m, tr, ve, te, (y :: subs), (nl ++ rstrip z)%string. split; [reflexivity|]. split.
      + cbn [firstline spaces append]. rewrite !A. reflexivity.
      + split; [discriminate|discriminate].
  Qed.
End Facts4.
