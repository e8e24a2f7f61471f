(** * Total: a logic of total correctness for the handlers, and termination
      (towards C22, C23, C27, C03) *)

From Verif Require Import Loader Spec Inv Std Sound Trace Hist.
From Verif Require Export Vocab.

Section Total.
  Variable w : world.
  Variable cfg : config.
  (** the names known from the beginning, and all the types which may be
      registered under a name *)
  Variable lo : string -> option ty.
  Variable hi : string -> ty -> Prop.

  Record okst (s : lstate) : Prop := mkOk {
    ok_coh : coh w cfg s;
    ok_lo : forall n t, lo n = Some t -> knows s n t;
    ok_hi : forall n t, knows s n t -> hi n t
  }.
  Definition tx {A} (m : M A) (Q : A -> Prop) (E : exn -> Prop) : Prop :=
    forall s, okst s ->
      match m s with (Ok a, s') => Q a /\ okst s' | (Exc e, s') => E e /\ okst s' | (OOF, _) => False end.

  Lemma tx_ret {A} (a : A) (Q : A -> Prop) E : Q a -> tx (ret a) Q E.
  Proof using. intros H s C. split; assumption. Qed.
  Lemma tx_raise {A} e (Q : A -> Prop) (E : exn -> Prop) : E e -> tx (raise e) Q E.
  Proof using. intros H s C. split; assumption. Qed.
  Lemma tx_lift {A} (r : pyres A) (Q : A -> Prop) (E : exn -> Prop) :
    (forall a, r = POk a -> Q a) -> (forall k, r = PExc k -> E (XRaw k)) -> tx (lift r) Q E.
  Proof using. intros HQ HE. destruct r; [apply tx_ret; auto|apply tx_raise; auto]. Qed.
  Lemma tx_bind {A B} (m : M A) (f : A -> M B) Q1 Q E :
    tx m Q1 E -> (forall a, Q1 a -> tx (f a) Q E) -> tx (bind m f) Q E.
  Proof using.
    intros Hm Hf s C. unfold bind. specialize (Hm s C).
    destruct (m s) as [[a|e|] s1]; auto. destruct Hm as [Qa C1]. exact (Hf a Qa s1 C1).
  Qed.
  Lemma tx_catch {A} (m : M A) f Q E1 E :
    tx m Q E1 -> (forall e, E1 e -> tx (f e) Q E) -> tx (catch m f) Q E.
  Proof using.
    intros Hm Hf s C. unfold catch. specialize (Hm s C).
    destruct (m s) as [[a|e|] s1]; auto. destruct Hm as [Ea C1]. exact (Hf e Ea s1 C1).
  Qed.
  Lemma tx_attempt {A} (m : M A) (Q : A -> Prop) (E1 E : exn -> Prop) :
    tx m Q E1 -> tx (attempt m) (fun r => match r with inl a => Q a | inr e => E1 e end) E.
  Proof using.
    intros Hm s C. unfold attempt. specialize (Hm s C). destruct (m s) as [[a|e|] s1]; exact Hm.
  Qed.
  Lemma tx_weak {A} (m : M A) (Q Q' : A -> Prop) (E E' : exn -> Prop) :
    tx m Q E -> (forall a, Q a -> Q' a) -> (forall e, E e -> E' e) -> tx m Q' E'.
  Proof using. intros Hm HQ HE s C. specialize (Hm s C). destruct (m s) as [[a|e|] s1]; [destruct Hm|destruct Hm|contradiction]; split; auto. Qed.

  (** ** Changes of the state *)
  Lemma okst_same s s' : good_step w cfg s s' -> st_frefs s' = st_frefs s -> okst s -> okst s'.
  Proof using.
    intros [G _] F [C L H]. split; [auto| |]; unfold knows in *; rewrite F; assumption.
  Qed.
  Lemma okst_index s t h : ty_get t (st_index s) = None -> find_handler cfg t = POk h -> okst s -> okst (set_index (cons (t, h)) s).
  Proof using. intros N F. apply okst_same; [apply good_index; assumption|reflexivity]. Qed.
  Lemma okst_register s t : (forall n, w_name w t = Some n -> hi n t) -> okst s -> okst (register w t s).
  Proof using.
    intros Hn [C L H]. split; [apply (good_reg w cfg s t); exact C| |].
    - intros n t' E. destruct (L n t' E) as [fr [F G]]. unfold register, knows. rewrite F.
      destruct (w_name w t) as [m|]; [|eauto]. destruct (str_get m fr) eqn:Gm; [eauto|].
      cbn [set_frefs st_frefs]. exists (fr ++ [(m, t)]). split; [reflexivity|]. clear - G.
      induction fr as [|[a b] fr IH]; cbn in *; [discriminate|]. destruct (String.eqb n a); auto.
    - intros n t' [fr' [F' G']]. unfold register in F'. destruct (st_frefs s) as [fr|] eqn:F; [|rewrite F in F'; discriminate].
      assert (K : forall x, str_get n fr = Some x -> hi n x) by (intros x G; apply H; exists fr; auto).
      destruct (w_name w t) as [m|] eqn:Nm; [|rewrite F in F'; injection F' as <-; apply K; exact G'].
      destruct (str_get m fr) eqn:Gm; [rewrite F in F'; injection F' as <-; apply K; exact G'|].
      cbn [set_frefs st_frefs] in F'. injection F' as <-.
      assert (J : str_get n fr = Some t' \/ (n = m /\ t' = t)).
      { clear - G'. induction fr as [|[a b] fr IH]; cbn in *.
        - destruct (String.eqb n m) eqn:Q; [|discriminate]. apply String.eqb_eq in Q. injection G' as <-. auto.
        - destruct (String.eqb n a); auto. }
      destruct J as [J|[-> ->]]; [apply K; exact J|apply Hn; reflexivity].
  Qed.
  Lemma tx_lookup nf t (E : exn -> Prop) : (forall r, find_handler cfg t = PExc r -> E nf /\ E (XRaw r)) ->
    tx (lookup_handler cfg nf t) (fun h => find_handler cfg t = POk h) E.
  Proof using.
    intros HE s C. unfold lookup_handler. destruct (ty_get t (st_index s)) eqn:Q.
    - split; [apply (coh_index _ _ _ (ok_coh _ C)); exact Q|exact C].
    - destruct (find_handler cfg t) as [h|r] eqn:F; [split; [reflexivity|apply okst_index; assumption]|].
      destruct (HE r eq_refl). destruct r; split; assumption.
  Qed.

  Variable call : handler -> value -> ty -> M value.

  Lemma tx_load_with v t a (Q : value -> Prop) (E : exn -> Prop) :
    (forall n, w_name w t = Some n -> hi n t) ->
    (forall h, find_handler cfg t = POk h -> tx (call h v t) Q (fun e => if is_tl e then E (push_trace (v, t, a) e) else E (XRaw RAssert))) ->
    (forall r, find_handler cfg t = PExc r -> E (XTL KType (MCannotDeal t) [] (Some v) (Some t) []) /\ E (XRaw r)) ->
    tx (load_with w cfg call v t a) Q E.
  Proof using.
    intros Hw Hc Hn. unfold load_with. apply tx_bind with (Q1 := fun h => find_handler cfg t = POk h).
    - intros s C. destruct (ty_get t (st_index s)) eqn:Q0.
      + split; [apply (coh_index _ _ _ (ok_coh _ C)); exact Q0|exact C].
      + destruct (find_handler cfg t) as [h|r] eqn:F; [split; [reflexivity|apply okst_register; [exact Hw|apply okst_index; assumption]]|].
        destruct (Hn r eq_refl). destruct r; split; assumption.
    - intros h F. eapply tx_catch; [apply Hc; exact F|].
      intros e He. cbv beta in He. destruct (is_tl e); apply tx_raise; exact He.
  Qed.
End Total.

(** ** The size of a value: its items are smaller, or it is a string of one
       character, whose only item is itself *)
Fixpoint size (v : value) : nat :=
  match v with
  | VStr s => if Nat.leb (String.length s) 1 then 1 else 2
  | VBytes _ => 2
  | VList l | VTuple l | VSet l | VFrozen l => S (list_sum (map size l))
  | VDict d => S (list_sum (map (fun kv => size (fst kv) + size (snd kv)) d))
  | VNamespace d => 3 + list_sum (map (fun kv => size (snd kv)) d)
  | VNT _ d => S (list_sum (map (fun kv => size (snd kv)) d))
  | _ => 1
  end.
Lemma list_sum_In n l : In n l -> n <= list_sum l.
Proof. induction l as [|x l IH]; [contradiction|]. intros [<-|I]; cbn; [lia|]. specialize (IH I). unfold list_sum in IH. lia. Qed.
Lemma size_char a : size (VStr (String a "")) = 1. Proof. reflexivity. Qed.
Lemma item_small v l x : iter v = Some l -> In x l -> size x < size v \/ x = v.
Proof.
  destruct v as [| | | |s|s|l0|l0|l0|l0|d| |c fs| | |]; cbn [iter]; try discriminate; intros [= <-] I.
  - destruct s as [|a [|b s]]; cbn in I; [contradiction|destruct I as [<-|[]]; auto|].
    left. assert (E : size x = 1); [|rewrite E; cbn; lia].
    destruct I as [<-|[<-|I]]; try reflexivity. revert I. induction s as [|c s IH]; cbn; [contradiction|intros [<-|I]; [reflexivity|auto]].
  - left. assert (E : size x = 1); [|rewrite E; cbn; lia].
    induction s as [|c s IH]; cbn in I; [contradiction|destruct I as [<-|I]; [reflexivity|auto]].
  - left. apply (in_map size) in I. apply list_sum_In in I. cbn [size]. lia.
  - left. apply (in_map size) in I. apply list_sum_In in I. cbn [size]. lia.
  - left. apply (in_map size) in I. apply list_sum_In in I. cbn [size]. lia.
  - left. apply (in_map size) in I. apply list_sum_In in I. cbn [size]. lia.
  - left. apply in_map_iff in I as [[k y] [<- I]]. apply (in_map (fun kv => size (fst kv) + size (snd kv))) in I.
    apply list_sum_In in I. cbn [size fst snd] in *. lia.
  - left. apply in_map_iff in I as [[k y] [<- I]]. apply (in_map (fun kv => size (snd kv))) in I.
    apply list_sum_In in I. cbn [size fst snd] in *. lia.
Qed.
Lemma dict_small cfg v d k x : as_dict cfg v = VDict d -> In (k, x) d -> size k < size v /\ size x < size v.
Proof.
  destruct v as [| | | | | | | | | |d0|d0| | | |]; cbn [as_dict]; try discriminate.
  - intros [= ->] I. apply (in_map (fun kv => size (fst kv) + size (snd kv))) in I. apply list_sum_In in I.
    cbn [size fst snd] in *. assert (P : 1 <= size k /\ 1 <= size x); [|lia].
    split; [destruct k|destruct x]; cbn; try lia; destruct (Nat.leb _ _); lia.
  - destruct (dictequivalence cfg); [|discriminate]. intros [= <-] I. apply in_map_iff in I as [[k0 x0] [E I]]. injection E as <- <-.
    apply (in_map (fun kv => size (snd kv))) in I. apply list_sum_In in I. cbn [size fst snd] in *.
    split; [destruct (Nat.leb _ _); lia|lia].
Qed.
Lemma size_dict_snd d : list_sum (map (fun kv => size (snd kv)) d) <= list_sum (map (fun kv : value * value => size (fst kv) + size (snd kv)) d).
Proof. unfold list_sum. induction d as [|[k x] d IH]; cbn; lia. Qed.
