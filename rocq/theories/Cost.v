(** * Cost: how many handlers a load calls (C60)

    The calls are counted with marks in the state, which nothing in the code
    looks at: entries for the class int in the list of the TypedDict classes
    whose annotations were rewritten (int is not a TypedDict).  [counted] is
    [run] which adds a mark for every call of a handler; [counted_same]: without
    the marks both do the same. *)

From Verif Require Import Loader Spec Vocab Inv Std Sound Trace Hist Total Facts4 Term Fuel.

Definition marks (s : lstate) : nat := List.length (filter (cid_eqb CInt) (st_stripped s)).
Definition unmarked (s : lstate) : lstate := set_stripped (filter (fun c => negb (cid_eqb CInt c))) s.
Definition mark (s : lstate) : lstate := set_stripped (cons CInt) s.
Fixpoint counted (w : world) (cfg : config) (n : nat) (h : handler) (v : value) (t : ty) {struct n} : M value :=
  match n with
  | 0 => fun s => (OOF, s)
  | S n' => fun s => body w cfg (counted w cfg n') h v t (mark s)
  end.
Definition counted_load (w : world) (cfg : config) (n : nat) (v : value) (t : ty) : M value :=
  load_with w cfg (counted w cfg n) v t None.
(** load(v, t), in the state [s], ends with [r] after [k] calls of handlers *)
Definition handler_calls (w : world) (cfg : config) (s : lstate) (v : value) (t : ty) (r : res value) (k : nat) : Prop :=
  r <> OOF /\ exists n s', counted_load w cfg n v t s = (r, s') /\ marks s' = marks s + k.

(** ** The marks change nothing *)
Section Same.
  Variable w : world.
  Variable cfg : config.
  Definition com {A} (m m' : M A) : Prop := forall s, m (unmarked s) = (fst (m' s), unmarked (snd (m' s))).
  Lemma com_ret {A} (a : A) : com (ret a) (ret a). Proof using. intro s. reflexivity. Qed.
  Lemma com_raise {A} e : com (raise (A := A) e) (raise e). Proof using. intro s. reflexivity. Qed.
  Lemma com_lift {A} (r : pyres A) : com (lift r) (lift r). Proof using. destruct r; intro s; reflexivity. Qed.
  Lemma com_bind {A B} (m m' : M A) (f f' : A -> M B) : com m m' -> (forall a, com (f a) (f' a)) -> com (bind m f) (bind m' f').
  Proof using. intros H F s. unfold bind. rewrite H. destruct (m' s) as [[a|e|] s1]; cbn [fst snd]; [apply F|reflexivity|reflexivity]. Qed.
  Lemma com_catch {A} (m m' : M A) (f f' : exn -> M A) : com m m' -> (forall a, com (f a) (f' a)) -> com (catch m f) (catch m' f').
  Proof using. intros H F s. unfold catch. rewrite H. destruct (m' s) as [[a|e|] s1]; cbn [fst snd]; [reflexivity|apply F|reflexivity]. Qed.
  Lemma com_attempt {A} (m m' : M A) : com m m' -> com (attempt m) (attempt m').
  Proof using. intros H s. unfold attempt. rewrite H. destruct (m' s) as [[a|e|] s1]; reflexivity. Qed.
  Lemma com_lookup nf t : com (lookup_handler cfg nf t) (lookup_handler cfg nf t).
  Proof using. intro s. unfold lookup_handler. cbn [unmarked set_stripped st_index]. destruct (ty_get t (st_index s)); [reflexivity|]. destruct (find_handler cfg t) as [h|[]]; reflexivity. Qed.
  Lemma register_un t s : register w t (unmarked s) = unmarked (register w t s).
  Proof using. unfold register. cbn [unmarked set_stripped st_frefs]. destruct (st_frefs s) as [fr|]; [|reflexivity]. destruct (w_name w t) as [n|]; [|reflexivity]. destruct (str_get n fr); reflexivity. Qed.
  Lemma mem_un c s : c <> CInt -> mem_cid c (st_stripped (unmarked s)) = mem_cid c (st_stripped s).
  Proof using.
    intro N. cbn [unmarked set_stripped st_stripped]. induction (st_stripped s) as [|a l IH]; [reflexivity|]. cbn [filter mem_cid existsb]. destruct (cid_eqb CInt a) eqn:E.
    - cbn [negb]. unfold mem_cid in *. rewrite IH. cbn [existsb]. destruct (cid_eqb c a) eqn:E2; [|reflexivity]. exfalso. apply N.
      apply cid_eqb_eq in E. apply cid_eqb_eq in E2. congruence.
    - cbn [negb]. unfold mem_cid in *. cbn [existsb]. rewrite IH. reflexivity.
  Qed.
  Lemma annotations_un c s : annotations w (unmarked s) c = annotations w s c.
  Proof using.
    unfold annotations. destruct (cid_eqb c CInt) eqn:E.
    - apply cid_eqb_eq in E as ->. cbn [class_of no_class ci_ann map]. destruct (mem_cid CInt (st_stripped s)), (mem_cid CInt (st_stripped (unmarked s))); reflexivity.
    - rewrite mem_un; [reflexivity|]. intros ->. discriminate E.
  Qed.
  Lemma build_un args s : build_disc w (unmarked s) args = build_disc w s args.
  Proof using.
    unfold build_disc. assert (E : map (fun t => (t, discriminatorliterals w (unmarked s) t)) args = map (fun t => (t, discriminatorliterals w s t)) args); [|rewrite E; reflexivity].
    apply map_ext. intro t. f_equal. unfold discriminatorliterals. destruct t; try reflexivity. rewrite annotations_un. reflexivity.
  Qed.
  Variables call call' : handler -> value -> ty -> M value.
  Hypothesis Hc : forall h v t, com (call h v t) (call' h v t).
  Lemma com_with v t a : com (load_with w cfg call v t a) (load_with w cfg call' v t a).
  Proof using Hc.
    apply com_bind; [|intro h; apply com_catch; [apply Hc|]; intro e; destruct (is_tl e); apply com_raise].
    intro s. cbn [unmarked set_stripped st_index]. destruct (ty_get t (st_index s)); [reflexivity|]. destruct (find_handler cfg t) as [h|[]]; try reflexivity. cbn [fst snd]. f_equal. exact (register_un t (set_index (cons (t, h)) s)).
  Qed.
  Ltac cm := repeat first
    [ apply com_ret | apply com_raise | apply com_lift | apply com_lookup | apply com_with | apply Hc
    | apply com_catch; [|intro] | apply com_attempt
    | match goal with IH : context [com] |- _ => apply IH end
    | apply com_bind; [|intro]
    | match goal with |- context [match ?x with _ => _ end] => destruct x end ].
  Lemma com_fast kt vt kf vf d : forall acc, com (dict_fast w cfg call kt vt kf vf d acc) (dict_fast w cfg call' kt vt kf vf d acc).
  Proof using Hc. induction d as [|[k x] d IH]; intro acc; cbn [dict_fast]; cm. Qed.
  Lemma com_slow kt vt d : forall acc, com (dict_slow w cfg call kt vt d acc) (dict_slow w cfg call' kt vt d acc).
  Proof using Hc. induction d as [|[k x] d IH]; intro acc; cbn [dict_slow]; cm. Qed.
  Lemma com_dict v t : com (dictload w cfg call v t) (dictload w cfg call' v t).
  Proof using Hc.
    unfold dictload. destruct (ty_args t) as [[|kt [|vt [|]]]|]; try apply com_raise. apply com_bind; [cm|intro kf0]. apply com_bind.
    { intro s. cbn [unmarked set_stripped st_index]. destruct (ty_get vt (st_index s)); [reflexivity|]. destruct (find_handler cfg vt) as [h|[]]; reflexivity. }
    intros [kf vf]. cbv zeta. apply com_catch; [|intro e; apply com_catch; [|intro; cm]]; destruct (as_dict cfg v); try apply com_raise; [apply com_fast|apply com_slow].
  Qed.
  Lemma com_itererror {A} v t i e : com (item_error (A := A) v t i e) (item_error v t i e).
  Proof using. unfold item_error. cm. Qed.
  Lemma com_item h et x : com (iter_item w cfg call h et x) (iter_item w cfg call' h et x).
  Proof using Hc. unfold iter_item. cm. Qed.
  Lemma com_iterloop k mp f f' v t l : (forall x, com (f x) (f' x)) -> forall i acc, com (iter_loop w k mp f v t l i acc) (iter_loop w k mp f' v t l i acc).
  Proof using.
    intro F. induction l as [|x l IH]; intros i acc; cbn [iter_loop]; [apply com_ret|]. apply com_bind; [|intros [|e]; [apply IH|destruct (stops mp e); [apply com_ret|apply com_itererror]]].
    apply com_attempt, com_bind; [apply F|intro; apply com_lift].
  Qed.
  Lemma com_iter k v t : com (iterload w cfg call k v t) (iterload w cfg call' k v t).
  Proof using Hc.
    unfold iterload. destruct v; try apply com_raise; (destruct (ty_args t) as [[|et ts]|]; [apply com_raise| |apply com_raise]);
      (apply com_bind; [apply com_lookup|intro h]); destruct (iter _); try apply com_raise; apply com_iterloop; intro; apply com_item.
  Qed.
  Lemma com_tloop v t l : forall ts i acc, com (tuple_loop cfg call v t l ts i acc) (tuple_loop cfg call' v t l ts i acc).
  Proof using Hc.
    induction l as [|x l IH]; intros [|et ts] i acc; cbn [tuple_loop]; try apply com_ret. apply com_bind; [|intros []; [apply IH|apply com_itererror]].
    apply com_attempt, com_bind; [|intro h; cm]. intro s. cbn [unmarked set_stripped st_index]. destruct (ty_get et (st_index s)); [reflexivity|]. exact (com_lift _ s).
  Qed.
  Lemma com_tuple v t : com (tupleload w cfg call v t) (tupleload w cfg call' v t).
  Proof using Hc.
    unfold tupleload. destruct (ty_args t) as [ts|]; [|apply com_raise].
    assert (G : com (match v with VDict _ => raise (XTL KType MDictTuple [] (Some v) (Some t) []) | _ => match iter v with None => raise (XRaw RType) | Some l => if failonextra cfg && Nat.ltb (List.length ts) (List.length l) then raise (XTL KValue (MTooLong t) [] (Some v) (Some t) []) else if Nat.ltb (List.length l) (List.length ts) then raise (XTL KValue (MTooShort t) [] (Some v) (Some t) []) else tuple_loop cfg call v t l ts 0 [] end end)
      (match v with VDict _ => raise (XTL KType MDictTuple [] (Some v) (Some t) []) | _ => match iter v with None => raise (XRaw RType) | Some l => if failonextra cfg && Nat.ltb (List.length ts) (List.length l) then raise (XTL KValue (MTooLong t) [] (Some v) (Some t) []) else if Nat.ltb (List.length l) (List.length ts) then raise (XTL KValue (MTooShort t) [] (Some v) (Some t) []) else tuple_loop cfg call' v t l ts 0 [] end end)).
    { destruct v; try apply com_raise; destruct (iter _); try apply com_raise; destruct (failonextra cfg && _); try apply com_raise; destruct (Nat.ltb _ _); try apply com_raise; apply com_tloop. }
    destruct ts as [|a [|[] [|]]]; try exact G; apply com_iter.
  Qed.
  Lemma com_mangle names v t : com (mangle cfg names v t) (mangle cfg names v t).
  Proof using. unfold mangle. cm. Qed.
  Lemma com_floop fields hints v t d : forall acc, com (fields_loop cfg call fields hints v t d acc) (fields_loop cfg call' fields hints v t d acc).
  Proof using Hc.
    induction d as [|[k x] d IH]; intro acc; cbn [fields_loop]; [apply com_ret|]. destruct k; try apply IH. destruct (mem_str s fields); [|apply IH]. destruct (str_get s hints); [|apply com_raise].
    apply com_bind; [apply com_lookup|intro h]. apply com_bind; [apply com_catch; [apply Hc|intro; apply com_raise]|intro y]. apply IH.
  Qed.
  Lemma com_obj fields nec hints v t : com (objloader w cfg call fields nec hints v t) (objloader w cfg call' fields nec hints v t).
  Proof using Hc.
    unfold objloader. destruct (as_dict cfg v); try apply com_raise. destruct (filter _ nec); [|apply com_raise]. destruct (failonextra cfg && _); [destruct (all_str _); apply com_raise|].
    apply com_bind; [apply com_floop|intro ps]. cm.
  Qed.
  Lemma com_dataclass v t : com (dataclassload w cfg call v t) (dataclassload w cfg call' v t).
  Proof using Hc.
    apply com_bind.
    { intro s. cbn [unmarked set_stripped st_fields]. destruct (ty_get t (st_fields s)); [reflexivity|]. destruct t; try reflexivity. destruct (ci_dc (class_of w c)); [|reflexivity]. destruct (dataclass_info w cfg c l); reflexivity. }
    intro oi. apply com_bind; [apply com_mangle|intro v']. apply com_obj.
  Qed.
  Lemma com_named v t : com (namedtupleload w cfg call v t) (namedtupleload w cfg call' v t).
  Proof using Hc. unfold namedtupleload. destruct t; try apply com_raise. destruct (ci_nt (class_of w c)); [|apply com_raise]. apply com_bind; [apply com_lift|intro hs]. apply com_obj. Qed.
  Lemma com_typed v t : com (typeddictload w cfg call v t) (typeddictload w cfg call' v t).
  Proof using Hc.
    unfold typeddictload. destruct t; try apply com_raise. destruct (ci_td (class_of w c)) as [rq|] eqn:E; [|apply com_raise].
    assert (N : cid_eqb CInt c = false). { destruct (cid_eqb CInt c) eqn:N; [|reflexivity]. apply cid_eqb_eq in N. subst c. discriminate E. }
    intro s. unfold bind at 1 4. cbn [get_st]. rewrite annotations_un.
    refine (com_bind (lift _) (lift _) _ _ (com_lift _) _ s). intro hs. cbv zeta. apply com_bind; [|intros []; apply com_obj].
    intro s1. unfold mod_st. destruct (pep563 cfg); [reflexivity|]. cbn [fst snd]. f_equal. unfold unmarked, set_stripped. cbn [st_index st_frefs st_fields st_disc st_stripped]. f_equal. cbn [filter]. rewrite N. reflexivity.
  Qed.
  Lemma com_prefer v t args sorted : com (prefer w v t args sorted) (prefer w v t args sorted).
  Proof using.
    unfold prefer. destruct v; try apply com_ret. apply com_bind; [|intros [[key [|]]|]; cm].
    intro s. cbn [unmarked set_stripped st_disc]. destruct (same_get t (st_disc s)); [reflexivity|]. cbn [fst snd]. f_equal; [|unfold unmarked, set_stripped, set_disc; cbn [st_index st_frefs st_fields st_disc st_stripped]]; rewrite <- (build_un args s); reflexivity.
  Qed.
  Lemma com_members v t ts : forall n r exs, com (try_members cfg call v t ts n r exs) (try_members cfg call' v t ts n r exs).
  Proof using Hc.
    induction ts as [|x ts IH]; intros n r exs; cbn [try_members]; [apply com_ret|]. apply com_bind; [apply com_attempt, com_bind; [apply com_lookup|intro; apply Hc]|].
    intros [r'|[]]; try apply IH; try apply com_raise. destruct (uniondebugconflict cfg); [apply IH|apply com_ret].
  Qed.
  Lemma com_union v t : com (unionload w cfg call v t) (unionload w cfg call' v t).
  Proof using Hc.
    unfold unionload. destruct (ty_args t) as [args|]; [|apply com_raise]. destruct (_ && _); [apply com_ret|]. apply com_bind; [apply com_prefer|intro l].
    apply com_bind; [apply com_members|]. intros [[[|[|n]] r] exs]; cm.
  Qed.
  Lemma com_hints v t ts : forall exs, com (enum_hints w cfg call v t ts exs) (enum_hints w cfg call' v t ts exs).
  Proof using Hc.
    induction ts as [|x ts IH]; intro exs; cbn [enum_hints]; [apply com_ret|]. apply com_bind; [apply com_attempt, com_bind; [apply com_with|intro; apply com_lift]|].
    intros []; [apply com_ret|apply IH].
  Qed.
  Lemma com_enum v t : com (enumload w cfg call v t) (enumload w cfg call' v t).
  Proof using Hc.
    unfold enumload. destruct (call_type w t v); [apply com_ret|]. destruct t; try apply com_raise. apply com_bind; [apply com_lift|intro hs]. apply com_bind; [apply com_hints|]. intros []; [apply com_ret|apply com_raise].
  Qed.
  Lemma com_attr v t : com (attrload w cfg call v t) (attrload w cfg call' v t).
  Proof using Hc.
    unfold attrload. destruct t; try apply com_raise. destruct (ci_attrs (class_of w c)); [|apply com_raise]. apply com_bind; [apply com_lift|intro hs]. cbv zeta. apply com_bind; [apply com_mangle|intro]. apply com_obj.
  Qed.
  Lemma com_fref v t : com (forwardrefload w cfg call v t) (forwardrefload w cfg call' v t).
  Proof using Hc.
    intro s. unfold forwardrefload, bind, get_st. change (st_frefs (unmarked s)) with (st_frefs s). destruct (st_frefs s) as [fr|]; [|reflexivity]. destruct t; try reflexivity. destruct (str_get s0 fr) || destruct (str_get name fr); [|reflexivity]. exact (com_with _ _ _ s).
  Qed.
  Lemma com_prog p : com (run_prog w cfg call p) (run_prog w cfg call' p).
  Proof using Hc. induction p as [|e|v t a k IH]; cbn [run_prog]; [apply com_ret|apply com_raise|]. apply com_bind; [apply com_attempt, com_with|intro; apply IH]. Qed.
  Lemma com_body h v t : com (body w cfg call h v t) (body w cfg call' h v t).
  Proof using Hc.
    destruct h; cbn [body];
      [unfold noneload; cm|apply com_union|unfold basicload; cm|apply com_enum|apply com_tuple|apply com_iter|apply com_dict|apply com_iter|apply com_iter|apply com_named|apply com_dataclass|apply com_fref|unfold literalload; cm
      |apply com_typed|unfold datetimeload; cm|unfold patternload; cm|unfold timedeltaload; cm|unfold strconsload; cm|apply com_attr|apply com_ret|unfold newtypeload; destruct t; try apply com_raise; apply com_with|apply com_prog].
  Qed.
End Same.
Lemma unmarked_mark s : unmarked (mark s) = unmarked s. Proof. reflexivity. Qed.
Lemma marks_mark s : marks (mark s) = S (marks s). Proof. reflexivity. Qed.
Lemma com_counted w cfg n : forall h v t, com (run w cfg n h v t) (counted w cfg n h v t).
Proof. induction n as [|n IH]; intros h v t s; [reflexivity|]. cbn [run counted]. rewrite <- (unmarked_mark s). apply com_body, IH. Qed.
Lemma counted_same w cfg n v t s : load w cfg n v t (unmarked s) = (fst (counted_load w cfg n v t s), unmarked (snd (counted_load w cfg n v t s))).
Proof. apply com_with, com_counted. Qed.

(** ** How many calls *)

(** objects and characters in a value *)
Fixpoint weight (v : value) : nat :=
  match v with
  | VStr s | VBytes s => S (String.length s)
  | VList l | VTuple l | VSet l | VFrozen l => S (list_sum (map weight l))
  | VDict d => S (list_sum (map (fun kv => weight (fst kv) + weight (snd kv)) d))
  | VNamespace d => S (list_sum (map (fun kv => S (String.length (fst kv)) + weight (snd kv)) d))
  | VNT _ d => S (list_sum (map (fun kv => weight (snd kv)) d))
  | _ => 1
  end.
Lemma weight_pos v : 1 <= weight v. Proof. destruct v; cbn [weight]; lia. Qed.
Lemma weight_items v l : iter v = Some l -> list_sum (map weight l) <= 2 * weight v.
Proof.
  destruct v as [| | | |s|s|l0|l0|l0|l0|d| |c fs| | |]; cbn [iter]; try discriminate; intros [= <-]; cbn [weight]; try lia.
  - induction s as [|a s IH]; cbn [chars map list_sum fold_right weight String.length] in *; [lia|]. unfold list_sum in IH. lia.
  - induction s as [|a s IH]; cbn [bytes_of map list_sum fold_right weight String.length] in *; [lia|]. unfold list_sum in IH. lia.
  - unfold list_sum. induction d as [|[k x] d IH]; cbn [map fold_right fst snd] in *; lia.
  - unfold list_sum. induction fs as [|[k x] d IH]; cbn [map fold_right fst snd] in *; lia.
Qed.
Lemma weight_dict cfg v d : as_dict cfg v = VDict d -> list_sum (map (fun kv => weight (fst kv) + weight (snd kv)) d) <= weight v.
Proof.
  destruct v as [| | | | | | | | | |d0|d0| | | |]; cbn [as_dict]; try discriminate.
  - intros [= ->]. cbn [weight]. lia.
  - destruct (dictequivalence cfg); [|discriminate]. intros [= <-]. cbn [weight]. rewrite map_map. cbn [fst snd weight]. lia.
Qed.

Section Spend.
  Variable w : world.
  Variable cfg : config.
  Variable names : string -> list ty.
  Notation p := (pep563 cfg).
  Notation okst := (okst w cfg (fun _ => None) (fun n t => In t (names n))).
  Notation yes := (fun _ => True).
  Definition sp {A} (m : M A) (k : nat) (Q : A -> Prop) : Prop :=
    forall s, okst s -> okst (snd (m s)) /\ marks (snd (m s)) <= marks s + k /\ forall a, fst (m s) = Ok a -> Q a.
  Lemma sp_ret {A} (a : A) k (Q : A -> Prop) : Q a -> sp (ret a) k Q.
  Proof using. intros H s C. cbn [ret fst snd]. split; [exact C|]. split; [lia|]. intros a' [= <-]. exact H. Qed.
  Lemma sp_raise {A} e k (Q : A -> Prop) : sp (raise e) k Q.
  Proof using. intros s C. cbn [raise fst snd]. split; [exact C|]. split; [lia|]. discriminate. Qed.
  Lemma sp_lift {A} (r : pyres A) k (Q : A -> Prop) : (forall a, r = POk a -> Q a) -> sp (lift r) k Q.
  Proof using. destruct r; intro H; [apply sp_ret; auto|apply sp_raise]. Qed.
  Lemma sp_bind {A B} (m : M A) (f : A -> M B) k1 k2 k Q1 Q : sp m k1 Q1 -> (forall a, Q1 a -> sp (f a) k2 Q) -> k1 + k2 <= k -> sp (bind m f) k Q.
  Proof using.
    intros Hm Hf L s C. unfold bind. destruct (Hm s C) as [C1 [L1 H1]]. destruct (m s) as [[a|e|] s1]; cbn [fst snd] in *.
    - destruct (Hf a (H1 a eq_refl) s1 C1) as [C2 [L2 H2]]. split; [exact C2|]. split; [lia|exact H2].
    - split; [exact C1|]. split; [lia|discriminate].
    - split; [exact C1|]. split; [lia|discriminate].
  Qed.
  Lemma sp_catch {A} (m : M A) f k1 k2 k Q : sp m k1 Q -> (forall e, sp (f e) k2 Q) -> k1 + k2 <= k -> sp (catch m f) k Q.
  Proof using.
    intros Hm Hf L s C. unfold catch. destruct (Hm s C) as [C1 [L1 H1]]. destruct (m s) as [[a|e|] s1]; cbn [fst snd] in *.
    - split; [exact C1|]. split; [lia|exact H1].
    - destruct (Hf e s1 C1) as [C2 [L2 H2]]. split; [exact C2|]. split; [lia|exact H2].
    - split; [exact C1|]. split; [lia|discriminate].
  Qed.
  Lemma sp_attempt {A} (m : M A) k (Q : A -> Prop) : sp m k Q -> sp (attempt m) k (fun r => match r with inl a => Q a | inr _ => True end).
  Proof using.
    intros Hm s C. unfold attempt. destruct (Hm s C) as [C1 [L1 H1]]. destruct (m s) as [[a|e|] s1]; cbn [fst snd] in *; (split; [exact C1|]); (split; [lia|]).
    - intros r [= <-]. auto.
    - intros r [= <-]. exact I.
    - discriminate.
  Qed.
  Lemma sp_weak {A} (m : M A) k k' (Q Q' : A -> Prop) : sp m k Q -> k <= k' -> (forall a, Q a -> Q' a) -> sp m k' Q'.
  Proof using. intros H L I s C. destruct (H s C) as [C1 [L1 H1]]. split; [exact C1|]. split; [lia|auto]. Qed.
  Lemma sp_more {A} (m : M A) k k' (Q : A -> Prop) : sp m k Q -> k <= k' -> sp m k' Q.
  Proof using. intros H L. eapply sp_weak; eauto. Qed.
  Lemma sp_lookup nf t k : sp (lookup_handler cfg nf t) k (fun h => find_handler cfg t = POk h).
  Proof using.
    intros s C. unfold lookup_handler. destruct (ty_get t (st_index s)) as [h0|] eqn:Q; cbn [fst snd].
    - split; [exact C|]. split; [lia|]. intros h [= <-]. apply (coh_index _ _ _ (ok_coh _ _ _ _ _ C)). exact Q.
    - destruct (find_handler cfg t) as [h|r] eqn:F; [split; [apply okst_index; assumption|split; [change (marks s <= marks s + k); lia|intros h' [= <-]; reflexivity]]|].
      destruct r; (split; [exact C|split; [cbn [snd]; lia|discriminate]]).
  Qed.
  Lemma marks_register t s : marks (register w t s) = marks s.
  Proof using. unfold register. destruct (st_frefs s) as [fr|]; [|reflexivity]. destruct (w_name w t) as [n|]; [|reflexivity]. destruct (str_get n fr); reflexivity. Qed.
  Lemma sp_itererror {A} v t i e k (Q : A -> Prop) : sp (item_error v t i e) k Q.
  Proof using. destruct e as [? ? ? ? ? ?|[]]; cbn; apply sp_raise. Qed.

  Variable call : handler -> value -> ty -> M value.
  Lemma sp_load v t a k : named w names t -> (forall h, find_handler cfg t = POk h -> sp (call h v t) k yes) -> sp (load_with w cfg call v t a) k yes.
  Proof using.
    intros Nm H. unfold load_with. apply sp_bind with (k1 := 0) (k2 := k) (Q1 := fun h => find_handler cfg t = POk h); [| |lia].
    - intros s C. destruct (ty_get t (st_index s)) as [h0|] eqn:Q; cbn [fst snd].
      + split; [exact C|]. split; [lia|]. intros h [= <-]. apply (coh_index _ _ _ (ok_coh _ _ _ _ _ C)). exact Q.
      + destruct (find_handler cfg t) as [h|r] eqn:F.
        * cbn [fst snd]. split; [apply okst_register; [exact Nm|apply okst_index; assumption]|]. rewrite marks_register. split; [change (marks s <= marks s + 0); lia|intros h' [= <-]; reflexivity].
        * destruct r; (split; [exact C|split; [cbn [snd]; lia|discriminate]]).
    - intros h F. apply sp_catch with (k1 := k) (k2 := 0); [exact (H h F)| |lia]. intro e. destruct (is_tl e); apply sp_raise.
  Qed.

  Section Body.
  Variables (v : value) (t : ty).
  Hypothesis Hn : forall t', In t' (mentioned w names t) -> named w names t'.
  (** what a call costs, which depends on the data *)
  Variable g : value -> nat.
  (** handlers and types for which this is known *)
  Variable ok : handler -> ty -> Prop.
  Hypothesis Hok : forall h' t', find_handler cfg t' = POk h' -> ok h' t'.
  Hypothesis HC : forall h' v' t', ok h' t' -> In t' (mentioned w names t) -> sp (call h' v' t') (g v') yes.
  Lemma std_of' t0 h : find_handler cfg t0 = POk h -> std_handler cfg h. Proof using. intro F. exists t0. exact F. Qed.
  Definition gd (d : list (value * value)) : nat := list_sum (map (fun kv => g (fst kv) + g (snd kv)) d).
  Definition gx (d : list (value * value)) : nat := list_sum (map (fun kv => g (snd kv)) d).
  Lemma gd_cons k x d : gd ((k, x) :: d) = g k + g x + gd d. Proof using. reflexivity. Qed.
  Lemma gx_cons k x d : gx ((k, x) :: d) = g x + gx d. Proof using. reflexivity. Qed.

  Lemma sp_fast kt vt kf vf d : In kt (mentioned w names t) -> In vt (mentioned w names t) -> ok kf kt -> (forall h, vf = Some h -> ok h vt) ->
    forall acc, sp (dict_fast w cfg call kt vt kf vf d acc) (gd d) yes.
  Proof using HC Hok.
    intros Ik Iv Sk Sv. induction d as [|[k x] d IH]; intro acc; cbn [dict_fast]; [apply sp_ret; exact I|]. rewrite gd_cons.
    apply sp_bind with (k1 := g k) (k2 := g x + gd d) (Q1 := yes); [destruct (_ && _); [apply sp_ret; exact I|apply HC; assumption]| |lia]. intros k' _.
    apply sp_bind with (k1 := g x) (k2 := gd d) (Q1 := yes); [destruct (_ && _); [apply sp_ret; exact I|destruct vf; [apply HC; auto|apply sp_raise]]| |lia]. intros x' _.
    destruct (hashable w k'); [apply IH|apply sp_raise].
  Qed.
  Lemma sp_slow kt vt d : In kt (mentioned w names t) -> In vt (mentioned w names t) ->
    forall acc, sp (dict_slow w cfg call kt vt d acc) (gd d) yes.
  Proof using HC Hok Hn.
    intros Ik Iv. induction d as [|[k x] d IH]; intro acc; cbn [dict_slow]; [apply sp_ret; exact I|]. rewrite gd_cons.
    apply sp_bind with (k1 := g k) (k2 := g x + gd d) (Q1 := yes); [apply sp_load; [auto|]; intros h F; apply HC; [apply Hok; exact F|exact Ik]| |lia]. intros k' _.
    apply sp_bind with (k1 := g x) (k2 := gd d) (Q1 := yes); [apply sp_load; [auto|]; intros h F; apply HC; [apply Hok; exact F|exact Iv]| |lia]. intros x' _.
    destruct (hashable w k'); [apply IH|apply sp_raise].
  Qed.
  Lemma args_mentioned l : ty_args t = Some l -> mentioned w names t = l.
  Proof using. clear Hn HC. destruct t as [|n o [l0|]| | | | | |]; cbn; try discriminate. intros [= ->]. reflexivity. Qed.
  Lemma sp_dict k : (forall h' t', std_handler cfg h' -> In t' (mentioned w names t) -> ok h' t') -> (forall d, as_dict cfg v = VDict d -> 2 * gd d <= k) -> sp (dictload w cfg call v t) k yes.
  Proof using HC Hok Hn.
    intros Hd L. unfold dictload. destruct (ty_args t) as [[|kt [|vt [|? ?]]]|] eqn:A; try apply sp_raise. pose proof (args_mentioned _ A) as Mn.
    assert (Ik : In kt (mentioned w names t)) by (rewrite Mn; left; reflexivity). assert (Iv : In vt (mentioned w names t)) by (rewrite Mn; right; left; reflexivity).
    apply sp_bind with (k1 := 0) (k2 := k) (Q1 := fun h => find_handler cfg kt = POk h); [apply sp_lookup| |lia]. intros kf0 F0.
    apply sp_bind with (k1 := 0) (k2 := k) (Q1 := fun kv => std_handler cfg (fst kv) /\ (forall h, snd kv = Some h -> std_handler cfg h)); [| |lia].
    { intros s C. destruct (ty_get vt (st_index s)) as [h|] eqn:E; cbn [fst snd].
      - split; [exact C|]. split; [lia|]. intros a [= <-]. cbn [fst snd]. split; [eapply std_of'; exact F0|]. intros h' [= <-]. eapply std_of'. apply (coh_index _ _ _ (ok_coh _ _ _ _ _ C)). exact E.
      - destruct (find_handler cfg vt) as [h|r] eqn:F.
        + cbn [fst snd]. split; [apply okst_index; assumption|]. split; [change (marks s <= marks s + 0); lia|]. intros a [= <-]. cbn [fst snd]. split; [eapply std_of'; exact F|discriminate].
        + destruct r; (split; [exact C|split; [cbn [snd]; lia|discriminate]]). }
    intros [kf vf] [Hk Hv]. cbn [fst snd] in Hk, Hv. cbv zeta.
    destruct (as_dict cfg v) as [| | | | | | | | | |d| | | | |] eqn:D;
      try (apply sp_catch with (k1 := 0) (k2 := 0); [apply sp_raise| |lia]; intro e; apply sp_catch with (k1 := 0) (k2 := 0); [apply sp_raise| |lia]; intros [[] ? ? ? ? ?|[]]; apply sp_raise).
    specialize (L d eq_refl). apply sp_catch with (k1 := gd d) (k2 := gd d); [apply sp_fast; [assumption|assumption|apply Hd; assumption|intros h1 E1; apply Hd; [apply Hv; exact E1|assumption]]| |lia].
    intro e. apply sp_catch with (k1 := gd d) (k2 := 0); [apply sp_slow; assumption| |lia]. intros [[] ? ? ? ? ?|[]]; apply sp_raise.
  Qed.

  Definition gl (l : list value) : nat := list_sum (map g l).
  Lemma sp_iterloop kc mp f v0 t0 l : (forall x, sp (f x) (g x) yes) -> forall i acc, sp (iter_loop w kc mp f v0 t0 l i acc) (gl l) yes.
  Proof using.
    intro F. induction l as [|x l IH]; intros i acc; cbn [iter_loop]; [apply sp_ret; exact I|].
    apply sp_bind with (k1 := g x) (k2 := gl l) (Q1 := yes).
    - eapply sp_weak; [apply sp_attempt with (Q := yes)|apply le_n|auto]. apply sp_bind with (k1 := g x) (k2 := 0) (Q1 := yes); [apply F| |lia]. intros y _. apply sp_lift. auto.
    - intros [acc'|e] _; [apply IH|]. destruct (stops mp e); [apply sp_ret; exact I|apply sp_itererror].
    - unfold gl, list_sum. cbn [map fold_right]. lia.
  Qed.
  Lemma sp_iter kc k : (forall l, iter v = Some l -> gl l <= k) -> sp (iterload w cfg call kc v t) k yes.
  Proof using HC Hok.
    intro L. unfold iterload.
    assert (G : sp match ty_args t with
        | None => raise (XRaw RAttr)
        | Some [] => raise (XRaw RIndex)
        | Some (et :: _) =>
            h <- lookup_handler cfg (XTL KType (MCannotDeal et) [] (Some v) (Some et) []) et ;;
            match iter v with
            | None => raise (XTL KType (MPy RType) [] (Some v) (Some t) [])
            | Some l => iter_loop w kc (mapped cfg et) (iter_item w cfg call h et) v t l 0 []
            end
        end k yes); [|destruct v; try exact G; apply sp_raise].
    destruct (ty_args t) as [[|et rest]|] eqn:A; try apply sp_raise. pose proof (args_mentioned _ A) as Mn.
    apply sp_bind with (k1 := 0) (k2 := k) (Q1 := fun h => find_handler cfg et = POk h); [apply sp_lookup| |lia]. intros hh F.
    destruct (iter v) as [l|] eqn:Il; [|apply sp_raise]. eapply sp_more; [apply sp_iterloop|exact (L l eq_refl)]. intro x.
    assert (C : sp (call hh x et) (g x) yes) by (apply HC; [apply Hok; exact F|rewrite Mn; left; reflexivity]).
    unfold iter_item. destruct (basicb cfg et); [destruct (isinst w x et); [apply sp_ret; exact I|exact C]|].
    destruct et as [|n o [us|]| | | | | |]; try exact C; destruct o; try exact C. destruct (_ && _); [apply sp_ret; exact I|exact C].
  Qed.
  Lemma sp_tloop l : forall ts, (forall et, In et ts -> In et (mentioned w names t)) -> forall i acc, sp (tuple_loop cfg call v t l ts i acc) (gl l) yes.
  Proof using HC Hok.
    induction l as [|x l IH]; intros [|et ts] Hts i acc; cbn [tuple_loop]; try (apply sp_ret; exact I).
    apply sp_bind with (k1 := g x) (k2 := gl l) (Q1 := yes).
    - eapply sp_weak; [apply sp_attempt with (Q := yes)|apply le_n|auto]. apply sp_bind with (k1 := 0) (k2 := g x) (Q1 := fun h => find_handler cfg et = POk h); [| |lia].
      + intros s C. destruct (ty_get et (st_index s)) as [h|] eqn:E; cbn [fst snd].
        * split; [exact C|]. split; [lia|]. intros h' [= <-]. apply (coh_index _ _ _ (ok_coh _ _ _ _ _ C)). exact E.
        * apply (sp_lift (find_handler cfg et) 0 (fun h => find_handler cfg et = POk h)); [auto|exact C].
      + intros h F. destruct (_ && _); [apply sp_ret; exact I|]. apply HC; [apply Hok; exact F|apply Hts; left; reflexivity].
    - intros [y|e] _; [apply IH; intros; apply Hts; right; assumption|apply sp_itererror].
    - unfold gl, list_sum. cbn [map fold_right]. lia.
  Qed.
  Lemma sp_tuple k : (forall l, iter v = Some l -> gl l <= k) -> sp (tupleload w cfg call v t) k yes.
  Proof using HC Hok.
    intro L. unfold tupleload. destruct (ty_args t) as [ts|] eqn:A; [|apply sp_raise]. pose proof (args_mentioned _ A) as Mn.
    assert (B : sp match v with
        | VDict _ => raise (XTL KType MDictTuple [] (Some v) (Some t) [])
        | _ =>
            match iter v with
            | None => raise (XRaw RType)
            | Some l =>
                if failonextra cfg && Nat.ltb (List.length ts) (List.length l)
                then raise (XTL KValue (MTooLong t) [] (Some v) (Some t) [])
                else if Nat.ltb (List.length l) (List.length ts)
                then raise (XTL KValue (MTooShort t) [] (Some v) (Some t) [])
                else tuple_loop cfg call v t l ts 0 []
            end
        end k yes).
    { assert (B0 : sp match iter v with
            | None => raise (XRaw RType)
            | Some l =>
                if failonextra cfg && Nat.ltb (List.length ts) (List.length l)
                then raise (XTL KValue (MTooLong t) [] (Some v) (Some t) [])
                else if Nat.ltb (List.length l) (List.length ts)
                then raise (XTL KValue (MTooShort t) [] (Some v) (Some t) [])
                else tuple_loop cfg call v t l ts 0 []
            end k yes); [|destruct v; try exact B0; apply sp_raise].
      destruct (iter v) as [l|] eqn:Il; [|apply sp_raise]. destruct (_ && _); [apply sp_raise|]. destruct (Nat.ltb _ _); [apply sp_raise|].
      eapply sp_more; [apply sp_tloop|exact (L l eq_refl)]. intros et Ie. rewrite Mn. exact Ie. }
    destruct ts as [|t1 [|t2 [|t3 ts]]]; try exact B; destruct t2; try exact B. apply sp_iter. exact L.
  Qed.

  Lemma sp_floop fields hints v0 d : (forall s ft, In (s, ft) hints -> In ft (mentioned w names t)) -> forall acc, sp (fields_loop cfg call fields hints v0 t d acc) (gx d) yes.
  Proof using HC Hok.
    intro Hh. induction d as [|[k x] d IH]; intro acc; cbn [fields_loop]; [apply sp_ret; exact I|]. rewrite gx_cons.
    assert (IH' : forall acc, sp (fields_loop cfg call fields hints v0 t d acc) (g x + gx d) yes) by (intro; eapply sp_more; [apply IH|lia]).
    destruct k; try apply IH'. destruct (mem_str s fields); [|apply IH']. destruct (str_get s hints) as [ft|] eqn:G; [|apply sp_raise].
    apply sp_bind with (k1 := 0) (k2 := g x + gx d) (Q1 := fun h => find_handler cfg ft = POk h); [apply sp_lookup| |lia]. intros h F.
    apply sp_bind with (k1 := g x) (k2 := gx d) (Q1 := yes); [| |lia].
    - apply sp_catch with (k1 := g x) (k2 := 0); [|intro; apply sp_raise|lia]. apply HC; [apply Hok; exact F|eapply Hh; apply str_get_In; exact G].
    - intros y _. apply IH.
  Qed.
  Lemma sp_obj fields nec hints v0 k : (forall s ft, In (s, ft) hints -> In ft (mentioned w names t)) -> (forall d, as_dict cfg v0 = VDict d -> gx d <= k) ->
    sp (objloader w cfg call fields nec hints v0 t) k yes.
  Proof using HC Hok.
    intros Hh L. unfold objloader. destruct (as_dict cfg v0) as [| | | | | | | | | |d| | | | |]; try apply sp_raise.
    cbv zeta. destruct (filter _ nec); [|apply sp_raise]. destruct (_ && _); [destruct (all_str _); apply sp_raise|].
    apply sp_bind with (k1 := gx d) (k2 := 0) (Q1 := yes); [apply sp_floop; exact Hh| |specialize (L d eq_refl); lia]. intros ps _.
    destruct (construct w t ps) as [r|[]]; try apply sp_raise. apply sp_ret. exact I.
  Qed.
  Lemma gx_set k x d : gx (dict_set k x d) <= gx d + g x.
  Proof using. induction d as [|[a b] d IH]; cbn [dict_set]; [rewrite gx_cons; lia|]. destruct (py_eqb k a); rewrite !gx_cons; lia. Qed.
  Lemma gx_mangle nms skip d : forall acc d', mangle_loop cfg nms skip d acc = inl d' -> gx d' <= gx acc + gx d.
  Proof using.
    induction d as [|[k x] d IH]; intros acc d'; cbn [mangle_loop]; [intros [= <-]; lia|]. rewrite gx_cons.
    assert (ST : forall k2, mangle_loop cfg nms skip d (dict_set k2 x acc) = inl d' -> gx d' <= gx acc + (g x + gx d)). { intros k2 E. specialize (IH _ _ E). pose proof (gx_set k2 x acc). lia. }
    destruct k; try apply ST. destruct (str_get s nms); [apply ST|]. destruct (mem_str s skip); [|apply ST]. destruct (failonextra cfg); [discriminate|]. intro E. specialize (IH _ _ E). lia.
  Qed.
  Lemma sp_mangled nms fields nec hints k : (forall s ft, In (s, ft) hints -> In ft (mentioned w names t)) -> (forall d, as_dict cfg v = VDict d -> gx d <= k) ->
    sp (v' <- mangle cfg nms v t ;; objloader w cfg call fields nec hints v' t) k yes.
  Proof using HC Hok.
    intros Hh L. apply sp_bind with (k1 := 0) (k2 := k) (Q1 := fun v' => forall d, as_dict cfg v' = VDict d -> gx d <= k); [| |lia].
    - unfold mangle. destruct nms as [|n0 nms]; [apply sp_ret; exact L|]. destruct v as [| | | | | | | | | |d| | | | |]; try apply sp_raise.
      destruct (mangle_loop cfg (n0 :: nms) (map snd (n0 :: nms)) d []) as [d'|kk] eqn:E; [|apply sp_raise]. apply sp_ret. cbn [as_dict]. intros d1 [= <-].
      apply gx_mangle in E. specialize (L d eq_refl). unfold gx at 2 in E. cbn [map list_sum fold_right] in E. lia.
    - intros v' L'. apply sp_obj; assumption.
  Qed.
  Lemma sp_dataclass k : (forall d, as_dict cfg v = VDict d -> gx d <= k) -> sp (dataclassload w cfg call v t) k yes.
  Proof using HC Hok Hn.
    intro L. unfold dataclassload.
    apply sp_bind with (k1 := 0) (k2 := k) (Q1 := fun oi => exists c fs, t = TClass c /\ ci_dc (class_of w c) = Some fs /\ dataclass_info w cfg c fs = POk oi); [| |lia].
    - intros s C. destruct (ty_get t (st_fields s)) as [oi|] eqn:E; cbn [fst snd].
      { split; [exact C|]. split; [lia|]. intros a [= <-]. apply (coh_fields _ _ _ (ok_coh _ _ _ _ _ C) _ _ E). }
      assert (N : forall s0 (e : exn), okst s0 -> okst (snd (Exc (A := objinfo) e, s0)) /\ marks (snd (Exc (A := objinfo) e, s0)) <= marks s0 + 0 /\ (forall a, fst (Exc (A := objinfo) e, s0) = Ok a -> exists c fs, t = TClass c /\ ci_dc (class_of w c) = Some fs /\ dataclass_info w cfg c fs = POk a)).
      { intros s0 e0 C0. cbn [fst snd]. split; [exact C0|]. split; [lia|discriminate]. }
      destruct t as [c| | | | | | |]; try (apply N; exact C). destruct (ci_dc (class_of w c)) as [fs|] eqn:D; [|apply N; exact C].
      destruct (dataclass_info w cfg c fs) eqn:O; [|apply N; exact C]. cbn [fst snd]. split; [apply okst_same with (s := s); [eapply good_fields; eassumption|reflexivity|exact C]|].
      split; [change (marks s <= marks s + 0); lia|]. intros a0 [= <-]. eauto.
    - intros oi [c [fs [ET [D O]]]]. apply sp_mangled; [|exact L]. rewrite ET. cbn [mentioned].
      unfold dataclass_info in O. intros s ft I0.
      assert (P : p = true \/ p = false) by (case p; auto). destruct P as [P|P]; rewrite P in O.
      + destruct (ci_hints (class_of w c)) as [l|] eqn:CH; [|discriminate]. injection O as <-. cbn [oi_hints] in I0.
        eapply written_2; [exact Hn|exact CH|]. apply (in_map snd) in I0. exact I0.
      + injection O as <-. cbn [oi_hints] in I0. eapply written_3; [exact Hn|exact D|]. apply in_map_iff in I0 as [f [[= <- <-] I0]]. apply in_map. exact I0.
  Qed.
  Lemma sp_named k : (forall d, as_dict cfg v = VDict d -> gx d <= k) -> sp (namedtupleload w cfg call v t) k yes.
  Proof using HC Hok Hn.
    intro L. unfold namedtupleload. destruct t as [c| | | | | | |] eqn:ET; try apply sp_raise. rewrite <- ET in *.
    destruct (ci_nt (class_of w c)) as [nt|]; [|apply sp_raise].
    apply sp_bind with (k1 := 0) (k2 := k) (Q1 := fun hints => forall s ft, In (s, ft) hints -> In ft (mentioned w names t)); [| |lia].
    - apply sp_lift. rewrite ET. cbn [mentioned]. intros l E s ft I0. apply (in_map snd) in I0. cbn [snd] in I0.
      assert (P : p = true \/ p = false) by (case p; auto). destruct P as [P|P]; rewrite P in E.
      + eapply written_2; [exact Hn|exact E|exact I0].
      + injection E as <-. apply (written_1 _ _ _ Hn). exact I0.
    - intros hints Hh. apply sp_obj; assumption.
  Qed.
  Lemma sp_attr k : (forall d, as_dict cfg v = VDict d -> gx d <= k) -> sp (attrload w cfg call v t) k yes.
  Proof using HC Hok Hn.
    intro L. unfold attrload. destruct t as [c| | | | | | |] eqn:ET; try apply sp_raise. rewrite <- ET in *.
    destruct (ci_attrs (class_of w c)) as [fs|] eqn:A; [|apply sp_raise].
    apply sp_bind with (k1 := 0) (k2 := k) (Q1 := fun hints => forall s ft, In (s, ft) hints -> In ft (mentioned w names t)); [| |lia].
    - apply sp_lift. rewrite ET. cbn [mentioned]. intros l E s ft I0.
      assert (K : forall fs' l, (forall f, In f fs' -> In f fs) -> attr_hints fs' = POk l -> In (s, ft) l -> In ft (written w c)); [|eapply K; eauto].
      clear l E I0. induction fs' as [|f fs' IH]; cbn [attr_hints]; intros l Hf E I0; [injection E as <-; contradiction|].
      destruct (match f_conv f with Some hs => converter_type hs | None => POk (f_type f) end) as [t0|] eqn:T0; [|discriminate].
      destruct (attr_hints fs') as [l'|] eqn:L'; [|discriminate]. injection E as <-.
      destruct I0 as [[= <- <-]|I0]; [|eapply IH; eauto; intros; apply Hf; right; assumption].
      eapply written_4; [exact Hn|exact A|apply Hf; left; reflexivity|].
      destruct (f_conv f) as [hs|]; [|injection T0 as <-; auto]. unfold converter_type in T0. destruct (_ && _); [|injection T0 as <-; auto].
      destruct (filter _ hs) as [|[k1 t1] rest] eqn:Fl; [discriminate|]. injection T0 as <-.
      right. right. exists hs. split; [reflexivity|].
      assert (I1 : In (k1, t1) hs) by (apply (proj1 (proj1 (filter_In (fun kt => negb (String.eqb (fst kt) "return")) (k1, t1) hs) ltac:(rewrite Fl; left; reflexivity)))).
      apply (in_map snd) in I1. exact I1.
    - intros hints Hh. cbv zeta. apply sp_mangled; assumption.
  Qed.
  Lemma sp_typed k : (forall d, as_dict cfg v = VDict d -> gx d <= k) -> sp (typeddictload w cfg call v t) k yes.
  Proof using HC Hok Hn.
    intro L. unfold typeddictload. destruct t as [c| | | | | | |] eqn:ET; try apply sp_raise. rewrite <- ET in *.
    destruct (ci_td (class_of w c)) as [req|] eqn:T; [|apply sp_raise].
    assert (N : cid_eqb CInt c = false). { destruct (cid_eqb CInt c) eqn:N; [|reflexivity]. apply cid_eqb_eq in N. subst c. discriminate T. }
    assert (GM : sp (mod_st (fun s => if p then s else set_stripped (cons c) s)) 0 yes).
    { intros s C. unfold mod_st. cbn [fst snd]. assert (P : p = true \/ p = false) by (case p; auto). destruct P as [P|P]; rewrite P; [split; [exact C|split; [lia|auto]]|].
      split; [apply okst_same with (s := s); [apply good_strip; congruence|reflexivity|exact C]|]. split; [|auto]. unfold marks. cbn [set_stripped st_stripped filter]. rewrite N. lia. }
    apply sp_bind with (k1 := 0) (k2 := k) (Q1 := yes); [intros s C; split; [exact C|]; split; [cbn [get_st snd]; lia|auto]| |lia]. intros s _.
    apply sp_bind with (k1 := 0) (k2 := k) (Q1 := fun hints => forall k ft, In (k, ft) hints -> In (unwrap ft) (mentioned w names t)); [| |lia].
    - apply sp_lift. rewrite ET. cbn [mentioned]. intros l E k0 ft I0. apply (in_map snd) in I0. cbn [snd] in I0.
      assert (P : p = true \/ p = false) by (case p; auto). destruct P as [P|P]; rewrite P in E.
      + apply (written_unwrap _ _ _ Hn). right. eauto.
      + injection E as <-. unfold annotations in I0. destruct (mem_cid c (st_stripped s)); [|apply (written_unwrap _ _ _ Hn); auto].
        rewrite map_map in I0. apply in_map_iff in I0 as [[k1 t1] [<- I1]]. cbn [snd]. rewrite (unwrap_strip t1).
        apply (written_unwrap _ _ _ Hn). left. apply (in_map snd) in I1. exact I1.
    - intros hints Hh. cbv zeta. apply sp_bind with (k1 := 0) (k2 := k) (Q1 := yes); [exact GM| |lia].
      intros _ _. apply sp_obj; [|exact L].
      intros k0 ft I0. apply in_map_iff in I0 as [[k1 t1] [[= <- <-] I1]]. rewrite (unwrap_strip t1). eapply Hh. exact I1.
  Qed.

  Lemma remove_first_length x l : List.length (remove_first x l) <= List.length l.
  Proof using. induction l as [|a l IH]; cbn [remove_first]; [lia|]. destruct (ty_eqb x a); cbn [List.length]; lia. Qed.
  Lemma sp_prefer args sorted : ty_args t = Some args -> (forall x, In x sorted -> In x args) ->
    sp (prefer w v t args sorted) 0 (fun l => (forall x, In x l -> In x args) /\ List.length l <= S (List.length sorted)).
  Proof using.
    intros A Hs. unfold prefer.
    assert (R : sp (ret sorted) 0 (fun l => (forall x, In x l -> In x args) /\ List.length l <= S (List.length sorted))) by (apply sp_ret; split; [exact Hs|lia]).
    destruct v; try exact R.
    apply sp_bind with (k1 := 0) (k2 := 0) (Q1 := fun dc => forall key cd, dc = Some (key, cd) -> forall x, In x (map snd cd) -> In x args); [| |lia].
    - intros s C. destruct (same_get t (st_disc s)) as [dc|] eqn:E; cbn [fst snd].
      + destruct (coh_disc _ _ _ (ok_coh _ _ _ _ _ C) _ _ E) as [args0 [args' [s' [A' [Sm ->]]]]]. rewrite A in A'. injection A' as <-.
        split; [exact C|]. split; [lia|]. intros dc [= <-] key cd B x Ix. apply Sm. eapply build_disc_types; [exact B|exact Ix].
      + split; [apply okst_same with (s := s); [apply good_disc; [exact E|exact A]|reflexivity|exact C]|]. split; [change (marks s <= marks s + 0); lia|].
        intros dc [= <-] key cd B x. eapply build_disc_types. exact B.
    - intros [[key [|lt cd]]|] Hd; try exact R.
      cbv zeta. destruct (hashable w _); [|apply sp_raise]. specialize (Hd _ _ eq_refl).
      destruct (disc_get _ (lt :: cd)) as [pt|] eqn:G; [|exact R]. apply sp_ret. split.
      + intros y [<-|Hy]; [apply Hd; eapply disc_get_types; exact G|]. apply Hs. eapply remove_first_In. exact Hy.
      + cbn [List.length]. pose proof (remove_first_length pt sorted). lia.
  Qed.
  Lemma sp_members ts : (forall x, In x ts -> In x (mentioned w names t)) -> forall n r exs, sp (try_members cfg call v t ts n r exs) (List.length ts * g v) yes.
  Proof using HC Hok.
    intro Hts. induction ts as [|x ts IH]; intros n r exs; cbn [try_members]; [apply sp_ret; exact I|].
    assert (IH' : forall n r exs, sp (try_members cfg call v t ts n r exs) (List.length ts * g v) yes) by (apply IH; intros; apply Hts; right; assumption).
    apply sp_bind with (k1 := g v) (k2 := List.length ts * g v) (Q1 := yes); [| |cbn [List.length]; lia].
    - eapply sp_weak; [apply sp_attempt with (Q := yes)|apply le_n|auto]. apply sp_bind with (k1 := 0) (k2 := g v) (Q1 := fun h => find_handler cfg x = POk h); [apply sp_lookup| |lia].
      intros h F. apply HC; [apply Hok; exact F|apply Hts; left; reflexivity].
    - intros [r'|[? ? ? ? ? ?|?]] _; [|apply IH'|apply sp_raise]. destruct (uniondebugconflict cfg); [apply IH'|apply sp_ret; exact I].
  Qed.
  Lemma filter_sorted (f : ty -> bool) l : List.length (filter (fun x => negb (f x)) l ++ filter f l) = List.length l.
  Proof using. rewrite app_length. induction l as [|a l IH]; [reflexivity|]. cbn [filter List.length]. destruct (f a); cbn [negb List.length] in *; lia. Qed.
  Lemma sp_union k : S (List.length (mentioned w names t)) * g v <= k -> sp (unionload w cfg call v t) k yes.
  Proof using HC Hok.
    intro L. unfold unionload. destruct (ty_args t) as [args|] eqn:A; [|apply sp_raise]. pose proof (args_mentioned _ A) as Mn. rewrite Mn in L. cbv zeta. destruct (_ && _); [apply sp_ret; exact I|].
    apply sp_bind with (k1 := 0) (k2 := k) (Q1 := fun l => (forall x, In x l -> In x args) /\ List.length l <= S (List.length args)); [| |lia].
    - eapply sp_weak; [apply sp_prefer with (args := args); [exact A|]|apply le_n|].
      + intros x Hx. apply in_app_or in Hx as [Hx|Hx]; apply filter_In in Hx; apply Hx.
      + intros l [Hl Le]. rewrite filter_sorted in Le. auto.
    - intros ts [Hts Le]. apply sp_bind with (k1 := List.length ts * g v) (k2 := 0) (Q1 := yes).
      + apply sp_members. intros x Ix. rewrite Mn. auto.
      + intros [[[|[|n]] r] exs] _; try apply sp_raise. apply sp_ret. exact I.
      + pose proof (Nat.mul_le_mono_r _ _ (g v) Le). lia.
  Qed.
  Lemma sp_hints ts : (forall x, In x ts -> In x (mentioned w names t)) -> forall exs, sp (enum_hints w cfg call v t ts exs) (List.length ts * g v) yes.
  Proof using HC Hok Hn.
    intro Hts. induction ts as [|x ts IH]; intro exs; cbn [enum_hints]; [apply sp_ret; exact I|].
    assert (Ix : In x (mentioned w names t)) by (apply Hts; left; reflexivity).
    apply sp_bind with (k1 := g v) (k2 := List.length ts * g v) (Q1 := yes); [| |cbn [List.length]; lia].
    - eapply sp_weak; [apply sp_attempt with (Q := yes)|apply le_n|auto]. apply sp_bind with (k1 := g v) (k2 := 0) (Q1 := yes); [|intros y _; apply sp_lift; auto|lia].
      apply sp_load; [auto|]. intros h F. apply HC; [apply Hok; exact F|exact Ix].
    - intros [r|e] _; [apply sp_ret; exact I|]. apply IH. intros; apply Hts; right; assumption.
  Qed.
  Lemma sp_enum k : List.length (mentioned w names t) * g v <= k -> sp (enumload w cfg call v t) k yes.
  Proof using HC Hok Hn.
    intro L. unfold enumload. destruct (call_type w t v); [apply sp_ret; exact I|]. destruct t as [c| | | | | | |] eqn:ET; try apply sp_raise. rewrite <- ET in *.
    apply sp_bind with (k1 := 0) (k2 := k) (Q1 := fun hints => ci_hints (class_of w c) = POk hints); [apply sp_lift; auto| |lia].
    intros hints H. apply sp_bind with (k1 := List.length (map snd hints) * g v) (k2 := 0) (Q1 := yes).
    - apply sp_hints. intros x Ix. rewrite ET. cbn [mentioned]. eapply written_2; [exact Hn|exact H|exact Ix].
    - intros [r1|e] _; [apply sp_ret; exact I|apply sp_raise].
    - assert (Le : List.length (map snd hints) <= List.length (mentioned w names t)); [|pose proof (Nat.mul_le_mono_r _ _ (g v) Le); lia].
      rewrite ET. cbn [mentioned]. unfold written. rewrite H, !app_length. lia.
  Qed.
  Lemma sp_fref k : g v <= k -> sp (forwardrefload w cfg call v t) k yes.
  Proof using HC Hok Hn.
    intros L s C. unfold forwardrefload, bind, get_st.
    assert (N : forall (e : exn), okst (snd (raise (A := value) e s)) /\ marks (snd (raise (A := value) e s)) <= marks s + k /\ (forall a, fst (raise (A := value) e s) = Ok a -> True)) by (intro e; apply (sp_raise e k yes); exact C).
    destruct (st_frefs s) as [fr|] eqn:F; [|apply N]. destruct t as [| | | |n| | |] eqn:ET; try apply N. rewrite <- ET in *.
    destruct (str_get n fr) as [t1|] eqn:G; [|apply N].
    assert (I1 : In t1 (names n)) by (apply (ok_hi _ _ _ _ _ C); exists fr; auto).
    apply (sp_load v t1 (Some (AnForward n)) k); [apply Hn; rewrite ET; exact I1| |exact C].
    intros h Fh. eapply sp_more; [apply HC; [apply Hok; exact Fh|rewrite ET; exact I1]|exact L].
  Qed.
  Lemma sp_newtype k : g v <= k -> sp (newtypeload w cfg call v t) k yes.
  Proof using HC Hok Hn.
    intro L. unfold newtypeload. destruct t as [| | | | | |n su|] eqn:ET; try apply sp_raise. rewrite <- ET in *.
    assert (I1 : In su (mentioned w names t)) by (rewrite ET; left; reflexivity).
    apply sp_load; [auto|]. intros h Fh. eapply sp_more; [apply HC; [apply Hok; exact Fh|exact I1]|exact L].
  Qed.

  Lemma sp_body h k : (forall f, h <> HCustom f) -> (h = HDict -> forall h' t', std_handler cfg h' -> In t' (mentioned w names t) -> ok h' t') ->
    (forall d, as_dict cfg v = VDict d -> 2 * gd d <= k) -> (forall l, iter v = Some l -> gl l <= k) -> S (List.length (mentioned w names t)) * g v <= k ->
    sp (body w cfg call h v t) k yes.
  Proof using HC Hok Hn.
    intros NC Hd Ld Ll Lu.
    assert (Lx : forall d, as_dict cfg v = VDict d -> gx d <= k).
    { intros d D. specialize (Ld d D). assert (G : gx d <= gd d); [|lia]. clear. unfold gx, gd, list_sum. induction d as [|[k x] d IH]; cbn [map fold_right fst snd]; lia. }
    assert (Lg : g v <= k) by (cbn [Nat.mul] in Lu; lia).
    destruct h; cbn [body].
    - unfold noneload. destruct v; try apply sp_raise. apply sp_ret. exact I.
    - apply sp_union. exact Lu.
    - unfold basicload. destruct (exact v t); [apply sp_ret; exact I|]. destruct (basiccast cfg); [|apply sp_raise]. destruct (call_type w t v) as [|[]]; try apply sp_raise. apply sp_ret. exact I.
    - apply sp_enum. cbn [Nat.mul] in Lu. lia.
    - apply sp_tuple. exact Ll.
    - apply sp_iter. exact Ll.
    - apply sp_dict; [exact (Hd eq_refl)|exact Ld].
    - apply sp_iter. exact Ll.
    - apply sp_iter. exact Ll.
    - apply sp_named. exact Lx.
    - apply sp_dataclass. exact Lx.
    - apply sp_fref. exact Lg.
    - unfold literalload. destruct t; try apply sp_raise. destruct (py_in v vals); [apply sp_ret; exact I|apply sp_raise].
    - apply sp_typed. exact Lx.
    - unfold datetimeload. destruct t; try apply sp_raise. destruct (match v with VStr s => _ | _ => _ end) as [|[]]; try apply sp_raise. apply sp_ret. exact I.
    - unfold patternload. destruct (w_compile w v) as [|[]]; try apply sp_raise. apply sp_ret. exact I.
    - unfold timedeltaload. destruct (w_timedelta w v) as [|[]]; try apply sp_raise. apply sp_ret. exact I.
    - unfold strconsload. destruct (call_type w t v) as [|[]]; try apply sp_raise. apply sp_ret. exact I.
    - apply sp_attr. exact Lx.
    - apply sp_ret. exact I.
    - apply sp_newtype. exact Lg.
    - exfalso. eapply NC. reflexivity.
  Qed.
  End Body.
End Spend.

Section Linear.
  Variable w : world.
  Variables basic strcons : list cid.
  Variable cfg : config.
  Hypothesis Hstd : is_std w basic strcons cfg.
  Variable names : string -> list ty.
  Notation sp := (sp w cfg names).
  Notation yes := (fun _ => True).

  Lemma sum_mult {A} (f : A -> nat) K l : list_sum (map (fun x => K * f x) l) = K * list_sum (map f l).
  Proof using. unfold list_sum. induction l as [|a l IH]; cbn [map fold_right]; lia. Qed.
  Lemma max_some {A} (P : A -> nat -> Prop) (l : list A) :
    (forall x, In x l -> exists N, forall n, N <= n -> P x n) -> exists N, forall x, In x l -> forall n, N <= n -> P x n.
  Proof using. exact (max_all P l). Qed.

  Lemma sp_not_recursive t : not_recursive w names t -> (forall t', involves w names t t' -> named w names t') ->
    exists K, forall k, K <= k -> forall n h v, std_handler cfg h -> sp (counted w cfg n h v t) (k * weight v) yes.
  Proof using Hstd.
    intro A. induction A as [t A IH]. intro Kn.
    destruct (max_some (fun t' k => forall n h v, std_handler cfg h -> sp (counted w cfg n h v t') (k * weight v) yes) (mentioned w names t)) as [K HK].
    { intros t' I. apply IH; [exact I|]. intros t1 I1. apply Kn. econstructor; eassumption. }
    exists (S ((2 + List.length (mentioned w names t)) * K)). intros k Lk [|n] h v Sh; cbn [counted].
    { intros s C. cbn [fst snd]. split; [exact C|]. split; [lia|discriminate]. }
    pose proof (weight_pos v) as Wp. set (m := List.length (mentioned w names t)) in *.
    assert (B : sp (body w cfg (counted w cfg n) h v t) ((2 + m) * K * weight v) yes).
    { apply sp_body with (g := fun x => K * weight x) (ok := fun h' _ => std_handler cfg h').
      - intros t' I. apply Kn. econstructor; [exact I|constructor].
      - intros h' t' F. exists t'. exact F.
      - intros h' v' t' Sh' I. apply HK; [exact I|lia|exact Sh'].
      - exact (std_not_custom w basic strcons cfg Hstd h Sh).
      - intros _ h' t' Sh' _. exact Sh'.
      - intros d D. apply weight_dict in D. unfold gd.
        assert (E : list_sum (map (fun kv => K * weight (fst kv) + K * weight (snd kv)) d) = K * list_sum (map (fun kv => weight (fst kv) + weight (snd kv)) d)).
        { rewrite <- sum_mult. f_equal. apply map_ext. intro a. lia. }
        rewrite E. pose proof (Nat.mul_le_mono_l _ _ K D). nia.
      - intros l D. apply weight_items in D. unfold gl. rewrite sum_mult. pose proof (Nat.mul_le_mono_l _ _ K D). nia.
      - fold m. nia. }
    intros s C. destruct (B (mark s)) as [C1 [L1 H1]].
    - destruct C as [C1 C2 C3]. split; [|exact C2|exact C3]. destruct C1 as [D1 D2 D3]. split; [exact D1|exact D2|exact D3].
    - split; [exact C1|]. split; [|exact H1]. rewrite marks_mark in L1. nia.
  Qed.
  Lemma linear t : not_recursive w names t -> has_involved w names t ->
    exists K, forall s v r k, used w cfg s -> has_registered names s -> handler_calls w cfg s v t r k -> k <= K * weight v.
  Proof using Hstd.
    intros A Kn. destruct (sp_not_recursive t A (fun t' I n => Kn n t' I)) as [K HK]. exists K. intros s v r k U Hr [_ [n [s' [E M]]]].
    assert (L : sp (counted_load w cfg n v t) (K * weight v) yes).
    { apply sp_load; [exact (fun m => Kn m t (rt1n_refl _ _ _))|]. intros h F. apply HK; [lia|exists t; exact F]. }
    destruct (L s (used_okst w cfg names s U Hr)) as [_ [Le _]]. rewrite E in Le. cbn [snd] in Le. lia.
  Qed.
End Linear.

(** counting changes nothing *)
Lemma mono_counted w cfg n : forall h v t s, marks s <= marks (snd (counted w cfg n h v t s)).
Proof.
  assert (R1 : forall s c, ci_td (class_of w c) <> None -> marks s <= marks (set_stripped (cons c) s)).
  { intros s c _. unfold marks. cbn [set_stripped st_stripped filter]. destruct (cid_eqb CInt c); cbn [List.length]; lia. }
  induction n as [|n IH]; intros h v t s; [apply le_n|]. cbn [counted].
  apply Nat.le_trans with (m := marks (mark s)); [rewrite marks_mark; lia|].
  apply (pr_body w cfg (fun s s' => marks s <= marks s')); try (intros; apply le_n); [intros; lia|intros s0 t0; rewrite marks_register; apply le_n|exact R1|exact IH].
Qed.
Lemma mono_load w cfg n v t s : marks s <= marks (snd (counted_load w cfg n v t s)).
Proof.
  apply (pr_load_with w cfg (fun s s' => marks s <= marks s')); try (intros; apply le_n); [intros; lia|intros s0 t0; rewrite marks_register; apply le_n|]. intros h v' t' s'. apply mono_counted.
Qed.
Lemma ext_counted w cfg n m : n <= m -> forall h v t, ext (counted w cfg n h v t) (counted w cfg m h v t).
Proof.
  intro L. induction L as [|m L IH]; intros h v t; [apply ext_refl|]. eapply ext_trans; [apply IH|]. clear.
  revert h v t. induction m as [|m IH]; intros h v t s; [left; reflexivity|]. exact (body_ext w cfg _ _ IH h v t (mark s)).
Qed.
Lemma counted_loads w cfg s v t r : loads w cfg s v t r <-> exists! k, handler_calls w cfg s v t r k.
Proof.
  assert (Same : forall n, fst (load w cfg n v t s) = fst (counted_load w cfg n v t s)).
  { intro n. pose proof (counted_same w cfg n v t s) as E1.
    assert (R : forall m h x t0, com (run w cfg m h x t0) (run w cfg m h x t0)).
    { induction m as [|m IH]; intros h x t0; [intro; reflexivity|]. cbn [run]. apply com_body. exact IH. }
    pose proof (com_with w cfg _ _ (R n) v t None s) as E2. unfold load, load_ann in *. rewrite E1 in E2. injection E2 as E2 _. symmetry. exact E2. }
  split.
  - intros [N [n E]]. rewrite Same in E. destruct (counted_load w cfg n v t s) as [r' s'] eqn:C. cbn [fst] in E. subst r'.
    exists (marks s' - marks s). split.
    + split; [exact N|]. exists n, s'. split; [exact C|]. pose proof (mono_load w cfg n v t s) as L. rewrite C in L. cbn [snd] in L. lia.
    + intros k [_ [m [s2 [C2 M]]]].
      assert (X : forall a b ra sa rb sb, a <= b -> ra <> OOF -> counted_load w cfg a v t s = (ra, sa) -> counted_load w cfg b v t s = (rb, sb) -> sa = sb).
      { intros a b ra sa rb sb L Na Ea Eb. destruct (load_with_ext w cfg _ _ (ext_counted w cfg a b L) v t None s) as [O|O]; unfold counted_load in *; rewrite Ea in O; [contradiction|]. rewrite Eb in O. congruence. }
      assert (E2 : s2 = s'). { destruct (Nat.le_ge_cases n m) as [L|L]; [symmetry|]; [exact (X n m _ _ _ _ L N C C2)|exact (X m n _ _ _ _ L N C2 C)]. }
      subst s2. lia.
  - intros [k [[N [n [s' [E _]]]] _]]. split; [exact N|]. exists n. rewrite Same, E. reflexivity.
Qed.
