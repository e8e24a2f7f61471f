(** * HLoad3: load on the heap, from end to end (C59) *)

From Verif Require Import Loader Spec Vocab Inv Std Fuel Obs Hist Simple Reuse Local Sound HDumper HDump HLoader HLoad HLoad2.

(** ** load writes only to objects which it has made itself, whatever happens *)
Section Safe.
  Variable w : world.
  Variable cfg : config.
  Variable ev : env.
  Variable h0 : heap.
  Definition lsafe {A} (hm : LM A) : Prop := forall s h, kept_in h0 h -> kept_in h0 (snd (snd (hm (s, h)))).
  Lemma ls_ret {A} (a : A) : lsafe (ret a). Proof using. intros s h K. exact K. Qed.
  Lemma ls_raise {A} e : lsafe (raise (A := A) e). Proof using. intros s h K. exact K. Qed.
  Lemma ls_bind {A B} (hm : LM A) (f : A -> LM B) : lsafe hm -> (forall a, lsafe (f a)) -> lsafe (bind hm f).
  Proof using.
    intros H F s h K. unfold bind. specialize (H s h K). destruct (hm (s, h)) as [[a|e|] [s' h']]; cbn [fst snd] in *; [apply F; exact H|exact H|exact H].
  Qed.
  Lemma ls_catch {A} (hm : LM A) (f : exn -> LM A) : lsafe hm -> (forall a, lsafe (f a)) -> lsafe (catch hm f).
  Proof using.
    intros H F s h K. unfold catch. specialize (H s h K). destruct (hm (s, h)) as [[a|e|] [s' h']]; cbn [fst snd] in *; [exact H|apply F; exact H|exact H].
  Qed.
  Lemma ls_attempt {A} (hm : LM A) : lsafe hm -> lsafe (attempt hm).
  Proof using.
    intros H s h K. unfold attempt. specialize (H s h K). destruct (hm (s, h)) as [[a|e|] [s' h']]; cbn [fst snd] in *; exact H.
  Qed.
  Lemma ls_heap : lsafe the_heap. Proof using. intros s h K. exact K. Qed.
  Lemma ls_budget {A} (o : option A) : lsafe (budget o). Proof using. destruct o; intros s h K; exact K. Qed.
  Lemma ls_lift {A} (o : pyres A) : lsafe (lift o). Proof using. destruct o; intros s h K; exact K. Qed.
  Lemma ls_caches {A} (d : M A) : lsafe (caches d).
  Proof using. intros s h K. unfold caches. cbn [fst snd]. destruct (d s). exact K. Qed.
  Lemma ls_looks x : lsafe (looks x).
  Proof using. apply ls_bind; [apply ls_heap|]. intro h. apply ls_budget. Qed.
  Lemma ls_alloc {B} o (f : loc -> LM B) : (forall r, List.length h0 <= r -> lsafe (f r)) -> lsafe (bind (alloc o) f).
  Proof using.
    intros F s h K. unfold bind, alloc. cbn [fst snd]. apply F; [apply kept_length; exact K|]. eapply kept_trans; [exact K|apply kept_alloc].
  Qed.
  Lemma ls_store l o : List.length h0 <= l -> lsafe (store l o).
  Proof using. intros L s h K. apply kept_put; assumption. Qed.
  Lemma ls_sets l k y : List.length h0 <= l -> lsafe (sets l k y).
  Proof using.
    intro L. apply ls_bind; [apply ls_heap|]. intro h. destruct (nth_error h l) as [[]|]; try apply ls_raise.
    apply ls_bind; [apply ls_budget|]. intro d'. apply ls_store. exact L.
  Qed.
  Lemma ls_adds l k y : List.length h0 <= l -> lsafe (adds l k y).
  Proof using. intro L. apply ls_bind; [apply ls_heap|]. intro h. destruct (nth_error h l) as [[]|]; try apply ls_raise. apply ls_store. exact L. Qed.
  Lemma ls_items l : lsafe (the_items l).
  Proof using. apply ls_bind; [apply ls_heap|]. intro h. destruct (nth_error h l) as [[]|]; try apply ls_raise. apply ls_ret. Qed.
  Lemma ls_tree v : lsafe (new_tree w ev v).
  Proof using.
    intros s h K. unfold new_tree. cbn [fst snd]. pose proof (plant_kept (own w ev) v h) as Q. destruct (plant (own w ev) v h) as [y h']. cbn [fst snd]. eapply kept_trans; [exact K|apply Q].
  Qed.
  Lemma ls_hashes x : lsafe (hashes w x).
  Proof using. apply ls_bind; [apply ls_heap|]. intro h. apply ls_budget. Qed.
  Lemma ls_lib r : lsafe (lib w ev r).
  Proof using. apply ls_bind; [apply ls_lift|]. intro v. apply ls_tree. Qed.
  Lemma ls_made r : lsafe (made w ev r).
  Proof using. apply ls_bind; [apply ls_caches|]. intro v. apply ls_tree. Qed.
  Ltac ls := repeat first
    [ assumption
    | apply ls_ret | apply ls_raise | apply ls_heap | apply ls_budget | apply ls_lift | apply ls_caches | apply ls_looks | apply ls_items | apply ls_tree | apply ls_hashes | apply ls_lib | apply ls_made
    | apply ls_sets | apply ls_adds | apply ls_store
    | apply ls_alloc; intros ? ?
    | apply ls_catch; [|intro] | apply ls_attempt
    | match goal with IH : context [lsafe _] |- _ => apply IH end
    | apply ls_bind; [|intro]
    | match goal with |- context [match ?x with _ => _ end] => destruct x end ].
  Lemma ls_looksall fs : lsafe (looks_all fs).
  Proof using. induction fs as [|[k y] fs IH]; cbn [looks_all]; ls. Qed.
  Lemma ls_default c f sofar d : hdefault w ev c f sofar = Some d -> lsafe d.
  Proof using. unfold hdefault. destruct (f_default f); intro E; try discriminate; injection E as <-; ls. apply ls_looksall. Qed.
  Lemma ls_bindfields an c fs params : forall sofar, lsafe (hbind_fields w ev an c fs params sofar).
  Proof using.
    induction fs as [|f fs IH]; intro sofar; cbn [hbind_fields]; [apply ls_ret|]. destruct (if f_init f then _ else None) as [y|]; [apply IH|].
    destruct (hdefault w ev c f sofar) as [d|] eqn:E; [|destruct (f_init f); [apply ls_raise|apply IH]].
    apply ls_bind; [eapply ls_default; exact E|]. intro y. apply IH.
  Qed.
  Lemma ls_post vs' : forall fs vs, lsafe (hpost w ev fs vs vs').
  Proof using. induction vs' as [|[k v] vs' IH]; intros fs vs; cbn [hpost]; ls. Qed.
  Lemma ls_construct t params : lsafe (hconstruct w ev t params).
  Proof using.
    unfold hconstruct, hconstruct_fields. destruct t; try apply ls_raise.
    assert (Q : forall an c fs, lsafe (bind (hbind_fields w ev an c fs params []) (fun ys => bind (looks_all ys) (fun vs => bind (lift (ci_post (class_of w c) vs)) (fun vs' => bind (hpost w ev ys vs vs') (fun ys' => bind (alloc (HObj c ys')) (fun r => ret (HR r)))))))).
    { intros an c0 fs. apply ls_bind; [apply ls_bindfields|]. intro ys. apply ls_bind; [apply ls_looksall|]. intro vs. apply ls_bind; [apply ls_lift|]. intro vs'. apply ls_bind; [apply ls_post|]. intro ys'. ls. }
    cbv zeta. ls; apply Q.
  Qed.
  Lemma ls_calltype t x v : lsafe (hcall_type w ev t x v).
  Proof using. unfold hcall_type. ls. Qed.
  Section Body.
    Variable call : handler -> href -> ty -> LM href.
    Hypothesis Hc : forall hd x t, lsafe (call hd x t).
    Lemma ls_with x t a : lsafe (hload_with w cfg call x t a).
    Proof using Hc. unfold hload_with. ls. Qed.
    Lemma ls_hasdict x : lsafe (has_dict cfg x).
    Proof using. unfold has_dict. ls. Qed.
    Lemma ls_fast kt vt kf vf d r : List.length h0 <= r -> lsafe (hdict_fast w cfg call kt vt kf vf d r).
    Proof using Hc. intro. induction d as [|[k x] d IH]; cbn [hdict_fast]; ls. Qed.
    Lemma ls_slow kt vt d r : List.length h0 <= r -> lsafe (hdict_slow w cfg call kt vt d r).
    Proof using Hc.
      intro. induction d as [|[k x] d IH]; cbn [hdict_slow]; [ls|]. apply ls_bind; [ls|intro]. apply ls_bind; [apply ls_with|intro]. apply ls_bind; [ls|intro]. apply ls_bind; [apply ls_with|intro]. ls.
    Qed.
    Lemma ls_dict x v t : lsafe (hdictload w cfg call x v t).
    Proof using Hc.
      unfold hdictload. destruct (ty_args t) as [[|kt [|vt [|]]]|]; try apply ls_raise. apply ls_bind; [ls|intro kf0]. apply ls_bind; [apply ls_caches|intros [kf vf]].
      apply ls_bind; [apply ls_hasdict|intro x']. apply ls_bind; [ls|intro h']. cbv zeta.
      apply ls_catch; [|intro e; apply ls_catch; [|intro; ls]]; (destruct (hitems h' x') as [d|]; [|ls]); apply ls_alloc; intros r Hr; [apply ls_fast|apply ls_slow]; exact Hr.
    Qed.
    Lemma ls_itererror {A} v t i e : lsafe (hitem_error (A := A) v t i e).
    Proof using. unfold hitem_error. ls. Qed.
    Lemma ls_colladd k y acc : lsafe (hcoll_add w k y acc).
    Proof using. unfold hcoll_add. ls. Qed.
    Lemma ls_iterloop k mp f v t l : (forall x, lsafe (f x)) -> forall i acc, lsafe (hiter_loop w k mp f v t l i acc).
    Proof using.
      intro F. induction l as [|x l IH]; intros i acc; cbn [hiter_loop]; [ls|]. apply ls_bind.
      - apply ls_attempt. apply ls_bind; [apply F|]. intro y. apply ls_colladd.
      - intros [acc'|e]; [apply IH|destruct (stops mp e); [ls|apply ls_itererror]].
    Qed.
    Lemma ls_iteritem hd et x : lsafe (hiter_item w cfg call hd et x).
    Proof using Hc. unfold hiter_item. ls. Qed.
    Lemma ls_iter k x v t : lsafe (hiterload w cfg call k x v t).
    Proof using Hc.
      unfold hiterload. destruct v; try apply ls_raise; (destruct (ty_args t) as [[|et ?]|]; try apply ls_raise; (apply ls_bind; [ls|intro hd]); (apply ls_bind; [ls|intro h']); (destruct (hiter h' x); [|apply ls_raise]); apply ls_iterloop; intro; apply ls_iteritem).
    Qed.
    Lemma ls_tupleloop v t ts : forall l i acc, lsafe (htuple_loop cfg call v t l ts i acc).
    Proof using Hc.
      induction ts as [|et ts IH]; intros [|x l] i acc; cbn [htuple_loop]; try (ls; fail). apply ls_bind; [ls|]. intros [y|e]; [apply IH|apply ls_itererror].
    Qed.
    Lemma ls_tuple x v t : lsafe (htupleload w cfg call x v t).
    Proof using Hc.
      unfold htupleload. destruct (ty_args t) as [ts|]; [|apply ls_raise].
      assert (Q : lsafe (match v with
        | VDict _ => raise (XTL KType MDictTuple [] (Some v) (Some t) [])
        | _ =>
            h <- the_heap ;;
            match hiter h x with
            | None => raise (XRaw RType)
            | Some l =>
                if failonextra cfg && Nat.ltb (List.length ts) (List.length l)
                then raise (XTL KValue (MTooLong t) [] (Some v) (Some t) [])
                else if Nat.ltb (List.length l) (List.length ts)
                then raise (XTL KValue (MTooShort t) [] (Some v) (Some t) [])
                else htuple_loop cfg call v t l ts 0 []
            end
        end)).
      { destruct v; try apply ls_raise; (apply ls_bind; [ls|intro h']; destruct (hiter h' x); [|apply ls_raise]; destruct (_ && _); [apply ls_raise|]; destruct (Nat.ltb _ _); [apply ls_raise|apply ls_tupleloop]). }
      destruct ts as [|t1 [|t2 ts]]; try exact Q. destruct t2; try exact Q. destruct ts; [apply ls_iter|exact Q].
    Qed.
    Lemma ls_mangleloop names skip d r : List.length h0 <= r -> lsafe (hmangle_loop cfg names skip d r).
    Proof using. intro. induction d as [|[k x] d IH]; cbn [hmangle_loop]; ls. Qed.
    Lemma ls_mangle names x v t : lsafe (hmangle cfg names x v t).
    Proof using.
      unfold hmangle. destruct names; [ls|]. apply ls_bind; [ls|intro h']. destruct (hitems h' x) as [d|]; [|ls]. apply ls_alloc. intros r Hr. apply ls_bind; [apply ls_mangleloop; exact Hr|]. intros [|]; ls.
    Qed.
    Lemma ls_fieldsloop fields hints v t d r : List.length h0 <= r -> lsafe (hfields_loop cfg call fields hints v t d r).
    Proof using Hc. intro. induction d as [|[k x] d IH]; cbn [hfields_loop]; ls. Qed.
    Lemma ls_obj fields nec hints x v t : lsafe (hobjloader w cfg ev call fields nec hints x v t).
    Proof using Hc.
      unfold hobjloader. apply ls_bind; [apply ls_hasdict|intro x']. apply ls_bind; [ls|intro h']. destruct (as_dict cfg v); try apply ls_raise. destruct (hitems h' x') as [d'|]; [|apply ls_raise]. cbv zeta.
      destruct (filter _ nec); [|apply ls_raise]. destruct (_ && _); [destruct (all_str _); apply ls_raise|]. apply ls_alloc. intros r Hr. apply ls_bind; [apply ls_fieldsloop; exact Hr|intro]. apply ls_bind; [ls|intro]. apply ls_bind; [apply ls_attempt; apply ls_construct|intro]. ls.
    Qed.
    Lemma ls_trymembers x v t ts : forall n r exs, lsafe (htry_members cfg call x v t ts n r exs).
    Proof using Hc. induction ts as [|mt ts IH]; intros n r exs; cbn [htry_members]; ls. Qed.
    Lemma ls_enumhints x t ts : forall exs, lsafe (henum_hints w cfg ev call x t ts exs).
    Proof using Hc.
      induction ts as [|mt ts IH]; intros exs; cbn [henum_hints]; [ls|]. apply ls_bind; [|intros [|]; ls]. apply ls_attempt. apply ls_bind; [apply ls_with|intro]. apply ls_bind; [ls|intro]. apply ls_calltype.
    Qed.
    Lemma ls_body hd x t : lsafe (lbody w cfg ev call hd x t).
    Proof using Hc.
      unfold lbody. apply ls_bind; [apply ls_looks|intro v]. destruct hd; try apply ls_iter; try apply ls_made; try apply ls_ret; try apply ls_raise; try apply ls_tuple; try apply ls_dict.
      - unfold hunionload. destruct (ty_args t); [|ls]. cbv zeta. destruct (_ && _); [ls|]. apply ls_bind; [ls|intro so]. apply ls_bind; [apply ls_trymembers|]. intros [[n r] exs]. destruct n as [|[|]]; ls.
      - unfold hbasicload. destruct (exact v t); [ls|]. destruct (basiccast cfg); [|ls]. apply ls_bind; [apply ls_attempt; apply ls_calltype|intro]. ls.
      - unfold henumload. apply ls_bind; [apply ls_attempt; apply ls_calltype|]. intros [y|e]; [ls|]. destruct t; try apply ls_raise. apply ls_bind; [ls|intro hints]. apply ls_bind; [apply ls_enumhints|]. intros [|]; ls.
      - unfold hnamedtupleload. destruct t; try apply ls_raise. destruct (ci_nt _); [|ls]. apply ls_bind; [ls|intro hints]. apply ls_obj.
      - unfold hdataclassload. apply ls_bind; [apply ls_caches|intro oi]. apply ls_bind; [apply ls_mangle|intro x']. apply ls_bind; [ls|intro]. apply ls_obj.
      - unfold hforwardrefload. apply ls_bind; [ls|intro st]. destruct (st_frefs st); [|ls]. destruct t; try apply ls_raise. destruct (str_get _ _); [apply ls_with|ls].
      - unfold hliteralload. ls.
      - unfold htypeddictload. destruct t; try apply ls_raise. destruct (ci_td _); [|ls]. apply ls_bind; [ls|intro st]. apply ls_bind; [apply ls_lift|intro hints]. cbv zeta. apply ls_bind; [apply ls_caches|intro]. apply ls_obj.
      - unfold hstrconsload. apply ls_bind; [apply ls_attempt; apply ls_calltype|intro]. ls.
      - unfold hattrload. destruct t; try apply ls_raise. destruct (ci_attrs _); [|ls]. apply ls_bind; [ls|intro hints]. cbv zeta. apply ls_bind; [apply ls_mangle|intro x']. apply ls_bind; [ls|intro]. apply ls_obj.
      - unfold hnewtypeload. destruct t; try apply ls_raise. apply ls_with.
    Qed.
  End Body.
  Lemma ls_run n hd x t : lsafe (lrun w cfg ev n hd x t).
  Proof using. revert hd x t. induction n as [|n IH]; intros hd x t; cbn [lrun]; [intros s h K; exact K|]. apply ls_body. exact IH. Qed.
  Lemma ls_load n x t : lsafe (hload w cfg ev n x t).
  Proof using. apply ls_with. intros hd y t'. apply ls_run. Qed.
End Safe.
Lemma hloads_kept w cfg ev s h x t r s' h' : hloads w cfg ev s h x t r s' h' -> kept_in h h'.
Proof.
  intros [_ [n E]]. pose proof (ls_load w cfg ev h n x t s h (kept_refl h)) as K. rewrite E in K. exact K.
Qed.

(** ** Objects which are not written to stay what they are *)
Lemma inside_read (h h' : heap) y v : object h y v -> (forall l o, inside_of h y l -> at_ h l = Some o -> at_ h' l = Some o) -> object h' y v.
Proof.
  intros [n R]. revert y v R. induction n as [|n IH]; intros y v R K.
  - destruct y as [a|l]; [exists 0; exact R|discriminate R].
  - destruct y as [a|l]; [exists 0; exact R|]. destruct (read_at _ _ _ _ R) as [o [n' [[= <-] [E T]]]].
    apply ob_at with (o := o); [apply K; [apply io_self|exact E]|].
    eapply tells_imp; [|exact T]. intros z a J Rz. apply IH; [exact Rz|]. intros l1 o1 I1. apply K. eapply io_part; eassumption.
Qed.
Lemma F2_to {A B} (R : A -> B -> Prop) xs ys x : Forall2 R xs ys -> In x xs -> exists y, In y ys /\ R x y.
Proof. intro F. induction F as [|a b xs ys r F IH]; [contradiction|]. intros [<-|I]; [exists b; split; [left|]; auto|]. destruct (IH I) as [y [J Q]]. exists y. split; [right|]; auto. Qed.
Lemma inside_from (h : heap) (L : loc -> Prop) y ls l : made_from h L y ls -> inside_of h y l ->
  In l ls \/ exists l0, L l0 /\ inside_of h (HR l0) l.
Proof.
  intro M. revert l. induction M as [v Q|l0 Q|l0 o lss E F IH] using mf_ind; intros l I.
  - inversion I.
  - right. exists l0. auto.
  - inversion I as [l1|l1 o1 z l2 E1 J I1]; subst; [left; left; reflexivity|].
    rewrite E in E1. injection E1 as <-. destruct (F2_to _ _ _ z IH J) as [ls' [J' H]]. destruct (H l I1) as [Q|Q]; [|right; exact Q].
    left. right. eapply in_concat. exists ls'. split; assumption.
Qed.

(** ** Summary *)
Section Top.
  Variable w : world.
  Variables basic strcons : list cid.
  Variable cfg : config.
  Hypothesis Hstd : is_std w basic strcons cfg.
  Variable ev : env.

  Definition origin (h : heap) (x : href) (l : loc) : Prop := inside_of h x l \/ of_class w ev h l.
  Lemma easy_sim n (h : heap) x v t s : class_objects w ev h -> coh w cfg s -> object h x v ->
    fine (origin h x) (coh w cfg) (fun _ => false) h (distinct_arguments w) (hload w cfg ev n x t (s, h)) (load w cfg n v t s).
  Proof using Hstd.
    intros Co C O.
    assert (Q := hload_sim w basic strcons cfg Hstd ev (origin h x) h Co).
    specialize (Q (fun l c => or_intror (ex_intro _ (HR l) (conj c (io_self h l)))) true (fun _ => True) (fun _ => None) (fun _ _ _ _ => I) (coh w cfg) (fun s H => H)).
    specialize (Q (fun s t hd F H => coh_set_index w cfg s t hd F H) (fun s t H => coh_register w cfg s t H)
      (fun s c fs oi D Oi H => coh_set_fields w cfg s c fs oi D Oi H) (fun s t args A H => coh_set_disc w cfg s t args s A H) (fun s c H => coh_set_stripped w cfg s _ H) (fun _ _ _ _ _ _ _ _ => I)).
    specialize (Q (fun E => match Bool.diff_true_false E with end) (fun _ _ E => match Bool.diff_true_false E with end) (fun E => match Bool.diff_true_false E with end) (fun _ E => match Bool.diff_true_false E with end)).
    eapply fine_imp; [apply kept_refl| |apply (Q n x v t s C O)]. intro D. split; [exact D|]. split; [|left; reflexivity].
    intros l I0. left. exact I0.
  Qed.

  Lemma top_result s (h : heap) x v t r s' h' : used w cfg s -> class_objects w ev h -> object h x v -> hloads w cfg ev s h x t r s' h' ->
    match r with
    | Ok y => exists a, ends w cfg s v t (Ok a) s' /\ object h' y a
    | Exc e => ends w cfg s v t (Exc e) s'
    | OOF => False
    end.
  Proof using Hstd.
    intros U Co O [N [n E]]. destruct (easy_sim n h x v t s Co (used_coh _ _ _ U) O) as [E1 [_ [K M]]]. rewrite E in E1, K, M. cbn [fst snd] in *.
    destruct (load w cfg n v t s) as [[a|e|] s2] eqn:El; cbn [fst snd] in *; subst s2; destruct r as [y|e'|]; try contradiction; try congruence.
    - exists a. split; [split; [discriminate|exists n; exact El]|]. destruct M as [Oy _]. exact (ob_kept _ _ _ _ (mask_all _ _) Oy).
    - subst e'. split; [discriminate|exists n; exact El].
  Qed.
  Lemma top_total s (h : heap) x v t r s' : used w cfg s -> class_objects w ev h -> object h x v -> ends w cfg s v t r s' ->
    exists r' h', hloads w cfg ev s h x t r' s' h'.
  Proof using Hstd.
    intros U Co O [N [n El]]. destruct (easy_sim n h x v t s Co (used_coh _ _ _ U) O) as [E1 [_ [K M]]].
    destruct (hload w cfg ev n x t (s, h)) as [r' [s2 h']] eqn:E. rewrite El in E1, M. cbn [fst snd] in *. subst s2.
    exists r', h'. split; [|exists n; exact E]. destruct r'; destruct r; congruence.
  Qed.
  Lemma top_origin s (h : heap) x v t y s' h' : used w cfg s -> class_objects w ev h -> distinct_arguments w -> object h x v -> hloads w cfg ev s h x t (Ok y) s' h' ->
    exists ls, made_from h' (origin h x) y ls /\ NoDup ls /\ forall l, In l ls -> List.length h <= l.
  Proof using Hstd.
    intros U Co D O [N [n E]]. destruct (easy_sim n h x v t s Co (used_coh _ _ _ U) O) as [E1 [_ [K M]]]. rewrite E in E1, K, M. cbn [fst snd] in *.
    destruct (load w cfg n v t s) as [[a|e|] s2]; cbn [fst snd] in *; try contradiction. destruct M as [_ S1]. destruct (S1 D) as [lss [F [Nd B]]].
    inversion F as [|z ls zs lss' M F' Ez El]; subst. inversion F'; subst. cbn in Nd, B. rewrite app_nil_r in Nd, B. exists ls. auto.
  Qed.

  Variable env : string -> option ty.
  Variable t0 : ty.
  Notation G := (reach w (pep563 cfg) env t0).
  Variable s0 : lstate.
  Hypothesis Wr : wf_reflect w.
  Hypothesis K1 : forall n t', G (TForward n) -> knows s0 n t' -> env n = Some t'.
  Hypothesis K2 : forall n t', G (TForward n) -> w_name w t' = Some n -> (exists t'', knows s0 n t'') \/ env n = Some t'.
  Hypothesis Ga : ~ G TAny.
  Hypothesis Gl : forall vals l, G (TLiteral vals) -> In l vals -> plain_literal l.
  Hypothesis Gb : forall c, container c = true -> ~ In c basic /\ ~ In c strcons.
  Notation INV := (Inv w cfg env G (fun _ => False) (fun n => exists t'', knows s0 n t'')).
  Lemma inv_start : used w cfg s0 -> INV s0.
  Proof using K1.
    intro U. split; [apply used_coh; exact U|]. split; [|split; [intros t' []|]].
    - intros fr n' t' F Q R. apply K1; [exact R|]. exists fr. auto.
    - intros fr n' F [t' [fr' [F' Q]]]. rewrite F in F'. injection F' as <-. congruence.
  Qed.
  Lemma hard_sim n (h : heap) x v : used w cfg s0 -> class_objects w ev h -> object h x v ->
    fine (of_class w ev h) INV (fun _ => false) h (distinct_arguments w /\ data v) (hload w cfg ev n x t0 (s0, h)) (load w cfg n v t0 s0).
  Proof using Hstd Wr K1 K2 Ga Gl Gb.
    intros U Co O.
    assert (Gname : forall t n, w_name w t = Some n -> G (TForward n) -> (exists t'', knows s0 n t'') \/ env n = Some t) by (intros t n' N Q; apply K2; assumption).
    assert (Q := hload_sim w basic strcons cfg Hstd ev (of_class w ev h) h Co (fun l c => ex_intro _ (HR l) (conj c (io_self h l))) false G env
      (fun t t' A B => reach_step w (pep563 cfg) env t0 t t' A B) INV (fun s H => proj1 H)
      (fun s t hd F H => Inv_index w cfg env G _ _ s t hd F H) (fun s t H => Inv_register w cfg env G _ _ Gname s t H)).
    assert (Q1 : forall s c fs oi, ci_dc (class_of w c) = Some fs -> dataclass_info w cfg c fs = POk oi -> INV s -> INV (set_fields (cons (TClass c, oi)) s)).
    { intros s c fs oi D Oi [C R]. split; [eapply coh_set_fields; eauto|exact R]. }
    assert (Q2 : forall s t args, ty_args t = Some args -> INV s -> INV (set_disc (cons (t, build_disc w s args)) s)).
    { intros s t args A [C R]. split; [apply coh_set_disc; assumption|exact R]. }
    assert (Q3 : forall s c, INV s -> INV (set_stripped (cons c) s)).
    { intros s c [C R]. split; [apply coh_set_stripped; exact C|exact R]. }
    assert (Q4 : forall s fr n t, INV s -> st_frefs s = Some fr -> str_get n fr = Some t -> G (TForward n) -> G t).
    { intros s fr n' t [_ [R _]] F Sg Gn. pose proof (R fr n' t F Sg Gn) as En. eapply reach_step; [exact Gn|]. unfold component, comps. rewrite En. left. reflexivity. }
    specialize (Q Q1 Q2 Q3 Q4 (fun _ => Ga) (fun vals l _ => Gl vals l) (fun _ => Wr) (fun c _ => Gb c) n x v t0 s0 (inv_start U) O).
    eapply fine_imp; [apply kept_refl| |exact Q]. intros [D Dv]. split; [exact D|]. split; [|right; right; apply reach_refl].
    intros v' O'. rewrite (ob_det _ _ _ _ O' O). exact Dv.
  Qed.
  Lemma top_new (h : heap) x v y s' h' : used w cfg s0 -> class_objects w ev h -> distinct_arguments w -> object h x v -> data v -> hloads w cfg ev s0 h x t0 (Ok y) s' h' ->
    exists ls, made_from h' (of_class w ev h) y ls /\ NoDup ls /\ forall l, In l ls -> List.length h <= l.
  Proof using Hstd Wr K1 K2 Ga Gl Gb.
    intros U Co D O Dv [N [n E]]. destruct (hard_sim n h x v U Co O) as [E1 [_ [K M]]]. rewrite E in E1, K, M. cbn [fst snd] in *.
    destruct (load w cfg n v t0 s0) as [[a|e|] s2]; cbn [fst snd] in *; try contradiction. destruct M as [_ S1]. destruct (S1 (conj D Dv)) as [lss [F [Nd B]]].
    inversion F as [|z ls zs lss' M F' Ez El]; subst. inversion F'; subst. cbn in Nd, B. rewrite app_nil_r in Nd, B. exists ls. auto.
  Qed.
End Top.

(** ** After a load *)
Lemma class_objects_kept w ev (h h' : heap) : kept_in h h' -> class_objects w ev h -> class_objects w ev h'.
Proof.
  intros K [A B C]. assert (Q : forall y v, object h y v -> object h' y v) by (intros y v O; exact (ob_kept _ _ _ _ K O)).
  constructor; intros; apply Q; eauto.
Qed.
Lemma class_object_is w ev h y : class_objects w ev h -> class_object w ev y -> exists v, object h y v.
Proof.
  intros [A B C] [[c [ms [m [x [E [I ->]]]]]]|[[c [fs [k [d [E [I ->]]]]]]|[c [fs [f [d [E [I [D ->]]]]]]]]]; eauto.
Qed.
Lemma of_class_kept w ev (h h' : heap) l : kept_in h h' -> class_objects w ev h -> of_class w ev h' l -> of_class w ev h l.
Proof.
  intros K Co [y [C I]]. exists y. split; [exact C|]. destruct (class_object_is _ _ _ _ Co C) as [v O].
  apply (inside_back h h' (fun _ => false) y v l); [exact O| |exact I]. intros l0 o E. apply K. exact E.
Qed.
Lemma inside_trans h x l l' : inside_of h x l -> inside_of h (HR l) l' -> inside_of h x l'.
Proof. intro I. revert l'. induction I as [l|l o y l1 E J I IH]; intros l' I'; [exact I'|]. eapply io_part; [exact E|exact J|]. apply IH. exact I'. Qed.
Lemma mf_imp h (L L' : loc -> Prop) y ls : (forall l, L l -> L' l) -> made_from h L y ls -> made_from h L' y ls.
Proof.
  intros K M. induction M as [v Q|l Q|l o lss E F IH] using mf_ind; [constructor; exact Q|apply mf_old; apply K; exact Q|].
  eapply mf_new; [exact E|exact IH].
Qed.
Lemma inside_kept (h h' : heap) x l : kept_in h h' -> inside_of h x l -> inside_of h' x l.
Proof. intros K I. induction I as [l|l o y l1 E J I IH]; [apply io_self|]. eapply io_part; [apply K; exact E|exact J|exact IH]. Qed.
Lemma after_names w cfg env t0 s0 s1 n v : 
  (forall n t', reach w (pep563 cfg) env t0 (TForward n) -> w_name w t' = Some n -> (exists t'', knows s0 n t'') \/ env n = Some t') ->
  s1 = snd (load w cfg n v t0 s0) ->
  (forall n t', reach w (pep563 cfg) env t0 (TForward n) -> w_name w t' = Some n -> (exists t'', knows s1 n t'') \/ env n = Some t').
Proof.
  intros K -> m t' R N. destruct (K m t' R N) as [[t'' [fr [F Sg]]]|Q]; [left|right; exact Q].
  assert (LE : st_le s0 (snd (load w cfg n v t0 s0))) by (apply (proj2 (later_good w cfg s0 _ (later_load w cfg s0 cfg n v t0 s0 (later_same w cfg s0) ltac:(repeat split; reflexivity))))).
  pose proof (le_frefs _ _ LE) as LF. rewrite F in LF. destruct (st_frefs (snd (load w cfg n v t0 s0))) as [fr'|] eqn:E; [|contradiction].
  exists t''. exists fr'. split; [exact E|]. apply LF. exact Sg.
Qed.

Section Again.
  Variable w : world.
  Variables basic strcons : list cid.
  Variable cfg : config.
  Hypothesis Hstd : is_std w basic strcons cfg.
  Variable ev : env.
  Hypothesis Wr : wf_reflect w.
  Variable nm : string -> option ty.
  Lemma new_of s t (h : heap) x v y s' h' : renews w basic strcons cfg nm s t -> used w cfg s -> class_objects w ev h -> distinct_arguments w ->
    object h x v -> data v -> hloads w cfg ev s h x t (Ok y) s' h' ->
    exists ls, made_from h' (of_class w ev h) y ls /\ NoDup ls /\ forall l, In l ls -> List.length h <= l.
  Proof using Hstd Wr.
    intros [R1 R2 R3 R4 R5] U Co D O Dv H. exact (top_new w basic strcons cfg Hstd ev nm t s Wr R4 R5 R1 R2 R3 h x v y s' h' U Co D O Dv H).
  Qed.
  Lemma renews_again s t (h : heap) x v r s' h' : renews w basic strcons cfg nm s t -> used w cfg s -> class_objects w ev h ->
    object h x v -> hloads w cfg ev s h x t r s' h' -> renews w basic strcons cfg nm s' t /\ used w cfg s'.
  Proof using Hstd Wr.
    intros [R1 R2 R3 R4 R5] U Co O [N [n E]]. destruct (hard_sim w basic strcons cfg Hstd ev nm t s Wr R4 R5 R1 R2 R3 n h x v U Co O) as [E1 [[_ [I1 _]] _]].
    rewrite E in E1. cbn [fst snd] in E1. split; [constructor|].
    - exact R1.
    - exact R2.
    - exact R3.
    - intros m t' R [fr [F Sg]]. rewrite E1 in F. exact (I1 fr m t' F Sg R).
    - apply (after_names w cfg nm t s s' n v R5 E1).
    - rewrite E1. apply used_again. exact U.
  Qed.
  (** editing other places *)
  Lemma stays (h h' h2 : heap) y a ls : kept_in h h' -> class_objects w ev h -> made_from h' (of_class w ev h) y ls -> (forall l, In l ls -> List.length h <= l) ->
    edits (fun l => l < List.length h /\ ~ of_class w ev h l) h' h2 -> object h' y a -> object h2 y a.
  Proof using.
    intros K Co M Nw E O. apply (inside_read h' h2 y a O). intros l o I Q. apply (edits_keep _ _ _ _ _ E); [|exact Q].
    intros [B N]. destruct (inside_from _ _ _ _ _ M I) as [J|[l0 [[z [C J0]] J]]]; [apply Nw in J; lia|].
    apply N. exists z. split; [exact C|]. destruct (class_object_is _ _ _ _ Co C) as [v Oz].
    apply (inside_back h h' (fun _ => false) z v l); [exact Oz|intros l1 o1 E1; apply K; exact E1|].
    eapply inside_trans; [|exact J]. eapply inside_kept; [exact K|exact J0].
  Qed.
End Again.

(** ** Data *)
Lemma data_list l : Forall data l -> data (VList l).
Proof.
  intros F z I. inversion I as [|b c Q I']; subst; [right; reflexivity|]. inversion Q as [v l' y E J|d k y J|d k y J|d k y J]; subst; try discriminate.
  injection E as <-. rewrite Forall_forall in F. exact (F _ J z I').
Qed.
Lemma data_dict d : Forall (fun kx => data (fst kx) /\ data (snd kx)) d -> data (VDict d).
Proof.
  intros F z I. rewrite Forall_forall in F. inversion I as [|b c Q I']; subst; [right; reflexivity|]. inversion Q as [v l' y E J|d' k y J|d' k y J|d' k y J]; subst.
  - injection E as <-. apply in_map_iff in J as [kx [<- J]]. exact (proj1 (F _ J) z I').
  - exact (proj2 (F _ J) z I').
Qed.
