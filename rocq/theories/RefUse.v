(** * RefUse: consequences of the reference semantics (C45, C46) *)

From Verif Require Import Loader Spec Inv Std Trace Hist Obs Enums Items Objects ObjFacts Scalars Transparent Reuse Facts2
  Properties1 Properties2 Properties3 RoundTrip RefSound RefComplete.

Section Mono.
  Variable w : world.
  Variables basic strcons : list cid.
  Variables cfg cfg' : config.
  Hypothesis Hstd : is_std w basic strcons cfg.
  Hypothesis Hstd' : is_std w basic strcons cfg'.
  Hypothesis HR : relaxes cfg cfg'.
  Variable env : string -> option ty.

  Lemma mono_pep : pep563 cfg' = pep563 cfg. Proof using HR. symmetry. apply HR. Qed.
  Lemma mono_mangle : mangle_key cfg' = mangle_key cfg. Proof using HR. symmetry. apply HR. Qed.
  Lemma mono_supported t : supported cfg t -> supported cfg' t.
  Proof using Hstd Hstd'.
    rewrite !supported_find. rewrite (find_std w basic strcons cfg t Hstd), (find_std w basic strcons cfg' t Hstd'). auto.
  Qed.
  Lemma mono_fields c : obj_fields w cfg' c = obj_fields w cfg c.
  Proof using HR. unfold obj_fields, external, given_name. rewrite mono_pep, mono_mangle. reflexivity. Qed.
  Lemma mono_field_of c k : field_of w cfg' c k = field_of w cfg c k.
  Proof using HR. unfold field_of. destruct k; try reflexivity. rewrite mono_fields. reflexivity. Qed.
  Lemma mono_given c d : given w cfg' c d = given w cfg c d.
  Proof using HR. unfold given. apply flat_map_ext. intros [k x]. cbn [fst snd]. rewrite mono_field_of. reflexivity. Qed.
  Lemma mono_required c : required_names w cfg' c = required_names w cfg c.
  Proof using HR. unfold required_names, obj_required, external, given_name. rewrite mono_pep, mono_mangle. reflexivity. Qed.
  Lemma mono_resolvable c : resolvable w cfg c -> resolvable w cfg' c.
  Proof using HR. unfold resolvable. rewrite mono_pep. auto. Qed.
  Lemma mono_renames c : renames w cfg' c = renames w cfg c.
  Proof using HR. unfold renames, given_name. rewrite mono_mangle. reflexivity. Qed.
  Lemma mono_data c v d : obj_data w cfg c v d -> obj_data w cfg' c v d.
  Proof using HR.
    intros [->|[E [R D]]]; [left; reflexivity|right]. rewrite mono_renames. split; [apply HR; exact E|auto].
  Qed.
  Lemma mono_items v d : dict_items cfg v d -> dict_items cfg' v d.
  Proof using HR. intros [->|[E D]]; [left; reflexivity|right]. split; [apply HR; exact E|exact D]. Qed.

  Lemma gives_mono unseen v t r :
    gives w basic strcons cfg env unseen v t r -> gives w basic strcons cfg' env unseen v t r.
  Proof using Hstd Hstd' HR.
    revert v t r.
    apply (gives_mut w basic strcons cfg env unseen
      (gives w basic strcons cfg' env unseen) (reads w basic strcons cfg' env unseen)).
    - apply gv_none.
    - intros. apply gv_same; assumption.
    - intros. apply gv_cast; try assumption. apply HR. assumption.
    - intros. apply gv_any.
    - intros. apply gv_literal; assumption.
    - intros. eapply gv_collection; try eassumption. apply mono_supported. assumption.
    - intros. eapply gv_tuple; try eassumption. intro Q. apply HR in Q. auto.
    - intros. eapply gv_dict; try eassumption; [apply mono_supported; assumption|apply mono_supported; assumption|apply mono_items; assumption].
    - intros v c d ps r OC Rs OD Rq Fe Mf Md Hg IH Cn. eapply gv_object; try eassumption.
      + apply mono_resolvable. exact Rs.
      + apply mono_data. exact OD.
      + rewrite mono_required. exact Rq.
      + intros Q k x I. rewrite mono_field_of. apply HR in Q. eauto.
      + rewrite mono_given. exact Mf.
      + rewrite mono_pep. exact Md.
      + rewrite mono_given, mono_pep. exact IH.
    - intros. eapply gv_enum; eassumption.
    - intros. eapply gv_enum_hint; eassumption.
    - intros. apply gv_iso; assumption.
    - intros. eapply gv_args; eassumption.
    - intros. apply gv_timedelta; assumption.
    - intros. eapply gv_pattern; eassumption.
    - intros. apply gv_string; assumption.
    - intros. apply gv_newtype. assumption.
    - intros. eapply gv_forward; eassumption.
    - intros. apply gv_union_own. assumption.
    - intros. eapply gv_union; eassumption.
    - intros n kt c v d kvs B Un SK DI L Hi Hh. eapply gv_dict_396; try eassumption; [apply mono_supported; assumption|apply mono_items; assumption|].
      intros k x k' y I. destruct (Hi k x k' y I) as [Q1 [Q2 [Q|[Q|[Q|[Q [Q3 [Q4 Q5]]]]]]]]; split; auto; split; auto.
      right. right. right. split; [exact Q|]. split; [exact Q3|]. split; [apply HR; exact Q4|exact Q5].
    - intros. apply rd_same. assumption.
    - intros. apply rd_gives. assumption.
  Qed.
End Mono.

Section Order.
  Variable w : world.
  Variables basic strcons : list cid.
  Variable cfg : config.
  Hypothesis Hstd : is_std w basic strcons cfg.
  Hypothesis Hwr : wf_reflect w.
  Variable env : string -> option ty.
  Notation p := (pep563 cfg).

  Lemma reach_members n args t : reach w p env (TGen n OUnion (Some args)) t ->
    t = TGen n OUnion (Some args) \/ exists m, In m args /\ reach w p env m t.
  Proof using.
    intro R. inversion R as [|m x C R']; subst; [left; reflexivity|right; exists m; auto].
  Qed.
  Lemma member_reach n args m t : In m args -> reach w p env m t -> reach w p env (TGen n OUnion (Some args)) t.
  Proof using. intros I R. eapply rt1n_trans; [exact I|exact R]. Qed.

  Variables n n' : bool.
  Variables args args' : list ty.
  Hypothesis Same : forall t, In t args <-> In t args'.
  Notation U := (TGen n OUnion (Some args)).
  Notation U' := (TGen n' OUnion (Some args')).

  Lemma order_reach t : reach w p env U' t -> t = U' \/ reach w p env U t.
  Proof using Same.
    intro R. apply reach_members in R as [->|[m [I R]]]; [left; reflexivity|right].
    eapply member_reach; [apply Same; exact I|exact R].
  Qed.
  Lemma order_own x : own_basic basic args' x <-> own_basic basic args x.
  Proof using Same. unfold own_basic. rewrite Same. reflexivity. Qed.
  Lemma order_steady s v : steady w basic cfg env s v U -> steady w basic cfg env s v U'.
  Proof using Same.
    intros [H1 H2 H3]. constructor.
    - intros k R. apply order_reach in R as [Q|R]; [discriminate|auto].
    - intros k kt vt R. apply order_reach in R as [Q|R]; [discriminate|eauto].
    - intros k a R. apply order_reach in R as [Q|R]; [|eauto]. injection Q as -> ->.
      apply (Order.plain_tags_same w args); [apply (H3 n); apply rt1n_refl|exact Same].
  Qed.
  Lemma order_wl v : well_formed w basic strcons cfg env v U -> well_formed w basic strcons cfg env v U'.
  Proof using Same.
    intros [H1 H2 H3]. constructor; [|exact H2|].
    - intros c R. apply order_reach in R as [Q|R]; [discriminate|auto].
    - intros y R. apply order_reach in R as [Q|R]; [|auto]. subst y. destruct (H3 U (rt1n_refl _ _ _)). split; try assumption; intros; discriminate.
  Qed.
  Lemma order_nc v : no_choice w basic strcons cfg env v U -> no_choice w basic strcons cfg env v U'.
  Proof using Same.
    intros [H1 H2 H3]. constructor.
    - intros k a x t1 t2 r1 r2 R I O I1 I2. apply order_reach in R as [Q|R]; [|eapply H1; eassumption].
      injection Q as -> ->. rewrite order_own in O. apply Same in I1, I2.
      apply (H1 n args x t1 t2 r1 r2 (rt1n_refl _ _ _) I O I1 I2).
    - intros c ms hints x t1 t2 y1 y2 r1 r2 R. apply order_reach in R as [Q|R]; [discriminate|eauto].
    - intros k kt vt c x R. apply order_reach in R as [Q|R]; [discriminate|eauto].
  Qed.
  Lemma order_te s v : trials_end w basic cfg env s v U -> trials_end w basic cfg env s v U'.
  Proof using Same.
    intros [H1 H2]. constructor.
    - intros k a x R I O. apply order_reach in R as [Q|R]; [|eauto]. injection Q as -> ->. rewrite order_own in O.
      destruct (H1 n args x (rt1n_refl _ _ _) I O) as [T S]. split.
      + intros d f y E L. apply (T d f y E). intros t It. apply L. apply Same. exact It.
      + intros t' It. apply S. apply Same. exact It.
    - intros c ms hints x t' R. apply order_reach in R as [Q|R]; [discriminate|eauto].
  Qed.
  Lemma order_gives v r :
    gives w basic strcons cfg env (fun _ => False) v U r -> gives w basic strcons cfg env (fun _ => False) v U' r.
  Proof using Same.
    intro G. inversion G as [ | | | | |k n0 t0 rest v0 l ys r0 Su El L Hs Hg Co E| | | | | | | | |v0 t0 r0 O E Q| | | |v0 n0 a O|v0 n0 a t0 r0 O I Hg| ]; subst.
    - destruct k; discriminate.
    - destruct O as [[Q _]|[m [a Q]]]; discriminate.
    - apply gv_union_own. apply order_own. exact O.
    - eapply gv_union; [rewrite order_own; exact O|apply Same; exact I|exact Hg].
  Qed.
  Lemma order_loads s v r : used w cfg s -> uniondebugconflict cfg = false ->
    steady w basic cfg env s v U -> well_formed w basic strcons cfg env v U ->
    no_choice w basic strcons cfg env v U -> trials_end w basic cfg env s v U ->
    loads w cfg s v U (Ok r) -> loads w cfg s v U' (Ok r).
  Proof using Hstd Hwr Same.
    intros Us Ud St Wl Nc Te L.
    eapply ref_complete; try eassumption.
    - apply order_gives. eapply ref_sound; eassumption.
    - constructor; [apply order_steady|apply order_wl|apply order_nc|apply order_te]; assumption.
  Qed.
End Order.
