(** * Stops: StopIteration ends the iteration of the map() in _iterload

    Which handlers can raise StopIteration; if none of the types involved does,
    [iter_loop] is a loop over all the items. *)

From Verif Require Import Loader Spec Inv Std Sound.
From Verif Require Export Vocab.

Definition NS (e : exn) : Prop := e <> XRaw RStopIter.
Notation yes := (fun _ => True).

Section Stops.
  Variable w : world.
  Variables basic strcons : list cid.
  Variable cfg : config.
  Hypothesis Hstd : is_std w basic strcons cfg.
  Hypothesis Hwr : wf_reflect w.
  Variable env : string -> option ty.
  Notation p := (pep563 cfg).
  Notation G := (never_stops w p env).
  Notation C := (coh w cfg).
  Notation ns m := (hl C m (fun _ => True) NS).
  Notation any m := (hl C m (fun _ => True) (fun _ => True)).

  Lemma G_comp t t' : G t -> component w p env t t' -> G t'.
  Proof using. intros H K x R. apply H. eapply rt1n_trans; eassumption. Qed.
  Lemma G_self t : G t -> calm w t. Proof using. intros H. apply H. constructor. Qed.

  Lemma ns_ret {A} (a : A) : ns (ret a). Proof using. apply hl_ret. exact I. Qed.
  Lemma ns_tl {A} k m tr v t subs : ns (@raise lstate A (XTL k m tr v t subs)). Proof using. apply hl_raise. discriminate. Qed.
  Lemma ns_any {A} (m : M A) : ns m -> any m. Proof using. intro H. eapply hl_weak; [exact H|auto|auto]. Qed.
  Lemma ns_bind {A B} (m : M A) (f : A -> M B) : ns m -> (forall a, ns (f a)) -> ns (bind m f).
  Proof using. intros H F. eapply hl_bind; [exact H|]. intros a _. apply F. Qed.
  Lemma any_bind {A B} (m : M A) (f : A -> M B) : any m -> (forall a, any (f a)) -> any (bind m f).
  Proof using. intros H F. eapply hl_bind; [exact H|]. intros a _. apply F. Qed.
  Lemma any_lift {A} (r : pyres A) : any (lift r). Proof using. apply hl_lift; auto. Qed.
  Lemma ns_attempt {A} (m : M A) : any m -> ns (attempt m).
  Proof using. intros H s Hs. specialize (H s Hs). unfold attempt. destruct (m s) as [[a|e|] s1]; cbn [fst snd] in *; [split; [apply H|exact I]|split; [apply H|exact I]|exact H]. Qed.
  Lemma ns_find {A} t r : find_handler cfg t = PExc r -> ns (@raise lstate A (XRaw r)).
  Proof using Hstd. intro F. rewrite (find_std w basic strcons cfg t Hstd) in F. apply hl_raise. intros [= ->]. unfold chain in F. repeat (match type of F with (if ?b then _ else _) = _ => destruct b; [discriminate F|] end). discriminate F. Qed.
  Lemma ns_lookup nf t : NS nf -> hl C (lookup_handler cfg nf t) (fun h => find_handler cfg t = POk h) NS.
  Proof using Hstd.
    intros N s H. unfold lookup_handler. destruct (ty_get t (st_index s)) eqn:E.
    - split; [exact H|]. exact (coh_index _ _ _ H _ _ E).
    - destruct (find_handler cfg t) as [h|r] eqn:F.
      + split; [apply coh_set_index; assumption|reflexivity].
      + pose proof (ns_find (A := handler) t r F s H) as K. destruct r; cbn in K; try exact K. split; [exact H|exact N].
  Qed.

  Variable call : handler -> value -> ty -> M value.
  Hypothesis Acall : forall h v t, any (call h v t).
  Hypothesis Hcall : forall h v t, G t -> find_handler cfg t = POk h -> ns (call h v t).

  Lemma ns_load_with v t a : ns (load_with w cfg call v t a).
  Proof using Hstd Acall.
    unfold load_with. eapply hl_bind with (Q1 := fun _ => True).
    - intros s H. destruct (ty_get t (st_index s)) eqn:E; [split; [exact H|exact I]|].
      destruct (find_handler cfg t) as [h|r] eqn:F.
      + split; [apply coh_register, coh_set_index; assumption|exact I].
      + pose proof (ns_find (A := handler) t r F s H) as K. destruct r; cbn in K; try exact K. split; [exact H|discriminate].
    - intros h _. eapply hl_catch; [apply Acall|]. intros e _. destruct e; apply hl_raise; cbn; discriminate.
  Qed.
  Lemma ns_item_error {A} v t i e : ns (@item_error A v t i e).
  Proof using. destruct e as [k m tr v0 t0 subs|[]]; apply hl_raise; cbn; discriminate. Qed.
  Lemma ns_iter_loop k mp f v t l : (forall x, any (f x)) -> forall i acc, ns (iter_loop w k mp f v t l i acc).
  Proof using.
    intro F. induction l as [|x l IH]; intros i acc; cbn [iter_loop]; [apply ns_ret|].
    eapply hl_bind with (Q1 := yes).
    - apply ns_attempt, any_bind; [apply F|intro; apply any_lift].
    - intros [acc'|e] _; [apply IH|]. destruct (stops mp e); [apply ns_ret|apply ns_item_error].
  Qed.
  Lemma any_iter_item h et x : any (iter_item w cfg call h et x).
  Proof using Acall. unfold iter_item. repeat match goal with |- context [match ?x with _ => _ end] => destruct x end; try apply Acall; apply ns_any, ns_ret. Qed.
  Lemma ns_iterload k v t : ns (iterload w cfg call k v t).
  Proof using Hstd Acall.
    assert (B : ns (match ty_args t with
        | None => raise (XRaw RAttr)
        | Some [] => raise (XRaw RIndex)
        | Some (et :: _) => bind (lookup_handler cfg (XTL KType (MCannotDeal et) [] (Some v) (Some et) []) et) (fun h =>
            match iter v with
            | None => raise (XTL KType (MPy RType) [] (Some v) (Some t) [])
            | Some l => iter_loop w k (mapped cfg et) (iter_item w cfg call h et) v t l 0 [] end) end)).
    { destruct (ty_args t) as [[|et r]|]; try (apply hl_raise; discriminate).
      eapply hl_bind; [apply ns_lookup; discriminate|]. intros h _. destruct (iter v); [|apply ns_tl]. apply ns_iter_loop. intro x. apply any_iter_item. }
    unfold iterload. destruct v; try exact B. apply ns_tl.
  Qed.
  Lemma ns_tuple_loop v t ts : forall l i acc, ns (tuple_loop cfg call v t l ts i acc).
  Proof using Hstd Acall.
    induction ts as [|et ts IH]; intros [|x l] i acc; cbn [tuple_loop]; try apply ns_ret.
    eapply hl_bind with (Q1 := yes).
    - apply ns_attempt, any_bind.
      + intros s H. destruct (ty_get et (st_index s)); [split; [exact H|exact I]|]. exact (any_lift (find_handler cfg et) s H).
      + intro h. destruct (_ && _); [apply ns_any, ns_ret|apply Acall].
    - intros [y|e] _; [apply IH|apply ns_item_error].
  Qed.
  Lemma ns_tupleload v t : ns (tupleload w cfg call v t).
  Proof using Hstd Acall.
    unfold tupleload. destruct (ty_args t) as [args|]; [|apply hl_raise; discriminate].
    assert (B : ns (match v with
        | VDict _ => raise (XTL KType MDictTuple [] (Some v) (Some t) [])
        | _ => match iter v with
            | None => raise (XRaw RType)
            | Some l =>
                if failonextra cfg && Nat.ltb (List.length args) (List.length l)
                then raise (XTL KValue (MTooLong t) [] (Some v) (Some t) [])
                else if Nat.ltb (List.length l) (List.length args)
                then raise (XTL KValue (MTooShort t) [] (Some v) (Some t) [])
                else tuple_loop cfg call v t l args 0 [] end end)).
    { destruct v; try apply ns_tl; (destruct (iter _); [|apply hl_raise; discriminate]); (destruct (_ && _); [apply ns_tl|]); (destruct (Nat.ltb _ _); [apply ns_tl|]); apply ns_tuple_loop. }
    destruct args as [|a0 [|a1 [|a2 l]]]; try exact B; destruct a1; try exact B. apply ns_iterload.
  Qed.
  Lemma any_dict_fast kt vt kf vf d : forall acc, any (dict_fast w cfg call kt vt kf vf d acc).
  Proof using Acall.
    induction d as [|[k x] d IH]; intro acc; cbn [dict_fast]; [apply ns_any, ns_ret|].
    apply any_bind; [destruct (_ && _); [apply ns_any, ns_ret|apply Acall]|]. intro k'.
    apply any_bind; [destruct (_ && _); [apply ns_any, ns_ret|destruct vf; [apply Acall|apply hl_raise; exact I]]|]. intro x'.
    destruct (hashable w k'); [apply IH|apply hl_raise; exact I].
  Qed.
  Lemma ns_dict_slow kt vt d : forall acc, ns (dict_slow w cfg call kt vt d acc).
  Proof using Hstd Acall.
    induction d as [|[k x] d IH]; intro acc; cbn [dict_slow]; [apply ns_ret|].
    apply ns_bind; [apply ns_load_with|]. intro k'. apply ns_bind; [apply ns_load_with|]. intro x'.
    destruct (hashable w k'); [apply IH|apply hl_raise; discriminate].
  Qed.
  Lemma ns_dictload v t : ns (dictload w cfg call v t).
  Proof using Hstd Acall.
    unfold dictload. destruct (ty_args t) as [[|kt [|vt [|? ?]]]|]; try (apply hl_raise; discriminate).
    eapply hl_bind; [apply ns_lookup; discriminate|]. intros kf0 _.
    eapply hl_bind with (Q1 := yes).
    - intros s H. destruct (ty_get vt (st_index s)) eqn:E; [split; [exact H|exact I]|].
      destruct (find_handler cfg vt) as [h|r] eqn:F.
      + split; [apply coh_set_index; assumption|exact I].
      + pose proof (ns_find (A := handler * option handler) vt r F s H) as K. destruct r; cbn in K; try exact K. split; [exact H|discriminate].
    - intros [kf vf] _. cbv zeta. eapply hl_catch with (E1 := yes).
      + destruct (as_dict cfg v); try (apply hl_raise; exact I). apply any_dict_fast.
      + intros _ _. eapply hl_catch with (E1 := NS).
        * destruct (as_dict cfg v); try (apply hl_raise; discriminate). apply ns_dict_slow.
        * intros [[] ? ? ? ? ?|[]] N; apply hl_raise; first [discriminate|exact N].
  Qed.
  Lemma ns_forward v t : ns (forwardrefload w cfg call v t).
  Proof using Hstd Acall.
    unfold forwardrefload. eapply hl_bind with (Q1 := yes); [eapply hl_weak; [apply hl_get|auto|intros e H; exact H]|]. intros s _.
    destruct (st_frefs s); [|apply ns_tl]. destruct t; try (apply hl_raise; discriminate). destruct (str_get _ _); [apply ns_load_with|apply ns_tl].
  Qed.
  Lemma ns_newtype v t : ns (newtypeload w cfg call v t).
  Proof using Hstd Acall. unfold newtypeload. destruct t; try (apply hl_raise; discriminate). apply ns_load_with. Qed.
  Lemma ns_enum v t : calm w t -> ns (enumload w cfg call v t).
  Proof using Hstd Acall.
    intro Cm. unfold enumload. destruct (call_type w t v); [apply ns_ret|]. destruct t as [c| | | | | | | ]; try (apply hl_raise; discriminate).
    eapply hl_bind with (Q1 := yes); [apply hl_lift; [auto|intros k E [= ->]; exact (cm_hints _ _ Cm c eq_refl E)]|]. intros hints _.
    eapply hl_bind with (Q1 := yes); [|intros [] _; [apply ns_ret|apply ns_tl]].
    generalize (@nil exn). induction (map snd hints) as [|x ts IH]; intro exs; cbn [enum_hints]; [apply ns_ret|].
    eapply hl_bind with (Q1 := yes); [|intros [] _; [apply ns_ret|apply IH]].
    apply ns_attempt, any_bind; [apply ns_any, ns_load_with|intro; apply any_lift].
  Qed.

  (** ** The handlers which let other exceptions through *)
  Lemma ns_fields_loop fs hints v t d : (forall k ft, str_get k hints = Some ft -> G ft) ->
    forall acc, ns (fields_loop cfg call fs hints v t d acc).
  Proof using Hstd Hcall.
    intro H. induction d as [|[k x] d IH]; intro acc; cbn [fields_loop]; [apply ns_ret|].
    destruct k; try apply IH. destruct (mem_str s fs); [|apply IH]. destruct (str_get s hints) as [ft|] eqn:E; [|apply hl_raise; discriminate].
    eapply hl_bind; [apply ns_lookup; discriminate|]. intros h F. apply ns_bind; [|intro; apply IH].
    eapply hl_catch; [apply Hcall; [apply (H s); exact E|exact F]|]. intros e N. apply hl_raise. destruct e; [discriminate|exact N].
  Qed.
  Lemma construct_calm t ps : calm w t -> construct w t ps <> PExc RStopIter.
  Proof using.
    intros Cm. unfold construct. destruct t as [c| | | | | | | ]; try discriminate.
    assert (B : forall an fs, construct_fields w an c fs ps <> PExc RStopIter).
    { intros an fs. unfold construct_fields. destruct (unexpected _ _); [discriminate|]. destruct (bind_fields _ _ _ _) as [vals|]; [|discriminate].
      pose proof (cm_post _ _ Cm c vals eq_refl) as K. destruct (ci_post _ vals); [discriminate|congruence]. }
    destruct (ci_nt _) as [nt|].
    - destruct (unexpected _ _); [discriminate|]. destruct (bind_nt _ _); discriminate.
    - destruct (ci_dc _); [apply B|]. destruct (ci_attrs _); [apply B|]. destruct (ci_td _); discriminate.
  Qed.
  Lemma ns_objloader fs nec hints v t : calm w t -> (forall k ft, str_get k hints = Some ft -> G ft) -> ns (objloader w cfg call fs nec hints v t).
  Proof using Hstd Hcall.
    intros Cm H. unfold objloader. destruct (as_dict cfg v); try apply ns_tl.
    destruct (filter _ nec); [|apply ns_tl]. destruct (_ && _); [destruct (all_str _); [apply ns_tl|apply hl_raise; discriminate]|].
    apply ns_bind; [apply ns_fields_loop; exact H|]. intro ps.
    pose proof (construct_calm t ps Cm) as K. destruct (construct w t ps) as [r|[]]; try apply ns_ret; try (apply hl_raise; discriminate); congruence.
  Qed.
  Lemma ns_mangle names v t : ns (mangle cfg names v t).
  Proof using.
    unfold mangle. destruct names as [|n0 names]; [apply ns_ret|]. destruct v; try apply ns_tl. destruct (mangle_loop _ _ _ _ _); [apply ns_ret|apply ns_tl].
  Qed.
  Lemma ns_members v t ts : (forall x, In x ts -> G x) -> forall n r exs, ns (try_members cfg call v t ts n r exs).
  Proof using Hstd Hcall.
    induction ts as [|x ts IH]; intros H n r exs; cbn [try_members]; [apply ns_ret|].
    eapply hl_bind with (Q1 := fun o => match o with inl _ => True | inr e => NS e end).
    - apply hl_attempt. eapply hl_bind; [apply ns_lookup; discriminate|]. intros h F. apply Hcall; [apply H; left; reflexivity|exact F].
    - intros [r'|[k m tr v' t' subs|rr]] N.
      + destruct (uniondebugconflict cfg); [apply IH; intros; apply H; right; assumption|apply ns_ret].
      + apply IH. intros; apply H; right; assumption.
      + apply hl_raise. exact N.
  Qed.
  Lemma ns_prefer v t args sorted : ty_args t = Some args -> (forall x, In x sorted -> In x args) ->
    hl C (prefer w v t args sorted) (fun l => forall x, In x l -> In x args) NS.
  Proof using.
    intros A Hs. unfold prefer. destruct v; try (apply hl_ret; exact Hs).
    apply hl_bind with (Q1 := fun dc => forall key cd x, dc = Some (key, cd) -> In x (map snd cd) -> In x args).
    { intros s I0. destruct (same_get t (st_disc s)) as [dc|] eqn:E.
      - split; [exact I0|]. destruct (coh_disc _ _ _ I0 _ _ E) as [args0 [args' [s' [A' [Sm ->]]]]].
        assert (args0 = args) by congruence. subst args0. intros key cd x B J. apply Sm. revert B J. apply build_disc_types.
      - split; [apply coh_set_disc; assumption|intros key cd x; apply build_disc_types]. }
    intros [[key [|lt cd]]|] Hd; try (apply hl_ret; exact Hs).
    destruct (hashable w _); [|apply hl_raise; discriminate].
    destruct (disc_get _ (lt :: cd)) as [pt|] eqn:DG; apply hl_ret; [|exact Hs].
    intros x [<-|Hin]; [|apply Hs; eapply remove_first_In; exact Hin].
    eapply Hd; [reflexivity|]. eapply disc_get_types. exact DG.
  Qed.
  Lemma ns_union v n args : G (TGen n OUnion (Some args)) -> ns (unionload w cfg call v (TGen n OUnion (Some args))).
  Proof using Hstd Hcall.
    intro Gt. unfold unionload. cbn [ty_args]. destruct (_ && _); [apply ns_ret|]. cbv zeta.
    eapply hl_bind; [apply (ns_prefer v _ args); [reflexivity|]|].
    - intros x I0. apply in_app_iff in I0 as [I0|I0]; apply filter_In in I0 as [I0 _]; exact I0.
    - intros l Hl. eapply hl_bind with (Q1 := yes); [apply ns_members; intros x I0; eapply G_comp; [exact Gt|apply Hl; exact I0]|].
      intros [[m r] exs] _. destruct m as [|[|m]]; [apply ns_tl|apply ns_ret|apply ns_tl].
  Qed.
  Lemma G_field c k ft : G (TClass c) -> In (k, ft) (declared w p c) -> G ft.
  Proof using. intros Gc I0. eapply G_comp; [exact Gc|]. unfold component, comps. apply in_or_app. left. apply (in_map snd) in I0. exact I0. Qed.
  Lemma ns_body h v t : G t -> find_handler cfg t = POk h -> ns (body w cfg call h v t).
  Proof using Hstd Hwr Acall Hcall.
    intros Gt F. pose proof (G_self t Gt) as Cm. pose proof (std_selected w basic strcons cfg t h Hstd F) as Sel. destruct h; cbn [body selected] in *.
    - unfold noneload. destruct v; try apply ns_tl. apply ns_ret.
    - destruct Sel as [n [args ->]]. apply ns_union. exact Gt.
    - unfold basicload. destruct (exact v t); [apply ns_ret|]. destruct (basiccast cfg); [|apply ns_tl]. destruct (call_type w t v) as [r|[]]; first [apply ns_ret|apply ns_tl].
    - apply ns_enum. exact Cm.
    - apply ns_tupleload.
    - apply ns_iterload.
    - apply ns_dictload.
    - apply ns_iterload.
    - apply ns_iterload.
    - destruct Sel as [c [nt [-> [N _]]]]. assert (K : kind_of_class w c = Some (KNT nt)) by (unfold kind_of_class; rewrite N; reflexivity).
      unfold namedtupleload. rewrite N. eapply hl_bind with (Q1 := fun hints => hints = declared w p c).
      + apply hl_lift.
        * intros a E. unfold declared, declared_types. rewrite K. revert E. case p; intro E; [rewrite E; reflexivity|congruence].
        * intros r E [= ->]. revert E. case p; [exact (cm_hints _ _ Cm c eq_refl)|discriminate].
      + intros hints ->. cbv zeta. apply ns_objloader; [exact Cm|]. intros k ft E. eapply G_field; [exact Gt|apply str_get_In; exact E].
    - destruct Sel as [c [fs [-> [D [N _]]]]]. assert (K : kind_of_class w c = Some (KDC fs)) by (unfold kind_of_class; rewrite N, D; reflexivity).
      unfold dataclassload. apply hl_bind with (Q1 := fun oi => dataclass_info w cfg c fs = POk oi).
      + intros s H. destruct (ty_get (TClass c) (st_fields s)) as [oi|] eqn:E.
        * split; [exact H|]. destruct (coh_fields _ _ _ H _ _ E) as [c' [fs' [[= <-] [D' O]]]]. congruence.
        * rewrite D. destruct (dataclass_info w cfg c fs) as [oi|r] eqn:O.
          -- split; [eapply coh_set_fields; eassumption|reflexivity].
          -- split; [exact H|]. intros [= ->]. unfold dataclass_info in O. pose proof (cm_hints _ _ Cm c eq_refl) as HH. destruct p; [destruct (ci_hints _); congruence|discriminate].
      + intros oi O. apply ns_bind; [apply ns_mangle|]. intro v'. apply ns_objloader; [exact Cm|]. rewrite (dataclass_info_hints w cfg _ _ _ K O).
        intros k ft E. eapply G_field; [exact Gt|apply str_get_In; exact E].
    - apply ns_forward.
    - unfold literalload. destruct Sel as [vals ->]. destruct (py_in v vals); [apply ns_ret|apply ns_tl].
    - destruct Sel as [c [req [-> [T [N [D _]]]]]].
      assert (A : ci_attrs (class_of w c) = None) by (apply (wr_td _ Hwr); congruence).
      assert (K : kind_of_class w c = Some (KTD req)) by (unfold kind_of_class; rewrite N, D, A, T; reflexivity).
      unfold typeddictload. rewrite T. eapply hl_bind; [apply hl_get|]. intros s Hs. cbv beta in Hs.
      eapply hl_bind with (Q1 := fun hints => map (fun kt => (fst kt, strip_notrequired (snd kt))) hints = declared w p c).
      + apply hl_lift.
        * intros a E. unfold declared, declared_types. rewrite K. revert E. case p; intro E; [rewrite E; reflexivity|]. injection E as <-. unfold annotations.
          destruct (mem_cid c (st_stripped s)); [|reflexivity]. rewrite map_map. apply map_ext_in. intros [k t] Hin. cbn [fst snd]. f_equal.
          rewrite !unwrap_strip. eapply (wr_nested _ Hwr c); [congruence|exact Hin].
        * intros r E [= ->]. revert E. case p; [exact (cm_hints _ _ Cm c eq_refl)|discriminate].
      + intros hints Eh. cbv zeta. eapply hl_bind with (Q1 := yes); [apply hl_mod; intros s' Hs'; case p; [exact Hs'|apply coh_set_stripped; exact Hs']|]. intros _ _.
        apply ns_objloader; [exact Cm|]. rewrite Eh. intros k ft E. eapply G_field; [exact Gt|apply str_get_In; exact E].
    - unfold datetimeload. destruct t as [c| | | | | | | ]; try (apply hl_raise; discriminate).
      destruct (match v with VStr s => _ | _ => _ end) as [r|r] eqn:E; [apply ns_ret|].
      assert (r <> RStopIter).
      { intros ->. destruct v; cbn [iter] in E; try discriminate E; try exact (cm_iso _ _ Cm c _ eq_refl E); exact (cm_args _ _ Cm c _ eq_refl E). }
      destruct r; try apply ns_tl; apply hl_raise; unfold NS; congruence.
    - unfold patternload. pose proof (cm_compile _ _ Cm v) as K. destruct (w_compile w v) as [r|[]]; first [apply ns_ret|apply ns_tl|apply hl_raise; unfold NS; congruence].
    - unfold timedeltaload. pose proof (cm_timedelta _ _ Cm v) as K. destruct (w_timedelta w v) as [r|[]]; first [apply ns_ret|apply ns_tl|apply hl_raise; unfold NS; congruence].
    - unfold strconsload. destruct (call_type w t v) as [r|[]]; first [apply ns_ret|apply ns_tl].
    - destruct Sel as [c [fs [-> [A [N [D _]]]]]]. assert (K : kind_of_class w c = Some (KAT fs)) by (unfold kind_of_class; rewrite N, D, A; reflexivity).
      unfold attrload. rewrite A. eapply hl_bind with (Q1 := fun hints => hints = declared w p c).
      + apply hl_lift.
        * intros a E. unfold declared. rewrite K. apply attr_hints_spec. exact E.
        * intros r E [= ->]. assert (B : forall f hs, In f fs -> f_conv f = Some hs -> hs = [] \/ exists k x, In (k, x) hs /\ k <> "return") by (intros; eapply (cm_conv _ _ Cm); eauto).
          clear - B E. induction fs as [|f fs IH]; cbn [attr_hints] in E; [discriminate|].
          assert (E' : attr_hints fs = PExc RStopIter).
          { destruct (f_conv f) as [hs|] eqn:Fc.
            - destruct (converter_type hs) as [ct|r] eqn:Ct; [destruct (attr_hints fs); [discriminate|exact E]|]. exfalso. unfold converter_type in Ct.
              destruct (B f hs (or_introl eq_refl) Fc) as [->|[k [x [I0 NE]]]]; [discriminate Ct|]. destruct (_ && _); [|discriminate].
              destruct (filter _ hs) as [|[k' x'] l] eqn:Fl; [|discriminate]. assert (J : In (k, x) []) by (rewrite <- Fl; apply filter_In; split; [exact I0|]; cbn [fst]; destruct (String.eqb_spec k "return"); [contradiction|reflexivity]). exact J.
            - destruct (attr_hints fs); [discriminate|exact E]. }
          apply IH; [exact E'|intros; eapply B; [right; eassumption|assumption]].
      + intros hints ->. cbv zeta. apply ns_bind; [apply ns_mangle|]. intro v'. apply ns_objloader; [exact Cm|]. intros k ft E. eapply G_field; [exact Gt|apply str_get_In; exact E].
    - apply ns_ret.
    - apply ns_newtype.
    - contradiction.
  Qed.
End Stops.

Section Run.
  Variable w : world.
  Variables basic strcons : list cid.
  Variable cfg : config.
  Hypothesis Hstd : is_std w basic strcons cfg.
  Hypothesis Hwr : wf_reflect w.
  Variable env : string -> option ty.
  Lemma ns_run n h v t : never_stops w (pep563 cfg) env t -> find_handler cfg t = POk h ->
    hl (coh w cfg) (run w cfg n h v t) (fun _ => True) NS.
  Proof using Hstd Hwr.
    revert h v t. induction n as [|n IH]; intros h v t Gt F; [intros s H; exact H|]. cbn [run].
    apply (ns_body w basic strcons cfg Hstd Hwr env); auto.
    intros h' v' t'. apply hl_true; [|auto]. intros s H. apply (good_run w cfg n h' v' t' s). exact H.
  Qed.
End Run.

(** If loading an item never raises StopIteration the loop is the ordinary one. *)
Lemma iter_loop_calm (I : lstate -> Prop) w k mp f v t l : (forall x, hl I (f x) (fun _ => True) NS) ->
  forall i acc s, I s -> iter_loop w k mp f v t l i acc s = iter_loop w k false f v t l i acc s.
Proof.
  intro F. induction l as [|x l IH]; intros i acc s H; cbn [iter_loop]; [reflexivity|]. unfold bind, attempt. specialize (F x s H).
  destruct (f x s) as [[y|e|] s1]; [|cbn [stops andb]|reflexivity].
  - destruct F as [H1 _]. destruct (coll_add w k y acc) as [acc'|r] eqn:Ca; cbn [lift ret raise]; [apply IH; exact H1|].
    destruct k; cbn [coll_add] in Ca; try discriminate; destruct (hashable w y); try discriminate; injection Ca as <-; unfold stops; rewrite !andb_false_r; reflexivity.
  - destruct F as [_ N]. unfold stops. destruct mp; [|reflexivity]. destruct e as [|[]]; try reflexivity. contradiction N. reflexivity.
Qed.
Lemma never_stops_reach w pep env t t' : never_stops w pep env t -> reach w pep env t t' -> never_stops w pep env t'.
Proof. intros H R x Rx. apply H. induction R as [|a b c K _ IH]; [exact Rx|]. eapply rt1n_trans; [exact K|]. apply IH; [|exact Rx]. intros y Ry. apply H. eapply rt1n_trans; eassumption. Qed.
