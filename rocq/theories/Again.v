(** * Again: loading what has been loaded (C69) *)

From Verif Require Import Loader Spec Vocab Inv Std Obs Hist Items Reference RefComplete RoundTrip Model2.

(** What is loaded into [T] can be loaded again: *)
Record reloadable (w : world) (basic strcons : list cid) (cfg : config) (env : string -> option ty) (T : ty) : Prop := mkReload {
  (* the only classes with fields are TypedDict: their values are dictionaries *)
  rl_object : forall c, reach w (pep563 cfg) env T (TClass c) -> object_class w basic strcons c ->
    (exists req, kind_of_class w c = Some (KTD req)) /\ required_are_fields w cfg c;
  (* there are no dates and times: they are loaded from strings or lists *)
  rl_date : forall c, reach w (pep563 cfg) env T (TClass c) -> In c [CDate; CTime; CDatetime; CTimedelta] -> other_class w basic c -> False;
  (* what int(), str()... return is an int, str..., and not of a subclass *)
  rl_cast : forall c v r, reach w (pep563 cfg) env T (TClass c) -> In c basic -> ci_enum (class_of w c) = None ->
    w_call w (TClass c) v = POk r -> type_of r = c;
  (* Path(p), for a Path p, is p; the same for regular expressions *)
  rl_string : forall c v r, reach w (pep563 cfg) env T (TClass c) -> In c strcons ->
    w_call w (TClass c) v = POk r -> w_call w (TClass c) r = POk r;
  rl_pattern : forall t v r, reach w (pep563 cfg) env T t -> t = TClass CPattern \/ (exists n a, t = TGen n OPattern a) ->
    w_compile w v = POk r -> w_compile w r = POk r
}.

Section Again.
  Variable w : world.
  Variables basic strcons : list cid.
  Variable cfg : config.
  Variable env : string -> option ty.
  Notation p := (pep563 cfg).
  Variable T : ty.
  Hypothesis Rl : reloadable w basic strcons cfg env T.
  Notation G0 := (gives w basic strcons cfg env (fun _ => False)).
  Notation R0 := (reads w basic strcons cfg env (fun _ => False)).
  Notation reached := (reach w p env T).

  Lemma member_type c ms v r : member_for c ms v r -> type_of r = c.
  Proof using. intros [[E ->]|[_ [pre [n [x [post [_ [_ [_ ->]]]]]]]]]; [exact E|reflexivity]. Qed.
  Lemma member_again c ms v r : member_for c ms v r -> member_for c ms r r.
  Proof using. intro M. left. split; [eapply member_type; exact M|reflexivity]. Qed.
  Lemma in_combine_same {A} (l : list A) a b : In (a, b) (combine l l) -> a = b /\ In a l.
  Proof using. induction l as [|x l IH]; cbn; [intros []|]. intros [[= <- <-]|I]; [auto|]. destruct (IH I). auto. Qed.
  Lemma in_combine_other {A B} (l : list A) (ys : list B) y : List.length l = List.length ys -> In y ys -> exists x, In (x, y) (combine l ys).
  Proof using.
    revert l. induction ys as [|z ys IH]; intros [|x l] L I; try discriminate; [destruct I|]. destruct I as [->|I]; [exists x; left; reflexivity|].
    injection L as L. destruct (IH l L I) as [x0 J]. exists x0. right. exact J.
  Qed.
  Lemma ag_kept_cases t x : kept w basic t x \/ ~ kept w basic t x.
  Proof using.
    unfold kept. destruct t as [c| | | | | | | ]; try (right; intros [c0 [E _]]; discriminate E).
    destruct (mem_cid c basic) eqn:B; [|right; intros [c0 [[= <-] [I _]]]; apply mem_cid_In in I; congruence].
    destruct (isinstance w x c) eqn:I; [|right; intros [c0 [[= <-] [_ J]]]; congruence].
    left. exists c. split; [reflexivity|]. split; [apply mem_cid_In; exact B|exact I].
  Qed.
  Lemma set_again ys : set_of (set_of ys) = set_of ys.
  Proof using. apply set_of_id. apply (set_of_distinct ys). Qed.
  Lemma collect_again k ys r : collect w k ys = Some r -> exists l, elements r l /\ collect w k l = Some r /\ forall x, In x l -> In x ys.
  Proof using.
    intro C. destruct k; cbn [collect] in C.
    - injection C as <-. exists ys. split; [split; [discriminate|reflexivity]|]. auto.
    - injection C as <-. exists ys. split; [split; [discriminate|reflexivity]|]. auto.
    - destruct (forallb (hashable w) ys) eqn:H; [|discriminate]. injection C as <-. exists (set_of ys). split; [split; [discriminate|reflexivity]|].
      destruct (set_of_distinct ys) as [I _]. split; [|exact I]. cbn [collect]. rewrite set_again.
      assert (H' : forallb (hashable w) (set_of ys) = true) by (apply forallb_forall; intros x J; rewrite forallb_forall in H; apply H; apply I; exact J).
      rewrite H'. reflexivity.
    - destruct (forallb (hashable w) ys) eqn:H; [|discriminate]. injection C as <-. exists (set_of ys). split; [split; [discriminate|reflexivity]|].
      destruct (set_of_distinct ys) as [I _]. split; [|exact I]. cbn [collect]. rewrite set_again.
      assert (H' : forallb (hashable w) (set_of ys) = true) by (apply forallb_forall; intros x J; rewrite forallb_forall in H; apply H; apply I; exact J).
      rewrite H'. reflexivity.
  Qed.
  Lemma own_dec args v : own_basic basic args v \/ ~ own_basic basic args v.
  Proof using.
    unfold own_basic. destruct (mem_cid (type_of v) basic) eqn:B, (mem_ty (TClass (type_of v)) args) eqn:M.
    - left. split; [apply mem_cid_In|apply mem_ty_In]; assumption.
    - right. intros [_ I]. apply mem_ty_In in I. congruence.
    - right. intros [I _]. apply mem_cid_In in I. congruence.
    - right. intros [I _]. apply mem_cid_In in I. congruence.
  Qed.
  Lemma combine_tuple (ts : list ty) (ys : list value) t x y : List.length ys = List.length ts ->
    In (t, (x, y)) (combine ts (combine ys ys)) -> x = y /\ forall l : list value, List.length ts <= List.length l -> exists u, In (t, (u, y)) (combine ts (combine l ys)).
  Proof using.
    revert ys. induction ts as [|t0 ts IH]; intros [|y0 ys] L I; try discriminate; [destruct I|]. cbn [combine] in I.
    destruct I as [[= <- <- <-]|I].
    - split; [reflexivity|]. intros [|u l] Le; [cbn in Le; lia|]. exists u. left. reflexivity.
    - injection L as L. destruct (IH ys L I) as [E H]. split; [exact E|]. intros [|u l] Le; [cbn in Le; lia|].
      destruct (H l) as [u0 J]; [cbn in Le; lia|]. exists u0. right. exact J.
  Qed.

  Theorem gives_again :
    (forall v t r, G0 v t r -> reached t -> G0 r t r) /\
    (forall v t r, R0 v t r -> reached t -> R0 r t r).
  Proof using Rl.
    apply gives_reads_ind.
    - intros Rc. apply gv_none.
    - intros v c B N Te Rc. apply gv_same; assumption.
    - intros v c r B N Te BC Mk Rc. apply gv_same; try assumption. unfold makes in Mk. destruct (ci_enum (class_of w c)) as [ms|] eqn:E.
      + eapply member_type. exact Mk.
      + exact (rl_cast _ _ _ _ _ _ Rl c v r Rc B E Mk).
    - intros v Rc. apply gv_any.
    - intros v vals I Rc. apply gv_literal. exact I.
    - intros k n t rest v l ys r Su El L Kp Gv IH Co Rc.
      assert (Rt : reached t) by (eapply reach_step; [exact Rc|]; destruct k; left; reflexivity).
      destruct (collect_again k ys r Co) as [l' [El' [Co' In']]].
      apply (gv_collection w basic strcons cfg env (fun _ => False) k n t rest r l' l'); try assumption; [reflexivity| |].
      + intros x y I _. apply in_combine_same in I as [-> _]. reflexivity.
      + intros x y I K. apply in_combine_same in I as [-> I]. apply In' in I. destruct (in_combine_other l ys y L I) as [x J].
        destruct (ag_kept_cases t x) as [Kx|Kx]; [rewrite (Kp x y J Kx) in K; contradiction|]. exact (IH x y J Kx Rt).
    - intros n ts v l ys Fx El Le Ex Ly Gv IH Rc.
      apply (gv_tuple w basic strcons cfg env (fun _ => False) n ts (VTuple ys) ys ys); try assumption.
      + split; [discriminate|reflexivity].
      + lia.
      + intros _. exact Ly.
      + intros t x y I. destruct (combine_tuple ts ys t x y Ly I) as [-> H]. destruct (H l Le) as [u J].
        apply (IH t u y J). eapply reach_step; [exact Rc|]. apply in_combine_l in J. exact J.
    - intros n kt vt v d kvs Sk Sv DI L Gk IHk Gv IHv Hh Rc.
      assert (Rk : reached kt) by (eapply reach_step; [exact Rc|]; left; reflexivity).
      assert (Rv : reached vt) by (eapply reach_step; [exact Rc|]; right; left; reflexivity).
      assert (Ed : dict_of (dict_of kvs) = dict_of kvs) by (apply dict_of_id; apply dict_of_pyd).
      assert (Pk : forall k, In k (map fst kvs) -> R0 k kt k).
      { intros k I. apply in_map_iff in I as [[k0 y] [<- I]]. destruct (in_combine_other d kvs (k0, y) L I) as [[q x] J]. exact (IHk q x k0 y J Rk). }
      assert (Pv : forall y, In y (map snd kvs) -> R0 y vt y).
      { intros y I. apply in_map_iff in I as [[k0 y0] [<- I]]. destruct (in_combine_other d kvs (k0, y0) L I) as [[q x] J]. exact (IHv q x k0 y0 J Rv). }
      rewrite <- Ed at 2. apply (gv_dict w basic strcons cfg env (fun _ => False) n kt vt _ (dict_of kvs) (dict_of kvs)); try assumption; try reflexivity.
      + left. reflexivity.
      + intros k x k' y I. apply in_combine_same in I as [[= <- <-] I]. apply Pk. apply (dict_of_parts kvs k x I).
      + intros k x k' y I. apply in_combine_same in I as [[= <- <-] I]. apply Pv. apply (dict_of_parts kvs k x I).
      + intros k I. apply Hh. apply in_map_iff in I as [[k0 x] [<- I]]. apply (dict_of_parts kvs k0 x I).
    - intros v c d ps r OC Rs OD Rq Fx Mf Md Gv IH Cn Rc.
      destruct (rl_object _ _ _ _ _ _ Rl c Rc OC) as [[req Kc] Rf].
      assert (Of : obj_fields w cfg c = map (fun kt => (fst kt, fst kt)) (declared w p c)) by (unfold obj_fields; rewrite Kc; reflexivity).
      assert (Er : r = VDict (map (fun kv => (VStr (fst kv), snd kv)) ps)).
      { clear - Cn Kc. unfold kind_of_class in Kc. cbn [construct] in Cn.
        destruct (ci_nt (class_of w c)); [discriminate|]. destruct (ci_dc (class_of w c)); [discriminate|].
        destruct (ci_attrs (class_of w c)); [discriminate|]. destruct (ci_td (class_of w c)); [|discriminate]. injection Cn as <-. reflexivity. }
      assert (Fo : forall f t, In (f, t) (declared w p c) -> field_of w cfg c (VStr f) = Some f).
      { intros f t I. unfold field_of. rewrite Of, map_map. cbn [fst snd]. clear - I. induction (declared w p c) as [|[k u] l IHl]; [destruct I|].
        cbn [map str_get fst]. destruct (String.eqb_spec f k) as [->|N]; [reflexivity|]. destruct I as [[= E _]|I]; [congruence|auto]. }
      assert (Fp : forall f, In f (map fst ps) -> field_of w cfg c (VStr f) = Some f).
      { intros f I. destruct (Md f I) as [t Et]. apply str_get_In in Et. exact (Fo f t Et). }
      assert (Gp : given w cfg c (map (fun kv => (VStr (fst kv), snd kv)) ps) = ps).
      { clear - Fp. induction ps as [|[f y] ps IHp]; [reflexivity|]. unfold given in *. cbn [map flat_map fst snd]. rewrite (Fp f) by (left; reflexivity).
        cbn [app]. f_equal. apply IHp. intros g I. apply Fp. right. exact I. }
      assert (Rn : required_names w cfg c = obj_required w cfg c) by (unfold required_names; rewrite Kc; reflexivity).
      subst r. apply (gv_object w basic strcons cfg env (fun _ => False) _ c (map (fun kv => (VStr (fst kv), snd kv)) ps) ps); try assumption.
      + left. reflexivity.
      + intros e I. pose proof (Rq e I) as Id. rewrite Rn in I. apply Rf in I. rewrite Of in I. rewrite map_map in I. cbn [fst] in I.
        apply in_map_iff in I as [[f t] [<- I]]. cbn [fst] in *. apply in_map_iff in Id as [[k x] [Ek Id]]. cbn [fst] in Ek. subst k.
        assert (Ig : In (f, x) (given w cfg c d)).
        { unfold given. apply in_flat_map. exists (VStr f, x). split; [exact Id|]. cbn [fst snd]. rewrite (Fo f t I). left. reflexivity. }
        apply (in_map fst) in Ig. cbn [fst] in Ig. rewrite <- Mf in Ig. apply in_map_iff in Ig as [[f0 y] [Ef Ig]]. cbn [fst] in Ef. subst f0.
        rewrite map_map. cbn [fst]. apply in_map_iff. exists (f, y). auto.
      + intros _ k x I. apply in_map_iff in I as [[f y] [[= <- <-] I]]. apply (in_map fst) in I. exists f. apply Fp. exact I.
      + rewrite Gp. reflexivity.
      + rewrite Gp. intros f x y t I Et. apply in_combine_same in I as [[= ->] I].
        destruct (in_combine_other (given w cfg c d) ps (f, y)) as [[f0 x0] J].
        * rewrite <- (map_length fst (given w cfg c d)), <- Mf. apply map_length.
        * exact I.
        * assert (f0 = f); [|subst f0; apply (IH f x0 y t J Et); eapply reach_step; [exact Rc|]; eapply declared_comp; exact Et].
          clear - J Mf. revert Mf J. generalize (given w cfg c d) as g. induction ps as [|[a b] ps IHp]; intros [|[a' b'] g] E J; try discriminate; [destruct J|].
          cbn [map fst] in E. injection E as E1 E2. destruct J as [[= -> -> -> ->]|J]; [congruence|eauto].
    - intros v c ms r E NB Mm Rc. eapply gv_enum; [exact E|exact NB|]. eapply member_again. exact Mm.
    - intros v c ms hints n t y r E NB N Hh I Gv IH Mm Rc. eapply gv_enum; [exact E|exact NB|]. eapply member_again. exact Mm.
    - intros c x r I Oc E Rc. exfalso. apply (rl_date _ _ _ _ _ _ Rl c Rc); [cbn in *; tauto|exact Oc].
    - intros c v l r I Oc Ns It E Rc. exfalso. apply (rl_date _ _ _ _ _ _ Rl c Rc); [cbn in *; tauto|exact Oc].
    - intros v r Oc E Rc. exfalso. apply (rl_date _ _ _ _ _ _ Rl CTimedelta Rc); [cbn; tauto|exact Oc].
    - intros v t r Ht E Rc. eapply gv_pattern; [exact Ht|]. apply (rl_pattern _ _ _ _ _ _ Rl t v r Rc); [destruct Ht as [[-> _]|Ht]; auto|exact E].
    - intros v c r I Oc Sp E Rc. apply gv_string; try assumption. exact (rl_string _ _ _ _ _ _ Rl c v r Rc I E).
    - intros v n t r _ IH Rc. apply gv_newtype. apply IH. eapply reach_step; [exact Rc|]. left. reflexivity.
    - intros v n t r E _ IH Rc. eapply gv_forward; [exact E|]. apply IH. eapply reach_step; [exact Rc|]. unfold component, comps. rewrite E. left. reflexivity.
    - intros v n args Ow Rc. apply gv_union_own. exact Ow.
    - intros v n args t r Nb I _ IH Rc. destruct (own_dec args r) as [O|O]; [apply gv_union_own; exact O|].
      eapply gv_union; [exact O|exact I|]. apply IH. eapply reach_step; [exact Rc|]. exact I.
    - intros n kt c v d kvs B Un. destruct Un.
    - intros x t y [-> K] Rc. apply rd_same. split; [reflexivity|exact K].
    - intros x t y _ IH Rc. apply rd_gives. exact (IH Rc).
  Qed.
End Again.
