(** * Std: which handler the default list selects *)

From Verif Require Import Loader Spec Inv.
From Verif Require Export Vocab.

Section Std.
  Variable w : world.
  Variables basic strcons : list cid.
  Local Notation is_std := (is_std w basic strcons).

  (** the chain of tests *)
  Definition chain (t : ty) : pyres handler :=
    if is_nonetype t then POk HNone else
    if is_union t then POk HUnion else
    if in_classes basic t then POk HBasic else
    if is_enum w t then POk HEnum else
    if is_tuple t then POk HTuple else
    if is_list t then POk HList else
    if is_dict t then POk HDict else
    if is_set t then POk HSet else
    if is_frozenset t then POk HFrozen else
    if is_namedtuple w t then POk HNamedTuple else
    if is_dataclass w t then POk HDataclass else
    if is_forwardref t then POk HForward else
    if is_literal t then POk HLiteral else
    if is_typeddict w t then POk HTypedDict else
    if in_classes [CDate; CTime; CDatetime] t then POk HDatetime else
    if is_pattern t then POk HPattern else
    if ty_eqb t (TClass CTimedelta) then POk HTimedelta else
    if in_classes strcons t then POk HStrcons else
    if is_attrs w t then POk HAttrs else
    if is_any t then POk HAny else
    if is_newtype t then POk HNewType else PExc RValue.


  Lemma find_std cfg t : is_std cfg -> find_handler cfg t = chain t.
  Proof.
    intros [H _]. unfold find_handler, loader_index. rewrite H. unfold default_handlers, chain.
    cbv zeta. cbn [index_from]. cbv beta.
    repeat match goal with |- _ = (if ?b then _ else _) => destruct b; [reflexivity|] end.
    reflexivity.
  Qed.

  (** what the selection of a handler says about the type *)
  Definition selected (h : handler) (t : ty) : Prop :=
    match h with
    | HNone => t = TClass CNone
    | HUnion => exists n args, t = TGen n OUnion (Some args)
    | HBasic => exists c, t = TClass c /\ In c basic /\ c <> CNone
    | HEnum => exists c ms, t = TClass c /\ ci_enum (class_of w c) = Some ms /\ ~ In c basic
    | HTuple => exists n args, t = TGen n OTuple args
    | HList => exists n args, t = TGen n OList args
    | HDict => exists n args, t = TGen n ODict args
    | HSet => exists n args, t = TGen n OSet args
    | HFrozen => exists n args, t = TGen n OFrozen args
    | HNamedTuple => exists c fs, t = TClass c /\ ci_nt (class_of w c) = Some fs
                                  /\ ~ In c basic /\ ci_enum (class_of w c) = None
    | HDataclass => exists c fs, t = TClass c /\ ci_dc (class_of w c) = Some fs
                                 /\ ci_nt (class_of w c) = None /\ ~ In c basic /\ ci_enum (class_of w c) = None
    | HForward => exists n, t = TForward n
    | HLiteral => exists vals, t = TLiteral vals
    | HTypedDict => exists c r, t = TClass c /\ ci_td (class_of w c) = Some r
                                /\ ci_nt (class_of w c) = None /\ ci_dc (class_of w c) = None
                                /\ ~ In c basic /\ ci_enum (class_of w c) = None
    | HDatetime => t = TClass CDate \/ t = TClass CTime \/ t = TClass CDatetime
    | HPattern => t = TClass CPattern \/ exists n args, t = TGen n OPattern args
    | HTimedelta => t = TClass CTimedelta
    | HStrcons => exists c, t = TClass c /\ In c strcons /\ ~ In c basic /\ ci_enum (class_of w c) = None
                            /\ ci_nt (class_of w c) = None /\ ci_dc (class_of w c) = None /\ ci_td (class_of w c) = None
    | HAttrs => exists c fs, t = TClass c /\ ci_attrs (class_of w c) = Some fs
                             /\ ci_nt (class_of w c) = None /\ ci_dc (class_of w c) = None
                             /\ ci_td (class_of w c) = None /\ ~ In c basic /\ ci_enum (class_of w c) = None
                             /\ ~ In c strcons
    | HAny => t = TAny
    | HNewType => exists n s, t = TNewType n s
    | HCustom _ => False
    end.

  Lemma chain_selected t h : chain t = POk h -> selected h t.
  Proof.
    unfold chain.
    destruct (is_nonetype t) eqn:E0; [intros [= <-]; apply ty_eqb_eq; exact E0|].
    destruct (is_union t) eqn:E1.
    { intros [= <-]. destruct t as [|n o args| | | | | | ]; try discriminate. destruct o; try discriminate.
      destruct args; try discriminate. cbn. eauto. }
    destruct t as [c|n o args|vals| |s| |n t|s]; cbn [in_classes is_enum is_tuple is_list is_dict is_set
      is_frozenset is_namedtuple is_dataclass is_forwardref is_literal is_typeddict is_pattern is_attrs is_any is_newtype];
      try (intros [= <-]; cbn; eauto; fail); try discriminate.
    - (* class *)
      destruct (mem_cid c basic) eqn:B.
      { intros [= <-]. cbn. exists c. apply mem_cid_In in B. repeat split; auto.
        intros ->. cbn in E0. discriminate. }
      assert (NB : ~ In c basic) by (rewrite <- mem_cid_In; congruence).
      destruct (ci_enum (class_of w c)) as [ms|] eqn:E; [intros [= <-]; cbn; exists c, ms; auto|].
      destruct (ci_nt (class_of w c)) as [nt|] eqn:N; [intros [= <-]; cbn; exists c, nt; auto|].
      destruct (ci_dc (class_of w c)) as [dc|] eqn:D; [intros [= <-]; cbn; exists c, dc; auto|].
      destruct (ci_td (class_of w c)) as [td|] eqn:T; [intros [= <-]; cbn; exists c, td; auto 10|].
      destruct (mem_cid c [CDate; CTime; CDatetime]) eqn:DT.
      { intros [= <-]. apply mem_cid_In in DT. cbn in DT. cbn. intuition congruence. }
      destruct c; cbn [is_pattern ty_eqb]; try (intros [= <-]; cbn; left; reflexivity).
      all: match goal with
           | |- context [ty_eqb ?x ?y] => destruct (ty_eqb x y) eqn:TD;
               [intros [= <-]; cbn [selected]; apply ty_eqb_eq; exact TD|]
           end.
      all: match goal with
           | |- context [mem_cid ?c strcons] =>
               destruct (mem_cid c strcons) eqn:SC;
               [intros [= <-]; cbn [selected]; apply mem_cid_In in SC; exists c; auto 10|]
           end.
      all: try discriminate.
      destruct (ci_attrs (class_of w (CUser n))) as [at_|] eqn:A; [|discriminate].
      assert (NS : ~ In (CUser n) strcons) by (rewrite <- mem_cid_In; congruence).
      intros [= <-]. cbn [selected]. exists (CUser n), at_. auto 10.
    - (* generic *)
      destruct o; try discriminate; try (intros [= <-]; cbn; eauto).
  Qed.

  Lemma std_selected cfg t h : is_std cfg -> find_handler cfg t = POk h -> selected h t.
  Proof. intro Hs. rewrite find_std by exact Hs. apply chain_selected. Qed.

  Lemma std_exc cfg t r : is_std cfg -> find_handler cfg t = PExc r -> r = RValue.
  Proof.
    intro Hs. rewrite find_std by exact Hs. unfold chain.
    repeat match goal with |- (if ?b then _ else _) = _ -> _ => destruct b; [discriminate|] end.
    congruence.
  Qed.

  Lemma std_is_std cast extra rce deq mk ud p563 :
    is_std (std w basic strcons cast extra rce deq mk ud p563).
  Proof. split; reflexivity. Qed.
End Std.
