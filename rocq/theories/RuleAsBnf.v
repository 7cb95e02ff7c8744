(** as_bnf: conversion to BNF, removal of forward rules, names. *)
From Verif Require Import Base EarleyModel RuleModel RuleSpec RuleWords RuleLike RulePass RuleMethods RuleExpand RuleNormal RuleNormalized RuleOrder RuleBfs RuleBNF RuleForward RuleNames.
Open Scope nat_scope.

Section AsBnf.
  Context {pred pipe bnf : Type}.
  Notation obj := (obj pred pipe bnf).
  Notation heap := (heap pred pipe bnf).
  Variable pipe_bnf : pipe -> res bnf.
  Variable bnf_lines : bnf -> list (str * list pred).
  Notation like2 := (like2 pipe_bnf bnf_lines).
  Notation open_words kd := (open_words pipe_bnf bnf_lines kd).
  Notation bnf_graph := (bnf_graph pipe_bnf bnf_lines).

  (** The rule [p] is the only child of a name, interpretation or relation rule reachable
      from the root and occurs nowhere else. *)
  Definition sole_child (h : heap) (root p : nat) : Prop :=
    exists objects w, NoDup objects /\ (forall x, In x objects <-> reach h root x) /\ owner h root objects p w.

  Lemma to_bnf_ok fuel (h : heap) root r h' :
    graph no_empty nothing h (reach h root) -> ordered h -> (exists o, nth_error h root = Some o /\ is_prod o = false) ->
    to_bnf pipe_bnf bnf_lines fuel h root = Some (Ok (r, h')) ->
    bnf_graph true h' (reach h' r) /\ (exists o, nth_error h' r = Some o /\ is_prod o = false) /\
    same (open_words KNone none h root) (open_words KNone none h' r) /\
    (~ sole_child h root root -> like2 none h root none h' r).
  Proof.
    intros G O Root H. unfold to_bnf in H. destruct (bfs fuel h root) as [objects|] eqn:B; [|discriminate]. destruct (bfs_ok h fuel root objects B) as (ND & Re & _).
    destruct (transform_ok pipe_bnf bnf_lines h root objects ND Re G O Root fuel r h' H) as (F & P & L & (o & E & K) & _).
    split; [|split; [|split; [exact P|]]].
    - intros x Rx. destruct (F x Rx) as (ox & Ex & K2). exists ox. split; [exact Ex|]. split; [|intros c Hc; apply (reach_step h' r x ox c Rx Ex Hc)].
      destruct K2 as [K2|[->|[->|(d & -> & od & Ed & Bd & _)]]]; cbn; auto; [|eauto].
      destruct ox; cbn in *; try contradiction; auto.
      + intros q Hq. destruct (K2 q Hq) as [(ts & m & Eq & _)|[Eq _]]; eexists; (split; [exact Eq|exact I]).
      + split; [apply (proj1 K2)|]. destruct K2 as [_ K2]. revert K2. apply forall2_weaken. tauto.
      + destruct K2 as [Km Kt]. split; [exact Km|]. intros q Hq. destruct (Kt q Hq) as (oq & Eq & [[Bq _]|[Fq _]]); exists oq; auto.
    - exists o. split; [exact E|]. destruct K as [[Bo _]|[Fo _]]; destruct o; try discriminate; reflexivity.
    - intros N. apply L. intros w Ow. apply N. exists objects, w. auto.
  Qed.

  Theorem as_bnf_ok fuel (h : heap) root r h' :
    graph no_empty nothing h (reach h root) -> ordered h -> (exists o, nth_error h root = Some o /\ is_prod o = false) ->
    as_bnf pipe_bnf bnf_lines fuel h root = Some (Ok (r, h')) ->
    bnf_graph false h' (reach h' r) /\ (exists o, nth_error h' r = Some o /\ is_bnf o = true) /\
    same (open_words KNone none h root) (open_words KNone none h' r) /\
    (~ sole_child h root root -> forall kd, kd <> KName -> same (open_words kd none h root) (open_words kd none h' r)) /\
    (exists h1 objects, h' = generate_names (bnf_rules h1 objects) 0 h1 /\ NoDup objects /\ (forall x, In x objects <-> reach h1 r x) /\ (exists rest, objects = r :: rest) /\ bnf_graph false h1 (reach h1 r) /\
      (~ sole_child h root root -> same (open_words KName none h root) (open_words KName none h1 r))).
  Proof.
    intros G O Root H. unfold as_bnf in H. apply then_ok in H as ((r1 & h1) & H1 & H). apply then_ok in H as ((r2 & h2) & H2 & H).
    destruct (nth_error h2 r2) as [o|] eqn:E; [|discriminate]. destruct (is_bnf o) eqn:B; [|discriminate]. destruct (bfs fuel h2 r2) as [objects|] eqn:Bf; [|discriminate].
    injection H as <- <-. destruct (to_bnf_ok fuel h root r1 h1 G O Root H1) as (G1 & R1 & P1 & L1).
    destruct (remove_forward_ok pipe_bnf bnf_lines h1 (reach h1 r1) G1 fuel r1 r2 h2 (reach_refl h1 r1) R1 H2) as (G2 & _ & L2 & _).
    destruct (bfs_ok h2 fuel r2 objects Bf) as (ND & Re & Hd).
    assert (Rn := generate_renamed (bnf_rules h2 objects) 0 h2). set (h3 := generate_names (bnf_rules h2 objects) 0 h2) in *.
    split; [|split; [|split; [|split]]].
    - intros x Rx. apply (renamed_graph pipe_bnf bnf_lines false h2 h3 (reach h3 r2) Rn); [|exact Rx]. intros y Ry. apply (proj2 (renamed_reach h2 h3 r2 y Rn)) in Ry.
      destruct (G2 y Ry) as (oy & Ey & By & Cy). exists oy. split; [exact Ey|]. split; [exact By|]. intros c Hc. apply (renamed_reach h2 h3 r2 c Rn), Cy, Hc.
    - destruct (proj2 Rn r2 o E) as (o' & E' & Ro). exists o'. split; [exact E'|]. rewrite (proj2 (renamed_children _ _ Ro)). exact B.
    - eapply same_trans; [exact P1|]. eapply same_trans; [apply L2|]. apply renamed_words; [discriminate|exact Rn].
    - intros N kd K. eapply same_trans; [apply (L1 N)|]. eapply same_trans; [apply L2|]. apply renamed_words; [exact K|exact Rn].
    - exists h2, objects. split; [reflexivity|]. split; [exact ND|]. split; [exact Re|]. split; [exact Hd|]. split; [exact G2|]. intros N. eapply same_trans; [apply (L1 N)|apply L2].
  Qed.
End AsBnf.
