(** Rule.normalized keeps the words of a rule. *)
From Verif Require Import Base EarleyModel RuleModel RuleSpec RuleWords RuleLike RulePass RuleMethods RuleNormal.
Open Scope nat_scope.

Section Normalized.
  Context {pred pipe bnf : Type}.
  Notation obj := (obj pred pipe bnf).
  Notation heap := (heap pred pipe bnf).
  Variable pipe_bnf : pipe -> res bnf.
  Variable bnf_lines : bnf -> list (str * list pred).
  Notation like2 := (like2 pipe_bnf bnf_lines).

  Lemma graph_nothing allowed special (h : heap) (G : nat -> Prop) : graph allowed special h G -> graph allowed nothing h G.
  Proof.
    intros H p Gp. destruct (H p Gp) as (o & E & A & S & C). exists o. split; [exact E|]. split; [exact A|]. split; [exact S|].
    intros c Hc. destruct (C c Hc) as (Gc & oc & Ec & P & _). split; [exact Gc|]. exists oc. split; [exact Ec|]. split; [exact P|discriminate].
  Qed.
  Lemma then_ok {A B} (x : option (res A)) (f : A -> option (res B)) b : then_ x f = Some (Ok b) -> exists a, x = Some (Ok a) /\ f a = Some (Ok b).
  Proof. destruct x as [[a|e]|]; try discriminate. eauto. Qed.

  Theorem normalized_ok fuel (h : heap) root (G : nat -> Prop) r h' :
    graph plain is_quant h G -> G root -> normalized fuel h root = Some (Ok (r, h')) ->
    graph no_empty nothing h' (reach h' r) /\
    like2 none h root none h' r /\
    (forall o, nth_error h root = Some o -> exists o', nth_error h' r = Some o' /\ is_prod o' = is_prod o) /\
    (forall p o, nth_error h p = Some o -> is_forward o = false -> nth_error h' p = Some o).
  Proof.
    intros Gr Gp H. unfold normalized in H.
    apply then_ok in H as ((r1 & h1) & H1 & H). apply then_ok in H as ((r2 & h2) & H2 & H).
    apply then_ok in H as ((r3 & h3) & H3 & H). apply then_ok in H as ((r4 & h4) & H4 & H5).
    destruct (pass_ok pipe_bnf bnf_lines plain plain is_quant (fun _ e => e) (fun _ => eq_refl) (fun _ => eq_refl) _ (squash_ok pipe_bnf bnf_lines) fuel h root G r1 h1 Gr Gp H1)
      as (G1 & L1 & _ & K1 & P1).
    destruct (pass_ok pipe_bnf bnf_lines plain no_quant nothing no_quant_plain (fun _ => eq_refl) (fun _ => eq_refl) _ (replace_extended_ok pipe_bnf bnf_lines) fuel h1 r1
      (reach h1 r1) r2 h2 (graph_nothing _ _ _ _ G1) (reach_refl h1 r1) H2) as (G2 & L2 & _ & K2 & P2).
    destruct (pass_ok pipe_bnf bnf_lines no_quant no_or nothing no_or_quant (fun _ => eq_refl) (fun _ => eq_refl) _ (replace_or_ok pipe_bnf bnf_lines) fuel h2 r2
      (reach h2 r2) r3 h3 G2 (reach_refl h2 r2) H3) as (G3 & L3 & _ & K3 & P3).
    destruct (pass_ok pipe_bnf bnf_lines no_or no_empty nothing no_empty_or (fun _ => eq_refl) (fun _ => eq_refl) _ (replace_empty_ok pipe_bnf bnf_lines) fuel h3 r3
      (reach h3 r3) r4 h4 G3 (reach_refl h3 r3) H4) as (G4 & L4 & _ & K4 & P4).
    destruct (pass_ok pipe_bnf bnf_lines no_empty no_empty nothing (fun _ e => e) (fun _ => eq_refl) (fun _ => eq_refl) _ (fun n0 G => flatten_ok pipe_bnf bnf_lines n0 G fuel) fuel h4 r4
      (reach h4 r4) r h' G4 (reach_refl h4 r4) H5) as (G5 & L5 & _ & K5 & P5).
    split; [exact G5|]. split.
    { eapply like2_trans; [exact L1|]. eapply like2_trans; [exact L2|]. eapply like2_trans; [exact L3|]. eapply like2_trans; [exact L4|exact L5]. }
    split; [|intros p o E F; auto 10].
    intros o E. destruct (P1 o E) as (o1 & E1 & Q1). destruct (P2 o1 E1) as (o2 & E2 & Q2). destruct (P3 o2 E2) as (o3 & E3 & Q3).
    destruct (P4 o3 E3) as (o4 & E4 & Q4). destruct (P5 o4 E4) as (o5 & E5 & Q5). exists o5. split; [exact E5|congruence].
  Qed.
End Normalized.
