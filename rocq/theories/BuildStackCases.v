(** rule('a').repeatable(max=n): how much stack building its parser takes. *)
From Coq Require Import Lia.
From Verif Require Import Base TokenModel EarleyModel PredicateModel PredicateCases PipelineModel PipelineSpec PipelineTheorems Cases RuleModel RuleSpec RuleBuild RuleTheorems RuleUsableSpec RuleUsableBnf RuleTotal GrammarModel GrammarProofs RuleCases
  BuildStackModel BuildStackProofs BuildStackChain.
Import String.StringSyntax.
Open Scope nat_scope.

(** rule(word).repeatable(max=n) *)
Definition up_to (word : str) (n : nat) : rule_heap := program [CRule [Plain (TPred (PEq word))]; CRepeatable 1 None (Some (Z.of_nat n)) false].
Lemma up_to_objects word n : 1 <= n -> up_to word n = [OProd [TPred (PEq word)] 0; ORule [0]; OMax 1 n false].
Proof.
  intros L. assert (R : repeatable 1 None (Some (Z.of_nat n)) false = Ok (OMax (pred := predicate) (pipe := pipeline) (bnf := pipeline_bnf) 1 n false)).
  { unfold repeatable, truthy, assert_greater_equals. destruct (Z.eqb_spec (Z.of_nat n) 0); [lia|]. destruct (Z.ltb_spec (Z.of_nat n) 1); [lia|]. cbn [bind]. rewrite Nat2Z.id. reflexivity. }
  unfold up_to, program. cbn [fold_left]. unfold after_call at 1. unfold run_call. rewrite R. reflexivity.
Qed.
Lemma up_to_built word n : built (up_to word n) /\ (1 <= n -> is_rule_at (up_to word n) 2).
Proof. split; [apply program_built; reflexivity|]. intros L. rewrite up_to_objects by exact L. apply is_rule_atb_true. reflexivity. Qed.
(** With a stack that is deep enough it gives a parser. *)
Lemma up_to_parser U set_order c word n : 1 <= n -> exists g enough, forall fuel, enough <= fuel -> parser_grammar U set_order c fuel (up_to word n) 2 = Some (Ok g).
Proof.
  intros L. destruct (up_to_built word n) as [B R]. apply construction_succeeds; [exact B| |exact (R L)|].
  - rewrite up_to_objects by exact L. intros p o ch oc _ E Q Hc Ec. destruct p as [|[|[|p]]]; cbn in E; [injection E as <-; discriminate|injection E as <-; discriminate|injection E as <-; destruct Hc as [<-|[]]; injection Ec as <-; reflexivity|destruct p; discriminate].
  - rewrite up_to_objects by exact L. intros p o _ E. destruct p as [|[|[|p]]]; cbn in E; [injection E as <-|injection E as <-; exact I|injection E as <-; exact I|destruct p; discriminate].
    intros x [Hx|[]]. injection Hx as <-. exists (PEq word). reflexivity.
Qed.
Lemma up_to_needs comp U set_order c word n fuel limit g : 1 <= n -> parser_grammar_within comp U set_order c fuel limit (up_to word n) 2 = Some (Ok g) -> (10 + 4 * comp) * (n - 1) <= limit.
Proof.
  intros L E. rewrite up_to_objects in E by exact L. unfold parser_grammar_within in E. apply then_ok in E as (r & E & _). exact (max_needs comp _ _ _ _ _ n fuel limit r L E).
Qed.
Lemma up_to_too_deep U set_order c word comp limit n : limit < (10 + 4 * comp) * (n - 1) ->
  exists g enough, forall fuel, enough <= fuel -> parser_grammar U set_order c fuel (up_to word n) 2 = Some (Ok g) /\ parser_grammar_within comp U set_order c fuel limit (up_to word n) 2 = None.
Proof.
  intros HL. assert (L : 1 <= n) by (destruct n; lia). destruct (up_to_parser U set_order c word n L) as (g & f0 & E). exists g, f0. intros fuel F. split; [apply E, F|].
  destruct (parser_grammar_within comp U set_order c fuel limit (up_to word n) 2) as [x|] eqn:W; [|reflexivity]. pose proof (grammar_same _ _ _ _ _ _ _ _ _ W) as S. rewrite (E fuel F) in S. injection S as <-. pose proof (up_to_needs _ _ _ _ _ _ _ _ _ L W). lia.
Qed.
Lemma building_refuted : exists U set_order c, forall comp limit, exists h root, built h /\ is_rule_at h root /\
  exists g enough, forall fuel, enough <= fuel -> parser_grammar U set_order c fuel h root = Some (Ok g) /\ parser_grammar_within comp U set_order c fuel limit h root = None.
Proof.
  exists ASCII, first_seen, small_context. intros comp limit. exists (up_to (str_of "a") (limit + 2)), 2. destruct (up_to_built (str_of "a") (limit + 2)) as [B R]. split; [exact B|]. split; [apply R; lia|]. apply up_to_too_deep. nia.
Qed.
Lemma enough_stack comp U set_order c (h : rule_heap) root : built h -> is_rule_at h root ->
  exists limit0 enough, forall limit fuel, limit0 <= limit -> enough <= fuel -> parser_grammar_within comp U set_order c fuel limit h root = parser_grammar U set_order c fuel h root.
Proof.
  intros B R. destruct (construction_ends U set_order c h root B R) as (x & f0 & E). destruct (grammar_ev comp U set_order c f0 h root) as [L EL]. exists L, f0. intros limit fuel HL HF. rewrite (E fuel HF).
  apply (grammar_le comp U set_order c h root f0 fuel L limit); [exact HF|exact HL|]. rewrite EL by lia. apply E. lia.
Qed.
Lemma same_and_more comp U set_order c (h : rule_heap) root fuel limit x : parser_grammar_within comp U set_order c fuel limit h root = Some x ->
  parser_grammar U set_order c fuel h root = Some x /\ forall limit', limit <= limit' -> parser_grammar_within comp U set_order c fuel limit' h root = Some x.
Proof. intros E. split; [exact (grammar_same comp U set_order c fuel h root limit x E)|]. intros limit' L. exact (grammar_le comp U set_order c h root fuel fuel limit limit' x (le_n _) L E). Qed.
(** Whether the parser of rule('a').repeatable(max=n) is built within the limit. *)
Definition builds (comp limit : nat) (n : nat) : bool :=
  match parser_rule_within comp (pipeline_as_bnf ASCII first_seen) b_productions (activate small_context) (activate_pipeline small_context) 3000 limit (up_to (str_of "a") n) 2 with Some (Ok _) => true | _ => false end.
