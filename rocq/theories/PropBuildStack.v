(** Theorems about Python's stack when a parser is built. *)
From Coq Require Import String.
From Verif Require Import Base TokenModel EarleyModel PredicateModel PredicateCases PipelineModel PipelineSpec PipelineTheorems Cases RuleModel RuleSpec RuleBuild GrammarModel RuleCases BuildStackModel BuildStackProofs BuildStackCases.
Import String.StringSyntax.
Open Scope nat_scope.

(** ** C94 *)
(** Whatever the limit, there is a rule too deep for it, though with enough stack its parser is built: rule('a').repeatable(max=n) for a large n. *)
Theorem building_fits_on_the_stack_refuted :
  exists U set_order c, forall comp limit, exists h root, built h /\ is_rule_at h root /\
  exists g enough, forall fuel, enough <= fuel -> parser_grammar U set_order c fuel h root = Some (Ok g) /\ parser_grammar_within comp U set_order c fuel limit h root = None.
Proof. exact building_refuted. Qed.
Print Assumptions building_fits_on_the_stack_refuted.
(** Each repetition that max allows takes 14 frames (10 since Python 3.12), whatever the word, tokenizer and tagger. *)
Theorem repeatable_max_takes_stack :
  forall comp U set_order c word n fuel limit g, 1 <= n ->
  parser_grammar_within comp U set_order c fuel limit (up_to word n) 2 = Some (Ok g) -> (10 + 4 * comp) * (n - 1) <= limit.
Proof. exact up_to_needs. Qed.
Print Assumptions repeatable_max_takes_stack.
Theorem large_max_does_not_build :
  forall U set_order c word comp limit n, limit < (10 + 4 * comp) * (n - 1) ->
  exists g enough, forall fuel, enough <= fuel -> parser_grammar U set_order c fuel (up_to word n) 2 = Some (Ok g) /\ parser_grammar_within comp U set_order c fuel limit (up_to word n) 2 = None.
Proof. exact up_to_too_deep. Qed.
Print Assumptions large_max_does_not_build.
(** Python before 3.12, the default limit of 1000 frames: max=72 builds, max=73 does not; since 3.12 max=100 does and max=102 does not. *)
Example large_max_case : builds 1 1000 72 = true /\ builds 1 1000 73 = false /\ builds 1 30 3 = true /\ builds 1 28 3 = false /\ builds 0 30 4 = false /\ builds 0 32 4 = true.
Proof. vm_compute. repeat split. Qed.
Example large_max_word : 1000 < (10 + 4 * 1) * (73 - 1) /\ 1000 < (10 + 4 * 0) * (102 - 1) /\ is_rule_at (up_to (str_of "a") 73) 2.
Proof. split; [|split]; [apply Nat.ltb_lt; reflexivity|apply Nat.ltb_lt; reflexivity|]. apply (proj2 (up_to_built (str_of "a") 73)). apply Nat.leb_le. reflexivity. Qed.

(** Every rule has a depth of its own: with that much stack its parser is built as if there were no limit, and no text is involved. *)
Theorem building_fits_on_the_stack_partial :
  forall comp U set_order c (h : rule_heap) root, built h -> is_rule_at h root ->
  exists limit0 enough, forall limit fuel, limit0 <= limit -> enough <= fuel -> parser_grammar_within comp U set_order c fuel limit h root = parser_grammar U set_order c fuel h root.
Proof. exact enough_stack. Qed.
Print Assumptions building_fits_on_the_stack_partial.
Example enough_stack_case : built (up_to (str_of "a") 3) /\ is_rule_at (up_to (str_of "a") 3) 2.
Proof. split; [apply up_to_built|]. apply (proj2 (up_to_built (str_of "a") 3)). apply Nat.leb_le. reflexivity. Qed.
(** The limit decides whether a parser is built, not which, and a deeper stack never hurts. *)
Theorem stack_does_not_change_what_is_built :
  forall comp U set_order c (h : rule_heap) root fuel limit x, parser_grammar_within comp U set_order c fuel limit h root = Some x ->
  parser_grammar U set_order c fuel h root = Some x /\ forall limit', limit <= limit' -> parser_grammar_within comp U set_order c fuel limit' h root = Some x.
Proof. exact same_and_more. Qed.
Print Assumptions stack_does_not_change_what_is_built.
Example stack_does_not_change_case : exists g, parser_grammar_within 1 ASCII first_seen small_context 100 30 (up_to (str_of "a") 3) 2 = Some (Ok g).
Proof. unfold parser_grammar_within. eexists. vm_compute. reflexivity. Qed.
