(** Properties of rules whose parses end (C09, C72). *)
From Coq Require String.
From Verif Require Import Base EarleyModel EarleySpec PredicateModel PredicateCases PipelineModel PipelineSpec PipelineTheorems RuleModel RuleSpec RuleBuild GrammarModel TextModel Cases RuleCases
  RuleAgainSpec RuleAgainCases RuleLoopSpec LoopTheorems LoopCases.
Import String.StringSyntax.
Open Scope nat_scope.

(** ** C72 *)
Theorem parsing_ends_for_rules_without_loops :
  forall U set_order c, set_iteration set_order -> forall rel h root text, built h -> is_rule_at h root -> loop_free h root ->
  ends (fun fuel => parser_findall U set_order c rel fuel h root text) /\ ends (fun fuel => parser_find U set_order c rel fuel h root text) /\
  ends (fun fuel => parser_match U set_order c rel fuel h root text) /\ forall all, ends (fun fuel => parser_extract U set_order c rel fuel h root text all).
Proof. exact loop_free_ends. Qed.
Print Assumptions parsing_ends_for_rules_without_loops.
(** Without forward rules only the repetitions have to be looked at. *)
Theorem plain_rules_without_empty_repetitions_have_no_loops :
  forall (h : rule_heap) root, built h -> plain_rule h root ->
  (forall p o r, reach h root p -> nth_error h p = Some o -> repeated o r -> ~ can_be_empty h r) -> loop_free h root.
Proof. exact plain_loop_free. Qed.
Print Assumptions plain_rules_without_empty_repetitions_have_no_loops.
Theorem grammars_of_rules_without_loops :
  forall U set_order c, set_iteration set_order -> forall fuel h root g, built h -> is_rule_at h root -> loop_free h root ->
  parser_grammar U set_order c fuel h root = Some (Ok g) -> acyclic g.
Proof. exact loop_free_acyclic. Qed.
Print Assumptions grammars_of_rules_without_loops.

(** rule(expr, rule(';').optional()).repeatable(), where expr is defined by itself. *)
Example lines_case :
  built lines_heap /\ is_rule_at lines_heap 14 /\ loop_free lines_heap 14 /\ reach lines_heap 14 0 /\ reach lines_heap 8 0 /\ can_be_empty lines_heap 11 /\ may_be_just lines_heap 12 0 /\
  found_in small_context lines_heap 14 (str_of "x; x+x x; +") = Some (Ok [((0, 7), (0%Z, 9%Z))]).
Proof.
  destruct lines_loop_free as (B & R & L). split; [exact B|]. split; [exact R|]. split; [exact L|].
  split; [apply lines_reach|]. split; [apply lines_reach|]. split; [apply lines_parts|]. split; [apply lines_parts|]. vm_compute. reflexivity.
Qed.
(** A rule without forward rules: rule('a', rule('b').optional()).repeatable(). *)
Example plain_lines_case :
  let h := program [CRule [W "b"]; COptional 1 false; CRule [W "a"; R 2]; CRepeatable 4 None None false] in
  built h /\ plain_rule h 5 /\ is_rule_at h 5 /\ loop_free h 5 /\ nth_error h 5 = Some (ORepeatable 4 false) /\
  found_in small_context h 5 (str_of "a b a a b") = Some (Ok [((0, 5), (0%Z, 9%Z))]).
Proof.
  split; [apply program_built; reflexivity|]. split; [apply plain_ruleb_true; vm_compute; reflexivity|]. split; [apply is_rule_atb_true; vm_compute; reflexivity|].
  split; [apply (loop_freeb_true _ (fun p => p)); vm_compute; reflexivity|]. split; vm_compute; reflexivity.
Qed.

(** ** C09: false of the code. *)
(** rule(rule('a').optional(), rule('b').optional()).repeatable() on the text a. *)
Theorem parser_always_returns_refuted :
  exists U set_order c h root text, set_iteration set_order /\ built h /\ flat h root /\ is_rule_at h root /\ plain_rule h root /\
  (exists g, parser_grammar U set_order c 50 h root = Some (Ok g)) /\
  forall rel, never_ends (fun fuel => parser_findall U set_order c rel fuel h root text) /\ never_ends (fun fuel => parser_match U set_order c rel fuel h root text).
Proof. exact loops_refute. Qed.
Print Assumptions parser_always_returns_refuted.
(** f = forward(); f.define(or_(rule(f), rule('a'))) on the text a. *)
Theorem parser_returns_without_repetitions_refuted :
  exists U set_order c h root text, set_iteration set_order /\ built h /\ flat h root /\ is_rule_at h root /\
  (forall p o r, reach h root p -> nth_error h p = Some o -> ~ repeated o r) /\
  (exists g, parser_grammar U set_order c 50 h root = Some (Ok g)) /\
  forall rel, never_ends (fun fuel => parser_findall U set_order c rel fuel h root text) /\ never_ends (fun fuel => parser_match U set_order c rel fuel h root text).
Proof. exact self_refute. Qed.
Print Assumptions parser_returns_without_repetitions_refuted.
(** The rules. *)
Example looping_rules :
  optionals_heap = program [CRule [W "a"]; CRule [W "b"]; COptional 1 false; COptional 3 false; CRule [R 4; R 5]; CRepeatable 7 None None false] /\
  self_heap = program [CForward; CRule [R 0]; CRule [W "a"]; COr [2; 4]; CDefine 0 5] /\
  can_be_empty optionals_heap 7 /\ may_be_just self_heap 0 5 /\ may_be_just self_heap 5 2 /\ may_be_just self_heap 2 1 /\ may_be_just self_heap 1 0.
Proof. exact looping_parts. Qed.
