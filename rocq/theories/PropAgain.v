(** Properties of rules used for several parsers (C25, C71). *)
From Coq Require String.
From Verif Require Import Base PredicateModel PredicateCases PipelineModel PipelineSpec PipelineTheorems RuleModel RuleSpec RuleBuild GrammarModel TextModel Cases RuleCases SetOrderTheorems RuleCopySpec RuleCopy RuleAgainSpec RuleAgain RuleAgainCases.
Import String.StringSyntax.
Open Scope nat_scope.

(** ** C25 *)
(** Rules without forward rules. *)
Theorem rule_can_be_used_again :
  forall c h h' U set_order rel fuel root text, history c h h' -> plain_rule h root ->
  same_results U set_order c rel fuel h root h' root text.
Proof. exact history_results. Qed.
Print Assumptions rule_can_be_used_again.
(** With forward rules, each used once. *)
Theorem forwards_can_be_used_once :
  forall c h h' done U set_order rel fuel root text, built h -> constructed c h done h' -> is_rule_at h root -> own_forwards h done root ->
  same_results U set_order c rel fuel h root h' root text.
Proof. exact constructed_results. Qed.
Print Assumptions forwards_can_be_used_once.
(** With another tokenizer the second parser keeps the predicates of the first. *)
Theorem rule_can_be_used_with_other_tokenizers_refuted :
  exists U set_order c c' rel fuel h root r h1 text,
  set_iteration set_order /\ built h /\ plain_rule h root /\ is_rule_at h root /\ build_rule U set_order c fuel h root = Some (Ok (r, h1)) /\
  ~ same_results U set_order c' rel fuel h root h1 root text.
Proof. exact tokenizers_refute. Qed.
Print Assumptions rule_can_be_used_with_other_tokenizers_refuted.

(** A parser from a rule with a quantifier and a dictionary predicate, then one from a rule
    made of it. *)
Example used_again_case :
  history russian pair_heap pair_heap3 /\ plain_rule pair_heap 5 /\ length pair_heap < length pair_heap1 < length pair_heap3 /\ nth_error pair_heap 3 <> nth_error pair_heap3 3 /\
  found_in russian pair_heap 5 (str_of "x x x " ++ verb_word) = Some (Ok [((1, 4), (2%Z, 11%Z))]) /\
  found_in russian pair_heap3 5 (str_of "x x x " ++ verb_word) = Some (Ok [((1, 4), (2%Z, 11%Z))]).
Proof.
  split; [exact pair_history|]. split; [apply plain_ruleb_true; vm_compute; reflexivity|]. split; [vm_compute; lia|]. split; [vm_compute; discriminate|]. split; vm_compute; reflexivity.
Qed.
(** The rule of expressions, and another recursive rule with the same leaf. *)
Example used_once_case :
  built twins_heap /\ constructed small_context twins_heap [0] twins_heap1 /\ is_rule_at twins_heap 9 /\ own_forwards twins_heap [0] 9 /\ reach twins_heap 0 2 /\ reach twins_heap 9 2 /\
  found_in small_context twins_heap1 9 (str_of "x + [[x]]") = Some (Ok [((0, 1), (0%Z, 1%Z)); ((2, 7), (4%Z, 9%Z))]).
Proof.
  split; [apply (program_built twins_program); reflexivity|]. split; [exact twins_constructed|]. split; [apply is_rule_atb_true; reflexivity|]. split; [apply own_forwardsb_true; vm_compute; reflexivity|].
  split; [apply parts_all; [reflexivity|vm_compute; auto 20]|]. split; [apply parts_all; [reflexivity|vm_compute; auto 20]|]. vm_compute. reflexivity.
Qed.

(** ** C71 *)
Theorem parser_depends_on_the_structure_of_the_rule :
  forall U set_order c rel fuel h root h' root' text, same_rule h root h' root' -> same_results U set_order c rel fuel h root h' root' text.
Proof. exact same_rule_results. Qed.
Print Assumptions parser_depends_on_the_structure_of_the_rule.

(** The rule of expressions made after two other objects. *)
Example same_structure_case :
  let h := program expr_program in
  let h' := program (CRule [W "z"] :: [CForward; CRule [W "x"]; CRule [W "("; R 2; W ")"]; COr [4; 6]; CRule [R 2; W "+"; R 7]; COr [7; 9]; CDefine 2 10]) in
  same_rule h 0 h' 2 /\ h <> h' /\ found_in small_context h' 2 (str_of "x + (x)") = Some (Ok [((0, 5), (0%Z, 7%Z))]).
Proof.
  split; [apply (same_rule_later 2); [reflexivity|vm_compute; repeat split; eexists; split; reflexivity]|]. split; [vm_compute; discriminate|]. vm_compute. reflexivity.
Qed.
