(** Rules keyed by their address (C29). *)
From Coq Require String.
From Verif Require Import Base TokenModel EarleyModel PredicateModel PipelineModel PipelineSpec PipelineTheorems PredicateCases ParserModel
  RuleModel RuleSpec RuleBuild GrammarModel GrammarSpec RuleTheorems RuleCases RuleAddr RuleAddrProofs.
Open Scope nat_scope.

(** ** C29: false of the code.  Temporary rules made for nested quantifiers are forgotten
    but their ids stay in the dictionary:
    rule(a.repeatable().repeatable(), b.repeatable().repeatable()) becomes
    rule(a.repeatable(), a.repeatable()) when the second temporary gets the address of the
    first. *)
Theorem nested_rules_are_not_confused_refuted :
  exists addr U set_order c fuel h root g s toks i j,
    set_iteration set_order /\ built h /\ is_rule_at h root /\ activate_rule c fuel h root = Some (Ok (root, h)) /\
    reuses_when_gone addr (length h) squash_method fuel h root /\
    parser_grammar_at addr U set_order c fuel h root = Some (Ok g) /\
    rule_accepts U set_order c h root toks i j /\ i < j /\ findall (accepts U) narrow (fun _ _ _ => true) g fuel toks = Some (Ok (s, [])).
Proof. exact temporaries_refute. Qed.
Print Assumptions nested_rules_are_not_confused_refuted.
(** The same without nested quantifiers: the replaced definition of a forward rule is
    forgotten, and the alternatives made for a repetition get its address. *)
Theorem forward_rules_are_not_confused_refuted :
  exists addr U set_order c fuel h root r1 h1 g s toks i j,
    set_iteration set_order /\ built h /\ flat h root /\ is_rule_at h root /\ activate_rule c fuel h root = Some (Ok (root, h)) /\
    run_visit_at addr squash_method fuel h root = Some (Ok (r1, h1)) /\
    reuses_when_gone addr (length h) replace_extended_method fuel h1 r1 /\
    parser_grammar_at addr U set_order c fuel h root = Some (Ok g) /\
    rule_accepts U set_order c h root toks i j /\ i < j /\ findall (accepts U) narrow (fun _ _ _ => true) g fuel toks = Some (Ok (s, [])).
Proof. exact definitions_refute. Qed.
Print Assumptions forward_rules_are_not_confused_refuted.
(** If no address is given out twice, nothing is confused: the grammar is the one all
    other theorems are about. *)
Theorem rules_are_not_confused_partial :
  forall addr, (forall p q, addr p = addr q -> p = q) ->
  forall U set_order c fuel h root, parser_grammar_at addr U set_order c fuel h root = parser_grammar U set_order c fuel h root.
Proof. exact grammar_same. Qed.
Print Assumptions rules_are_not_confused_partial.

Example addresses_case :
  ranges_at (fun p => 2 * p) forwards_heap 10 tokens_a_b = Some (Ok [(0, 2)]) /\ ranges_at definition_reused forwards_heap 10 tokens_a_b = Some (Ok []) /\
  ranges_at definition_reused forwards_heap 10 [nth 0 tokens_a_b (mkToken [] 0 0 [] None None); nth 0 tokens_a_b (mkToken [] 0 0 [] None None)] = Some (Ok [(0, 2)]).
Proof. repeat split; vm_compute; reflexivity. Qed.
