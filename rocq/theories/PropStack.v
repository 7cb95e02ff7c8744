(** Properties of parsers with a limited stack (C87). *)
From Coq Require String.
From Verif Require Import Base TokenModel EarleyModel EarleySpec PredicateModel PredicateCases PipelineModel PipelineSpec PipelineTheorems ParserModel RuleModel RuleSpec RuleBuild RuleNestSpec RuleLoopSpec GrammarModel TextModel Cases RuleCases
  SizeCases StackModel StackText StackSpec StackProofs StackTheorems StackCases.
Import String.StringSyntax.
Open Scope nat_scope.

(** ** C87 *)
(** rule('a').repeatable(): for every limit there is a text which is too deep, though with enough stack findall returns. *)
Theorem stack_is_never_exceeded_refuted :
  exists U set_order c h root, set_iteration set_order /\ built h /\ is_rule_at h root /\ harmless h root /\ loop_free h root /\
  forall comp limit rel, exists text fuel0, forall fuel, fuel0 <= fuel ->
  parser_findall_within U set_order c rel comp limit fuel h root text = Some TooDeep /\ exists r, parser_findall U set_order c rel fuel h root text = Some (Ok r).
Proof. exact stack_exceeded. Qed.
Print Assumptions stack_is_never_exceeded_refuted.
(** Python before 3.12 (a comprehension has its own frame), the default limit of 1000 frames: 251 letters. *)
Example too_many_letters : exists toks fuel0, text_tokens small_context (many 250) = Some (Ok toks) /\ length toks = 251 /\
  forall fuel, fuel0 <= fuel -> parser_findall_within ASCII first_seen small_context (fun _ _ _ => true) 1 1000 fuel (program many_program) 2 (many 250) = Some TooDeep /\
  exists r, parser_findall ASCII first_seen small_context (fun _ _ _ => true) fuel (program many_program) 2 (many 250) = Some (Ok r).
Proof. apply (many_too_deep 1 1000 (fun _ _ _ => true) 250). vm_compute. repeat constructor. Qed.
Example three_letters :
  found_within 1 13 2 = Some TooDeep /\ found_within 1 14 2 = Some (Returns (Ok [(0, 3)])) /\ found_within 0 10 2 = Some TooDeep /\ found_within 0 11 2 = Some (Returns (Ok [(0, 3)])).
Proof. repeat split; vm_compute; reflexivity. Qed.

(** Enough stack for a text: the number of frames needed grows at most like the number of tokens. *)
Theorem stack_is_never_exceeded_partial :
  forall U set_order c, set_iteration set_order -> forall comp (h : rule_heap) root, built h -> is_rule_at h root -> loop_free h root ->
  exists k fuel0, forall rel fuel text toks limit, fuel0 <= fuel -> text_tokens c text = Some (Ok toks) -> k * S (length toks) <= limit ->
  parser_findall_within U set_order c rel comp limit fuel h root text = option_map Returns (parser_findall U set_order c rel fuel h root text) /\
  parser_match_within U set_order c rel comp limit fuel h root text = option_map Returns (parser_match U set_order c rel fuel h root text).
Proof. exact rule_stack. Qed.
Print Assumptions stack_is_never_exceeded_partial.
Example letters_case : built (program many_program) /\ is_rule_at (program many_program) 2 /\ harmless (program many_program) 2 /\ loop_free (program many_program) 2.
Proof. exact many_built. Qed.

(** A rule that does not contain itself: one stack for all texts. *)
Theorem stack_of_nested_rules_partial :
  forall U set_order c, set_iteration set_order -> forall comp fuel (h : rule_heap) root g k, built h -> is_rule_at h root -> parser_grammar U set_order c fuel h root = Some (Ok g) -> nested_at_most g k ->
  forall rel text limit, (3 + comp) * k + 2 <= limit ->
  parser_findall_within U set_order c rel comp limit fuel h root text = option_map Returns (parser_findall U set_order c rel fuel h root text) /\
  parser_match_within U set_order c rel comp limit fuel h root text = option_map Returns (parser_match U set_order c rel fuel h root text).
Proof. exact nested_stack. Qed.
Print Assumptions stack_of_nested_rules_partial.
(** rule('a', 'b').repeatable(max=3) *)
Example three_pairs_case : built (program three_program) /\ is_rule_at (program three_program) 2 /\
  (forall n, parser_grammar ASCII first_seen small_context (100 + n) (program three_program) 2 = Some (Ok three_grammar)) /\ nested_at_most three_grammar 3.
Proof. destruct three_built as [B K]. split; [exact B|]. split; [exact K|]. split; [exact three_made|exact three_nested]. Qed.
Example three_pairs :
  three_within 1 14 (str_of "a b a b a b") = Some (Returns (Ok [(0, 6)])) /\ three_within 1 14 (str_of "a b a b a b a b a b") = Some (Returns (Ok [(0, 6); (6, 10)])) /\ three_within 1 13 (str_of "a b a b a b") = Some TooDeep.
Proof. repeat split; vm_compute; reflexivity. Qed.

(** Whatever the stack: too deep, or exactly the result of an unlimited stack. *)
Theorem stack_does_not_change_results :
  forall U set_order c comp (h : rule_heap) root rel fuel text limit,
  (forall x, parser_findall_within U set_order c rel comp limit fuel h root text = Some x -> x = TooDeep \/ exists r, x = Returns r /\ parser_findall U set_order c rel fuel h root text = Some r) /\
  (forall x, parser_match_within U set_order c rel comp limit fuel h root text = Some x -> x = TooDeep \/ exists r, x = Returns r /\ parser_match U set_order c rel fuel h root text = Some r).
Proof. exact stack_or_same. Qed.
Print Assumptions stack_does_not_change_results.

(** The same for find and extract: extract yields its matches one by one, so those before the tree that is too deep are given. *)
Theorem stack_for_find_and_extract_partial :
  forall U set_order c, set_iteration set_order -> forall comp (h : rule_heap) root, built h -> is_rule_at h root -> loop_free h root ->
  exists k fuel0, forall rel fuel text toks limit, fuel0 <= fuel -> text_tokens c text = Some (Ok toks) -> k * S (length toks) <= limit ->
  parser_find_within U set_order c rel comp limit fuel h root text = option_map Returns (parser_find U set_order c rel fuel h root text) /\
  forall all, parser_extract_within U set_order c rel comp limit fuel h root text all = option_map (fun r => Returns (let! x := r in Ok (unlimited x))) (parser_extract U set_order c rel fuel h root text all).
Proof. exact rule_stack_others. Qed.
Print Assumptions stack_for_find_and_extract_partial.
Theorem nested_stack_for_find_and_extract_partial :
  forall U set_order c, set_iteration set_order -> forall comp fuel (h : rule_heap) root g k, built h -> is_rule_at h root -> parser_grammar U set_order c fuel h root = Some (Ok g) -> nested_at_most g k ->
  forall rel text limit, (3 + comp) * k + 2 <= limit ->
  parser_find_within U set_order c rel comp limit fuel h root text = option_map Returns (parser_find U set_order c rel fuel h root text) /\
  forall all, parser_extract_within U set_order c rel comp limit fuel h root text all = option_map (fun r => Returns (let! x := r in Ok (unlimited x))) (parser_extract U set_order c rel fuel h root text all).
Proof. exact nested_stack_others. Qed.
Print Assumptions nested_stack_for_find_and_extract_partial.
Theorem stack_does_not_change_find_and_extract :
  forall U set_order c comp (h : rule_heap) root rel fuel text limit,
  (forall x, parser_find_within U set_order c rel comp limit fuel h root text = Some x -> x = TooDeep \/ exists r, x = Returns r /\ parser_find U set_order c rel fuel h root text = Some r) /\
  (forall all x, parser_extract_within U set_order c rel comp limit fuel h root text all = Some x -> exists r, parser_extract U set_order c rel fuel h root text all = Some r /\
    ((exists found, r = Ok found /\ x = Returns (Ok (unlimited found))) \/ (exists e, r = Err e /\ x = Returns (Err e)) \/
     exists found rest s s' e, x = Returns (Ok (found, s, OutOfStack)) /\ r = Ok (found ++ rest, s', e))).
Proof. exact stack_or_same_others. Qed.
Print Assumptions stack_does_not_change_find_and_extract.
Example extract_three_letters :
  extracted_within 1 13 2 = Some (Returns (Ok ([(0, 1); (1, 2); (0, 2); (2, 3); (1, 3)], OutOfStack))) /\ extracted_within 1 14 2 = Some (Returns (Ok ([(0, 1); (1, 2); (0, 2); (2, 3); (1, 3); (0, 3)], Exhausted))) /\
  extracted_within 1 5 2 = Some (Returns (Ok ([], OutOfStack))).
Proof. repeat split; vm_compute; reflexivity. Qed.
