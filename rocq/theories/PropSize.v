(** Properties of the number of states of the chart (C86). *)
From Coq Require String.
From Verif Require Import Base TokenModel EarleyModel EarleySpec PredicateModel PredicateCases PipelineModel PipelineSpec PipelineTheorems ParserModel RuleModel RuleSpec RuleBuild RuleNestSpec RuleLoopSpec GrammarModel TextModel Cases RuleCases
  SizeSpec SizeProofs SizeUnique SizeRules SizeCases.
Import String.StringSyntax.
Open Scope nat_scope.

(** ** C86 *)
(** or_(rule('a'), rule('a', 'a')).repeatable(): for all a and k there is a text of n tokens with more than a * n ^ k matches. *)
Theorem parsing_is_polynomial_refuted :
  exists U set_order c h root, set_iteration set_order /\ built h /\ is_rule_at h root /\ harmless h root /\ loop_free h root /\
  forall rel a k, exists text toks fuel0, text_tokens c text = Some (Ok toks) /\
  forall fuel, fuel0 <= fuel -> exists ms s, parser_extract U set_order c rel fuel h root text true = Some (Ok (ms, s, None)) /\ a * length toks ^ k < length ms.
Proof. exact chart_explodes. Qed.
Print Assumptions parsing_is_polynomial_refuted.
Example exploding_rule :
  map (extracted pairs_program 5) [0; 1; 2; 3; 4; 5; 6; 7] = map Some [1; 4; 10; 21; 40; 72; 125; 212] /\
  map (last_column pairs_program 5) [0; 1; 2; 3; 4; 5; 6; 7] = map Some [8; 12; 15; 20; 28; 41; 62; 96].
Proof. split; vm_compute; reflexivity. Qed.

(** Every rule, also one with loops: b and p depend on the rule only.  [cols st k] are the states of
    column k, [fresh st] is the number of all states and nodes ever made. *)
Theorem parsing_is_polynomial_partial :
  forall U set_order c, set_iteration set_order -> forall fuel h root g, built h -> is_rule_at h root -> parser_grammar U set_order c fuel h root = Some (Ok g) ->
  exists b p, forall toks f m all, 1 <= f -> few_forms f toks -> readings (accepts U) g toks m ->
  let n := S (length toks) in let column := m * (b * n) in
  forall fuel, 2 * column + 1 <= fuel -> exists st, chart (accepts U) narrow g toks fuel all = Some st /\
  (forall k, k < n -> length (cols st k) <= column) /\ fresh st <= n * (f * p + column * (f * p + column + 2)).
Proof. exact rule_chart_bounded. Qed.
Print Assumptions parsing_is_polynomial_partial.
(** Any grammar and any predicates; the numbers are those of the grammar. *)
Theorem states_of_a_column_partial :
  forall token pred accepts constrain (g : grammar token pred) rules toks m p all, finite_grammar g rules -> predict_sound g -> alternatives g toks p -> readings accepts g toks m ->
  let b := m * (places g rules * S (length toks)) in
  forall fuel, 2 * b + 1 <= fuel -> exists st, chart accepts constrain g toks fuel all = Some st /\
  (forall k, k <= length toks -> length (cols st k) <= m * (places g rules * S k)) /\ fresh st <= S (length toks) * (p + b * (p + b + 2)).
Proof. exact @chart_bounded. Qed.
Print Assumptions states_of_a_column_partial.

(** When there is one reading. *)
Theorem one_reading_of_every_piece :
  forall token pred (accepts : pred -> token -> bool) (g : grammar token pred) toks width, widths g width -> one_open g width -> exclusive accepts g toks -> readings accepts g toks 1.
Proof. exact @one_reading. Qed.
Print Assumptions one_reading_of_every_piece.
(** rule('a', 'b').repeatable() *)
Example couples_case :
  exists U set_order c fuel h root g width, set_iteration set_order /\ built h /\ is_rule_at h root /\ parser_grammar U set_order c fuel h root = Some (Ok g) /\
  widths g width /\ one_open g width /\ (forall toks, exclusive (accepts U) g toks) /\
  exists toks d, length toks = 8 /\ derives (accepts U) g toks (TRule (g_start g)) 0 8 d.
Proof. exact couples_once. Qed.
Example couples_read_once : forall toks, readings (accepts ASCII) couples_grammar toks 1.
Proof. intros toks. exact (one_reading (accepts ASCII) couples_grammar toks couples_width couples_widths couples_open (couples_exclusive toks)). Qed.
(** rule('a').repeatable(): the columns grow by one state per token. *)
Example growing_columns : map (last_column many_program 2) [0; 1; 2; 3; 4; 5; 6; 7] = map Some [4; 5; 6; 7; 8; 9; 10; 11].
Proof. vm_compute. reflexivity. Qed.
