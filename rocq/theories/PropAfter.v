(** * C84: what follows in a text does not change what was found before it
    See PieceSpec for [shown] (range, span, tokens and derivation of a match), AfterSpec
    for [foreign] (a token no predicate of the rule accepts). *)
From Coq Require String.
From Verif Require Import Base TokenModel EarleyModel EarleySpec TokenizerModel TaggerModel PredicateModel PipelineModel PipelineSpec PipelineTheorems
  ParserModel RuleModel RuleSpec RuleBuild GrammarModel GrammarSpec RuleNestSpec TextModel PredicateCases Cases RuleCases SetOrderTheorems TextTheorems
  AbsentCases RuleAgainCases PieceSpec PieceCases IndexCases AfterSpec AfterTheorems AfterCases.
Import String.StringSyntax.
Open Scope nat_scope.

(** The tokens of the text [w] are those of [a] and others.  What extract yields for [a]
    comes first for [w]; if it raises for [a], it raises the same for [w] at the same place. *)
Theorem extract_begins_with_the_matches_of_the_beginning :
  forall U set_order c, set_iteration set_order -> forall rel fuel h root, built h -> harmless h root -> is_rule_at h root ->
  forall a w ts more, text_tokens c a = Some (Ok ts) -> text_tokens c w = Some (Ok (ts ++ more)) ->
  forall ms s e ms' s' e',
  parser_extract U set_order c rel fuel h root a true = Some (Ok (ms, s, e)) -> parser_extract U set_order c rel fuel h root w true = Some (Ok (ms', s', e')) ->
  match e with Some x => map shown ms' = map shown ms /\ s' = s /\ e' = Some x | None => exists rest, map shown ms' = map shown ms ++ rest end.
Proof. exact text_extract_after. Qed.
Print Assumptions extract_begins_with_the_matches_of_the_beginning.

(** findall: when nothing the rule accepts lies on both sides of the border, the matches
    of [a] come first, and all others are behind the border. *)
Theorem findall_begins_with_the_matches_of_the_beginning :
  forall U set_order c, set_iteration set_order -> forall rel fuel h root, built h -> harmless h root -> is_rule_at h root ->
  forall a w ts more, text_tokens c a = Some (Ok ts) -> text_tokens c w = Some (Ok (ts ++ more)) ->
  forall s ms s' ms', (forall i j, rule_accepts U set_order c h root (ts ++ more) i j -> j <= length ts \/ length ts <= i) ->
  parser_findall U set_order c rel fuel h root a = Some (Ok (s, ms)) -> parser_findall U set_order c rel fuel h root w = Some (Ok (s', ms')) ->
  exists first rest, ms' = first ++ rest /\ map shown first = map shown ms /\ forall x, In x rest -> length ts <= fst (m_range x).
Proof. exact text_findall_after. Qed.
Print Assumptions findall_begins_with_the_matches_of_the_beginning.
(** find: the match found in [a]. *)
Theorem find_finds_the_match_of_the_beginning :
  forall U set_order c, set_iteration set_order -> forall rel fuel h root, built h -> harmless h root -> is_rule_at h root ->
  forall a w ts more, text_tokens c a = Some (Ok ts) -> text_tokens c w = Some (Ok (ts ++ more)) ->
  forall s m s' m', (forall i j, rule_accepts U set_order c h root (ts ++ more) i j -> j <= length ts \/ length ts <= i) ->
  parser_find U set_order c rel fuel h root a = Some (Ok (s, Some m)) -> parser_find U set_order c rel fuel h root w = Some (Ok (s', m')) ->
  option_map shown m' = Some (shown m).
Proof. exact text_find_after. Qed.
Print Assumptions find_finds_the_match_of_the_beginning.

(** A token no predicate accepts is in nothing the rule accepts, so nothing crosses a
    border in front of it. *)
Theorem nothing_crosses_a_foreign_token :
  forall U set_order c h root, built h -> harmless h root -> is_rule_at h root ->
  forall t, foreign U set_order c h root t -> forall ts rest i j, rule_accepts U set_order c h root (ts ++ t :: rest) i j -> j <= length ts \/ length ts < i.
Proof. exact foreign_between. Qed.
Print Assumptions nothing_crosses_a_foreign_token.
Theorem findall_up_to_a_foreign_token :
  forall U set_order c, set_iteration set_order -> forall rel fuel h root, built h -> harmless h root -> is_rule_at h root ->
  forall a w ts t more, text_tokens c a = Some (Ok ts) -> text_tokens c w = Some (Ok (ts ++ t :: more)) -> foreign U set_order c h root t ->
  forall s ms s' ms', parser_findall U set_order c rel fuel h root a = Some (Ok (s, ms)) -> parser_findall U set_order c rel fuel h root w = Some (Ok (s', ms')) ->
  exists first rest, ms' = first ++ rest /\ map shown first = map shown ms /\ forall x, In x rest -> length ts <= fst (m_range x).
Proof. exact text_findall_foreign. Qed.
Print Assumptions findall_up_to_a_foreign_token.

(** A rule with an optional part that is completed too late. *)
Example continued_case :
  timely_program after_program 10 = false /\ continued after_program 10 (str_of "a x x") (str_of "a x x q a x y") /\
  extracted after_program 10 (str_of "a x x") = Some ([((0, 2), (0%Z, 3%Z)); ((0, 3), (0%Z, 5%Z))], None) /\
  found_in small_context (program after_program) 10 (str_of "a x x") = Some (Ok [((0, 3), (0%Z, 5%Z))]) /\
  found_in small_context (program after_program) 10 (str_of "a x x q a x y") = Some (Ok [((0, 3), (0%Z, 5%Z)); ((4, 7), (8%Z, 13%Z))]).
Proof. split; [vm_compute; reflexivity|]. split; [apply continued_true; vm_compute; auto|]. repeat split; vm_compute; reflexivity. Qed.
(** A dictionary. *)
Example continued_dictionary_case :
  continued metal_program 14 (str_of "steel x") (str_of "steel x q y") /\
  found_in small_context (program metal_program) 14 (str_of "steel x") = Some (Ok [((0, 2), (0%Z, 7%Z))]) /\
  found_in small_context (program metal_program) 14 (str_of "steel x q y") = Some (Ok [((0, 2), (0%Z, 7%Z)); ((3, 4), (10%Z, 11%Z))]).
Proof. split; [apply continued_true; vm_compute; auto|]. repeat split; vm_compute; reflexivity. Qed.
(** Without the border findall takes the longer match; extract reports both. *)
Example no_border_case :
  found_in small_context (program after_program) 10 (str_of "a x x y") = Some (Ok [((0, 4), (0%Z, 7%Z))]) /\
  extracted after_program 10 (str_of "a x x y") = Some ([((0, 2), (0%Z, 3%Z)); ((0, 3), (0%Z, 5%Z)); ((0, 4), (0%Z, 7%Z))], None).
Proof. repeat split; vm_compute; reflexivity. Qed.
(** The relation looks for forms the tokens do not have: the same exception at the same
    place. *)
Example continued_exception_case :
  continued related_program 10 (str_of "z x y") (str_of "z x y q z") /\
  extracted related_program 10 (str_of "z") = Some ([((0, 1), (0%Z, 1%Z))], None) /\
  extracted related_program 10 (str_of "z x y") = Some ([((0, 1), (0%Z, 1%Z))], Some AttributeError) /\
  extracted related_program 10 (str_of "z x y q z") = Some ([((0, 1), (0%Z, 1%Z))], Some AttributeError).
Proof. split; [apply continued_true; vm_compute; auto|]. repeat split; vm_compute; reflexivity. Qed.
