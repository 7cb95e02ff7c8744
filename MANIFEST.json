{
 "claims": [
  {
   "property": "C01",
   "status": "proved",
   "theorems": [
    "findall_left_to_right",
    "findall_lists_matches_in_text_order",
    "findall_lists_matches_in_order_of_tagged_tokens"
   ],
   "note": "by token ranges for every grammar; by positions in the text for every tokenizer, and with a tagger if it keeps the order of the tokens (the example reversing_tagger shows that this is needed)"
  },
  {
   "property": "C02",
   "status": "proved",
   "theorems": [
    "findall_best_candidates",
    "findall_best_derivations",
    "findall_finds_the_best_accepted_text"
   ],
   "note": "candidates are the ranges of chart trees accepted when examined (any grammar); for grammars without relations and empty rules the candidates are exactly the derivable ranges"
  },
  {
   "property": "C03",
   "status": "proved",
   "theorems": [
    "findall_best_candidates",
    "findall_best_derivations",
    "findall_finds_the_best_accepted_text"
   ],
   "note": "best_ranges states coverage and the lexicographic choice"
  },
  {
   "property": "C04",
   "status": "proved",
   "theorems": [
    "trees_are_derivations",
    "match_from_tree",
    "findall_from_tree",
    "extract_from_tree"
   ],
   "note": ""
  },
  {
   "property": "C05",
   "status": "proved",
   "theorems": [
    "nonempty_parses_found"
   ],
   "note": ""
  },
  {
   "property": "C06",
   "status": "partial",
   "theorems": [
    "every_parse_found_refuted",
    "every_parse_found_partial",
    "empty_parts_behind_words_are_in_time",
    "grammars_without_empty_parts_are_in_time",
    "nonempty_parses_found"
   ],
   "note": "the full claim is false of the code: completion of an empty rule does not see items added later to the same column; proved for all derivations of grammars in which empty parts are completed in time (a bound on rounds of the work list that can be computed), and in any grammar for derivations without empty parts (C05)"
  },
  {
   "property": "C07",
   "status": "partial",
   "theorems": [
    "match_findall_agree_refuted",
    "match_trees_in_findall_partial",
    "match_findall_agree_partial",
    "match_findall_agree_with_optional_parts_partial",
    "whole_match_is_that_of_findall"
   ],
   "note": "false of the code with optional parts; proved for parses without empty parts, and as equality of the reported matches for grammars without relations in which empty parts are completed in time (C06)"
  },
  {
   "property": "C08",
   "status": "proved",
   "theorems": [
    "parsing_terminates",
    "parse_does_not_depend_on_fuel"
   ],
   "note": ""
  },
  {
   "property": "C09",
   "status": "partial",
   "theorems": [
    "parser_always_returns_refuted",
    "parser_returns_without_repetitions_refuted",
    "parsing_always_terminates_refuted",
    "left_unit_recursion_loops",
    "optional_pair_repeatable_loops",
    "parsing_terminates",
    "parsing_ends_for_rules_without_loops"
   ],
   "note": "false of the code: the chart loop runs forever for rules built with the library, on short texts, whatever the fuel; termination proved for acyclic grammars (C08) and for rules without loops (C72)"
  },
  {
   "property": "C10",
   "status": "proved",
   "theorems": [
    "no_parse_twice"
   ],
   "note": ""
  },
  {
   "property": "C11",
   "status": "proved",
   "theorems": [
    "comparison_total",
    "preference_strict",
    "preference_as_written"
   ],
   "note": ""
  },
  {
   "property": "C12",
   "status": "proved",
   "theorems": [
    "match_most_preferred",
    "match_best_derivation",
    "match_best_derivation_with_optional_parts"
   ],
   "note": ""
  },
  {
   "property": "C13",
   "status": "proved",
   "theorems": [
    "findall_best_candidates",
    "findall_best_derivations",
    "findall_best_derivations_with_optional_parts"
   ],
   "note": ""
  },
  {
   "property": "C14",
   "status": "proved",
   "theorems": [
    "match_tokens_are_the_text",
    "findall_tokens_are_the_text",
    "extract_tokens_are_the_text"
   ],
   "note": ""
  },
  {
   "property": "C15",
   "status": "partial",
   "theorems": [
    "empty_root_always_raises",
    "nullable_root_usable_refuted",
    "nonempty_root_never_raises"
   ],
   "note": "false of the code: ValueError on every text; proved: a root rule that cannot be empty never raises when every relation has its tokens"
  },
  {
   "property": "C16",
   "status": "partial",
   "theorems": [
    "lookup_finds_exactly_the_candidates",
    "lookup_keeps_the_order_of_lines",
    "grammars_with_pipelines_are_sound",
    "grammars_with_pipelines_are_complete",
    "lookup_keeps_parses",
    "lookup_keeps_parses_refuted",
    "lookup_does_not_change_parses_partial",
    "morph_lookup_order_refuted"
   ],
   "note": "soundness and completeness of the three lookups proved for all dictionaries and tokens; without morph_pipeline the lists of parses with and without the lookup are equal element by element (lookup_keeps_parses). False with a morph_pipeline: its lookup may yield a production twice and in set order, and with an optional part that changes the set of parses (lookup_keeps_parses_refuted); for morph pipelines the sets are proved equal for parses without empty parts"
  },
  {
   "property": "C17",
   "status": "proved",
   "theorems": [
    "match_accepts_exactly_the_dictionary",
    "findall_finds_dictionary_entries",
    "first_agreeing_line_is_used"
   ],
   "note": ""
  },
  {
   "property": "C18",
   "status": "partial",
   "theorems": [
    "blank_line_always_raises",
    "blank_line_works_refuted",
    "pipelines_are_accepted"
   ],
   "note": "false of the code: IndexError exactly when some line has no tokens"
  },
  {
   "property": "C19",
   "status": "proved",
   "theorems": [
    "optional_accepts_nothing_or_one",
    "repeatable_accepts_bounded_repetitions"
   ],
   "note": "for rules built by calls of the library whose Parser is built successfully; a bound of 0 counts as not given (C20)"
  },
  {
   "property": "C20",
   "status": "proved",
   "theorems": [
    "repeatable_checks_its_bounds",
    "repeatable_raises_nothing_else",
    "zero_bound_is_not_given"
   ],
   "note": ""
  },
  {
   "property": "C21",
   "status": "partial",
   "theorems": [
    "nested_quantifiers_compose_refuted",
    "optional_accepts_nothing_or_one",
    "repeatable_accepts_bounded_repetitions",
    "constructors_compose"
   ],
   "note": "false of the code: r.repeatable().repeatable(min=2) accepts one r. Proved for the nestings that do no harm (RuleNestSpec.v): quantifiers each satisfied by one occurrence put on each other, bounded repetitions put on each other, and optional() of these; nesting of the two sorts otherwise may lose bounds"
  },
  {
   "property": "C22",
   "status": "proved",
   "theorems": [
    "grammar_accepts_what_the_rule_accepts",
    "parses_spell_the_words_of_the_rule",
    "grammar_is_usable"
   ],
   "note": ""
  },
  {
   "property": "C23",
   "status": "partial",
   "theorems": [
    "attribute_stays_on_its_rule_refuted",
    "attributes_stay_on_their_rule",
    "rules_of_a_grammar_are_named"
   ],
   "note": "false of the code when the root of the parser is also the only child of a wrapper reached through a forward rule, or is x.repeatable(max=1); proved for all other roots (top not_once)"
  },
  {
   "property": "C24",
   "status": "partial",
   "theorems": [
    "forward_defined_by_any_rule_refuted",
    "parser_is_built_from_usable_rules",
    "define_rejects_only_forward_rules"
   ],
   "note": "false of the code: a definition that becomes a forward rule itself (x.repeatable()) raises ValueError in Parser; proved: with every other definition, and predicates and pipelines that can be activated, Parser is built"
  },
  {
   "property": "C25",
   "status": "partial",
   "theorems": [
    "rule_can_be_used_again",
    "forwards_can_be_used_once",
    "rule_can_be_used_again_refuted",
    "rule_can_be_used_with_other_tokenizers_refuted"
   ],
   "note": "proved for every history of parser constructions (same tokenizer and tagger) from rules without forward rules, and from rules in which no forward rule is used twice: every later parser gives the same results as if it were the first. False when a forward rule is used twice (the second parser loses names, interpretations and relations) and when the tokenizers differ (the predicates stay activated with the first one). Constructions that raise are not part of the histories"
  },
  {
   "property": "C26",
   "status": "proved",
   "theorems": [
    "rule_has_the_designated_main_term",
    "parses_spell_the_words_of_the_rule"
   ],
   "note": "the second theorem covers normalisation and BNF: the head of each word is kept"
  },
  {
   "property": "C27",
   "status": "proved",
   "theorems": [
    "quantifier_choices_are_ordered",
    "optional_orders_its_choices",
    "repeatable_orders_its_choices"
   ],
   "note": ""
  },
  {
   "property": "C28",
   "status": "partial",
   "theorems": [
    "activated_rule_holds_no_scheme",
    "rule_with_unknown_name_is_rejected",
    "activation_leaves_no_scheme",
    "activation_is_idempotent",
    "activation_rejects_unknown_names",
    "unknown_tag_rejected_refuted",
    "tag_without_tagger_raises"
   ],
   "note": "proved for predicates and for whole rules except that unknown tags are never rejected (false of the code)"
  },
  {
   "property": "C29",
   "status": "partial",
   "theorems": [
    "nested_rules_are_not_confused_refuted",
    "forward_rules_are_not_confused_refuted",
    "rules_are_not_confused_partial"
   ],
   "note": "false of the code: temporaries and replaced definitions are freed while their ids stay in the dictionary; proved when no address is given out twice"
  },
  {
   "property": "C30",
   "status": "proved",
   "theorems": [
    "normalized_keeps_leaves",
    "normalized_changes_nothing_without_empty_nodes",
    "normalized_root_missing_iff_no_leaf"
   ],
   "note": ""
  },
  {
   "property": "C31",
   "status": "partial",
   "theorems": [
    "main_term_is_checked_refuted",
    "main_term_never_raises_refuted",
    "main_term_is_checked_partial"
   ],
   "note": "false of the code when an optional part before main(...) is absent; proved when the parts before the main term are non-empty"
  },
  {
   "property": "C32",
   "status": "proved",
   "theorems": [
    "interpreted_tree_is_condensed",
    "interpreted_tree_keeps_every_leaf",
    "only_interpreted_roots_are_interpreted",
    "visit_computes_the_condensed_tree"
   ],
   "note": ""
  },
  {
   "property": "C33",
   "status": "proved",
   "theorems": [
    "consistent_choice_is_accepted",
    "match_none_only_without_consistent_choice",
    "library_relations_respect_forms"
   ],
   "note": "relative to the token forms held by the leaves when the tree is examined (for match: the forms of the text)"
  },
  {
   "property": "C34",
   "status": "partial",
   "theorems": [
    "accepted_tokens_agree_refuted",
    "accepted_pair_agrees_partial",
    "accepted_group_agrees_partial",
    "case_agreement_of_declinable_words"
   ],
   "note": "false of the code when a token takes part in several relations; proved for isolated pairs and for relations that are equivalences on the forms"
  },
  {
   "property": "C35",
   "status": "proved",
   "theorems": [
    "relations_only_remove_forms"
   ],
   "note": ""
  },
  {
   "property": "C36",
   "status": "proved",
   "theorems": [
    "relations_are_symmetric",
    "gnc_is_conjunction",
    "relation_connectives"
   ],
   "note": ""
  },
  {
   "property": "C37",
   "status": "partial",
   "theorems": [
    "form_agrees_with_itself_refuted",
    "form_agrees_with_itself_partial"
   ],
   "note": "false of the code for common gender (Ms-f) and forms without number; exact characterisation proved"
  },
  {
   "property": "C38",
   "status": "partial",
   "theorems": [
    "matches_are_independent_refuted",
    "acceptance_is_independent_refuted",
    "matches_are_independent_partial"
   ],
   "note": "false of the code: leaves are shared between candidate trees and narrowed in place; proved when no leaf related in one candidate is part of a candidate with another range"
  },
  {
   "property": "C39",
   "status": "proved",
   "theorems": [
    "plain_attribute_default",
    "plain_attribute_last_value",
    "repeatable_attribute_all_values",
    "facts_list_attributes_in_declaration_order"
   ],
   "note": ""
  },
  {
   "property": "C40",
   "status": "partial",
   "theorems": [
    "merging_keeps_repeatable_values_refuted",
    "merged_plain_attribute_last_part",
    "merged_repeatable_attribute_partial"
   ],
   "note": "false of the code for repeatable attributes (the last part that sets one replaces the earlier values); the plain half is proved"
  },
  {
   "property": "C41",
   "status": "partial",
   "theorems": [
    "json_agrees_with_the_fact_refuted",
    "json_agrees_with_the_fact_partial",
    "facts_list_attributes_in_declaration_order"
   ],
   "note": "false of the code when a fact is passed through a user function or is a default; proved when user functions and defaults give values without facts"
  },
  {
   "property": "C42",
   "status": "partial",
   "theorems": [
    "fact_spans_never_raise_refuted",
    "fact_spans_are_spans_of_its_text_partial",
    "fact_spans_inside_the_match_partial"
   ],
   "note": "false of the code with const interpretations (AttributeError); proved for interpretations without const"
  },
  {
   "property": "C43",
   "status": "partial",
   "theorems": [
    "attribute_raises_iff_ambiguous",
    "normalizer_raises_if_ambiguous_partial",
    "normalizer_raises_iff_ambiguous_refuted",
    "const_never_raises",
    "facts_ignore_other_items"
   ],
   "note": "false of the code for normalized()/inflected() over a single item that is not a token (TypeError); the rest is proved"
  },
  {
   "property": "C44",
   "status": "proved",
   "theorems": [
    "custom_is_applied_last",
    "normalizer_custom_is_applied_last",
    "custom_twice_composes",
    "custom_keeps_the_attribute",
    "reinterpreting_replaces_the_attribute"
   ],
   "note": ""
  },
  {
   "property": "C45",
   "status": "proved",
   "theorems": [
    "attribute_value_is_the_joined_text",
    "joined_text_is_unique",
    "joined_text_is_the_source_text",
    "normalized_pipeline_part_is_the_line"
   ],
   "note": ""
  },
  {
   "property": "C46",
   "status": "proved",
   "theorems": [
    "tokens_are_slices_in_order",
    "tokenizing_terminates"
   ],
   "note": ""
  },
  {
   "property": "C47",
   "status": "proved",
   "theorems": [
    "default_loses_no_visible_character",
    "character_table_is_sane"
   ],
   "note": "assumes the stated facts about the Unicode tables (sane)"
  },
  {
   "property": "C48",
   "status": "proved",
   "theorems": [
    "default_tokens_are_maximal_and_typed",
    "character_table_is_sane"
   ],
   "note": "assumes the stated facts about the Unicode tables (sane)"
  },
  {
   "property": "C49",
   "status": "proved",
   "theorems": [
    "join_of_tokens",
    "join_of_default_tokens",
    "character_table_is_sane"
   ],
   "note": "assumes the stated facts about the Unicode tables (sane)"
  },
  {
   "property": "C50",
   "status": "proved",
   "theorems": [
    "add_rules_puts_them_first",
    "remove_types_removes_exactly",
    "remove_known_types_succeeds",
    "constructor_compiles_rules",
    "rules_are_tried_in_order"
   ],
   "note": "tokenizers are values in the model: that other tokenizers are unaffected holds by construction (the code builds a new list, tokenizer.py 64, 70-73)"
  },
  {
   "property": "C51",
   "status": "partial",
   "theorems": [
    "failed_call_changes_nothing_refuted",
    "failed_call_changes_nothing_partial"
   ],
   "note": "false of the code: self.rules is assigned before the pattern is compiled"
  },
  {
   "property": "C52",
   "status": "proved",
   "theorems": [
    "cache_is_transparent_and_bounded",
    "normal_forms_are_those_of_the_analyses"
   ],
   "note": "the analyzer is a function of the word; the returned lists are not mutated by callers"
  },
  {
   "property": "C53",
   "status": "proved",
   "theorems": [
    "predicates_mean_what_they_say",
    "caseless_compares_lowered",
    "in_caseless_compares_lowered",
    "dictionary_shares_a_normal_form",
    "normalized_shares_a_normal_form"
   ],
   "note": ""
  },
  {
   "property": "C54",
   "status": "partial",
   "theorems": [
    "gram_keeps_exactly_its_forms",
    "is_single_keeps_exactly_its_forms",
    "other_predicates_keep_the_token",
    "leaf_of_gram_carries_its_forms",
    "leaf_of_is_single_carries_its_forms",
    "bank_predicates_only_drop_forms",
    "constrain_returns_on_accepted_tokens",
    "composition_narrows_refuted"
   ],
   "note": "proved for gram and is_single; and_/or_/not_ compositions do not narrow (false of the code for them)"
  },
  {
   "property": "C55",
   "status": "proved",
   "theorems": [
    "morph_tokenizer_adds_forms_to_russian_words"
   ],
   "note": ""
  },
  {
   "property": "C56",
   "status": "proved",
   "theorems": [
    "taggers_compose_left_to_right",
    "tagging_keeps_the_token"
   ],
   "note": ""
  },
  {
   "property": "C57",
   "status": "partial",
   "theorems": [
    "names_do_not_clash_refuted",
    "rules_of_a_grammar_are_named",
    "generated_names_are_different"
   ],
   "note": "every rule is named, generated names are R0, R1, ... without repetition; false of the code: a generated name may equal a name given by the user"
  },
  {
   "property": "C58",
   "status": "proved",
   "theorems": [
    "dot_numbers_are_consistent",
    "dot_of_a_rule",
    "dot_of_a_tree",
    "drawing_a_rule_ends",
    "drawing_a_tree_ends"
   ],
   "note": "objects are identified by id; labels and styles are not modelled"
  },
  {
   "property": "C59",
   "status": "proved",
   "theorems": [
    "walk_visits_reachable_rules_once",
    "walk_over_rules_terminates"
   ],
   "note": ""
  },
  {
   "property": "C60",
   "status": "proved",
   "theorems": [
    "walk_visits_each_node_once_in_order",
    "walk_terminates",
    "walk_leaves_in_text_order",
    "breadth_first_walk_visits_level_by_level",
    "breadth_first_walk_terminates"
   ],
   "note": ""
  },
  {
   "property": "C61",
   "status": "partial",
   "theorems": [
    "equality_is_reflexive",
    "equality_is_symmetric",
    "equality_is_transitive",
    "equality_is_by_value",
    "inequality_is_by_value",
    "equal_hashes_refuted",
    "equal_hashes_partial",
    "what_can_be_hashed"
   ],
   "note": "equality is an equivalence; the hash part is false of the code: spans, tokens and rules cannot be hashed; equal values that can be hashed have equal hashes"
  },
  {
   "property": "C62",
   "status": "partial",
   "theorems": [
    "match_whole_text_refuted",
    "match_whole_text_partial",
    "start_rule_is_not_used",
    "accepted_text_is_matched",
    "accepted_text_is_matched_with_optional_parts",
    "match_of_a_repeated_rule_is_of_the_whole_text"
   ],
   "note": "false of the code for start rules used recursively; proved: the whole text is matched exactly if the rule accepts it, for every rule without relations; and nothing else is matched when the start rule occurs in no production, which is so for every rule that is not a part of itself and is not a forward, optional or repeated rule at the top (C101); and when the start rule is used only by itself as the last term, as in repeated rules (start_last)"
  },
  {
   "property": "C63",
   "status": "partial",
   "theorems": [
    "tokenizing_never_raises_refuted",
    "tokenizer_without_rules_raises",
    "rules_are_tried_in_order"
   ],
   "note": "false of the code when every rule was removed; with at least one rule it never raises"
  },
  {
   "property": "C64",
   "status": "proved",
   "theorems": [
    "find_is_the_first_match",
    "parser_find_is_the_first_match"
   ],
   "note": ""
  },
  {
   "property": "C65",
   "status": "proved",
   "theorems": [
    "findall_reports_accepted_text",
    "match_reports_accepted_text",
    "extract_reports_accepted_text",
    "tokens_spell_the_text",
    "tagger_is_given_the_tokens_of_the_text"
   ],
   "note": ""
  },
  {
   "property": "C66",
   "status": "proved",
   "theorems": [
    "findall_finds_the_best_accepted_text",
    "match_finds_accepted_text",
    "accepted_text_is_matched"
   ],
   "note": ""
  },
  {
   "property": "C67",
   "status": "proved",
   "theorems": [
    "earliest_alternatives_are_read",
    "earliest_alternatives_are_read_with_optional_parts",
    "earliest_alternatives_are_matched_with_optional_parts",
    "whole_match_is_the_earliest_reading"
   ],
   "note": ""
  },
  {
   "property": "C68",
   "status": "proved",
   "theorems": [
    "parser_construction_ends"
   ],
   "note": "with enough fuel the outcome is a grammar or an exception, always the same"
  },
  {
   "property": "C69",
   "status": "proved",
   "theorems": [
    "constructors_compose",
    "forward_accepts_its_definition"
   ],
   "note": ""
  },
  {
   "property": "C70",
   "status": "partial",
   "theorems": [
    "results_do_not_depend_on_set_order",
    "morph_results_do_not_depend_on_set_order_refuted"
   ],
   "note": "proved for every rule without a morph_pipeline (results equal, exceptions included). False for morph_pipeline: the lookup iterates a set of normal forms, so which line of the dictionary is reported for an ambiguous word depends on the hash seed"
  },
  {
   "property": "C71",
   "status": "proved",
   "theorems": [
    "parser_depends_on_the_structure_of_the_rule"
   ],
   "note": ""
  },
  {
   "property": "C72",
   "status": "proved",
   "theorems": [
    "parsing_ends_for_rules_without_loops",
    "plain_rules_without_empty_repetitions_have_no_loops",
    "grammars_of_rules_without_loops"
   ],
   "note": "a repetition applied directly to an optional rule counts as repeating something that can be empty, though the passes merge the two: such rules are outside the hypothesis"
  },
  {
   "property": "C73",
   "status": "proved",
   "theorems": [
    "words_are_normalized_or_inflected"
   ],
   "note": "the analyzer's answer to inflect is an arbitrary function; a token with an empty list of forms raises IndexError, which is stated"
  },
  {
   "property": "C74",
   "status": "partial",
   "theorems": [
    "hash_values_change_nothing",
    "hash_values_invent_nothing",
    "hash_values_lose_matches_refuted"
   ],
   "note": "sound for every hash function and exact without collisions; for every hash function with finitely many values (Python has 64 bits) there are a grammar and a text in which a match is lost. That Python chooses object ids leading to a collision is unlikely, not impossible"
  },
  {
   "property": "C75",
   "status": "proved",
   "theorems": [
    "answering_predicates_change_nothing",
    "exceptions_come_from_asked_predicates",
    "exceptions_are_not_lost",
    "exceptions_are_the_users"
   ],
   "note": "the third theorem covers predicates reached without empty parts (finding 1: others may never be asked); the text-level theorem assumes that tokens are not empty and INT tokens readable by int"
  },
  {
   "property": "C76",
   "status": "partial",
   "theorems": [
    "every_grammar_is_printed_refuted",
    "grammars_are_printed",
    "rules_of_grammars_are_drawn",
    "other_objects_are_drawn",
    "predicates_have_labels",
    "interpretators_have_labels"
   ],
   "note": "false of the code: inflected() without grams and functions without a name have no label; proved: the text is made exactly when all labels it needs exist, and when they do"
  },
  {
   "property": "C77",
   "status": "partial",
   "theorems": [
    "drawings_are_readable_refuted",
    "drawing_is_read_back_partial",
    "tree_drawing_is_read_back_partial",
    "quoted_values_with_even_backslashes"
   ],
   "note": "false of the code for labels with a backslash before a quote or at the end, which quote does not escape; proved for all drawings whose labels have even runs of backslashes there, a condition shown to be exact for a quoted value. Graphviz is represented by the reader read_dot"
  },
  {
   "property": "C78",
   "status": "partial",
   "theorems": [
    "equal_rules_are_found_at_the_same_places_refuted",
    "equal_rules_are_found_at_the_same_places_partial",
    "equal_rules_are_first_found_at_the_same_place_partial",
    "equal_rules_match_the_same_texts_partial",
    "alternatives_are_a_set",
    "nested_alternatives",
    "nested_sequences",
    "alternatives_distribute",
    "alternatives_of_predicates"
   ],
   "note": "false of the code with optional parts used twice; proved for rules without empty parts and relations, together with laws that make rules accept the same pieces"
  },
  {
   "property": "C79",
   "status": "partial",
   "theorems": [
    "findall_finds_optional_parts_refuted",
    "match_finds_optional_parts_refuted",
    "findall_finds_optional_parts_partial",
    "match_finds_optional_parts_partial",
    "in_time_by_computation",
    "accepted_text_is_matched_with_optional_parts"
   ],
   "note": "false of the code: rule(x.repeatable(), y.optional()) on x x x x; proved for rules in whose grammar the empty parts are completed in time, which can be computed and includes all rules without empty parts and those whose optional parts stand behind words (C06)"
  },
  {
   "property": "C80",
   "status": "proved",
   "theorems": [
    "ancestors_come_in_order",
    "isinstance_is_inheritance",
    "closest_method_is_chosen",
    "no_method_is_chosen_only_if_there_is_none",
    "every_part_has_a_method",
    "every_predicate_is_drawn",
    "every_node_has_a_method",
    "normalization_by_choice_of_methods",
    "bnf_by_choice_of_methods",
    "activation_by_choice_of_methods",
    "removing_forwards_by_choice_of_methods"
   ],
   "note": "the tables of classes and methods are transcribed from the class statements; the four last theorems tie them to the passes of RuleModel.v"
  },
  {
   "property": "C81",
   "status": "partial",
   "theorems": [
    "unnormalized_rules_are_rejected_refuted",
    "unnormalized_rules_are_rejected_partial",
    "guard_for_extended_rules_is_never_chosen"
   ],
   "note": "false of the code: bounded repetitions are passed through; proved for all other parts of rules without forward rules"
  },
  {
   "property": "C82",
   "status": "partial",
   "theorems": [
    "texts_are_searched_piece_by_piece_refuted",
    "texts_are_searched_piece_by_piece_partial",
    "places_found_piece_by_piece_partial",
    "tokens_of_joined_texts",
    "white_space_separates",
    "bank_predicates_ignore_positions",
    "composed_taggers_tag_apart"
   ],
   "note": "false of the code: an optional part shared by two alternatives may be completed early because of the text before; proved for rules whose empty parts are completed in time, without relations"
  },
  {
   "property": "C83",
   "status": "partial",
   "theorems": [
    "text_determines_language_refuted",
    "printed_lines_are_read_back",
    "same_text_same_language",
    "labels_tell_predicates",
    "labels_tell_all_predicates_refuted"
   ],
   "note": "false of the code: interpretators hide the names of rules, in_ and dictionaries print dots; proved when the labels of rules are different and predicates with equal labels judge alike, without dictionaries"
  },
  {
   "property": "C84",
   "status": "proved",
   "theorems": [
    "extract_begins_with_the_matches_of_the_beginning",
    "findall_begins_with_the_matches_of_the_beginning",
    "find_finds_the_match_of_the_beginning",
    "nothing_crosses_a_foreign_token",
    "findall_up_to_a_foreign_token"
   ],
   "note": "for all rules harmless in the sense of RuleNestSpec, also with relations, dictionaries and late empty parts; matches compared by range, span, tokens and derivation"
  },
  {
   "property": "C85",
   "status": "partial",
   "theorems": [
    "wrong_types_are_rejected_refuted",
    "wrong_types_are_rejected_partial",
    "right_types_are_taken_refuted",
    "right_types_are_taken_partial",
    "programs_with_any_arguments_are_built",
    "rules_with_wrong_items_accept_nothing",
    "rules_with_wrong_items_find_nothing",
    "one_string_is_taken_letter_by_letter",
    "parsers_are_made_of_rules",
    "parsers_of_wrong_types_raise"
   ],
   "note": "false: items of rule are not checked, lines of a pipeline may be a string or a record, bounds may be True or anything that counts as false, and Predicate.optional rejects reverse. Proved: exactly these exceptions, everything else raises TypeError, AttributeError or ValueError as described; whatever is let through gives well-formed rules; a rule with a wrong item accepts nothing"
  },
  {
   "property": "C86",
   "status": "partial",
   "theorems": [
    "parsing_is_polynomial_refuted",
    "parsing_is_polynomial_partial",
    "states_of_a_column_partial",
    "one_reading_of_every_piece"
   ],
   "note": "false of the code: columns hold one state per derivation, so or_(rule('a'), rule('a', 'a')).repeatable() needs exponentially many; proved: at most m times (size of the grammar) times (number of tokens) states in a column and polynomially many steps when every beginning of a production reads every piece in at most m ways, with a criterion for m = 1. Also gives an end of parsing for rules with loops. The numbers count states and nodes made, not the time of single operations"
  },
  {
   "property": "C87",
   "status": "partial",
   "theorems": [
    "stack_is_never_exceeded_refuted",
    "stack_is_never_exceeded_partial",
    "stack_of_nested_rules_partial",
    "stack_does_not_change_results",
    "stack_for_find_and_extract_partial",
    "nested_stack_for_find_and_extract_partial",
    "stack_does_not_change_find_and_extract"
   ],
   "note": "false: tree.normalized recurses three or four frames per level of the tree and every item of a repetition is one level, so rule('a').repeatable() raises RecursionError on every text long enough (251 letters with the default limit). Proved: for every rule without loops a stack of k * (number of tokens + 1) frames is enough, for rules that do not contain themselves a constant one, and a stack too small never changes a result in any other way. The frames leading to the recursion, the construction of the parser and .fact are not counted"
  },
  {
   "property": "C88",
   "status": "partial",
   "theorems": [
    "reported_match_does_not_change_refuted",
    "found_match_shows_its_tokens_refuted",
    "yields_are_those_of_extract",
    "reported_match_only_loses_forms_partial",
    "found_match_only_loses_forms_partial",
    "first_match_only_loses_forms_partial",
    "match_shows_its_tokens",
    "reported_match_does_not_change_partial",
    "found_match_shows_its_tokens_partial",
    "matches_without_relations_do_not_change_partial"
   ],
   "note": "false of the code: relations replace the tokens of leaves in place, and candidates share leaves, so the fact of a match yielded by extract changes when the generator goes on, and leaves of a match of findall may hold other forms than match.tokens. Proved: for match always; for the others when no related leaf is part of another candidate (all rules without relations); in general the leaves hold the same tokens with perhaps fewer forms"
  },
  {
   "property": "C89",
   "status": "partial",
   "theorems": [
    "valid_patterns_are_accepted_refuted",
    "patterns_match_as_alone_refuted",
    "group_names_are_local_refuted",
    "invalid_patterns_are_rejected_refuted",
    "tokens_have_a_rule_refuted",
    "patterns_match_as_alone_partial",
    "tokens_come_from_first_rule_partial",
    "tokens_have_a_rule_partial",
    "repeated_names_are_rejected",
    "question_mark_prefers_the_shortest",
    "strings_cut_as_trees",
    "known_rules_cut_as_trees",
    "default_rules_cut_as_trees"
   ],
   "note": "false of the code: patterns are pasted into one expression, so references by number point to other groups, group names clash, and invalid patterns may be accepted and steal the text between rules. Proved for all lists of rules whose patterns are valid alone, without references by number and with distinct group names: accepted, every pattern matches as alone, every token is the first match of the first rule that matches. The rules of tokenizer.py as strings cut every text as the trees used in the other files. Syntax of re not covered is listed in DESIGN.md"
  },
  {
   "property": "C90",
   "status": "partial",
   "theorems": [
    "wrong_arguments_are_rejected_refuted",
    "wrong_arguments_are_rejected_early_refuted",
    "string_is_one_word_refuted",
    "string_is_one_entry_refuted",
    "answers_do_not_change_refuted",
    "parsers_of_a_predicate_agree_refuted",
    "documented_arguments_work",
    "answers_do_not_change_partial",
    "parsers_of_a_predicate_agree_partial",
    "iterator_is_used_once",
    "iterator_is_read_once",
    "string_gives_substrings",
    "string_gives_letters",
    "in_caseless_string_gives_letters",
    "wrong_arguments_accept_nothing",
    "wrong_bounds_fail_at_numbers",
    "booleans_are_numbers",
    "wrong_collections_fail_at_tokens",
    "caseless_is_checked",
    "in_caseless_is_checked",
    "schemes_are_checked",
    "dictionary_is_checked",
    "custom_types_are_checked"
   ],
   "note": "false of the code: eq(12) and tag(5) are accepted and match nothing, gte('5') raises TypeError only when a number is judged, in_('dollars') accepts 'doll', dictionary('cat') holds letters, in_ and dictionary of an iterator change their answers. Proved: documented arguments work as in the typed model for every token and any number of parsers; without iterators answers never change; the exact behaviour of the wrong arguments (nothing accepted, substrings, letters, elements used once) and when each is rejected. What pymorphy raises for a word that is no string is a parameter."
  },
  {
   "property": "C91",
   "status": "partial",
   "theorems": [
    "facts_show_their_attributes_refuted",
    "facts_show_json_refuted",
    "facts_show_raw_refuted",
    "subclasses_collect_facts_refuted",
    "names_are_checked_refuted",
    "subclasses_of_two_classes_refuted",
    "facts_by_hand_show_json_refuted",
    "facts_by_hand_are_made_refuted",
    "facts_show_their_attributes_partial",
    "attribute_called_self_raises",
    "attribute_called_raw_is_lost",
    "facts_are_begun_iff_names_are_attributes",
    "begun_facts_have_the_declared_attributes",
    "classes_have_their_attributes",
    "class_statements_may_add",
    "class_statements_may_not_replace",
    "subclasses_have_the_attributes_partial",
    "facts_by_hand_show_their_attributes",
    "facts_by_hand_have_no_json",
    "classes_with_properties_are_not_called",
    "string_gives_letter_attributes",
    "repeatable_attributes_have_no_default"
   ],
   "note": "false of the code: attributes called self, as_json, spans and _raw, subclasses that redefine an attribute, subclasses of two fact classes, facts made by hand; proved for all other names with one base per class; which classes can collect facts is stated exactly"
  },
  {
   "property": "C92",
   "status": "partial",
   "theorems": [
    "forms_of_one_case_agree_refuted",
    "agreeing_forms_share_a_case_refuted",
    "case_agreement_is_one_case_partial",
    "number_agreement_is_a_common_number",
    "gender_agreement_is_a_common_gender",
    "gender_agreement_exactly",
    "number_agreement_exactly",
    "case_agreement_exactly",
    "gnc_agreement_exactly"
   ],
   "note": "false of the code for the rare cases: a form in the second locative does not agree with one in the locative and agrees with one in the second genitive; proved for forms with exactly one of the seven usual cases, and the three relations characterised exactly for all forms"
  },
  {
   "property": "C93",
   "status": "partial",
   "theorems": [
    "alternatives_lose_nothing_refuted",
    "alternatives_find_as_many_characters_refuted",
    "findall_of_more_alternatives_finds_more_partial",
    "find_of_more_alternatives_finds_partial",
    "match_of_more_alternatives_matches_partial",
    "alternatives_accept_more",
    "more_alternatives_accept_more",
    "alternatives_accept_the_least"
   ],
   "note": "false of the code: with an optional part used by two alternatives a match is lost, and fewer characters may be covered since tokens are counted; proved (counting tokens) for rules without empty parts and relations, and for rules whose empty parts are completed in time"
  },
  {
   "property": "C94",
   "status": "partial",
   "theorems": [
    "building_fits_on_the_stack_refuted",
    "repeatable_max_takes_stack",
    "large_max_does_not_build",
    "building_fits_on_the_stack_partial",
    "stack_does_not_change_what_is_built"
   ],
   "note": "False as stated: repeatable(max=n) is replaced by rules nested n deep, and the passes over them take 14 frames for each (10 since Python 3.12), so for every limit there is an n for which RecursionError is raised (max=73 with 1000 frames). Proved: that lower bound for every word and n; for every rule there is a limit from which on its parser is built as without a limit; a limit never changes what is built. Frames of functions that call nothing in turn are not counted."
  },
  {
   "property": "C95",
   "status": "partial",
   "theorems": [
    "attribute_methods_chain_freely_refuted",
    "attribute_methods_chain_partial",
    "repeatable_attributes_have_no_methods",
    "attribute_chain_computes_its_value",
    "normalizers_chain_like_attributes",
    "normalizer_chain_computes_its_value",
    "predicate_interpretation_takes",
    "rule_interpretation_takes",
    "interpretation_of_a_predicate_is_that_of_its_rule",
    "rule_interpretation_means"
   ],
   "note": "False as stated: custom cannot follow custom().custom(), normalized().custom() or const(), nothing but custom can follow anything, and repeatable attributes have none of the methods. Proved: exactly which chains there are (everything else raises AttributeError), the value of each chain, that normalizers have the same chains and values, and what the two interpretation methods take."
  },
  {
   "property": "C96",
   "status": "partial",
   "theorems": [
    "email_token_is_the_address_refuted",
    "phone_token_is_one_number_refuted",
    "numbers_stay_whole_refuted",
    "long_numbers_are_cut",
    "email_tokens_are_addresses_partial",
    "phone_tokens_have_digits_partial",
    "address_alone_is_a_token",
    "number_alone_is_a_token",
    "address_between_spaces_is_a_token",
    "library_rules_are_never_empty"
   ],
   "note": "the claim about surroundings is false of the code: a full stop behind an address belongs to the token, three years in a row with the space before them are one PHONE token, numbers of more than 14 digits are cut; proved: the shape of the tokens, and that addresses and numbers standing alone (addresses also between spaces) are one token"
  },
  {
   "property": "C97",
   "status": "partial",
   "theorems": [
    "labels_show_the_calls_refuted",
    "normalizer_labels_show_the_calls_partial",
    "interpretator_labels_show_the_calls_partial",
    "predicate_labels_are_calls",
    "relation_labels_are_calls",
    "drawings_show_text_and_colour"
   ],
   "note": "false for one case: a function after normalized() or inflected(...) is written normalized().f instead of normalized().custom(f); proved exactly for all other normalizers and interpretators, for all predicates and relations, and for text and colour of all drawn objects"
  },
  {
   "property": "C98",
   "status": "partial",
   "theorems": [
    "rules_of_parsers_are_printed_refuted",
    "trees_are_printed_refuted",
    "printing_ends_without_circles",
    "printing_gives_one_text",
    "written_rules_are_printed",
    "printed_text_of_each_class",
    "trees_are_printed_with_their_rules",
    "pretty_printing_always_ends",
    "pretty_printing_shows_the_same"
   ],
   "note": "false of the code: Parser replaces forward rules by their definitions, so repr of the rule of a parser with a repetition, and of the trees of its matches, recurses for ever (RecursionError). Proved: printing ends exactly when no object is inside itself, it ends for all rules as written, what is printed for each class; pretty printing always ends and shows the same apart from white space where there are no forward rules. Texts of predicates, interpretators, relations, tokens and strings are parameters; the recursion limit is fuel"
  },
  {
   "property": "C99",
   "status": "partial",
   "theorems": [
    "every_state_has_been_read",
    "nothing_is_recorded_twice",
    "all_readings_are_recorded_refuted",
    "all_readings_are_recorded_partial",
    "chart_text_has_a_block_for_every_column",
    "state_lines_are_read_back",
    "lines_tell_states_apart_refuted",
    "lines_tell_states_apart_partial",
    "chart_of_a_parser_is_printed"
   ],
   "note": "false of the code: readings behind an empty part can be missing (witness S -> A B, B -> A 'c', A -> | 'a' on c), and ambiguous grammars print the same line for different states. Proved: every state has been read and is recorded once; exactly the readings are recorded when empty parts come in time (timely, AbsentSpec); the text has the blocks; lines with plain labels are read back, so equal lines mean equal places and labels; charts of parsers are printed when predicates and interpretators have labels. repr of a token is a parameter"
  },
  {
   "property": "C100",
   "status": "partial",
   "theorems": [
    "fact_is_value_of_a_reading",
    "interpretation_of_the_root_is_kept",
    "fact_is_value_of_the_earliest_reading",
    "matched_fact_is_value_of_the_earliest_reading",
    "facts_of_rules_without_optional_parts",
    "reading_has_one_value",
    "told_reading_has_one_value",
    "line_is_told_refuted",
    "line_is_told_partial",
    "line_of_the_earliest_reading_is_told_partial",
    "fact_of_a_whole_match"
   ],
   "note": "false of the code where a dictionary is used in two places: the interpretator over one of them is not told the line (witness rule(P.interpretation(name.normalized()), P), caseless_pipeline(['B']) on b b gives b). Proved: the fact is the value of a reading, each interpretator over a dictionary being told the line or nothing; of the earliest reading when empty parts come in time; readings without lines of dictionaries have one value. The line is told in grammars in which no rule with an interpretation begins with a dictionary that has none (lines_told, which can be computed). For rules in which no quantifier is put directly on a quantifier (flat) whose parser starts from an interpreted rule, which it does if the rule was made by .interpretation and is not a part of itself"
  },
  {
   "property": "C101",
   "status": "proved",
   "theorems": [
    "start_rule_is_not_used",
    "match_is_of_the_whole_text",
    "findall_of_a_matched_text",
    "matched_facts_of_rules_without_optional_parts",
    "match_is_of_the_whole_text_with_optional_parts",
    "findall_of_a_matched_text_with_optional_parts",
    "match_is_of_the_whole_text_refuted"
   ],
   "note": "proved for the rules named in the quantifier; with parts that may be absent when these come in time (timely) and the rule does not accept the empty text. The refutation shows that the restriction is needed: a forward rule matches texts it does not accept (C62)"
  }
 ]
}