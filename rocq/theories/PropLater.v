(** Properties of matches after they were reported (C88). *)
From Coq Require String.
From Verif Require Import Base TokenModel TokenizerModel RelationModel EarleyModel EarleySpec PredicateModel PipelineModel PipelineSpec PipelineTheorems TreeModel ParserModel TreeSpec RelationSpec InterpModel RuleModel RuleSpec RuleBuild RuleNestSpec GrammarModel TextModel TextSpec
  AbsentSpec RuleCases AbsentCases LaterModel LaterSpec LaterProofs TestsBase TestsInterp LaterCases LaterTheorems.
Import String.StringSyntax.
Open Scope nat_scope.

(** ** C88 *)
(** or_(rule(LAST, FIRST), rule(LAST)).interpretation(Name) with gnc: match.fact of the first match of extract is one thing when it is yielded and another when the generator has gone on. *)
Theorem reported_match_does_not_change_refuted : exists h root text g found sf m s v w,
  built h /\ is_rule_at h root /\ parser_grammar python seen names_context fuel h root = Some (Ok g) /\ parser_extract_yielded python seen names_context gnc fuel h root text true = Some (Ok (found, sf, None)) /\ In (m, s) found /\
  name_fact g s m = Ok v /\ name_fact g sf m = Ok w /\ value_attr (str_of "last") v = Some (S_ "иванов") /\ value_attr (str_of "last") w = Some (S_ "иванова").
Proof. exact fact_changes. Qed.
Print Assumptions reported_match_does_not_change_refuted.
Example facts_of_last_name : facts_later last_name "Иванову Сашу" =
  Some (Ok [([TestsBase.text "Иванову"], Ok (Fact 0 [("first", VNone); ("last", S_ "иванов")]%string), Ok (Fact 0 [("first", VNone); ("last", S_ "иванова")]%string));
            ([TestsBase.text "Иванову"; TestsBase.text "Сашу"], Ok (Fact 0 [("first", S_ "саша"); ("last", S_ "иванова")]%string), Ok (Fact 0 [("first", S_ "саша"); ("last", S_ "иванова")]%string))]).
Proof. vm_compute. reflexivity. Qed.
(** findall: the leaves of match.tree do not hold the tokens of match.tokens. *)
Theorem found_match_shows_its_tokens_refuted : exists h root text s ms m,
  built h /\ is_rule_at h root /\ parser_findall python seen names_context gnc fuel h root text = Some (Ok (s, ms)) /\ In m ms /\ tree_tokens s (m_root m) <> m_tokens m.
Proof. exact leaves_change. Qed.
Print Assumptions found_match_shows_its_tokens_refuted.
Example forms_of_handed_over : forms_found handed_over "передал Иванову Сашу" =
  Some (Ok [([[]; [TestsBase.text "иванов"; TestsBase.text "иванова"]; [TestsBase.text "саша"]], [[]; [TestsBase.text "иванова"]; [TestsBase.text "саша"]], Ok (Fact 0 [("first", VNone); ("last", S_ "иванова")]%string))]).
Proof. vm_compute. reflexivity. Qed.

(** The run with the states at the yields is a run of extract. *)
Theorem yields_are_those_of_extract :
  forall U set_order c rel fuel (h : rule_heap) root text all found s e, parser_extract_yielded U set_order c rel fuel h root text all = Some (Ok (found, s, e)) ->
  parser_extract U set_order c rel fuel h root text all = Some (Ok (map fst found, s, e)).
Proof. exact text_yields. Qed.
Print Assumptions yields_are_those_of_extract.

(** All rules: at the yield the leaves hold the tokens of the match; whatever happens later, they hold the same tokens with perhaps fewer forms. *)
Theorem reported_match_only_loses_forms_partial :
  forall U set_order c rel fuel (h : rule_heap) root text all found sf e, parser_extract_yielded U set_order c rel fuel h root text all = Some (Ok (found, sf, e)) ->
  forall m s, In (m, s) found -> tree_tokens s (m_root m) = m_tokens m /\ Forall2 fewer (tree_tokens sf (m_root m)) (m_tokens m).
Proof. exact text_extract_later. Qed.
Print Assumptions reported_match_only_loses_forms_partial.
Theorem found_match_only_loses_forms_partial :
  forall U set_order c rel fuel (h : rule_heap) root text s ms, parser_findall U set_order c rel fuel h root text = Some (Ok (s, ms)) ->
  forall m, In m ms -> Forall2 fewer (tree_tokens s (m_root m)) (m_tokens m).
Proof. exact text_findall_later. Qed.
Print Assumptions found_match_only_loses_forms_partial.
Theorem first_match_only_loses_forms_partial :
  forall U set_order c rel fuel (h : rule_heap) root text s m, parser_find U set_order c rel fuel h root text = Some (Ok (s, Some m)) -> Forall2 fewer (tree_tokens s (m_root m)) (m_tokens m).
Proof. exact text_find_later. Qed.
Print Assumptions first_match_only_loses_forms_partial.
Theorem match_shows_its_tokens :
  forall U set_order c rel fuel (h : rule_heap) root text s m, parser_match U set_order c rel fuel h root text = Some (Ok (s, Some m)) -> tree_tokens s (m_root m) = m_tokens m.
Proof. exact text_match_unchanged. Qed.
Print Assumptions match_shows_its_tokens.
Example handed_over_matched : matched (context_with sasha) gnc handed_over "передал Иванову Сашу" = these ["передал"; "Иванову"; "Сашу"]%string.
Proof. vm_compute. reflexivity. Qed.

(** No related leaf of a candidate is part of another one: match.fact is the same at the yield and in the end. *)
Theorem reported_match_does_not_change_partial :
  forall U set_order c rel fuel (h : rule_heap) root text g toks, parser_grammar U set_order c fuel h root = Some (Ok g) -> text_tokens c text = Some (Ok toks) ->
  forall all trees, parse (accepts U) narrow g fuel toks all = Some trees -> separate g trees ->
  forall found sf e, parser_extract_yielded U set_order c rel fuel h root text all = Some (Ok (found, sf, e)) -> forall m s, In (m, s) found ->
  tree_tokens sf (m_root m) = m_tokens m /\
  forall schemes subclass inflect interps, match_fact schemes subclass U inflect g interps sf m = match_fact schemes subclass U inflect g interps s m.
Proof. exact text_extract_unchanged. Qed.
Print Assumptions reported_match_does_not_change_partial.
Theorem found_match_shows_its_tokens_partial :
  forall U set_order c rel fuel (h : rule_heap) root text g toks, parser_grammar U set_order c fuel h root = Some (Ok g) -> text_tokens c text = Some (Ok toks) ->
  forall trees, parse (accepts U) narrow g fuel toks true = Some trees -> unshared g trees ->
  (forall s ms, parser_findall U set_order c rel fuel h root text = Some (Ok (s, ms)) -> forall m, In m ms -> tree_tokens s (m_root m) = m_tokens m) /\
  (forall s m, parser_find U set_order c rel fuel h root text = Some (Ok (s, Some m)) -> tree_tokens s (m_root m) = m_tokens m).
Proof. exact text_findall_unchanged. Qed.
Print Assumptions found_match_shows_its_tokens_partial.
(** rule(FIRST, LAST).interpretation(Name) with gnc *)
Example two_names_case : exists g toks trees, parser_grammar python seen names_context fuel (program name_program) 10 = Some (Ok g) /\
  text_tokens names_context (TestsBase.text "сашу иванову, саше иванову") = Some (Ok toks) /\ parse (accepts python) narrow g fuel toks true = Some trees /\
  separate g trees /\ unshared g trees /\ map snd trees = [(0, 2); (3, 5)].
Proof. exact two_names. Qed.

(** Rules without relations, for all texts. *)
Theorem matches_without_relations_do_not_change_partial :
  forall U set_order c rel fuel (h : rule_heap) root text, set_iteration set_order -> built h -> harmless h root -> is_rule_at h root -> no_relations_in h root ->
  (forall all found sf e, parser_extract_yielded U set_order c rel fuel h root text all = Some (Ok (found, sf, e)) -> forall m s, In (m, s) found ->
    tree_tokens sf (m_root m) = m_tokens m /\
    forall g, parser_grammar U set_order c fuel h root = Some (Ok g) -> forall schemes subclass inflect interps, match_fact schemes subclass U inflect g interps sf m = match_fact schemes subclass U inflect g interps s m) /\
  (forall s ms, parser_findall U set_order c rel fuel h root text = Some (Ok (s, ms)) -> forall m, In m ms -> tree_tokens s (m_root m) = m_tokens m).
Proof. exact text_unrelated. Qed.
Print Assumptions matches_without_relations_do_not_change_partial.
(** The same rule without gnc: rule(gram('Name'), gram('Surn')) and the name alone. *)
Definition plain_names : list TestsBase.rule_call := [CRule [P (SGram (str_of "Surn")); P (SGram (str_of "Name"))]; CRule [P (SGram (str_of "Surn"))]; COr [1; 3]].
Example plain_names_case : built (program plain_names) /\ harmless (program plain_names) 4 /\ is_rule_at (program plain_names) 4 /\ no_relations_in (program plain_names) 4.
Proof.
  assert (B : built (program plain_names)) by (apply program_built; vm_compute; reflexivity). assert (K : is_rule_at (program plain_names) 4) by (apply is_rule_atb_true; vm_compute; reflexivity).
  split; [exact B|]. split; [apply harmlessb_true; [exact B|exact K|vm_compute; reflexivity]|]. split; [exact K|apply no_relationsb_true; vm_compute; reflexivity].
Qed.
