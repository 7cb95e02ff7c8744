(** Properties C101 and C62: a rule that is not a part of itself matches whole texts only; every
    rule matches the texts it accepts. *)
From Coq Require String.
From Verif Require Import Base TokenModel EarleyModel EarleySpec TreeModel TreeSpec ParserModel ParserSpec PredicateModel Cases PredicateCases PipelineModel PipelineSpec PipelineTheorems
  RuleModel RuleSpec RuleAccept RuleNormalized InterpModel InterpSpec InterpCases RuleBuild GrammarModel GrammarSpec RuleNestSpec RuleTheorems RuleCases TextModel TextSpec TextTheorems SetOrderTheorems
  AbsentSpec AbsentCases FactWordSpec FactWordProofs FactWordCases RuleAgainCases WholeSpec WholeProofs MatchWhole WholeCases.
Import String.StringSyntax.
Open Scope nat_scope.

(** The rule the parser starts with is used by no production, however the rule is
    normalised, converted and stripped of forward rules. *)
Theorem start_rule_is_not_used :
  forall U set_order c fuel h root g, built h -> flat h root -> settled h root ->
  parser_grammar U set_order c fuel h root = Some (Ok g) -> start_not_used g.
Proof. exact start_unused. Qed.
Print Assumptions start_rule_is_not_used.

(** Rules without parts that may be absent. *)
Theorem match_is_of_the_whole_text :
  forall U set_order c, set_iteration set_order -> forall rel fuel h root text, built h -> flat h root -> settled h root -> solid h root ->
  forall s om, parser_match U set_order c rel fuel h root text = Some (Ok (s, om)) ->
  exists toks, text_tokens c text = Some (Ok toks) /\
    match om with
    | Some m => m_range m = (0, length toks) /\ rule_accepts U set_order c h root toks 0 (length toks)
    | None => ~ rule_accepts U set_order c h root toks 0 (length toks)
    end.
Proof. exact whole_match. Qed.
Print Assumptions match_is_of_the_whole_text.
Theorem findall_of_a_matched_text :
  forall U set_order c, set_iteration set_order -> forall rel fuel h root text, built h -> flat h root -> settled h root -> solid h root ->
  forall s m r, no_morph_pipeline h root -> parser_match U set_order c rel fuel h root text = Some (Ok (s, Some m)) -> parser_findall U set_order c rel fuel h root text = Some r ->
  exists s' m', r = Ok (s', [m']) /\ m_range m' = m_range m /\ erase (m_root m') = erase (m_root m) /\ m_tokens m' = m_tokens m /\ m_span m' = m_span m.
Proof. exact whole_agree. Qed.
Print Assumptions findall_of_a_matched_text.
Theorem matched_facts_of_rules_without_optional_parts :
  forall U set_order c, set_iteration set_order -> forall rel schemes subclass inflect interps fuel h root r i, built h -> flat h root -> settled h root ->
  nth_error h root = Some (OInterp r i) -> solid h root -> no_morph_pipeline h root ->
  forall text s m, parser_match U set_order c rel fuel h root text = Some (Ok (s, Some m)) ->
  exists g toks ha, parser_grammar U set_order c fuel h root = Some (Ok g) /\ text_tokens c text = Some (Ok toks) /\ activated_graph (activate c) (activate_pipeline c) h ha root /\
  exists w, words_of U set_order KInterp ha root w /\ spells U w toks 0 (length toks) /\
    (forall w', words_of U set_order KInterp ha root w' -> spells U w' toks 0 (length toks) -> w' = w \/ sooner w w') /\
    read_value schemes subclass U inflect interps told_or_not w (tree_tokens s (m_root m)) (match_fact schemes subclass U inflect g interps s m).
Proof. exact whole_facts. Qed.
Print Assumptions matched_facts_of_rules_without_optional_parts.

(** rule(E), where E is a forward rule: E -> x | ( E ) | E + x ... *)
Example wrapped_case :
  let p := program wrapped_program in
  (forall root, In root [10; 14] -> built p /\ flat p root /\ settled p root /\ solid p root /\ no_morph_pipeline p root) /\
  matched_in wrapped_program 10 (str_of "x + ( x )") = Some (Some (0, 5)) /\ matched_in wrapped_program 10 (str_of "( x + x") = Some None /\
  match matched_facts person_interps wrapped_program 14 (str_of "x + x") with Some (Some v) => hd_error (attrs_of v) | _ => None end = Some (k "name", VStr (k "x + x")).
Proof.
  split; [intros root [<-|[<-|[]]]; apply whole_ready_true; reflexivity|]. repeat split; vm_compute; reflexivity.
Qed.

(** With parts that may be absent. *)
Theorem match_is_of_the_whole_text_with_optional_parts :
  forall U set_order c, set_iteration set_order -> forall rel fuel h root text, built h -> flat h root -> settled h root ->
  forall g toks, parser_grammar U set_order c fuel h root = Some (Ok g) -> text_tokens c text = Some (Ok toks) -> no_relations_in h root -> timely g -> ~ rule_accepts U set_order c h root [] 0 0 ->
  forall r, parser_match U set_order c rel fuel h root text = Some r ->
  (exists s m, r = Ok (s, Some m) /\ m_range m = (0, length toks) /\ rule_accepts U set_order c h root toks 0 (length toks)) \/
  (r = Ok ([], None) /\ ~ rule_accepts U set_order c h root toks 0 (length toks)).
Proof. exact whole_match_timely. Qed.
Print Assumptions match_is_of_the_whole_text_with_optional_parts.
Theorem findall_of_a_matched_text_with_optional_parts :
  forall U set_order c, set_iteration set_order -> forall rel fuel h root text, built h -> flat h root -> settled h root ->
  forall g toks, parser_grammar U set_order c fuel h root = Some (Ok g) -> text_tokens c text = Some (Ok toks) -> no_relations_in h root -> timely g -> ~ rule_accepts U set_order c h root [] 0 0 ->
  forall s m r, no_morph_pipeline h root -> parser_match U set_order c rel fuel h root text = Some (Ok (s, Some m)) -> parser_findall U set_order c rel fuel h root text = Some r ->
  exists s' m', r = Ok (s', [m']) /\ m_range m' = m_range m /\ erase (m_root m') = erase (m_root m) /\ m_tokens m' = m_tokens m /\ m_span m' = m_span m.
Proof. exact whole_agree_timely. Qed.
Print Assumptions findall_of_a_matched_text_with_optional_parts.
(** An interpreted rule with a tag that may be left out. *)
Example tall_whole :
  (exists g toks, interpreted_rule ASCII first_seen small_context 100 (program tall_program) 12 (str_of "john old") g toks) /\ settled (program tall_program) 12 /\
  matched_in tall_program 12 (str_of "john old") = Some (Some (0, 2)) /\ matched_in tall_program 12 (str_of "john old john") = Some None.
Proof. split; [destruct tall_reading as (g & toks & K & _); exists g, toks; exact K|]. split; [apply settledb_true; reflexivity|]. split; vm_compute; reflexivity. Qed.

(** E itself matches "( x + x". *)
Theorem match_is_of_the_whole_text_refuted :
  exists U set_order c rel fuel h root text toks s m, set_iteration set_order /\ built h /\ flat h root /\ is_rule_at h root /\ solid h root /\
  text_tokens c text = Some (Ok toks) /\ parser_match U set_order c rel fuel h root text = Some (Ok (s, Some m)) /\ m_range m <> (0, length toks).
Proof. exact forward_refutes. Qed.
Print Assumptions match_is_of_the_whole_text_refuted.

(** ** C62, C66: every rule matches the whole of the texts it accepts, also if it is a part of
    itself. *)
Theorem accepted_text_is_matched :
  forall U set_order c, set_iteration set_order -> forall rel fuel h root text, built h -> harmless h root -> is_rule_at h root -> solid h root ->
  forall s om, parser_match U set_order c rel fuel h root text = Some (Ok (s, om)) ->
  exists toks, text_tokens c text = Some (Ok toks) /\
    (rule_accepts U set_order c h root toks 0 (length toks) <-> exists m, om = Some m /\ m_range m = (0, length toks)).
Proof. exact accepted_matched_solid. Qed.
Print Assumptions accepted_text_is_matched.
Theorem accepted_text_is_matched_with_optional_parts :
  forall U set_order c, set_iteration set_order -> forall rel fuel h root text, built h -> harmless h root -> is_rule_at h root ->
  forall g toks, parser_grammar U set_order c fuel h root = Some (Ok g) -> text_tokens c text = Some (Ok toks) -> no_relations_in h root -> timely g -> ~ rule_accepts U set_order c h root [] 0 0 ->
  forall r, parser_match U set_order c rel fuel h root text = Some r ->
  (rule_accepts U set_order c h root toks 0 (length toks) <-> exists s m, r = Ok (s, Some m) /\ m_range m = (0, length toks)).
Proof. exact accepted_matched. Qed.
Print Assumptions accepted_text_is_matched_with_optional_parts.
(** E -> x | ( E ) | .. matches "x + ( x )", and not the whole of "( x + x". *)
Example accepted_case :
  let p := program expr_program in
  built p /\ harmless p 0 /\ is_rule_at p 0 /\ solid p 0 /\
  matched_in expr_program 0 (str_of "x + ( x )") = Some (Some (0, 5)) /\ matched_in expr_program 0 (str_of "( x + x") = Some (Some (1, 4)).
Proof.
  destruct expr_built as (B & _ & R & _). split; [exact B|]. split; [apply harmlessb_true; [exact B|exact R|reflexivity]|]. split; [exact R|]. split; [apply solidb_true; reflexivity|].
  split; vm_compute; reflexivity.
Qed.

(** ** C07, C67, C100: such a match is the one findall gives, and is the earliest reading. *)
Theorem whole_match_is_that_of_findall :
  forall U set_order c, set_iteration set_order -> forall rel fuel h root text, built h -> harmless h root -> is_rule_at h root ->
  forall g toks, parser_grammar U set_order c fuel h root = Some (Ok g) -> text_tokens c text = Some (Ok toks) -> no_relations_in h root -> timely g -> ~ rule_accepts U set_order c h root [] 0 0 ->
  forall s m r, no_morph_pipeline h root -> parser_match U set_order c rel fuel h root text = Some (Ok (s, Some m)) -> m_range m = (0, length toks) ->
  parser_findall U set_order c rel fuel h root text = Some r ->
  exists s' m', r = Ok (s', [m']) /\ m_range m' = m_range m /\ erase (m_root m') = erase (m_root m) /\ m_tokens m' = m_tokens m /\ m_span m' = m_span m.
Proof. exact matched_whole_agrees. Qed.
Print Assumptions whole_match_is_that_of_findall.
Theorem whole_match_is_the_earliest_reading :
  forall U set_order c, set_iteration set_order -> forall rel fuel h root text, built h -> harmless h root -> is_rule_at h root ->
  forall g toks, parser_grammar U set_order c fuel h root = Some (Ok g) -> text_tokens c text = Some (Ok toks) -> no_relations_in h root -> timely g -> ~ rule_accepts U set_order c h root [] 0 0 ->
  forall s m, flat h root -> no_morph_pipeline h root -> parser_match U set_order c rel fuel h root text = Some (Ok (s, Some m)) -> m_range m = (0, length toks) ->
  exists ha, activated_graph (activate c) (activate_pipeline c) h ha root /\
  exists d w, present d = Some (erase (m_root m)) /\ traced g (fun _ => None) d w /\ words_of U set_order KNone ha root w /\ spells U w toks 0 (length toks) /\
    forall w', words_of U set_order KNone ha root w' -> spells U w' toks 0 (length toks) -> w' = w \/ sooner w w'.
Proof. exact matched_whole_reading. Qed.
Print Assumptions whole_match_is_the_earliest_reading.
Theorem fact_of_a_whole_match :
  forall U set_order c, set_iteration set_order -> forall rel schemes subclass inflect interps fuel h root, built h -> flat h root -> is_rule_at h root -> top not_once h root ->
  forall g, parser_grammar U set_order c fuel h root = Some (Ok g) -> g_interp g (g_start g) <> None ->
  forall toks text, text_tokens c text = Some (Ok toks) -> no_relations_in h root -> timely g -> ~ rule_accepts U set_order c h root [] 0 0 -> no_morph_pipeline h root ->
  forall s m, parser_match U set_order c rel fuel h root text = Some (Ok (s, Some m)) -> m_range m = (0, length toks) ->
  exists ha, activated_graph (activate c) (activate_pipeline c) h ha root /\
  exists w, words_of U set_order KInterp ha root w /\ spells U w toks 0 (length toks) /\
    (forall w', words_of U set_order KInterp ha root w' -> spells U w' toks 0 (length toks) -> w' = w \/ sooner w w') /\
    read_value schemes subclass U inflect interps told_or_not w (tree_tokens s (m_root m)) (match_fact schemes subclass U inflect g interps s m).
Proof. exact matched_whole_value. Qed.
Print Assumptions fact_of_a_whole_match.
(** (See [tall_reading] for what the reading and the fact are.) *)
Example whole_case :
  (exists g toks, usual ASCII first_seen small_context 100 (program expr_program) 0 (str_of "x + ( x )") g toks /\ timely g) /\
  (exists g toks, interpreted_rule ASCII first_seen small_context 100 (program tall_program) 12 (str_of "john old") g toks) /\
  matched_in expr_program 0 (str_of "x + ( x )") = Some (Some (0, 5)) /\ matched_in tall_program 12 (str_of "john old") = Some (Some (0, 2)) /\
  found_in small_context (program expr_program) 0 (str_of "x + ( x )") = Some (Ok [((0, 5), (0%Z, 9%Z))]).
Proof.
  split; [apply timely_ready; vm_compute; reflexivity|]. split; [destruct tall_reading as (g & toks & K & _); exists g, toks; exact K|]. repeat split; vm_compute; reflexivity.
Qed.

(** ** C62: repeated rules, which are a part of themselves, match whole texts only. *)
Theorem match_of_a_repeated_rule_is_of_the_whole_text :
  forall U set_order c, set_iteration set_order -> forall rel fuel h root text, built h -> harmless h root -> is_rule_at h root ->
  forall g toks, parser_grammar U set_order c fuel h root = Some (Ok g) -> text_tokens c text = Some (Ok toks) -> no_relations_in h root -> timely g -> ~ rule_accepts U set_order c h root [] 0 0 ->
  forall r, start_last g -> parser_match U set_order c rel fuel h root text = Some r ->
  (exists s m, r = Ok (s, Some m) /\ m_range m = (0, length toks) /\ rule_accepts U set_order c h root toks 0 (length toks)) \/
  (r = Ok ([], None) /\ ~ rule_accepts U set_order c h root toks 0 (length toks)).
Proof. exact tail_matched. Qed.
Print Assumptions match_of_a_repeated_rule_is_of_the_whole_text.
(** rule('x').repeatable(): the start rule is used. *)
Example repeated_whole :
  (exists g toks, usual ASCII first_seen small_context 100 (program star_program) 2 (str_of "x x x") g toks /\ timely g /\ start_last g) /\ start_usedb star_program 2 = true /\
  matched_in star_program 2 (str_of "x x x") = Some (Some (0, 3)) /\ matched_in star_program 2 (str_of "y x x") = Some None.
Proof. split; [apply last_ready; vm_compute; reflexivity|]. repeat split; vm_compute; reflexivity. Qed.
