(** Properties of rules with optional parts (C79, and C06, C07, C12, C13, C67). *)
From Coq Require String.
From Verif Require Import Base TokenModel EarleyModel EarleySpec PredicateModel PredicateCases PipelineModel PipelineSpec PipelineTheorems TreeModel TreeSpec ParserModel ParserSpec AgreeProofs RuleModel RuleSpec RuleAccept RuleBuild
  GrammarModel GrammarSpec RuleNestSpec RuleTheorems RuleCases TextModel TextSpec SetOrderTheorems RuleAgainCases AbsentSpec AbsentTheorems AbsentPrefer TextAbsent AbsentCases.
Import String.StringSyntax.
Open Scope nat_scope.

(** ** C06 *)
(** Every parse of a grammar whose empty parts are completed in time is found; the full
    claim, for all grammars, is false. *)
Theorem every_parse_found_partial :
  forall {pred} (accepts : pred -> token -> bool) (constrain : pred -> token -> token) g toks fuel all trees i j d,
  predict_sound g -> predict_complete accepts g -> timely g ->
  parse accepts constrain g fuel toks all = Some trees -> derives accepts g toks (TRule (g_start g)) i j d ->
  i <= length toks -> i = 0 \/ all = true -> j = length toks \/ all = true ->
  exists n, In (n, (i, j)) trees /\ erase n = d.
Proof. exact @timely_parse_complete. Qed.
Print Assumptions every_parse_found_partial.
Theorem empty_parts_behind_words_are_in_time :
  forall {token pred} (g : grammar token pred), absent_after_words g -> timely g.
Proof. exact @absent_after_words_timely. Qed.
Print Assumptions empty_parts_behind_words_are_in_time.
Theorem grammars_without_empty_parts_are_in_time :
  forall {token pred} (g : grammar token pred), no_nullable g -> timely g.
Proof. exact @no_nullable_timely. Qed.
Print Assumptions grammars_without_empty_parts_are_in_time.

(** ** C79 *)
(** The claim: what a rule with optional parts accepts is found.  It is false of findall
    ... *)
Theorem findall_finds_optional_parts_refuted :
  exists U set_order c rel fuel h root text g toks,
  (set_iteration set_order /\ built h /\ harmless h root /\ is_rule_at h root /\ no_relations_in h root /\
   parser_grammar U set_order c fuel h root = Some (Ok g) /\ text_tokens c text = Some (Ok toks) /\ ~ rule_accepts U set_order c h root [] 0 0) /\
  rule_accepts U set_order c h root toks 0 (length toks) /\
  exists s ms, parser_findall U set_order c rel fuel h root text = Some (Ok (s, ms)) /\ ~ In (0, length toks) (map m_range ms) /\
    ~ best_ranges (fun x => rule_accepts U set_order c h root toks (fst x) (snd x)) (map m_range ms).
Proof. exact repeated_lost. Qed.
Print Assumptions findall_finds_optional_parts_refuted.
(** ... and of match. *)
Theorem match_finds_optional_parts_refuted :
  exists U set_order c rel fuel h root text g toks,
  (set_iteration set_order /\ built h /\ harmless h root /\ is_rule_at h root /\ no_relations_in h root /\
   parser_grammar U set_order c fuel h root = Some (Ok g) /\ text_tokens c text = Some (Ok toks) /\ ~ rule_accepts U set_order c h root [] 0 0) /\
  rule_accepts U set_order c h root toks 0 (length toks) /\
  parser_match U set_order c rel fuel h root text = Some (Ok ([], None)) /\ parser_findall U set_order c rel fuel h root text = Some (Ok ([], [])).
Proof. exact choices_lost. Qed.
Print Assumptions match_finds_optional_parts_refuted.

(** It holds if the empty parts are completed in time. *)
Theorem findall_finds_optional_parts_partial :
  forall U set_order c, set_iteration set_order -> forall rel fuel h root text, built h -> harmless h root -> is_rule_at h root ->
  forall g toks, parser_grammar U set_order c fuel h root = Some (Ok g) -> text_tokens c text = Some (Ok toks) -> no_relations_in h root -> timely g ->
  ~ rule_accepts U set_order c h root [] 0 0 ->
  forall r, parser_findall U set_order c rel fuel h root text = Some r ->
  exists s ms, r = Ok (s, ms) /\ best_ranges (fun x => rule_accepts U set_order c h root toks (fst x) (snd x)) (map m_range ms).
Proof. exact text_findall_timely. Qed.
Print Assumptions findall_finds_optional_parts_partial.
Theorem match_finds_optional_parts_partial :
  forall U set_order c, set_iteration set_order -> forall rel fuel h root text, built h -> harmless h root -> is_rule_at h root ->
  forall g toks, parser_grammar U set_order c fuel h root = Some (Ok g) -> text_tokens c text = Some (Ok toks) -> no_relations_in h root -> timely g ->
  ~ rule_accepts U set_order c h root [] 0 0 ->
  forall r, parser_match U set_order c rel fuel h root text = Some r ->
  (exists s m, r = Ok (s, Some m) /\ snd (m_range m) = length toks /\ rule_accepts U set_order c h root toks (fst (m_range m)) (snd (m_range m)) /\ (start_not_used g -> fst (m_range m) = 0)) \/
  (r = Ok ([], None) /\ ~ rule_accepts U set_order c h root toks 0 (length toks)).
Proof. exact text_match_timely. Qed.
Print Assumptions match_finds_optional_parts_partial.
(** The rounds of a grammar can be computed. *)
Theorem in_time_by_computation :
  forall {token pred} (g : grammar token pred) rules, (forall r, ~ In r rules -> g_prods g r = []) -> timelyb g rules = true -> timely g.
Proof. exact @timelyb_true. Qed.
Print Assumptions in_time_by_computation.

Example optional_case :
  (exists g toks, usual ASCII first_seen small_context 100 (program optional_program) 13 (str_of "a c x x y x c a x y") g toks /\ timely g) /\
  found_in small_context (program optional_program) 13 (str_of "a c x x y x c a x y") = Some (Ok [((0, 6), (0%Z, 11%Z)); ((7, 10), (14%Z, 19%Z))]) /\
  matched_in optional_program 13 (str_of "a c x x y x") = Some (Some (0, 6)) /\ matched_in optional_program 13 (str_of "a c x x y c") = Some None.
Proof. split; [apply timely_ready; vm_compute; reflexivity|]. repeat split; vm_compute; reflexivity. Qed.
Example out_of_time_case :
  timely_program repeated_program 7 = false /\ timely_program choices_program 15 = false /\
  found_in small_context (program repeated_program) 7 (str_of "x x x x") = Some (Ok [((0, 3), (0%Z, 5%Z)); ((3, 4), (6%Z, 7%Z))]) /\
  found_in small_context (program repeated_program) 7 (str_of "x x x") = Some (Ok [((0, 3), (0%Z, 5%Z))]).
Proof. repeat split; vm_compute; reflexivity. Qed.

(** ** C07, C12, C13: which derivation is reported *)
Theorem match_best_derivation_with_optional_parts :
  forall pred (accepts : pred -> token -> bool) constrain rel g toks,
  relation_free g -> predict_sound g -> predict_complete accepts g -> predict_filters g -> timely g -> ~ nullable g (TRule (g_start g)) ->
  forall fuel r, start_not_used g -> match_ accepts constrain rel g fuel toks = Some r ->
  (exists s m d, r = Ok (s, Some m) /\ m_range m = (0, length toks) /\ best_derivation accepts g toks 0 (length toks) d /\ present d = Some (erase (m_root m)) /\
     exists trees n, parse accepts constrain g fuel toks false = Some trees /\ In (n, (0, length toks)) trees /\ erase n = d /\ m_tokens m = tokens_of n /\ get_tokens_span (m_tokens m) = Ok (m_span m)) \/
  (r = Ok ([], None) /\ forall d, ~ derives accepts g toks (TRule (g_start g)) 0 (length toks) d).
Proof. exact @timely_match_best. Qed.
Print Assumptions match_best_derivation_with_optional_parts.
Theorem findall_best_derivations_with_optional_parts :
  forall pred (accepts : pred -> token -> bool) constrain rel g toks,
  relation_free g -> predict_sound g -> predict_complete accepts g -> predict_filters g -> timely g -> ~ nullable g (TRule (g_start g)) ->
  forall fuel r, findall accepts constrain rel g fuel toks = Some r ->
  exists s ms trees, r = Ok (s, ms) /\ parse accepts constrain g fuel toks true = Some trees /\
    best_ranges (fun r => exists d, derives accepts g toks (TRule (g_start g)) (fst r) (snd r) d) (map m_range ms) /\
    forall m, In m ms -> exists d, best_derivation accepts g toks (fst (m_range m)) (snd (m_range m)) d /\ present d = Some (erase (m_root m)) /\
      exists n, In (n, m_range m) trees /\ erase n = d /\ m_tokens m = tokens_of n /\ get_tokens_span (m_tokens m) = Ok (m_span m).
Proof. exact @timely_findall_best. Qed.
Print Assumptions findall_best_derivations_with_optional_parts.
Theorem match_findall_agree_with_optional_parts_partial :
  forall pred (accepts : pred -> token -> bool) constrain rel g toks,
  relation_free g -> predict_sound g -> predict_complete accepts g -> predict_filters g -> timely g -> ~ nullable g (TRule (g_start g)) ->
  forall fuel fuel' s m r, start_not_used g -> match_ accepts constrain rel g fuel toks = Some (Ok (s, Some m)) -> findall accepts constrain rel g fuel' toks = Some r ->
  exists s' m', r = Ok (s', [m']) /\ m_range m' = m_range m /\ erase (m_root m') = erase (m_root m) /\ m_tokens m' = m_tokens m /\ m_span m' = m_span m.
Proof. exact @timely_agree. Qed.
Print Assumptions match_findall_agree_with_optional_parts_partial.

(** ** C67 *)
Theorem earliest_alternatives_are_read_with_optional_parts :
  forall U set_order c, set_iteration set_order -> forall rel fuel h root text, built h -> harmless h root -> is_rule_at h root ->
  forall g toks, parser_grammar U set_order c fuel h root = Some (Ok g) -> text_tokens c text = Some (Ok toks) -> no_relations_in h root -> timely g ->
  ~ rule_accepts U set_order c h root [] 0 0 ->
  forall s ms, flat h root -> no_morph_pipeline h root -> parser_findall U set_order c rel fuel h root text = Some (Ok (s, ms)) ->
  exists ha, activated_graph (activate c) (activate_pipeline c) h ha root /\
  forall m, In m ms -> exists d w, present d = Some (erase (m_root m)) /\ traced g (fun _ => None) d w /\ words_of U set_order KNone ha root w /\ spells U w toks (fst (m_range m)) (snd (m_range m)) /\
    forall w', words_of U set_order KNone ha root w' -> spells U w' toks (fst (m_range m)) (snd (m_range m)) -> w' = w \/ sooner w w'.
Proof. exact text_readings_timely. Qed.
Print Assumptions earliest_alternatives_are_read_with_optional_parts.
Theorem earliest_alternatives_are_matched_with_optional_parts :
  forall U set_order c, set_iteration set_order -> forall rel fuel h root text, built h -> harmless h root -> is_rule_at h root ->
  forall g toks, parser_grammar U set_order c fuel h root = Some (Ok g) -> text_tokens c text = Some (Ok toks) -> no_relations_in h root -> timely g ->
  ~ rule_accepts U set_order c h root [] 0 0 ->
  forall s m, flat h root -> no_morph_pipeline h root -> start_not_used g -> parser_match U set_order c rel fuel h root text = Some (Ok (s, Some m)) ->
  exists ha, activated_graph (activate c) (activate_pipeline c) h ha root /\ m_range m = (0, length toks) /\
  exists d w, present d = Some (erase (m_root m)) /\ traced g (fun _ => None) d w /\ words_of U set_order KNone ha root w /\ spells U w toks 0 (length toks) /\
    forall w', words_of U set_order KNone ha root w' -> spells U w' toks 0 (length toks) -> w' = w \/ sooner w w'.
Proof. exact match_reading_timely. Qed.
Print Assumptions earliest_alternatives_are_matched_with_optional_parts.
(** An optional part is left out if that is possible, unless it is optional(reverse=True). *)
Example either_case :
  let a := PEq (str_of "a") in let z := PEq (str_of "z") in
  (forall reverse, exists g toks, usual ASCII first_seen small_context 100 (program (either_program reverse)) 7 (str_of "a x z") g toks /\ timely g) /\
  leaf_predicates (either_program false) 7 (str_of "a x z") = Some [[a; PCaseless (str_of "x"); z]] /\
  leaf_predicates (either_program true) 7 (str_of "a x z") = Some [[a; PEq (str_of "x"); z]].
Proof. split; [intros []; apply timely_ready; vm_compute; reflexivity|]. split; vm_compute; reflexivity. Qed.
