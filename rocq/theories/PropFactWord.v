(** Property C100: the fact of a match is what the interpretations of the rule, as it was
    written, say of its reading. *)
From Coq Require String.
From Verif Require Import Base TokenModel EarleyModel EarleySpec TreeModel TreeSpec ParserModel ParserSpec PredicateModel Cases PredicateCases PipelineModel PipelineSpec PipelineTheorems
  RuleModel RuleSpec RuleAccept RuleNormalized InterpModel InterpSpec InterpCases RuleBuild GrammarModel GrammarSpec RuleNestSpec RuleMild RuleTheorems RuleCases TextModel TextSpec SetOrderTheorems TextTheorems
  AbsentSpec AbsentCases FactWordSpec FactWordProofs FactWordCases.
Import String.StringSyntax.
Open Scope nat_scope.

(** However the match was obtained, and with relations too. *)
Theorem fact_is_value_of_a_reading :
  forall U set_order c, set_iteration set_order -> forall rel schemes subclass inflect interps fuel h root, built h -> flat h root -> is_rule_at h root -> top not_once h root ->
  forall g, parser_grammar U set_order c fuel h root = Some (Ok g) -> g_interp g (g_start g) <> None ->
  forall toks s m, InterpSpec.reported (accepts U) narrow rel g fuel toks s m ->
  exists ha, activated_graph (activate c) (activate_pipeline c) h ha root /\
  exists w, words_of U set_order KInterp ha root w /\ spells U w toks (fst (m_range m)) (snd (m_range m)) /\
    read_value schemes subclass U inflect interps told_or_not w (tree_tokens s (m_root m)) (match_fact schemes subclass U inflect g interps s m).
Proof. exact reported_value. Qed.
Print Assumptions fact_is_value_of_a_reading.

(** There is an interpretation to be had whenever the rule given to the parser was made by
    .interpretation(..) and is not a part of itself. *)
Theorem interpretation_of_the_root_is_kept :
  forall U set_order c fuel h root r i g, built h -> flat h root -> top not_once h root -> nth_error h root = Some (OInterp r i) ->
  parser_grammar U set_order c fuel h root = Some (Ok g) -> g_interp g (g_start g) = Some i.
Proof. exact root_starts. Qed.
Print Assumptions interpretation_of_the_root_is_kept.
Example root_case :
  (exists g toks, interpreted_rule ASCII first_seen small_context 100 (program tall_program) 12 (str_of "john old") g toks) /\
  nth_error (program tall_program) 12 = Some (OInterp 11 0) /\
  match parser_grammar ASCII first_seen small_context 100 (program tall_program) 12 with Some (Ok g) => g_interp g (g_start g) | _ => None end = Some 0.
Proof. split; [destruct tall_reading as (g & toks & K & _); exists g, toks; exact K|split; vm_compute; reflexivity]. Qed.

(** Of several readings of the range it is the earliest. *)
Theorem fact_is_value_of_the_earliest_reading :
  forall U set_order c, set_iteration set_order -> forall rel schemes subclass inflect interps fuel h root, built h -> flat h root -> is_rule_at h root -> top not_once h root ->
  forall g, parser_grammar U set_order c fuel h root = Some (Ok g) -> g_interp g (g_start g) <> None ->
  forall toks text, text_tokens c text = Some (Ok toks) -> no_relations_in h root -> timely g -> ~ rule_accepts U set_order c h root [] 0 0 -> no_morph_pipeline h root ->
  forall s ms, parser_findall U set_order c rel fuel h root text = Some (Ok (s, ms)) ->
  exists ha, activated_graph (activate c) (activate_pipeline c) h ha root /\
  forall m, In m ms -> exists w, words_of U set_order KInterp ha root w /\ spells U w toks (fst (m_range m)) (snd (m_range m)) /\
    (forall w', words_of U set_order KInterp ha root w' -> spells U w' toks (fst (m_range m)) (snd (m_range m)) -> w' = w \/ sooner w w') /\
    read_value schemes subclass U inflect interps told_or_not w (tree_tokens s (m_root m)) (match_fact schemes subclass U inflect g interps s m).
Proof. exact findall_value. Qed.
Print Assumptions fact_is_value_of_the_earliest_reading.
(** john, old, with a tag left out. *)
Example tall_case :
  (exists g toks, interpreted_rule ASCII first_seen small_context 100 (program tall_program) 12 (str_of "john old") g toks /\
   exists s m, parser_findall ASCII first_seen small_context no_relations 100 (program tall_program) 12 (str_of "john old") = Some (Ok (s, [m])) /\
   tree_tokens s (m_root m) = tall_tokens /\ match_fact classes same_class ASCII no_inflect g person_interps s m = tall_fact /\
   exists ha, activated_graph (activate small_context) (activate_pipeline small_context) (program tall_program) ha 12 /\
   words_of ASCII first_seen KInterp ha 12 tall_word /\ spells ASCII tall_word toks (fst (m_range m)) (snd (m_range m)) /\
   forall w', words_of ASCII first_seen KInterp ha 12 w' -> spells ASCII w' toks (fst (m_range m)) (snd (m_range m)) -> w' = tall_word \/ sooner tall_word w') /\
  attrs_of tall_fact = [(k "name", VStr (k "john")); (k "age", VStr (k "adult")); (k "tags", VList [VStr (k "old")])].
Proof. split; [exact tall_reading|vm_compute; reflexivity]. Qed.
Theorem matched_fact_is_value_of_the_earliest_reading :
  forall U set_order c, set_iteration set_order -> forall rel schemes subclass inflect interps fuel h root, built h -> flat h root -> is_rule_at h root -> top not_once h root ->
  forall g, parser_grammar U set_order c fuel h root = Some (Ok g) -> g_interp g (g_start g) <> None ->
  forall toks text, text_tokens c text = Some (Ok toks) -> no_relations_in h root -> timely g -> ~ rule_accepts U set_order c h root [] 0 0 -> no_morph_pipeline h root ->
  forall s m, start_not_used g -> parser_match U set_order c rel fuel h root text = Some (Ok (s, Some m)) ->
  exists ha, activated_graph (activate c) (activate_pipeline c) h ha root /\
  exists w, words_of U set_order KInterp ha root w /\ spells U w toks 0 (length toks) /\
    (forall w', words_of U set_order KInterp ha root w' -> spells U w' toks 0 (length toks) -> w' = w \/ sooner w w') /\
    read_value schemes subclass U inflect interps told_or_not w (tree_tokens s (m_root m)) (match_fact schemes subclass U inflect g interps s m).
Proof. exact match_value. Qed.
Print Assumptions matched_fact_is_value_of_the_earliest_reading.

(** For rules without parts that may be absent, and without relations, nothing has to be
    asked of the grammar. *)
Theorem facts_of_rules_without_optional_parts :
  forall U set_order c, set_iteration set_order -> forall rel schemes subclass inflect interps fuel h root r i, built h -> flat h root -> top not_once h root ->
  nth_error h root = Some (OInterp r i) -> solid h root -> no_morph_pipeline h root ->
  forall text s ms, parser_findall U set_order c rel fuel h root text = Some (Ok (s, ms)) ->
  exists g toks ha, parser_grammar U set_order c fuel h root = Some (Ok g) /\ text_tokens c text = Some (Ok toks) /\ activated_graph (activate c) (activate_pipeline c) h ha root /\
  forall m, In m ms -> exists w, words_of U set_order KInterp ha root w /\ spells U w toks (fst (m_range m)) (snd (m_range m)) /\
    (forall w', words_of U set_order KInterp ha root w' -> spells U w' toks (fst (m_range m)) (snd (m_range m)) -> w' = w \/ sooner w w') /\
    read_value schemes subclass U inflect interps told_or_not w (tree_tokens s (m_root m)) (match_fact schemes subclass U inflect g interps s m).
Proof. exact solid_facts. Qed.
Print Assumptions facts_of_rules_without_optional_parts.
Example solid_case :
  (exists g toks, interpreted_rule ASCII first_seen small_context 100 (program (shared_program false)) 4 (str_of "b b") g toks) /\ solid (program (shared_program false)) 4 /\
  names_in (facts_in shared_interps (shared_program false) 4 (str_of "b b")) = Some [Some (VStr (str_of "B"))].
Proof. split; [apply interpretedb_true; vm_compute; reflexivity|]. split; [apply solidb_true; vm_compute; reflexivity|vm_compute; reflexivity]. Qed.

(** A reading without lines of dictionaries has exactly one value. *)
Theorem reading_has_one_value :
  forall pred schemes subclass U inflect interps (w : word (pred := pred)) ts v v', (forall line, ~ In (SLine line) w) ->
  read_value schemes subclass U inflect interps told_or_not w ts v -> read_value schemes subclass U inflect interps told_or_not w ts v' -> v = v'.
Proof. exact @one_value_lineless. Qed.
Print Assumptions reading_has_one_value.
(** So has any reading, if each interpretator that gets a line is told it. *)
Theorem told_reading_has_one_value :
  forall pred schemes subclass U inflect interps (w : word (pred := pred)) ts v v',
  read_value schemes subclass U inflect interps told_line w ts v -> read_value schemes subclass U inflect interps told_line w ts v' -> v = v'.
Proof. exact @one_value. Qed.
Print Assumptions told_reading_has_one_value.

(** But it is not always told: a dictionary used in two places. *)
Theorem line_is_told_refuted : exists U set_order c rel schemes subclass inflect interps fuel h root text g toks, interpreted_rule U set_order c fuel h root text g toks /\
  exists s m, parser_findall U set_order c rel fuel h root text = Some (Ok (s, [m])) /\
  exists ha w, activated_graph (activate c) (activate_pipeline c) h ha root /\
  words_of U set_order KInterp ha root w /\ spells U w toks (fst (m_range m)) (snd (m_range m)) /\
  (forall w', words_of U set_order KInterp ha root w' -> spells U w' toks (fst (m_range m)) (snd (m_range m)) -> w' = w \/ sooner w w') /\
  exists v, read_value schemes subclass U inflect interps told_line w (tree_tokens s (m_root m)) v /\ match_fact schemes subclass U inflect g interps s m <> v.
Proof. exact shared_line_lost. Qed.
Print Assumptions line_is_told_refuted.
Example line_case :
  names_in (facts_in shared_interps (shared_program true) 4 (str_of "b b")) = Some [Some (VStr (str_of "b"))] /\
  names_in (facts_in shared_interps (shared_program false) 4 (str_of "b b")) = Some [Some (VStr (str_of "B"))].
Proof. split; vm_compute; reflexivity. Qed.

(** It is told when no rule with an interpretation begins with a dictionary that has none
    (lines_told); then the value is determined by the reading. *)
Theorem line_is_told_partial :
  forall U set_order c, set_iteration set_order -> forall rel schemes subclass inflect interps fuel h root, built h -> flat h root -> is_rule_at h root -> top not_once h root ->
  forall g, parser_grammar U set_order c fuel h root = Some (Ok g) -> g_interp g (g_start g) <> None ->
  lines_told g -> forall toks s m, InterpSpec.reported (accepts U) narrow rel g fuel toks s m ->
  exists ha, activated_graph (activate c) (activate_pipeline c) h ha root /\
  exists w, words_of U set_order KInterp ha root w /\ spells U w toks (fst (m_range m)) (snd (m_range m)) /\
    read_value schemes subclass U inflect interps told_line w (tree_tokens s (m_root m)) (match_fact schemes subclass U inflect g interps s m).
Proof. exact reported_line. Qed.
Print Assumptions line_is_told_partial.
Theorem line_of_the_earliest_reading_is_told_partial :
  forall U set_order c, set_iteration set_order -> forall rel schemes subclass inflect interps fuel h root, built h -> flat h root -> is_rule_at h root -> top not_once h root ->
  forall g, parser_grammar U set_order c fuel h root = Some (Ok g) -> g_interp g (g_start g) <> None ->
  forall toks text, text_tokens c text = Some (Ok toks) -> no_relations_in h root -> timely g -> ~ rule_accepts U set_order c h root [] 0 0 -> no_morph_pipeline h root ->
  lines_told g -> forall s ms, parser_findall U set_order c rel fuel h root text = Some (Ok (s, ms)) ->
  exists ha, activated_graph (activate c) (activate_pipeline c) h ha root /\
  forall m, In m ms -> exists w, words_of U set_order KInterp ha root w /\ spells U w toks (fst (m_range m)) (snd (m_range m)) /\
    (forall w', words_of U set_order KInterp ha root w' -> spells U w' toks (fst (m_range m)) (snd (m_range m)) -> w' = w \/ sooner w w') /\
    read_value schemes subclass U inflect interps told_line w (tree_tokens s (m_root m)) (match_fact schemes subclass U inflect g interps s m).
Proof. exact findall_line. Qed.
Print Assumptions line_of_the_earliest_reading_is_told_partial.
(** Two dictionaries, the second without an interpretation. *)
Example told_case :
  (exists g toks, interpreted_rule ASCII first_seen small_context 100 (program other_program) 5 (str_of "b c") g toks /\ lines_told g) /\
  names_in (facts_in shared_interps other_program 5 (str_of "b c")) = Some [Some (VStr (str_of "B"))].
Proof.
  split; [|vm_compute; reflexivity]. destruct (interpretedb_true other_program 5 (str_of "b c")) as (g & toks & X); [vm_compute; reflexivity|]. exists g, toks. split; [exact X|].
  destruct X as ((_ & _ & _ & _ & _ & G & _) & _). apply (told_program_true other_program 5 g); [vm_compute; reflexivity|exact G].
Qed.
