(** Properties of a Parser applied to a text (C01, C16, C64-C67, C70). *)
From Coq Require String.
From Verif Require Import Base TokenModel EarleyModel EarleySpec TokenizerModel TokenizerSpec TaggerModel PredicateModel PipelineModel PipelineSpec PipelineTheorems PredicateCases
  TreeModel TreeSpec ParserModel ParserSpec RuleModel RuleSpec RuleAccept RuleBuild GrammarModel GrammarSpec RuleNestSpec RuleTheorems RuleCases TextModel TextSpec TextProofs TextTheorems IndexCases SetOrderTheorems TextOrder.
Open Scope nat_scope.

(** ** C01: in the text itself, by the positions of characters. *)
Theorem findall_lists_matches_in_text_order :
  forall U set_order c rel fuel h root text s ms, c_tagger c = None \/ c_tagger c = Some PassTagger ->
  parser_findall U set_order c rel fuel h root text = Some (Ok (s, ms)) ->
  left_to_right 0 (map m_range ms) /\ (forall m, In m ms -> (0 <= fst (m_span m))%Z /\ (snd (m_span m) <= Z.of_nat (length text))%Z) /\
  forall l1 m l2 m' l3, ms = l1 ++ m :: l2 ++ m' :: l3 -> (snd (m_span m) <= fst (m_span m'))%Z.
Proof. exact text_order. Qed.
Print Assumptions findall_lists_matches_in_text_order.
(** With any tagger that gives the tokens in the order of the text. *)
Theorem findall_lists_matches_in_order_of_tagged_tokens :
  forall U set_order c rel fuel h root text toks s ms, text_tokens c text = Some (Ok toks) -> in_order toks ->
  parser_findall U set_order c rel fuel h root text = Some (Ok (s, ms)) ->
  forall l1 m l2 m' l3, ms = l1 ++ m :: l2 ++ m' :: l3 -> (snd (m_span m) <= fst (m_span m'))%Z.
Proof. exact tagged_order. Qed.
Print Assumptions findall_lists_matches_in_order_of_tagged_tokens.
(** A tagger may also give them in another order: then the matches are not in the order of the text. *)
Example reversing_tagger :
  option_map (fun r => let! (s, ms) := r in Ok (map m_span ms))
    (parser_findall ASCII first_seen (mkContext (c_tokenizer small_context) None (Some (UserTagger (@rev token) []))) (fun _ _ _ => true) 100 (program expr_program) 0 (str_of "x y x")) = Some (Ok [(4, 5); (0, 1)]%Z).
Proof. vm_compute. reflexivity. Qed.
Example dropping_tagger :
  let c := mkContext (c_tokenizer small_context) None (Some (UserTagger (filter (fun t => negb (str_eqb (t_value t) (str_of "y")))) [])) in
  exists toks, text_tokens c (str_of "x y x") = Some (Ok toks) /\ in_order toks /\
  option_map (fun r => let! (s, ms) := r in Ok (map m_span ms)) (parser_findall ASCII first_seen c (fun _ _ _ => true) 100 (program expr_program) 0 (str_of "x y x")) = Some (Ok [(0, 1); (4, 5)]%Z).
Proof. eexists. split; [vm_compute; reflexivity|]. split; [apply in_order_two; vm_compute; discriminate|vm_compute; reflexivity]. Qed.
Example text_order_case :
  option_map (fun r => let! (s, ms) := r in Ok (map m_span ms)) (parser_findall ASCII first_seen small_context (fun _ _ _ => true) 100 (program star_program) 2 (str_of "x y x x")) = Some (Ok [(0, 1); (4, 7)]%Z).
Proof. vm_compute. reflexivity. Qed.

(** ** C64 *)
Theorem find_is_the_first_match :
  forall {pred} (accepts : pred -> token -> bool) constrain rel g fuel toks r, find accepts constrain rel g fuel toks = Some r ->
  exists r', findall accepts constrain rel g fuel toks = Some r' /\
  match r, r' with
  | Err e, Err e' => e = e'
  | Ok (_, None), Ok (_, ms) => ms = []
  | Ok (_, Some m), Ok (_, ms) => exists rest, ms = m :: rest /\ forall m', In m' rest -> snd (m_range m) <= fst (m_range m')
  | _, _ => False
  end.
Proof. exact @find_first. Qed.
Print Assumptions find_is_the_first_match.
Theorem parser_find_is_the_first_match :
  forall U set_order c rel fuel h root text r, parser_find U set_order c rel fuel h root text = Some r ->
  exists r', parser_findall U set_order c rel fuel h root text = Some r' /\
  match r, r' with
  | Err e, Err e' => e = e'
  | Ok (_, None), Ok (_, ms) => ms = []
  | Ok (_, Some m), Ok (_, ms) => exists rest, ms = m :: rest /\ forall m', In m' rest -> snd (m_range m) <= fst (m_range m')
  | _, _ => False
  end.
Proof. exact text_find_first. Qed.
Print Assumptions parser_find_is_the_first_match.

Example find_case :
  let on text := option_map (fun r => match r with Ok (_, Some m) => Some (m_range m) | _ => None end)
    (parser_find ASCII first_seen small_context (fun _ _ _ => true) 100 (program expr_program) 0 (str_of text)) in
  on "y x + x y x"%string = Some (Some (1, 4)) /\ text_found expr_program 0 "y x + x y x" = Some (Ok [((1, 4), (2%Z, 7%Z)); ((5, 6), (10%Z, 11%Z))]) /\ on "y y"%string = Some None.
Proof. repeat split; vm_compute; reflexivity. Qed.

(** ** C65 *)
Theorem findall_reports_accepted_text :
  forall U set_order c, set_iteration set_order -> forall rel fuel h root text, built h -> harmless h root -> is_rule_at h root ->
  forall s ms, parser_findall U set_order c rel fuel h root text = Some (Ok (s, ms)) ->
  exists toks, text_tokens c text = Some (Ok toks) /\ forall m, In m ms -> match_of U set_order c h root toks m.
Proof. exact text_findall. Qed.
Print Assumptions findall_reports_accepted_text.
Theorem match_reports_accepted_text :
  forall U set_order c, set_iteration set_order -> forall rel fuel h root text, built h -> harmless h root -> is_rule_at h root ->
  forall s m, parser_match U set_order c rel fuel h root text = Some (Ok (s, Some m)) ->
  exists toks, text_tokens c text = Some (Ok toks) /\ match_of U set_order c h root toks m /\ snd (m_range m) = length toks.
Proof. exact text_match. Qed.
Print Assumptions match_reports_accepted_text.
Theorem extract_reports_accepted_text :
  forall U set_order c, set_iteration set_order -> forall rel fuel h root text, built h -> harmless h root -> is_rule_at h root ->
  forall all ms s e, parser_extract U set_order c rel fuel h root text all = Some (Ok (ms, s, e)) ->
  exists toks, text_tokens c text = Some (Ok toks) /\ forall m, In m ms -> match_of U set_order c h root toks m.
Proof. exact text_extract. Qed.
Print Assumptions extract_reports_accepted_text.
Theorem tokens_spell_the_text :
  forall c text toks, c_tagger c = None \/ c_tagger c = Some PassTagger ->
  text_tokens c text = Some (Ok toks) -> forall t, In t toks -> faithful text t.
Proof. exact text_faithful. Qed.
Print Assumptions tokens_spell_the_text.
(** With a tagger: what it makes of such tokens. *)
Theorem tagger_is_given_the_tokens_of_the_text :
  forall c tg text toks, c_tagger c = Some tg -> text_tokens c text = Some (Ok toks) ->
  exists raw, text_tokens (mkContext (c_tokenizer c) (c_morph c) None) text = Some (Ok raw) /\ toks = tagger_call tg raw.
Proof. exact text_tagged. Qed.
Print Assumptions tagger_is_given_the_tokens_of_the_text.
Example tagged_case :
  let tg := UserTagger (filter (fun t => str_eqb (t_value t) (str_of "x"))) [] in
  option_map (fun r => let! toks := r in Ok (length toks)) (text_tokens small_context (str_of "x + x")) = Some (Ok 3) /\
  option_map (fun r => let! toks := r in Ok (length toks)) (text_tokens (mkContext (c_tokenizer small_context) None (Some tg)) (str_of "x + x")) = Some (Ok 2).
Proof. split; vm_compute; reflexivity. Qed.

Example text_case :
  built (program expr_program) /\ harmless (program expr_program) 0 /\ is_rule_at (program expr_program) 0 /\
  text_found expr_program 0 "x + (x + x) x" = Some (Ok [((0, 7), (0%Z, 11%Z)); ((7, 8), (12%Z, 13%Z))]).
Proof. destruct expr_built as (B & _ & R & _). split; [exact B|]. split; [apply harmlessb_true; [exact B|exact R|reflexivity]|]. split; [exact R|]. vm_compute. reflexivity. Qed.

(** ** C66 *)
Theorem findall_finds_the_best_accepted_text :
  forall U set_order c, set_iteration set_order -> forall rel fuel h root text, built h -> harmless h root -> is_rule_at h root ->
  forall g toks, parser_grammar U set_order c fuel h root = Some (Ok g) -> text_tokens c text = Some (Ok toks) -> solid h root ->
  forall r, parser_findall U set_order c rel fuel h root text = Some r ->
  exists s ms, r = Ok (s, ms) /\ best_ranges (fun x => rule_accepts U set_order c h root toks (fst x) (snd x)) (map m_range ms).
Proof. exact text_findall_best. Qed.
Print Assumptions findall_finds_the_best_accepted_text.
Theorem match_finds_accepted_text :
  forall U set_order c, set_iteration set_order -> forall rel fuel h root text, built h -> harmless h root -> is_rule_at h root ->
  forall g toks, parser_grammar U set_order c fuel h root = Some (Ok g) -> text_tokens c text = Some (Ok toks) -> solid h root ->
  forall r, parser_match U set_order c rel fuel h root text = Some r ->
  (exists s m, r = Ok (s, Some m) /\ snd (m_range m) = length toks /\ rule_accepts U set_order c h root toks (fst (m_range m)) (snd (m_range m)) /\ (start_not_used g -> fst (m_range m) = 0)) \/
  (r = Ok ([], None) /\ ~ rule_accepts U set_order c h root toks 0 (length toks)).
Proof. exact text_match_solid. Qed.
Print Assumptions match_finds_accepted_text.

Example solid_case :
  solid (program expr_program) 0 /\
  (exists g, parser_grammar ASCII first_seen small_context 100 (program expr_program) 0 = Some (Ok g)) /\
  text_found expr_program 0 ") x + x + (x" = Some (Ok [((1, 4), (2%Z, 7%Z)); ((6, 7), (11%Z, 12%Z))]).
Proof.
  split; [apply solidb_true; reflexivity|]. split; [|vm_compute; reflexivity].
  destruct (parser_grammar ASCII first_seen small_context 100 (program expr_program) 0) as [[g|]|] eqn:E; [eauto|exfalso..]; vm_compute in E; discriminate.
Qed.

(** ** C67 *)
Theorem earliest_alternatives_are_read :
  forall U set_order c, set_iteration set_order -> forall rel fuel h root text, built h -> flat h root -> is_rule_at h root ->
  forall g toks, parser_grammar U set_order c fuel h root = Some (Ok g) -> text_tokens c text = Some (Ok toks) -> solid h root ->
  forall s ms, no_morph_pipeline h root -> parser_findall U set_order c rel fuel h root text = Some (Ok (s, ms)) ->
  exists ha, activated_graph (activate c) (activate_pipeline c) h ha root /\
  forall m, In m ms -> exists w, traced g (fun _ => None) (erase (m_root m)) w /\ words_of U set_order KNone ha root w /\ spells U w toks (fst (m_range m)) (snd (m_range m)) /\
    forall w', words_of U set_order KNone ha root w' -> spells U w' toks (fst (m_range m)) (snd (m_range m)) -> w' = w \/ sooner w w'.
Proof. exact text_readings_flat. Qed.
Print Assumptions earliest_alternatives_are_read.

(** or_(rule('x', rule('y')), rule('x', 'y'), rule(rule('x'), 'y')): three readings of 'x y'. *)
Definition three_program : list rule_call :=
  [CRule [W "y"]; CRule [W "x"; R 1]; CRule [W "x"; W "y"]; CRule [W "x"]; CRule [R 7; W "y"]; COr [3; 5; 9]].
Example reading_case :
  let h := program three_program in
  built h /\ flat h 10 /\ is_rule_at h 10 /\ solid h 10 /\ no_morph_pipeline h 10 /\
  (exists g, parser_grammar ASCII first_seen small_context 100 h 10 = Some (Ok g)) /\
  text_found three_program 10 "z x y" = Some (Ok [((1, 3), (2%Z, 5%Z))]).
Proof.
  split; [apply program_built; reflexivity|]. split; [apply flatb_true; reflexivity|]. split; [apply is_rule_atb_true; reflexivity|].
  split; [apply solidb_true; reflexivity|]. split; [apply no_morphb_true; reflexivity|]. split; [|vm_compute; reflexivity].
  destruct (parser_grammar ASCII first_seen small_context 100 (program three_program) 10) as [[g|]|] eqn:E; [eauto|exfalso..]; vm_compute in E; discriminate.
Qed.

(** ** C16 *)
Theorem lookup_keeps_parses :
  forall U set_order c, set_iteration set_order -> forall fuel h root g, built h -> harmless h root -> is_rule_at h root ->
  parser_grammar U set_order c fuel h root = Some (Ok g) -> no_morph_pipeline h root ->
  forall constrain fuel1 fuel2 toks all trees trees',
  parse (accepts U) constrain g fuel1 toks all = Some trees -> parse (accepts U) constrain (without_index g) fuel2 toks all = Some trees' ->
  Forall2 (fun x y => snd x = snd y /\ erase (fst x) = erase (fst y)) trees trees'.
Proof. exact lookup_same_parses. Qed.
Print Assumptions lookup_keeps_parses.
(** With a morph_pipeline and an optional part the lookup changes the parses. *)
Theorem lookup_keeps_parses_refuted :
  exists U set_order c fuel h root g toks trees trees' d,
  set_iteration set_order /\ built h /\ flat h root /\ is_rule_at h root /\ parser_grammar U set_order c fuel h root = Some (Ok g) /\
  parse (accepts U) narrow g fuel toks true = Some trees /\ parse (accepts U) narrow (without_index g) fuel toks true = Some trees' /\
  (exists n, In (n, (0, 1)) trees' /\ erase n = d) /\ ~ exists n, In (n, (0, 1)) trees /\ erase n = d.
Proof. exact morph_parses_refute. Qed.
Print Assumptions lookup_keeps_parses_refuted.

(** The same rule with caseless_pipeline(['steels', 'steels x']). *)
Definition steel_program : list rule_call :=
  [CPipeline (scheme Caseless [str_of "steels"; str_of "steels x"]); CRule [W "x"]; COptional 2 false; CRule [W "y"]; COr [0; 5]; COr [6; 5]; CRule [R 7; R 3];
   CRule [R 0; R 3]; COr [11; 5]; COr [12; 5]; COr [9; 13]].
Example lookup_parses_case :
  let h := program steel_program in
  built h /\ harmless h 14 /\ is_rule_at h 14 /\ no_morph_pipeline h 14 /\
  exists g, parser_grammar ASCII first_seen small_context 200 h 14 = Some (Ok g) /\
  exists trees trees', parse (accepts ASCII) narrow g 200 [steel] true = Some trees /\ parse (accepts ASCII) narrow (without_index g) 200 [steel] true = Some trees' /\
  length trees = 2 /\ length trees' = 2.
Proof.
  split; [apply program_built; reflexivity|]. split; [apply harmlessb_true; [apply (program_built steel_program); reflexivity|apply is_rule_atb_true; reflexivity|reflexivity]|]. split; [apply is_rule_atb_true; reflexivity|]. split; [apply no_morphb_true; reflexivity|].
  eexists. split; [vm_compute; reflexivity|]. eexists. eexists. split; [vm_compute; reflexivity|]. split; [vm_compute; reflexivity|]. split; reflexivity.
Qed.

(** ** C70 *)
Theorem results_do_not_depend_on_set_order :
  forall U order order' c rel fuel h root text, built h -> no_morph_pipeline h root ->
  parser_findall U order c rel fuel h root text = parser_findall U order' c rel fuel h root text /\
  parser_find U order c rel fuel h root text = parser_find U order' c rel fuel h root text /\
  parser_match U order c rel fuel h root text = parser_match U order' c rel fuel h root text /\
  forall all, parser_extract U order c rel fuel h root text all = parser_extract U order' c rel fuel h root text all.
Proof. exact orders_agree. Qed.
Print Assumptions results_do_not_depend_on_set_order.
(** Two iteration orders of the set of normal forms: match reports different lines of a
    morph_pipeline. *)
Theorem morph_results_do_not_depend_on_set_order_refuted :
  exists U order order' c rel fuel h root text g g' s s' m m' line line',
  set_iteration order /\ set_iteration order' /\ built h /\ flat h root /\ is_rule_at h root /\
  parser_grammar U order c fuel h root = Some (Ok g) /\ parser_grammar U order' c fuel h root = Some (Ok g') /\
  parser_match U order c rel fuel h root text = Some (Ok (s, Some m)) /\ parser_match U order' c rel fuel h root text = Some (Ok (s', Some m')) /\
  line_reported g m = Some line /\ line_reported g' m' = Some line' /\ line <> line'.
Proof. exact orders_refute. Qed.
Print Assumptions morph_results_do_not_depend_on_set_order_refuted.

(** steel_program has a caseless dictionary and an optional part. *)
Example set_order_case :
  let h := program steel_program in
  built h /\ no_morph_pipeline h 14 /\ set_iteration first_seen /\ set_iteration last_seen /\ first_seen [noun_word; verb_word] <> last_seen [noun_word; verb_word] /\
  text_found steel_program 14 "a steels x" = Some (Ok [((1, 3), (2%Z, 10%Z))]).
Proof.
  split; [apply program_built; reflexivity|]. split; [apply no_morphb_true; reflexivity|]. split; [exact first_seen_iterates|]. split; [exact last_seen_iterates|]. split; [vm_compute; discriminate|]. vm_compute; reflexivity.
Qed.
