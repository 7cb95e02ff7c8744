(** * C82: a text is searched piece by piece
    See PieceSpec for [separates] (a character of no token), [moved] (a token further on),
    [shown] (range, span, tokens and derivation of a match) and [later]. *)
From Coq Require String.
From Verif Require Import Base TokenModel EarleyModel EarleySpec TokenizerModel TokenizerSpec TokenizerTheorems TaggerModel PredicateModel PredicateSpec PredicateCases PipelineModel PipelineSpec PipelineTheorems
  ParserModel ParserSpec RuleModel RuleSpec RuleBuild GrammarModel GrammarSpec RuleNestSpec TextModel TextSpec AbsentSpec AbsentCases Cases RuleCases RuleAgainCases
  PieceSpec PieceTokens PieceTheorems PieceCases.
Import String.StringSyntax.
Open Scope nat_scope.

(** Two texts with a character of no token between them: no word the rule accepts lies
    on both sides, and still something else is found than in the two texts. *)
Theorem texts_are_searched_piece_by_piece_refuted :
  exists U set_order c rel fuel h root a x b g toks ts ts' s s1 s2 ms ms1 ms2,
  usual U set_order c fuel h root (a ++ x :: b) g toks /\ blind_rule U c h root /\ no_morph_pipeline h root /\ separates (c_tokenizer c) x /\ tags_apart c /\
  text_tokens c a = Some (Ok ts) /\ text_tokens c b = Some (Ok ts') /\
  (forall i j, rule_accepts U set_order c h root toks i j -> j <= length ts \/ length ts <= i) /\
  parser_findall U set_order c rel fuel h root (a ++ x :: b) = Some (Ok (s, ms)) /\
  parser_findall U set_order c rel fuel h root a = Some (Ok (s1, ms1)) /\ parser_findall U set_order c rel fuel h root b = Some (Ok (s2, ms2)) /\
  map m_range ms <> map m_range ms1 ++ map (later_range (length ts)) (map m_range ms2).
Proof. exact pieces_differ. Qed.
Print Assumptions texts_are_searched_piece_by_piece_refuted.

(** When empty parts are completed in time, the matches are those of the first text
    followed by those of the second one, further on.  Missing: rules whose empty parts
    are completed too late, rules with relations. *)
Theorem texts_are_searched_piece_by_piece_partial :
  forall U set_order c, set_iteration set_order -> forall rel fuel h root, built h -> harmless h root -> is_rule_at h root ->
  forall g, parser_grammar U set_order c fuel h root = Some (Ok g) -> no_relations_in h root -> timely g -> ~ rule_accepts U set_order c h root [] 0 0 -> blind_rule U c h root ->
  forall a b x, separates (c_tokenizer c) x -> tags_apart c ->
  forall ts ts', text_tokens c a = Some (Ok ts) -> text_tokens c b = Some (Ok ts') ->
  (forall toks, text_tokens c (a ++ x :: b) = Some (Ok toks) -> forall i j, rule_accepts U set_order c h root toks i j -> j <= length ts \/ length ts <= i) ->
  no_morph_pipeline h root ->
  forall s s1 s2 ms ms1 ms2,
  parser_findall U set_order c rel fuel h root (a ++ x :: b) = Some (Ok (s, ms)) ->
  parser_findall U set_order c rel fuel h root a = Some (Ok (s1, ms1)) -> parser_findall U set_order c rel fuel h root b = Some (Ok (s2, ms2)) ->
  map shown ms = map shown ms1 ++ map (later (length ts) (Z.of_nat (S (length a)))) (map shown ms2).
Proof. exact text_findall_join. Qed.
Print Assumptions texts_are_searched_piece_by_piece_partial.
(** With morphological dictionaries: the same ranges and spans. *)
Theorem places_found_piece_by_piece_partial :
  forall U set_order c, set_iteration set_order -> forall rel fuel h root, built h -> harmless h root -> is_rule_at h root ->
  forall g, parser_grammar U set_order c fuel h root = Some (Ok g) -> no_relations_in h root -> timely g -> ~ rule_accepts U set_order c h root [] 0 0 -> blind_rule U c h root ->
  forall a b x, separates (c_tokenizer c) x -> tags_apart c ->
  forall ts ts', text_tokens c a = Some (Ok ts) -> text_tokens c b = Some (Ok ts') ->
  (forall toks, text_tokens c (a ++ x :: b) = Some (Ok toks) -> forall i j, rule_accepts U set_order c h root toks i j -> j <= length ts \/ length ts <= i) ->
  forall s s1 s2 ms ms1 ms2,
  parser_findall U set_order c rel fuel h root (a ++ x :: b) = Some (Ok (s, ms)) ->
  parser_findall U set_order c rel fuel h root a = Some (Ok (s1, ms1)) -> parser_findall U set_order c rel fuel h root b = Some (Ok (s2, ms2)) ->
  map (fun m => (m_range m, m_span m)) ms =
    map (fun m => (m_range m, m_span m)) ms1 ++ map (fun m => (later_range (length ts) (m_range m), later_span (Z.of_nat (S (length a))) (m_span m))) ms2.
Proof. exact text_ranges_join. Qed.
Print Assumptions places_found_piece_by_piece_partial.

(** The tokens of such a text. *)
Theorem tokens_of_joined_texts :
  forall c a b x ts ts', separates (c_tokenizer c) x -> tags_apart c -> text_tokens c a = Some (Ok ts) -> text_tokens c b = Some (Ok ts') ->
  text_tokens c (a ++ x :: b) = Some (Ok (ts ++ map (moved (Z.of_nat (S (length a)))) ts')).
Proof. exact text_tokens_join. Qed.
Print Assumptions tokens_of_joined_texts.
(** White space without line ends is in no token of the default tokenizer. *)
Theorem white_space_separates :
  forall C t x, sane C -> default_tokenizer C = Ok t -> ~ visible C x -> ~ eol_char C x -> separates t x.
Proof. exact default_separates. Qed.
Print Assumptions white_space_separates.
(** Only predicate classes of the user can look at positions. *)
Theorem bank_predicates_ignore_positions :
  forall U c h root, (forall x ts main p, reach h root x -> nth_error h x = Some (OProd ts main) -> In (TPred p) ts -> forall f, ~ inside (PUser f) p) -> blind_rule U c h root.
Proof. exact bank_rule_blind. Qed.
Print Assumptions bank_predicates_ignore_positions.
Theorem composed_taggers_tag_apart :
  forall t m tgs, (forall tg, In tg tgs -> tags_apart (mkContext t m (Some tg))) -> tags_apart (mkContext t m (Some (TaggersComposition tgs))).
Proof. exact composed_apart. Qed.
Print Assumptions composed_taggers_tag_apart.

(** Nothing crosses the border, and the two matches stay what they are. *)
Example pieces_case :
  (exists g toks, usual ASCII first_seen small_context 100 (program optional_program) 13 (str_of "a c x x y x" ++ space :: str_of "c a x y") g toks /\ timely g /\
    forall i j, rule_accepts ASCII first_seen small_context (program optional_program) 13 toks i j -> j <= 6 \/ 6 <= i) /\
  blind_rule ASCII small_context (program optional_program) 13 /\ separates (c_tokenizer small_context) space /\ tags_apart small_context /\
  option_map (fun r => let! ts := r in Ok (length ts)) (text_tokens small_context (str_of "a c x x y x")) = Some (Ok 6) /\
  found_in small_context (program optional_program) 13 (str_of "a c x x y x") = Some (Ok [((0, 6), (0%Z, 11%Z))]) /\
  found_in small_context (program optional_program) 13 (str_of "c a x y") = Some (Ok [((1, 4), (2%Z, 7%Z))]) /\
  found_in small_context (program optional_program) 13 (str_of "a c x x y x" ++ space :: str_of "c a x y") = Some (Ok [((0, 6), (0%Z, 11%Z)); ((7, 10), (14%Z, 19%Z))]).
Proof.
  split.
  - destruct (timely_ready optional_program 13 (str_of "a c x x y x" ++ space :: str_of "c a x y")) as (g & toks & Us & T); [vm_compute; reflexivity|vm_compute; reflexivity|].
    exists g, toks. split; [exact Us|]. split; [exact T|]. apply (apart_in_true _ _ _ 6 g toks Us T). vm_compute. reflexivity.
  - split; [apply bank_programb_true; vm_compute; reflexivity|]. split; [apply small_separates; [vm_compute; discriminate|intros (y & I & J); vm_compute in I; intuition congruence]|].
    split; [exact small_tags|]. repeat split; vm_compute; reflexivity.
Qed.
(** A line end is a token, so it does not separate in this sense; a piece that does
    cross the border is found in the joined text only. *)
Example crossing_case :
  found_in small_context (program optional_program) 13 (str_of "a c" ++ space :: str_of "x y") = Some (Ok [((0, 4), (0%Z, 7%Z))]) /\
  found_in small_context (program optional_program) 13 (str_of "a c") = Some (Ok []) /\ found_in small_context (program optional_program) 13 (str_of "x y") = Some (Ok []).
Proof. repeat split; vm_compute; reflexivity. Qed.
(** The text that refutes the unrestricted claim. *)
Example late_case :
  timely_program after_program 10 = false /\
  found_in small_context (program after_program) 10 (str_of "z a x x") = Some (Ok [((1, 3), (2%Z, 5%Z))]) /\
  found_in small_context (program after_program) 10 (str_of "z") = Some (Ok []) /\ found_in small_context (program after_program) 10 (str_of "a x x") = Some (Ok [((0, 3), (0%Z, 5%Z))]).
Proof. repeat split; vm_compute; reflexivity. Qed.
