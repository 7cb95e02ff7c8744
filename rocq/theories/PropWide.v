(** Adding alternatives to a rule (C93). *)
From Coq Require String.
From Verif Require Import Base TokenModel EarleyModel EarleySpec TokenizerModel PredicateModel PipelineModel PipelineSpec PredicateCases ParserModel ParserSpec RuleModel RuleSpec RuleAccept RuleBuild RuleCases
  GrammarModel GrammarSpec RuleNestSpec TextModel TextSpec TextTheorems AbsentSpec PipelineTheorems WideSpec WideProofs.
Import String.StringSyntax.
Open Scope nat_scope.

(** ** C93 *)
(** The claim: or_(…, r, …) finds no less than r.  It is false: with an optional part used by
    two alternatives a match is lost, ... *)
Theorem alternatives_lose_nothing_refuted : exists U set_order c rel fuel h r x rs text s s' m t t' n,
  set_iteration set_order /\ built h /\ harmless h r /\ harmless h x /\ is_rule_at h r /\ is_rule_at h x /\ nth_error h x = Some (OOr rs) /\ In r rs /\
  parser_findall U set_order c rel fuel h r text = Some (Ok (s, [m])) /\ parser_findall U set_order c rel fuel h x text = Some (Ok (s', [])) /\
  parser_match U set_order c rel fuel h r text = Some (Ok (t, Some n)) /\ parser_match U set_order c rel fuel h x text = Some (Ok (t', None)).
Proof. exact lost_alternative. Qed.
Print Assumptions alternatives_lose_nothing_refuted.
(** ... and even without optional parts fewer characters of the text may be found. *)
Theorem alternatives_find_as_many_characters_refuted : exists U set_order c rel fuel h r x rs text g g' s s' ms ms',
  set_iteration set_order /\ sure U set_order c fuel h r g /\ sure U set_order c fuel h x g' /\ nth_error h x = Some (OOr rs) /\ In r rs /\
  parser_findall U set_order c rel fuel h r text = Some (Ok (s, ms)) /\ parser_findall U set_order c rel fuel h x text = Some (Ok (s', ms')) /\
  (characters ms' < characters ms)%Z.
Proof. exact fewer_characters. Qed.
Print Assumptions alternatives_find_as_many_characters_refuted.

(** It holds of parsers that find what their rule accepts ([sure]), counting tokens: findall
    covers no fewer tokens, and every match of the narrower rule has a token in common with a
    match of the wider one; ... *)
Theorem findall_of_more_alternatives_finds_more_partial :
  forall U set_order c, set_iteration set_order ->
  forall rel rel' fuel fuel' h h' root root' g g' text toks r r',
  sure U set_order c fuel h root g -> sure U set_order c fuel' h' root' g' -> text_tokens c text = Some (Ok toks) -> narrower U set_order c h root h' root' toks ->
  parser_findall U set_order c rel fuel h root text = Some r -> parser_findall U set_order c rel' fuel' h' root' text = Some r' ->
  exists s ms s' ms', r = Ok (s, ms) /\ r' = Ok (s', ms') /\ covered (map m_range ms) <= covered (map m_range ms') /\
    forall m, In m ms -> exists m', In m' ms' /\ share (m_range m) (m_range m').
Proof. exact wide_findall. Qed.
Print Assumptions findall_of_more_alternatives_finds_more_partial.
(** ... find finds something that begins before the narrower rule's match ends; ... *)
Theorem find_of_more_alternatives_finds_partial :
  forall U set_order c, set_iteration set_order ->
  forall rel rel' fuel fuel' h h' root root' g g' text toks s m r',
  sure U set_order c fuel h root g -> sure U set_order c fuel' h' root' g' -> text_tokens c text = Some (Ok toks) -> narrower U set_order c h root h' root' toks ->
  parser_find U set_order c rel fuel h root text = Some (Ok (s, Some m)) -> parser_find U set_order c rel' fuel' h' root' text = Some r' ->
  exists s' m', r' = Ok (s', Some m') /\ fst (m_range m') < snd (m_range m).
Proof. exact wide_find. Qed.
Print Assumptions find_of_more_alternatives_finds_partial.
(** ... and match matches the text. *)
Theorem match_of_more_alternatives_matches_partial :
  forall U set_order c, set_iteration set_order ->
  forall rel rel' fuel fuel' h h' root root' g g' text toks s m r',
  sure U set_order c fuel h root g -> sure U set_order c fuel' h' root' g' -> text_tokens c text = Some (Ok toks) -> narrower U set_order c h root h' root' toks ->
  start_not_used g ->
  parser_match U set_order c rel fuel h root text = Some (Ok (s, Some m)) -> parser_match U set_order c rel' fuel' h' root' text = Some r' ->
  exists s' m', r' = Ok (s', Some m').
Proof. exact wide_match. Qed.
Print Assumptions match_of_more_alternatives_matches_partial.

(** or_ of more rules accepts more, and no more than any rule that accepts what they accept. *)
Theorem alternatives_accept_more :
  forall U set_order c h x rs r toks, nth_error h x = Some (OOr rs) -> In r rs -> narrower U set_order c h r h x toks.
Proof. exact or_wider. Qed.
Print Assumptions alternatives_accept_more.
Theorem more_alternatives_accept_more :
  forall U set_order c h x y rs rs' toks, nth_error h x = Some (OOr rs) -> nth_error h y = Some (OOr rs') -> (forall r, In r rs -> In r rs') -> narrower U set_order c h x h y toks.
Proof. exact or_widest. Qed.
Print Assumptions more_alternatives_accept_more.
Theorem alternatives_accept_the_least :
  forall U set_order c h x rs y toks, nth_error h x = Some (OOr rs) -> (forall r, In r rs -> narrower U set_order c h r h y toks) -> narrower U set_order c h x h y toks.
Proof. exact or_least. Qed.
Print Assumptions alternatives_accept_the_least.

(** rule('aaaaaaaaa', 'b') and or_ of it and rule('b', 'c', 'd'): two tokens with 11 characters,
    and three tokens with 5. *)
Example more_alternatives_case :
  (exists g, sure ASCII first_seen small_context 100 short_heap 1 g) /\ (exists g, sure ASCII first_seen small_context 100 short_heap 4 g) /\
  text_found short_program 1 "aaaaaaaaa b c d" = Some (Ok [((0, 2), (0%Z, 11%Z))]) /\ text_found short_program 4 "aaaaaaaaa b c d" = Some (Ok [((1, 4), (10%Z, 15%Z))]).
Proof. exact short_shown. Qed.
