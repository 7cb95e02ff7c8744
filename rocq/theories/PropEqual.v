(** Rules that accept the same texts (C78). *)
From Coq Require String.
From Verif Require Import Base TokenModel EarleyModel EarleySpec PredicateModel PipelineModel PipelineSpec PipelineTheorems PredicateCases
  ParserModel ParserSpec RuleModel RuleSpec RuleBuild GrammarModel GrammarSpec RuleNestSpec RuleTheorems RuleCases TextModel TextSpec TextTheorems EqualSpec TextEqual.
Open Scope nat_scope.

(** ** C78: two rules that accept the same pieces of the text are found at the same places.
    False of the code: the same part written twice is not the part used twice. *)
Theorem equal_rules_are_found_at_the_same_places_refuted :
  exists U set_order c rel fuel h root root' text s s' m,
  set_iteration set_order /\ built h /\ harmless h root /\ harmless h root' /\ is_rule_at h root /\ is_rule_at h root' /\
  (forall toks i j, rule_accepts U set_order c h root toks i j <-> rule_accepts U set_order c h root' toks i j) /\
  parser_findall U set_order c rel fuel h root text = Some (Ok (s, [])) /\ parser_findall U set_order c rel fuel h root' text = Some (Ok (s', [m])).
Proof. exact twins_differ. Qed.
Print Assumptions equal_rules_are_found_at_the_same_places_refuted.

(** It holds for rules without empty parts and relations, however they are written. *)
Theorem equal_rules_are_found_at_the_same_places_partial :
  forall U set_order c, set_iteration set_order -> forall rel rel' fuel fuel' h h' root root' g g' text toks r r',
  ready U set_order c fuel h root g -> ready U set_order c fuel' h' root' g' -> text_tokens c text = Some (Ok toks) ->
  (forall i j, rule_accepts U set_order c h root toks i j <-> rule_accepts U set_order c h' root' toks i j) ->
  parser_findall U set_order c rel fuel h root text = Some r -> parser_findall U set_order c rel' fuel' h' root' text = Some r' ->
  exists s s' ms ms', r = Ok (s, ms) /\ r' = Ok (s', ms') /\ map (fun m => (m_range m, m_span m)) ms = map (fun m => (m_range m, m_span m)) ms'.
Proof. exact equal_findall. Qed.
Print Assumptions equal_rules_are_found_at_the_same_places_partial.
Theorem equal_rules_are_first_found_at_the_same_place_partial :
  forall U set_order c, set_iteration set_order -> forall rel rel' fuel fuel' h h' root root' g g' text toks r r',
  ready U set_order c fuel h root g -> ready U set_order c fuel' h' root' g' -> text_tokens c text = Some (Ok toks) ->
  (forall i j, rule_accepts U set_order c h root toks i j <-> rule_accepts U set_order c h' root' toks i j) ->
  parser_find U set_order c rel fuel h root text = Some r -> parser_find U set_order c rel' fuel' h' root' text = Some r' ->
  exists s s' m m', r = Ok (s, m) /\ r' = Ok (s', m') /\ option_map (fun m => (m_range m, m_span m)) m = option_map (fun m => (m_range m, m_span m)) m'.
Proof. exact equal_find. Qed.
Print Assumptions equal_rules_are_first_found_at_the_same_place_partial.
Theorem equal_rules_match_the_same_texts_partial :
  forall U set_order c, set_iteration set_order -> forall rel rel' fuel fuel' h h' root root' g g' text toks r r',
  ready U set_order c fuel h root g -> ready U set_order c fuel' h' root' g' -> text_tokens c text = Some (Ok toks) ->
  rule_accepts U set_order c h root toks 0 (length toks) <-> rule_accepts U set_order c h' root' toks 0 (length toks) ->
  start_not_used g -> start_not_used g' ->
  parser_match U set_order c rel fuel h root text = Some r -> parser_match U set_order c rel' fuel' h' root' text = Some r' ->
  exists s s' m m', r = Ok (s, m) /\ r' = Ok (s', m') /\ (m = None <-> m' = None).
Proof. exact equal_match. Qed.
Print Assumptions equal_rules_match_the_same_texts_partial.

(** Ways to write the same rule: the order of alternatives and repeated alternatives do not
    matter, or_ inside or_ and rule inside rule can be written out, alternatives inside a
    rule can be moved outside, alternatives of predicates are alternatives of rules. *)
Theorem alternatives_are_a_set :
  forall U set_order c h x y rs rs', nth_error h x = Some (OOr rs) -> nth_error h y = Some (OOr rs') -> (forall r, In r rs <-> In r rs') ->
  same_pieces U set_order c h x y.
Proof. exact or_sets. Qed.
Print Assumptions alternatives_are_a_set.
Theorem nested_alternatives :
  forall U set_order c h x y o a rs b, nth_error h x = Some (OOr (a ++ o :: b)) -> nth_error h o = Some (OOr rs) -> nth_error h y = Some (OOr (a ++ rs ++ b)) ->
  same_pieces U set_order c h x y.
Proof. exact or_nested. Qed.
Print Assumptions nested_alternatives.
Theorem nested_sequences :
  forall U set_order c h x y s a m b, sequence_at h x (a ++ TRule s :: b) -> sequence_at h s m -> sequence_at h y (a ++ m ++ b) ->
  same_pieces U set_order c h x y.
Proof. exact sequence_nested. Qed.
Print Assumptions nested_sequences.
Theorem alternatives_distribute :
  forall U set_order c h x y o a rs b ys, sequence_at h x (a ++ TRule o :: b) -> nth_error h o = Some (OOr rs) ->
  nth_error h y = Some (OOr ys) -> Forall2 (fun r z => sequence_at h z (a ++ TRule r :: b)) rs ys ->
  same_pieces U set_order c h x y.
Proof. exact or_distributes. Qed.
Print Assumptions alternatives_distribute.
Theorem alternatives_of_predicates :
  forall U set_order c h x y ps rs, (forall p, In p ps -> calm U c p) -> sequence_at h x [TPred (POr ps)] -> nth_error h y = Some (OOr rs) ->
  Forall2 (fun p r => sequence_at h r [TPred p]) ps rs -> same_pieces U set_order c h x y.
Proof. exact or_of_predicates. Qed.
Print Assumptions alternatives_of_predicates.

(** rule(or_(eq('a'), eq('b')), 'c') and or_(rule('b', 'c'), rule('a', 'c')): x is 1 with
    its alternatives of predicates, y is 6; 8 and 15 are the two whole rules. *)
Definition equal_program : list rule_call :=
  [CRule [Plain (TPred (POr [PEq (str_of "a"); PEq (str_of "b")]))]; CRule [W "a"]; CRule [W "b"]; COr [3; 5]; CRule [R 1; W "c"]; CRule [R 6; W "c"]; CRule [W "b"; W "c"]; CRule [W "a"; W "c"]; COr [12; 14]].
Example equal_case :
  let h := program equal_program in
  sequence_at h 1 [TPred (POr [PEq (str_of "a"); PEq (str_of "b")])] /\ nth_error h 6 = Some (OOr [3; 5]) /\
  Forall2 (fun p r => sequence_at h r [TPred p]) [PEq (str_of "a"); PEq (str_of "b")] [3; 5] /\
  (forall p, In p [PEq (str_of "a"); PEq (str_of "b")] -> calm ASCII small_context p) /\
  same_pieces ASCII first_seen small_context h 1 6 /\
  (exists g, ready ASCII first_seen small_context 100 h 8 g) /\ (exists g, ready ASCII first_seen small_context 100 h 15 g) /\
  text_found equal_program 8 "a b c a c" = Some (Ok [((1, 3), (2%Z, 5%Z)); ((3, 5), (6%Z, 9%Z))]) /\
  text_found equal_program 15 "a b c a c" = Some (Ok [((1, 3), (2%Z, 5%Z)); ((3, 5), (6%Z, 9%Z))]).
Proof.
  assert (A : sequence_at (program equal_program) 1 [TPred (POr [PEq (str_of "a"); PEq (str_of "b")])]) by (do 2 eexists; split; reflexivity).
  assert (F : Forall2 (fun p r => sequence_at (program equal_program) r [TPred p]) [PEq (str_of "a"); PEq (str_of "b")] [3; 5]) by (repeat constructor; do 2 eexists; split; reflexivity).
  assert (C : forall p, In p [PEq (str_of "a"); PEq (str_of "b")] -> calm ASCII small_context p) by (intros p [<-|[<-|[]]]; eexists; (split; [reflexivity|]); intros t; eexists; reflexivity).
  split; [exact A|]. split; [reflexivity|]. split; [exact F|]. split; [exact C|].
  split; [apply (alternatives_of_predicates _ _ _ _ 1 6 _ [3; 5] C A eq_refl F)|].
  assert (Rd : forall r, is_rule_atb (program equal_program) r = true -> harmlessb (program equal_program) = true -> forallb solid_partb (program equal_program) = true ->
    (exists g, parser_grammar ASCII first_seen small_context 100 (program equal_program) r = Some (Ok g)) -> exists g, ready ASCII first_seen small_context 100 (program equal_program) r g).
  { intros r R H Sd [g G]. assert (B : built (program equal_program)) by (apply program_built; reflexivity). apply is_rule_atb_true in R. exists g. split; [exact B|]. split; [apply harmlessb_true; assumption|]. split; [exact R|]. split; [apply solidb_true; exact Sd|exact G]. }
  split; [apply Rd; [reflexivity..|]|split; [apply Rd; [reflexivity..|]|split; vm_compute; reflexivity]].
  - destruct (parser_grammar ASCII first_seen small_context 100 (program equal_program) 8) as [[g|]|] eqn:E; [eauto|exfalso..]; vm_compute in E; discriminate.
  - destruct (parser_grammar ASCII first_seen small_context 100 (program equal_program) 15) as [[g|]|] eqn:E; [eauto|exfalso..]; vm_compute in E; discriminate.
Qed.
