(** * C85: arguments of a wrong type are rejected at the call
    See ArgSpec: [expected] are the types the functions are made for, [let_through] those
    they take, [right_values] further conditions on the values, [written] the heaps of
    programs that call them with anything. *)
From Coq Require String.
From Verif Require Import Base TokenModel EarleyModel TokenizerModel TaggerModel PredicateModel PipelineModel PipelineSpec PipelineTheorems ParserModel RelationModel RuleModel RuleSpec RuleBuild GrammarModel GrammarSpec
  RuleNestSpec TextModel PredicateCases Cases RuleCases SetOrderTheorems TextTheorems RuleAgainCases ArgModel ArgSpec ArgProofs ArgCases.
Import String.StringSyntax.
Open Scope nat_scope.

(** False: rule takes anything as an item, pipeline anything whose elements are strings,
    repeatable anything that counts as false, and True. *)
Theorem wrong_types_are_rejected_refuted :
  exists relation_number iterate_other c1 c2 c3 c4 c5, (forall c, In c [c1; c2; c3; c4; c5] -> ~ expected c /\ exists x, call_value relation_number iterate_other c [] = Ok x) /\
  c1 = ARule [VInt 1] /\ c2 = APipeline Exact (word "abc") /\ c3 = APipeline Exact (VPred (PEq (str_of "a"))) /\
  c4 = ARepeatable (VPred PTrue) (VBool true) VNone (VBool false) /\ c5 = ARepeatable (VPred PTrue) (word "") VNone (VBool false).
Proof. exact wrong_types_refute. Qed.
Print Assumptions wrong_types_are_rejected_refuted.
(** Everything else is rejected: with TypeError, with AttributeError when the method does
    not exist, with ValueError when repeatable rejects the number in the other argument.
    Missing: see above. *)
Theorem wrong_types_are_rejected_partial :
  forall relation_number iterate_other c h, built h -> (forall v e, iterate_other v = Err e -> e = TypeError) -> ~ let_through iterate_other h c ->
  call_value relation_number iterate_other c h = Err TypeError \/
  call_value relation_number iterate_other c h = Err AttributeError /\ no_method c h \/
  call_value relation_number iterate_other c h = Err ValueError /\ exists v mn mx rv, c = ARepeatable v mn mx rv.
Proof. exact rejected. Qed.
Print Assumptions wrong_types_are_rejected_partial.
Example wrong_types_are_rejected_case :
  returned (AAnd [VPred PTrue; VRelation RNumber]) [] = Err TypeError /\ returned (AOr [VPred PTrue; VRule 1]) [ARule [word "a"]] = Err TypeError /\
  returned (ANot (VRule 1)) [ARule [word "a"]] = Err TypeError /\ returned (AMain (word "a")) [] = Err TypeError /\
  returned (APipeline Morph (VList [word "a"; VInt 1])) [] = Err TypeError /\ returned (APipeline Morph (VList [VList [word "a"; word "b"]])) [] = Err TypeError /\
  returned (AOptional (VRule 1) (Some (VInt 1))) [ARule [word "a"]] = Err TypeError /\ returned (AOptional (word "a") None) [] = Err AttributeError /\
  returned (ARepeatable (VRule 1) (word "2") VNone (VBool false)) [ARule [word "a"]] = Err TypeError /\
  returned (ARepeatable (VRule 1) (VInt (-1)) (word "2") (VBool false)) [ARule [word "a"]] = Err ValueError /\
  returned (ANamed (VRule 1) (VInt 1)) [ARule [word "a"]] = Err TypeError /\ returned (AInterpretation (VPred PTrue) (VFact 0)) [] = Err TypeError /\
  returned (AMatch (VPred PTrue) (VPred PTrue)) [] = Err TypeError /\ returned (ADefine (VRule 1) [VRule 1]) [ARule [word "a"]] = Err AttributeError /\
  returned (ADefine (VRule 0) []) [AForward] = Err TypeError.
Proof. repeat split; vm_compute; reflexivity. Qed.

(** Arguments of the right types are not enough either. *)
Theorem right_types_are_taken_refuted : exists relation_number iterate_other c, expected c /\ call_value relation_number iterate_other c [] = Err TypeError.
Proof. exact right_types_refute. Qed.
Print Assumptions right_types_are_taken_refuted.
(** They are exactly when the values are right too: one main term, bounds of at least one and in
    order, a forward rule to define, no forward rule as its definition, and no argument of
    Predicate.optional. *)
Theorem right_types_are_taken_partial :
  forall relation_number iterate_other c h, built h -> expected c -> (exists x, call_value relation_number iterate_other c h = Ok x) <-> right_values h c.
Proof. exact right_calls_return_iff. Qed.
Print Assumptions right_types_are_taken_partial.
Example right_types_are_taken_case :
  returned (ARule [word "a"; VPred PTrue; VRule 1; VMain (TRule 1)]) [ARule [word "a"]] = Ok (VRule 3) /\
  returned (ARule [VMain (TRule 1); VMain (TRule 1)]) [ARule [word "a"]] = Err ValueError /\
  returned (AAnd []) [] = Ok (VPred (PAnd [])) /\ returned (AOr []) [] = Ok (VPred (POr [])) /\
  returned (AOr [VRelation RNumber; VRelation RCase]) [] = Ok (VRelation (ROr [RNumber; RCase])) /\
  returned (APipeline Morph (VList [word "a b"; word "c"])) [] = Ok (VRule 0) /\
  returned (ARepeatable (VPred PTrue) (VInt 2) (VInt 3) (VBool true)) [] = Ok (VRule 2) /\ returned (ARepeatable (VPred PTrue) (VInt 3) (VInt 2) (VBool true)) [] = Err ValueError /\
  returned (ADefine (VRule 1) [word "a"; VRule 0]) [AForward; ANamed (VRule 0) (word "n")] = Ok (VRule 0) /\ returned (ADefine (VRule 1) [VRule 0]) [AForward; AForward] = Err ValueError.
Proof. repeat split; vm_compute; reflexivity. Qed.

(** Whatever programs pass, the rules they make are rules the other theorems speak of. *)
Theorem programs_with_any_arguments_are_built : forall relation_number iterate_other h, written relation_number iterate_other h -> built h.
Proof. exact written_built. Qed.
Print Assumptions programs_with_any_arguments_are_built.
Example wrong_calls_case : written one_number no_list (after_calls wrong_calls) /\
  after_calls wrong_calls = [OProd [TPred (PEq (str_of "a")); TPred (POr [])] 0; ORule [0]; OProd [TPred (POr []); TRule 1] 0; ORule [2]].
Proof. split; [exact wrong_calls_written|vm_compute; reflexivity]. Qed.

(** A rule with an item that is no string, predicate, rule or main term accepts nothing;
    no text has a match of it. *)
Theorem rules_with_wrong_items_accept_nothing :
  forall U set_order c items h r h' v, call_rule items h = Ok (r, h') -> In v items -> ~ an_item v -> forall toks i j, ~ rule_accepts U set_order c h' r toks i j.
Proof. exact wrong_items_accept_nothing. Qed.
Print Assumptions rules_with_wrong_items_accept_nothing.
Theorem rules_with_wrong_items_find_nothing :
  forall U set_order c, set_iteration set_order -> forall rel fuel items h r h' v, built h -> call_rule items h = Ok (r, h') -> (forall u x, In u items -> inside x u -> is_rule_at h x) ->
  In v items -> ~ an_item v -> harmless h' r -> forall text s ms, parser_findall U set_order c rel fuel h' r text = Some (Ok (s, ms)) -> ms = [].
Proof. exact wrong_items_find_nothing. Qed.
Print Assumptions rules_with_wrong_items_find_nothing.
Example rules_with_wrong_items_case :
  found_in small_context (after_calls [ARule [word "a"; VInt 1]]) 1 (str_of "a 1 a") = Some (Ok []) /\
  found_in small_context (after_calls [ARule [word "a"; word "1"]]) 1 (str_of "a 1 a") = Some (Ok [((0, 2), (0%Z, 3%Z))]).
Proof. split; vm_compute; reflexivity. Qed.
(** One string as the lines of a pipeline: its letters are the lines. *)
Theorem one_string_is_taken_letter_by_letter :
  forall relation_number iterate_other k s h, call_value relation_number iterate_other (APipeline k (VStr s)) h = Ok (VRule (length h), h ++ [OPipeline (let lines := map (fun x => [x]) s in
    match k with Exact => PipelineScheme lines | Caseless => CaselessPipelineScheme lines | Morph => MorphPipelineScheme lines end)]).
Proof. exact string_lines. Qed.
Print Assumptions one_string_is_taken_letter_by_letter.
Example letters_are_lines_case :
  found_in small_context (after_calls [APipeline Exact (word "ab")]) 0 (str_of "ab a b") = Some (Ok [((1, 2), (3%Z, 4%Z)); ((2, 3), (5%Z, 6%Z))]) /\
  found_in small_context (after_calls [APipeline Exact (VList [word "ab"])]) 0 (str_of "ab a b") = Some (Ok [((0, 1), (0%Z, 2%Z))]).
Proof. split; vm_compute; reflexivity. Qed.
(** and_() accepts every token, or_() none. *)
Example nothing_given_case :
  found_in small_context (after_calls [ARule [VPred (PAnd [])]]) 1 (str_of "a 1") = Some (Ok [((0, 1), (0%Z, 1%Z)); ((1, 2), (2%Z, 3%Z))]) /\
  found_in small_context (after_calls [ARule [VPred (POr [])]]) 1 (str_of "a 1") = Some (Ok []).
Proof. split; vm_compute; reflexivity. Qed.

(** Parser takes rules only; the tokenizer and the tagger count as false or are what they
    should be. *)
Theorem parsers_are_made_of_rules :
  forall U set_order default fuel rule tokenizer tagger h x, parser_of U set_order default fuel rule tokenizer tagger h = Some (Ok x) ->
  a_rule rule /\ (truth tokenizer = false \/ exists t m, tokenizer = VTokenizer t m) /\ (truth tagger = false \/ exists t, tagger = VTagger t).
Proof. exact parsers_need_rules. Qed.
Print Assumptions parsers_are_made_of_rules.
Theorem parsers_of_wrong_types_raise :
  forall U set_order default fuel rule tokenizer tagger h,
  (truth tokenizer = true -> (forall t m, tokenizer <> VTokenizer t m) -> parser_of U set_order default fuel rule tokenizer tagger h = Some (Err TypeError)) /\
  (truth tagger = true -> (forall t, tagger <> VTagger t) -> parser_of U set_order default fuel rule tokenizer tagger h = Some (Err TypeError)) /\
  (forall tok tg, ~ a_rule rule -> given_tokenizer default tokenizer = Ok tok -> given_tagger tagger = Ok tg ->
   exists e, parser_of U set_order default fuel rule tokenizer tagger h = Some (Err e) /\ (e = AttributeError \/ exists p, rule = VPred p /\ activate (mkContext (fst tok) (snd tok) (Some tg)) p = Err e)).
Proof. exact wrong_parsers_raise. Qed.
Print Assumptions parsers_of_wrong_types_raise.
Example parsers_case :
  let made v tok tag := option_map (fun x => let! _ := x in Ok tt) (parser_of ASCII first_seen (small_tokenizer, None) 100 v tok tag (after_calls [ARule [word "a"]])) in
  made (VRule 1) VNone VNone = Some (Ok tt) /\ made (VRule 1) (VInt 0) (VList []) = Some (Ok tt) /\ made (VRule 1) (VInt 1) VNone = Some (Err TypeError) /\
  made (VRule 1) VNone (VRule 1) = Some (Err TypeError) /\ made (word "a") VNone VNone = Some (Err AttributeError) /\ made (VPred PTrue) VNone VNone = Some (Err AttributeError).
Proof. repeat split; vm_compute; reflexivity. Qed.
