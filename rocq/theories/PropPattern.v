(** Properties of pattern strings (C89). *)
From Coq Require String.
From Verif Require Import Base TokenModel RuleModel TokenizerModel PatternModel PatternSpec PatternProofs PatternTheorems PatternDefaults PatternCases PatternLazy.
Import String.StringSyntax.
Open Scope nat_scope.

(** ** C89 *)
(** Patterns valid alone, rejected together: ([a-z])\1 refers to the group of the rule itself. *)
Theorem valid_patterns_are_accepted_refuted : exists rules es, each_alone rules es /\ distinct_names rules es /\ compile_strings rules = Some (Err ReError).
Proof. exact valid_rejected. Qed.
Print Assumptions valid_patterns_are_accepted_refuted.
(** Accepted, but the pattern that matches alone does not match: \1 refers to the group of another rule. *)
Theorem patterns_match_as_alone_refuted : exists rules es compiled text i, each_alone rules es /\ distinct_names rules es /\ compile_strings rules = Some (Ok compiled) /\
  own_alternatives ascii rules es text i <> [] /\ string_alternatives ascii compiled text i = [].
Proof. exact doubled_missed. Qed.
Print Assumptions patterns_match_as_alone_refuted.
(** Group names: two patterns with the same one are rejected. *)
Theorem group_names_are_local_refuted : exists rules es, each_alone rules es /\ Forall (fun r => unnumbered (sr_pattern r)) rules /\ NoDup (map sr_id rules) /\ compile_strings rules = Some (Err ReError).
Proof. exact names_rejected. Qed.
Print Assumptions group_names_are_local_refuted.
(** A list with an invalid pattern is accepted: the brackets [ and ] as two rules. *)
Theorem invalid_patterns_are_rejected_refuted : exists rules compiled, (exists r, In r rules /\ re_compile (sr_pattern r) = Some (Err ReError)) /\ compile_strings rules = Some (Ok compiled) /\
  tokenize_strings ascii 9 compiled (str_of "[x]") = Some (Ok []) /\
  exists t, tokenize_strings ascii 9 compiled (str_of "u") = Some (Ok [t]) /\ t_type t = str_of "OPEN".
Proof. exact brackets_accepted. Qed.
Print Assumptions invalid_patterns_are_rejected_refuted.
(** A tokenizer with rules raises KeyError. *)
Theorem tokens_have_a_rule_refuted : exists rules compiled text, rules <> [] /\ compile_strings rules = Some (Ok compiled) /\ tokenize_strings ascii 9 compiled text = Some (Err KeyError).
Proof. exact early_key_error. Qed.
Print Assumptions tokens_have_a_rule_refuted.

(** Patterns valid alone, without references by number, names distinct: accepted, and the alternatives at every place are those of the patterns alone. *)
Theorem patterns_match_as_alone_partial :
  forall rules es, each_alone rules es -> Forall (fun r => unnumbered (sr_pattern r)) rules -> distinct_names rules es -> rules <> [] ->
  exists compiled, compile_strings rules = Some (Ok compiled) /\ forall C text i, string_alternatives C compiled text i = own_alternatives C rules es text i.
Proof. exact joined_alone. Qed.
Print Assumptions patterns_match_as_alone_partial.
Theorem tokens_come_from_first_rule_partial :
  forall rules es compiled C fuel text tokens t,
  each_alone rules es -> Forall (fun r => unnumbered (sr_pattern r)) rules -> distinct_names rules es -> rules <> [] ->
  compile_strings rules = Some (Ok compiled) -> tokenize_strings C fuel compiled text = Some (Ok tokens) -> In t tokens ->
  exists s e, t_start t = Z.of_nat s /\ t_stop t = Z.of_nat e /\ t_value t = slice text s e /\ from_rule C rules es text s e (t_type t).
Proof. exact tokens_own. Qed.
Print Assumptions tokens_come_from_first_rule_partial.
(** The tokens cannot fail for lack of a rule. *)
Theorem tokens_have_a_rule_partial :
  forall rules es compiled C fuel text r,
  each_alone rules es -> Forall (fun r => unnumbered (sr_pattern r)) rules -> distinct_names rules es -> rules <> [] ->
  compile_strings rules = Some (Ok compiled) -> tokenize_strings C fuel compiled text = Some r -> exists tokens, r = Ok tokens.
Proof. exact tokens_typed. Qed.
Print Assumptions tokens_have_a_rule_partial.
Example good_rules_meet : each_alone good_rules (expressions good_rules) /\ Forall (fun r => unnumbered (sr_pattern r)) good_rules /\ distinct_names good_rules (expressions good_rules).
Proof. exact (conj good_alone (conj good_unnumbered good_distinct)). Qed.
Example good_rules_cut : cut good_rules (str_of "Ab_1 'x y' 12/1999 'z'") = typed [("WORD", "Ab_1"); ("QUOTED", "'x y'"); ("DATE", "12/1999"); ("QUOTED", "'z'")]%string.
Proof. vm_compute. reflexivity. Qed.

(** A name used twice (a rule given twice, the same group name in two patterns): always rejected. *)
Theorem repeated_names_are_rejected :
  forall rules es, each_alone rules es -> Forall (fun r => unnumbered (sr_pattern r)) rules -> ~ distinct_names rules es -> compile_strings rules = Some (Err ReError).
Proof. exact joined_rejected. Qed.
Print Assumptions repeated_names_are_rejected.
Example rule_given_twice : compile_strings (firstn 1 good_rules ++ firstn 1 good_rules) = Some (Err ReError).
Proof. vm_compute. reflexivity. Qed.

(** Without references, a tokenizer made of strings cuts every text as the one made of the trees. *)
Theorem strings_cut_as_trees :
  forall C rules es t, each_alone rules es -> Forall (fun e => unreferring (fst e)) es -> distinct_names rules es ->
  new_tokenizer (map Some (tree_rules C rules es)) = Ok t ->
  exists compiled, compile_strings rules = Some (Ok compiled) /\ forall fuel text, tokenize_strings C fuel compiled text = tokenize fuel t text.
Proof. exact strings_as_trees. Qed.
Print Assumptions strings_cut_as_trees.
(** The rules of tokenizer.py, in any choice and order. *)
Theorem known_rules_cut_as_trees :
  forall C l t, NoDup (map fst l) -> Forall (fun p => snd p < 8) l -> new_tokenizer (map Some (map (known_tree (al_chars C)) l)) = Ok t ->
  exists compiled, compile_strings (map known_string l) = Some (Ok compiled) /\ forall fuel text, tokenize_strings C fuel compiled text = tokenize fuel t text.
Proof. exact known_strings. Qed.
Print Assumptions known_rules_cut_as_trees.
Theorem default_rules_cut_as_trees :
  forall C ids t, NoDup ids -> length ids = 6 -> default_tokenizer (al_chars C) = Ok t ->
  exists compiled, compile_strings (map known_string (combine ids [0; 1; 2; 3; 4; 5])) = Some (Ok compiled) /\ forall fuel text, tokenize_strings C fuel compiled text = tokenize fuel t text.
Proof. exact default_strings. Qed.
Print Assumptions default_rules_cut_as_trees.
Example email_phone_cut : cut (map known_string [(140, 6); (9, 7); (3, 0); (4, 1); (5, 2); (6, 3); (7, 4); (8, 5)]) (str_of "To: a.b@c-d.org, +7 (495) 123-45-67!") =
  typed [("LATIN", "To"); ("PUNCT", ":"); ("EMAIL", "a.b@c-d.org"); ("PUNCT", ","); ("PHONE", "+7 (495) 123-45-67"); ("PUNCT", "!")]%string.
Proof. vm_compute. reflexivity. Qed.

(** A question mark after a quantifier: the same matches, the shortest first. *)
Theorem question_mark_prefers_the_shortest :
  forall C c q min max, is_ascii_letter c = true -> In (q, (min, max)) QUANTIFIERS ->
  exists greedy lazy, alone (c :: q) greedy /\ alone (c :: q ++ str_of "?") lazy /\
  forall text i, own_matches C text lazy i = fewest_first min max i (run (is_letter C c) (skipn i text)) /\ own_matches C text greedy i = rev (own_matches C text lazy i).
Proof. exact lazy_or_greedy. Qed.
Print Assumptions question_mark_prefers_the_shortest.
Example lazy_case :
  is_ascii_letter 120 = true /\ In (str_of "+", (1, None)) QUANTIFIERS /\ fewest_first 1 None 1 (run (is_letter ascii 120) (skipn 1 (str_of "axXxb"))) = [2; 3; 4].
Proof. split; [reflexivity|]. split; [right; left; reflexivity|vm_compute; reflexivity]. Qed.
