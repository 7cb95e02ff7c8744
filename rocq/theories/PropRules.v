(** Properties of rules (C19-C28, C57, C59, C68, C69). *)
From Coq Require String.
From Verif Require Import Base TokenModel EarleyModel EarleySpec PredicateModel PredicateSpec PipelineModel PipelineSpec PipelineTheorems PredicateCases Cases
  RuleModel RuleSpec RuleAccept RuleBuild RuleBuilt RuleNames RuleBfs GrammarModel GrammarSpec GrammarProofs RuleNestSpec RuleTheorems RuleTotal RuleUsableSpec RuleUsableBnf RuleCallSpec RuleCalls RuleCases.
Open Scope nat_scope.

(** ** C19 *)
Theorem optional_accepts_nothing_or_one :
  forall U set_order c, set_iteration set_order -> forall fuel fuel' h r rev root h1 gr g toks i j,
  built h -> is_rule_at h r -> run_call (COptional r rev) h = Ok (root, h1) -> harmless h1 root ->
  parser_grammar U set_order c fuel h r = Some (Ok gr) -> parser_grammar U set_order c fuel' h1 root = Some (Ok g) -> i <= length toks ->
  grammar_accepts U g toks i j <-> i = j \/ grammar_accepts U gr toks i j.
Proof. exact optional_counts. Qed.
Print Assumptions optional_accepts_nothing_or_one.
Theorem repeatable_accepts_bounded_repetitions :
  forall U set_order c, set_iteration set_order -> forall fuel fuel' h r min max rev root h1 gr g toks i j,
  built h -> is_rule_at h r -> min <> Some 0%Z -> max <> Some 0%Z -> run_call (CRepeatable r min max rev) h = Ok (root, h1) -> harmless h1 root ->
  parser_grammar U set_order c fuel h r = Some (Ok gr) -> parser_grammar U set_order c fuel' h1 root = Some (Ok g) -> i <= length toks ->
  grammar_accepts U g toks i j <-> exists n, within min max n /\ occurrences (grammar_accepts U gr toks) n i j.
Proof. exact repeatable_counts. Qed.
Print Assumptions repeatable_accepts_bounded_repetitions.

Example quantifier_case :
  let h := program [CRule [W "x"; W "y"]] in
  built h /\ is_rule_at h 1 /\
  exists h1, run_call (CRepeatable 1 (Some 2%Z) (Some 3%Z) true) h = Ok (2, h1) /\ harmless h1 2 /\ built_ok h 1 = true /\ built_ok h1 2 = true /\
  found h1 2 ["x"; "y"; "x"; "y"; "x"; "y"; "x"; "y"; "z"]%string = Some (Ok [(0, 4); (4, 8)]) /\ found h1 2 ["x"; "y"; "z"]%string = Some (Ok []).
Proof.
  split; [apply program_built; reflexivity|]. split; [apply is_rule_atb_true; reflexivity|].
  eexists. split; [reflexivity|]. split; [apply harmlessb_true; [apply (program_built [CRule [W "x"; W "y"]; CRepeatable 1 (Some 2%Z) (Some 3%Z) true]); reflexivity|apply is_rule_atb_true; reflexivity|reflexivity]|].
  repeat split; vm_compute; reflexivity.
Qed.

(** ** C20 *)
Theorem repeatable_checks_its_bounds :
  forall (h : rule_heap) r min max rev, run_call (CRepeatable r min max rev) h = Err ValueError <->
  (exists m, min = Some m /\ m < 0)%Z \/ (exists n, max = Some n /\ n < 0)%Z \/ (exists m n, min = Some m /\ max = Some n /\ 0 < n < m)%Z.
Proof. exact call_bounds_checked. Qed.
Print Assumptions repeatable_checks_its_bounds.
Theorem repeatable_raises_nothing_else :
  forall (h : rule_heap) r min max rev e, run_call (CRepeatable r min max rev) h = Err e -> e = ValueError.
Proof. exact call_bounds_other. Qed.
Print Assumptions repeatable_raises_nothing_else.
Theorem zero_bound_is_not_given :
  forall (h : rule_heap) r min max rev,
  run_call (CRepeatable r (Some 0%Z) max rev) h = run_call (CRepeatable r None max rev) h /\
  run_call (CRepeatable r min (Some 0%Z) rev) h = run_call (CRepeatable r min None rev) h.
Proof. exact call_zero_ignored. Qed.
Print Assumptions zero_bound_is_not_given.

Example bounds_case :
  let h := program [CRule [W "x"]] in
  run_call (CRepeatable 1 (Some (-1)%Z) None false) h = Err ValueError /\ run_call (CRepeatable 1 (Some 3%Z) (Some 2%Z) false) h = Err ValueError /\
  run_call (CRepeatable 1 (Some 2%Z) (Some 2%Z) false) h = Ok (2, h ++ [OMinMax 1 2 2 false]).
Proof. repeat split; reflexivity. Qed.

(** ** C21: false of the code; x.repeatable().repeatable(min=2) accepts one x. *)
Theorem nested_quantifiers_compose_refuted :
  exists U set_order c fuel h r min max rev root h1 gr g toks i j,
    set_iteration set_order /\ built h /\ is_rule_at h r /\ min <> Some 0%Z /\ max <> Some 0%Z /\
    run_call (CRepeatable r min max rev) h = Ok (root, h1) /\
    parser_grammar U set_order c fuel h r = Some (Ok gr) /\ parser_grammar U set_order c fuel h1 root = Some (Ok g) /\ i <= length toks /\
    grammar_accepts U g toks i j /\ ~ exists n, within min max n /\ occurrences (grammar_accepts U gr toks) n i j.
Proof. exact nested_refutes. Qed.
Print Assumptions nested_quantifiers_compose_refuted.
(** The theorems of C19 cover the nestings that do no harm: x.repeatable(max=2).repeatable(),
    x.repeatable(max=2).repeatable(min=2), and x.repeatable().optional(). *)
Example nested_case :
  let h := program [CRule [W "x"; W "y"]; CRepeatable 1 None None false; CRepeatable 1 None (Some 2%Z) false] in
  built h /\ is_rule_at h 2 /\ is_rule_at h 3 /\ (exists o, nth_error h 2 = Some o /\ quantifier o = true) /\ (exists o, nth_error h 3 = Some o /\ quantifier o = true) /\ built_ok h 2 = true /\ built_ok h 3 = true /\
  (exists h1, run_call (CRepeatable 3 None None false) h = Ok (4, h1) /\ harmless h1 4 /\ built_ok h1 4 = true /\ found h1 4 ["x"; "y"; "x"; "y"; "x"; "y"]%string = Some (Ok [(0, 6)])) /\
  (exists h1, run_call (CRepeatable 3 (Some 2%Z) None false) h = Ok (4, h1) /\ harmless h1 4 /\ built_ok h1 4 = true /\
   found h1 4 ["x"; "y"; "x"; "y"; "x"; "y"]%string = Some (Ok [(0, 6)]) /\ found h1 4 ["x"; "y"; "z"]%string = Some (Ok [])) /\
  (exists h1, run_call (COptional 2 false) h = Ok (4, h1) /\ harmless h1 4 /\ built_ok h1 4 = true).
Proof.
  set (calls := [CRule [W "x"; W "y"]; CRepeatable 1 None None false; CRepeatable 1 None (Some 2%Z) false] : list rule_call).
  split; [apply program_built; reflexivity|]. split; [apply is_rule_atb_true; reflexivity|]. split; [apply is_rule_atb_true; reflexivity|]. split; [eexists; split; reflexivity|]. split; [eexists; split; reflexivity|].
  split; [vm_compute; reflexivity|]. split; [vm_compute; reflexivity|]. split; [|split].
  all: eexists; (split; [reflexivity|]); (split; [apply harmlessb_true; [|apply is_rule_atb_true; reflexivity|reflexivity]|repeat split; vm_compute; reflexivity]).
  - apply (program_built (calls ++ [CRepeatable 3 None None false])); reflexivity.
  - apply (program_built (calls ++ [CRepeatable 3 (Some 2%Z) None false])); reflexivity.
  - apply (program_built (calls ++ [COptional 2 false])); reflexivity.
Qed.

(** ** C22 *)
Theorem grammar_accepts_what_the_rule_accepts :
  forall U set_order c, set_iteration set_order -> forall fuel h root g,
  built h -> harmless h root -> is_rule_at h root -> parser_grammar U set_order c fuel h root = Some (Ok g) ->
  forall toks i j, i <= length toks -> grammar_accepts U g toks i j <-> rule_accepts U set_order c h root toks i j.
Proof. exact grammar_of_parser. Qed.
Print Assumptions grammar_accepts_what_the_rule_accepts.
Theorem parses_spell_the_words_of_the_rule :
  forall U set_order c fuel h root g, built h -> flat h root -> is_rule_at h root -> parser_grammar U set_order c fuel h root = Some (Ok g) ->
  exists ha, activated_graph (activate c) (activate_pipeline c) h ha root /\
  forall toks i j w, i <= length toks -> reads U g (fun _ => None) toks i j w <-> words_of U set_order KNone ha root w /\ spells U w toks i j.
Proof. exact words_kept. Qed.
Print Assumptions parses_spell_the_words_of_the_rule.
Theorem grammar_is_usable :
  forall U set_order c, set_iteration set_order -> forall fuel h root g,
  built h -> harmless h root -> is_rule_at h root -> parser_grammar U set_order c fuel h root = Some (Ok g) ->
  (exists rules, finite_grammar g rules) /\ predict_sound g /\ predict_complete (accepts U) g.
Proof. exact grammar_usable. Qed.
Print Assumptions grammar_is_usable.

Example grammar_case :
  let h := program expr_program in
  built h /\ flat h 0 /\ harmless h 0 /\ is_rule_at h 0 /\ built_ok h 0 = true /\
  found h 0 ["x"; "+"; "("; "x"; "+"; "x"; ")"]%string = Some (Ok [(0, 7)]) /\ found h 0 ["+"; ")"]%string = Some (Ok []).
Proof. destruct expr_built as (B & F & R & _). split; [exact B|]. split; [exact F|]. split; [apply harmlessb_true; [exact B|exact R|reflexivity]|]. split; [exact R|]. repeat split; vm_compute; reflexivity. Qed.

(** ** C23 *)
Theorem attributes_stay_on_their_rule :
  forall U set_order c kd fuel h root g, kd = KInterp \/ kd = KRelation ->
  built h -> flat h root -> is_rule_at h root -> top not_once h root -> parser_grammar U set_order c fuel h root = Some (Ok g) ->
  exists ha, activated_graph (activate c) (activate_pipeline c) h ha root /\
  forall toks i j w, i <= length toks -> reads U g (attribute_of kd g) toks i j w <-> words_of U set_order kd ha root w /\ spells U w toks i j.
Proof. exact attributes_kept. Qed.
Print Assumptions attributes_stay_on_their_rule.
Theorem attribute_stays_on_its_rule_refuted :
  exists U set_order c fuel h root g,
    set_iteration set_order /\ built h /\ flat h root /\ is_rule_at h root /\ parser_grammar U set_order c fuel h root = Some (Ok g) /\
    ~ exists ha, activated_graph (activate c) (activate_pipeline c) h ha root /\
      forall toks i j w, i <= length toks -> reads U g (attribute_of KInterp g) toks i j w <-> words_of U set_order KInterp ha root w /\ spells U w toks i j.
Proof. exact loop_refutes. Qed.
Print Assumptions attribute_stays_on_its_rule_refuted.
(** x shared between an interpreted and a plain use: rule(x.interpretation(7), x). *)
Example attributes_case :
  let h := program [CRule [W "x"]; CInterpretation 1 7; CRule [R 2; R 1]] in
  built h /\ flat h 4 /\ is_rule_at h 4 /\ top not_once h 4 /\ built_ok h 4 = true /\
  words_of ASCII first_seen KInterp h 4 [SOpen (AInterp 7); SPred (PEq (str_of "x")) true; SClose; SPred (PEq (str_of "x")) false].
Proof. exact shared_case. Qed.

(** ** C24: false of the code; f.define(x.repeatable()). *)
Theorem forward_defined_by_any_rule_refuted :
  exists U set_order c fuel h f r h',
    set_iteration set_order /\ built h /\ is_rule_at h f /\ is_rule_at h r /\ nth_error h f = Some (OForward None) /\
    run_call (CDefine f r) h = Ok (f, h') /\ parser_grammar U set_order c fuel h' f = Some (Err ValueError).
Proof. exact define_refutes. Qed.
Print Assumptions forward_defined_by_any_rule_refuted.
Theorem define_rejects_only_forward_rules :
  forall (h : rule_heap) f d r, nth_error h f = Some (OForward d) ->
  (forall d', nth_error h r = Some (OForward d') -> run_call (CDefine f r) h = Err ValueError) /\
  ((forall d', nth_error h r <> Some (OForward d')) ->
   exists h', run_call (CDefine f r) h = Ok (f, h') /\ nth_error h' f = Some (OForward (Some r)) /\ forall q, q <> f -> nth_error h' q = nth_error h q).
Proof. exact define_call. Qed.
Print Assumptions define_rejects_only_forward_rules.
(** Every other rule without nested quantifiers gives a parser. *)
Theorem parser_is_built_from_usable_rules :
  forall U set_order c (h : rule_heap) root, built h -> flat h root -> is_rule_at h root -> usable U set_order c h root ->
  exists g enough, forall fuel, enough <= fuel -> parser_grammar U set_order c fuel h root = Some (Ok g).
Proof. exact construction_succeeds. Qed.
Print Assumptions parser_is_built_from_usable_rules.
(** f = forward(); f.define(or_(rule(normalized('x')), rule(f, '+', f).repeatable(max=1), morph_pipeline(['a b']))) *)
Example usable_case :
  let h := program [CForward; CRule [Plain (TPred (SNormalized (str_of "x")))]; CRule [R 0; W "+"; R 0]; CRepeatable 4 None (Some 1%Z) false;
                    CPipeline (scheme Morph [str_of "a b"]); COr [2; 5; 6]; CDefine 0 7] in
  built h /\ flat h 0 /\ is_rule_at h 0 /\ usable ASCII first_seen small_context h 0 /\ ~ usable ASCII first_seen small_context (program [CForward; CRule [R 0]]) 2.
Proof.
  split; [apply program_built; reflexivity|]. split; [apply flatb_true; reflexivity|]. split; [apply is_rule_atb_true; reflexivity|]. split; [apply usableb_true; vm_compute; reflexivity|].
  intros H. specialize (H 0 (OForward None)). destruct H as (r & E & _); [|reflexivity|discriminate E].
  eapply reach_step; [eapply reach_step; [apply reach_refl|reflexivity|left; reflexivity]|reflexivity|left; reflexivity].
Qed.
Example define_rejects_case :
  let h := program [CForward; CRule [W "x"]; CForward] in
  run_call (CDefine 0 3) h = Err ValueError /\ run_call (CDefine 0 2) h = Ok (0, program [CForward; CRule [W "x"]; CForward; CDefine 0 2]) /\
  program [CForward; CRule [W "x"]; CForward; CDefine 0 2] <> h.
Proof. split; [vm_compute; reflexivity|]. split; [vm_compute; reflexivity|]. vm_compute. discriminate. Qed.
Example undefined_forward_case : grammar_for (program [CForward; CRule [R 0]]) 2 = Some (Err TypeError).
Proof. vm_compute. reflexivity. Qed.

(** ** C25: false of the code with forward rules. *)
Theorem rule_can_be_used_again_refuted :
  exists U set_order c fuel h root r1 h1 g1 g2,
    set_iteration set_order /\ built h /\ flat h root /\ is_rule_at h root /\
    build_rule U set_order c fuel h root = Some (Ok (r1, h1)) /\
    parser_grammar U set_order c fuel h root = Some (Ok g1) /\ parser_grammar U set_order c fuel h1 root = Some (Ok g2) /\
    ~ forall toks i j w, i <= length toks -> reads U g1 (attribute_of KInterp g1) toks i j w <-> reads U g2 (attribute_of KInterp g2) toks i j w.
Proof. exact again_refutes. Qed.
Print Assumptions rule_can_be_used_again_refuted.

(** ** C26 *)
Theorem rule_has_the_designated_main_term :
  forall items (h : rule_heap),
  match run_call (CRule items) h with
  | Ok (root, h1) => exists q m, nth_error h1 root = Some (ORule [q]) /\ nth_error h1 q = Some (OProd (map written_term items) m) /\
      ((forall t, ~ In (Main t) items) /\ m = 0 \/ exists t, nth_error items m = Some (Main t) /\ forall k t', nth_error items k = Some (Main t') -> k = m)
  | Err e => e = ValueError /\ exists k k' t t', k <> k' /\ nth_error items k = Some (Main t) /\ nth_error items k' = Some (Main t')
  end.
Proof. exact main_designated. Qed.
Print Assumptions rule_has_the_designated_main_term.
(** The heads of the words are those of the parses: parses_spell_the_words_of_the_rule.
    rule('a', main(or_('b', rule('c', 'd')))): the head is the main term of the chosen part. *)
Example main_case :
  let h := program [CRule [W "b"]; CRule [W "c"; W "d"]; COr [1; 3]; CRule [W "a"; Main (TRule 4)]] in
  built h /\ flat h 6 /\ is_rule_at h 6 /\ built_ok h 6 = true /\
  words_of ASCII first_seen KNone h 6 [SPred (PEq (str_of "a")) false; SAlt 1; SPred (PEq (str_of "c")) true; SPred (PEq (str_of "d")) false] /\
  run_call (CRule [Main (TPred (PEq (str_of "a"))); Main (TRule 4)]) h = Err ValueError.
Proof. exact head_case. Qed.

(** ** C27 *)
Theorem quantifier_choices_are_ordered :
  forall U set_order c fuel h root o g, built h -> flat h root -> nth_error h root = Some o -> quantifier o = true -> parser_grammar U set_order c fuel h root = Some (Ok g) ->
  exists ha, activated_graph (activate c) (activate_pipeline c) h ha root /\
  forall toks i j w, i <= length toks -> reads U g (fun _ => None) toks i j w <->
    match o with
    | OOptional r rev => maybe (words_of U set_order KNone ha r) rev w
    | ORepeatable r rev => many (words_of U set_order KNone ha r) rev w
    | ORepOpt r rr ro => RuleSpec.any (words_of U set_order KNone ha r) rr ro w
    | OMin r min rev => times (words_of U set_order KNone ha r) (many (words_of U set_order KNone ha r) rev) (min - 1) w
    | OMax r max rev => at_most (words_of U set_order KNone ha r) rev max w
    | OMinMax r min max rev => times (words_of U set_order KNone ha r) (at_most (words_of U set_order KNone ha r) rev (max - min + 1)) (min - 1) w
    | _ => False
    end /\ spells U w toks i j.
Proof. exact choices_ordered. Qed.
Print Assumptions quantifier_choices_are_ordered.
Theorem optional_orders_its_choices :
  forall U set_order c fuel h r rev root h1 g, built h -> is_rule_at h r -> run_call (COptional r rev) h = Ok (root, h1) -> flat h1 root -> parser_grammar U set_order c fuel h1 root = Some (Ok g) ->
  exists ha, activated_graph (activate c) (activate_pipeline c) h1 ha root /\
  forall toks i j w, i <= length toks -> reads U g (fun _ => None) toks i j w <-> maybe (words_of U set_order KNone ha r) rev w /\ spells U w toks i j.
Proof. exact optional_ordered. Qed.
Print Assumptions optional_orders_its_choices.
Theorem repeatable_orders_its_choices :
  forall U set_order c fuel h r min max rev root h1 g, built h -> is_rule_at h r -> min <> Some 0%Z -> max <> Some 0%Z ->
  run_call (CRepeatable r min max rev) h = Ok (root, h1) -> flat h1 root -> parser_grammar U set_order c fuel h1 root = Some (Ok g) ->
  exists ha, activated_graph (activate c) (activate_pipeline c) h1 ha root /\
  forall toks i j w, i <= length toks -> reads U g (fun _ => None) toks i j w <->
    match min, max with
    | None, None => many (words_of U set_order KNone ha r) rev w
    | Some m, None => times (words_of U set_order KNone ha r) (many (words_of U set_order KNone ha r) rev) (Z.to_nat m - 1) w
    | None, Some n => at_most (words_of U set_order KNone ha r) rev (Z.to_nat n) w
    | Some m, Some n => times (words_of U set_order KNone ha r) (at_most (words_of U set_order KNone ha r) rev (Z.to_nat n - Z.to_nat m + 1)) (Z.to_nat m - 1) w
    end /\ spells U w toks i j.
Proof. exact repeatable_ordered. Qed.
Print Assumptions repeatable_orders_its_choices.
Example choices_case :
  let h := program [CRule [W "x"]; CRepeatable 1 None None false] in
  built h /\ flat h 2 /\ nth_error h 2 = Some (ORepeatable 1 false) /\ built_ok h 2 = true /\
  many (words_of ASCII first_seen KNone h 1) false [SAlt 0; SPred (PEq (str_of "x")) true; SAlt 1; SPred (PEq (str_of "x")) false].
Proof. exact order_case. Qed.
(** The flag decides which of the two choices comes first. *)
Example flag_case :
  let h := program [CRule [W "x"]] in
  exists h1 h2, run_call (CRepeatable 1 (Some 2%Z) None false) h = Ok (2, h1) /\ run_call (CRepeatable 1 (Some 2%Z) None true) h = Ok (2, h2) /\ built h1 /\ flat h1 2 /\ built_ok h1 2 = true /\ built_ok h2 2 = true /\
  match grammar_for h1 2, grammar_for h2 2 with
  | Some (Ok g1), Some (Ok g2) => map (map (@length _)) (map (fun r => map (g_terms g1) (g_prods g1 r)) (reached (parser_heap h1 2))) <> map (map (@length _)) (map (fun r => map (g_terms g2) (g_prods g2 r)) (reached (parser_heap h2 2)))
  | _, _ => False
  end.
Proof.
  eexists. eexists. split; [reflexivity|]. split; [reflexivity|]. split; [apply (program_built [CRule [W "x"]; CRepeatable 1 (Some 2%Z) None false]); reflexivity|]. split; [apply flatb_true; reflexivity|].
  split; [vm_compute; reflexivity|]. split; [vm_compute; reflexivity|]. vm_compute. intros E. discriminate E.
Qed.

(** ** C28 *)
Theorem activated_rule_holds_no_scheme :
  forall c fuel h root r h', built h -> is_rule_at h root -> activate_rule c fuel h root = Some (Ok (r, h')) ->
  r = root /\ activated_graph (activate c) (activate_pipeline c) h h' root /\
  (forall x o, reach h' root x -> nth_error h' x = Some o -> settled_obj o) /\
  (forall c' fuel' r2 h2, activate_rule c' fuel' h' root = Some (Ok (r2, h2)) -> h2 = h').
Proof. exact rule_activated. Qed.
Print Assumptions activated_rule_holds_no_scheme.
Theorem rule_with_unknown_name_is_rejected :
  forall c fuel h root r h', activate_rule c fuel h root = Some (Ok (r, h')) ->
  forall x ts main p, reach h root x -> nth_error h x = Some (OProd ts main) -> In (TPred p) ts -> exists q, activate c p = Ok q.
Proof. exact unknown_rejected. Qed.
Print Assumptions rule_with_unknown_name_is_rejected.
Example activation_case :
  let h := program [CRule [Plain (TPred (SGram (str_of "NOUN"))); W "x"]; CRule [R 1]] in
  built h /\ is_rule_at h 3 /\
  match activate_rule small_context 100 h 3 with Some (Ok (3, h')) => nth_error h' 0 = Some (OProd [TPred (PGram (str_of "NOUN")); TPred (PEq (str_of "x"))] 0) | _ => False end /\
  activate_rule small_context 100 (program [CRule [Plain (TPred (SGram (str_of "NUON")))]]) 1 = Some (Err ValueError).
Proof.
  split; [apply program_built; reflexivity|]. split; [apply is_rule_atb_true; reflexivity|]. split; vm_compute; reflexivity.
Qed.

(** ** C57 *)
Theorem rules_of_a_grammar_are_named :
  forall U set_order c fuel h root r h', built h -> flat h root -> is_rule_at h root -> build_rule U set_order c fuel h root = Some (Ok (r, h')) ->
  exists ha (names : nat -> option str) rest,
  activated_graph (activate c) (activate_pipeline c) h ha root /\
  (forall x n, names x = Some n -> n <> [] /\ rule_name h' x = Some n) /\
  NoDup rest /\ (forall x, In x rest <-> reach h' r x /\ is_bnf_rule h' x /\ names x = None) /\
  (forall i x, nth_error rest i = Some x -> rule_name h' x = Some (generated_name i)) /\
  (top not_once h root -> forall toks i j w, i <= length toks ->
   reads U (grammar_of (pipeline_predict U set_order) h' r) (fun x => option_map AName (names x)) toks i j w <->
   words_of U set_order KName ha root w /\ spells U w toks i j).
Proof. exact rules_named. Qed.
Print Assumptions rules_of_a_grammar_are_named.
Theorem generated_names_are_different : forall n m, generated_name n = generated_name m -> n = m.
Proof. exact generated_name_inj. Qed.
Print Assumptions generated_names_are_different.
Theorem names_do_not_clash_refuted :
  exists U set_order c fuel h root r h' x y n,
    set_iteration set_order /\ built h /\ flat h root /\ is_rule_at h root /\ build_rule U set_order c fuel h root = Some (Ok (r, h')) /\
    reach h' r x /\ reach h' r y /\ is_bnf_rule h' x /\ is_bnf_rule h' y /\ x <> y /\ rule_name h' x = Some n /\ rule_name h' y = Some n.
Proof. exact clash_refutes. Qed.
Print Assumptions names_do_not_clash_refuted.
Example names_case :
  let h := program [CRule [W "a"]; CNamed 1 (str_of "A"); CRule [W "b"; W "c"]; CRule [R 2; R 4]] in
  built h /\ flat h 6 /\ is_rule_at h 6 /\ top not_once h 6 /\
  match parser_heap h 6 with (r, h') => map (rule_name h') (bnf_rules h' (reached (r, h'))) = [Some (str_of "R0"); Some (str_of "A"); Some (str_of "R1")] end.
Proof.
  split; [apply program_built; reflexivity|]. split; [apply flatb_true; reflexivity|]. split; [apply is_rule_atb_true; reflexivity|]. split; [eapply aloneb_true; [reflexivity|exact I|reflexivity]|]. vm_compute. reflexivity.
Qed.

(** ** C59 *)
Theorem walk_visits_reachable_rules_once :
  forall pred pipe bnf (h : heap pred pipe bnf) fuel root l, bfs fuel h root = Some l ->
  NoDup l /\ (forall x, In x l <-> reach h root x) /\ exists rest, l = root :: rest.
Proof. exact @bfs_ok. Qed.
Print Assumptions walk_visits_reachable_rules_once.
Theorem walk_over_rules_terminates :
  forall (h : rule_heap) root fuel, built h -> is_rule_at h root -> length h <= fuel -> exists l, bfs fuel h root = Some l.
Proof. exact built_walk. Qed.
Print Assumptions walk_over_rules_terminates.
Example walk_case : built (program expr_program) /\ is_rule_at (program expr_program) 0 /\ bfs 9 (program expr_program) 0 = Some [0; 8; 5; 7; 2; 4; 6; 1; 3].
Proof. split; [apply program_built; reflexivity|]. split; [apply is_rule_atb_true; reflexivity|]. vm_compute. reflexivity. Qed.

(** ** C68 *)
Theorem parser_construction_ends :
  forall U set_order c (h : rule_heap) root, built h -> is_rule_at h root ->
  exists outcome enough, forall fuel, enough <= fuel -> parser_grammar U set_order c fuel h root = Some outcome.
Proof. exact construction_ends. Qed.
Print Assumptions parser_construction_ends.
(** f = forward(); f.define(or_(rule('a'), rule(f, f.optional().repeatable(min=2)))) *)
Example construction_case :
  let h := program [CForward; CRule [W "a"]; COptional 0 false; CRepeatable 3 (Some 2%Z) None false; CRule [R 0; R 4]; COr [2; 6]; CDefine 0 7] in
  built h /\ is_rule_at h 0 /\ built_ok h 0 = true.
Proof. split; [apply program_built; reflexivity|]. split; [apply is_rule_atb_true; reflexivity|]. vm_compute. reflexivity. Qed.

(** ** C69 *)
Theorem constructors_compose :
  forall U set_order c, set_iteration set_order -> forall fuels fuel h k root h1 gs g toks i j,
  built h -> makes_rule U set_order c k ->
  (forall r, In r (call_rules k) -> is_rule_at h r /\ parser_grammar U set_order c (fuels r) h r = Some (Ok (gs r))) ->
  run_call k h = Ok (root, h1) -> harmless h1 root -> parser_grammar U set_order c fuel h1 root = Some (Ok g) -> i <= length toks ->
  grammar_accepts U g toks i j <-> call_accepts U c toks (fun r => grammar_accepts U (gs r) toks) k i j.
Proof. exact call_composes. Qed.
Print Assumptions constructors_compose.
Theorem forward_accepts_its_definition :
  forall U set_order c, set_iteration set_order -> forall fuel fuel' h f r f' h1 gr g toks i j,
  built h -> is_rule_at h f -> is_rule_at h r -> run_call (CDefine f r) h = Ok (f', h1) -> harmless h1 f' ->
  parser_grammar U set_order c fuel h1 r = Some (Ok gr) -> parser_grammar U set_order c fuel' h1 f' = Some (Ok g) -> i <= length toks ->
  grammar_accepts U g toks i j <-> grammar_accepts U gr toks i j.
Proof. exact define_composes. Qed.
Print Assumptions forward_accepts_its_definition.
(** or_(rule('x'), rule('y').optional(), a pipeline with one line), put between 'a' and 'b'. *)
Example composition_case :
  let h := program [CRule [W "x"]; CRule [W "y"]; COptional 3 false; CPipeline (scheme Caseless [str_of "p q"]); COr [1; 4; 5]] in
  built h /\ makes_rule ASCII first_seen small_context (CPipeline (scheme Caseless [str_of "p q"])) /\
  (forall r, In r [1; 4; 5; 6] -> is_rule_at h r /\ built_ok h r = true) /\
  exists h1, run_call (CRule [W "a"; R 6; W "b"]) h = Ok (8, h1) /\ harmless h1 8 /\ built_ok h1 8 = true /\
  found h1 8 ["a"; "P"; "q"; "b"; "a"; "b"; "a"; "x"; "y"; "b"; "a"; "x"; "b"]%string = Some (Ok [(0, 4); (4, 6); (10, 13)]).
Proof.
  split; [apply program_built; reflexivity|]. split.
  { exists Caseless, [str_of "p q"]. do 2 eexists. split; [reflexivity|]. split; vm_compute; reflexivity. }
  split.
  - intros r Hr. cbn in Hr. repeat (destruct Hr as [<-|Hr]; [split; [apply is_rule_atb_true; reflexivity|vm_compute; reflexivity]|]). destruct Hr.
  - eexists. split; [reflexivity|]. split; [|split; vm_compute; reflexivity]. apply harmlessb_true; [|apply is_rule_atb_true; reflexivity|reflexivity].
    apply (program_built [CRule [W "x"]; CRule [W "y"]; COptional 3 false; CPipeline (scheme Caseless [str_of "p q"]); COr [1; 4; 5]; CRule [W "a"; R 6; W "b"]]); reflexivity.
Qed.
(** f = forward(); f.define(or_(rule('x'), rule('(', f, ')'))) *)
Example define_case :
  let h := program [CForward; CRule [W "x"]; CRule [W "("; R 0; W ")"]; COr [2; 4]] in
  built h /\ is_rule_at h 0 /\ is_rule_at h 5 /\
  exists h1, run_call (CDefine 0 5) h = Ok (0, h1) /\ harmless h1 0 /\ built_ok h1 0 = true /\ built_ok h1 5 = true /\
  found h1 0 ["("; "("; "x"; ")"; ")"; ")"]%string = Some (Ok [(0, 5)]).
Proof.
  split; [apply program_built; reflexivity|]. split; [apply is_rule_atb_true; reflexivity|]. split; [apply is_rule_atb_true; reflexivity|].
  eexists. split; [reflexivity|]. split; [apply harmlessb_true; [apply (program_built [CForward; CRule [W "x"]; CRule [W "("; R 0; W ")"]; COr [2; 4]; CDefine 0 5]); reflexivity|apply is_rule_atb_true; reflexivity|reflexivity]|]. repeat split; vm_compute; reflexivity.
Qed.
