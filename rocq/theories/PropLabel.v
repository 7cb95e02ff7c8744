(** * C76, C83: the text of a grammar
    See LabelSpec for [printable], [interpretator_told], the reader [read_line] with what a
    line [shows], and for [clean_labels], [own_labels], [no_dictionaries], [told]. *)
From Coq Require String.
From Verif Require Import Base TokenModel EarleyModel EarleySpec TokenizerModel PredicateModel PredicateSpec PredicateCases PipelineModel PipelineSpec PipelineTheorems
  RuleModel RuleSpec RuleBuild RuleNestSpec GrammarModel GrammarSpec Cases RuleCases DotTextModel LabelModel LabelSpec LabelTheorems LabelCases.
Import String.StringSyntax.
Open Scope nat_scope.

(** ** C76 *)
(** rule(a).interpretation(inflected()): neither the text nor the drawing is made. *)
Theorem every_grammar_is_printed_refuted : exists U so c fuel h root rules h' interpretator,
  set_iteration so /\ built h /\ harmless h root /\ is_rule_at h root /\ parser_rules U so c fuel h root = Some (Ok (rules, h')) /\
  source case_label (fun _ => interpretator_text interpretator) no_label h' rules = Err TypeError /\
  exists x o, In x rules /\ nth_error h' x = Some o /\ object_style (fun _ => interpretator_text interpretator) no_label h' x o = Err TypeError.
Proof. exact inflected_refutes. Qed.
Print Assumptions every_grammar_is_printed_refuted.
(** The text is made, a line for every rule, exactly when all labels it needs exist. *)
Theorem grammars_are_printed : forall label_of_pred label_of_interp label_of_relation U set_order c fuel h root rules h',
  built h -> harmless h root -> is_rule_at h root -> parser_rules U set_order c fuel h root = Some (Ok (rules, h')) ->
  (exists lines, source label_of_pred label_of_interp label_of_relation h' rules = Ok lines /\ length lines = length rules) <->
  printable label_of_pred label_of_interp h' rules.
Proof. exact grammar_printed. Qed.
Print Assumptions grammars_are_printed.
Theorem rules_of_grammars_are_drawn : forall label_of_interp label_of_relation U set_order c fuel h root rules h',
  built h -> harmless h root -> is_rule_at h root -> parser_rules U set_order c fuel h root = Some (Ok (rules, h')) ->
  forall x o, In x rules -> nth_error h' x = Some o ->
  (exists st, object_style label_of_interp label_of_relation h' x o = Ok st) <-> forall i, rule_interp h' x = Some i -> exists s, label_of_interp i = Ok s.
Proof. exact grammar_drawn. Qed.
Print Assumptions rules_of_grammars_are_drawn.
Theorem other_objects_are_drawn : forall label_of_interp label_of_relation h p o, is_bnf o = false ->
  (exists st, object_style label_of_interp label_of_relation h p o = Ok st) <-> forall r i, o = OInterp r i -> exists s, label_of_interp i = Ok s.
Proof. exact objects_drawn. Qed.
Print Assumptions other_objects_are_drawn.
(** Predicates have labels when the functions given to custom have names. *)
Theorem predicates_have_labels : forall repr repr_int function_name repr_other p,
  (exists l, pred_label repr repr_int function_name repr_other p = Ok l) <-> forall f, In f (custom_functions p) -> function_name f <> None.
Proof. exact predicate_labels. Qed.
Print Assumptions predicates_have_labels.
Theorem interpretators_have_labels : forall i, (exists l, interpretator_text i = Ok l) <-> interpretator_told i.
Proof. exact interpretator_labels. Qed.
Print Assumptions interpretators_have_labels.
Example printed_case :
  rules_ready optional_text 5 = true /\ text_of first_label optional_text 5 = Ok [str_of "R0 -> R1 'b'"; str_of "R1 -> A | e"; str_of "A -> 'a'"] /\
  printable case_label first_label (snd (rules_of optional_text 5)) (fst (rules_of optional_text 5)).
Proof.
  split; [vm_compute; reflexivity|]. assert (T : text_of first_label optional_text 5 = Ok [str_of "R0 -> R1 'b'"; str_of "R1 -> A | e"; str_of "A -> 'a'"]) by (vm_compute; reflexivity). split; [exact T|].
  destruct (rules_ready_true optional_text 5) as (B & H & R & P); [vm_compute; reflexivity|]. apply (grammars_are_printed case_label first_label no_label _ _ _ _ _ _ _ _ B H R P).
  eexists. split; [exact T|]. vm_compute. reflexivity.
Qed.
(** not_(or_(custom(f), eq(a))): the label exists when [f] has a name. *)
Example custom_case : forall f,
  let p := PNot (POr [PCustom f None; PEq (str_of "a")]) in
  custom_functions p = [f] /\ pred_label quoted counted (fun _ => Some (str_of "f")) (fun _ => []) p = Ok (str_of "not_(or_(custom(f), 'a'))") /\
  pred_label quoted counted (fun _ => None) (fun _ => []) p = Err AttributeError.
Proof. intros f. repeat split; reflexivity. Qed.
(** Name.first.inflected(nomn).custom(f) *)
Example interpretator_case :
  interpretator_text (LAttributeNormalizer (str_of "Name") (str_of "first") (LMorphFunction (LInflected (Some [str_of "nomn"])) (Some (str_of "f")))) = Ok (str_of "Name.first.inflected(nomn).f") /\
  interpretator_text (LNormalizer (LFunctionFunction (Some (str_of "int")) None)) = Err AttributeError.
Proof. split; reflexivity. Qed.

(** ** C83 *)
(** [clean_labels] and all the other conditions of [same_text_same_language] hold, only
    the labels are not different. *)
Theorem text_determines_language_refuted : exists U so c fuel h1 h2 root1 root2 rules1 rules2 k1 k2 lp li lr lines toks,
  set_iteration so /\ built h1 /\ harmless h1 root1 /\ is_rule_at h1 root1 /\ parser_rules U so c fuel h1 root1 = Some (Ok (rules1, k1)) /\
  built h2 /\ harmless h2 root2 /\ is_rule_at h2 root2 /\ parser_rules U so c fuel h2 root2 = Some (Ok (rules2, k2)) /\
  source lp li lr k1 rules1 = Ok lines /\ source lp li lr k2 rules2 = Ok lines /\
  clean_labels lp li lr k1 rules1 /\ clean_labels lp li lr k2 rules2 /\ no_dictionaries k1 rules1 /\ no_dictionaries k2 rules2 /\
  (forall p1 p2 l, predicate_in k1 rules1 p1 -> predicate_in k2 rules2 p2 -> lp p1 = Ok l -> lp p2 = Ok l -> forall t, accepts U p1 t = accepts U p2 t) /\
  ~ rule_accepts U so c h1 root1 toks 0 (length toks) /\ rule_accepts U so c h2 root2 toks 0 (length toks).
Proof. exact text_refutes. Qed.
Print Assumptions text_determines_language_refuted.
Theorem printed_lines_are_read_back : forall label_of_pred label_of_interp label_of_relation U set_order c fuel h root rules h' lines,
  built h -> harmless h root -> is_rule_at h root -> parser_rules U set_order c fuel h root = Some (Ok (rules, h')) ->
  source label_of_pred label_of_interp label_of_relation h' rules = Ok lines -> clean_labels label_of_pred label_of_interp label_of_relation h' rules ->
  exists xs, map read_line lines = map Some xs /\ Forall2 (shows label_of_pred label_of_interp label_of_relation h') rules xs.
Proof. exact grammar_read. Qed.
Print Assumptions printed_lines_are_read_back.
Theorem same_text_same_language : forall U so1 so2 c1 c2 lp1 lp2 li1 li2 lr1 lr2 fuel1 fuel2 h1 h2 root1 root2 rules1 rules2 k1 k2 lines,
  set_iteration so1 -> set_iteration so2 ->
  built h1 -> harmless h1 root1 -> is_rule_at h1 root1 -> parser_rules U so1 c1 fuel1 h1 root1 = Some (Ok (rules1, k1)) ->
  built h2 -> harmless h2 root2 -> is_rule_at h2 root2 -> parser_rules U so2 c2 fuel2 h2 root2 = Some (Ok (rules2, k2)) ->
  source lp1 li1 lr1 k1 rules1 = Ok lines -> source lp2 li2 lr2 k2 rules2 = Ok lines ->
  clean_labels lp1 li1 lr1 k1 rules1 -> clean_labels lp2 li2 lr2 k2 rules2 -> own_labels lp1 li1 lr1 k1 rules1 -> own_labels lp2 li2 lr2 k2 rules2 ->
  no_dictionaries k1 rules1 -> no_dictionaries k2 rules2 ->
  (forall p1 p2 l, predicate_in k1 rules1 p1 -> predicate_in k2 rules2 p2 -> lp1 p1 = Ok l -> lp2 p2 = Ok l -> forall t, accepts U p1 t = accepts U p2 t) ->
  forall toks i j, i <= length toks -> rule_accepts U so1 c1 h1 root1 toks i j <-> rule_accepts U so2 c2 h2 root2 toks i j.
Proof. exact same_text_accepts. Qed.
Print Assumptions same_text_same_language.
(** What the last condition asks for, from the labels of predicates. *)
Theorem labels_tell_predicates : forall repr repr_int function_name repr_other p q l,
  (forall a b, repr a = repr b -> a = b) -> (forall a b, repr_int a = repr_int b -> a = b) -> told p -> told q ->
  pred_label repr repr_int function_name repr_other p = Ok l -> pred_label repr repr_int function_name repr_other q = Ok l -> p = q.
Proof. exact labels_tell. Qed.
Print Assumptions labels_tell_predicates.
(** in_ and the others print dots. *)
Theorem labels_tell_all_predicates_refuted : exists repr repr_int function_name repr_other p q l t,
  (forall a b, repr a = repr b -> a = b) /\ (forall a b, repr_int a = repr_int b -> a = b) /\
  pred_label repr repr_int function_name repr_other p = Ok l /\ pred_label repr repr_int function_name repr_other q = Ok l /\ accepts ASCII p t = true /\ accepts ASCII q t = false.
Proof. exact dots_refute. Qed.
Print Assumptions labels_tell_all_predicates_refuted.
(** Two programs, one text; and a main term. *)
Example same_text_case :
  program optional_text <> program or_text /\ rules_ready optional_text 5 = true /\ rules_ready or_text 8 = true /\ text_of first_label optional_text 5 = text_of first_label or_text 8 /\
  clean_labels case_label first_label no_label (snd (rules_of optional_text 5)) (fst (rules_of optional_text 5)) /\ clean_labels case_label first_label no_label (snd (rules_of or_text 8)) (fst (rules_of or_text 8)) /\
  own_labels case_label first_label no_label (snd (rules_of optional_text 5)) (fst (rules_of optional_text 5)) /\ own_labels case_label first_label no_label (snd (rules_of or_text 8)) (fst (rules_of or_text 8)) /\
  (forall toks i j, i <= length toks -> rule_accepts ASCII first_seen small_context (program optional_text) 5 toks i j <-> rule_accepts ASCII first_seen small_context (program or_text) 8 toks i j).
Proof.
  destruct (rules_ready_true optional_text 5) as (B1 & H1 & R1 & P1); [vm_compute; reflexivity|]. destruct (rules_ready_true or_text 8) as (B2 & H2 & R2 & P2); [vm_compute; reflexivity|].
  assert (C1 : clean_labels case_label first_label no_label (snd (rules_of optional_text 5)) (fst (rules_of optional_text 5))) by (apply clean_labelsb_true; vm_compute; reflexivity).
  assert (C2 : clean_labels case_label first_label no_label (snd (rules_of or_text 8)) (fst (rules_of or_text 8))) by (apply clean_labelsb_true; vm_compute; reflexivity).
  assert (O1 : own_labels case_label first_label no_label (snd (rules_of optional_text 5)) (fst (rules_of optional_text 5))) by (apply own_labelsb_true; vm_compute; reflexivity).
  assert (O2 : own_labels case_label first_label no_label (snd (rules_of or_text 8)) (fst (rules_of or_text 8))) by (apply own_labelsb_true; vm_compute; reflexivity).
  split; [vm_compute; discriminate|]. split; [vm_compute; reflexivity|]. split; [vm_compute; reflexivity|]. split; [vm_compute; reflexivity|]. split; [exact C1|]. split; [exact C2|]. split; [exact O1|]. split; [exact O2|].
  refine (same_text_same_language ASCII _ _ _ _ case_label case_label first_label first_label no_label no_label _ _ _ _ _ _ _ _ _ _ [str_of "R0 -> R1 'b'"; str_of "R1 -> A | e"; str_of "A -> 'a'"]
    first_seen_iterates first_seen_iterates B1 H1 R1 P1 B2 H2 R2 P2 _ _ C1 C2 O1 O2 _ _ _); [vm_compute; reflexivity|vm_compute; reflexivity|apply no_dictionariesb_true; vm_compute; reflexivity|apply no_dictionariesb_true; vm_compute; reflexivity|apply alike_told; vm_compute; reflexivity].
Qed.
Example read_case :
  text_of first_label main_text 2 = Ok [str_of "Name.first -> 'a b' ^'c'"] /\
  map read_line [str_of "Name.first -> 'a b' ^'c'"; str_of "R1 -> e | A"; str_of "A -> morph_pipeline"] =
    [Some (str_of "Name.first", Productions [([str_of "'a b'"; str_of "'c'"], 1)]); Some (str_of "R1", Productions [([], 0); ([str_of "A"], 0)]); Some (str_of "A", Dictionary Morph)].
Proof. split; vm_compute; reflexivity. Qed.
