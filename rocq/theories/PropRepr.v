(** * C98: printing rules and trees
    See ReprSpec for [inside] and [circular] (objects printed within an object), [object_prints]
    (the text of each class), [part] (nodes of a tree) and [squeezed]. *)
From Coq Require String.
From Verif Require Import Base TokenModel EarleyModel PredicateModel PredicateSpec PredicateCases PipelineModel PipelineSpec PipelineTheorems RuleModel RuleSpec RuleBuild RuleCases GrammarModel TreeModel ParserModel TextModel
  DotTextModel LabelModel WrittenSpec ReprModel ReprSpec ReprProofs ReprCases.
Import String.StringSyntax.
Open Scope nat_scope.

(** repr(Parser(rule('a').repeatable()).rule) raises RecursionError. *)
Theorem rules_of_parsers_are_printed_refuted : exists U set_order c fuel h root r h', set_iteration set_order /\ built h /\ is_rule_at h root /\ build_rule U set_order c fuel h root = Some (Ok (r, h')) /\
  forall pred_repr pipeline_repr interp_repr relation_repr str_repr fuel, repr_rule pred_repr pipeline_repr interp_repr relation_repr str_repr h' fuel r = None.
Proof. exact repetition_is_not_printed. Qed.
Print Assumptions rules_of_parsers_are_printed_refuted.
(** So does repr(match.tree). *)
Theorem trees_are_printed_refuted : exists U set_order c rel fuel h root text r h' s m ms, set_iteration set_order /\ built h /\ is_rule_at h root /\ build_rule U set_order c fuel h root = Some (Ok (r, h')) /\
  parser_findall U set_order c rel fuel h root text = Some (Ok (s, m :: ms)) /\
  forall pred_repr pipeline_repr interp_repr relation_repr str_repr token_repr fuel, repr_node pred_repr pipeline_repr interp_repr relation_repr str_repr h' token_repr fuel (m_root m) = None.
Proof. exact tree_is_not_printed. Qed.
Print Assumptions trees_are_printed_refuted.
(** Exactly when printing ends. *)
Theorem printing_ends_without_circles : forall pred_repr pipeline_repr interp_repr relation_repr str_repr h x,
  (exists s fuel, repr_rule pred_repr pipeline_repr interp_repr relation_repr str_repr h fuel x = Some s) <-> forall y, inside h x y -> ~ circular h y.
Proof. exact printing_ends. Qed.
Print Assumptions printing_ends_without_circles.
(** The limit does not change what is printed. *)
Theorem printing_gives_one_text : forall pred_repr pipeline_repr interp_repr relation_repr str_repr h x fuel fuel' s s',
  repr_rule pred_repr pipeline_repr interp_repr relation_repr str_repr h fuel x = Some s -> repr_rule pred_repr pipeline_repr interp_repr relation_repr str_repr h fuel' x = Some s' -> s = s'.
Proof. intros p pl i r st h x f f' s s' A B. exact (prints_once p pl i r st h x s s' (ex_intro _ f A) (ex_intro _ f' B)). Qed.
Print Assumptions printing_gives_one_text.
(** Rules as they were written, recursive or not. *)
Theorem written_rules_are_printed : forall pred_repr pipeline_repr interp_repr relation_repr str_repr h x, built h ->
  exists s fuel, repr_rule pred_repr pipeline_repr interp_repr relation_repr str_repr h fuel x = Some s.
Proof. exact written_rules_print. Qed.
Print Assumptions written_rules_are_printed.
(** What is printed. *)
Theorem printed_text_of_each_class : forall pred_repr pipeline_repr interp_repr relation_repr str_repr h x o s, nth_error h x = Some o ->
  (exists fuel, repr_rule pred_repr pipeline_repr interp_repr relation_repr str_repr h fuel x = Some s) <->
  object_prints pred_repr pipeline_repr interp_repr relation_repr str_repr (fun y t => exists fuel, repr_rule pred_repr pipeline_repr interp_repr relation_repr str_repr h fuel y = Some t) o s.
Proof. exact what_is_printed. Qed.
Print Assumptions printed_text_of_each_class.
(** form = forward(); form.define(rule('a', form.optional())) *)
Example recursive_case :
  let h := program [CForward; COptional 0 false; CRule [W "a"; R 1]; CDefine 0 3] in
  built h /\ nth_error h 0 = Some (OForward (Some 3)) /\
  repr_rule shown_pred (fun _ => []) (fun _ => []) (fun _ => []) quoted_text h 100 3 =
    Some (str_of "Rule(productions=[Production(terms=['a', OptionalRule(rule=ForwardRule(...), reverse=False)], main=0)])").
Proof. cbn zeta. split; [apply program_built; vm_compute; reflexivity|]. split; vm_compute; reflexivity. Qed.

(** Trees: exactly when all their rules and productions are printed. *)
Theorem trees_are_printed_with_their_rules : forall pred_repr pipeline_repr interp_repr relation_repr str_repr h token_repr n,
  (exists fuel s, repr_node pred_repr pipeline_repr interp_repr relation_repr str_repr h token_repr fuel n = Some s) <->
  forall id r q rank ch, part n (Node id r q rank ch) ->
    (exists s fuel, repr_rule pred_repr pipeline_repr interp_repr relation_repr str_repr h fuel r = Some s) /\ (exists s fuel, repr_rule pred_repr pipeline_repr interp_repr relation_repr str_repr h fuel q = Some s).
Proof. exact tree_printing_ends. Qed.
Print Assumptions trees_are_printed_with_their_rules.
Example tree_case : forall rel,
  first_text (parser_findall ASCII first_seen small_context rel 100 (program [CRule [W "a"]]) 1 (str_of "a b")) =
    Some (str_of "Node(rule=BNFRule(productions=[Production(terms=['a'], main=0)], name='R0', interpretator=None, relation=None), production=Production(terms=['a'], main=0), rank=0, children=[Leaf(predicate='a', token='a')])").
Proof. intros rel. vm_compute. reflexivity. Qed.

(** Pretty printing in IPython ends for every object, also after Parser: objects being printed
    are abbreviated. *)
Theorem pretty_printing_always_ends : forall pred_repr pipeline_repr interp_repr relation_repr str_repr h gap x indent,
  exists fuel s, pretty_rule pred_repr pipeline_repr interp_repr relation_repr str_repr h gap fuel [] indent x = Some s.
Proof. intros p pl i r st h g x ind. exists (S (others h [])). apply pretty_printing_ends. unfold lt. reflexivity. Qed.
Print Assumptions pretty_printing_always_ends.
(** Without forward rules it differs from repr only in spaces and line breaks. *)
Theorem pretty_printing_shows_the_same : forall pred_repr pipeline_repr interp_repr relation_repr str_repr h gap, (forall stack k, only_blanks (gap stack k)) ->
  forall x s indent, (forall y d, inside h x y -> nth_error h y <> Some (OForward d)) ->
  (exists fuel, repr_rule pred_repr pipeline_repr interp_repr relation_repr str_repr h fuel x = Some s) ->
  exists fuel t, pretty_rule pred_repr pipeline_repr interp_repr relation_repr str_repr h gap fuel [] indent x = Some t /\ squeezed t = squeezed s.
Proof. exact pretty_is_repr. Qed.
Print Assumptions pretty_printing_shows_the_same.
Example pretty_case :
  pretty_rule shown_pred (fun _ => []) (fun _ => []) (fun _ => []) quoted_text (program [CRule [W "a"; W "b"]; COptional 1 true]) (fun _ _ => str_of " ") 100 [] 0 2 =
    Some (str_of "OptionalRule(" ++ newline 4 ++ str_of "rule=Rule(" ++ newline 8 ++ str_of "productions=[Production(" ++ newline 13 ++ str_of "terms=['a', 'b']," ++ newline 13 ++ str_of "main=0" ++ newline 9 ++ str_of ")]" ++
          newline 4 ++ str_of ")," ++ newline 4 ++ str_of "reverse=True" ++ newline 0 ++ str_of ")") /\
  repr_rule shown_pred (fun _ => []) (fun _ => []) (fun _ => []) quoted_text (program [CRule [W "a"; W "b"]; COptional 1 true]) 100 2 =
    Some (str_of "OptionalRule(rule=Rule(productions=[Production(terms=['a', 'b'], main=0)]), reverse=True)") /\
  exists s, pretty_rule shown_pred (fun _ => []) (fun _ => []) (fun _ => []) quoted_text (snd repeated_parser) (fun _ _ => str_of " ") 100 [] 0 (fst repeated_parser) = Some s /\
    squeezed s = str_of "BNFRule(productions=[Production(terms=['a',BNFRule(...)],main=0),Production(terms=['a'],main=0)],name='R0',interpretator=None,relation=None)".
Proof. split; [vm_compute; reflexivity|]. split; [vm_compute; reflexivity|]. eexists. split; vm_compute; reflexivity. Qed.
