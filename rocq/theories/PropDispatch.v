(** Properties of the choice of visit_ methods (C80) and of as_bnf without normalization (C81). *)
From Coq Require String.
From Verif Require Import Base TokenModel EarleyModel PredicateModel PredicateCases PipelineModel RuleModel RuleBuild GrammarModel PipelineTheorems RuleCases
  DispatchModel DispatchSpec DispatchProofs DispatchPasses DispatchBnf DispatchCases.
Import String.StringSyntax.
Open Scope nat_scope.

(** ** C80.  The ancestors of any class of any hierarchy come in the order that the language
    promises ... *)
Theorem ancestors_come_in_order :
  forall fuel t c l, mro fuel t c = Some l -> ancestors_in_order t c l.
Proof. exact mro_in_order. Qed.
Print Assumptions ancestors_come_in_order.
Theorem isinstance_is_inheritance :
  forall depth t c d names, mro depth t c = Some names -> (is_instance depth t c d = true <-> inherits t c d).
Proof. exact is_instance_spec. Qed.
Print Assumptions isinstance_is_inheritance.
(** ... and the visitor chooses a method for which nothing more special would do. *)
Theorem closest_method_is_chosen :
  forall depth t methods v c owner name,
  resolve_method depth t methods v c = Some (owner, name) -> method_for t methods v c owner name.
Proof. exact resolve_spec. Qed.
Print Assumptions closest_method_is_chosen.
Theorem no_method_is_chosen_only_if_there_is_none :
  forall depth t methods v c names cs, mro depth t c = Some names -> mro depth t v = Some cs ->
  (resolve_method depth t methods v c = None <-> forall name, inherits t c name -> ~ has_method t methods v name).
Proof. exact resolve_none. Qed.
Print Assumptions no_method_is_chosen_only_if_there_is_none.

(** Every visitor of the library has a method for every object it meets: rules and
    productions, ... *)
Theorem every_part_has_a_method :
  forall pred pipe bnf (bnf_class : bnf -> String.string), (forall b, In (bnf_class b) pipeline_classes) ->
  forall v (o : obj pred pipe bnf), In v rule_visitors -> exists m, resolve v (class_of bnf_class o) = Some m.
Proof. exact @always_resolved. Qed.
Print Assumptions every_part_has_a_method.
(** ... predicates in drawings, ... *)
Theorem every_predicate_is_drawn :
  forall c, In c (map fst predicate_classes) -> resolve "DotRuleTransformator" c = Some ("DotRuleTransformator", "Predicate")%string.
Proof. exact predicates_resolved. Qed.
Print Assumptions every_predicate_is_drawn.
(** ... nodes and leaves of trees. *)
Theorem every_node_has_a_method :
  forall v c, In v tree_visitors -> In c ["Node"; "Leaf"]%string -> exists m, resolve v c = Some m.
Proof. exact trees_resolved. Qed.
Print Assumptions every_node_has_a_method.

(** The passes of the library, with every method chosen by the classes, are those of RuleModel.v
    about which the other theorems speak. *)
Theorem normalization_by_choice_of_methods :
  forall pred pipe bnf (bnf_class : bnf -> String.string), (forall b, In (bnf_class b) pipeline_classes) ->
  forall pipe_bnf bnf_lines activate_pred activate_pipe fuel (h : heap pred pipe bnf) root,
  composition bnf_class pipe_bnf bnf_lines activate_pred activate_pipe normalized_passes fuel h root = normalized fuel h root.
Proof. exact @normalized_passes_same. Qed.
Print Assumptions normalization_by_choice_of_methods.
Theorem bnf_by_choice_of_methods :
  forall pred pipe bnf (bnf_class : bnf -> String.string), (forall b, In (bnf_class b) pipeline_classes) ->
  forall pipe_bnf bnf_lines activate_pred activate_pipe fuel (h : heap pred pipe bnf) root,
  composition bnf_class pipe_bnf bnf_lines activate_pred activate_pipe bnf_passes fuel h root = to_bnf pipe_bnf bnf_lines fuel h root.
Proof. exact @bnf_passes_same. Qed.
Print Assumptions bnf_by_choice_of_methods.
Theorem activation_by_choice_of_methods :
  forall pred pipe bnf (bnf_class : bnf -> String.string), (forall b, In (bnf_class b) pipeline_classes) ->
  forall pipe_bnf bnf_lines activate_pred activate_pipe fuel (h : heap pred pipe bnf) root,
  composition bnf_class pipe_bnf bnf_lines activate_pred activate_pipe activate_passes fuel h root =
  run_inplace (activate_visit activate_pred activate_pipe) fuel h root.
Proof. exact @activate_passes_same. Qed.
Print Assumptions activation_by_choice_of_methods.
Theorem removing_forwards_by_choice_of_methods :
  forall pred pipe bnf (bnf_class : bnf -> String.string), (forall b, In (bnf_class b) pipeline_classes) ->
  forall pipe_bnf bnf_lines activate_pred activate_pipe fuel (h : heap pred pipe bnf) root, holds_productions h ->
  composition bnf_class pipe_bnf bnf_lines activate_pred activate_pipe remove_forward_passes fuel h root =
  run_inplace remove_forward_visit fuel h root.
Proof. exact @remove_forward_passes_same. Qed.
Print Assumptions removing_forwards_by_choice_of_methods.

(** The ancestors of RepeatableOptionalRule, and the method that each pass has for it; a class
    between two of its ancestors that has no method of its own. *)
Example ancestors_case :
  mro yargy_depth yargy_classes "RepeatableOptionalRule" =
    Some ["RepeatableOptionalRule"; "RepeatableRule"; "OptionalRule"; "ExtendedRule"; "WrapperRule"; "Rule"; "Record"; "object"]%string /\
  mro yargy_depth yargy_classes "DotRuleTransformator" =
    Some ["DotRuleTransformator"; "DotTransformator"; "InplaceRuleTransformator"; "Visitor"; "object"]%string.
Proof. split; vm_compute; reflexivity. Qed.
Example no_order_case :
  mro 5 [("object", []); ("A", ["object"]); ("B", ["object"]); ("C", ["A"; "B"]); ("D", ["B"; "A"]); ("E", ["C"; "D"])]%string "E" = None.
Proof. vm_compute. reflexivity. Qed.
Example chosen_case :
  resolve "SquashExtendedTransformator" "RepeatableOptionalRule" = Some ("SquashExtendedTransformator", "RepeatableOptionalRule")%string /\
  resolve "BNFTransformator" "RepeatableOptionalRule" = Some ("RuleTransformator", "RepeatableOptionalRule")%string /\
  resolve "RemoveForwardTransformator" "MorphPipelineBNFRule" = Some ("RemoveForwardTransformator", "PipelineBNFRule")%string /\
  resolve "RemoveForwardTransformator" "OrRule" = Some ("InplaceRuleTransformator", "Rule")%string /\
  resolve "ApplyRelationsTransformator" "Node" = Some ("InplaceTreeTransformator", "Node")%string /\
  resolve "RelationsTransformator" "Leaf" = Some ("RelationsTransformator", "Node")%string /\
  resolve "TreeTransformator" "Rule" = None.
Proof. repeat split; vm_compute; reflexivity. Qed.
Example by_choice_case :
  (exists r h', composition pipeline_class (pipeline_as_bnf ASCII first_seen) b_productions Ok Ok normalized_passes 100 (program expr_program) 0 = Some (Ok (r, h'))) /\
  holds_productions (program expr_program) /\ (forall b, In (pipeline_class b) pipeline_classes).
Proof.
  split; [eexists; eexists; vm_compute; reflexivity |]. split; [| exact pipeline_class_known].
  intros p ps a q E. exfalso. do 40 (destruct p as [| p]; [vm_compute in E; discriminate |]). vm_compute in E. discriminate.
Qed.

(** ** C81.  A rule with parts that only normalization removes is rejected by as_bnf: false,
    bounded repetitions pass. *)
Theorem unnormalized_rules_are_rejected_refuted :
  exists (h : rule_heap) root p o fuel x, built h /\ part_of h root p /\ nth_error h p = Some o /\ not_normal o /\
  as_bnf (pipeline_as_bnf ASCII first_seen) b_productions fuel h root = Some (Ok x).
Proof. exact bounded_accepted. Qed.
Print Assumptions unnormalized_rules_are_rejected_refuted.
(** Missing: bounded repetitions, and rules with forward rules. *)
Theorem unnormalized_rules_are_rejected_partial :
  forall pred pipe bnf (pipe_bnf : pipe -> res bnf) (bnf_lines : bnf -> list (str * list pred)) fuel (h : heap pred pipe bnf) root x,
  (forall p, part_of h root p -> exists o, nth_error h p = Some o /\ is_bnf o = false /\ is_forward o = false) ->
  as_bnf pipe_bnf bnf_lines fuel h root = Some (Ok x) ->
  forall p o, part_of h root p -> nth_error h p = Some o -> not_normal o -> with_bounds o.
Proof. exact @as_bnf_rejects. Qed.
Print Assumptions unnormalized_rules_are_rejected_partial.
(** The guard visit_ExtendedRule = raise_TypeError (rule/bnf.py 109) is the method of no object. *)
Theorem guard_for_extended_rules_is_never_chosen :
  forall pred pipe bnf (bnf_class : bnf -> String.string), (forall b, In (bnf_class b) pipeline_classes) ->
  forall o : obj pred pipe bnf, exists owner name,
  resolve "BNFTransformator" (class_of bnf_class o) = Some (owner, name) /\ name <> "ExtendedRule"%string.
Proof. exact @extended_never. Qed.
Print Assumptions guard_for_extended_rules_is_never_chosen.

(** An optional part is rejected, a bounded part is not; a bounded rule itself sends as_bnf into
    endless recursion. *)
Example unnormalized_case :
  bnf_of [CRule [W "a"]; COptional 1 false; CRule [R 2; W "b"]] 4 = Some (Err TypeError) /\
  (exists x, bnf_of bounded_program 4 = Some (Ok x)) /\ bnf_of bounded_program 2 = None /\
  (exists x, bnf_of [CRule [W "a"]; CRule [R 1; W "b"]] 3 = Some (Ok x)).
Proof. split; [vm_compute; reflexivity |]. split; [eexists; vm_compute; reflexivity |]. split; [vm_compute; reflexivity | eexists; vm_compute; reflexivity]. Qed.
