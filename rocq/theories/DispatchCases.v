(** Cases for the choice of methods, and as_bnf of rules that have not been normalized. *)
From Coq Require Import String.
From Verif Require Import Base TokenModel EarleyModel PredicateModel PredicateCases PipelineModel RuleModel RuleBuild GrammarModel PipelineTheorems RuleCases Cases
  DispatchModel DispatchSpec DispatchProofs DispatchPasses DispatchBnf.
Import StringSyntax.
Open Scope nat_scope.

(** pipelines.py 16, 43, 53: [type(rule).__name__]. *)
Definition pipeline_class (b : pipeline_bnf) : string :=
  match b_kind b with
  | Exact => "PipelineBNFRule"
  | Caseless => "CaselessPipelineBNFRule"
  | Morph => "MorphPipelineBNFRule"
  end%string.
Lemma pipeline_class_known : forall b, In (pipeline_class b) pipeline_classes.
Proof. intros b. unfold pipeline_class, pipeline_classes. destruct (b_kind b); cbn; auto. Qed.

Definition names (t : table) : list string := map fst t.
Lemma predicates_resolved : forall c, In c (names predicate_classes) -> resolve "DotRuleTransformator" c = Some ("DotRuleTransformator", "Predicate")%string.
Proof.
  intros c H. unfold names, predicate_classes in H. cbn [map fst In] in H.
  repeat (destruct H as [<- | H]; [vm_compute; reflexivity |]). destruct H.
Qed.
Lemma trees_resolved : forall v c, In v tree_visitors -> In c ["Node"; "Leaf"]%string -> exists m, resolve v c = Some m.
Proof.
  intros v c Hv Hc. unfold tree_visitors in Hv. cbn [In] in Hv, Hc.
  destruct Hc as [<- | [<- | []]]; repeat (destruct Hv as [<- | Hv]; [eexists; vm_compute; reflexivity |]); destruct Hv.
Qed.

(** [rule(rule('a').repeatable(min=2), 'b')]. *)
Definition bounded_program : list rule_call := [CRule [W "a"]; CRepeatable 1 (Some 2%Z) None false; CRule [R 2; W "b"]].
Definition bnf_of (p : list rule_call) (root : nat) : option (res (nat * rule_heap)) :=
  as_bnf (pipeline_as_bnf ASCII first_seen) b_productions 100 (program p) root.

Lemma as_bnf_to_bnf {pred pipe bnf} (pipe_bnf : pipe -> res bnf) (bnf_lines : bnf -> list (str * list pred)) fuel h root x :
  as_bnf pipe_bnf bnf_lines fuel h root = Some (Ok x) -> exists r h', to_bnf pipe_bnf bnf_lines fuel h root = Some (Ok (r, h')).
Proof.
  unfold as_bnf. destruct (to_bnf pipe_bnf bnf_lines fuel h root) as [[[r h'] | e] |]; try discriminate. intros _. exists r, h'. reflexivity.
Qed.
Lemma as_bnf_rejects {pred pipe bnf} (pipe_bnf : pipe -> res bnf) (bnf_lines : bnf -> list (str * list pred)) :
  forall fuel (h : heap pred pipe bnf) root x,
  (forall p, part_of h root p -> exists o, nth_error h p = Some o /\ is_bnf o = false /\ is_forward o = false) ->
  as_bnf pipe_bnf bnf_lines fuel h root = Some (Ok x) ->
  forall p o, part_of h root p -> nth_error h p = Some o -> not_normal o -> with_bounds o.
Proof. intros fuel h root x Pl E. destruct (as_bnf_to_bnf _ _ _ _ _ _ E) as (r & h' & E'). eapply to_bnf_rejects; eassumption. Qed.

Lemma bounded_accepted :
  exists (h : rule_heap) root p o fuel x, built h /\ part_of h root p /\ nth_error h p = Some o /\ not_normal o /\
    as_bnf (pipeline_as_bnf ASCII first_seen) b_productions fuel h root = Some (Ok x).
Proof.
  exists (program bounded_program), 4, 2, (OMin 1 2 false), 100. eexists.
  split; [apply program_built; reflexivity |].
  split; [apply (part_child _ 4 3 (OProd [TRule 2; TPred (PEq (str_of "b"))] 0)); [| reflexivity | left; reflexivity];
          apply (part_child _ 4 4 (ORule [3])); [constructor | reflexivity | left; reflexivity] |].
  split; [reflexivity |]. split; [exact Logic.I |]. vm_compute. reflexivity.
Qed.
