(** Cases for C85. *)
From Coq Require String.
From Verif Require Import Base TokenModel EarleyModel TokenizerModel TaggerModel PredicateModel PipelineModel PipelineSpec PipelineTheorems ParserModel RelationModel RuleModel RuleSpec RuleBuild GrammarModel GrammarSpec
  RuleNestSpec TextModel PredicateCases Cases RuleCases SetOrderTheorems TextTheorems RuleAgainCases ArgModel ArgSpec ArgProofs.
Import String.StringSyntax.
Open Scope nat_scope.

Definition one_number (r : relation) : nat := 0.
Definition no_list (v : value) : res (list value) := Err TypeError.
Definition word (s : String.string) : value := VStr (str_of s).
(** The heap after calls; calls that raise leave it unchanged. *)
Definition after_calls (l : list value_call) : rule_heap := fold_left (fun h c => after_value_call one_number no_list c h) l [].
Definition call (c : value_call) (l : list value_call) : res (value * rule_heap) := call_value one_number no_list c (after_calls l).
(** The value of the last call. *)
Definition returned (c : value_call) (l : list value_call) : res value := let! (v, _) := call c l in Ok v.

(** Items that are no strings, lines that are one string or a record, bounds that are no
    numbers. *)
Lemma wrong_types_refute : exists relation_number iterate_other c1 c2 c3 c4 c5, (forall c, In c [c1; c2; c3; c4; c5] -> ~ expected c /\ exists x, call_value relation_number iterate_other c [] = Ok x) /\
  c1 = ARule [VInt 1] /\ c2 = APipeline Exact (word "abc") /\ c3 = APipeline Exact (VPred (PEq (str_of "a"))) /\
  c4 = ARepeatable (VPred PTrue) (VBool true) VNone (VBool false) /\ c5 = ARepeatable (VPred PTrue) (word "") VNone (VBool false).
Proof.
  exists one_number, no_list. do 5 eexists. split; [|repeat split]. intros c [<-|[<-|[<-|[<-|[<-|[]]]]]]; (split; [|eexists; reflexivity]).
  - intros F. inversion F as [|? ? [(x & E)|[(x & E)|[(x & E)|(x & E)]]] _]; discriminate.
  - intros (l & E & _). discriminate.
  - intros (l & E & _). discriminate.
  - intros (_ & [E|(z & E)] & _); discriminate.
  - intros (_ & [E|(z & E)] & _); discriminate.
Qed.
(** gram('NOUN').optional(reverse=True): Predicate.optional has no argument. *)
Lemma right_types_refute : exists relation_number iterate_other c, expected c /\ call_value relation_number iterate_other c [] = Err TypeError.
Proof.
  exists one_number, no_list, (AOptional (VPred (SGram (str_of "NOUN"))) (Some (VBool true))). split; [|reflexivity]. split; [right; eexists; reflexivity|]. intros x E. injection E as <-. eexists. reflexivity.
Qed.

(** rule('a', 1); rule(None, that rule) *)
Definition wrong_calls : list value_call := [ARule [word "a"; VInt 1]; ARule [VNone; VRule 1]].
Lemma wrong_calls_written : written one_number no_list (after_calls wrong_calls).
Proof.
  unfold after_calls, wrong_calls. cbn [fold_left]. apply written_call; [apply written_call; [constructor|]|].
  - intros v r [<-|[<-|[]]] K; inversion K.
  - intros v r [<-|[<-|[]]] K; inversion K; subst. eexists. split; reflexivity.
Qed.
