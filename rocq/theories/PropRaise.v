(** Properties of predicates that raise (C75).

    [call] and [narrow] are the answers of a predicate for a token, exceptions
    included; [says] and [narrowed] count an exception as a refusal, which is how
    the other files look at predicates. *)
From Coq Require String.
From Verif Require Import Base TokenModel EarleyModel EarleySpec TokenizerModel PredicateModel PredicateSpec PredicateCases
  PipelineSpec PipelineTheorems TreeModel ParserModel RuleModel RuleSpec RuleBuild RuleNestSpec GrammarModel GrammarSpec RuleTheorems RuleCases
  TextModel TextTheorems RaiseModel RaiseSpec RaiseTheorems RaiseCases.
Open Scope nat_scope.

(** ** C75: when every predicate that is asked answers, all methods of the parser
    return what they return when exceptions are counted as refusals. *)
Theorem answering_predicates_change_nothing :
  forall pred (call : pred -> token -> res bool) narrow rel g toks fuel all, predict_sound g ->
  (forall k t p, nth_error toks k = Some t -> asked call g toks k p -> answers call narrow p t) ->
  rparse call narrow g fuel toks all = option_map Ok (parse (says call) (narrowed narrow) g fuel toks all) /\
  rfindall call narrow rel g fuel toks = findall (says call) (narrowed narrow) rel g fuel toks /\
  rfind call narrow rel g fuel toks = find (says call) (narrowed narrow) rel g fuel toks /\
  rmatch call narrow rel g fuel toks = match_ (says call) (narrowed narrow) rel g fuel toks /\
  rextract call narrow rel g fuel toks all = option_map Ok (extract (says call) (narrowed narrow) rel g fuel toks all).
Proof. exact (fun pred call narrow rel g toks fuel all P => quiet_same call narrow rel g toks fuel P all). Qed.
Print Assumptions answering_predicates_change_nothing.

(** "0 0": no digits are asked for, the letter comes first. *)
Example answering_predicates_case : predict_sound steps /\
  (exists t, nth_error [number "0"; number "0"] 0 = Some t /\ asked step_call steps [number "0"; number "0"] 0 Letter /\
     answers step_call step_narrow Letter t) /\
  rparse step_call step_narrow steps 50 [number "0"; number "0"] true = Some (Ok []) /\
  (exists x, rparse step_call step_narrow steps 50 [letter; number "123"] false = Some (Ok [x])).
Proof.
  split; [apply steps_predict|]. split.
  - exists (number "0"). split; [reflexivity|]. split; [exists 0, 0, [], [TPred Digits], 0, []; repeat split; [left; reflexivity|constructor]|left; reflexivity].
  - split; [vm_compute; reflexivity|]. eexists. vm_compute. reflexivity.
Qed.

(** ** C75: the exception that comes out of the parser is one that a predicate
    raised on a token where a production had come to it. *)
Theorem exceptions_come_from_asked_predicates :
  forall pred (call : pred -> token -> res bool) narrow g toks fuel all e, predict_sound g ->
  rparse call narrow g fuel toks all = Some (Err e) ->
  exists k t p, nth_error toks k = Some t /\ asked call g toks k p /\ raises call narrow p t e.
Proof. exact (fun pred call narrow g toks fuel all e P => rparse_error call narrow g toks fuel P all e). Qed.
Print Assumptions exceptions_come_from_asked_predicates.

(** "n 0". *)
Example exceptions_come_case : rparse step_call step_narrow steps 50 [letter; number "0"] true = Some (Err ValueError) /\
  asked step_call steps [letter; number "0"] 1 Digits /\ raises step_call step_narrow Digits (number "0") ValueError.
Proof. split; [vm_compute; reflexivity|]. split; [apply digits_asked|left; reflexivity]. Qed.

(** ** C75: no exception is lost.  When the parser returns, every predicate that a
    production of a rule looked for had to come to has answered. *)
Theorem exceptions_are_not_lost :
  forall pred (call : pred -> token -> res bool) narrow g toks fuel all trees, predict_complete (says call) g ->
  rparse call narrow g fuel toks all = Some (Ok trees) ->
  parse (says call) (narrowed narrow) g fuel toks all = Some trees /\
  forall k t p, nth_error toks k = Some t -> must_answer call g toks all k t p -> answers call narrow p t.
Proof. exact (fun pred call narrow g toks fuel all trees P => rparse_answers call narrow g toks fuel P all trees). Qed.
Print Assumptions exceptions_are_not_lost.

Example exceptions_are_not_lost_case : predict_complete (says step_call) steps /\
  (exists trees, rparse step_call step_narrow steps 50 [letter; number "7"] true = Some (Ok trees)) /\
  must_answer step_call steps [letter; number "7"] true 1 (number "7") Digits /\
  must_answer step_call steps [letter; number "0"] true 1 (number "0") Digits /\
  ~ answers step_call step_narrow Digits (number "0").
Proof.
  split; [apply steps_predict|]. split; [eexists; vm_compute; reflexivity|]. split; [apply digits_must|]. split; [apply digits_must|].
  intros [H|[H _]]; discriminate H.
Qed.

(** ** C75: a Parser on a text.  For every rule made by the calls of the library
    and all tokens that are not empty and, when of type INT, readable as
    integers: each method returns what it returns in the other files, or it
    raises what a function of the user, standing in a predicate of the rule,
    raised on a token of the text. *)
Theorem exceptions_are_the_users :
  forall U set_order c, set_iteration set_order -> forall rel fuel h root, built h -> harmless h root -> is_rule_at h root ->
  forall text toks, text_tokens c text = Some (Ok toks) -> Forall (usual_token U) toks ->
  let users_fault e := exists t, In t toks /\ rule_function_raises h root e t in
  (raising_findall U set_order c rel fuel h root text = parser_findall U set_order c rel fuel h root text \/
    exists e, users_fault e /\ raising_findall U set_order c rel fuel h root text = Some (Err e)) /\
  (raising_find U set_order c rel fuel h root text = parser_find U set_order c rel fuel h root text \/
    exists e, users_fault e /\ raising_find U set_order c rel fuel h root text = Some (Err e)) /\
  (raising_match U set_order c rel fuel h root text = parser_match U set_order c rel fuel h root text \/
    exists e, users_fault e /\ raising_match U set_order c rel fuel h root text = Some (Err e)) /\
  forall all, (raising_extract U set_order c rel fuel h root text all = parser_extract U set_order c rel fuel h root text all \/
    exists e, users_fault e /\ raising_extract U set_order c rel fuel h root text all = Some (Err e)).
Proof. exact text_exceptions. Qed.
Print Assumptions exceptions_are_the_users.

(** rule('n', custom(lambda x: int(log(int(x), 10)) == 2, types=INT)): "n 123 0" is
    fine; in "n 123 n 0" the second number raises and nothing is found. *)
Example exceptions_are_the_users_case :
  built digits_heap /\ harmless digits_heap 1 /\ is_rule_at digits_heap 1 /\
  (exists toks, text_tokens small_context (str_of "n 123 n 0") = Some (Ok toks) /\ Forall (usual_token ASCII) toks) /\
  digits_raising "n 123 0" = Some (Ok [((0, 2), (0, 5)%Z)]) /\ digits_found "n 123 0" = Some (Ok [((0, 2), (0, 5)%Z)]) /\
  digits_raising "n 123 n 0" = Some (Err ValueError) /\ digits_found "n 123 n 0" = Some (Ok [((0, 2), (0, 5)%Z)]).
Proof.
  destruct digits_built as (B & M & R). split; [exact B|]. split; [exact M|]. split; [exact R|]. split.
  - eexists. split; [vm_compute; reflexivity|]. apply usualb_true. vm_compute. reflexivity.
  - repeat split; vm_compute; reflexivity.
Qed.
