(** Specification: what the rule returned by a call accepts, in terms of what the rules
    given to the call accept. *)
From Verif Require Import Base TokenModel EarleyModel PredicateModel PipelineModel PipelineSpec RuleModel RuleAccept RuleBuild GrammarModel GrammarSpec.
Open Scope nat_scope.

Notation rule_call := (call (pred := predicate) (pipe := pipeline)).

Section Calls.
  Variable U : unicode.
  Variable c : context.
  Variable toks : list token.
  (** Tokens [i] to [j] are accepted by the rule. *)
  Variable part : nat -> nat -> nat -> Prop.
  (** Pieces of text one after the other, one for each term: one token accepted by the
      predicate (which knows the tokenizer and the tagger) or tokens accepted by the rule. *)
  Inductive in_a_row : list (term predicate) -> nat -> nat -> Prop :=
  | row_end i : in_a_row [] i i
  | row_predicate p q t ts i j : activate c p = Ok q -> nth_error toks i = Some t -> accepts U q t = true -> in_a_row ts (S i) j -> in_a_row (TPred p :: ts) i j
  | row_rule r ts i k j : part r i k -> in_a_row ts k j -> in_a_row (TRule r :: ts) i j.
  Definition call_accepts (k : rule_call) (i j : nat) : Prop :=
    match k with
    | CRule items => in_a_row (map written_term items) i j
    | COr rs => exists r, In r rs /\ part r i j
    | COptional r _ => i = j \/ part r i j
    | CRepeatable r min max _ => exists n, within (truthy min) (truthy max) n /\ occurrences (part r) n i j
    | CNamed r _ | CInterpretation r _ | CMatch r _ => part r i j
    | CEmpty => i = j
    | CPipeline x => exists kd lines, x = scheme kd lines /\ exists line ts, In line lines /\ segment toks i j ts /\ line_agrees U c kd line ts
    | CForward | CDefine _ _ | CDefineItems _ _ => False
    end.
End Calls.
(** The calls that return a rule ready for use: not forward() and define.  A pipeline is
    given by its lines, which can be split into tokens. *)
Definition makes_rule (U : unicode) (set_order : list str -> list str) (c : context) (k : rule_call) : Prop :=
  match k with
  | CForward | CDefine _ _ | CDefineItems _ _ => False
  | CPipeline x => exists kd lines y b, x = scheme kd lines /\ activate_pipeline c x = Ok y /\ pipeline_as_bnf U set_order y = Ok b
  | _ => True
  end.
