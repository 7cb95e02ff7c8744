(** Rules compared by what they accept. *)
From Verif Require Import Base TokenModel EarleyModel PredicateModel PipelineModel RuleModel RuleSpec RuleBuild RuleNestSpec GrammarModel GrammarSpec TextSpec.
Open Scope nat_scope.

(** A parser built from a rule without empty parts and relations. *)
Definition ready (U : unicode) (set_order : list str -> list str) (c : context) (fuel : nat) (h : rule_heap) (root : nat) (g : grammar token predicate) : Prop :=
  built h /\ harmless h root /\ is_rule_at h root /\ solid h root /\ parser_grammar U set_order c fuel h root = Some (Ok g).
(** The rule [p] is rule(terms). *)
Definition sequence_at (h : rule_heap) (p : nat) (terms : list (term predicate)) : Prop :=
  exists q m, nth_error h p = Some (ORule [q]) /\ nth_error h q = Some (OProd terms m).
(** The rules accept the same pieces of every text. *)
Definition same_pieces (U : unicode) (set_order : list str -> list str) (c : context) (h : rule_heap) (x y : nat) : Prop :=
  forall toks i j, rule_accepts U set_order c h x toks i j <-> rule_accepts U set_order c h y toks i j.
(** A predicate that the parser takes and that raises nothing. *)
Definition calm (U : unicode) (c : context) (p : predicate) : Prop := exists q, activate c p = Ok q /\ forall t, exists b, PredicateModel.call U q t = Ok b.
