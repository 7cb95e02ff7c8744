(** Rules that accept more. *)
From Verif Require Import Base TokenModel EarleyModel EarleySpec TokenizerModel PredicateModel PipelineModel PipelineSpec ParserModel ParserSpec RuleModel RuleSpec RuleAccept RuleBuild GrammarModel GrammarSpec RuleNestSpec
  TextModel TextSpec AbsentSpec.
Open Scope nat_scope.

(** A parser that finds what its rule accepts: no empty parts and relations, or empty parts that are completed in time. *)
Definition sure (U : unicode) (set_order : list str -> list str) (c : context) (fuel : nat) (h : rule_heap) (root : nat) (g : grammar token predicate) : Prop :=
  built h /\ harmless h root /\ is_rule_at h root /\ parser_grammar U set_order c fuel h root = Some (Ok g) /\
  (solid h root \/ no_relations_in h root /\ timely g /\ ~ rule_accepts U set_order c h root [] 0 0).
(** What the first rule accepts, the second accepts. *)
Definition narrower (U : unicode) (set_order : list str -> list str) (c : context) (h : rule_heap) (root : nat) (h' : rule_heap) (root' : nat) (toks : list token) : Prop :=
  forall i j, rule_accepts U set_order c h root toks i j -> rule_accepts U set_order c h' root' toks i j.
(** Two ranges with a common token. *)
Definition share (a b : nat * nat) : Prop := exists k, (fst a <= k < snd a) /\ (fst b <= k < snd b).
(** Number of characters covered. *)
Definition characters {pred} (ms : list (@amatch pred)) : Z := fold_right Z.add 0%Z (map (fun m => snd (m_span m) - fst (m_span m))%Z ms).
