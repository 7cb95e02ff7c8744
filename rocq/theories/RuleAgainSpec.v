(** Parsers constructed one after the other from rules with common parts. *)
From Verif Require Import Base PredicateModel PipelineModel RuleModel RuleSpec RuleBuild GrammarModel.
Open Scope nat_scope.

(** The rule is made of existing objects; none is a forward rule or the result of a conversion. *)
Definition plain_rule {pred pipe bnf} (h : heap pred pipe bnf) (root : nat) : Prop :=
  forall p, reach h root p ->
    match nth_error h p with Some (OForward _) | Some (OBNF _ _) | Some (OPipeBNF _ _ _) | None => False | Some _ => True end.

(** What a program does to the objects after [h]: it makes further objects, defines forward rules,
    and constructs parsers with the tokenizer and tagger of [c] from rules without forward rules. *)
Inductive history (c : context) (h : rule_heap) : rule_heap -> Prop :=
| history_start : history c h h
| history_new h1 o : history c h h1 -> history c h (h1 ++ [o])
| history_define h1 f d r : history c h h1 -> nth_error h1 f = Some (OForward d) -> history c h (setitem h1 f (OForward (Some r)))
| history_parser h1 U set_order fuel root r h2 : history c h h1 -> plain_rule h1 root ->
    build_rule U set_order c fuel h1 root = Some (Ok (r, h2)) -> history c h h2.

(** No forward rule of [root] is part of one of the rules [done]. *)
Definition own_forwards {pred pipe bnf} (h : heap pred pipe bnf) (done : list nat) (root : nat) : Prop :=
  forall p d, reach h root p -> nth_error h p = Some (OForward d) -> forall r, In r done -> ~ reach h r p.
(** Parsers are constructed from the rules [done] of [h], the last one first; no forward rule
    is used twice. *)
Inductive constructed (c : context) (h : rule_heap) : list nat -> rule_heap -> Prop :=
| constructed_none : constructed c h [] h
| constructed_more done h1 U set_order fuel root r h2 : constructed c h done h1 -> is_rule_at h root -> flat h root -> own_forwards h done root ->
    build_rule U set_order c fuel h1 root = Some (Ok (r, h2)) -> constructed c h (root :: done) h2.
