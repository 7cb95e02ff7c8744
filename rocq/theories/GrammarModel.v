(** Model of Parser.__init__ (yargy/parser.py 240-255) with the predicates of
    predicates/bank.py and the pipelines of pipelines.py: from a rule to the grammar the
    chart works with. *)
From Verif Require Import Base TokenModel EarleyModel PredicateModel PipelineModel RuleModel.
Open Scope nat_scope.

Definition rule_heap := heap predicate pipeline pipeline_bnf.

Section Parser.
  Variable U : unicode.
  Variable set_order : list str -> list str.
  (** parser.py 241-252: tokenizer and tagger. *)
  Variable c : context.

  (** rule/constructors.py 98-100: rule.activate(context). *)
  Definition activate_rule (fuel : nat) (h : rule_heap) (root : nat) : option (res (nat * rule_heap)) :=
    run_inplace (activate_visit (activate c) (activate_pipeline c)) fuel h root.

  (** parser.py 252-254: the rule of the parser and the heap afterwards. *)
  Definition build_rule (fuel : nat) (h : rule_heap) (root : nat) : option (res (nat * rule_heap)) :=
    parser_rule (pipeline_as_bnf U set_order) b_productions (activate c) (activate_pipeline c) fuel h root.

  (** Only the rules reachable from the start rule belong to the grammar. *)
  Definition restrict (objects : list nat) (g : grammar token predicate) : grammar token predicate :=
    mkGrammar
      (fun r => if is_in r objects then g_prods g r else [])
      (fun r t => if is_in r objects then g_predict g r t else [])
      (g_terms g) (g_main g) (g_key g)
      (fun r => if is_in r objects then g_relation g r else None)
      (fun r => if is_in r objects then g_interp g r else None)
      (g_start g).
  Definition parser_grammar (fuel : nat) (h : rule_heap) (root : nat) : option (res (grammar token predicate)) :=
    then_ (build_rule fuel h root) (fun '(r, h') =>
    match bfs fuel h' r with
    | Some objects => Some (Ok (restrict objects (grammar_of (pipeline_predict U set_order) h' r)))
    | None => None
    end).
End Parser.
