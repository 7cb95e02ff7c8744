(** Vocabulary for texts that are continued. *)
From Verif Require Import Base TokenModel EarleyModel EarleySpec PredicateModel PipelineModel RuleModel RuleSpec RuleAccept RuleBuild GrammarModel.
Open Scope nat_scope.

(** Where the index of a rule leaves productions out, all productions of the rule begin
    with a predicate. *)
Definition last_column_ready {token pred} (g : grammar token pred) : Prop :=
  forall r t, g_predict g r t = g_prods g r \/
    forall q, In q (g_prods g r) \/ In q (g_predict g r t) -> exists p ts, g_terms g q = TPred p :: ts.

(** No predicate of the rule accepts the token. *)
Definition foreign (U : unicode) (set_order : list str -> list str) (c : context) (h : rule_heap) (root : nat) (t : token) : Prop :=
  forall x o, reach h root x -> nth_error h x = Some o ->
  match o with
  | OProd ts _ => forall p, In (TPred p) ts -> accepts_active (accepts U) (activate c) p t = false
  | OPipeline l => forall b key ps p, active_bnf (pipeline_as_bnf U set_order) (activate_pipeline c) l = Ok b -> In (key, ps) (b_productions b) -> In p ps ->
      accepts_active (accepts U) (activate c) p t = false
  | _ => True
  end.
