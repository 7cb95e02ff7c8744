(** Rules a Parser can be built from. *)
From Verif Require Import Base TokenModel EarleyModel RuleModel RuleSpec PredicateModel PipelineModel GrammarModel.
Open Scope nat_scope.

Section Solid.
  Context {pred pipe bnf : Type}.
  Notation obj := (obj pred pipe bnf).
  Notation heap := (heap pred pipe bnf).
  (** Rules that normalisation does not replace by forward rules: forward rules stay what they
      are, r.repeatable() and r.repeatable().optional() are replaced by recursive rules, that
      is by forward rules, and r.repeatable(max=1) is replaced by r. *)
  Definition firm (o : obj) : bool := match o with OForward _ | ORepeatable _ _ | ORepOpt _ _ _ => false | OMax _ m _ => negb (m =? 1) | _ => true end.
  Inductive solid (h : heap) : nat -> Prop :=
  | solid_here p o : nth_error h p = Some o -> firm o = true -> solid h p
  | solid_once p r rev : nth_error h p = Some (OMax r 1 rev) -> solid h r -> solid h p.
End Solid.

(** Forward rules are defined, by solid rules; predicates know what they look up; pipelines can
    be split into tokens. *)
Definition usable_obj (U : unicode) (set_order : list str -> list str) (c : context) (h : rule_heap) (o : obj predicate pipeline pipeline_bnf) : Prop :=
  match o with
  | OForward d => exists r, d = Some r /\ solid h r
  | OProd ts _ => forall x, In (TPred x) ts -> exists y, activate c x = Ok y
  | OPipeline x => exists y b, activate_pipeline c x = Ok y /\ pipeline_as_bnf U set_order y = Ok b
  | _ => True
  end.
Definition usable (U : unicode) (set_order : list str -> list str) (c : context) (h : rule_heap) (root : nat) : Prop :=
  forall p o, reach h root p -> nth_error h p = Some o -> usable_obj U set_order c h o.
