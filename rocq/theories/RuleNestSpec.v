(** Specification: directly nested quantifiers that do no harm. *)
From Verif Require Import Base RuleModel RuleSpec RuleBuild.
Open Scope nat_scope.

Section Nested.
  Context {pred pipe bnf : Type}.
  Notation obj := (obj pred pipe bnf).
  Notation heap := (heap pred pipe bnf).

  (** A quantifier for which one occurrence is enough. *)
  Definition loose (o : obj) : bool :=
    match o with
    | OOptional _ _ | ORepeatable _ _ | ORepOpt _ _ _ | OMax _ _ _ => true
    | OMin _ min _ | OMinMax _ min _ _ => min <=? 1
    | _ => false
    end.
  (** A repetition with bounds. *)
  Definition bounded (o : obj) : bool :=
    match o with OMin _ _ _ | OMax _ _ _ | OMinMax _ _ _ _ => true | _ => false end.

  (** Quantifiers of one sort put on each other, the last one on a rule without quantifier. *)
  Inductive stack (sort : obj -> bool) (h : heap) : nat -> Prop :=
  | stack_end p o : nth_error h p = Some o -> quantifier o = false -> stack sort h p
  | stack_more p o c : nth_error h p = Some o -> sort o = true -> children o = [c] -> stack sort h c -> stack sort h p.
  (** All satisfied by one occurrence, or all bounded, perhaps optional as a whole. *)
  Inductive mild (h : heap) : nat -> Prop :=
  | mild_loose p : stack loose h p -> mild h p
  | mild_bounded p : stack bounded h p -> mild h p
  | mild_optional p r reverse : nth_error h p = Some (OOptional r reverse) -> mild h r -> mild h p.
  Definition harmless (h : heap) (root : nat) : Prop := forall p, reach h root p -> mild h p.
End Nested.
