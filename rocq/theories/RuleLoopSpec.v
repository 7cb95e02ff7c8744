(** Rules whose parses never go round in circles. *)
From Verif Require Import Base EarleyModel RuleModel RuleSpec.
Open Scope nat_scope.

Section Loops.
  Context {pred pipe bnf : Type}.
  Notation obj := (obj pred pipe bnf).
  Notation heap := (heap pred pipe bnf).

  (** Parts that may stand for no tokens at all by themselves. *)
  Definition skippable (o : obj) : Prop :=
    match o with OOptional _ _ | ORepOpt _ _ _ | OEmpty | OEmptyProd => True | _ => False end.
  (** The part that is repeated as often as one likes. *)
  Definition repeated (o : obj) (r : nat) : Prop :=
    match o with ORepeatable r' _ | ORepOpt r' _ _ | OMin r' _ _ => r = r' | _ => False end.
  Definition is_production (o : obj) : Prop := match o with OProd _ _ => True | _ => False end.

  (** The part may stand for no tokens at all. *)
  Inductive can_be_empty (h : heap) : nat -> Prop :=
  | empty_itself p o : nth_error h p = Some o -> skippable o -> can_be_empty h p
  | empty_part p o c : nth_error h p = Some o -> ~ is_production o -> In c (children o) -> can_be_empty h c -> can_be_empty h p
  | empty_terms p ts main : nth_error h p = Some (OProd ts main) -> (forall x, ~ In (TPred x) ts) -> (forall r, In (TRule r) ts -> can_be_empty h r) ->
      can_be_empty h p.

  (** The part [p] may consist of [c] and nothing else. *)
  Inductive may_be_just (h : heap) (p : nat) : nat -> Prop :=
  | just_part o c : nth_error h p = Some o -> ~ is_production o -> In c (children o) -> may_be_just h p c
  | just_term pre c post main : nth_error h p = Some (OProd (pre ++ TRule c :: post) main) ->
      (forall x, ~ In (TPred x) (pre ++ post)) -> (forall r, In (TRule r) (pre ++ post) -> can_be_empty h r) -> may_be_just h p c.

  (** Nothing that may be empty is repeated, and no part consists of itself: the parts can be
      numbered in such a way that a part has a lower number than what consists of it. *)
  Definition loop_free (h : heap) (root : nat) : Prop :=
    (forall p o r, reach h root p -> nth_error h p = Some o -> repeated o r -> ~ can_be_empty h r) /\
    exists level : nat -> nat, forall p c, reach h root p -> may_be_just h p c -> level c < level p.
End Loops.

(** The computation comes to an end: with enough fuel there is an outcome. *)
Definition ends {A} (f : nat -> option A) : Prop := exists outcome enough, forall fuel, enough <= fuel -> f fuel = Some outcome.
(** The computation never comes to an end. *)
Definition never_ends {A} (f : nat -> option A) : Prop := forall fuel, f fuel = None.
