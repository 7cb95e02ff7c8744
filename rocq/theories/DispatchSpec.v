(** What a class inherits, how its ancestors may be ordered, and which method of a visitor is meant
    for an object. *)
From Coq Require Import String.
From Verif Require Import Base TokenModel EarleyModel RuleModel DispatchModel.
Open Scope nat_scope.

(** [b] is written between the brackets of the class statement of [c]. *)
Definition base (t : table) (c b : string) : Prop := exists bs, bases_in t c = Some bs /\ In b bs.

(** [issubclass(c, d)]. *)
Inductive inherits (t : table) : string -> string -> Prop :=
| inherits_self c : inherits t c c
| inherits_base c b d : base t c b -> inherits t b d -> inherits t c d.

(** [x] stands somewhere before [y]. *)
Definition before {A} (x y : A) (l : list A) : Prop :=
  exists i j, i < j /\ nth_error l i = Some x /\ nth_error l j = Some y.

(** The order of the ancestors that the Python reference promises: the class comes first, every
    ancestor once, every class before its bases, bases in the order in which they are written. *)
Record ancestors_in_order (t : table) (c : string) (l : list string) : Prop := {
  the_class_first : nth_error l 0 = Some c;
  each_once : NoDup l;
  all_of_them : forall d, In d l <-> inherits t c d;
  class_before_bases : forall d b, In d l -> base t d b -> before d b l;
  bases_as_written : forall d bs b b', In d l -> bases_in t d = Some bs -> before b b' bs -> before b b' l
}.

(** The visitor [v] has a method [visit_name], written in its own class or inherited. *)
Definition has_method (t methods : table) (v name : string) : Prop :=
  exists owner, inherits t v owner /\ defines methods owner name = true.

(** The method of [owner] called [name] is the one for objects of class [c]: nothing more special
    would do. *)
Record method_for (t methods : table) (v c owner name : string) : Prop := {
  name_is_ancestor : inherits t c name;
  owner_is_ancestor : inherits t v owner;
  owner_defines : defines methods owner name = true;
  no_closer_name : forall name', inherits t c name' -> inherits t name' name -> has_method t methods v name' -> name' = name;
  no_closer_owner : forall owner', inherits t v owner' -> inherits t owner' owner -> defines methods owner' name = true -> owner' = owner
}.

(** The classes of the dictionary rules of pipelines (pipelines.py 16-75). *)
Definition pipeline_classes : list string :=
  ["PipelineBNFRule"; "CaselessPipelineBNFRule"; "MorphPipelineBNFRule"]%string.
(** The visitors of rules, of rules with their predicates, and of trees. *)
Definition rule_visitors : list string :=
  ["ActivateTransformator"; "SquashExtendedTransformator"; "ReplaceExtendedTransformator"; "ReplaceOrTransformator";
   "ReplaceEmptyTransformator"; "FlattenTransformator"; "BNFTransformator"; "RemoveForwardTransformator";
   "DotRuleTransformator"]%string.
Definition tree_visitors : list string :=
  ["PropogateEmptyTransformator"; "KeepInterpretationNodesTransformator"; "InterpretationTransformator";
   "RelationsTransformator"; "ApplyRelationsTransformator"; "DotTreeTransformator"]%string.

(** The productions of BNF rules are there and are no forward rules (rule/constructors.py 63-65). *)
Definition holds_productions {pred pipe bnf} (h : heap pred pipe bnf) : Prop :=
  forall p ps a q, nth_error h p = Some (OBNF ps a) -> In q ps -> exists o, nth_error h q = Some o /\ is_forward o = false.

(** [q] is part of the rule [root]. *)
Inductive part_of {pred pipe bnf} (h : heap pred pipe bnf) (root : nat) : nat -> Prop :=
| part_root : part_of h root root
| part_child p o c : part_of h root p -> nth_error h p = Some o -> In c (children o) -> part_of h root c.

(** The parts that [normalized] replaces by others (rule/transformators.py 161-410). *)
Definition not_normal {pred pipe bnf} (o : obj pred pipe bnf) : Prop :=
  match o with
  | OOr _ | OEmpty | OOptional _ _ | ORepeatable _ _ | ORepOpt _ _ _ | OMin _ _ _ | OMax _ _ _ | OMinMax _ _ _ _ => True
  | _ => False
  end.
Definition with_bounds {pred pipe bnf} (o : obj pred pipe bnf) : Prop :=
  match o with OMin _ _ _ | OMax _ _ _ | OMinMax _ _ _ _ => True | _ => False end.
