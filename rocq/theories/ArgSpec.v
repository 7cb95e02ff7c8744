(** Vocabulary: the types the documented functions take, and programs that call them with
    anything. *)
From Verif Require Import Base TokenModel EarleyModel PredicateModel PipelineModel RelationModel RuleModel RuleSpec RuleBuild GrammarModel ArgModel.
Open Scope nat_scope.

Definition a_predicate (v : value) : Prop := exists p, v = VPred p.
Definition a_relation (v : value) : Prop := exists r, v = VRelation r.
Definition a_rule (v : value) : Prop := exists r, v = VRule r.
Definition a_string (v : value) : Prop := exists s, v = VStr s.
Definition a_bool (v : value) : Prop := exists b, v = VBool b.
(** min and max of repeatable. *)
Definition a_bound (v : value) : Prop := v = VNone \/ exists z, v = VInt z.
(** An item of rule(...) and of define(...). *)
Definition an_item (v : value) : Prop := a_string v \/ a_predicate v \/ a_rule v \/ exists t, v = VMain t.
(** The argument of interpretation. *)
Definition for_tokens (v : value) : Prop := exists i, v = VAttribute i \/ v = VNormalizer i.
Definition for_rules (v : value) : Prop := for_tokens v \/ exists i, v = VFact i \/ v = VInterpretator i.

(** The arguments have the types the functions are made for. *)
Definition expected (c : value_call) : Prop :=
  match c with
  | ARule items => Forall an_item items
  | AAnd items => Forall a_predicate items \/ Forall a_relation items
  | AOr items => Forall a_predicate items \/ Forall a_relation items \/ Forall a_rule items
  | ANot v => a_predicate v \/ a_relation v
  | AMain v => a_predicate v \/ a_rule v
  | AForward | AEmpty => True
  | APipeline _ lines => exists l, lines = VList l /\ Forall a_string l
  | AOptional v reverse => (a_rule v \/ a_predicate v) /\ forall x, reverse = Some x -> a_bool x
  | ARepeatable v min max reverse => (a_rule v \/ a_predicate v) /\ a_bound min /\ a_bound max /\ a_bool reverse
  | ANamed v name => (a_rule v \/ a_predicate v) /\ a_string name
  | AInterpretation v x => a_rule v /\ for_rules x \/ a_predicate v /\ for_tokens x
  | AMatch v x => (a_rule v \/ a_predicate v) /\ a_relation x
  | ADefine v args => a_rule v /\ args <> [] /\ Forall an_item args
  end.

(** What is let through: anything as an item; as a bound anything that counts as false,
    and True; as lines anything whose elements are strings. *)
Definition let_through (iterate_other : value -> res (list value)) (h : rule_heap) (c : value_call) : Prop :=
  match c with
  | ARule _ => True
  | APipeline _ lines => exists l, iterate iterate_other h lines = Ok l /\ Forall a_string l
  | AOptional v reverse => a_rule v /\ (forall x, reverse = Some x -> a_bool x) \/ a_predicate v /\ reverse = None
  | ARepeatable v min max reverse => (a_rule v \/ a_predicate v) /\ a_bool reverse /\
      forall b, b = min \/ b = max -> truth b = false \/ b = VBool true \/ exists z, b = VInt z
  | ADefine v args => a_rule v /\ args <> []
  | _ => expected c
  end.

(** Values the functions reject although the types are right: two main terms, bounds that
    are negative or in the wrong order, definitions of rules that are no forward rules,
    forward rules as definitions. *)
Definition one_main (items : list value) : Prop := forall a b c t u, items <> a ++ VMain t :: b ++ VMain u :: c.
Definition bound_value (v : value) (z : option Z) : Prop := z = match v with VInt 0 => None | VInt n => Some n | _ => None end.
(** A forward rule, or wrappers around it. *)
Inductive wraps (h : rule_heap) : nat -> Prop :=
| wraps_forward f d : nth_error h f = Some (OForward d) -> wraps h f
| wraps_more f o r : nth_error h f = Some o -> quantifier o = true \/ (exists n, o = ONamed r n) \/ (exists i, o = OInterp r i) \/ (exists n, o = ORelation r n) ->
    children o = [r] -> wraps h r -> wraps h f.
Definition right_values (h : rule_heap) (c : value_call) : Prop :=
  match c with
  | ARule items => one_main items
  | AOptional v reverse => a_predicate v -> reverse = None
  | ARepeatable _ min max _ => forall m n, bound_value min m -> bound_value max n ->
      (forall x, m = Some x -> 1 <= x)%Z /\ (forall y, n = Some y -> 1 <= y)%Z /\ (forall x y, m = Some x -> n = Some y -> x <= y)%Z
  | ADefine v args => forall f, v = VRule f -> wraps h f /\ one_main args /\
      forall r d, args = [VRule r] -> nth_error h r <> Some (OForward d)
  | _ => True
  end.

(** The method does not exist: the receiver is neither rule nor predicate; there is no
    forward rule to define. *)
Definition no_method (c : value_call) (h : rule_heap) : Prop :=
  match c with
  | AOptional v _ | ARepeatable v _ _ _ | ANamed v _ | AInterpretation v _ | AMatch v _ => ~ a_rule v /\ ~ a_predicate v
  | ADefine v _ => forall f, v = VRule f -> ~ wraps h f
  | _ => False
  end.

(** ** Programs *)
(** A rule the value consists of or contains. *)
Inductive inside : nat -> value -> Prop :=
| inside_rule r : inside r (VRule r)
| inside_main r : inside r (VMain (TRule r))
| inside_list r v l : In v l -> inside r v -> inside r (VList l).
Definition arguments (c : value_call) : list value :=
  match c with
  | ARule items | AAnd items | AOr items => items
  | ANot v | AMain v | APipeline _ v => [v]
  | AForward | AEmpty => []
  | AOptional v reverse => v :: match reverse with Some x => [x] | None => [] end
  | ARepeatable v min max reverse => [v; min; max; reverse]
  | ANamed v x | AInterpretation v x | AMatch v x => [v; x]
  | ADefine v args => v :: args
  end.
(** The heaps of programs: calls with any arguments, in which pointers are to rules. *)
Inductive written (relation_number : relation -> nat) (iterate_other : value -> res (list value)) : rule_heap -> Prop :=
| written_nothing : written relation_number iterate_other []
| written_call c h : written relation_number iterate_other h -> (forall v r, In v (arguments c) -> inside r v -> is_rule_at h r) ->
    written relation_number iterate_other (after_value_call relation_number iterate_other c h).
