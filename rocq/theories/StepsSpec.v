(** Chains of the methods normalized, inflected, const and custom on attributes and normalizers. *)
From Verif Require Import Base TokenModel PredicateModel InterpModel InterpSpec.
Open Scope nat_scope.

(** One call: .normalized() or .inflected(grams), .const(value), .custom(function). *)
Inductive step := Morph (m : morph_normalizer) | Const (v : pyval) | Custom (f : function).
(** The calls made one after the other on an attribute. *)
Definition step_attribute (s : step) (x : attribute) : res attribute :=
  match s with Morph m => attribute_morph m x | Const v => attribute_const v x | Custom f => attribute_custom f x end.
Fixpoint chain_attribute (steps : list step) (x : attribute) : res attribute :=
  match steps with [] => Ok x | s :: steps' => let! y := step_attribute s x in chain_attribute steps' y end.
(** The same chain begun with normalized(), inflected(grams), const(value) or custom(function) of
    interpretation/__init__.py: only custom can follow. *)
Definition first_normalizer (s : step) : normalizer := match s with Morph m => NMorph m | Const v => NConst v | Custom f => NFunction f end.
Fixpoint chain_normalizer (steps : list step) (n : normalizer) : res normalizer :=
  match steps with
  | [] => Ok n
  | Custom f :: steps' => let! m := normalizer_custom n f in chain_normalizer steps' m
  | _ :: _ => Err AttributeError
  end.
(** The chains there are. *)
Inductive allowed : list step -> Prop :=
| allowed_nothing : allowed []
| allowed_morph m : allowed [Morph m]
| allowed_const v : allowed [Const v]
| allowed_custom f : allowed [Custom f]
| allowed_custom_twice f g : allowed [Custom f; Custom g]
| allowed_morph_custom m f : allowed [Morph m; Custom f].
(** What a chain makes of what the rule found: the first call looks at it, each further call is
    given the value so far. *)
Definition first_value (schemes : nat -> scheme) U inflect (s : step) (r : result) : res pyval :=
  match s with
  | Morph m => call_morph U inflect m r
  | Const v => Ok v
  | Custom f => let! w := normalized_result schemes r in f w
  end.
Fixpoint then_customs (steps : list step) (w : pyval) : res pyval :=
  match steps with
  | [] => Ok w
  | Custom f :: steps' => let! v := f w in then_customs steps' v
  | Const v :: steps' => then_customs steps' v
  | Morph _ :: _ => Err AttributeError
  end.
Definition chain_value (schemes : nat -> scheme) U inflect (steps : list step) (r : result) : res pyval :=
  match steps with
  | [] => normalized_result schemes r
  | s :: steps' => let! w := first_value schemes U inflect s r in then_customs steps' w
  end.
