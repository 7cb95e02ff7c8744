(** Vocabulary: how deep a tree is. *)
From Verif Require Import Base TokenModel EarleyModel EarleySpec ParserModel TreeModel StackModel.
Open Scope nat_scope.

(** The longest way down from the root to a leaf, in nodes. *)
Fixpoint levels {token pred} (n : node token pred) : nat :=
  match n with Leaf _ _ _ _ => 0 | Node _ _ _ _ ch => S (list_max (map levels ch)) end.

(** Rules that do not contain themselves, at most [k] inside each other. *)
Definition nested_at_most {token pred} (g : grammar token pred) (k : nat) : Prop :=
  exists level : nat -> nat, level (g_start g) < k /\ forall r q r', In q (g_prods g r) -> In (TRule r') (g_terms g q) -> level r' < level r.

(** What a generator gave and how it ended, when the stack is not the reason. *)
Definition unlimited {A S} (x : A * S * option exn) : A * S * ending :=
  let '(found, s, e) := x in (found, s, match e with None => Exhausted | Some e => Raised e end).
