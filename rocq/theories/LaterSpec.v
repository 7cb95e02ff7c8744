(** Vocabulary: candidates with tokens of their own. *)
From Verif Require Import Base TokenModel EarleyModel TreeModel TreeSpec RelationSpec.

(** No leaf that is related in one candidate tree is part of another one. *)
Definition separate {pred} (g : grammar token pred) (trees : list (node token pred * (nat * nat))) : Prop :=
  forall t u u' rl ro l, In t trees -> In u trees -> t <> u -> propagate (fst u) = Some u' -> related g u' rl -> In (ro, l) rl -> ~ In l (tree_leaves (fst t)).

(** The same token, perhaps with fewer forms. *)
Definition fewer (now before : token) : Prop := same_text now before /\ forms_within now before.
