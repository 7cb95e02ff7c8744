(** Specification vocabulary for the hashed chart. *)
From Verif Require Import Base EarleyModel HashModel.

(** No two states kept in one column of the chart have one hash value without
    having the same tuple. *)
Definition no_collisions {token pred} (hash : hash_key -> Z) (st : cst token pred) : Prop :=
  forall k a b, In a (cols st k) -> In b (cols st k) ->
    hash (key_of a) = hash (key_of b) -> key_of a = key_of b.
