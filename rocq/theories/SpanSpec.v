(** Specification vocabulary for the overlap resolution of [findall].
    Nothing here mentions how the selection is computed. *)
From Verif Require Import Base.
Open Scope Z_scope.

(** Ranges are half-open intervals [start, stop). *)
Notation range := (Z * Z)%type (only parsing).

Definition nth_range (l : list range) (i : nat) : range := nth i l (0, 0).

(** Two ranges share no position. *)
Definition disjoint (a b : range) : Prop := snd a <= fst b \/ snd b <= fst a.

(** A selection: distinct positions of the candidate list, listed in
    increasing order, whose ranges are pairwise disjoint. *)
Record selection (l : list range) (sel : list nat) : Prop := {
  sel_bound : forall i, In i sel -> (i < length l)%nat;
  sel_incr : forall p i q j r, sel = p ++ i :: q ++ j :: r -> (i < j)%nat;
  sel_disj : forall p i q j r, sel = p ++ i :: q ++ j :: r ->
             disjoint (nth_range l i) (nth_range l j) }.

(** Number of covered positions. *)
Definition coverage (l : list range) (sel : list nat) : Z :=
  fold_right Z.add 0 (map (fun i => snd (nth_range l i) - fst (nth_range l i)) sel).

(** [a] comes before [b]: at the first difference [a] has the smaller
    position. *)
Definition earlier (a b : list nat) : Prop :=
  exists p x y a' b', a = p ++ x :: a' /\ b = p ++ y :: b' /\ (x < y)%nat.

(** Candidates as [findall] passes them: starts do not decrease, no range is
    empty. *)
Definition sorted_ranges (l : list range) : Prop :=
  (forall i j, (i <= j < length l)%nat -> fst (nth_range l i) <= fst (nth_range l j)) /\
  (forall i, (i < length l)%nat -> fst (nth_range l i) < snd (nth_range l i)).
