(** Specification vocabulary for findall and match: the preference order on
    parse trees and the ranges of the text that have a parse. *)
From Verif Require Import Base EarleyModel EarleySpec TokenModel TreeSpec.

(** [a] is preferred to [b]: at the first difference [a] has the earlier
    alternative. *)
Definition rank_before (a b : list nat) : Prop :=
  exists p x y a' b', a = p ++ x :: a' /\ b = p ++ y :: b' /\ x < y.

(** The order in which candidate trees are considered: from left to right,
    longer before shorter, preferred before less preferred. *)
Definition tree_before {token pred} (a b : node token pred * (nat * nat)) : Prop :=
  let '(na, (sa, ea)) := a in
  let '(nb, (sb, eb)) := b in
  sa < sb \/
  sa = sb /\ (eb < ea \/ ea = eb /\ rank_before (ranks na) (ranks nb)).

(** No rule of the grammar carries a relation. *)
Definition relation_free {token pred} (g : grammar token pred) : Prop :=
  forall r, g_relation g r = None.

(** No rule can be empty. *)
Definition no_nullable {token pred} (g : grammar token pred) : Prop :=
  forall r, ~ nullable g (TRule r).

(** The start rule is not used inside the grammar. *)
Definition start_not_used {token pred} (g : grammar token pred) : Prop :=
  forall q, ~ In (TRule (g_start g)) (g_terms g q).

(** Ranges listed from left to right without overlap. *)
Fixpoint left_to_right (from : nat) (l : list (nat * nat)) : Prop :=
  match l with
  | [] => True
  | (i, j) :: l' => from <= i /\ i < j /\ left_to_right j l'
  end.

(** Number of tokens covered. *)
Definition covered (l : list (nat * nat)) : nat :=
  list_sum (map (fun r => snd r - fst r) l).

(** [a] is chosen before [b]: at the first difference [a] has the range that
    starts earlier or, with the same start, is longer. *)
Definition range_before (a b : nat * nat) : Prop :=
  fst a < fst b \/ fst a = fst b /\ snd b < snd a.
Definition ranges_before (a b : list (nat * nat)) : Prop :=
  exists p x y a' b', a = p ++ x :: a' /\ b = p ++ y :: b' /\ range_before x y.

(** Tokens as a tokenizer produces them: non-empty, in order, disjoint. *)
Fixpoint text_order (from : Z) (ts : list token) : Prop :=
  match ts with
  | [] => True
  | t :: ts' => (from <= t_start t)%Z /\ (t_start t < t_stop t)%Z /\ text_order (t_stop t) ts'
  end.

(** Number of an alternative of a rule, as written. *)
Fixpoint index_of (q : nat) (l : list nat) : nat :=
  match l with
  | [] => 0
  | x :: l' => if Nat.eqb q x then 0 else S (index_of q l')
  end.

(** The alternatives chosen in a derivation, in reading order: parents before
    children, left to right. *)
Fixpoint choices {token pred} (g : grammar token pred) (d : dtree pred) : list nat :=
  match d with
  | DLeaf _ _ => []
  | DNode r q ds => index_of q (g_prods g r) :: flat_map (choices g) ds
  end.

(** [a] is preferred to [b]: at the first different choice [a] uses the
    alternative written earlier. *)
Definition preferred {token pred} (g : grammar token pred) (a b : dtree pred) : Prop :=
  rank_before (choices g a) (choices g b).

(** [rule.predict(token)] keeps some of the productions, in their order. *)
Definition predict_filters {token pred} (g : grammar token pred) : Prop :=
  forall r t, exists keep, g_predict g r t = filter keep (g_prods g r).

(** A choice of ranges that covers as many tokens as possible among the
    [candidates] and, among those, comes first. *)
Definition best_ranges (candidate : nat * nat -> Prop) (out : list (nat * nat)) : Prop :=
  left_to_right 0 out /\
  (forall r, In r out -> candidate r) /\
  (forall S, left_to_right 0 S -> (forall r, In r S -> candidate r) -> covered S <= covered out) /\
  (forall S, left_to_right 0 S -> (forall r, In r S -> candidate r) -> covered S = covered out ->
     S = out \/ ranges_before out S).

(** The token stands for the token at position [pos] of the text: same value,
    span, type and tag; no forms but those of the text's token. *)
Definition stands_for_token (toks : list token) (pos : nat) (t : token) : Prop :=
  exists t0, nth_error toks pos = Some t0 /\ same_text t t0 /\ forms_within t t0.

(** What a predicate may do to a token it accepts: drop forms. *)
Definition predicates_narrow {pred} (accepts : pred -> token -> bool) (constrain : pred -> token -> token) : Prop :=
  forall p t, accepts p t = true -> same_text (constrain p t) t /\ forms_within (constrain p t) t.
