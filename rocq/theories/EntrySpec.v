(** What the entries of a chart should be.  Independent of how the chart is filled. *)
From Verif Require Import Base EarleyModel EarleySpec.
Open Scope nat_scope.

Section Entries.
  Context {token pred : Type}.
  Variable accepts : pred -> token -> bool.
  Variable g : grammar token pred.
  Variable toks : list token.
  (** Matches may begin at every token, or at the first only. *)
  Variable anywhere : bool.

  (** The production may begin at token number [i]: [rule.predict] keeps it, or the text ends there. *)
  Definition possible (r q i : nat) : Prop :=
    match nth_error toks i with Some t => In q (g_predict g r t) | None => In q (g_prods g r) end.
  (** The rule may stand at token number [i]: at the beginning, or behind what a rule that
      may stand there begins with. *)
  Inductive looked_for : nat -> nat -> Prop :=
  | looked_start i : i <= length toks -> i = 0 \/ anywhere = true -> looked_for (g_start g) i
  | looked_inside r q i j before r' after ds :
      looked_for r i -> possible r q i -> g_terms g q = before ++ TRule r' :: after ->
      derives_seq accepts g toks before i j ds -> looked_for r' j.
  (** [i:j] r -> ... $ ...: the first [d] terms of production [q] have been read as [ds]. *)
  Definition entry (r q d i j : nat) (ds : list (dtree pred)) : Prop :=
    looked_for r i /\ possible r q i /\ d <= length (g_terms g q) /\ derives_seq accepts g toks (firstn d (g_terms g q)) i j ds.
End Entries.
(** What a state of the chart records. *)
Definition recorded {token pred} (s : state token pred) : nat * nat * nat * nat * list (dtree pred) :=
  (s_rule s, s_prod s, s_dot s, s_start s, map erase (s_children s)).
