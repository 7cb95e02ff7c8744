(** Specification vocabulary for parses with parts that are empty.  A column of the chart is
    a work list: processing an item adds further items behind it.  The items present at
    first form round 0, the items added while round [n] is processed form round [n + 1].
    An empty part is processed once, so items that wait for it must have been added by
    then. *)
From Verif Require Import Base EarleyModel EarleySpec ParserSpec PredicateModel PipelineModel RuleModel RuleSpec GrammarModel.
Open Scope nat_scope.

Section Rounds.
  Context {token pred : Type}.
  Variable g : grammar token pred.

  (** [None] stands for no bound. *)
  Definition after (a b : option nat) : Prop :=
    match a, b with None, _ => True | Some x, Some y => S y <= x | Some _, None => False end.
  Definition within (a : option nat) (n : nat) : Prop := match a with Some x => x <= n | None => False end.

  (** An item is a production with a number of terms read.  [lo] is at most, [up] at least
      the round in which it is added to a column; items that wait for a part that may be
      empty are added before that part is completed. *)
  Record rounds (lo : nat -> nat -> nat) (up : nat -> nat -> option nat) : Prop := {
    rounds_start : forall q, In q (g_prods g (g_start g)) -> lo q 0 = 0;
    rounds_word : forall r q n p, In q (g_prods g r) -> nth_error (g_terms g q) n = Some (TPred p) -> lo q (S n) = 0;
    rounds_predict : forall r q n r' q', In q (g_prods g r) -> nth_error (g_terms g q) n = Some (TRule r') -> In q' (g_prods g r') ->
      lo q' 0 <= S (lo q n) /\ after (up q' 0) (up q n);
    rounds_part : forall r q n r' q', In q (g_prods g r) -> nth_error (g_terms g q) n = Some (TRule r') -> In q' (g_prods g r') ->
      lo q (S n) <= S (lo q' (length (g_terms g q'))) /\ after (up q (S n)) (up q' (length (g_terms g q')));
    rounds_absent : forall r q n r' q', In q (g_prods g r) -> nth_error (g_terms g q) n = Some (TRule r') -> In q' (g_prods g r') ->
      (forall t, In t (g_terms g q') -> nullable g t) -> within (up q n) (lo q' (length (g_terms g q'))) }.
  Definition timely : Prop := exists lo up, rounds lo up.

  (** A simple case.  A rule that ends with a word: the last term of each of its
      productions is a predicate. *)
  Definition ends_with_word (r : nat) : Prop :=
    forall q, In q (g_prods g r) -> exists n p, length (g_terms g q) = S n /\ nth_error (g_terms g q) n = Some (TPred p).
  (** Parts that may be empty stand behind a word or behind such a rule, and the start
      rule is not used. *)
  Definition absent_after_words : Prop :=
    forall r q n r', In q (g_prods g r) -> nth_error (g_terms g q) n = Some (TRule r') -> nullable g (TRule r') ->
    ~ (exists q', In q' (g_prods g r') /\ In q' (g_prods g (g_start g))) /\
    exists m, n = S m /\
      ((exists p, nth_error (g_terms g q) m = Some (TPred p)) \/
       (exists r'', nth_error (g_terms g q) m = Some (TRule r'') /\ ends_with_word r'')).
End Rounds.

(** A derivation without its empty parts; [None] if nothing remains. *)
Fixpoint present {pred} (d : dtree pred) : option (dtree pred) :=
  match d with
  | DLeaf _ _ => Some d
  | DNode r q ds =>
      match flat_map (fun c => match present c with Some c' => [c'] | None => [] end) ds with
      | [] => None
      | ds' => Some (DNode r q ds')
      end
  end.

(** The preferred derivation of a range. *)
Definition best_derivation {token pred} (accepts : pred -> token -> bool) (g : grammar token pred) (toks : list token) (i j : nat) (d : dtree pred) : Prop :=
  derives accepts g toks (TRule (g_start g)) i j d /\
  forall d', derives accepts g toks (TRule (g_start g)) i j d' -> d' = d \/ preferred g d d'.

(** A rule no part of which carries a relation. *)
Definition no_relations_in (h : rule_heap) (root : nat) : Prop :=
  forall x o, reach h root x -> nth_error h x = Some o -> match o with ORelation _ _ => False | _ => True end.
