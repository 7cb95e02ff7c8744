(** Specification vocabulary for predicates that raise. *)
From Verif Require Import Base TokenModel EarleyModel EarleySpec PredicateModel PredicateSpec RuleModel RuleSpec GrammarModel.
Open Scope nat_scope.

Section Raising.
  Context {token pred : Type}.
  Variable call : pred -> token -> res bool.
  Variable narrow : pred -> token -> res token.

  (** The predicate answers for the token, and narrows it when it accepts it. *)
  Definition answers (p : pred) (t : token) : Prop :=
    call p t = Ok false \/ (call p t = Ok true /\ exists t', narrow p t = Ok t').

  (** The predicate raises [e] on the token. *)
  Definition raises (p : pred) (t : token) (e : exn) : Prop :=
    call p t = Err e \/ (call p t = Ok true /\ narrow p t = Err e).

  (** What the predicate says, an exception counting as no. *)
  Definition says (p : pred) (t : token) : bool :=
    match call p t with Ok b => b | Err _ => false end.
  Definition narrowed (p : pred) (t : token) : token :=
    match narrow p t with Ok t' => t' | Err _ => t end.

  Variable g : grammar token pred.
  Variable toks : list token.

  (** A production has come to the predicate at token number [k]: the terms
      before it derive some tokens up to [k]. *)
  Definition asked (k : nat) (p : pred) : Prop :=
    exists r q pre post i ds,
      In q (g_prods g r) /\ g_terms g q = pre ++ TPred p :: post /\
      derives_seq says g toks pre i k ds.

  (** The rule is looked for at token number [k]: it is the start rule, or a
      part of a rule that is looked for, after parts that derive the tokens
      before [k] without empty parts. *)
  Inductive sought (all : bool) : nat -> nat -> Prop :=
  | sought_start k : k = 0 \/ (all = true /\ k <= length toks) -> sought all (g_start g) k
  | sought_part r q pre r' post i k ds :
      sought all r i -> In q (g_prods g r) -> g_terms g q = pre ++ TRule r' :: post ->
      derives_seq says g toks pre i k ds -> Forall no_empty_part ds ->
      sought all r' k.

  (** The predicate has to answer for token number [k], [t]: a production of a
      rule that is looked for comes to it.  When it is the first term of the
      production, the lookup by the token (pipelines) must let the production
      pass. *)
  Definition must_answer (all : bool) (k : nat) (t : token) (p : pred) : Prop :=
    exists r q pre post i ds,
      sought all r i /\ In q (g_prods g r) /\ g_terms g q = pre ++ TPred p :: post /\
      derives_seq says g toks pre i k ds /\ Forall no_empty_part ds /\
      (pre <> [] \/ In q (g_predict g r t)).
End Raising.

(** A function of the user raises [e] on the token: one given to [custom], or a
    predicate class of the user. *)
Definition function_raises (e : exn) (t : token) (p : predicate) : Prop :=
  match p with
  | PCustom f _ | SCustom f _ => f (t_value t) = Err e
  | PUser f => f t = Err e
  | _ => False
  end.
(** ... and it stands in a predicate of the rule. *)
Definition rule_function_raises (h : rule_heap) (root : nat) (e : exn) (t : token) : Prop :=
  exists x ts main p s, RuleSpec.reach h root x /\ nth_error h x = Some (OProd ts main) /\
    In (TPred p) ts /\ inside s p /\ function_raises e t s.
