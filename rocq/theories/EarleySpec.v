(** Specification vocabulary for parsing: derivations of a context-free
    grammar over positions of a token sequence.  Independent of the chart. *)
From Verif Require Import Base EarleyModel.

(** A derivation tree: leaves are token positions with the predicate that
    accepted the token, inner nodes are a rule with one of its productions. *)
Inductive dtree (pred : Type) :=
| DLeaf (pos : nat) (p : pred)
| DNode (rule prod : nat) (children : list (dtree pred)).
Arguments DLeaf {pred} pos p.
Arguments DNode {pred} rule prod children.

Section Derivations.
  Context {token pred : Type}.
  Variable accepts : pred -> token -> bool.
  Variable g : grammar token pred.
  Variable toks : list token.

  (** [derives t i j d]: [d] derives the tokens number [i..j-1] from [t]. *)
  Inductive derives : term pred -> nat -> nat -> dtree pred -> Prop :=
  | derives_pred p i t :
      nth_error toks i = Some t -> accepts p t = true ->
      derives (TPred p) i (S i) (DLeaf i p)
  | derives_rule r q i j ds :
      In q (g_prods g r) -> derives_seq (g_terms g q) i j ds ->
      derives (TRule r) i j (DNode r q ds)
  with derives_seq : list (term pred) -> nat -> nat -> list (dtree pred) -> Prop :=
  | derives_nil i : derives_seq [] i i []
  | derives_cons t ts i k j d ds :
      derives t i k d -> derives_seq ts k j ds ->
      derives_seq (t :: ts) i j (d :: ds).

  (** A derivation without empty parts: no inner node derives the empty
      sequence, i.e. no inner node is without leaves. *)
  Fixpoint leaves (d : dtree pred) : list nat :=
    match d with
    | DLeaf i _ => [i]
    | DNode _ _ ds => flat_map leaves ds
    end.
  Fixpoint no_empty_part (d : dtree pred) : Prop :=
    match d with
    | DLeaf _ _ => True
    | DNode _ _ ds =>
        flat_map leaves ds <> [] /\
        (fix all (ds : list (dtree pred)) : Prop :=
           match ds with [] => True | d :: ds' => no_empty_part d /\ all ds' end) ds
    end.

  (** A term that can derive the empty sequence. *)
  Inductive nullable : term pred -> Prop :=
  | nullable_rule r q : In q (g_prods g r) ->
      (forall t, In t (g_terms g q) -> nullable t) -> nullable (TRule r).

  (** The grammar has no derivation cycle: there is a numbering of the rules
      that decreases along every production step whose other terms can all
      be empty. *)
  Definition acyclic : Prop :=
    exists level : nat -> nat, forall r q pre r' post,
      In q (g_prods g r) -> g_terms g q = pre ++ TRule r' :: post ->
      (forall t, In t (pre ++ post) -> nullable t) ->
      level r' < level r.

  (** Finitely many rules: [rules] contains the start rule and is closed under
      the rules occurring in productions. *)
  Definition finite_grammar (rules : list nat) : Prop :=
    In (g_start g) rules /\
    forall r q r', In r rules -> In q (g_prods g r) ->
      In (TRule r') (g_terms g q) -> In r' rules.

  (** [rule.predict(token)] only filters productions, and keeps those that can
      start with the token: productions that are empty or start with a rule, and
      productions whose first predicate accepts the token. *)
  Definition predict_sound : Prop :=
    forall r t q, In q (g_predict g r t) -> In q (g_prods g r).
  Definition predict_complete : Prop :=
    forall r t q, In q (g_prods g r) ->
      match g_terms g q with
      | TPred p :: _ => accepts p t = true
      | _ => True
      end -> In q (g_predict g r t).
End Derivations.

(** The derivation carried by a tree of the parser. *)
Fixpoint erase {token pred} (n : node token pred) : dtree pred :=
  match n with
  | Leaf _ pos p _ => DLeaf pos p
  | Node _ r q _ ch => DNode r q (map erase ch)
  end.

(** Alternative numbers in reading order: parents before children, left to
    right. *)
Fixpoint ranks {token pred} (n : node token pred) : list nat :=
  match n with
  | Leaf _ _ _ _ => []
  | Node _ _ _ rank ch => rank :: flat_map ranks ch
  end.

(** Every leaf of the tree stands for the token at its position, accepted by
    the leaf's predicate and constrained by it. *)
Fixpoint leaves_ok {token pred} (accepts : pred -> token -> bool)
    (constrain : pred -> token -> token) (toks : list token)
    (n : node token pred) : Prop :=
  match n with
  | Leaf _ pos p tk =>
      exists t, nth_error toks pos = Some t /\ accepts p t = true /\ tk = constrain p t
  | Node _ _ _ _ ch =>
      (fix all (ch : list (node token pred)) : Prop :=
         match ch with
         | [] => True
         | c :: ch' => leaves_ok accepts constrain toks c /\ all ch'
         end) ch
  end.

(** Lexicographic comparison decided at the first difference. *)
Definition first_difference (a b : list nat) (x y : nat) : Prop :=
  exists p a' b', a = p ++ x :: a' /\ b = p ++ y :: b' /\ x <> y.
