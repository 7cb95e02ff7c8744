(** Vocabulary: how many ways there are to read a piece of text, and the size of a grammar. *)
From Verif Require Import Base TokenModel EarleyModel EarleySpec.
Open Scope nat_scope.

(** At most [m] things have the property. *)
Definition at_most {A} (m : nat) (P : A -> Prop) : Prop := forall l, NoDup l -> (forall x, In x l -> P x) -> length l <= m.

Section Size.
  Context {token pred : Type}.
  Variable accepts : pred -> token -> bool.
  Variable g : grammar token pred.
  Variable toks : list token.

  (** Every beginning of a production derives every piece of the text in at most [m] ways. *)
  Definition readings (m : nat) : Prop :=
    forall r q n i j, In q (g_prods g r) -> at_most m (derives_seq accepts g toks (firstn n (g_terms g q)) i j).

  (** The places in the productions of the rules: before, between and after their terms. *)
  Definition places (rules : list nat) : nat :=
    list_sum (map (fun r => list_sum (map (fun q => S (length (g_terms g q))) (g_prods g r))) rules).
  (** No rule has, or predicts before a token of the text, more than [p] productions. *)
  Definition alternatives (p : nat) : Prop := forall r, length (g_prods g r) <= p /\ forall t, In t toks -> length (g_predict g r t) <= p.

  (** ** Grammars with one reading *)
  (** [width r = Some w]: what the rule derives has [w] tokens. *)
  Definition term_width (width : nat -> option nat) (t : term pred) : option nat := match t with TPred _ => Some 1 | TRule r => width r end.
  Definition widths (width : nat -> option nat) : Prop :=
    forall r w q, width r = Some w -> In q (g_prods g r) -> exists l, map (term_width width) (g_terms g q) = map Some l /\ list_sum l = w.
  (** A production has at most one term whose number of tokens is not fixed. *)
  Definition one_open (width : nat -> option nat) : Prop :=
    forall r q a b c t u, In q (g_prods g r) -> g_terms g q = a ++ t :: b ++ u :: c -> term_width width t <> None \/ term_width width u <> None.
  (** No piece of the text is derived by two productions of a rule. *)
  Definition exclusive : Prop :=
    forall r q q' i j ds ds', In q (g_prods g r) -> In q' (g_prods g r) -> derives_seq accepts g toks (g_terms g q) i j ds -> derives_seq accepts g toks (g_terms g q') i j ds' -> q = q'.
End Size.

(** No token has more than [f] forms. *)
Definition few_forms (f : nat) (toks : list token) : Prop := forall t fs, In t toks -> t_forms t = Some fs -> length fs <= f.
