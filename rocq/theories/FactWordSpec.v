(** Specification: the value of a reading of a rule.  A reading is a word of the rule in
    which interpretations are shown as brackets (RuleSpec); its tokens are given in order.
    Every pair of brackets that holds tokens hands what it holds - tokens, and the results
    of the brackets directly inside - to its interpretator; brackets that hold no tokens
    count as absent. *)
From Verif Require Import Base TokenModel EarleyModel RuleSpec InterpModel.
Open Scope nat_scope.

Section Value.
  Context {pred : Type}.
  Notation word := (word (pred := pred)).
  Variable schemes : nat -> scheme.
  Variable subclass : nat -> nat -> bool.
  Variable U : unicode.
  Variable inflect : nat -> list str -> option str.
  Variable interps : nat -> interpretator.
  (** Which line of a dictionary the interpretator is told, given what is between the
      brackets. *)
  Variable told : word -> option str -> Prop.
  Notation call := (call_interpretator schemes subclass U inflect).

  (** The items a word gives to the brackets around it, or the first exception. *)
  Inductive collected : word -> list token -> res (list item) -> Prop :=
  | collected_nil : collected [] [] (Ok [])
  | collected_alternative i w ts x : collected w ts x -> collected (SAlt i :: w) ts x
  | collected_line key w ts x : collected w ts x -> collected (SLine key :: w) ts x
  | collected_token p head t w ts x : collected w ts x ->
      collected (SPred p head :: w) (t :: ts) (let! l := x in Ok (IToken t :: l))
  | collected_part i u w us ts x y key : collected u us x -> us <> [] -> told u key -> collected w ts y ->
      collected (SOpen (AInterp i) :: u ++ SClose :: w) (us ++ ts)
        (let! inside := x in let! r := call (interps i) inside key in let! l := y in Ok (IResult r :: l))
  | collected_absent i u w ts x y : collected u [] x -> collected w ts y ->
      collected (SOpen (AInterp i) :: u ++ SClose :: w) ts y.

  (** The value of the whole reading: of the result of the outermost brackets. *)
  Definition read_value (w : word) (ts : list token) (v : res pyval) : Prop :=
    exists x, collected w ts x /\
    v = let! items := x in match items with [IResult r] => normalized_result schemes r | _ => Err ValueError end.
End Value.

(** The interpretator of a part that is a line of a dictionary is told that line ... *)
Definition told_line {pred} (u : word (pred := pred)) (key : option str) : Prop :=
  key = match u with SLine line :: _ => Some line | _ => None end.
(** ... or it may be told nothing. *)
Definition told_or_not {pred} (u : word (pred := pred)) (key : option str) : Prop := key = None \/ told_line u key.

(** Grammars in which every interpretation over the line of a dictionary is the
    interpretation of the dictionary itself: no rule with an interpretation begins with a
    dictionary that has none.  Rules without alternatives that are empty can stand before it. *)
Section Begin.
  Context {token pred : Type}.
  Variable g : grammar token pred.
  Inductive blank : nat -> Prop :=
  | blank_rule r q : g_interp g r = None -> g_prods g r = [q] -> g_key g q = None ->
      (forall t, In t (g_terms g q) -> exists r', t = TRule r' /\ blank r') -> blank r.
  Definition blanks (ts : list (term pred)) : Prop := forall t, In t ts -> exists r, t = TRule r /\ blank r.
  Inductive begins_with_line : nat -> Prop :=
  | begins_line r q : g_interp g r = None -> In q (g_prods g r) -> g_key g q <> None -> begins_with_line r
  | begins_part r q pre r' post : g_interp g r = None -> g_prods g r = [q] -> g_terms g q = pre ++ TRule r' :: post ->
      blanks pre -> begins_with_line r' -> begins_with_line r.
  Definition lines_told : Prop :=
    forall r q pre r' post, g_interp g r <> None -> g_prods g r = [q] -> g_terms g q = pre ++ TRule r' :: post ->
    blanks pre -> ~ begins_with_line r'.
End Begin.
