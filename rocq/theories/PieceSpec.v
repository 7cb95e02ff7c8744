(** Vocabulary for texts put together from two texts. *)
From Verif Require Import Base TokenModel EarleyModel EarleySpec TokenizerModel TaggerModel PredicateModel PipelineModel ParserModel RuleModel RuleSpec RuleAccept GrammarModel GrammarSpec.
Open Scope nat_scope.

(** The character is in no set of the expression, and the expression does not look around. *)
Fixpoint unused (x : N) (r : regex) : Prop :=
  match r with
  | REmpty => True
  | RSet c => c x = false
  | RSeq a b | RAlt a b => unused x a /\ unused x b
  | RStar _ a => unused x a
  | RAssert _ => False
  end.
(** The character belongs to no token. *)
Definition separates (t : tokenizer) (x : N) : Prop := forall ty r, In (ty, r) (tk_regexp t) -> unused x r.

(** The same token, [k] characters further. *)
Definition moved (k : Z) (t : token) : token :=
  mkToken (t_value t) (t_start t + k) (t_stop t + k) (t_type t) (t_tag t) (t_forms t).
(** A tagger that works on each text by itself and does not look at positions. *)
Definition tags_apart (c : context) : Prop :=
  match c_tagger c with
  | None => True
  | Some tg => forall k a b, tagger_call tg (a ++ map (moved k) b) = tagger_call tg a ++ map (moved k) (tagger_call tg b)
  end.
(** A predicate that does not look at positions. *)
Definition blind (U : unicode) (p : predicate) : Prop := forall k t, PredicateModel.call U p (moved k t) = PredicateModel.call U p t.
(** All predicates of the rule are such. *)
Definition blind_rule (U : unicode) (c : context) (h : rule_heap) (root : nat) : Prop :=
  forall x ts main p q, reach h root x -> nth_error h x = Some (OProd ts main) -> In (TPred p) ts -> activate c p = Ok q -> blind U q.

(** The same derivation, [n] tokens further. *)
Fixpoint later_tree {pred} (n : nat) (d : dtree pred) : dtree pred :=
  match d with
  | DLeaf i p => DLeaf (n + i) p
  | DNode r q ds => DNode r q (map (later_tree n) ds)
  end.
(** What can be seen of a match: range, span, tokens and derivation. *)
Definition shown {pred} (m : amatch (pred := pred)) : (nat * nat) * (Z * Z) * list token * dtree pred :=
  (m_range m, m_span m, m_tokens m, erase (m_root m)).
Definition later_range (n : nat) (r : nat * nat) : nat * nat := (n + fst r, n + snd r).
Definition later_span (k : Z) (s : Z * Z) : Z * Z := (fst s + k, snd s + k)%Z.
(** The same match, [n] tokens and [k] characters further. *)
Definition later {pred} (n : nat) (k : Z) (s : (nat * nat) * (Z * Z) * list token * dtree pred) : (nat * nat) * (Z * Z) * list token * dtree pred :=
  let '(r, sp, ts, d) := s in (later_range n r, later_span k sp, map (moved k) ts, later_tree n d).
