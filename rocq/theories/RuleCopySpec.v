(** The same rule at another place, and the same results from two parsers. *)
From Verif Require Import Base TokenModel EarleyModel TreeModel PredicateModel PipelineModel ParserModel InterpModel RuleModel RuleSpec GrammarModel TextModel.
Open Scope nat_scope.

(** ** The same rule at another place *)
Section Moved.
  Context {pred pipe bnf : Type}.
  Notation obj := (obj pred pipe bnf).
  Notation heap := (heap pred pipe bnf).
  Variable f : nat -> nat.
  (** The object with its references moved. *)
  Definition moved_term (t : term pred) : term pred := match t with TRule r => TRule (f r) | TPred p => TPred p end.
  Definition moved_obj (o : obj) : obj :=
    match o with
    | ORule ps => ORule (map f ps)
    | OOr rs => OOr (map f rs)
    | OOptional r b => OOptional (f r) b
    | ORepeatable r b => ORepeatable (f r) b
    | ORepOpt r b b' => ORepOpt (f r) b b'
    | OMin r m b => OMin (f r) m b
    | OMax r m b => OMax (f r) m b
    | OMinMax r m n b => OMinMax (f r) m n b
    | ONamed r n => ONamed (f r) n
    | OInterp r i => OInterp (f r) i
    | ORelation r i => ORelation (f r) i
    | OForward r => OForward (option_map f r)
    | OEmpty => OEmpty
    | OPipeline p => OPipeline p
    | OBNF ps a => OBNF (map f ps) a
    | OPipeBNF b ps a => OPipeBNF b (map f ps) a
    | OProd ts m => OProd (map moved_term ts) m
    | OEmptyProd => OEmptyProd
    | OPipeProd k ps => OPipeProd k ps
    end.
End Moved.
(** The objects of the one rule are those of the other, with the same sharing; nothing is said
    of other objects. *)
Definition same_rule {pred pipe bnf} (h : heap pred pipe bnf) (root : nat) (h' : heap pred pipe bnf) (root' : nat) : Prop :=
  exists f, f root = root' /\
    (forall p q, reach h root p -> reach h root q -> f p = f q -> p = q) /\
    forall p, reach h root p -> exists o, nth_error h p = Some o /\ nth_error h' (f p) = Some (moved_obj f o).
(** No forward rule is part of the rule. *)
Definition no_forward {pred pipe bnf} (h : heap pred pipe bnf) (root : nat) : Prop :=
  forall p d, reach h root p -> nth_error h p <> Some (OForward d).

(** ** The same results *)
(** What can be seen of a tree: the tokens, and the attributes of rules and productions. *)
Inductive view :=
| LeafView (position : nat) (p : predicate) (t : token)
| NodeView (relation interp : option nat) (key : option str) (main rank : nat) (children : list view).
Fixpoint view_of (g : grammar token predicate) (n : node token predicate) : view :=
  match n with
  | Leaf _ pos p t => LeafView pos p t
  | Node _ r q rank ch => NodeView (g_relation g r) (g_interp g r) (g_key g q) (g_main g q) rank (map (view_of g) ch)
  end.
(** Matches of two parsers; [s]: the tokens of the leaves after the relations were applied. *)
Record same_match (g g' : grammar token predicate) (s : store) (m m' : amatch (pred := predicate)) : Prop := {
  same_range : m_range m = m_range m';
  same_tokens : m_tokens m = m_tokens m';
  same_span : m_span m = m_span m';
  same_tree : view_of g (m_root m) = view_of g' (m_root m');
  same_fact : forall schemes subclass U inflect interps,
    match_fact schemes subclass U inflect g interps s m = match_fact schemes subclass U inflect g' interps s m' }.
Definition same_option {A} (P : A -> A -> Prop) (x x' : option A) : Prop :=
  match x, x' with Some a, Some a' => P a a' | None, None => True | _, _ => False end.
(** The same end: a result, the same exception, or fuel exhausted. *)
Definition same_end {A} (P : A -> A -> Prop) (x x' : option (res A)) : Prop :=
  match x, x' with
  | Some (Ok a), Some (Ok a') => P a a'
  | Some (Err e), Some (Err e') => e = e'
  | None, None => True
  | _, _ => False
  end.
Section Results.
  Variable U : unicode.
  Variable set_order : list str -> list str.
  Variable c : context.
  Variable rel : nat -> form -> form -> bool.
  Variable fuel : nat.
  Variables (h : rule_heap) (root : nat) (h' : rule_heap) (root' : nat).
  Definition same_matches (s : store) (P : (amatch (pred := predicate) -> amatch (pred := predicate) -> Prop) -> Prop) : Prop :=
    exists g g', parser_grammar U set_order c fuel h root = Some (Ok g) /\ parser_grammar U set_order c fuel h' root' = Some (Ok g') /\ P (same_match g g' s).
  Definition same_results (text : str) : Prop :=
    same_end (fun x x' => fst x = fst x' /\ same_matches (fst x) (fun R => Forall2 R (snd x) (snd x')))
      (parser_findall U set_order c rel fuel h root text) (parser_findall U set_order c rel fuel h' root' text) /\
    same_end (fun x x' => fst x = fst x' /\ same_matches (fst x) (fun R => same_option R (snd x) (snd x')))
      (parser_find U set_order c rel fuel h root text) (parser_find U set_order c rel fuel h' root' text) /\
    same_end (fun x x' => fst x = fst x' /\ same_matches (fst x) (fun R => same_option R (snd x) (snd x')))
      (parser_match U set_order c rel fuel h root text) (parser_match U set_order c rel fuel h' root' text) /\
    forall all, same_end (fun x x' => snd (fst x) = snd (fst x') /\ snd x = snd x' /\ same_matches (snd (fst x)) (fun R => Forall2 R (fst (fst x)) (fst (fst x'))))
      (parser_extract U set_order c rel fuel h root text all) (parser_extract U set_order c rel fuel h' root' text all).
End Results.
