(** Specification: the token sequences a rule accepts, and the words read off the
    derivations of a grammar.  Independent of the transformations. *)
From Verif Require Import Base EarleyModel EarleySpec RuleModel RuleSpec.
Open Scope nat_scope.

Section Accept.
  Context {token pred pipe bnf : Type}.
  Notation obj := (obj pred pipe bnf).
  Notation heap := (heap pred pipe bnf).
  Variable pipe_bnf : pipe -> res bnf.
  Variable bnf_lines : bnf -> list (str * list pred).
  Variable accepts : pred -> token -> bool.

  (** A dictionary line: one token for each predicate. *)
  Definition one_by_one (ps : list pred) (ts : list token) : Prop := Forall2 (fun p t => accepts p t = true) ps ts.

  Section Heap.
    Variable h : heap.
    Inductive matches : nat -> list token -> Prop :=
    | match_rule p ps q ts : nth_error h p = Some (ORule ps) -> In q ps -> matches q ts -> matches p ts
    | match_or p rs r ts : nth_error h p = Some (OOr rs) -> In r rs -> matches r ts -> matches p ts
    | match_optional p r rev n ts : nth_error h p = Some (OOptional r rev) -> n <= 1 -> repeats r n ts -> matches p ts
    | match_repeatable p r rev n ts : nth_error h p = Some (ORepeatable r rev) -> 1 <= n -> repeats r n ts -> matches p ts
    | match_any p r rr ro n ts : nth_error h p = Some (ORepOpt r rr ro) -> repeats r n ts -> matches p ts
    | match_min p r min rev n ts : nth_error h p = Some (OMin r min rev) -> min <= n -> repeats r n ts -> matches p ts
    | match_max p r max rev n ts : nth_error h p = Some (OMax r max rev) -> 1 <= n <= max -> repeats r n ts -> matches p ts
    | match_min_max p r min max rev n ts : nth_error h p = Some (OMinMax r min max rev) -> min <= n <= max -> repeats r n ts -> matches p ts
    | match_named p r name ts : nth_error h p = Some (ONamed r name) -> matches r ts -> matches p ts
    | match_interp p r i ts : nth_error h p = Some (OInterp r i) -> matches r ts -> matches p ts
    | match_relation p r rel ts : nth_error h p = Some (ORelation r rel) -> matches r ts -> matches p ts
    | match_forward p r ts : nth_error h p = Some (OForward (Some r)) -> matches r ts -> matches p ts
    | match_empty p : nth_error h p = Some OEmpty -> matches p []
    | match_pipeline p x b key ps ts : nth_error h p = Some (OPipeline x) -> pipe_bnf x = Ok b -> In (key, ps) (bnf_lines b) -> one_by_one ps ts -> matches p ts
    | match_bnf p ps a q ts : nth_error h p = Some (OBNF ps a) -> In q ps -> matches q ts -> matches p ts
    | match_pipe_bnf p b ps a q ts : nth_error h p = Some (OPipeBNF b ps a) -> In q ps -> matches q ts -> matches p ts
    | match_production p terms main ts : nth_error h p = Some (OProd terms main) -> in_sequence terms ts -> matches p ts
    | match_empty_production p : nth_error h p = Some OEmptyProd -> matches p []
    | match_line p key ps ts : nth_error h p = Some (OPipeProd key ps) -> one_by_one ps ts -> matches p ts
    (** [n] consecutive occurrences of [r] *)
    with repeats : nat -> nat -> list token -> Prop :=
    | repeats_none r : repeats r 0 []
    | repeats_more r n us ts : matches r us -> repeats r n ts -> repeats r (S n) (us ++ ts)
    (** the terms one after the other *)
    with in_sequence : list (term pred) -> list token -> Prop :=
    | in_sequence_nil : in_sequence [] []
    | in_sequence_pred p terms t ts : accepts p t = true -> in_sequence terms ts -> in_sequence (TPred p :: terms) (t :: ts)
    | in_sequence_rule r terms us ts : matches r us -> in_sequence terms ts -> in_sequence (TRule r :: terms) (us ++ ts).
  End Heap.

  (** The predicates of a word from left to right. *)
  Definition predicates (w : word) : list pred := flat_map (fun s => match s with SPred p _ => [p] | _ => [] end) w.

  (** ** Words of derivations of a grammar *)
  Variable g : grammar token pred.
  (** The attribute shown at a rule. *)
  Variable shown_at : nat -> option attribute.
  Inductive traced : dtree pred -> word -> Prop :=
  | traced_leaf i p : traced (DLeaf i p) [SPred p true]
  | traced_node r q i ds w : nth_error (g_prods g r) i = Some q -> traced_children (g_main g q) 0 ds w ->
      traced (DNode r q ds)
        (bracket (shown_at r) (match g_key g q with Some key => [SLine key] | None => mark (length (g_prods g r)) i end ++ w))
  with traced_children : nat -> nat -> list (dtree pred) -> word -> Prop :=
  | traced_nil main i : traced_children main i [] []
  | traced_cons main i d ds u w : traced d u -> traced_children main (S i) ds w ->
      traced_children main i (d :: ds) ((if Nat.eqb i main then u else clear u) ++ w).
End Accept.

(** Tokens [i] to [j]. *)
Definition segment {token} (toks : list token) (i j : nat) (ts : list token) : Prop :=
  exists pre post, toks = pre ++ ts ++ post /\ length pre = i /\ j = i + length ts.

(** Predicates and pipelines once they know the tokenizer and the tagger. *)
Section Active.
  Context {token pred pipe bnf : Type}.
  Notation obj := (obj pred pipe bnf).
  Notation heap := (heap pred pipe bnf).
  Variable pipe_bnf : pipe -> res bnf.
  Variable accepts : pred -> token -> bool.
  Variable activate_pred : pred -> res pred.
  Variable activate_pipe : pipe -> res pipe.
  Definition accepts_active (p : pred) (t : token) : bool := match activate_pred p with Ok q => accepts q t | Err _ => false end.
  Definition active_bnf (x : pipe) : res bnf := match activate_pipe x with Ok y => pipe_bnf y | Err e => Err e end.

  (** Every predicate of a production and every pipeline is activated, nothing else changes. *)
  Inductive activated_term : term pred -> term pred -> Prop :=
  | activated_pred p q : activate_pred p = Ok q -> activated_term (TPred p) (TPred q)
  | activated_rule r : activated_term (TRule r) (TRule r).
  Inductive activated : obj -> obj -> Prop :=
  | activated_prod ts ts' main : Forall2 activated_term ts ts' -> activated (OProd ts main) (OProd ts' main)
  | activated_pipeline x y : activate_pipe x = Ok y -> activated (OPipeline x) (OPipeline y)
  | activated_other o : (match o with OProd _ _ | OPipeline _ => False | _ => True end) -> activated o o.
  Definition activated_graph (h h' : heap) (root : nat) : Prop :=
    length h' = length h /\
    (forall x o, reach h root x -> nth_error h x = Some o -> exists o', nth_error h' x = Some o' /\ activated o o') /\
    (forall x, ~ reach h root x -> nth_error h' x = nth_error h x).
End Active.
