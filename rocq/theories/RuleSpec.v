(** Specification vocabulary for rules: what a rule denotes, independently of the
    transformations.

    A rule denotes a set of words.  A word lists the predicates of the tokens from left
    to right; between them it records which alternative was taken wherever there are
    several ([SAlt]), where a part carrying an attribute of the kind looked at starts
    and ends ([SOpen], [SClose]) and which dictionary line was used ([SLine]).  The
    predicate of the head (the token reached by following main terms) is marked. *)
From Verif Require Import Base EarleyModel RuleModel.
Open Scope nat_scope.

(** An attribute put on a rule by named, interpretation or match. *)
Inductive attribute := AName (name : str) | AInterp (i : nat) | ARelation (r : nat).
(** [KNone]: no attribute is shown. *)
Inductive kind := KName | KInterp | KRelation | KNone.

(** What a rule is made of. *)
Section Parts.
  Context {pred pipe bnf : Type}.
  Notation obj := (obj pred pipe bnf).
  Notation heap := (heap pred pipe bnf).
  Inductive reach (h : heap) : nat -> nat -> Prop :=
  | reach_refl p : reach h p p
  | reach_step p q o c : reach h p q -> nth_error h q = Some o -> In c (children o) -> reach h p c.
  (** The rule is not a part of itself. *)
  Definition alone (h : heap) (root : nat) : Prop := forall q o, reach h root q -> nth_error h q = Some o -> ~ In root (children o).
  (** The root is a forward rule, or it is not a part of itself and fit. *)
  Definition top (fit : obj -> Prop) (h : heap) (root : nat) : Prop :=
    exists o, nth_error h root = Some o /\ (is_forward o = true \/ fit o /\ alone h root).
  (** Not a repetition bounded by one (which is replaced by the repeated rule). *)
  Definition not_once (o : obj) : Prop := match o with OMax _ 1 _ => False | _ => True end.
End Parts.

Section Words.
  Context {pred pipe bnf : Type}.
  Notation obj := (obj pred pipe bnf).
  Notation heap := (heap pred pipe bnf).
  Variable pipe_bnf : pipe -> res bnf.
  Variable bnf_lines : bnf -> list (str * list pred).
  (** The kind of attributes shown in words. *)
  Variable kd : kind.

  Inductive symbol :=
  | SPred (p : pred) (head : bool)
  | SForward (f : nat) (head : bool)
  | SAlt (i : nat)
  | SOpen (a : attribute)
  | SClose
  | SLine (key : str).
  Definition word := list symbol.
  Definition language := word -> Prop.

  (** The part is not the main one: it has no head. *)
  Definition clear_symbol (s : symbol) : symbol :=
    match s with SPred p _ => SPred p false | SForward f _ => SForward f false | s => s end.
  Definition clear : word -> word := map clear_symbol.

  (** Alternative number [i] of [n]. *)
  Definition mark (n i : nat) : word := if Nat.leb n 1 then [] else [SAlt i].
  Definition alternatives (ls : list language) : language :=
    fun w => exists i l u, nth_error ls i = Some l /\ l u /\ w = mark (length ls) i ++ u.

  (** Terms from left to right; only the main one (numbered from [i]) keeps its head. *)
  Inductive sequence (main : nat) : nat -> list language -> language :=
  | sequence_nil i : sequence main i [] []
  | sequence_cons i (l : language) ls u w : l u -> sequence main (S i) ls w ->
      sequence main i (l :: ls) ((if Nat.eqb i main then u else clear u) ++ w).

  (** Repetitions.  The alternatives of a repetition are: go on, stop (after reverse:
      stop, go on). *)
  Definition go_on (reverse : bool) : nat := if reverse then 1 else 0.
  Definition stop (reverse : bool) : nat := if reverse then 0 else 1.
  Inductive many (l : language) (reverse : bool) : language :=
  | many_last u : l u -> many l reverse (SAlt (stop reverse) :: u)
  | many_more u w : l u -> many l reverse w -> many l reverse (SAlt (go_on reverse) :: u ++ clear w).
  (** At most [n]; no choice is left at the [n]-th. *)
  Inductive at_most (l : language) (reverse : bool) : nat -> language :=
  | at_most_full u : l u -> at_most l reverse 1 u
  | at_most_last n u : l u -> at_most l reverse (S (S n)) (SAlt (stop reverse) :: u)
  | at_most_more n u w : l u -> at_most l reverse (S n) w ->
      at_most l reverse (S (S n)) (SAlt (go_on reverse) :: u ++ clear w).
  (** [n] times, then [rest]. *)
  Inductive times (l rest : language) : nat -> language :=
  | times_zero w : rest w -> times l rest 0 w
  | times_more n u w : l u -> times l rest n w -> times l rest (S n) (u ++ clear w).
  (** No or one: nothing comes first (after reverse: last). *)
  Definition maybe (l : language) (reverse : bool) : language :=
    fun w => w = [SAlt (if reverse then 1 else 0)] \/ exists u, l u /\ w = SAlt (if reverse then 0 else 1) :: u.
  (** Any number: the three alternatives nothing, go on, stop, reversed in two ways. *)
  Definition shift (reverse_optional : bool) (i : nat) : nat := if reverse_optional then i else S i.
  Inductive any (l : language) (rr ro : bool) : language :=
  | any_none : any l rr ro [SAlt (if ro then 2 else 0)]
  | any_last u : l u -> any l rr ro (SAlt (shift ro (stop rr)) :: u)
  | any_more u w : l u -> any l rr ro w -> any l rr ro (SAlt (shift ro (go_on rr)) :: u ++ clear w).

  (** Attributes of the kind looked at are shown; an empty name is no name. *)
  Definition bracket (a : option attribute) (w : word) : word :=
    match a with Some a => SOpen a :: w ++ [SClose] | None => w end.
  Definition shown_name (n : str) : option attribute :=
    match kd, n with KName, _ :: _ => Some (AName n) | _, _ => None end.
  Definition shown_interp (i : nat) : option attribute := match kd with KInterp => Some (AInterp i) | _ => None end.
  Definition shown_relation (r : nat) : option attribute := match kd with KRelation => Some (ARelation r) | _ => None end.
  Definition and_then {A B} (x : option A) (f : A -> option B) : option B := match x with Some a => f a | None => None end.
  Definition shown (a : attributes) : option attribute :=
    match kd with
    | KName => and_then (a_name a) shown_name
    | KInterp => and_then (a_interp a) shown_interp
    | KRelation => and_then (a_relation a) shown_relation
    | KNone => None
    end.
  Definition around (a : option attribute) (l : language) : language := fun w => exists u, l u /\ w = bracket a u.

  Definition one_predicate (p : pred) : language := fun w => w = [SPred p true].
  Definition line (key : str) (ps : list pred) : language :=
    fun w => exists u, sequence 0 0 (map one_predicate ps) u /\ w = SLine key :: u.

  (** What an object denotes, given what the objects it refers to denote. *)
  Definition denotes_term (D : nat -> language) (t : term pred) : language :=
    match t with TPred p => one_predicate p | TRule r => D r end.
  Definition denotes (D : nat -> language) (o : obj) : language :=
    match o with
    | ORule ps => alternatives (map D ps)
    | OOr rs => alternatives (map D rs)
    | OOptional r rev => maybe (D r) rev
    | ORepeatable r rev => many (D r) rev
    | ORepOpt r rr ro => any (D r) rr ro
    | OMin r min rev => times (D r) (many (D r) rev) (min - 1)
    | OMax r max rev => at_most (D r) rev max
    | OMinMax r min max rev => times (D r) (at_most (D r) rev (max - min + 1)) (min - 1)
    | ONamed r n => around (shown_name n) (D r)
    | OInterp r i => around (shown_interp i) (D r)
    | ORelation r rel => around (shown_relation rel) (D r)
    | OForward (Some r) => D r
    | OForward None => fun _ => False
    | OEmpty => fun w => w = []
    | OPipeline p => fun w => exists b key ps, pipe_bnf p = Ok b /\ In (key, ps) (bnf_lines b) /\ line key ps w
    | OBNF ps a => around (shown a) (alternatives (map D ps))
    | OPipeBNF _ ps a => around (shown a) (fun w => exists q, In q ps /\ D q w)
    | OProd ts main => sequence main 0 (map (denotes_term D) ts)
    | OEmptyProd => fun w => w = []
    | OPipeProd key ps => line key ps
    end.

  (** Words derived in at most [n] steps.  Forward rules in [opaque] are left as
      symbols. *)
  Section Heap.
    Variable opaque : nat -> bool.
    Variable h : heap.
    Fixpoint words_in (n : nat) (p : nat) : language :=
      match n with
      | O => fun _ => False
      | S n' =>
          match nth_error h p with
          | Some o =>
              if is_forward o && opaque p then fun w => w = [SForward p true]
              else denotes (words_in n') o
          | None => fun _ => False
          end
      end.
    Definition open_words (p : nat) : language := fun w => exists n, words_in n p w.
  End Heap.
  (** The words of a rule. *)
  Definition rule_words (h : heap) (p : nat) : language := open_words (fun _ => false) h p.
End Words.
