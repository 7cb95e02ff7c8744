(** What the rule given to a Parser accepts. *)
From Verif Require Import Base TokenModel EarleyModel EarleySpec PredicateModel PredicateSpec PipelineModel RuleModel RuleSpec RuleAccept GrammarModel.
Open Scope nat_scope.

(** Tokens [i] to [j] of the text are accepted by the rule [root] as the user wrote it:
    predicates and pipelines judge as they do once they know the tokenizer and the
    tagger of the parser. *)
Definition rule_accepts (U : unicode) (set_order : list str -> list str) (c : context) (h : rule_heap) (root : nat)
    (toks : list token) (i j : nat) : Prop :=
  exists ts, segment toks i j ts /\
    matches (active_bnf (pipeline_as_bnf U set_order) (activate_pipeline c)) b_productions (accepts_active (accepts U) (activate c)) h root ts.

(** The grammar derives tokens [i] to [j]. *)
Definition grammar_accepts (U : unicode) (g : grammar token predicate) (toks : list token) (i j : nat) : Prop :=
  exists d, derives (accepts U) g toks (TRule (g_start g)) i j d.
(** [n] consecutive occurrences. *)
Inductive occurrences (part : nat -> nat -> Prop) : nat -> nat -> nat -> Prop :=
| occurrences_none i : occurrences part 0 i i
| occurrences_more n i k j : part i k -> occurrences part n k j -> occurrences part (S n) i j.
(** The numbers of repetitions allowed by repeatable(min=..., max=...). *)
Definition within (min max : option Z) (n : nat) : Prop :=
  (match min with Some m => m <= Z.of_nat n | None => 1 <= Z.of_nat n end)%Z /\
  (match max with Some m => Z.of_nat n <= m | None => True end)%Z.
(** The attribute a rule of the grammar carries. *)
Definition attribute_of (kd : kind) (g : grammar token predicate) (r : nat) : option attribute :=
  match kd with
  | KInterp => option_map AInterp (g_interp g r)
  | KRelation => option_map ARelation (g_relation g r)
  | KName | KNone => None
  end.
Definition rule_name (h : rule_heap) (r : nat) : option str :=
  match nth_error h r with Some (OBNF _ a) | Some (OPipeBNF _ _ a) => a_name a | _ => None end.
Definition is_bnf_rule (h : rule_heap) (r : nat) : Prop := exists o, nth_error h r = Some o /\ is_bnf o = true.
(** The words of a rule, in the heap left by activation. *)
Definition words_of (U : unicode) (set_order : list str -> list str) (kd : kind) (h : rule_heap) (p : nat) : word -> Prop :=
  rule_words (pipeline_as_bnf U set_order) b_productions kd h p.
(** A parse of tokens [i] to [j] that reads as the word. *)
Definition reads (U : unicode) (g : grammar token predicate) (shown_at : nat -> option attribute) (toks : list token) (i j : nat) (w : word) : Prop :=
  exists d, derives (accepts U) g toks (TRule (g_start g)) i j d /\ traced g shown_at d w.
(** The predicates of the word accept tokens [i] to [j], one by one. *)
Definition spells (U : unicode) (w : word) (toks : list token) (i j : nat) : Prop :=
  exists ts, segment toks i j ts /\ one_by_one (accepts U) (predicates w) ts.
(** Nothing that depends on the tokenizer or the tagger is left in the object. *)
Definition settled_pipeline (x : pipeline) : Prop :=
  match x with PipelineScheme _ | CaselessPipelineScheme _ | MorphPipelineScheme _ => False | _ => True end.
Definition settled_obj (o : obj predicate pipeline pipeline_bnf) : Prop :=
  match o with
  | OProd ts _ => forall p, In (TPred p) ts -> plain p
  | OPipeline x => settled_pipeline x
  | _ => True
  end.
