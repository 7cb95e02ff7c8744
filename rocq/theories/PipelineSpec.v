(** Specification vocabulary for pipelines. *)
From Verif Require Import Base TokenModel EarleyModel EarleySpec TokenizerModel PredicateModel PredicateSpec PipelineModel.

(** A set is iterated over once per element. *)
Definition set_iteration (set_order : list str -> list str) : Prop :=
  forall l, NoDup (set_order l) /\ forall x, In x (set_order l) <-> In x l.

Definition scheme (k : kind) (lines : list str) : pipeline :=
  match k with
  | Exact => PipelineScheme lines
  | Caseless => CaselessPipelineScheme lines
  | Morph => MorphPipelineScheme lines
  end.

(** A word of the dictionary and a token of the text agree. *)
Definition word_agrees (U : unicode) (c : context) (k : kind) (word : str) (t : token) : Prop :=
  match k with
  | Exact => t_value t = word
  | Caseless => u_lower U (t_value t) = u_lower U word
  | Morph => exists m, c_morph c = Some m /\ shares_normal U m word t
  end.

(** The tokenizer cuts the line into these words. *)
Definition cut_into (t : tokenizer) (line : str) (words : list str) : Prop :=
  exists fuel tokens, tokenize fuel t line = Some (Ok tokens) /\ words = map t_value tokens.
(** The words of the line are the tokens, one by one. *)
Definition line_agrees (U : unicode) (c : context) (k : kind) (line : str) (toks : list token) : Prop :=
  exists words, cut_into (c_tokenizer c) line words /\ Forall2 (word_agrees U c k) words toks.

Definition range_tokens {A} (l : list A) (r : nat * nat) : list A := firstn (snd r - fst r) (skipn (fst r) l).

(** [g] with every production of a rule tried at every token. *)
Definition without_index {token pred} (g : grammar token pred) : grammar token pred :=
  mkGrammar (g_prods g) (fun r _ => g_prods g r) (g_terms g) (g_main g) (g_key g) (g_relation g) (g_interp g) (g_start g).

(** In the grammar [g] rule [r] is the pipeline rule [b] (productions numbered from
    [base]) or an ordinary rule (rule/bnf.py 58-59). *)
Definition indexed_rule (U : unicode) (set_order : list str -> list str) (g : grammar token predicate) (r : nat) : Prop :=
  (forall t, g_predict g r t = g_prods g r) \/
  exists p b base, pipeline_as_bnf U set_order p = Ok b /\
    g_prods g r = map (Nat.add base) (production_numbers b) /\
    (forall t, g_predict g r t = map (Nat.add base) (pipeline_predict U set_order b t)) /\
    (forall q, In q (production_numbers b) -> g_terms g (base + q) = production_terms b q).
