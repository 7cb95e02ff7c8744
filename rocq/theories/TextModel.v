(** Model of the class Parser (yargy/parser.py 240-303) applied to a rule and a text. *)
From Verif Require Import Base TokenModel EarleyModel TokenizerModel TaggerModel PredicateModel PipelineModel
  TreeModel ParserModel RuleModel GrammarModel.
Open Scope nat_scope.

Section Parser.
  Variable U : unicode.
  Variable set_order : list str -> list str.
  Variable c : context.
  (** What the relations put on rules say of two forms. *)
  Variable rel : nat -> form -> form -> bool.

  (** parser.py 258-259: [self.tagger(self.tokenizer(text))].  A tokenizer with an analyzer
      is a MorphTokenizer; no tagger stands for the PassTagger put in its place (parser.py
      247-248).  The fuel is enough (theorem tokenizing_terminates). *)
  Definition text_tokens (text : str) : option (res (list token)) :=
    let fuel := 2 * length text + 1 in
    let tokens :=
      match c_morph c with
      | Some m => morph_tokenize (mo_call m) fuel (c_tokenizer c) text
      | None => tokenize fuel (c_tokenizer c) text
      end in
    then_ tokens (fun toks => Some (Ok (match c_tagger c with Some tg => tagger_call tg toks | None => toks end))).

  (** Parser(rule, tokenizer, tagger) and one of its methods on a text. *)
  Variable fuel : nat.
  Variable h : rule_heap.
  Variable root : nat.
  Variable text : str.
  Definition with_parser {A} (f : grammar token predicate -> list token -> option (res A)) : option (res A) :=
    then_ (parser_grammar U set_order c fuel h root) (fun g => then_ (text_tokens text) (f g)).
  (** parser.py 288-292. *)
  Definition parser_findall : option (res (store * list amatch)) :=
    with_parser (fun g toks => findall (accepts U) narrow rel g fuel toks).
  (** parser.py 294-296. *)
  Definition parser_find : option (res (store * option amatch)) :=
    with_parser (fun g toks => find (accepts U) narrow rel g fuel toks).
  (** parser.py 298-303. *)
  Definition parser_match : option (res (store * option amatch)) :=
    with_parser (fun g toks => match_ (accepts U) narrow rel g fuel toks).
  (** parser.py 283-286: the matches before the end or the first exception. *)
  Definition parser_extract (all : bool) : option (res (list amatch * store * option exn)) :=
    with_parser (fun g toks => option_map Ok (extract (accepts U) narrow rel g fuel toks all)).
End Parser.
