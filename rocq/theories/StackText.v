(** Model: a parser with a limited stack is given a text. *)
From Verif Require Import Base TokenModel EarleyModel TokenizerModel TaggerModel PredicateModel PipelineModel ParserModel RuleModel RuleBuild GrammarModel TextModel StackModel.
Open Scope nat_scope.

(** parser.py 238-255 and 257-303: a parser made from a rule is given a text. *)
Section Text.
  Variable U : unicode.
  Variable set_order : list str -> list str.
  Variable c : context.
  Variable rel : nat -> form -> form -> bool.
  Variable comp limit : nat.
  Variable fuel : nat.
  Variable h : rule_heap.
  Variable root : nat.
  Variable text : str.
  Definition with_parser_within {A} (f : grammar token predicate -> list token -> option (run A)) : option (run A) :=
    match parser_grammar U set_order c fuel h root with
    | None => None
    | Some (Err e) => Some (Returns (Err e))
    | Some (Ok g) =>
        match text_tokens c text with
        | None => None
        | Some (Err e) => Some (Returns (Err e))
        | Some (Ok toks) => f g toks
        end
    end.
  (** parser.py 283-286: the matches before the end or the first exception. *)
  Definition parser_extract_within (all : bool) := with_parser_within (fun g toks => option_map (fun x => Returns (Ok x)) (extract_within comp rel g limit (accepts U) narrow fuel toks all)).
  (** parser.py 288-303. *)
  Definition parser_findall_within := with_parser_within (fun g toks => findall_within comp rel g limit (accepts U) narrow fuel toks).
  Definition parser_find_within := with_parser_within (fun g toks => find_within comp rel g limit (accepts U) narrow fuel toks).
  Definition parser_match_within := with_parser_within (fun g toks => match_within comp rel g limit (accepts U) narrow fuel toks).
End Text.
