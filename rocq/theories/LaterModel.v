(** The generator of Parser.extract, with the state of the tokens at each yield. *)
From Verif Require Import Base TokenModel EarleyModel TokenizerModel TaggerModel PredicateModel PipelineModel TreeModel ParserModel RuleModel RuleBuild GrammarModel TextModel.
Open Scope nat_scope.

Section Later.
  Context {pred : Type}.
  Variable accepts : pred -> token -> bool.
  Variable constrain : pred -> token -> token.
  Variable rel : nat -> form -> form -> bool.
  Variable g : grammar token pred.

  (** parser.py 210-214: the matches, each with the tokens of the leaves at the moment it is
      yielded; the tokens after the last step; the exception that ended the generator. *)
  Fixpoint yielded (trees : list (@tree pred)) (s : store) : list (@amatch pred * store) * store * option exn :=
    match trees with
    | [] => ([], s, None)
    | t :: trees' =>
        match prepare_match rel g t s with
        | Err e => ([], s, Some e)
        | Ok (s', None) => yielded trees' s'
        | Ok (s', Some m) => let '(found, s'', e) := yielded trees' s' in ((m, s') :: found, s'', e)
        end
    end.
  (** parser.py 283-286. *)
  Definition extract_yielded (fuel : nat) (toks : list token) (all : bool) : option (list (@amatch pred * store) * store * option exn) :=
    match parse accepts constrain g fuel toks all with
    | Some trees => Some (yielded trees [])
    | None => None
    end.
End Later.

(** parser.py 283-286 on a rule and a text. *)
Definition parser_extract_yielded (U : unicode) (set_order : list str -> list str) (c : context) (rel : nat -> form -> form -> bool) (fuel : nat) (h : rule_heap) (root : nat) (text : str) (all : bool) :
    option (res (list (@amatch predicate * store) * store * option exn)) :=
  with_parser U set_order c fuel h root text (fun g toks => option_map Ok (extract_yielded (accepts U) narrow rel g fuel toks all)).
