(** Model of the text of a chart: Chart.source, Column.source, State.__str__ (parser.py 59-69, 111-125,
    161-173). *)
From Coq Require String.
From Verif Require Import Base TokenModel EarleyModel PredicateModel PipelineModel RuleModel GrammarModel DotTextModel LabelModel.
Import String.StringSyntax.
Open Scope nat_scope.

Section Text.
  Context {token pred : Type}.
  Variable g : grammar token pred.
  Variable toks : list token.
  (** [term.label]: None for a rule without a name (rule/bnf.py 61-71). *)
  Variable label : term pred -> res (option str).
  (** [repr(token)]. *)
  Variable token_repr : token -> str.
  Notation state := (EarleyModel.state token pred).
  (** parser.py 161-173.  [format] prints None as text; [join] needs strings. *)
  Definition state_text (s : state) : res str :=
    let terms := g_terms g (s_prod s) in
    let! before := mapM label (firstn (s_dot s) terms) in
    let! after := mapM label (skipn (s_dot s) terms) in
    let! words := mapM needed (before ++ [Some (str_of "$")] ++ after) in
    let production := join_with (str_of " ") words in
    let! name := label (TRule (s_rule s)) in
    Ok (str_of "[" ++ digits (s_start s) ++ str_of ":" ++ digits (s_stop s) ++ str_of "] " ++
        match name with Some n => n | None => str_of "None" end ++ str_of " -> " ++ production).
  (** parser.py 28-31: column [k] holds token [k - 1], the first one holds None. *)
  Definition column_token (k : nat) : str :=
    match k with O => str_of "None" | S k' => match nth_error toks k' with Some t => token_repr t | None => [] end end.
  (** parser.py 111-119. *)
  Definition column_source (st : cst token pred) (k : nat) : res (list str) :=
    let! lines := mapM state_text (cols st k) in
    Ok ((digits k ++ str_of " " ++ column_token k) :: str_of "----------------" :: lines).
  (** parser.py 59-64. *)
  Definition chart_source (st : cst token pred) : res (list str) :=
    let! blocks := mapM (fun k => let! lines := column_source st k in Ok (lines ++ [[]])) (seq 0 (S (length toks))) in
    Ok (concat blocks).
End Text.

(** The text of [Parser(rule).chart(tokens, all)] (parser.py 252-273). *)
Definition parser_chart_text (U : unicode) (set_order : list str -> list str) (c : context)
    (label_of_pred : predicate -> res str) (label_of_interp : nat -> res str) (label_of_relation : nat -> str) (token_repr : TokenModel.token -> str)
    (fuel : nat) (h : rule_heap) (root : nat) (toks : list TokenModel.token) (all : bool) : option (res (list str)) :=
  then_ (build_rule U set_order c fuel h root) (fun '(_, h') =>
  then_ (parser_grammar U set_order c fuel h root) (fun g =>
  match chart (accepts U) narrow g toks fuel all with
  | Some st => Some (chart_source g toks (term_label label_of_pred label_of_interp label_of_relation h') token_repr st)
  | None => None
  end)).
