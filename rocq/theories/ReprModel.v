(** Model of [repr] and of the pretty printing of rules and trees: [Record.__repr__] and
    [Record._repr_pretty_] (record.py 24-57), [ForwardRule.__repr__]. *)
From Coq Require String.
From Verif Require Import Base TokenModel EarleyModel PredicateModel PipelineModel RuleModel GrammarModel DotTextModel LabelModel.
Import String.StringSyntax.
Open Scope nat_scope.

(** What is printed for an attribute: text, an object, a list of texts and objects. *)
Inductive shown_item := SText (s : str) | SObject (x : nat).
Inductive shown := ShowOne (i : shown_item) | ShowList (l : list shown_item).
Definition Show (s : str) : shown := ShowOne (SText s).
Definition Point (x : nat) : shown := ShowOne (SObject x).
Definition bool_text (b : bool) : str := if b then str_of "True" else str_of "False".

Section Repr.
  (** [repr] of predicates, pipelines, interpretators, relations and strings. *)
  Variable pred_repr : predicate -> str.
  Variable pipeline_repr : pipeline -> str.
  Variable interp_repr : nat -> str.
  Variable relation_repr : nat -> str.
  Variable str_repr : str -> str.
  Variable h : rule_heap.

  Definition maybe {A} (f : A -> str) (x : option A) : str := match x with Some a => f a | None => str_of "None" end.
  Definition show_term (t : term predicate) : shown_item := match t with TRule r => SObject r | TPred p => SText (pred_repr p) end.
  (** rule/bnf.py 45-46; pipelines.py 16-59 for the class. *)
  Definition bnf_fields (ps : list nat) (a : attributes) : list (str * shown) :=
    [(str_of "productions", ShowList (map SObject ps)); (str_of "name", Show (maybe str_repr (a_name a)));
     (str_of "interpretator", Show (maybe interp_repr (a_interp a))); (str_of "relation", Show (maybe relation_repr (a_relation a)))].
  Definition bnf_class (k : kind) : str :=
    match k with Exact => str_of "PipelineBNFRule" | Caseless => str_of "CaselessPipelineBNFRule" | Morph => str_of "MorphPipelineBNFRule" end.
  (** Class and [__attributes__]: rule/constructors.py 28-329, rule/bnf.py 45-46, pipelines.py 86-87. *)
  Definition shape (o : obj predicate pipeline pipeline_bnf) : str * list (str * shown) :=
    match o with
    | ORule ps => (str_of "Rule", [(str_of "productions", ShowList (map SObject ps))])
    | OOr rs => (str_of "OrRule", [(str_of "rules", ShowList (map SObject rs))])
    | OOptional r rev => (str_of "OptionalRule", [(str_of "rule", Point r); (str_of "reverse", Show (bool_text rev))])
    | ORepeatable r rev => (str_of "RepeatableRule", [(str_of "rule", Point r); (str_of "reverse", Show (bool_text rev))])
    | ORepOpt r rev rev' => (str_of "RepeatableOptionalRule", [(str_of "rule", Point r); (str_of "reverse_repeatable", Show (bool_text rev)); (str_of "reverse_optional", Show (bool_text rev'))])
    | OMin r n rev => (str_of "MinBoundedRule", [(str_of "rule", Point r); (str_of "min", Show (digits n)); (str_of "reverse", Show (bool_text rev))])
    | OMax r n rev => (str_of "MaxBoundedRule", [(str_of "rule", Point r); (str_of "max", Show (digits n)); (str_of "reverse", Show (bool_text rev))])
    | OMinMax r m n rev => (str_of "MinMaxBoundedRule", [(str_of "rule", Point r); (str_of "min", Show (digits m)); (str_of "max", Show (digits n)); (str_of "reverse", Show (bool_text rev))])
    | ONamed r name => (str_of "NamedRule", [(str_of "rule", Point r); (str_of "name", Show (str_repr name))])
    | OInterp r i => (str_of "InterpretationRule", [(str_of "rule", Point r); (str_of "interpretator", Show (interp_repr i))])
    | ORelation r ro => (str_of "RelationRule", [(str_of "rule", Point r); (str_of "relation", Show (relation_repr ro))])
    | OForward r => (str_of "ForwardRule", [(str_of "rule", match r with Some r => Point r | None => Show (str_of "None") end)])
    | OEmpty => (str_of "EmptyRule", [])
    | OPipeline p => (str_of "PipelineRule", [(str_of "pipeline", Show (pipeline_repr p))])
    | OBNF ps a => (str_of "BNFRule", bnf_fields ps a)
    | OPipeBNF b ps a => (bnf_class (b_kind b), bnf_fields ps a)
    | OProd ts main => (str_of "Production", [(str_of "terms", ShowList (map show_term ts)); (str_of "main", Show (digits main))])
    | OEmptyProd => (str_of "EmptyProduction", [(str_of "terms", ShowList []); (str_of "main", Show (digits 0))])
    | OPipeProd key ps => (str_of "PipelineProduction", [(str_of "value", Show (str_repr key)); (str_of "terms", ShowList (map (fun p => SText (pred_repr p)) ps))])
    end.
  (** A list of Python. *)
  Definition list_text (l : list str) : str := str_of "[" ++ join_with (str_of ", ") l ++ str_of "]".

  Definition all_texts {A} (f : A -> option str) :=
    fix all_texts (l : list A) : option (list str) :=
      match l with
      | [] => Some []
      | x :: l' => match f x, all_texts l' with Some s, Some r => Some (s :: r) | _, _ => None end
      end.
  Section Fields.
    Variable print : nat -> option str.
    Definition item_text (i : shown_item) : option str := match i with SText s => Some s | SObject x => print x end.
    Definition shown_text (v : shown) : option str :=
      match v with ShowOne i => item_text i | ShowList l => option_map list_text (all_texts item_text l) end.
    Definition field_texts (fields : list (str * shown)) : option (list str) := all_texts (fun f => shown_text (snd f)) fields.
  End Fields.

  (** record.py 24-36; rule/constructors.py 302-307.  The recursion limit of Python is [fuel]. *)
  Fixpoint repr_rule (fuel : nat) (x : nat) : option str :=
    match fuel with
    | O => None
    | S f =>
        match nth_error h x with
        | None => Some []
        | Some (OForward (Some _)) => Some (str_of "ForwardRule(...)")
        | Some (OForward None) => Some (str_of "ForwardRule()")
        | Some o =>
            let (name, fields) := shape o in
            option_map (fun ts => record_text name (combine (map fst fields) ts)) (field_texts (repr_rule f) fields)
        end
    end.

  (** tree/constructors.py 81-88, 137-146: [Node] and [Leaf]. *)
  Variable token_repr : token -> str.
  Fixpoint repr_node (fuel : nat) (n : node token predicate) : option str :=
    match n with
    | Leaf _ _ p t => Some (record_text (str_of "Leaf") [(str_of "predicate", pred_repr p); (str_of "token", token_repr t)])
    | Node _ r q rank ch =>
        match repr_rule fuel r, repr_rule fuel q, all_texts (repr_node fuel) ch with
        | Some rule, Some production, Some children =>
            Some (record_text (str_of "Node") [(str_of "rule", rule); (str_of "production", production); (str_of "rank", digits rank); (str_of "children", list_text children)])
        | _, _, _ => None
        end
    end.

  (** record.py 38-57 with the printer of IPython: [pretty(x)] looks whether [x] is being printed
      ([stack]), [break_] begins a new line with the indentation, [indent(4)] adds four spaces.
      In a list the printer adds one space and chooses between a space and a new line ([gap], by
      stack and position). *)
  Variable gap : list nat -> nat -> str.
  Definition newline (indent : nat) : str := 10%N :: repeat 32%N indent.
  Fixpoint spaced (gap : nat -> str) (k : nat) (l : list str) : str :=
    match l with
    | [] => []
    | s :: l' => match l' with [] => s | _ => s ++ str_of "," ++ gap k ++ spaced gap (S k) l' end
    end.
  Definition pretty_shown (stack : list nat) (print : nat -> nat -> option str) (indent : nat) (v : shown) : option str :=
    match v with
    | ShowOne i => item_text (print indent) i
    | ShowList l => option_map (fun ts => str_of "[" ++ spaced (gap stack) 0 ts ++ str_of "]") (all_texts (item_text (print (indent + 1))) l)
    end.
  Fixpoint pretty_fields (indent : nat) (fields : list (str * str)) : str :=
    match fields with
    | [] => []
    | (key, value) :: fields' => key ++ str_of "=" ++ value ++ match fields' with [] => [] | _ => str_of "," ++ newline indent ++ pretty_fields indent fields' end
    end.
  Fixpoint pretty_rule (fuel : nat) (stack : list nat) (indent : nat) (x : nat) : option str :=
    match fuel with
    | O => None
    | S f =>
        match nth_error h x with
        | None => Some []
        | Some o =>
            let (name, fields) := shape o in
            if is_in x stack then Some (name ++ str_of "(...)")
            else
              option_map (fun ts =>
                name ++ str_of "(" ++
                (match fields with [] => [] | _ => newline (indent + 4) ++ pretty_fields (indent + 4) (combine (map fst fields) ts) ++ newline indent end) ++ str_of ")")
                (all_texts (fun fl => pretty_shown (x :: stack) (pretty_rule f (x :: stack)) (indent + 4) (snd fl)) fields)
        end
    end.
End Repr.
