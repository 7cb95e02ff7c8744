(** What printing a rule is to show, and when it ends. *)
From Coq Require String.
From Verif Require Import Base TokenModel EarleyModel PredicateModel PipelineModel RuleModel GrammarModel DotTextModel WrittenSpec.
Import String.StringSyntax.
Open Scope nat_scope.

(** The objects printed with an object: forward rules do not print their definition. *)
Definition shows (h : rule_heap) (x y : nat) : Prop := exists o, nth_error h x = Some o /\ is_forward o = false /\ In y (children o).
Inductive inside (h : rule_heap) (x : nat) : nat -> Prop :=
| inside_itself : inside h x x
| inside_more y z : inside h x y -> shows h y z -> inside h x z.
(** An object that is part of itself. *)
Definition circular (h : rule_heap) (x : nat) : Prop := exists y, shows h x y /\ inside h y x.

(** [a, b, c] *)
Definition python_list (l : list str) (s : str) : Prop := exists inner, listed comma l inner /\ s = 91%N :: inner ++ [93%N].
Definition python_bool (b : bool) : str := str_of (if b then "True" else "False").
Definition or_none {A} (f : A -> str) (x : option A) : str := match x with Some a => f a | None => str_of "None" end.
Section Text.
  Variable pred_repr : predicate -> str.
  Variable pipeline_repr : pipeline -> str.
  Variable interp_repr : nat -> str.
  Variable relation_repr : nat -> str.
  Variable str_repr : str -> str.
  (** The texts of the objects inside. *)
  Variable prints : nat -> str -> Prop.
  Definition term_prints (t : term predicate) (s : str) : Prop := match t with TRule r => prints r s | TPred p => s = pred_repr p end.
  Definition wrapper_prints (class : str) (r : nat) (rest : list str) (s : str) : Prop := exists inner, prints r inner /\ called class ((str_of "rule=" ++ inner) :: rest) s.
  Definition bnf_prints (class : str) (ps : list nat) (a : attributes) (s : str) : Prop := exists texts inner, Forall2 prints ps texts /\ python_list texts inner /\
    called class [str_of "productions=" ++ inner; str_of "name=" ++ or_none str_repr (a_name a); str_of "interpretator=" ++ or_none interp_repr (a_interp a); str_of "relation=" ++ or_none relation_repr (a_relation a)] s.
  Definition object_prints (o : obj predicate pipeline pipeline_bnf) (s : str) : Prop :=
    match o with
    | ORule ps => exists texts inner, Forall2 prints ps texts /\ python_list texts inner /\ called (str_of "Rule") [str_of "productions=" ++ inner] s
    | OOr rs => exists texts inner, Forall2 prints rs texts /\ python_list texts inner /\ called (str_of "OrRule") [str_of "rules=" ++ inner] s
    | OOptional r rev => wrapper_prints (str_of "OptionalRule") r [str_of "reverse=" ++ python_bool rev] s
    | ORepeatable r rev => wrapper_prints (str_of "RepeatableRule") r [str_of "reverse=" ++ python_bool rev] s
    | ORepOpt r rev rev' => wrapper_prints (str_of "RepeatableOptionalRule") r [str_of "reverse_repeatable=" ++ python_bool rev; str_of "reverse_optional=" ++ python_bool rev'] s
    | OMin r n rev => wrapper_prints (str_of "MinBoundedRule") r [str_of "min=" ++ digits n; str_of "reverse=" ++ python_bool rev] s
    | OMax r n rev => wrapper_prints (str_of "MaxBoundedRule") r [str_of "max=" ++ digits n; str_of "reverse=" ++ python_bool rev] s
    | OMinMax r m n rev => wrapper_prints (str_of "MinMaxBoundedRule") r [str_of "min=" ++ digits m; str_of "max=" ++ digits n; str_of "reverse=" ++ python_bool rev] s
    | ONamed r name => wrapper_prints (str_of "NamedRule") r [str_of "name=" ++ str_repr name] s
    | OInterp r i => wrapper_prints (str_of "InterpretationRule") r [str_of "interpretator=" ++ interp_repr i] s
    | ORelation r ro => wrapper_prints (str_of "RelationRule") r [str_of "relation=" ++ relation_repr ro] s
    | OForward (Some _) => s = str_of "ForwardRule(...)"
    | OForward None => s = str_of "ForwardRule()"
    | OEmpty => s = str_of "EmptyRule()"
    | OPipeline p => s = str_of "PipelineRule(pipeline=" ++ pipeline_repr p ++ [41%N]
    | OBNF ps a => bnf_prints (str_of "BNFRule") ps a s
    | OPipeBNF b ps a => bnf_prints (str_of (match b_kind b with Exact => "PipelineBNFRule" | Caseless => "CaselessPipelineBNFRule" | Morph => "MorphPipelineBNFRule" end)) ps a s
    | OProd ts main => exists texts inner, Forall2 term_prints ts texts /\ python_list texts inner /\ called (str_of "Production") [str_of "terms=" ++ inner; str_of "main=" ++ digits main] s
    | OEmptyProd => s = str_of "EmptyProduction(terms=[], main=0)"
    | OPipeProd key ps => exists inner, python_list (map pred_repr ps) inner /\ called (str_of "PipelineProduction") [str_of "value=" ++ str_repr key; str_of "terms=" ++ inner] s
    end.
End Text.

(** Nodes of a tree. *)
Inductive part (n : node token predicate) : node token predicate -> Prop :=
| part_itself : part n n
| part_more id r q rank ch c : part n (Node id r q rank ch) -> In c ch -> part n c.

(** A text without spaces and line breaks. *)
Definition blank (c : N) : bool := (N.eqb c 32 || N.eqb c 10)%bool.
Definition squeezed (s : str) : str := filter (fun c => negb (blank c)) s.
Definition only_blanks (s : str) : Prop := Forall (fun c => blank c = true) s.
