(** Model of yargy/visitor.py (the choice of the method that visits an object), of the classes of
    the objects that are visited and of the visitors, and of the visit_ methods of
    yargy/rule/transformators.py and yargy/rule/bnf.py one by one.

    RuleModel.v writes every pass over a rule graph as one function of the object, with the choice
    of the method made by hand.  Here the choice is computed: classes have bases, Python orders the
    ancestors of a class, and the visitor tries them in that order. *)
From Coq Require Import String.
From Verif Require Import Base TokenModel EarleyModel RuleModel.
Open Scope nat_scope.

(** ** Classes *)
Section Classes.
  Definition table := list (string * list string).
  Fixpoint bases_in (t : table) (c : string) : option (list string) :=
    match t with
    | [] => None
    | (d, bs) :: t' => if String.eqb c d then Some bs else bases_in t' c
    end.
  Definition mem (c : string) (l : list string) : bool := existsb (String.eqb c) l.

  (** The order of the ancestors of a class, [__mro__] (visitor.py 7): the merge of Python.  The
      next class is the first head of a list that is in the tail of no list; [None]: no such
      head (TypeError when the class is created). *)
  Definition tails (ls : list (list string)) : list (list string) := map (@tl string) ls.
  Fixpoint candidate (heads : list (list string)) (ls : list (list string)) : option string :=
    match heads with
    | [] => None
    | [] :: heads' => candidate heads' ls
    | (c :: _) :: heads' => if existsb (mem c) (tails ls) then candidate heads' ls else Some c
    end.
  Definition drop (c : string) (l : list string) : list string :=
    match l with
    | d :: l' => if String.eqb c d then l' else l
    | [] => []
    end.
  Fixpoint merge (fuel : nat) (ls : list (list string)) : option (list string) :=
    if forallb (fun l => match l with [] => true | _ => false end) ls then Some []
    else
      match fuel with
      | O => None
      | S fuel' =>
          match candidate ls ls with
          | None => None
          | Some c => option_map (cons c) (merge fuel' (map (drop c) ls))
          end
      end.
  Fixpoint all_some {A} (l : list (option A)) : option (list A) :=
    match l with
    | [] => Some []
    | Some x :: l' => option_map (cons x) (all_some l')
    | None :: _ => None
    end.
  Fixpoint mro (fuel : nat) (t : table) (c : string) : option (list string) :=
    match fuel with
    | O => None
    | S fuel' =>
        match bases_in t c with
        | None => None
        | Some bs =>
            match all_some (map (mro fuel' t) bs) with
            | None => None
            | Some ls =>
                option_map (cons c) (merge (List.length (List.concat (ls ++ [bs]))) (ls ++ [bs]))
            end
        end
    end.
End Classes.

(** ** Visitor.resolve_method (visitor.py 6-14) *)
Section Resolve.
  (** How deep the hierarchies are at most. *)
  Variable depth : nat.
  Variable classes : table.
  (** The names after [visit_] of the methods written in the class statement of a visitor. *)
  Variable methods : table.

  Definition defines (c name : string) : bool :=
    match bases_in methods c with Some names => mem name names | None => false end.
  (** [getattr(self, 'visit_' + name, None)]: the class the method comes from. *)
  Definition method_owner (visitor name : string) : option string :=
    match mro depth classes visitor with
    | Some cs => find (fun c => defines c name) cs
    | None => None
    end.
  Fixpoint first_method (visitor : string) (names : list string) : option (string * string) :=
    match names with
    | [] => None
    | name :: names' =>
        match method_owner visitor name with
        | Some owner => Some (owner, name)
        | None => first_method visitor names'
        end
    end.
  (** [None]: ValueError. *)
  Definition resolve_method (visitor cls : string) : option (string * string) :=
    match mro depth classes cls with
    | Some names => first_method visitor names
    | None => None
    end.
  (** [isinstance(item, base)]. *)
  Definition is_instance (cls base : string) : bool :=
    match mro depth classes cls with Some cs => mem base cs | None => false end.
End Resolve.

(** ** The classes of yargy *)
Local Open Scope string_scope.

(** record.py 3; rule/constructors.py 28, 50, 58, 158, 172, 187, 196, 200, 204, 215, 219, 228, 237,
    246, 255, 266, 277, 314, 323; rule/bnf.py 45; pipelines.py 16, 43, 53, 86. *)
Definition rule_classes : table :=
  [ ("object", []); ("Record", ["object"]);
    ("Production", ["Record"]); ("EmptyProduction", ["Production"]); ("PipelineProduction", ["Production"]);
    ("Rule", ["Record"]); ("OrRule", ["Rule"]); ("WrapperRule", ["Rule"]); ("ExtendedRule", ["WrapperRule"]);
    ("OptionalRule", ["ExtendedRule"]); ("RepeatableRule", ["ExtendedRule"]);
    ("RepeatableOptionalRule", ["RepeatableRule"; "OptionalRule"]);
    ("BoundedRule", ["ExtendedRule"]); ("MinBoundedRule", ["BoundedRule"]); ("MaxBoundedRule", ["BoundedRule"]);
    ("MinMaxBoundedRule", ["MinBoundedRule"; "MaxBoundedRule"]);
    ("NamedRule", ["WrapperRule"]); ("InterpretationRule", ["WrapperRule"]); ("RelationRule", ["WrapperRule"]);
    ("ForwardRule", ["Rule"]); ("EmptyRule", ["Rule"]); ("PipelineRule", ["Rule"]);
    ("BNFRule", ["Rule"]); ("PipelineBNFRule", ["BNFRule"]);
    ("CaselessPipelineBNFRule", ["PipelineBNFRule"]); ("MorphPipelineBNFRule", ["PipelineBNFRule"]) ].
(** predicates/constructors.py 6, 50, 56, 85, 90, 95, 115, 122; predicates/bank.py 81, 94, 110, 126,
    142, 160, 178, 194, 213, 232, 249, 269, 293, 311, 334, 350, 368, 387, 404, 413, 423, 434, 462,
    491. *)
Definition predicate_classes : table :=
  [ ("Predicate", ["Record"]); ("PredicateScheme", ["Predicate"]); ("PredicatesComposition", ["Predicate"]);
    ("AndPredicate", ["PredicatesComposition"]); ("OrPredicate", ["PredicatesComposition"]);
    ("NotPredicate", ["Predicate"]); ("ParameterPredicate", ["Predicate"]);
    ("ParameterPredicateScheme", ["ParameterPredicate"; "PredicateScheme"]);
    ("true", ["Predicate"]); ("is_lower", ["Predicate"]); ("is_upper", ["Predicate"]);
    ("is_title", ["Predicate"]); ("is_capitalized", ["Predicate"]);
    ("eq", ["ParameterPredicate"]); ("length_eq", ["ParameterPredicate"]); ("gte", ["ParameterPredicate"]);
    ("lte", ["ParameterPredicate"]); ("caseless", ["ParameterPredicate"]); ("in_", ["ParameterPredicate"]);
    ("in_caseless", ["ParameterPredicate"]); ("normalized", ["ParameterPredicateScheme"]);
    ("dictionary", ["ParameterPredicateScheme"]); ("DictionaryPredicate", ["ParameterPredicate"]);
    ("gram", ["ParameterPredicateScheme"]); ("GramPredicate", ["ParameterPredicate"]);
    ("type", ["ParameterPredicateScheme"]); ("TypePredicate", ["ParameterPredicate"]);
    ("tag", ["ParameterPredicateScheme"]); ("TagPredicate", ["ParameterPredicate"]);
    ("is_single", ["Predicate"]); ("custom", ["PredicateScheme"]); ("CustomPredicate", ["Predicate"]) ].
(** tree/constructors.py 81, 137. *)
Definition tree_classes : table := [ ("Node", ["Record"]); ("Leaf", ["Node"]) ].
(** visitor.py 5; dot.py 158; rule/transformators.py 35, 58, 145, 161, 275, 298, 303, 374, 413;
    rule/bnf.py 89, 153; tree/transformators.py 20, 30, 47, 65, 92, 106, 121, 129. *)
Definition visitor_classes : table :=
  [ ("Visitor", ["object"]); ("DotTransformator", ["Visitor"]);
    ("InplaceRuleTransformator", ["Visitor"]); ("RuleTransformator", ["Visitor"]);
    ("ActivateTransformator", ["InplaceRuleTransformator"]);
    ("SquashExtendedTransformator", ["RuleTransformator"]); ("FlattenTransformator", ["RuleTransformator"]);
    ("ReplaceOrTransformator", ["RuleTransformator"]); ("ReplaceEmptyTransformator", ["RuleTransformator"]);
    ("ReplaceExtendedTransformator", ["RuleTransformator"]);
    ("DotRuleTransformator", ["DotTransformator"; "InplaceRuleTransformator"]);
    ("BNFTransformator", ["RuleTransformator"]); ("RemoveForwardTransformator", ["InplaceRuleTransformator"]);
    ("InplaceTreeTransformator", ["Visitor"]); ("TreeTransformator", ["Visitor"]);
    ("PropogateEmptyTransformator", ["TreeTransformator"]);
    ("KeepInterpretationNodesTransformator", ["TreeTransformator"]);
    ("InterpretationTransformator", ["TreeTransformator"]);
    ("RelationsTransformator", ["InplaceTreeTransformator"]);
    ("ApplyRelationsTransformator", ["InplaceTreeTransformator"]);
    ("DotTreeTransformator", ["DotTransformator"; "InplaceTreeTransformator"]) ].
Definition yargy_classes : table := (rule_classes ++ predicate_classes ++ tree_classes ++ visitor_classes)%list.

(** The visit_ methods of every visitor: rule/transformators.py 35-55, 58-142, 145-158, 161-272,
    275-295, 298-305, 374-410, 413-538; rule/bnf.py 89-150, 153-170; tree/transformators.py 20-168. *)
Definition yargy_methods : table :=
  [ ("InplaceRuleTransformator", ["term"; "Production"; "EmptyProduction"; "PipelineProduction"; "Rule"]);
    ("RuleTransformator",
      ["term"; "Production"; "EmptyProduction"; "PipelineProduction"; "Rule"; "OrRule"; "OptionalRule";
       "RepeatableRule"; "RepeatableOptionalRule"; "MinBoundedRule"; "MaxBoundedRule"; "MinMaxBoundedRule";
       "NamedRule"; "InterpretationRule"; "RelationRule"; "ForwardRule"; "EmptyRule"; "PipelineRule"]);
    ("ActivateTransformator", ["term"; "PipelineRule"]);
    ("SquashExtendedTransformator",
      ["RepeatableRule"; "OptionalRule"; "RepeatableOptionalRule"; "BoundedRule"; "MinBoundedRule";
       "MaxBoundedRule"; "MinMaxBoundedRule"]);
    ("FlattenTransformator", ["term"; "Production"]);
    ("ReplaceOrTransformator", ["OrRule"]);
    ("ReplaceEmptyTransformator", ["EmptyRule"]);
    ("ReplaceExtendedTransformator",
      ["RepeatableRule"; "OptionalRule"; "RepeatableOptionalRule"; "MinBoundedRule"; "MaxBoundedRule";
       "MinMaxBoundedRule"]);
    ("DotRuleTransformator",
      ["Predicate"; "Production"; "EmptyProduction"; "PipelineProduction"; "Rule"; "OrRule"; "OptionalRule";
       "RepeatableRule"; "RepeatableOptionalRule"; "MinBoundedRule"; "MaxBoundedRule"; "MinMaxBoundedRule";
       "NamedRule"; "InterpretationRule"; "RelationRule"; "ForwardRule"; "EmptyRule"; "PipelineRule"; "BNFRule"]);
    ("BNFTransformator",
      ["OrRule"; "ExtendedRule"; "EmptyRule"; "Rule"; "WrapperRule"; "NamedRule"; "InterpretationRule";
       "RelationRule"; "PipelineRule"]);
    ("RemoveForwardTransformator", ["term"; "BNFRule"; "ForwardRule"; "PipelineBNFRule"]);
    ("InplaceTreeTransformator", ["Node"]);
    ("TreeTransformator", ["Node"; "Leaf"]);
    ("PropogateEmptyTransformator", ["children"; "Node"]);
    ("KeepInterpretationNodesTransformator", ["Node"]);
    ("InterpretationTransformator", ["Node"; "Leaf"]);
    ("RelationsTransformator", ["Node"]);
    ("ApplyRelationsTransformator", ["Leaf"]);
    ("DotTreeTransformator", ["Node"; "Leaf"]) ].

(** Enough for every class above. *)
Definition yargy_depth := 8.
Definition resolve : string -> string -> option (string * string) :=
  resolve_method yargy_depth yargy_classes yargy_methods.
Definition isinstance : string -> string -> bool := is_instance yargy_depth yargy_classes.

(** ** The methods of the passes over rules *)
Section Bodies.
  Context {pred pipe bnf : Type}.
  (** [type(rule).__name__] of the rule of a pipeline (pipelines.py 16, 43, 53). *)
  Variable bnf_class : bnf -> string.
  Notation obj := (obj pred pipe bnf).
  Notation M := (M pred pipe bnf).
  Notation visitor := (visitor pred pipe bnf).
  Notation "'do' x '<-' a ';;' b" := (bindM a (fun x => b)) (at level 200, x pattern, a at level 100, b at level 200).

  Definition class_of (o : obj) : string :=
    match o with
    | ORule _ => "Rule" | OOr _ => "OrRule" | OOptional _ _ => "OptionalRule"
    | ORepeatable _ _ => "RepeatableRule" | ORepOpt _ _ _ => "RepeatableOptionalRule"
    | OMin _ _ _ => "MinBoundedRule" | OMax _ _ _ => "MaxBoundedRule" | OMinMax _ _ _ _ => "MinMaxBoundedRule"
    | ONamed _ _ => "NamedRule" | OInterp _ _ => "InterpretationRule" | ORelation _ _ => "RelationRule"
    | OForward _ => "ForwardRule" | OEmpty => "EmptyRule" | OPipeline _ => "PipelineRule"
    | OBNF _ _ => "BNFRule" | OPipeBNF b _ _ => bnf_class b
    | OProd _ _ => "Production" | OEmptyProd => "EmptyProduction" | OPipeProd _ _ => "PipelineProduction"
    end.

  (** The attributes of the objects (rule/constructors.py 29, 59, 159, 173, 188, 205, 220, 229, 238,
      247, 256, 267, 278, 324; rule/bnf.py 46); any other access is an AttributeError.  The
      constructor of RepeatableOptionalRule does not set [reverse] (207-212). *)
  Definition attr_productions (o : obj) : M (list nat) :=
    match o with ORule ps | OBNF ps _ | OPipeBNF _ ps _ => ret ps | _ => raise AttributeError end.
  Definition attr_rules (o : obj) : M (list nat) :=
    match o with OOr rs => ret rs | _ => raise AttributeError end.
  Definition attr_rule (o : obj) : M nat :=
    match o with
    | OOptional r _ | ORepeatable r _ | ORepOpt r _ _ | OMin r _ _ | OMax r _ _ | OMinMax r _ _ _
    | ONamed r _ | OInterp r _ | ORelation r _ => ret r
    | _ => raise AttributeError
    end.
  Definition attr_reverse (o : obj) : M bool :=
    match o with
    | OOptional _ b | ORepeatable _ b | OMin _ _ b | OMax _ _ b | OMinMax _ _ _ b => ret b
    | _ => raise AttributeError
    end.
  Definition attr_reverse_repeatable (o : obj) : M bool :=
    match o with ORepOpt _ b _ => ret b | _ => raise AttributeError end.
  Definition attr_reverse_optional (o : obj) : M bool :=
    match o with ORepOpt _ _ b => ret b | _ => raise AttributeError end.
  Definition attr_min (o : obj) : M nat :=
    match o with OMin _ m _ | OMinMax _ m _ _ => ret m | _ => raise AttributeError end.
  Definition attr_max (o : obj) : M nat :=
    match o with OMax _ m _ | OMinMax _ _ m _ => ret m | _ => raise AttributeError end.
  (** Asked of productions only: the constructor of Rule asserts it (rule/constructors.py 63-65). *)
  Definition attr_terms (o : obj) : M (list (term pred)) := ret (production_terms o).
  Definition attr_main (o : obj) : M nat :=
    match o with OProd _ m => ret m | OEmptyProd | OPipeProd _ _ => ret 0 | _ => raise AttributeError end.
  (** The name of a NamedRule, the interpretator of an InterpretationRule and the relation of a
      RelationRule; BNF rules have all three (RuleModel.v [set_attribute]). *)
  Definition attr_name (o : obj) : M str := match o with ONamed _ n => ret n | _ => raise AttributeError end.
  Definition attr_interpretator (o : obj) : M nat := match o with OInterp _ i => ret i | _ => raise AttributeError end.
  Definition attr_relation (o : obj) : M nat := match o with ORelation _ r => ret r | _ => raise AttributeError end.
  Definition attr_pipeline (o : obj) : M pipe := match o with OPipeline p => ret p | _ => raise AttributeError end.

  Definition isinstance_of (o : obj) (classes : list string) : bool :=
    existsb (isinstance (class_of o)) classes.

  (** What a pass needs to know: the class of the visitor, and what its methods use. *)
  Variable self : string.
  Variable fuel : nat.
  Variable parents : list nat.
  Variable pipe_bnf : pipe -> res bnf.
  Variable bnf_lines : bnf -> list (str * list pred).

  (** A method of a RuleTransformator: [self.visit], the object and what it holds. *)
  Definition body := visitor -> nat -> obj -> M nat.

  (** rule/transformators.py 77-81.  Every object that is a term is a rule. *)
  Definition term_of_RuleTransformator (visit_ : visitor) (t : term pred) : M (term pred) :=
    match t with
    | TRule r => do r' <- visit_ r ;; ret (TRule r')
    | TPred p => ret (TPred p)
    end.
  (** rule/transformators.py 276-284. *)
  Fixpoint term_of_Flatten (n : nat) (visit_ : visitor) (t : term pred) : M (term pred) :=
    match n with
    | O => no_fuel
    | S n' =>
        match t with
        | TPred _ => term_of_RuleTransformator visit_ t
        | TRule r =>
            do item <- get r ;;
            if class_of item =? "Rule" then
              do productions <- attr_productions item ;;
              match productions with
              | [q] =>
                  do production <- get q ;;
                  do terms <- attr_terms production ;;
                  match terms with
                  | [t'] => term_of_Flatten n' visit_ t'
                  | _ => term_of_RuleTransformator visit_ t
                  end
              | _ => term_of_RuleTransformator visit_ t
              end
            else term_of_RuleTransformator visit_ t
        end
    end.
  (** [self.visit_term]. *)
  Definition self_visit_term (visit_ : visitor) (t : term pred) : M (term pred) :=
    match method_owner yargy_depth yargy_classes yargy_methods self "term" with
    | Some owner =>
        if owner =? "RuleTransformator" then term_of_RuleTransformator visit_ t
        else if owner =? "FlattenTransformator" then term_of_Flatten fuel visit_ t
        else raise AttributeError
    | None => raise AttributeError
    end.

  (** rule/transformators.py 83-142. *)
  Definition self_ : body := fun _ p _ => ret p.
  Definition production_of_RuleTransformator : body := fun visit_ _ item =>
    do terms <- attr_terms item ;;
    do terms' <- mapMM (self_visit_term visit_) terms ;;
    do main <- attr_main item ;;
    alloc (OProd terms' main).
  (** [self.visit(item.rule, item.reverse)]: visit takes one argument. *)
  Definition too_many_arguments : M nat := raise TypeError.
  Definition bodies_of_RuleTransformator : list (string * body) :=
    [ ("Production", production_of_RuleTransformator);
      ("EmptyProduction", self_); ("PipelineProduction", self_);
      ("Rule", fun visit_ _ item =>
        do ps <- attr_productions item ;; do ps' <- mapMM visit_ ps ;; alloc (ORule ps'));
      ("OrRule", fun visit_ _ item =>
        do rs <- attr_rules item ;; do rs' <- mapMM visit_ rs ;; alloc (OOr rs'));
      ("OptionalRule", fun _ _ item =>
        do _ <- attr_rule item ;; do _ <- attr_reverse item ;; too_many_arguments);
      ("RepeatableRule", fun _ _ item =>
        do _ <- attr_rule item ;; do _ <- attr_reverse item ;; too_many_arguments);
      ("RepeatableOptionalRule", fun _ _ item =>
        do _ <- attr_rule item ;; do _ <- attr_reverse_repeatable item ;; do _ <- attr_reverse_optional item ;;
        too_many_arguments);
      ("MinBoundedRule", fun visit_ _ item =>
        do r <- attr_rule item ;; do r' <- visit_ r ;; do m <- attr_min item ;; do b <- attr_reverse item ;;
        alloc (OMin r' m b));
      ("MaxBoundedRule", fun visit_ _ item =>
        do r <- attr_rule item ;; do r' <- visit_ r ;; do m <- attr_max item ;; do b <- attr_reverse item ;;
        alloc (OMax r' m b));
      ("MinMaxBoundedRule", fun visit_ _ item =>
        do r <- attr_rule item ;; do r' <- visit_ r ;; do m <- attr_min item ;; do n <- attr_max item ;;
        do b <- attr_reverse item ;;
        alloc (OMinMax r' m n b));
      ("NamedRule", fun visit_ _ item =>
        do r <- attr_rule item ;; do r' <- visit_ r ;; do n <- attr_name item ;; alloc (ONamed r' n));
      ("InterpretationRule", fun visit_ _ item =>
        do r <- attr_rule item ;; do r' <- visit_ r ;; do i <- attr_interpretator item ;; alloc (OInterp r' i));
      ("RelationRule", fun visit_ _ item =>
        do r <- attr_rule item ;; do r' <- visit_ r ;; do x <- attr_relation item ;; alloc (ORelation r' x));
      ("ForwardRule", self_); ("EmptyRule", self_); ("PipelineRule", self_) ].

  (** rule/transformators.py 161-272; [self.visit(RepeatableOptionalRule(...))] is
      [visit_new]. *)
  Definition bounded_of_Squash : body := fun visit_ _ item =>
    do r <- attr_rule item ;;
    do child <- get r ;;
    if isinstance_of child ["RepeatableRule"] then
      do r' <- attr_rule child ;; do b <- attr_reverse child ;;
      visit_new visit_ (ORepeatable r' b)
    else if isinstance_of child ["RepeatableOptionalRule"] then
      do r' <- attr_rule child ;; do b <- attr_reverse_repeatable child ;; do c <- attr_reverse_optional child ;;
      visit_new visit_ (ORepOpt r' b c)
    else raise TypeError.
  (** What the three methods for bounded rules share (229-272); [make] builds the rule from its
      child. *)
  Definition squash_bounded_method (make : obj -> nat -> M obj) : body := fun visit_ p item =>
    do r <- attr_rule item ;;
    do child <- get r ;;
    if isinstance_of child ["RepeatableRule"; "RepeatableOptionalRule"] then bounded_of_Squash visit_ p item
    else if isinstance_of child ["OptionalRule"] then
      do r' <- attr_rule child ;;
      do inner <- make item r' ;;
      do t <- alloc inner ;;
      do b <- attr_reverse child ;;
      visit_new visit_ (OOptional t b)
    else
      do r' <- visit_ r ;;
      do o <- make item r' ;;
      alloc o.
  Definition bodies_of_Squash : list (string * body) :=
    [ ("RepeatableRule", fun visit_ _ item =>
        do r <- attr_rule item ;;
        do child <- get r ;;
        if isinstance_of child ["OptionalRule"] then
          do r' <- attr_rule child ;; do b <- attr_reverse item ;; do c <- attr_reverse child ;;
          visit_new visit_ (ORepOpt r' b c)
        else if isinstance_of child ["RepeatableOptionalRule"] then
          do r' <- attr_rule child ;; do b <- attr_reverse item ;; do c <- attr_reverse_optional child ;;
          visit_new visit_ (ORepOpt r' b c)
        else if isinstance_of child ["RepeatableRule"; "BoundedRule"] then
          do r' <- attr_rule child ;; do b <- attr_reverse item ;;
          visit_new visit_ (ORepeatable r' b)
        else
          do r' <- visit_ r ;; do b <- attr_reverse item ;; alloc (ORepeatable r' b));
      ("OptionalRule", fun visit_ _ item =>
        do r <- attr_rule item ;;
        do child <- get r ;;
        if isinstance_of child ["RepeatableRule"] then
          do r' <- attr_rule child ;; do b <- attr_reverse child ;; do c <- attr_reverse item ;;
          visit_new visit_ (ORepOpt r' b c)
        else if isinstance_of child ["RepeatableOptionalRule"] then
          do r' <- attr_rule child ;; do b <- attr_reverse_repeatable child ;; do c <- attr_reverse item ;;
          visit_new visit_ (ORepOpt r' b c)
        else if isinstance_of child ["OptionalRule"] then
          do r' <- attr_rule child ;; do b <- attr_reverse item ;;
          visit_new visit_ (OOptional r' b)
        else
          do r' <- visit_ r ;; do b <- attr_reverse item ;; alloc (OOptional r' b));
      ("RepeatableOptionalRule", fun visit_ _ item =>
        do r <- attr_rule item ;;
        do child <- get r ;;
        if isinstance_of child ["RepeatableRule"; "BoundedRule"; "OptionalRule"; "RepeatableOptionalRule"] then
          do r' <- attr_rule child ;; do b <- attr_reverse_repeatable item ;; do c <- attr_reverse_optional item ;;
          visit_new visit_ (ORepOpt r' b c)
        else
          do r' <- visit_ r ;; do b <- attr_reverse_repeatable item ;; do c <- attr_reverse_optional item ;;
          alloc (ORepOpt r' b c));
      ("BoundedRule", bounded_of_Squash);
      ("MinBoundedRule", squash_bounded_method (fun item r =>
        do m <- attr_min item ;; do b <- attr_reverse item ;; ret (OMin r m b)));
      ("MaxBoundedRule", squash_bounded_method (fun item r =>
        do m <- attr_max item ;; do b <- attr_reverse item ;; ret (OMax r m b)));
      ("MinMaxBoundedRule", squash_bounded_method (fun item r =>
        do m <- attr_min item ;; do n <- attr_max item ;; do b <- attr_reverse item ;; ret (OMinMax r m n b))) ].

  (** rule/transformators.py 286-295. *)
  Definition bodies_of_Flatten : list (string * body) :=
    [ ("Production", fun visit_ p item =>
        do terms <- attr_terms item ;;
        match terms with
        | [TRule r] =>
            do term <- get r ;;
            if class_of term =? "Rule" then
              do productions <- attr_productions term ;;
              match productions with
              | [q] => visit_ q
              | _ => production_of_RuleTransformator visit_ p item
              end
            else production_of_RuleTransformator visit_ p item
        | _ => production_of_RuleTransformator visit_ p item
        end) ].

  (** rule/transformators.py 298-305. *)
  Definition bodies_of_ReplaceOr : list (string * body) :=
    [ ("OrRule", fun visit_ _ item =>
        do rs <- attr_rules item ;;
        do ps <- mapMM (fun r => do r' <- visit_ r ;; alloc (OProd [TRule r'] 0)) rs ;;
        alloc (ORule ps)) ].
  Definition bodies_of_ReplaceEmpty : list (string * body) :=
    [ ("EmptyRule", fun _ _ _ => do q <- alloc OEmptyProd ;; alloc (ORule [q])) ].

  (** rule/transformators.py 374-410. *)
  Definition bodies_of_ReplaceExtended : list (string * body) :=
    [ ("RepeatableRule", fun visit_ _ item =>
        do r <- attr_rule item ;; do child <- visit_ r ;; do b <- attr_reverse item ;; repeatable_rule child b);
      ("OptionalRule", fun visit_ _ item =>
        do r <- attr_rule item ;; do child <- visit_ r ;; do b <- attr_reverse item ;; optional_rule child b);
      ("RepeatableOptionalRule", fun visit_ _ item =>
        do r <- attr_rule item ;; do child <- visit_ r ;;
        do b <- attr_reverse_repeatable item ;; do c <- attr_reverse_optional item ;;
        repeatable_optional_rule child b c);
      ("MinBoundedRule", fun visit_ _ item =>
        do r <- attr_rule item ;; do child <- visit_ r ;; do m <- attr_min item ;; do b <- attr_reverse item ;;
        do last <- repeatable_rule child b ;;
        new_rule (repeat child (m - 1) ++ [last])%list);
      ("MaxBoundedRule", fun visit_ _ item =>
        do r <- attr_rule item ;; do child <- visit_ r ;; do m <- attr_max item ;; do b <- attr_reverse item ;;
        max_bound child m b);
      ("MinMaxBoundedRule", fun visit_ _ item =>
        do r <- attr_rule item ;; do m <- attr_min item ;; do n <- attr_max item ;; do b <- attr_reverse item ;;
        do child <- visit_ r ;;
        do last <- max_bound child (n - m + 1) b ;;
        new_rule (repeat child (m - 1) ++ [last])%list) ].

  (** rule/bnf.py 102-150. *)
  Definition raise_TypeError : body := fun _ _ _ => raise TypeError.
  Definition wrapper_of_BNF : body := fun visit_ _ item =>
    do r <- attr_rule item ;;
    do o <- get r ;;
    if isinstance_of o ["ForwardRule"] then lift r
    else
      do shared <- is_shared parents r ;;
      do r' <- visit_ r ;;
      if shared then lift r' else ret r'.
  Definition bodies_of_BNF : list (string * body) :=
    [ ("OrRule", raise_TypeError); ("ExtendedRule", raise_TypeError); ("EmptyRule", raise_TypeError);
      ("Rule", fun visit_ _ item =>
        do ps <- attr_productions item ;; do ps' <- mapMM visit_ ps ;; alloc (OBNF ps' no_attributes));
      ("WrapperRule", wrapper_of_BNF);
      ("NamedRule", fun visit_ p item =>
        do n <- attr_name item ;; do r <- wrapper_of_BNF visit_ p item ;; set_name n r);
      ("InterpretationRule", fun visit_ p item =>
        do i <- attr_interpretator item ;; do r <- wrapper_of_BNF visit_ p item ;; set_interpretator i r);
      ("RelationRule", fun visit_ p item =>
        do x <- attr_relation item ;; do r <- wrapper_of_BNF visit_ p item ;; set_relation x r);
      ("PipelineRule", fun _ _ item =>
        do pl <- attr_pipeline item ;; do b <- lift_res (pipe_bnf pl) ;; new_pipeline bnf_lines b) ].

  Fixpoint body_in (l : list (string * body)) (name : string) : option body :=
    match l with
    | [] => None
    | (n, b) :: l' => if name =? n then Some b else body_in l' name
    end.
  Definition body_of (owner name : string) : option body :=
    if owner =? "RuleTransformator" then body_in bodies_of_RuleTransformator name
    else if owner =? "SquashExtendedTransformator" then body_in bodies_of_Squash name
    else if owner =? "FlattenTransformator" then body_in bodies_of_Flatten name
    else if owner =? "ReplaceOrTransformator" then body_in bodies_of_ReplaceOr name
    else if owner =? "ReplaceEmptyTransformator" then body_in bodies_of_ReplaceEmpty name
    else if owner =? "ReplaceExtendedTransformator" then body_in bodies_of_ReplaceExtended name
    else if owner =? "BNFTransformator" then body_in bodies_of_BNF name
    else None.

  (** rule/transformators.py 73, visitor.py 6-14: [self.resolve_method(item)(item)].  The methods of
      the visitors above are all those of [yargy_methods] (the theorems rely on it), so that a
      method without a body is never chosen. *)
  Definition resolved : body := fun visit_ p item =>
    match resolve self (class_of item) with
    | Some (owner, name) =>
        match body_of owner name with
        | Some b => b visit_ p item
        | None => no_fuel
        end
    | None => raise ValueError
    end.

  (** ** Passes that change the objects (rule/transformators.py 35-55, 145-158; rule/bnf.py 153-170) *)
  Variable activate_pred : pred -> res pred.
  Variable activate_pipe : pipe -> res pipe.
  Definition forward_of_RemoveForward (r : nat) : M nat :=
    do item <- get r ;;
    match item with
    | OForward (Some r') => ret r'
    | OForward None => raise TypeError
    | _ => raise AttributeError
    end.
  (** [self.visit_term]: the term may be a production (rule/bnf.py 160-162). *)
  Definition inplace_term (t : term pred) : M (term pred) :=
    match method_owner yargy_depth yargy_classes yargy_methods self "term" with
    | Some owner =>
        if owner =? "ActivateTransformator" then
          match t with TPred x => do y <- lift_res (activate_pred x) ;; ret (TPred y) | TRule _ => ret t end
        else if owner =? "RemoveForwardTransformator" then
          match t with
          | TRule r =>
              do item <- get r ;;
              if isinstance_of item ["ForwardRule"] then do r' <- forward_of_RemoveForward r ;; ret (TRule r')
              else ret t
          | TPred _ => ret t
          end
        else if owner =? "InplaceRuleTransformator" then ret t
        else raise AttributeError
    | None => raise AttributeError
    end.
  Definition set_terms (o : obj) (ts : list (term pred)) : obj :=
    match o with OProd _ main => OProd ts main | o => o end.
  Definition set_productions (o : obj) (ps : list nat) : obj :=
    match o with ORule _ => ORule ps | OBNF _ a => OBNF ps a | OPipeBNF b _ a => OPipeBNF b ps a | o => o end.
  Definition pointers (ts : list (term pred)) : list nat :=
    flat_map (fun t => match t with TRule r => [r] | TPred _ => [] end) ts.
  Definition inplace_body := nat -> obj -> M nat.
  Definition inplace_bodies (owner : string) : list (string * inplace_body) :=
    if owner =? "InplaceRuleTransformator" then
      [ ("Production", fun p item =>
          do ts <- attr_terms item ;; do ts' <- mapMM inplace_term ts ;; do _ <- put p (set_terms item ts') ;; ret p);
        ("EmptyProduction", fun p _ => ret p); ("PipelineProduction", fun p _ => ret p); ("Rule", fun p _ => ret p) ]
    else if owner =? "ActivateTransformator" then
      [ ("PipelineRule", fun p item =>
          do pl <- attr_pipeline item ;; do pl' <- lift_res (activate_pipe pl) ;; do _ <- put p (OPipeline pl') ;; ret p) ]
    else if owner =? "RemoveForwardTransformator" then
      [ ("BNFRule", fun p item =>
          do ps <- attr_productions item ;;
          do ts <- mapMM inplace_term (map TRule ps) ;;
          do _ <- put p (set_productions item (pointers ts)) ;; ret p);
        ("ForwardRule", fun p _ => forward_of_RemoveForward p);
        ("PipelineBNFRule", fun p _ => ret p) ]
    else [].
  Fixpoint inplace_in (l : list (string * inplace_body)) (name : string) : option inplace_body :=
    match l with
    | [] => None
    | (n, b) :: l' => if name =? n then Some b else inplace_in l' name
    end.
  (** visitor.py 16-17. *)
  Definition resolved_inplace (p : nat) : M nat :=
    do item <- get p ;;
    match resolve self (class_of item) with
    | Some (owner, name) =>
        match inplace_in (inplace_bodies owner) name with
        | Some b => b p item
        | None => no_fuel
        end
    | None => raise ValueError
    end.
End Bodies.

(** ** The passes one after the other *)
Section Composition.
  Context {pred pipe bnf : Type}.
  Variable bnf_class : bnf -> string.
  Variable pipe_bnf : pipe -> res bnf.
  Variable bnf_lines : bnf -> list (str * list pred).
  Variable activate_pred : pred -> res pred.
  Variable activate_pipe : pipe -> res pipe.

  (** [transformator()(item)]: the [__call__] of the class (rule/transformators.py 36-39, 62-66;
      rule/bnf.py 94-100). *)
  Definition call (self : string) (fuel : nat) (h : heap pred pipe bnf) (root : nat) : option (res (nat * heap pred pipe bnf)) :=
    if isinstance self "InplaceRuleTransformator" then
      run_inplace (resolved_inplace bnf_class self activate_pred activate_pipe) fuel h root
    else if isinstance self "BNFTransformator" then
      match bfs fuel h root with
      | Some objects => run_visit (resolved bnf_class self fuel (count_parents h objects) pipe_bnf bnf_lines) fuel h root
      | None => None
      end
    else if isinstance self "RuleTransformator" then
      run_visit (resolved bnf_class self fuel [] pipe_bnf bnf_lines) fuel h root
    else None.
  (** visitor.py 26-29. *)
  Fixpoint composition (transformators : list string) (fuel : nat) (h : heap pred pipe bnf) (root : nat)
    : option (res (nat * heap pred pipe bnf)) :=
    match transformators with
    | [] => Some (Ok (root, h))
    | self :: rest => then_ (call self fuel h root) (fun '(r, h) => composition rest fuel h r)
    end.
  (** rule/constructors.py 111-117 and 129-132; parser.py 252-255. *)
  Definition normalized_passes : list string :=
    ["SquashExtendedTransformator"; "ReplaceExtendedTransformator"; "ReplaceOrTransformator";
     "ReplaceEmptyTransformator"; "FlattenTransformator"].
  Definition activate_passes : list string := ["ActivateTransformator"].
  Definition bnf_passes : list string := ["BNFTransformator"].
  Definition remove_forward_passes : list string := ["RemoveForwardTransformator"].
End Composition.
