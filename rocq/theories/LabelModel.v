(** Model of the labels and of the text of a grammar: the properties [label] of predicates,
    relations, interpretators and rules, [__str__] of productions and rules, [BNF.source]. *)
From Coq Require String.
From Verif Require Import Base TokenModel EarleyModel PredicateModel PipelineModel RuleModel GrammarModel DotTextModel.
Import String.StringSyntax.
Open Scope nat_scope.

(** [function.__name__]: functools.partial and other callable objects have none. *)
Definition name_attribute (name : option str) : res str :=
  match name with Some n => Ok n | None => Err AttributeError end.

(** record.py 25-36: [Record.__repr__], the values already printed. *)
Definition record_text (name : str) (attributes : list (str * str)) : str :=
  name ++ str_of "(" ++ join_with (str_of ", ") (map (fun x => fst x ++ str_of "=" ++ snd x) attributes) ++ str_of ")".
(** A name with its arguments in brackets. *)
Definition call_text (name : str) (arguments : list str) : str :=
  name ++ str_of "(" ++ join_with (str_of ", ") arguments ++ str_of ")".

Section Predicates.
  (** [repr] of a str and of an int. *)
  Variable repr : str -> str.
  Variable repr_int : Z -> str.
  (** The name of a function given to [custom]. *)
  Variable function_name : (str -> res bool) -> option str.
  (** [repr] of classes of the user and of [custom] before [activate]. *)
  Variable repr_other : predicate -> str.
  Definition parameter (class : str) (value : str) : str := record_text class [(str_of "value", value)].
  (** predicates/constructors.py 41-43, 77-82, 108-112; predicates/bank.py 173-175, 264-266, 288-290,
      329-331, 345-347, 382-384, 408-410, 429-431, 503-507. *)
  Fixpoint pred_label (p : predicate) : res str :=
    match p with
    | PTrue => Ok (record_text (str_of "true") [])
    | PIsLower => Ok (record_text (str_of "is_lower") [])
    | PIsUpper => Ok (record_text (str_of "is_upper") [])
    | PIsTitle => Ok (record_text (str_of "is_title") [])
    | PIsCapitalized => Ok (record_text (str_of "is_capitalized") [])
    | PEq v => Ok (str_of "'" ++ v ++ str_of "'")
    | PLengthEq n => Ok (parameter (str_of "length_eq") (repr_int n))
    | PGte n => Ok (parameter (str_of "gte") (repr_int n))
    | PLte n => Ok (parameter (str_of "lte") (repr_int n))
    | PCaseless v => Ok (parameter (str_of "caseless") (repr v))
    | PIn _ => Ok (str_of "in_(...)")
    | PInCaseless _ => Ok (str_of "in_caseless(...)")
    | SNormalized v => Ok (parameter (str_of "normalized") (repr v))
    | SDictionary _ | PDictionary _ => Ok (str_of "dictionary(...)")
    | SGram v => Ok (parameter (str_of "gram") (repr v))
    | PGram v => Ok (str_of "gram('" ++ v ++ str_of "')")
    | SType v => Ok (parameter (str_of "type") (repr v))
    | PType v => Ok (call_text (str_of "type") [repr v])
    | STag v => Ok (parameter (str_of "tag") (repr v))
    | PTag v => Ok (call_text (str_of "tag") [repr v])
    | PIsSingle => Ok (record_text (str_of "is_single") [])
    | PCustom f _ => let! n := name_attribute (function_name f) in Ok (call_text (str_of "custom") [n])
    | SCustom _ _ | PUser _ => Ok (repr_other p)
    | PAnd ps => let! ls := mapM pred_label ps in Ok (call_text (str_of "and_") ls)
    | POr ps => let! ls := mapM pred_label ps in Ok (call_text (str_of "or_") ls)
    | PNot q => let! l := pred_label q in Ok (call_text (str_of "not_") [l])
    end.
End Predicates.

(** relations/constructors.py 21-23, 46-51, 75-79; relations/bank.py 14, 36, 55, 68.  The last case
    is a class of the user with the label it has. *)
Inductive relation_syntax :=
| Gender | Number | Case | Gnc
| RelAnd (relations : list relation_syntax)
| RelOr (relations : list relation_syntax)
| RelNot (r : relation_syntax)
| RelUser (label : str).
Fixpoint relation_text (r : relation_syntax) : str :=
  match r with
  | Gender => str_of "gender"
  | Number => str_of "number"
  | Case => str_of "case"
  | Gnc => str_of "gnc"
  | RelAnd l => call_text (str_of "and_") (map relation_text l)
  | RelOr l => call_text (str_of "or_") (map relation_text l)
  | RelNot r => call_text (str_of "not_") [relation_text r]
  | RelUser label => label
  end.

(** The arguments of normalizers that labels look at: functions by their names, values by
    their [repr], grams in the order of iteration; [inflected()] has no grams
    (interpretation/normalizer.py 38-39). *)
Inductive morph_syntax := LNormalized | LInflected (grams : option (list str)).
Inductive normalizer_syntax :=
| LMorph (m : morph_syntax)
| LConst (value : str)
| LFunction (f : option str)
| LFunctionFunction (first second : option str)
| LMorphFunction (m : morph_syntax) (f : option str).
(** interpretation/normalizer.py 20, 50-54: [', '.join(None)] raises TypeError. *)
Definition morph_text (m : morph_syntax) : res str :=
  match m with
  | LNormalized => Ok (str_of "normalized()")
  | LInflected (Some grams) => Ok (call_text (str_of "inflected") grams)
  | LInflected None => Err TypeError
  end.
(** interpretation/normalizer.py 70-74, 93-97, 111-116, 130-135. *)
Definition normalizer_text (n : normalizer_syntax) : res str :=
  match n with
  | LMorph m => morph_text m
  | LConst v => Ok (call_text (str_of "const") [v])
  | LFunction f => let! n := name_attribute f in Ok (call_text (str_of "custom") [n])
  | LFunctionFunction f f' =>
      let! n := name_attribute f in let! n' := name_attribute f' in
      Ok (call_text (str_of "custom") [n] ++ str_of "." ++ call_text (str_of "custom") [n'])
  | LMorphFunction m f => let! t := morph_text m in let! n := name_attribute f in Ok (t ++ str_of "." ++ n)
  end.
(** interpretation/interpretator.py 150-152, 180-182, 208-210, 224-229; interpretation/attribute.py
    49-54. *)
Inductive interpretator_syntax :=
| LFact (fact : str)
| LAttribute (fact name : str)
| LNormalizer (n : normalizer_syntax)
| LAttributeNormalizer (fact name : str) (n : normalizer_syntax).
Definition attribute_text (fact name : str) : str := fact ++ str_of "." ++ name.
Definition interpretator_text (i : interpretator_syntax) : res str :=
  match i with
  | LFact fact => Ok fact
  | LAttribute fact name => Ok (attribute_text fact name)
  | LNormalizer n => normalizer_text n
  | LAttributeNormalizer fact name n => let! t := normalizer_text n in Ok (attribute_text fact name ++ str_of "." ++ t)
  end.

Section Rules.
  Variable label_of_pred : predicate -> res str.
  Variable label_of_interp : nat -> res str.
  Variable label_of_relation : nat -> str.
  Variable h : rule_heap.
  (** rule/bnf.py 61-71: [BNFRule.label]; None when there is no name.  [format] prints
      None as text.  Other rules have no label. *)
  Definition rule_label (r : nat) : res (option str) :=
    match nth_error h r with
    | Some o =>
        match get_attributes o with
        | Some a =>
            let! name := match a_interp a with
                         | Some i => let! l := label_of_interp i in Ok (Some l)
                         | None => Ok (a_name a)
                         end in
            match a_relation a with
            | Some ro => Ok (Some (match name with Some n => n | None => str_of "None" end ++ str_of "^" ++ label_of_relation ro))
            | None => Ok name
            end
        | None => Err AttributeError
        end
    | None => Err AttributeError
    end.
  Definition term_label (t : term predicate) : res (option str) :=
    match t with
    | TPred p => let! l := label_of_pred p in Ok (Some l)
    | TRule r => rule_label r
    end.
  (** [label] where a str is needed. *)
  Definition needed (l : option str) : res str := match l with Some s => Ok s | None => Err TypeError end.
  (** rule/constructors.py 41-46 from the term with number [i] on. *)
  Fixpoint term_texts (main i : nat) (ts : list (term predicate)) : res (list (option str)) :=
    match ts with
    | [] => Ok []
    | t :: ts' =>
        let! l := term_label t in
        let! l := (if (0 <? main) && (main =? i) then let! s := needed l in Ok (Some (str_of "^" ++ s)) else Ok l) in
        let! ls := term_texts main (S i) ts' in Ok (l :: ls)
    end.
  (** rule/constructors.py 40-47. *)
  Definition terms_text (main : nat) (ts : list (term predicate)) : res str :=
    let! ls := term_texts main 0 ts in let! ss := mapM needed ls in Ok (join_with (str_of " ") ss).
  (** rule/constructors.py 40-47, 54-55. *)
  Definition production_text (q : nat) : res str :=
    match nth_error h q with
    | Some (OProd ts main) => terms_text main ts
    | Some OEmptyProd => Ok (str_of "e")
    | Some (OPipeProd _ ps) => terms_text 0 (map TPred ps)
    | _ => Err AttributeError
    end.
  Definition abbr (k : kind) : str :=
    match k with
    | Exact => str_of "pipeline"
    | Caseless => str_of "caseless_pipeline"
    | Morph => str_of "morph_pipeline"
    end.
  (** rule/bnf.py 73-78; pipelines.py 17, 36-40, 44, 54.  [format] prints a missing label as
      None. *)
  Definition rule_text (r : nat) : res str :=
    match nth_error h r with
    | Some (OBNF ps _) =>
        let! ss := mapM production_text ps in let! l := rule_label r in
        Ok (match l with Some n => n | None => str_of "None" end ++ str_of " -> " ++ join_with (str_of " | ") ss)
    | Some (OPipeBNF b _ _) =>
        let! l := rule_label r in Ok (match l with Some n => n | None => str_of "None" end ++ str_of " -> " ++ abbr (b_kind b))
    | _ => Err AttributeError
    end.
  (** rule/bnf.py 34-37. *)
  Definition source (rules : list nat) : res (list str) := mapM rule_text rules.

  (** rule/transformators.py 412-539: the styles of the drawing of a rule.  A named,
      interpreted or related rule shows what it adds. *)
  Definition plain_style (label : str) : style := [(str_of "label", label)].
  Definition coloured (label color : str) : style := [(str_of "label", label); (str_of "fillcolor", color)].
  Definition BLUE := str_of "#aec7e8".
  Definition ORANGE := str_of "#ffbb78".
  Definition GREEN := str_of "#dbdb8d".
  Definition RED := str_of "#ff9896".
  Definition PURPLE := str_of "#f7b6d2".
  Definition pipeline_label (p : pipeline) : str :=
    match p with
    | Pipeline _ => str_of "Pipeline"
    | CaselessPipeline _ => str_of "CaselessPipeline"
    | MorphPipeline _ => str_of "MorphPipeline"
    | PipelineScheme _ => str_of "[pipeline]"
    | CaselessPipelineScheme _ => str_of "[caseless_pipeline]"
    | MorphPipelineScheme _ => str_of "[morph_pipeline]"
    end.
  Definition object_style (p : nat) (o : obj predicate pipeline pipeline_bnf) : res style :=
    match o with
    | ORule _ => Ok (coloured (str_of "Rule") BLUE)
    | OOr _ => Ok (coloured (str_of "Or") BLUE)
    | OOptional _ _ => Ok (coloured (str_of "Optional") ORANGE)
    | ORepeatable _ _ => Ok (coloured (str_of "Repeatable") ORANGE)
    | ORepOpt _ _ _ => Ok (coloured (str_of "RepeatableOptional") ORANGE)
    | OMin _ min _ => Ok (coloured (str_of "MinBounded >=" ++ digits min) ORANGE)
    | OMax _ max _ => Ok (coloured (str_of "MaxBounded <=" ++ digits max) ORANGE)
    | OMinMax _ min max _ => Ok (coloured (str_of "MinMaxBounded [" ++ digits min ++ str_of ", " ++ digits max ++ str_of "]") ORANGE)
    | ONamed _ name => Ok (coloured name RED)
    | OInterp _ i => let! l := label_of_interp i in Ok (coloured l GREEN)
    | ORelation _ ro => Ok (coloured (label_of_relation ro) PURPLE)
    | OForward _ => Ok (coloured (str_of "Forward") PURPLE)
    | OEmpty => Ok (plain_style (str_of "Empty"))
    | OPipeline p => Ok (coloured (pipeline_label p) PURPLE)
    | OBNF _ _ | OPipeBNF _ _ _ => let! l := rule_label p in let! s := needed l in Ok (coloured s GREEN)
    | OProd _ _ => Ok (coloured (str_of "Production") BLUE)
    | OEmptyProd => Ok (plain_style (str_of "EmptyProduction"))
    | OPipeProd _ _ => Ok (coloured (str_of "PipelineProduction") BLUE)
    end.
End Rules.

(** [Parser.rule] as a grammar (parser.py 252-255): the heap afterwards and its rules. *)
Definition parser_rules (U : unicode) (set_order : list str -> list str) (c : context) (fuel : nat) (h : rule_heap) (root : nat) : option (res (list nat * rule_heap)) :=
  then_ (build_rule U set_order c fuel h root) (fun '(r, h') =>
  match bfs fuel h' r with
  | Some objects => Some (Ok (bnf_rules h' objects, h'))
  | None => None
  end).
