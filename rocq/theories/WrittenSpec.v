(** How labels are to be written: a name with its arguments in brackets, calls in a row
    joined by dots. *)
From Coq Require String.
From Verif Require Import Base TokenModel EarleyModel PredicateModel PipelineModel RuleModel GrammarModel LabelModel.
Import String.StringSyntax.
Open Scope nat_scope.

(** Texts with ", " or "." between them. *)
Inductive listed (separator : str) : list str -> str -> Prop :=
| listed_none : listed separator [] []
| listed_one x : listed separator [x] x
| listed_more x y l s : listed separator (y :: l) s -> listed separator (x :: y :: l) (x ++ separator ++ s).
Definition comma := str_of ", ".
Definition dot := str_of ".".
(** name(a, b, c) *)
Definition called (name : str) (arguments : list str) (s : str) : Prop :=
  exists inside, listed comma arguments inside /\ s = name ++ 40%N :: inside ++ [41%N].

Section Predicates.
  Variable repr : str -> str.
  Variable repr_int : Z -> str.
  Variable function_name : (str -> res bool) -> option str.
  Variable repr_other : predicate -> str.
  (** The names of the predicates without arguments. *)
  Inductive pred_written : predicate -> str -> Prop :=
  | w_true : pred_written PTrue (str_of "true()")
  | w_lower : pred_written PIsLower (str_of "is_lower()")
  | w_upper : pred_written PIsUpper (str_of "is_upper()")
  | w_title : pred_written PIsTitle (str_of "is_title()")
  | w_capitalized : pred_written PIsCapitalized (str_of "is_capitalized()")
  | w_single : pred_written PIsSingle (str_of "is_single()")
  (** The quotes are not escaped. *)
  | w_eq v : pred_written (PEq v) (39%N :: v ++ [39%N])
  | w_length n : pred_written (PLengthEq n) (str_of "length_eq(value=" ++ repr_int n ++ [41%N])
  | w_gte n : pred_written (PGte n) (str_of "gte(value=" ++ repr_int n ++ [41%N])
  | w_lte n : pred_written (PLte n) (str_of "lte(value=" ++ repr_int n ++ [41%N])
  | w_caseless v : pred_written (PCaseless v) (str_of "caseless(value=" ++ repr v ++ [41%N])
  | w_normalized v : pred_written (SNormalized v) (str_of "normalized(value=" ++ repr v ++ [41%N])
  (** Before and after activation. *)
  | w_gram_scheme v : pred_written (SGram v) (str_of "gram(value=" ++ repr v ++ [41%N])
  | w_type_scheme v : pred_written (SType v) (str_of "type(value=" ++ repr v ++ [41%N])
  | w_tag_scheme v : pred_written (STag v) (str_of "tag(value=" ++ repr v ++ [41%N])
  | w_gram v : pred_written (PGram v) (str_of "gram('" ++ v ++ [39; 41]%N)
  | w_type v : pred_written (PType v) (str_of "type(" ++ repr v ++ [41%N])
  | w_tag v : pred_written (PTag v) (str_of "tag(" ++ repr v ++ [41%N])
  (** Long arguments are not shown. *)
  | w_in vs : pred_written (PIn vs) (str_of "in_(...)")
  | w_in_caseless vs : pred_written (PInCaseless vs) (str_of "in_caseless(...)")
  | w_dictionary vs : pred_written (PDictionary vs) (str_of "dictionary(...)")
  | w_dictionary_scheme vs : pred_written (SDictionary vs) (str_of "dictionary(...)")
  | w_custom f types n : function_name f = Some n -> pred_written (PCustom f types) (str_of "custom(" ++ n ++ [41%N])
  | w_custom_scheme f types : pred_written (SCustom f types) (repr_other (SCustom f types))
  | w_user f : pred_written (PUser f) (repr_other (PUser f))
  | w_and ps ls s : all_written ps ls -> called (str_of "and_") ls s -> pred_written (PAnd ps) s
  | w_or ps ls s : all_written ps ls -> called (str_of "or_") ls s -> pred_written (POr ps) s
  | w_not p l s : pred_written p l -> called (str_of "not_") [l] s -> pred_written (PNot p) s
  with all_written : list predicate -> list str -> Prop :=
  | all_none : all_written [] []
  | all_more p ps l ls : pred_written p l -> all_written ps ls -> all_written (p :: ps) (l :: ls).
End Predicates.

Inductive relation_written : relation_syntax -> str -> Prop :=
| w_gender : relation_written Gender (str_of "gender")
| w_number : relation_written Number (str_of "number")
| w_case : relation_written Case (str_of "case")
| w_gnc : relation_written Gnc (str_of "gnc")
| w_rel_and rs ls s : relations_written rs ls -> called (str_of "and_") ls s -> relation_written (RelAnd rs) s
| w_rel_or rs ls s : relations_written rs ls -> called (str_of "or_") ls s -> relation_written (RelOr rs) s
| w_rel_not r l s : relation_written r l -> called (str_of "not_") [l] s -> relation_written (RelNot r) s
| w_rel_user label : relation_written (RelUser label) label
with relations_written : list relation_syntax -> list str -> Prop :=
| no_relations_written : relations_written [] []
| more_relations_written r rs l ls : relation_written r l -> relations_written rs ls -> relations_written (r :: rs) (l :: ls).

(** The calls a normalizer is made of; [None]: a function without a name, [inflected()]
    without grams. *)
Definition morph_call (m : morph_syntax) : option (str * list str) :=
  match m with
  | LNormalized => Some (str_of "normalized", [])
  | LInflected grams => option_map (fun g => (str_of "inflected", g)) grams
  end.
Definition custom_call (f : option str) : option (str * list str) := option_map (fun n => (str_of "custom", [n])) f.
Definition calls (n : normalizer_syntax) : list (option (str * list str)) :=
  match n with
  | LMorph m => [morph_call m]
  | LConst v => [Some (str_of "const", [v])]
  | LFunction f => [custom_call f]
  | LFunctionFunction f f' => [custom_call f; custom_call f']
  | LMorphFunction m f => [morph_call m; custom_call f]
  end.
Definition chained (l : list (option (str * list str))) (s : str) : Prop :=
  exists texts, Forall2 (fun c t => exists name arguments, c = Some (name, arguments) /\ called name arguments t) l texts /\ listed dot texts s.
Definition normalizer_written (n : normalizer_syntax) (s : str) : Prop := chained (calls n) s.
(** The fact, the attribute and the calls. *)
Definition interpretator_written (i : interpretator_syntax) (s : str) : Prop :=
  match i with
  | LFact fact => s = fact
  | LAttribute fact name => listed dot [fact; name] s
  | LNormalizer n => normalizer_written n s
  | LAttributeNormalizer fact name n => exists t, normalizer_written n t /\ listed dot [fact; name; t] s
  end.
Definition function_after_morphology (n : normalizer_syntax) : Prop := exists m f, n = LMorphFunction m f.
Definition normalizer_of (i : interpretator_syntax) : option normalizer_syntax :=
  match i with LNormalizer n | LAttributeNormalizer _ _ n => Some n | _ => None end.

(** What the drawing of a rule shows of each object: text and colour. *)
Definition blue := str_of "#aec7e8".
Definition orange := str_of "#ffbb78".
Definition green := str_of "#dbdb8d".
Definition red := str_of "#ff9896".
Definition pink := str_of "#f7b6d2".
Section Drawn.
  Variable label_of_interp : nat -> res str.
  Variable label_of_relation : nat -> str.
  Variable label_of_rule : nat -> res (option str).
  (** Decimal digits of the bounds. *)
  Variable number : nat -> str.
  Inductive drawn (x : nat) : obj predicate pipeline pipeline_bnf -> str -> option str -> Prop :=
  | d_rule ps : drawn x (ORule ps) (str_of "Rule") (Some blue)
  | d_or rs : drawn x (OOr rs) (str_of "Or") (Some blue)
  | d_production ts main : drawn x (OProd ts main) (str_of "Production") (Some blue)
  | d_line key ps : drawn x (OPipeProd key ps) (str_of "PipelineProduction") (Some blue)
  | d_optional r rev : drawn x (OOptional r rev) (str_of "Optional") (Some orange)
  | d_repeatable r rev : drawn x (ORepeatable r rev) (str_of "Repeatable") (Some orange)
  | d_repopt r rev rev' : drawn x (ORepOpt r rev rev') (str_of "RepeatableOptional") (Some orange)
  | d_min r m rev : drawn x (OMin r m rev) (str_of "MinBounded >=" ++ number m) (Some orange)
  | d_max r n rev : drawn x (OMax r n rev) (str_of "MaxBounded <=" ++ number n) (Some orange)
  | d_min_max r m n rev s : listed comma [number m; number n] s -> drawn x (OMinMax r m n rev) (str_of "MinMaxBounded [" ++ s ++ [93%N]) (Some orange)
  | d_named r name : drawn x (ONamed r name) name (Some red)
  | d_interp r i l : label_of_interp i = Ok l -> drawn x (OInterp r i) l (Some green)
  | d_bnf ps a l : label_of_rule x = Ok (Some l) -> drawn x (OBNF ps a) l (Some green)
  | d_pipe_bnf b ps a l : label_of_rule x = Ok (Some l) -> drawn x (OPipeBNF b ps a) l (Some green)
  | d_relation r ro : drawn x (ORelation r ro) (label_of_relation ro) (Some pink)
  | d_forward r : drawn x (OForward r) (str_of "Forward") (Some pink)
  | d_pipeline ks : drawn x (OPipeline (Pipeline ks)) (str_of "Pipeline") (Some pink)
  | d_caseless ks : drawn x (OPipeline (CaselessPipeline ks)) (str_of "CaselessPipeline") (Some pink)
  | d_morph ks : drawn x (OPipeline (MorphPipeline ks)) (str_of "MorphPipeline") (Some pink)
  | d_pipeline_scheme ks : drawn x (OPipeline (PipelineScheme ks)) (str_of "[pipeline]") (Some pink)
  | d_caseless_scheme ks : drawn x (OPipeline (CaselessPipelineScheme ks)) (str_of "[caseless_pipeline]") (Some pink)
  | d_morph_scheme ks : drawn x (OPipeline (MorphPipelineScheme ks)) (str_of "[morph_pipeline]") (Some pink)
  | d_empty : drawn x OEmpty (str_of "Empty") None
  | d_empty_production : drawn x OEmptyProd (str_of "EmptyProduction") None.
End Drawn.
