(** * C97: how labels are written
    See WrittenSpec for [called] (name(a, b)), [pred_written], [relation_written],
    [normalizer_written], [interpretator_written] (calls joined by dots) and [drawn]. *)
From Coq Require String.
From Verif Require Import Base TokenModel EarleyModel PredicateModel PipelineModel RuleModel GrammarModel DotTextModel LabelModel WrittenSpec WrittenProofs.
Import String.StringSyntax.
Open Scope nat_scope.

(** The function after normalized() or inflected() is written without custom(...). *)
Theorem labels_show_the_calls_refuted : exists n s,
  normalizer_text n = Ok s /\ ~ normalizer_written n s /\ normalizer_written n (str_of "normalized().custom(f)") /\ s = str_of "normalized().f".
Proof. exact function_loses_custom. Qed.
Print Assumptions labels_show_the_calls_refuted.
(** All other labels of normalizers and interpretators show the calls. *)
Theorem normalizer_labels_show_the_calls_partial : forall n s, ~ function_after_morphology n -> (normalizer_text n = Ok s <-> normalizer_written n s).
Proof. exact normalizers_are_written. Qed.
Print Assumptions normalizer_labels_show_the_calls_partial.
Theorem interpretator_labels_show_the_calls_partial : forall i s,
  (forall n, normalizer_of i = Some n -> ~ function_after_morphology n) -> (interpretator_text i = Ok s <-> interpretator_written i s).
Proof. exact interpretators_are_written. Qed.
Print Assumptions interpretator_labels_show_the_calls_partial.
Example chain_case :
  let n := LFunctionFunction (Some (str_of "int")) (Some (str_of "abs")) in
  ~ function_after_morphology n /\ normalizer_text n = Ok (str_of "custom(int).custom(abs)") /\
  interpretator_text (LAttributeNormalizer (str_of "Date") (str_of "day") n) = Ok (str_of "Date.day.custom(int).custom(abs)") /\
  interpretator_written (LAttributeNormalizer (str_of "Date") (str_of "day") n) (str_of "Date.day.custom(int).custom(abs)").
Proof.
  cbn zeta. assert (N : ~ function_after_morphology (LFunctionFunction (Some (str_of "int")) (Some (str_of "abs")))) by (intros (m & f & E); discriminate).
  split; [exact N|]. split; [reflexivity|]. split; [reflexivity|]. apply interpretator_labels_show_the_calls_partial; [intros n E; injection E as <-; exact N|reflexivity].
Qed.

(** Labels of predicates. *)
Theorem predicate_labels_are_calls : forall repr repr_int function_name repr_other p l,
  pred_label repr repr_int function_name repr_other p = Ok l <-> pred_written repr repr_int function_name repr_other p l.
Proof. exact predicate_written. Qed.
Print Assumptions predicate_labels_are_calls.
Example predicate_label_case : forall repr repr_int function_name repr_other,
  pred_label repr repr_int function_name repr_other (PAnd [PIsTitle; PNot (POr [PGram (str_of "Name"); PEq (str_of "a")]); PIn [str_of "b"]]) =
    Ok (str_of "and_(is_title(), not_(or_(gram('Name'), 'a')), in_(...))") /\
  pred_written repr repr_int function_name repr_other (PAnd [PIsTitle; PNot (POr [PGram (str_of "Name"); PEq (str_of "a")]); PIn [str_of "b"]])
    (str_of "and_(is_title(), not_(or_(gram('Name'), 'a')), in_(...))") /\
  forall v, pred_label repr repr_int function_name repr_other (PGte v) = Ok (str_of "gte(value=" ++ repr_int v ++ str_of ")").
Proof. intros. split; [reflexivity|]. split; [apply predicate_labels_are_calls; reflexivity|]. intros v. reflexivity. Qed.

(** Labels of relations. *)
Theorem relation_labels_are_calls : forall r l, relation_text r = l <-> relation_written r l.
Proof. exact relations_are_written. Qed.
Print Assumptions relation_labels_are_calls.
Example relation_label_case :
  relation_text (RelOr [RelAnd [Gender; Number]; RelNot Case]) = str_of "or_(and_(gender, number), not_(case))" /\
  relation_written (RelOr [RelAnd [Gender; Number]; RelNot Case]) (str_of "or_(and_(gender, number), not_(case))").
Proof. split; [reflexivity|]. apply relation_labels_are_calls. reflexivity. Qed.

(** Text and colour in drawings of rules. *)
Theorem drawings_show_text_and_colour : forall label_of_interp label_of_relation h x o label colour,
  object_style label_of_interp label_of_relation h x o = Ok ((str_of "label", label) :: match colour with Some c => [(str_of "fillcolor", c)] | None => [] end) <->
  drawn label_of_interp label_of_relation (rule_label label_of_interp label_of_relation h) digits x o label colour.
Proof. exact objects_are_drawn. Qed.
Print Assumptions drawings_show_text_and_colour.
Example drawing_case : forall label_of_interp label_of_relation h,
  object_style label_of_interp label_of_relation h 7 (OMinMax 3 2 10 false) = Ok [(str_of "label", str_of "MinMaxBounded [2, 10]"); (str_of "fillcolor", orange)] /\
  drawn label_of_interp label_of_relation (rule_label label_of_interp label_of_relation h) digits 7 (OMinMax 3 2 10 false) (str_of "MinMaxBounded [2, 10]") (Some orange) /\
  object_style label_of_interp label_of_relation h 7 (OPipeline (MorphPipelineScheme [str_of "a"])) = Ok [(str_of "label", str_of "[morph_pipeline]"); (str_of "fillcolor", pink)].
Proof. intros. split; [reflexivity|]. split; [apply drawings_show_text_and_colour; reflexivity|reflexivity]. Qed.
