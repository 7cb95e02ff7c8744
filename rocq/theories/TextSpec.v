(** Specification vocabulary for a Parser applied to a text. *)
From Verif Require Import Base TokenModel EarleyModel PredicateModel PipelineModel TreeSpec ParserModel ParserSpec RuleModel RuleSpec GrammarModel GrammarSpec.
Open Scope nat_scope.

(** A part that is never empty and carries no relation. *)
Definition solid_part (o : obj predicate pipeline pipeline_bnf) : Prop :=
  match o with
  | OOptional _ _ | ORepOpt _ _ _ | OEmpty | OEmptyProd | ORelation _ _ => False
  | OProd terms _ => terms <> []
  | _ => True
  end.
(** A rule all of whose parts are such. *)
Definition solid (h : rule_heap) (root : nat) : Prop :=
  forall x o, reach h root x -> nth_error h x = Some o -> solid_part o.
(** A rule without morphological dictionaries (morph_pipeline). *)
Definition no_morph_pipeline (h : rule_heap) (root : nat) : Prop :=
  forall x p, reach h root x -> nth_error h x = Some (OPipeline p) -> pipeline_kind p <> Morph.

(** Reading [w] comes before [w']: at the first difference it takes the earlier
    alternative (or another line of the same dictionary). *)
Definition earlier {pred} (x y : symbol (pred := pred)) : Prop :=
  match x, y with
  | SAlt i, SAlt j => i < j
  | SLine _, SLine _ => True
  | _, _ => False
  end.
Definition sooner {pred} (w w' : word (pred := pred)) : Prop :=
  exists u x y v v', w = u ++ x :: v /\ w' = u ++ y :: v' /\ earlier x y.

(** A match of tokens accepted by the rule: its tokens are those of the range, its span
    goes from the first one to the last one. *)
Definition match_of (U : unicode) (set_order : list str -> list str) (c : context) (h : rule_heap) (root : nat) (toks : list token)
    (m : amatch (pred := predicate)) : Prop :=
  rule_accepts U set_order c h root toks (fst (m_range m)) (snd (m_range m)) /\
  Forall2 (stands_for_token toks) (seq (fst (m_range m)) (snd (m_range m) - fst (m_range m))) (m_tokens m) /\
  exists a b, nth_error toks (fst (m_range m)) = Some a /\ nth_error toks (snd (m_range m) - 1) = Some b /\
    fst (m_range m) < snd (m_range m) /\ m_span m = (t_start a, t_stop b).
