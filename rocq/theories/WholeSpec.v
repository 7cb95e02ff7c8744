(** Rules that are not a part of themselves. *)
From Verif Require Import Base EarleyModel RuleModel RuleSpec.

(** A rule made by rule(..), or_(..), .named(..), .interpretation(..), .match(..) or of a
    dictionary: not a forward rule, an optional or a repeated one. *)
Definition lasting {pred pipe bnf} (o : obj pred pipe bnf) : Prop :=
  match o with ORule _ | OOr _ | ONamed _ _ | OInterp _ _ | ORelation _ _ | OPipeline _ => True | _ => False end.
(** Such a rule that is not a part of itself. *)
Definition settled {pred pipe bnf} (h : list (obj pred pipe bnf)) (root : nat) : Prop :=
  (exists o, nth_error h root = Some o /\ lasting o) /\ alone h root.

(** The start rule is used only by itself, as the last term: what repeated rules are converted
    into. *)
Definition start_last {token pred} (g : grammar token pred) : Prop :=
  forall r q us vs, In q (g_prods g r) -> g_terms g q = us ++ TRule (g_start g) :: vs -> vs = [] /\ r = g_start g.
