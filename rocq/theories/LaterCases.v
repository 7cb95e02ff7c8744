(** Cases for what happens to a match after it has been reported. *)
From Coq Require String.
From Verif Require Import Base TokenModel TokenizerModel RelationModel EarleyModel PredicateModel PipelineModel TreeModel ParserModel InterpModel RuleModel RuleBuild GrammarModel TextModel TestsBase TestsInterp LaterModel.
Import String.StringSyntax.
Open Scope nat_scope.

(** LAST = rule(gram('Surn')).interpretation(Name.last.inflected()).match(gnc), FIRST in the same way;
    or_(rule(LAST, FIRST), rule(LAST)).interpretation(Name). *)
Definition first : making nat := let^ f := rule [P (SGram (str_of "Name"))] in let^ f := interpretation f 0 in matching f 0.
Definition last : making nat := let^ l := rule [P (SGram (str_of "Surn"))] in let^ l := interpretation l 1 in matching l 0.
Definition last_name : making nat :=
  let^ f := first in let^ l := last in let^ n := rule [R l; R f] in let^ s := rule [R l] in let^ r := or_ [n; s] in interpretation r 2.
(** or_(rule('передал', LAST, gram('Name')), rule(LAST, FIRST)).interpretation(Name) *)
Definition handed_over : making nat :=
  let^ f := first in let^ l := last in let^ v := rule [W "передал"; R l; P (SGram (str_of "Name"))] in let^ n := rule [R l; R f] in let^ r := or_ [v; n] in interpretation r 2.
Section Cases.
  Variable m : making nat.
  Variable s : String.string.
  (** list(parser.extract(text)): for each match its words, match.fact at once, match.fact in the end. *)
  Definition facts_later : option (res (list (list str * res pyval * res pyval))) :=
    then_ (Some (m [])) (fun '(r, h) =>
    then_ (parser_grammar python seen (context_with sasha) fuel h r) (fun g =>
    then_ (parser_extract_yielded python seen (context_with sasha) gnc fuel h r (text s) true) (fun '(found, sf, _) =>
    let fact st x := let! v := match_fact first_last Nat.eqb python inflected_sasha g (interp_at name_interps) st x in Ok (bare v) in
    Some (Ok (map (fun '(x, st) => (words_of x, fact st x, fact sf x)) found))))).
  (** The same for one attribute of the facts, and how the generator ended. *)
  Definition attrs_later (k : String.string) : option (res (list (res (option pyval) * res (option pyval)) * option exn)) :=
    then_ (Some (m [])) (fun '(r, h) =>
    then_ (parser_grammar python seen (context_with sasha) fuel h r) (fun g =>
    then_ (parser_extract_yielded python seen (context_with sasha) gnc fuel h r (text s) true) (fun '(found, sf, e) =>
    let attr st x := let! v := match_fact first_last Nat.eqb python inflected_sasha g (interp_at name_interps) st x in Ok (value_attr (str_of k) v) in
    Some (Ok (map (fun '(x, st) => (attr st x, attr sf x)) found, e))))).
End Cases.
Arguments attrs_later m s%string k%string.
Arguments facts_later m s%string.
Section Found.
  Variable m : making nat.
  Variable s : String.string.
  (** parser.findall(text): for each match the forms of match.tokens, those of the leaves of match.tree, match.fact. *)
  Definition forms_found : option (res (list (list (list str) * list (list str) * res pyval))) :=
    then_ (Some (m [])) (fun '(r, h) =>
    then_ (parser_grammar python seen (context_with sasha) fuel h r) (fun g =>
    then_ (parser_findall python seen (context_with sasha) gnc fuel h r (text s)) (fun '(sf, found) =>
    let forms t := match t_forms t with Some l => map f_normalized l | None => [] end in
    let fact st x := let! v := match_fact first_last Nat.eqb python inflected_sasha g (interp_at name_interps) st x in Ok (bare v) in
    Some (Ok (map (fun x => (map forms (m_tokens x), map forms (tree_tokens sf (m_root x)), fact sf x)) found))))).
End Found.
Arguments forms_found m s%string.
