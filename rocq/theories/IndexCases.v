(** The lookup of a morph_pipeline changes the parses of a rule with an optional part. *)
From Coq Require String. Import String.StringSyntax.
From Verif Require Import Base TokenModel EarleyModel EarleySpec PredicateModel PipelineModel PipelineSpec ParserModel ParserSpec PipelineTheorems PredicateCases Cases
  RuleModel RuleSpec RuleBuild GrammarModel RuleCases.
Open Scope nat_scope.

(** Sets iterated from the last element to the first. *)
Definition last_seen (l : list str) : list str := rev (first_seen l).
Lemma last_seen_iterates : set_iteration last_seen.
Proof. intros l. unfold last_seen. destruct (first_seen_iterates l) as [N I]. split; [apply NoDup_rev, N|]. intros x. rewrite <- in_rev. apply I. Qed.
(** metal = morph_pipeline(['steel', 'steels']); end = rule('x').optional(); y = rule('y');
    or_(rule(or_(or_(metal, y), y), end), or_(or_(rule(metal, end), y), y)) *)
Definition metal_program : list rule_call :=
  [CPipeline (scheme Morph [str_of "steel"; str_of "steels"]); CRule [W "x"]; COptional 2 false; CRule [W "y"]; COr [0; 5]; COr [6; 5]; CRule [R 7; R 3];
   CRule [R 0; R 3]; COr [11; 5]; COr [12; 5]; COr [9; 13]].
(** The productions of a derivation, from the root to the leaves. *)
Fixpoint productions_used {pred} (d : dtree pred) : list nat := match d with DLeaf _ _ => [] | DNode _ q ds => q :: flat_map productions_used ds end.
Definition metal_grammar : option (res (grammar token predicate)) := parser_grammar ASCII last_seen small_context 200 (program metal_program) 14.
(** Some parse without the lookup uses productions that no parse with the lookup uses. *)
Definition unseen (a b : list (node token predicate * (nat * nat))) : bool :=
  existsb (fun y => (fst (snd y) =? 0) && (snd (snd y) =? 1) &&
    negb (existsb (fun x => if list_eq_dec Nat.eq_dec (productions_used (erase (fst x))) (productions_used (erase (fst y))) then true else false) a)) b.
Lemma metal_differs : match metal_grammar with
  | Some (Ok g) => match parse (accepts ASCII) narrow g 200 [steel] true, parse (accepts ASCII) narrow (without_index g) 200 [steel] true with
                   | Some a, Some b => unseen a b = true | _, _ => False end
  | _ => False end.
Proof. vm_compute. reflexivity. Qed.
Lemma morph_parses_refute : exists U set_order c fuel h root g toks trees trees' d,
  set_iteration set_order /\ built h /\ flat h root /\ is_rule_at h root /\ parser_grammar U set_order c fuel h root = Some (Ok g) /\
  parse (accepts U) narrow g fuel toks true = Some trees /\ parse (accepts U) narrow (without_index g) fuel toks true = Some trees' /\
  (exists n, In (n, (0, 1)) trees' /\ erase n = d) /\ ~ exists n, In (n, (0, 1)) trees /\ erase n = d.
Proof.
  pose proof metal_differs as K.
  destruct metal_grammar as [[g|]|] eqn:E; try contradiction.
  destruct (parse (accepts ASCII) narrow g 200 [steel] true) as [trees|] eqn:P; try contradiction.
  destruct (parse (accepts ASCII) narrow (without_index g) 200 [steel] true) as [trees'|] eqn:P'; try contradiction.
  unfold unseen in K. apply existsb_exists in K as ((n & (i & j)) & In1 & K). cbn [fst snd] in K.
  apply andb_prop in K as [K N]. apply andb_prop in K as [I1 J1]. apply Nat.eqb_eq in I1, J1. subst i j.
  exists ASCII, last_seen, small_context, 200, (program metal_program), 14, g, [steel], trees, trees', (erase n).
  split; [apply last_seen_iterates|]. split; [apply program_built; reflexivity|]. split; [apply flatb_true; reflexivity|]. split; [apply is_rule_atb_true; reflexivity|]. split; [exact E|]. split; [exact P|]. split; [exact P'|].
  split; [exists n; auto|]. intros (m & Im & Em). apply Bool.negb_true_iff in N.
  rewrite <- Bool.not_true_iff_false in N. apply N. apply existsb_exists. exists (m, (0, 1)). split; [exact Im|]. cbn [fst]. rewrite Em.
  destruct list_eq_dec; [reflexivity|contradiction].
Qed.
