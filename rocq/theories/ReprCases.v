(** Concrete rules that are printed. *)
From Coq Require String.
From Verif Require Import Base TokenModel EarleyModel PredicateModel PredicateSpec PredicateCases PipelineModel PipelineSpec PipelineTheorems RuleModel RuleSpec RuleBuild RuleCalls RuleCases GrammarModel TreeModel ParserModel TextModel DotTextModel LabelModel WrittenSpec ReprModel ReprSpec ReprProofs.
Import String.StringSyntax.
Open Scope nat_scope.

(** rule('a').repeatable() *)
Definition repeated_program : list rule_call := [CRule [W "a"]; CRepeatable 1 None None false].
Definition repeated_parser : nat * rule_heap := match build_rule ASCII first_seen small_context 100 (program repeated_program) 2 with Some (Ok x) => x | _ => (0, []) end.
Lemma repeated_built : build_rule ASCII first_seen small_context 100 (program repeated_program) 2 = Some (Ok repeated_parser).
Proof. vm_compute. reflexivity. Qed.
Lemma repeated_shows : exists y, shows (snd repeated_parser) (fst repeated_parser) y /\ shows (snd repeated_parser) y (fst repeated_parser).
Proof.
  exists 29. split.
  - eexists. split; [vm_compute; reflexivity|]. split; [reflexivity|]. left. reflexivity.
  - eexists. split; [vm_compute; reflexivity|]. split; [reflexivity|]. left. reflexivity.
Qed.
Lemma repeated_circular : circular (snd repeated_parser) (fst repeated_parser).
Proof. destruct repeated_shows as (y & A & B). exists y. split; [exact A|]. apply shows_inside, B. Qed.
Theorem repetition_is_not_printed : exists U set_order c fuel h root r h', set_iteration set_order /\ built h /\ is_rule_at h root /\ build_rule U set_order c fuel h root = Some (Ok (r, h')) /\
  forall pred_repr pipeline_repr interp_repr relation_repr str_repr fuel, repr_rule pred_repr pipeline_repr interp_repr relation_repr str_repr h' fuel r = None.
Proof.
  exists ASCII, first_seen, small_context, 100, (program repeated_program), 2, (fst repeated_parser), (snd repeated_parser). split; [exact first_seen_iterates|]. split; [apply program_built; vm_compute; reflexivity|]. split; [apply is_rule_atb_true; vm_compute; reflexivity|].
  split; [rewrite <- surjective_pairing; exact repeated_built|]. intros. apply circular_never, repeated_circular.
Qed.
(** The same for the tree of the text "a a". *)
Definition root_rule (n : node token predicate) : option nat := match n with Node _ r _ _ _ => Some r | Leaf _ _ _ _ => None end.
Lemma printed_node pred_repr pipeline_repr interp_repr relation_repr str_repr token_repr h n r : root_rule n = Some r -> circular h r ->
  forall fuel, repr_node pred_repr pipeline_repr interp_repr relation_repr str_repr h token_repr fuel n = None.
Proof. destruct n as [|id r' q rank ch]; [discriminate|]. intros E C fuel. injection E as ->. cbn [repr_node]. rewrite circular_never; [reflexivity|exact C]. Qed.
Definition first_root (x : option (res (store * list (@amatch predicate)))) : option nat := match x with Some (Ok (_, m :: _)) => root_rule (m_root m) | _ => None end.
Lemma first_root_some x r : first_root x = Some r -> exists s m ms, x = Some (Ok (s, m :: ms)) /\ root_rule (m_root m) = Some r.
Proof. destruct x as [[[s [|m ms]]|]|]; try discriminate. intros E. exists s, m, ms. auto. Qed.
Lemma repeated_root rel : first_root (parser_findall ASCII first_seen small_context rel 100 (program repeated_program) 2 (str_of "a a")) = Some (fst repeated_parser).
Proof. vm_compute. reflexivity. Qed.
Theorem tree_is_not_printed : exists U set_order c rel fuel h root text r h' s m ms, set_iteration set_order /\ built h /\ is_rule_at h root /\ build_rule U set_order c fuel h root = Some (Ok (r, h')) /\
  parser_findall U set_order c rel fuel h root text = Some (Ok (s, m :: ms)) /\
  forall pred_repr pipeline_repr interp_repr relation_repr str_repr token_repr fuel, repr_node pred_repr pipeline_repr interp_repr relation_repr str_repr h' token_repr fuel (m_root m) = None.
Proof.
  pose (rel := fun (_ : nat) (_ _ : form) => true). destruct (first_root_some _ _ (repeated_root rel)) as (s & m & ms & F & R).
  exists ASCII, first_seen, small_context, rel, 100, (program repeated_program), 2, (str_of "a a"), (fst repeated_parser), (snd repeated_parser), s, m, ms. split; [exact first_seen_iterates|]. split; [apply program_built; vm_compute; reflexivity|]. split; [apply is_rule_atb_true; vm_compute; reflexivity|].
  split; [rewrite <- surjective_pairing; exact repeated_built|]. split; [exact F|]. intros. apply (printed_node _ _ _ _ _ _ _ _ _ R repeated_circular).
Qed.
Definition quoted_text (s : str) : str := 39%N :: s ++ [39%N].
Definition shown_pred (p : predicate) : str := match pred_label quoted_text (fun _ => []) (fun _ => None) (fun _ => []) p with Ok s => s | Err _ => [] end.
(** rule('a') *)
Definition plain_parser : nat * rule_heap := match build_rule ASCII first_seen small_context 100 (program [CRule [W "a"]]) 1 with Some (Ok x) => x | _ => (0, []) end.
Definition first_text (x : option (res (store * list (@amatch predicate)))) : option str := match x with
  | Some (Ok (_, m :: _)) => repr_node shown_pred (fun _ => []) (fun _ => []) (fun _ => []) quoted_text (snd plain_parser) (fun t => quoted_text (t_value t)) 100 (m_root m)
  | _ => None
  end.
