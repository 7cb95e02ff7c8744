(** Cases of rules that are used for several parsers. *)
From Coq Require String.
From Verif Require Import Base TokenModel EarleyModel PredicateModel PredicateCases PipelineModel PipelineSpec PipelineTheorems ParserModel RuleModel RuleSpec RuleBuild RuleBfs GrammarModel TextModel Cases RuleCases TextTheorems SetOrderTheorems RuleCopySpec RuleAgainSpec.
Import String.StringSyntax.
Open Scope nat_scope.

(** ** Decisions *)
Definition parts (h : rule_heap) (root : nat) : list nat := match bfs 100 h root with Some l => l | None => [] end.
Definition has_parts (h : rule_heap) (root : nat) : bool := match bfs 100 h root with Some _ => true | None => false end.
Lemma parts_all h root : has_parts h root = true -> forall p, reach h root p <-> In p (parts h root).
Proof.
  unfold has_parts, parts. intros T p. generalize dependent 100. intros fuel T. destruct (bfs fuel h root) as [l|] eqn:E; [|discriminate]. symmetry. apply (bfs_ok h fuel root l E).
Qed.
Definition plain_ruleb (h : rule_heap) (root : nat) : bool :=
  has_parts h root && forallb (fun p => match nth_error h p with Some (OForward _) | Some (OBNF _ _) | Some (OPipeBNF _ _ _) | None => false | Some _ => true end) (parts h root).
Lemma plain_ruleb_true h root : plain_ruleb h root = true -> plain_rule h root.
Proof.
  unfold plain_ruleb. intros T p R. apply andb_true_iff in T as [T F]. apply (parts_all h root T) in R. rewrite forallb_forall in F. specialize (F p R). destruct (nth_error h p) as [o|]; [|discriminate]. destruct o; try discriminate; exact I.
Qed.
Definition own_forwardsb (h : rule_heap) (done : list nat) (root : nat) : bool :=
  has_parts h root && forallb (has_parts h) done &&
  forallb (fun p => match nth_error h p with Some (OForward _) => forallb (fun r => negb (is_in p (parts h r))) done | _ => true end) (parts h root).
Lemma own_forwardsb_true h done root : own_forwardsb h done root = true -> own_forwards h done root.
Proof.
  unfold own_forwardsb. intros T p d R E r Hr Rr. apply andb_true_iff in T as [T F]. apply andb_true_iff in T as [T Td]. apply (parts_all h root T) in R. rewrite forallb_forall in F, Td. specialize (F p R). rewrite E in F.
  rewrite forallb_forall in F. specialize (F r Hr). specialize (Td r Hr). apply (parts_all h r Td) in Rr. apply negb_true_iff in F. assert (K : is_in p (parts h r) = true) by (unfold is_in; apply existsb_exists; exists p; rewrite Nat.eqb_refl; auto). congruence.
Qed.
(** The same rule, every object [k] places later. *)
Fixpoint same_objects (k : nat) (h : rule_heap) (h' : rule_heap) (ps : list nat) : Prop :=
  match ps with
  | [] => True
  | p :: ps' => (exists o, nth_error h p = Some o /\ nth_error h' (p + k) = Some (moved_obj (fun q => q + k) o)) /\ same_objects k h h' ps'
  end.
Lemma same_rule_later k h root h' : has_parts h root = true -> same_objects k h h' (parts h root) -> same_rule h root h' (root + k).
Proof.
  intros T S. exists (fun q => q + k). split; [reflexivity|]. split; [intros; lia|]. intros p R. apply (parts_all h root T) in R. induction (parts h root) as [|x l IH]; [destruct R|]. destruct S as [Sx Sl]. destruct R as [->|R]; [exact Sx|auto].
Qed.

(** ** A rule without forward rules that is used twice, also within a rule made later *)
Definition pair_program : list rule_call := [CRule [W "x"]; CRepeatable 1 (Some 1%Z) (Some 2%Z) false; CRule [R 2; Plain (TPred (SNormalized both_word))]; CInterpretation 4 3].
Definition pair_heap : rule_heap := Eval vm_compute in program pair_program.
Definition built_heap (x : option (res (nat * rule_heap))) : rule_heap := match x with Some (Ok (_, h)) => h | _ => [] end.
Definition pair_heap1 : rule_heap := Eval vm_compute in built_heap (build_rule ASCII first_seen russian 100 pair_heap 5).
Definition pair_heap2 : rule_heap := Eval vm_compute in pair_heap1 ++ [ORepeatable 5 false].
Definition pair_heap3 : rule_heap := Eval vm_compute in built_heap (build_rule ASCII first_seen russian 100 pair_heap2 (length pair_heap1)).
Lemma build_data U order c fuel h root h1 : (match build_rule U order c fuel h root with Some (Ok (_, h2)) => h2 = h1 | _ => False end) -> exists r, build_rule U order c fuel h root = Some (Ok (r, h1)).
Proof. destruct (build_rule U order c fuel h root) as [[[r h2]|]|]; try contradiction. intros ->. eauto. Qed.
Lemma pair_history : history russian pair_heap pair_heap3.
Proof.
  destruct (build_data ASCII first_seen russian 100 pair_heap 5 pair_heap1) as (r & B); [vm_compute; reflexivity|].
  destruct (build_data ASCII first_seen russian 100 pair_heap2 (length pair_heap1) pair_heap3) as (r' & B'); [vm_compute; reflexivity|].
  eapply history_parser; [change pair_heap2 with (pair_heap1 ++ [ORepeatable 5 false]); eapply history_new; eapply history_parser; [apply history_start| |exact B]| |exact B']; apply plain_ruleb_true; vm_compute; reflexivity.
Qed.

(** ** Two rules with forward rules of their own and a common part *)
Definition twins_program : list rule_call := expr_program ++ [CForward; CRule [W "["; R 9; W "]"]; COr [2; 11]; CDefine 9 12].
Definition twins_heap : rule_heap := Eval vm_compute in program twins_program.
Definition twins_heap1 : rule_heap := Eval vm_compute in built_heap (build_rule ASCII first_seen small_context 100 twins_heap 0).
Lemma twins_constructed : constructed small_context twins_heap [0] twins_heap1.
Proof.
  destruct (build_data ASCII first_seen small_context 100 twins_heap 0 twins_heap1) as (r & B); [vm_compute; reflexivity|].
  eapply constructed_more; [apply constructed_none| | | |exact B]; [apply is_rule_atb_true; reflexivity|apply (flatb_true twins_heap); reflexivity|intros p d _ _ x []].
Qed.
Definition found_in (c : context) (h : rule_heap) (root : nat) (text : str) := ranges_of (parser_findall ASCII first_seen c no_relations 100 h root text).

(** ** Another tokenizer: the predicates stay those of the first one *)
Definition other_russian : context := mkContext small_tokenizer (Some (mkMorph (fun w => if str_eqb w noun_word then [verb_reading] else []) (fun _ => true))) (c_tagger russian).
Definition word_heap : rule_heap := Eval vm_compute in program [CRule [Plain (TPred (SNormalized noun_word))]].
Definition word_heap1 : rule_heap := Eval vm_compute in built_heap (build_rule ASCII first_seen russian 100 word_heap 1).
Lemma tokenizers_refute : exists U order c c' rel fuel h root r h1 text,
  set_iteration order /\ built h /\ plain_rule h root /\ is_rule_at h root /\ build_rule U order c fuel h root = Some (Ok (r, h1)) /\
  ~ same_results U order c' rel fuel h root h1 root text.
Proof.
  destruct (build_data ASCII first_seen russian 100 word_heap 1 word_heap1) as (r & B); [vm_compute; reflexivity|].
  exists ASCII, first_seen, russian, other_russian, no_relations, 100, word_heap, 1, r, word_heap1, noun_word.
  split; [exact first_seen_iterates|]. split; [apply (program_built [CRule [Plain (TPred (SNormalized noun_word))]]); reflexivity|]. split; [apply plain_ruleb_true; vm_compute; reflexivity|]. split; [apply is_rule_atb_true; reflexivity|]. split; [exact B|].
  intros [F _].
  assert (K : ranges_of (parser_findall ASCII first_seen other_russian no_relations 100 word_heap 1 noun_word) = ranges_of (parser_findall ASCII first_seen other_russian no_relations 100 word_heap1 1 noun_word)).
  { destruct (parser_findall ASCII first_seen other_russian no_relations 100 word_heap 1 noun_word) as [[[s ms]|e]|], (parser_findall ASCII first_seen other_russian no_relations 100 word_heap1 1 noun_word) as [[[s' ms']|e']|]; try contradiction; cbn in F |- *.
    - destruct F as (_ & g & g' & _ & _ & F). do 2 f_equal. induction F as [|m m' l l' S F IH]; [reflexivity|]. cbn. f_equal; [f_equal; apply S|exact IH].
    - rewrite F. reflexivity.
    - reflexivity. }
  vm_compute in K. discriminate K.
Qed.
