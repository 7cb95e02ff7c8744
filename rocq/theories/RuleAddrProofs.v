(** Ids of rules: when transformations confuse rules and when they do not. *)
From Coq Require String.
From Verif Require Import Base TokenModel EarleyModel EarleySpec PredicateModel PipelineModel PipelineSpec PipelineTheorems PredicateCases Cases ParserModel
  RuleModel RuleSpec RuleAccept RuleOrder RuleBuild GrammarModel GrammarSpec RuleTheorems RuleCases TextModel TextSpec TextTheorems RuleAddr RuleSim.
Open Scope nat_scope.

(** What is reachable lies in every set that contains the root and is closed. *)
Lemma reach_closed (h : rule_heap) root (l : list nat) : In root l -> forallb (fun p => match nth_error h p with Some o => forallb (fun c => is_in c l) (children o) | None => true end) l = true ->
  forall p, reach h root p -> In p l.
Proof.
  intros Hr C p P. induction P as [|root q o c P IH E Hc]; [exact Hr|]. specialize (IH Hr). rewrite forallb_forall in C. specialize (C q IH). rewrite E in C. rewrite forallb_forall in C. specialize (C c Hc).
  unfold is_in in C. apply existsb_exists in C as (y & Hy & Ey). apply Nat.eqb_eq in Ey as <-. exact Hy.
Qed.
Definition ranges_at (addr : nat -> nat) (h : rule_heap) (root : nat) (toks : list token) : option (res (list (nat * nat))) :=
  match parser_grammar_at addr ASCII first_seen small_context 100 h root with
  | Some (Ok g) =>
      match findall (accepts ASCII) narrow (fun _ _ _ => true) g 100 toks with
      | Some (Ok (_, ms)) => Some (Ok (map m_range ms))
      | Some (Err e) => Some (Err e)
      | None => None
      end
  | Some (Err e) => Some (Err e)
  | None => None
  end.
Lemma nothing_at addr h root toks : ranges_at addr h root toks = Some (Ok []) ->
  exists g s, parser_grammar_at addr ASCII first_seen small_context 100 h root = Some (Ok g) /\ findall (accepts ASCII) narrow (fun _ _ _ => true) g 100 toks = Some (Ok (s, [])).
Proof.
  unfold ranges_at. generalize 100 as fuel. intros fuel. destruct (parser_grammar_at addr ASCII first_seen small_context fuel h root) as [[g|]|]; try discriminate.
  destruct (findall (accepts ASCII) narrow (fun _ _ _ => true) g fuel toks) as [[[s ms]|]|] eqn:F; try discriminate. intros H. injection H as H. destruct ms; [|discriminate]. eauto.
Qed.

(** ** rule(a.repeatable().repeatable(), b.repeatable().repeatable()) *)
Definition twice_program : list rule_call :=
  [CRule [W "a"]; CRepeatable 1 None None false; CRepeatable 2 None None false;
   CRule [W "b"]; CRepeatable 5 None None false; CRepeatable 6 None None false; CRule [R 3; R 7]].
(** The temporary made for the second part gets the address of the one made for the
    first. *)
Definition temporary_reused (q : nat) : nat := if Nat.eqb q 14 then 10 else q.
Definition twice_heap : rule_heap := Eval vm_compute in program twice_program.
Definition tokens_a_b : list token := Eval vm_compute in words ["a"; "b"]%string.

Lemma twice_reuse : reuses_when_gone temporary_reused (length twice_heap) squash_method 100 twice_heap 9.
Proof.
  intros p q L E. assert (p = 10 /\ q = 14) as [-> ->].
  { unfold temporary_reused in E. destruct (Nat.eqb_spec p 14), (Nat.eqb_spec q 14); subst; lia. }
  split; [vm_compute; lia|]. eexists _, _. split; [vm_compute; reflexivity|]. split; [vm_compute; lia|]. split; [|split].
  - exists 13. split; [vm_compute; tauto|lia].
  - intros P. apply (reach_closed _ 9 [0; 1; 2; 3; 4; 5; 6; 7; 8; 9]) in P; [cbn in P; intuition discriminate|vm_compute; tauto|vm_compute; reflexivity].
  - intros x o Lx Ex Hc. do 14 (destruct x as [|x]; [vm_compute in Ex; injection Ex as <-; vm_compute in Hc; lia|]). cbn in Lx. lia.
Qed.
Lemma accepts_once (h : rule_heap) pb lines (acc : predicate -> token -> bool) p r rev us : nth_error h p = Some (ORepeatable r rev) -> matches pb lines acc h r us -> matches pb lines acc h p us.
Proof. intros E H. apply (match_repeatable _ _ _ _ p r rev 1 us E (le_n 1)). rewrite <- (app_nil_r us). constructor; [exact H|constructor]. Qed.
Lemma twice_accepted : rule_accepts ASCII first_seen small_context twice_heap 9 tokens_a_b 0 2.
Proof.
  exists tokens_a_b. split; [exists [], []; repeat split; reflexivity|].
  assert (A : forall p q r i t s, nth_error tokens_a_b i = Some t -> nth_error twice_heap p = Some (ORule [q]) -> nth_error twice_heap q = Some (OProd [TPred (PEq s)] 0) -> str_eqb (t_value t) s = true ->
    nth_error twice_heap (S p) = Some (ORepeatable p false) -> nth_error twice_heap (S (S p)) = Some (ORepeatable (S p) false) -> r = S (S p) ->
    matches (active_bnf (pipeline_as_bnf ASCII first_seen) (activate_pipeline small_context)) b_productions (accepts_active (accepts ASCII) (activate small_context)) twice_heap r [t]).
  { intros p q r i t s Et Ep Eq S E1 E2 ->. apply (accepts_once _ _ _ _ _ _ _ _ E2). apply (accepts_once _ _ _ _ _ _ _ _ E1). apply (match_rule _ _ _ twice_heap p [q] q [t] Ep (or_introl eq_refl)).
    apply (match_production _ _ _ twice_heap q _ 0 [t] Eq). constructor; [exact S|constructor]. }
  apply (match_rule _ _ _ twice_heap 9 [8] 8 _ eq_refl (or_introl eq_refl)). apply (match_production _ _ _ twice_heap 8 [TRule 3; TRule 7] 0 _ eq_refl).
  change tokens_a_b with ([nth 0 tokens_a_b (mkToken [] 0 0 [] None None)] ++ [nth 1 tokens_a_b (mkToken [] 0 0 [] None None)] ++ []).
  apply in_sequence_rule; [apply (A 1 0 3 0 _ (str_of "a")); reflexivity|]. apply in_sequence_rule; [apply (A 5 4 7 1 _ (str_of "b")); reflexivity|]. constructor.
Qed.
Lemma temporaries_refute :
  exists addr U set_order c fuel h root g s toks i j,
    set_iteration set_order /\ built h /\ is_rule_at h root /\ activate_rule c fuel h root = Some (Ok (root, h)) /\
    reuses_when_gone addr (length h) squash_method fuel h root /\
    parser_grammar_at addr U set_order c fuel h root = Some (Ok g) /\
    rule_accepts U set_order c h root toks i j /\ i < j /\ findall (accepts U) narrow (fun _ _ _ => true) g fuel toks = Some (Ok (s, [])).
Proof.
  destruct (nothing_at temporary_reused twice_heap 9 tokens_a_b) as (g & s & G & F); [vm_compute; reflexivity|].
  exists temporary_reused, ASCII, first_seen, small_context, 100, twice_heap, 9, g, s, tokens_a_b, 0, 2.
  split; [exact first_seen_iterates|]. split; [apply (program_built twice_program); reflexivity|]. split; [apply is_rule_atb_true; reflexivity|]. split; [vm_compute; reflexivity|].
  split; [exact twice_reuse|]. split; [exact G|]. split; [exact twice_accepted|]. split; [lia|exact F].
Qed.

(** ** f.define(rule('a')); k.define(rule(rule('b').repeatable())); rule(f, k) *)
Definition forwards_program : list rule_call :=
  [CForward; CForward; CRule [W "a"]; CDefine 0 3; CRule [W "b"]; CRepeatable 5 None None false; CRule [R 6]; CDefine 1 8; CRule [R 0; R 1]].
(** The alternatives that replace the repetition get the address of the definition of f
    that was replaced just before. *)
Definition definition_reused (q : nat) : nat := if Nat.eqb q 27 then 12 else q.
Definition forwards_heap : rule_heap := Eval vm_compute in program forwards_program.
Definition forwards_squashed : rule_heap := Eval vm_compute in match run_visit_at definition_reused squash_method 100 forwards_heap 10 with Some (Ok (_, h)) => h | _ => [] end.
Lemma forwards_reuse : reuses_when_gone definition_reused (length forwards_heap) replace_extended_method 100 forwards_squashed 19.
Proof.
  intros p q L E. assert (p = 12 /\ q = 27) as [-> ->].
  { unfold definition_reused in E. destruct (Nat.eqb_spec p 27), (Nat.eqb_spec q 27); subst; lia. }
  split; [vm_compute; lia|]. eexists _, _. split; [vm_compute; reflexivity|]. split; [vm_compute; lia|]. split; [|split].
  - exists 21. split; [vm_compute; tauto|lia].
  - intros P. apply (reach_closed _ 19 [0; 1; 13; 14; 15; 16; 17; 18; 19; 20; 21]) in P; [cbn in P; intuition discriminate|vm_compute; tauto|vm_compute; reflexivity].
  - intros x o Lx Ex Hc. do 27 (destruct x as [|x]; [vm_compute in Ex; injection Ex as <-; vm_compute in Hc; lia|]). cbn in Lx. lia.
Qed.
Lemma definitions_refute :
  exists addr U set_order c fuel h root r1 h1 g s toks i j,
    set_iteration set_order /\ built h /\ flat h root /\ is_rule_at h root /\ activate_rule c fuel h root = Some (Ok (root, h)) /\
    run_visit_at addr squash_method fuel h root = Some (Ok (r1, h1)) /\
    reuses_when_gone addr (length h) replace_extended_method fuel h1 r1 /\
    parser_grammar_at addr U set_order c fuel h root = Some (Ok g) /\
    rule_accepts U set_order c h root toks i j /\ i < j /\ findall (accepts U) narrow (fun _ _ _ => true) g fuel toks = Some (Ok (s, [])).
Proof.
  destruct (nothing_at definition_reused forwards_heap 10 tokens_a_b) as (g & s & G & F); [vm_compute; reflexivity|].
  assert (B : built forwards_heap) by (apply (program_built forwards_program); reflexivity). assert (Fl : flat forwards_heap 10) by (apply flatb_true; reflexivity). assert (R : is_rule_at forwards_heap 10) by (apply is_rule_atb_true; reflexivity).
  exists definition_reused, ASCII, first_seen, small_context, 100, forwards_heap, 10, 19, forwards_squashed, g, s, tokens_a_b, 0, 2.
  split; [exact first_seen_iterates|]. split; [exact B|]. split; [exact Fl|]. split; [exact R|]. split; [vm_compute; reflexivity|]. split; [vm_compute; reflexivity|].
  split; [exact forwards_reuse|]. split; [exact G|]. split; [|split; [lia|exact F]].
  exists tokens_a_b. split; [exists [], []; repeat split; reflexivity|].
  set (m := matches _ _ _ _).
  assert (A : forall p q i t v, nth_error tokens_a_b i = Some t -> nth_error forwards_heap p = Some (ORule [q]) -> nth_error forwards_heap q = Some (OProd [TPred (PEq v)] 0) -> str_eqb (t_value t) v = true -> m p [t]).
  { intros p q i t v Et Ep Eq S. apply (match_rule _ _ _ forwards_heap p [q] q [t] Ep (or_introl eq_refl)). apply (match_production _ _ _ forwards_heap q _ 0 [t] Eq). constructor; [exact S|constructor]. }
  apply (match_rule _ _ _ forwards_heap 10 [9] 9 _ eq_refl (or_introl eq_refl)). apply (match_production _ _ _ forwards_heap 9 [TRule 0; TRule 1] 0 _ eq_refl).
  change tokens_a_b with ([nth 0 tokens_a_b (mkToken [] 0 0 [] None None)] ++ [nth 1 tokens_a_b (mkToken [] 0 0 [] None None)] ++ []).
  apply in_sequence_rule; [|apply in_sequence_rule; [|constructor]].
  - apply (match_forward _ _ _ forwards_heap 0 3 _ eq_refl). apply (A 3 2 0 _ (str_of "a")); reflexivity.
  - apply (match_forward _ _ _ forwards_heap 1 8 _ eq_refl). apply (match_rule _ _ _ forwards_heap 8 [7] 7 _ eq_refl (or_introl eq_refl)). apply (match_production _ _ _ forwards_heap 7 [TRule 6] 0 _ eq_refl). apply (in_sequence_rule _ _ _ forwards_heap 6 [] [nth 1 tokens_a_b (mkToken [] 0 0 [] None None)] []); [|constructor].
    apply (accepts_once forwards_heap _ _ _ 6 5 false _ eq_refl). apply (A 5 4 1 _ (str_of "b")); reflexivity.
Qed.

(** ** Addresses never used twice *)
Section Injective.
  Variable addr : nat -> nat.
  Hypothesis injective : forall p q, addr p = addr q -> p = q.
  Notation related := (related (pred := predicate) (pipe := pipeline) (bnf := pipeline_bnf) addr (fun _ => True) (fun _ => True)).
  Notation sim := (sim (pred := predicate) (pipe := pipeline) (bnf := pipeline_bnf) addr (fun _ => True) (fun _ => True)).
  Lemma is_in_at c visited : is_in (addr c) (map addr visited) = is_in c visited.
  Proof.
    unfold is_in. induction visited as [|x l IH]; [reflexivity|]. cbn. rewrite IH. f_equal. destruct (Nat.eqb_spec c x) as [->|N]; [apply Nat.eqb_refl|]. apply Nat.eqb_neq. intros E. apply N, injective, E.
  Qed.
  Lemma enqueue_same cs : forall queue visited, enqueue_at addr cs queue (map addr visited) = let (q, v) := enqueue cs queue visited in (q, map addr v).
  Proof.
    induction cs as [|c cs IH]; intros queue visited; cbn; [reflexivity|]. rewrite is_in_at. destruct (is_in c visited); [apply IH|]. apply (IH (queue ++ [c]) (c :: visited)).
  Qed.
  Lemma sim_walk act act' : (forall p, sim (act p) (act' p)) -> forall fuel queue visited, sim (walk_loop fuel act queue visited) (walk_loop_at addr fuel act' queue (map addr visited)).
  Proof.
    intros S fuel. induction fuel as [|fuel IH]; intros queue visited; destruct queue as [|x queue]; cbn; try apply sim_ret; try apply sim_no_fuel.
    apply sim_bind; [apply S|]. intros _. apply sim_get. intros o _. rewrite enqueue_same. destruct (enqueue (children o) queue visited) as [q v]. apply IH.
  Qed.
  Lemma run_same method : method_sim addr (fun _ => True) (fun _ => True) method -> forall fuel (h : rule_heap) root, run_visit_at addr method fuel h root = run_visit method fuel h root.
  Proof.
    intros S fuel h root. unfold run_visit_at, run_visit. assert (V : forall p, sim (visit method fuel p) (visit_at addr method fuel p)) by (intros p; apply sim_visit; auto).
    assert (K : sim (transform_walk method fuel root) (transform_walk_at addr method fuel root)).
    { apply sim_bind; [|intros _; apply V]. apply (sim_walk _ _) with (visited := [root]). intros p. apply sim_get. intros o _. destruct o as [| | | | | | | | | | |[r|]| | | | | | |]; try apply sim_ret. apply sim_bind; [apply V|]. intros r'. apply sim_define. auto. }
    assert (R : related (mkState h []) (mkState h [])) by (split; [reflexivity|]; split; [exact I|reflexivity]).
    specialize (K _ _ R). destruct (transform_walk method fuel root (mkState h [])) as [[[r s]|e]|], (transform_walk_at addr method fuel root (mkState h [])) as [[[r' s']|e']|]; try (destruct K; fail); [|subst; reflexivity|reflexivity].
    destruct K as [<- (E & _)]. rewrite E. reflexivity.
  Qed.
  Lemma normalized_same fuel (h : rule_heap) root : normalized_at addr fuel h root = normalized fuel h root.
  Proof.
    unfold normalized_at, normalized. rewrite run_same by (apply squash_sim; auto). destruct (run_visit squash_method fuel h root) as [[[r1 h1]|]|]; cbn [then_]; try reflexivity.
    rewrite run_same by (apply replace_extended_sim; auto). destruct (run_visit replace_extended_method fuel h1 r1) as [[[r2 h2]|]|]; cbn [then_]; try reflexivity.
    rewrite run_same by (apply replace_or_sim; auto). destruct (run_visit replace_or_method fuel h2 r2) as [[[r3 h3]|]|]; cbn [then_]; try reflexivity.
    rewrite run_same by (apply replace_empty_sim; auto). destruct (run_visit replace_empty_method fuel h3 r3) as [[[r4 h4]|]|]; cbn [then_]; try reflexivity.
    apply run_same. apply flatten_sim; auto.
  Qed.
  Theorem grammar_same U set_order c fuel (h : rule_heap) root : parser_grammar_at addr U set_order c fuel h root = parser_grammar U set_order c fuel h root.
  Proof.
    unfold parser_grammar_at, parser_grammar, build_rule, parser_rule, activate_rule. destruct (run_inplace (activate_visit (activate c) (activate_pipeline c)) fuel h root) as [[[r1 h1]|]|]; cbn [then_]; try reflexivity.
    rewrite normalized_same. destruct (normalized fuel h1 r1) as [[[r2 h2]|]|]; cbn [then_]; try reflexivity.
    assert (as_bnf_at addr (pipeline_as_bnf U set_order) b_productions fuel h2 r2 = as_bnf (pipeline_as_bnf U set_order) b_productions fuel h2 r2) as ->; [|reflexivity].
    unfold as_bnf_at, as_bnf, to_bnf_at, to_bnf. destruct (bfs fuel h2 r2) as [objects|]; [|reflexivity]. rewrite run_same by (apply bnf_sim; auto). reflexivity.
  Qed.
End Injective.
