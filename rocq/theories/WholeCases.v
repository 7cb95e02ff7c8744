(** Concrete rules for the examples about whole texts. *)
From Coq Require String.
From Verif Require Import Base TokenModel EarleyModel EarleySpec TreeModel ParserModel PredicateModel Cases PredicateCases PipelineModel PipelineSpec PipelineTheorems
  RuleModel RuleSpec RuleAccept RuleNormalized RuleBuild GrammarModel GrammarSpec RuleNestSpec RuleTheorems RuleCases InterpModel InterpCases TextModel TextSpec TextTheorems SetOrderTheorems AbsentSpec AbsentCases
  FactWordSpec FactWordCases WholeSpec.
Import String.StringSyntax.
Open Scope nat_scope.

(** rule(E), and rule(E.interpretation(name)).interpretation(Person), for the recursive rule E. *)
Definition wrapped_program : list rule_call := expr_program ++ [CRule [R 0]; CInterpretation 0 1; CRule [R 11]; CInterpretation 13 0].
Definition settledb (h : rule_heap) (root : nat) : bool :=
  match nth_error h root with Some (ORule _ | OOr _ | ONamed _ _ | OInterp _ _ | ORelation _ _ | OPipeline _) => aloneb h root | _ => false end.
Lemma settledb_true h root : settledb h root = true -> settled h root.
Proof.
  unfold settledb. destruct (nth_error h root) as [o|] eqn:E; [|discriminate]. intros A.
  assert (L : lasting o) by (destruct o; try discriminate; exact I). assert (A' : aloneb h root = true) by (destruct o; try discriminate; exact A).
  split; [eauto|]. destruct (aloneb_true h root o E) as (o' & E' & [F|[_ K]]); [destruct o; try contradiction; exact I|exact A'| |exact K].
  rewrite E in E'. injection E' as <-. destruct o; try contradiction; discriminate.
Qed.
Definition whole_ready (p : list rule_call) (root : nat) : bool :=
  valid [] p && flatb (program p) && settledb (program p) root && forallb solid_partb (program p) && no_morphb (program p).
Lemma whole_ready_true p root : whole_ready p root = true ->
  built (program p) /\ flat (program p) root /\ settled (program p) root /\ solid (program p) root /\ no_morph_pipeline (program p) root.
Proof.
  intros H. unfold whole_ready in H. repeat (apply andb_true_iff in H as [H ?]). split; [apply program_built, H|]. split; [apply flatb_true; assumption|].
  split; [apply settledb_true; assumption|]. split; [apply solidb_true; assumption|apply no_morphb_true; assumption].
Qed.
Definition matched_facts (interps : nat -> interpretator) (p : list rule_call) (root : nat) (text : str) : option (option (res pyval)) :=
  match parser_grammar ASCII first_seen small_context 100 (program p) root, parser_match ASCII first_seen small_context no_relations 100 (program p) root text with
  | Some (Ok g), Some (Ok (s, m)) => Some (option_map (match_fact classes same_class ASCII no_inflect g interps s) m)
  | _, _ => None
  end.
(** What E itself matches: not the whole of "( x + x". *)
Definition forward_ready (p : list rule_call) (root : nat) : bool :=
  valid [] p && flatb (program p) && is_rule_atb (program p) root && forallb solid_partb (program p).
Lemma forward_ready_true p root : forward_ready p root = true -> built (program p) /\ flat (program p) root /\ is_rule_at (program p) root /\ solid (program p) root.
Proof.
  intros H. unfold forward_ready in H. repeat (apply andb_true_iff in H as [H ?]). split; [apply program_built, H|]. split; [apply flatb_true; assumption|].
  split; [apply is_rule_atb_true; assumption|apply solidb_true; assumption].
Qed.
Lemma matched_refutes p root text i j n : forward_ready p root = true -> matched_in p root text = Some (Some (i, j)) ->
  match text_tokens small_context text with Some (Ok toks) => Some (length toks) | _ => None end = Some n -> (i, j) <> (0, n) ->
  exists U set_order c rel fuel h root text toks s m, set_iteration set_order /\ built h /\ flat h root /\ is_rule_at h root /\ solid h root /\
  text_tokens c text = Some (Ok toks) /\ parser_match U set_order c rel fuel h root text = Some (Ok (s, Some m)) /\ m_range m <> (0, length toks).
Proof.
  intros K M T N. apply forward_ready_true in K as (B & F & R & S). unfold matched_in in M.
  destruct (parser_match ASCII first_seen small_context no_relations 100 (program p) root text) as [[[s [m|]]|e]|] eqn:E; try discriminate. injection M as M.
  destruct (text_tokens small_context text) as [[toks|]|] eqn:X; try discriminate. injection T as T. subst n.
  exists ASCII, first_seen, small_context, no_relations, 100, (program p), root, text, toks, s, m. rewrite M. repeat split; auto using first_seen_iterates; apply first_seen_iterates.
Qed.
Lemma forward_refutes : exists U set_order c rel fuel h root text toks s m, set_iteration set_order /\ built h /\ flat h root /\ is_rule_at h root /\ solid h root /\
  text_tokens c text = Some (Ok toks) /\ parser_match U set_order c rel fuel h root text = Some (Ok (s, Some m)) /\ m_range m <> (0, length toks).
Proof. refine (matched_refutes expr_program 0 (str_of "( x + x") 1 4 4 _ _ _ _); [vm_compute; reflexivity..|discriminate]. Qed.

(** Whether the start rule is used only by itself, as the last term. *)
Section Tail.
  Variable g : grammar token predicate.
  Variable rules : list nat.
  Definition is_start (t : term predicate) : bool := match t with TRule r => r =? g_start g | TPred _ => false end.
  Definition start_lastb : bool :=
    forallb (fun r => forallb (fun q => negb (existsb is_start (if r =? g_start g then removelast (g_terms g q) else g_terms g q))) (g_prods g r)) rules.
  Hypothesis only : forall r, ~ In r rules -> g_prods g r = [].
  Lemma start_lastb_true : start_lastb = true -> start_last g.
  Proof.
    unfold start_lastb. rewrite forallb_forall. intros B r q us vs Q T.
    assert (R : In r rules) by (destruct (in_dec Nat.eq_dec r rules) as [X|X]; [exact X|rewrite (only r X) in Q; destruct Q]).
    specialize (B r R). cbv beta in B. rewrite forallb_forall in B. specialize (B q Q). cbv beta in B. rewrite T in B. apply negb_true_iff in B.
    assert (S : is_start (TRule (g_start g)) = true) by (cbn; apply Nat.eqb_refl). destruct (Nat.eqb_spec r (g_start g)) as [E|E].
    - split; [|exact E]. destruct vs as [|v vs]; [reflexivity|]. rewrite removelast_app in B by discriminate. rewrite existsb_app in B. apply orb_false_iff in B as [_ B].
      change (is_start (TRule (g_start g)) || existsb is_start (removelast (v :: vs)) = false) in B. rewrite S in B. discriminate.
    - rewrite existsb_app in B. apply orb_false_iff in B as [_ B]. cbn [existsb] in B. rewrite S in B. discriminate.
  Qed.
End Tail.
Definition last_program (p : list rule_call) (root : nat) : bool := match the_grammar p root with Some (g, rules) => start_lastb g rules | None => false end.
Lemma last_ready p root text : usualb p root text = true -> timely_program p root = true -> last_program p root = true ->
  exists g toks, usual ASCII first_seen small_context 100 (program p) root text g toks /\ timely g /\ start_last g.
Proof.
  intros Us T L. destruct (timely_ready p root text Us T) as (g & toks & X & Y). exists g, toks. split; [exact X|]. split; [exact Y|].
  destruct X as (_ & _ & _ & _ & _ & G & _). unfold last_program in L. apply the_grammar_made in G as (rules & E & O). rewrite E in L. apply (start_lastb_true g rules O L).
Qed.
Definition start_usedb (p : list rule_call) (root : nat) : bool :=
  match the_grammar p root with Some (g, rules) => existsb (fun r => existsb (fun q => existsb (is_start g) (g_terms g q)) (g_prods g r)) rules | None => false end.
