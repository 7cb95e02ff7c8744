(** Rules that are not a part of themselves match whole texts. *)
From Verif Require Import Base TokenModel EarleyModel EarleySpec EarleyProofs TreeModel TreeSpec TreeProofs ParserModel ParserSpec FindallProofs ParserProofs ParserTheorems AgreeProofs PredicateModel PredicateProofs PipelineModel PipelineSpec RuleModel RuleSpec RuleAccept RuleNormalized RuleBuild
  GrammarModel GrammarSpec RuleNestSpec RuleMild RuleTheorems TextModel TextSpec TextProofs TextTheorems AbsentSpec AbsentTheorems AbsentPrefer TextAbsent
  InterpModel InterpSpec InterpProofs InterpTheorems InterpMatch FactWordSpec FactWordProofs RuleBuilt RuleStart WholeSpec RuleFresh GrammarProofs.
Open Scope nat_scope.

Lemma settled_top {pred pipe bnf} (h : list (obj pred pipe bnf)) root : settled h root -> top not_once h root.
Proof. intros ((o & E & L) & A). exists o. split; [exact E|]. right. split; [|exact A]. destruct o; try contradiction; exact I. Qed.
Lemma settled_rule (h : rule_heap) root : settled h root -> is_rule_at h root.
Proof. intros ((o & E & L) & _). exists o. split; [exact E|]. destruct o; try contradiction; reflexivity. Qed.

Theorem start_unused U set_order c fuel h root g : built h -> flat h root -> settled h root ->
  parser_grammar U set_order c fuel h root = Some (Ok g) -> start_not_used g.
Proof.
  intros B F T H. assert (R := settled_rule h root T). assert (S := built_source h root B F R). assert (Tp := settled_top h root T). destruct T as ((o & E & L) & _).
  unfold parser_grammar in H. apply then_ok in H as ((r' & h') & H & Hb). destruct (bfs fuel h' r') as [objects|] eqn:Bf; [|discriminate]. injection Hb as <-.
  assert (K := parser_rule_unused (pipeline_as_bnf U set_order) b_productions (activate c) (activate_pipeline c) (pred_twice c) (pipe_twice c) fuel h root r' h' o S Tp E L H).
  intros q Hq. cbn in Hq. destruct (nth_error h' q) as [oq|] eqn:Eq; [|destruct Hq]. apply (K q oq Eq). unfold production_terms in Hq. destruct oq; try (destruct Hq; fail); try (apply in_map_iff in Hq as (x & X & _); discriminate); cbn [children];
    unfold rule_terms; apply in_flat_map; exists (TRule r'); (split; [exact Hq|left; reflexivity]).
Qed.

Section Whole.
  Variable U : unicode.
  Variable set_order : list str -> list str.
  Variable c : context.
  Hypothesis sets : set_iteration set_order.
  Variable rel : nat -> form -> form -> bool.
  Variable fuel : nat.
  Variable h : rule_heap.
  Variable root : nat.
  Variable text : str.
  Hypothesis built0 : built h.
  Hypothesis flat0 : flat h root.
  Hypothesis settled0 : settled h root.
  Notation accept := (rule_accepts U set_order c h root).
  Let rule0 := settled_rule h root settled0.
  Let mild0 := flat_harmless h root built0 flat0 rule0.

  Section Parts.
    Variable g : grammar token predicate.
    Variable toks : list token.
    Hypothesis made : parser_grammar U set_order c fuel h root = Some (Ok g).
    Hypothesis tokenized : text_tokens c text = Some (Ok toks).
    Hypothesis unrelated : no_relations_in h root.
    Hypothesis timely0 : timely g.
    Hypothesis some : ~ accept [] 0 0.
    Let unused0 := start_unused U set_order c fuel h root g built0 flat0 settled0 made.
    Theorem whole_match_timely r : parser_match U set_order c rel fuel h root text = Some r ->
      (exists s m, r = Ok (s, Some m) /\ m_range m = (0, length toks) /\ accept toks 0 (length toks)) \/ (r = Ok ([], None) /\ ~ accept toks 0 (length toks)).
    Proof.
      intros H. destruct (text_match_timely U set_order c sets rel fuel h root text built0 mild0 rule0 g toks made tokenized unrelated timely0 some r H) as [(s & m & E & J & A & Z)|N]; [|right; exact N].
      left. exists s, m. specialize (Z unused0). destruct (m_range m) as [i j]. cbn in *. subst. auto.
    Qed.
    Theorem whole_agree_timely s m r : no_morph_pipeline h root -> parser_match U set_order c rel fuel h root text = Some (Ok (s, Some m)) -> parser_findall U set_order c rel fuel h root text = Some r ->
      exists s' m', r = Ok (s', [m']) /\ m_range m' = m_range m /\ erase (m_root m') = erase (m_root m) /\ m_tokens m' = m_tokens m /\ m_span m' = m_span m.
    Proof. intros NM. apply (text_agree_timely U set_order c sets rel fuel h root text built0 mild0 rule0 g toks made tokenized unrelated timely0 some s m r NM unused0). Qed.
  End Parts.

  Section Solid.
    Hypothesis solid0 : solid h root.
    Lemma solid_parts g : parser_grammar U set_order c fuel h root = Some (Ok g) -> no_relations_in h root /\ timely g /\ ~ accept [] 0 0.
    Proof.
      intros G. assert (NN := solid_no_nullable U set_order c sets fuel h root g built0 mild0 rule0 G solid0). split; [|split].
      - intros x o Rx Ex. specialize (solid0 x o Rx Ex). destruct o; auto.
      - apply no_nullable_timely, NN.
      - intros A. apply (accept_solid U set_order c sets fuel h root g built0 mild0 rule0 G solid0) in A as (d & D). destruct (solid_pos U set_order c sets fuel h root g built0 mild0 rule0 G solid0 _ _ _ _ D). lia.
    Qed.
    Lemma ran {A} (f : grammar token predicate -> list token -> option (res A)) x : with_parser U set_order c fuel h root text f = Some (Ok x) ->
      exists g toks, parser_grammar U set_order c fuel h root = Some (Ok g) /\ text_tokens c text = Some (Ok toks).
    Proof. unfold with_parser. intros H. apply then_ok in H as (g & G & H). apply then_ok in H as (toks & T & _). eauto. Qed.
    Theorem whole_match s om : parser_match U set_order c rel fuel h root text = Some (Ok (s, om)) ->
      exists toks, text_tokens c text = Some (Ok toks) /\
        match om with Some m => m_range m = (0, length toks) /\ accept toks 0 (length toks) | None => ~ accept toks 0 (length toks) end.
    Proof.
      intros H. destruct (ran _ _ H) as (g & toks & G & T). destruct (solid_parts g G) as (NR & Ti & Em). exists toks. split; [exact T|].
      destruct (whole_match_timely g toks G T NR Ti Em _ H) as [(s' & m & E & R & A)|[E N]]; injection E as -> ->; auto.
    Qed.
    Theorem whole_agree s m r : no_morph_pipeline h root -> parser_match U set_order c rel fuel h root text = Some (Ok (s, Some m)) -> parser_findall U set_order c rel fuel h root text = Some r ->
      exists s' m', r = Ok (s', [m']) /\ m_range m' = m_range m /\ erase (m_root m') = erase (m_root m) /\ m_tokens m' = m_tokens m /\ m_span m' = m_span m.
    Proof.
      intros NM H. destruct (ran _ _ H) as (g & toks & G & T). destruct (solid_parts g G) as (NR & Ti & Em). apply (whole_agree_timely g toks G T NR Ti Em s m r NM H).
    Qed.
  End Solid.
End Whole.

Theorem whole_facts U set_order c : set_iteration set_order -> forall rel schemes subclass inflect interps fuel h root r i, built h -> flat h root -> settled h root ->
  nth_error h root = Some (OInterp r i) -> solid h root -> no_morph_pipeline h root ->
  forall text s m, parser_match U set_order c rel fuel h root text = Some (Ok (s, Some m)) ->
  exists g toks ha, parser_grammar U set_order c fuel h root = Some (Ok g) /\ text_tokens c text = Some (Ok toks) /\ activated_graph (activate c) (activate_pipeline c) h ha root /\
  exists w, words_of U set_order KInterp ha root w /\ spells U w toks 0 (length toks) /\
    (forall w', words_of U set_order KInterp ha root w' -> spells U w' toks 0 (length toks) -> w' = w \/ sooner w w') /\
    read_value schemes subclass U inflect interps told_or_not w (tree_tokens s (m_root m)) (match_fact schemes subclass U inflect g interps s m).
Proof.
  intros SO rel schemes subclass inflect interps fuel h root r i B F St E So NM text s m H. destruct (ran U set_order c fuel h root text _ _ H) as (g & toks & G & T).
  destruct (solid_parts U set_order c SO fuel h root B F St So g G) as (NR & Ti & Em). assert (Tp := settled_top h root St).
  assert (Gi : g_interp g (g_start g) <> None) by (rewrite (root_starts U set_order c fuel h root r i g B F Tp E G); discriminate).
  destruct (match_value U set_order c SO rel schemes subclass inflect interps fuel h root B F (settled_rule h root St) Tp g G Gi toks text T NR Ti Em NM s m (start_unused U set_order c fuel h root g B F St G) H) as (ha & A & K).
  exists g, toks, ha. auto.
Qed.
