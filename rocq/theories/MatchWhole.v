(** What match gives for a text that the rule accepts, also if the rule is a part of itself. *)
From Verif Require Import Base SpanModel EarleyModel EarleySpec EarleyInv EarleyProofs EarleyOrder TokenModel TreeModel ParserModel TreeSpec TreeProofs
  ParserSpec FindallProofs ParserProofs MatchProofs ResultProofs ParserTheorems AgreeProofs PredicateModel PredicateProofs PipelineModel PipelineSpec RuleModel RuleSpec RuleAccept RuleNormalized RuleBuild
  GrammarModel GrammarSpec RuleNestSpec RuleMild RuleTheorems TextModel TextSpec TextProofs TextTheorems AbsentSpec AbsentTheorems AbsentPrefer TextAbsent
  InterpModel InterpSpec InterpProofs InterpTheorems InterpMatch FactWordSpec FactWordProofs RuleBuilt GrammarProofs EarleyMore WholeSpec.
Open Scope nat_scope.

Section Grammar.
  Context {pred : Type}.
  Variable accepts : pred -> token -> bool.
  Variable constrain : pred -> token -> token.
  Variable rel : nat -> form -> form -> bool.
  Variable g : grammar token pred.
  Variable toks : list token.
  Notation parse := (parse accepts constrain g).
  Notation match_ := (match_ accepts constrain rel g).
  Notation findall := (findall accepts constrain rel g).
  Notation prepare_match := (prepare_match rel g).
  Notation derives := (derives accepts g toks).
  Notation best_derivation := (best_derivation accepts g toks).
  Hypothesis RF : relation_free g.
  Hypothesis PS : predict_sound g.
  Hypothesis PC : predict_complete accepts g.
  Hypothesis TI : timely g.
  Hypothesis NN : ~ nullable g (TRule (g_start g)).
  Notation TREE := (timely_tree accepts constrain g toks PS NN).

  Lemma derivable_matched fuel r d : derives (TRule (g_start g)) 0 (length toks) d -> match_ fuel toks = Some r ->
    exists s m, r = Ok (s, Some m) /\ m_range m = (0, length toks).
  Proof.
    intros D H. destruct (match_spec accepts constrain rel g fuel toks r H) as (trees & P & CASES).
    assert (ACC : forall t s, In t trees -> prepare_match t [] <> Ok (s, None)).
    { intros t s HT. apply (free_no_reject accepts constrain rel g toks false fuel trees P t []); auto. apply pristine_nil. }
    destruct (timely_parse_complete accepts constrain g toks fuel false trees 0 _ d PS PC TI P D) as (n0 & H0 & _); auto; [lia|].
    assert (GOOD : forall n i j, In (n, (i, j)) trees -> exists s m, prepare_match (n, (i, j)) [] = Ok (s, Some m) /\ m_range m = (i, j)).
    { intros n i j HT. destruct (TREE _ _ _ _ _ _ P HT) as (_ & L & _). destruct (free_prepare accepts constrain rel g toks false fuel trees P (n, (i, j)) [] RF (pristine_nil trees) HT L) as (s1 & m1 & E1 & _ & _ & R & _). eauto. }
    destruct CASES as [([n [i j]] & s & m & -> & HT & E & LEAST)|[([n [i j]] & e & -> & HT & E & LEAST)|[-> REJ]]].
    - exists s, m. split; [reflexivity|]. destruct (GOOD n i j HT) as (s1 & m1 & E1 & R). rewrite E in E1. injection E1 as <- <-. rewrite R.
      destruct (parse_sound accepts constrain g fuel toks false trees n i j PS P HT) as (_ & _ & _ & J). rewrite (J eq_refl).
      destruct i as [|i]; [reflexivity|]. exfalso. apply (ACC (n0, (0, length toks)) [] H0). apply LEAST; [exact H0|]. left. lia.
    - exfalso. destruct (GOOD n i j HT) as (s1 & m1 & E1 & _). rewrite E in E1. discriminate.
    - exfalso. apply (ACC (n0, (0, length toks)) [] H0). apply REJ, H0.
  Qed.

  Hypothesis PF : predict_filters g.
  Lemma whole_match_best fuel s m : match_ fuel toks = Some (Ok (s, Some m)) -> m_range m = (0, length toks) ->
    exists d, best_derivation 0 (length toks) d /\ present d = Some (erase (m_root m)) /\
      exists trees n, parse fuel toks false = Some trees /\ In (n, (0, length toks)) trees /\ erase n = d /\ m_tokens m = tokens_of n /\ get_tokens_span (m_tokens m) = Ok (m_span m).
  Proof.
    intros H W. destruct (match_spec accepts constrain rel g fuel toks _ H) as (trees & P & CASES).
    assert (ACC : forall t s, In t trees -> prepare_match t [] <> Ok (s, None)).
    { intros t s' HT. apply (free_no_reject accepts constrain rel g toks false fuel trees P t []); auto. apply pristine_nil. }
    destruct CASES as [([n [i j]] & s1 & m1 & X & HT & E & LEAST)|[([n [i j]] & e & X & _)|[X _]]]; try discriminate. injection X as <- <-.
    destruct (TREE _ _ _ _ _ _ P HT) as (_ & L & _). destruct (free_prepare accepts constrain rel g toks false fuel trees P (n, (i, j)) [] RF (pristine_nil trees) HT L) as (s1 & m1 & E1 & _ & PR & R & T & S).
    rewrite E in E1. injection E1 as <- <-. cbn [fst snd] in *. rewrite W in R. injection R as <- <-.
    exists (erase n). split; [|split; [rewrite present_erase, PR; reflexivity|exists trees, n; auto]].
    apply (least_best accepts constrain g toks PS PC PF TI NN fuel false trees n 0 (length toks) P HT); auto. intros u Hu _ B. apply (ACC u [] Hu). apply LEAST; auto.
  Qed.
  Lemma whole_match_agrees fuel fuel' s m r : match_ fuel toks = Some (Ok (s, Some m)) -> m_range m = (0, length toks) -> findall fuel' toks = Some r ->
    exists s' m', r = Ok (s', [m']) /\ m_range m' = m_range m /\ erase (m_root m') = erase (m_root m) /\ m_tokens m' = m_tokens m /\ m_span m' = m_span m.
  Proof.
    intros HM W HF. destruct (whole_match_best fuel s m HM W) as (d & B & PR & trees & n & P & HT & En & T & S).
    destruct (timely_findall_best accepts constrain rel g toks RF PS PC PF TI NN fuel' r HF) as (s' & ms & trees' & -> & P' & BR & BD).
    assert (OUT : map m_range ms = [(0, length toks)]) by (apply (timely_whole accepts g toks NN); [exact BR|exists d; apply B]).
    destruct ms as [|m' [|]]; try discriminate. cbn [map] in OUT. injection OUT as EM. exists s', m'. split; [reflexivity|]. split; [congruence|].
    destruct (BD m' (or_introl eq_refl)) as (d' & B' & PR' & n' & HT' & En' & T' & S'). rewrite EM in B', HT'. cbn [fst snd] in B'.
    assert (d' = d) by (apply (best_one accepts g toks 0 (length toks)); assumption). subst d'. split; [congruence|].
    pose proof (tree_ok _ _ _ _ _ _ _ P _ _ _ HT) as OK. pose proof (tree_ok _ _ _ _ _ _ _ P' _ _ _ HT') as OK'.
    destruct (proj1 (node_ok_same _ _ _ _) _ _ _ _ OK' _ _ OK) as (_ & _ & TK); [congruence|].
    assert (X : m_tokens m' = m_tokens m) by congruence. split; [exact X|]. rewrite X in S'. congruence.
  Qed.
End Grammar.

(** Where the start rule is tried, the text before it can be put before it. *)
Section Tail.
  Context {pred : Type}.
  Variable accepts : pred -> token -> bool.
  Variable constrain : pred -> token -> token.
  Variable g : grammar token pred.
  Variable toks : list token.
  Notation derives := (derives accepts g toks).
  Notation derives_seq := (derives_seq accepts g toks).
  Hypothesis PS : predict_sound g.
  Hypothesis SL : start_last g.
  Lemma derives_snoc us t i k j ds d : derives_seq us i k ds -> derives t k j d -> derives_seq (us ++ [t]) i j (ds ++ [d]).
  Proof. induction 1 as [i|u us i l k e ds D Ds IH]; intros X; cbn [app]; econstructor; eauto. constructor. Qed.
  Definition led (i : nat) : Prop := forall j d, derives (TRule (g_start g)) i j d -> exists d', derives (TRule (g_start g)) 0 j d'.
  Lemma start_led fuel st : chart accepts constrain g toks fuel false = Some st -> forall k s, In s (cols st k) -> s_rule s = g_start g -> led (s_start s).
  Proof.
    apply (chart_preserve accepts constrain g toks false (fun st => forall k s, In s (cols st k) -> s_rule s = g_start g -> led (s_start s))).
    - intros K I a b V O HP k s Hs Hr. destruct O as [r rank q MP HN HQ|s' parent Hs' C Hp X]; apply append_in in Hs as [Hs|[-> ->]]; eauto; cbn [s_rule s_start advance] in *; [|exact (HP _ _ Hp Hr)].
      subst r. destruct MP as [[_ [->|E]]|(s & H1 & H2)]; [intros j d D; eauto|discriminate|]. apply expects_term in H2.
      destruct (inv_ok _ _ _ _ _ _ _ V K s H1) as (_ & Dot & _ & Rk & _ & Ok). assert (Q : In (s_prod s) (g_prods g (s_rule s))) by (eapply predicted_sound; [exact PS|]; eapply nth_error_In, Rk).
      assert (T : g_terms g (s_prod s) = firstn (s_dot s) (g_terms g (s_prod s)) ++ TRule (g_start g) :: skipn (S (s_dot s)) (g_terms g (s_prod s))).
      { clear - H2. unfold next_term in H2. revert H2. generalize (g_terms g (s_prod s)) as l. generalize (s_dot s) as n. induction n as [|n IH]; intros [|x l] E; try discriminate; cbn in E |- *; [injection E as ->; reflexivity|]. rewrite <- IH by exact E. reflexivity. }
      destruct (SL _ _ _ _ Q T) as [Z Rs]. intros j d D. rewrite Z in T.
      assert (L := HP K s H1 Rs). apply (proj2 (node_ok_derives accepts constrain g toks PS)) in Ok. assert (X := derives_snoc _ _ _ _ _ _ _ Ok D). rewrite <- T in X.
      rewrite Rs in Q. apply (L j _ (derives_rule accepts g toks _ _ _ _ _ Q X)).
    - intros K I a b V O HP k s Hs Hr. destruct O as [s' p t Hn HT Ht HA]. apply append_in in Hs as [Hs|[-> ->]]; eauto. cbn [s_rule s_start] in *. eapply HP; eauto. eapply nth_error_In; eauto.
    - intros k s [].
  Qed.
  Variable rel : nat -> form -> form -> bool.
  Hypothesis RF : relation_free g.
  Hypothesis PC : predict_complete accepts g.
  Hypothesis TI : timely g.
  Hypothesis NN : ~ nullable g (TRule (g_start g)).
  Lemma tail_match fuel r : match_ accepts constrain rel g fuel toks = Some r ->
    (exists s m, r = Ok (s, Some m) /\ m_range m = (0, length toks)) \/ (r = Ok ([], None) /\ forall d, ~ derives (TRule (g_start g)) 0 (length toks) d).
  Proof.
    intros H. destruct (match_spec accepts constrain rel g fuel toks r H) as (trees & P & CASES).
    assert (W : forall n i j, In (n, (i, j)) trees -> exists d, derives (TRule (g_start g)) 0 (length toks) d).
    { intros n i j HT. destruct (parse_sound accepts constrain g fuel toks false trees n i j PS P HT) as (D & _ & _ & J). rewrite (J eq_refl) in D.
      destruct (parse_chart accepts constrain g toks false fuel trees P) as (st & E & -> & V). apply (trees_in accepts constrain) in HT as (_ & _ & s & A1 & A2 & A3 & A4 & A5); [|exact V].
      rewrite <- A3 in D. eapply (start_led fuel st E); [| |exact D]; eauto. }
    destruct (timely_match accepts constrain rel g toks RF PS PC TI NN fuel r H) as [(s & m & -> & _)|N]; [|right; exact N]. left.
    destruct CASES as [([n [i j]] & s1 & m1 & X & HT & E & LEAST)|[([n [i j]] & e & X & _)|[X _]]]; try discriminate.
    destruct (W n i j HT) as (d & D). apply (derivable_matched accepts constrain rel g toks RF PS PC TI NN fuel _ d D H).
  Qed.
End Tail.

Section Text.
  Variable U : unicode.
  Variable set_order : list str -> list str.
  Variable c : context.
  Hypothesis sets : set_iteration set_order.
  Variable rel : nat -> form -> form -> bool.
  Notation accept := (rule_accepts U set_order c).
  Variable fuel : nat.
  Variable h : rule_heap.
  Variable root : nat.
  Variable text : str.
  Hypothesis built0 : built h.
  Hypothesis mild0 : harmless h root.
  Hypothesis rule0 : is_rule_at h root.
  Variable g : grammar token predicate.
  Variable toks : list token.
  Hypothesis made : parser_grammar U set_order c fuel h root = Some (Ok g).
  Hypothesis tokenized : text_tokens c text = Some (Ok toks).
  Hypothesis unrelated : no_relations_in h root.
  Hypothesis timely0 : timely g.
  Hypothesis some : ~ accept h root [] 0 0.
  Notation US := (usable U set_order c sets fuel h root g built0 mild0 rule0 made).
  Notation FREE := (absent_free U set_order c sets fuel h root built0 mild0 rule0 g made unrelated).
  Notation SOME := (absent_some U set_order c sets fuel h root built0 mild0 rule0 g made some).
  Notation FI := (built_filters U set_order c sets fuel h root g built0 mild0 rule0 made).
  Theorem accepted_matched r : parser_match U set_order c rel fuel h root text = Some r ->
    (accept h root toks 0 (length toks) <-> exists s m, r = Ok (s, Some m) /\ m_range m = (0, length toks)).
  Proof.
    intros H. split.
    - intros A. apply (absent_accept U set_order c sets fuel h root built0 mild0 rule0 g toks made some) in A as (d & D). unfold parser_match in H.
      rewrite (with_parser_on U set_order c fuel h root text _ g toks made tokenized) in H.
      apply (derivable_matched (accepts U) narrow rel g toks FREE (proj1 US) (proj2 US) timely0 SOME fuel r d D H).
    - intros (s & m & -> & R). destruct (text_match_timely U set_order c sets rel fuel h root text built0 mild0 rule0 g toks made tokenized unrelated timely0 some _ H) as [(s' & m' & E & _ & A & _)|[E _]]; [|discriminate].
      injection E as <- <-. rewrite R in A. exact A.
  Qed.
  Theorem tail_matched r : start_last g -> parser_match U set_order c rel fuel h root text = Some r ->
    (exists s m, r = Ok (s, Some m) /\ m_range m = (0, length toks) /\ accept h root toks 0 (length toks)) \/ (r = Ok ([], None) /\ ~ accept h root toks 0 (length toks)).
  Proof.
    intros SL H. assert (A := accepted_matched r H). unfold parser_match in H. rewrite (with_parser_on U set_order c fuel h root text _ g toks made tokenized) in H.
    destruct (tail_match (accepts U) narrow g toks (proj1 US) SL rel FREE (proj2 US) timely0 SOME fuel r H) as [(s & m & -> & R)|[-> _]].
    - left. exists s, m. split; [reflexivity|]. split; [exact R|]. apply A. eauto.
    - right. split; [reflexivity|]. intros X. apply A in X as (s & m & E & _). discriminate.
  Qed.
  Theorem matched_whole_agrees s m r : no_morph_pipeline h root -> parser_match U set_order c rel fuel h root text = Some (Ok (s, Some m)) -> m_range m = (0, length toks) ->
    parser_findall U set_order c rel fuel h root text = Some r ->
    exists s' m', r = Ok (s', [m']) /\ m_range m' = m_range m /\ erase (m_root m') = erase (m_root m) /\ m_tokens m' = m_tokens m /\ m_span m' = m_span m.
  Proof.
    intros NM. unfold parser_match, parser_findall. rewrite !(with_parser_on U set_order c fuel h root text _ g toks made tokenized).
    apply (whole_match_agrees (accepts U) narrow rel g toks FREE (proj1 US) (proj2 US) timely0 SOME (FI NM)).
  Qed.
  Theorem matched_whole_reading s m : flat h root -> no_morph_pipeline h root -> parser_match U set_order c rel fuel h root text = Some (Ok (s, Some m)) -> m_range m = (0, length toks) ->
    exists ha, activated_graph (activate c) (activate_pipeline c) h ha root /\
    exists d w, present d = Some (erase (m_root m)) /\ traced g (fun _ => None) d w /\ words_of U set_order KNone ha root w /\ spells U w toks 0 (length toks) /\
      forall w', words_of U set_order KNone ha root w' -> spells U w' toks 0 (length toks) -> w' = w \/ sooner w w'.
  Proof.
    intros Fl NM H R. unfold parser_match in H. rewrite (with_parser_on U set_order c fuel h root text _ g toks made tokenized) in H.
    destruct (timely_reading U set_order c sets fuel h root built0 mild0 rule0 g toks made some Fl) as (ha & A & K). exists ha. split; [exact A|].
    destruct (whole_match_best (accepts U) narrow rel g toks FREE (proj1 US) (proj2 US) timely0 SOME (FI NM) fuel s m H R) as (d & B & P & _). destruct (K _ _ d B) as (w & T). exists d, w. auto.
  Qed.
End Text.

Section Fact.
  Variable U : unicode.
  Variable set_order : list str -> list str.
  Variable c : context.
  Hypothesis sets : set_iteration set_order.
  Variable rel : nat -> form -> form -> bool.
  Variable schemes : nat -> scheme.
  Variable subclass : nat -> nat -> bool.
  Variable inflect : nat -> list str -> option str.
  Variable interps : nat -> interpretator.
  Variable fuel : nat.
  Variable h : rule_heap.
  Variable root : nat.
  Hypothesis built0 : built h.
  Hypothesis flat0 : flat h root.
  Hypothesis rule0 : is_rule_at h root.
  Hypothesis top0 : top not_once h root.
  Variable g : grammar token predicate.
  Hypothesis made : parser_grammar U set_order c fuel h root = Some (Ok g).
  Hypothesis interpreted : g_interp g (g_start g) <> None.
  Variable toks : list token.
  Variable text : str.
  Hypothesis tokenized : text_tokens c text = Some (Ok toks).
  Hypothesis unrelated : no_relations_in h root.
  Hypothesis timely0 : timely g.
  Hypothesis some : ~ rule_accepts U set_order c h root [] 0 0.
  Hypothesis no_morph : no_morph_pipeline h root.
  Let mild0 := flat_harmless h root built0 flat0 rule0.
  Notation US := (usable U set_order c sets fuel h root g built0 mild0 rule0 made).
  Notation FREE := (absent_free U set_order c sets fuel h root built0 mild0 rule0 g made unrelated).
  Notation SOME := (absent_some U set_order c sets fuel h root built0 mild0 rule0 g made some).
  Notation FI := (built_filters U set_order c sets fuel h root g built0 mild0 rule0 made no_morph).
  Theorem matched_whole_value s m : parser_match U set_order c rel fuel h root text = Some (Ok (s, Some m)) -> m_range m = (0, length toks) ->
    exists ha, activated_graph (activate c) (activate_pipeline c) h ha root /\
    exists w, words_of U set_order KInterp ha root w /\ spells U w toks 0 (length toks) /\
      (forall w', words_of U set_order KInterp ha root w' -> spells U w' toks 0 (length toks) -> w' = w \/ sooner w w') /\
      read_value schemes subclass U inflect interps told_or_not w (tree_tokens s (m_root m)) (match_fact schemes subclass U inflect g interps s m).
  Proof.
    intros H R. unfold parser_match in H. rewrite (with_parser_on U set_order c fuel h root text _ g toks made tokenized) in H.
    destruct (best_told U set_order c sets schemes subclass inflect interps fuel h root built0 flat0 rule0 top0 g made interpreted toks told_or_not told_or_not_clear (told_or_not_by _ _ _) some) as (ha & A & K).
    exists ha. split; [exact A|].
    destruct (whole_match_best (accepts U) narrow rel g toks FREE (proj1 US) (proj2 US) timely0 SOME FI fuel s m H R) as (d & B & P & _). destruct (K _ _ d s m B P) as (w & _ & V). exists w. exact V.
  Qed.
End Fact.

(** Rules without parts that may be absent. *)
Theorem accepted_matched_solid U set_order c : set_iteration set_order -> forall rel fuel h root text, built h -> harmless h root -> is_rule_at h root -> solid h root ->
  forall s om, parser_match U set_order c rel fuel h root text = Some (Ok (s, om)) ->
  exists toks, text_tokens c text = Some (Ok toks) /\
    (rule_accepts U set_order c h root toks 0 (length toks) <-> exists m, om = Some m /\ m_range m = (0, length toks)).
Proof.
  intros SO rel fuel h root text B Mi R So s om H. assert (H' := H). unfold parser_match, with_parser in H'. apply then_ok in H' as (g & G & H'). apply then_ok in H' as (toks & Tk & _).
  assert (NN := solid_no_nullable U set_order c SO fuel h root g B Mi R G So).
  assert (Em : ~ rule_accepts U set_order c h root [] 0 0).
  { intros A. apply (accept_solid U set_order c SO fuel h root g B Mi R G So) in A as (d & D). destruct (solid_pos U set_order c SO fuel h root g B Mi R G So _ _ _ _ D). lia. }
  assert (Un : no_relations_in h root) by (intros x o Rx Ex; specialize (So x o Rx Ex); destruct o; auto).
  exists toks. split; [exact Tk|]. rewrite (accepted_matched U set_order c SO rel fuel h root text B Mi R g toks G Tk Un (no_nullable_timely g NN) Em _ H). split.
  - intros (s' & m & E & Rm). injection E as _ ->. eauto.
  - intros (m & -> & Rm). eauto.
Qed.
