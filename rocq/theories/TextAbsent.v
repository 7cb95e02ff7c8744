(** A Parser of a rule with parts that may be empty, applied to a text. *)
From Coq Require String.
From Verif Require Import Base TokenModel EarleyModel EarleySpec EarleyProofs TokenizerModel PredicateModel PipelineModel PipelineSpec
  TreeModel TreeSpec ParserModel ParserSpec ParserTheorems RuleModel RuleSpec RuleAccept RuleNormalized RuleBuild GrammarModel GrammarSpec RuleNestSpec RuleMild RuleTheorems TextModel TextSpec TextProofs TextTheorems
  AbsentSpec AbsentTheorems AbsentPrefer.
Open Scope nat_scope.

(** A rule that may be empty derives the empty text. *)
Lemma nullable_derives {token pred} (accepts : pred -> token -> bool) (g : grammar token pred) t : nullable g t -> exists d, derives accepts g [] t 0 0 d.
Proof.
  induction 1 as [r q Hq _ IH]. assert (D : exists ds, derives_seq accepts g [] (g_terms g q) 0 0 ds).
  { induction (g_terms g q) as [|t ts IHt]; [exists []; constructor|]. destruct (IH t (or_introl eq_refl)) as (d & D). destruct IHt as (ds & Ds); [intros t' Ht; apply IH; right; exact Ht|]. exists (d :: ds). econstructor; eauto. }
  destruct D as (ds & Ds). exists (DNode r q ds). econstructor; eauto.
Qed.

Section Absent.
  Variable U : unicode.
  Variable set_order : list str -> list str.
  Variable c : context.
  Hypothesis sets : set_iteration set_order.
  Variable rel : nat -> form -> form -> bool.
  Notation accept := (rule_accepts U set_order c).
  Variable fuel : nat.
  Variable h : rule_heap.
  Variable root : nat.
  Variable text : str.
  Hypothesis built0 : built h.
  Hypothesis mild0 : harmless h root.
  Hypothesis rule0 : is_rule_at h root.
  Variable g : grammar token predicate.
  Variable toks : list token.
  Hypothesis made : parser_grammar U set_order c fuel h root = Some (Ok g).
  Hypothesis tokenized : text_tokens c text = Some (Ok toks).
  Hypothesis unrelated : no_relations_in h root.
  Hypothesis timely0 : timely g.
  Hypothesis some : ~ accept h root [] 0 0.

  Lemma absent_free : relation_free g.
  Proof. apply (solid_relation_free U set_order c sets fuel h root g built0 mild0 rule0 made). intros x o Rx Ex. specialize (unrelated x o Rx Ex). destruct o; auto. Qed.
  Lemma absent_some : ~ nullable g (TRule (g_start g)).
  Proof.
    intros N. apply some. destruct (nullable_derives (accepts U) g _ N) as (d & D). apply (accept_iff U set_order c sets fuel h root g built0 mild0 rule0 made [] 0 0); [cbn; lia|eauto].
  Qed.
  Notation US := (usable U set_order c sets fuel h root g built0 mild0 rule0 made).
  Lemma absent_accept i j : (exists d, derives (accepts U) g toks (TRule (g_start g)) i j d) <-> accept h root toks i j.
  Proof.
    split.
    - intros (d & D). destruct (timely_pos (accepts U) g toks absent_some i j d D). apply (accept_iff U set_order c sets fuel h root g built0 mild0 rule0 made toks i j); [lia|eauto].
    - intros A. apply (accept_iff U set_order c sets fuel h root g built0 mild0 rule0 made toks i j); [apply (accept_start U set_order c h root toks i j A)|exact A].
  Qed.
  Theorem text_findall_timely r : parser_findall U set_order c rel fuel h root text = Some r ->
    exists s ms, r = Ok (s, ms) /\ best_ranges (fun x => accept h root toks (fst x) (snd x)) (map m_range ms).
  Proof.
    unfold parser_findall. rewrite (with_parser_on U set_order c fuel h root text _ g toks made tokenized). intros H.
    destruct (timely_findall (accepts U) narrow rel g toks absent_free (proj1 US) (proj2 US) timely0 absent_some fuel r H) as (s & ms & -> & B). exists s, ms. split; [reflexivity|].
    revert B. apply best_same. intros i j. apply absent_accept.
  Qed.
  Theorem text_match_timely r : parser_match U set_order c rel fuel h root text = Some r ->
    (exists s m, r = Ok (s, Some m) /\ snd (m_range m) = length toks /\ accept h root toks (fst (m_range m)) (snd (m_range m)) /\ (start_not_used g -> fst (m_range m) = 0)) \/
    (r = Ok ([], None) /\ ~ accept h root toks 0 (length toks)).
  Proof.
    unfold parser_match. rewrite (with_parser_on U set_order c fuel h root text _ g toks made tokenized). intros H.
    destruct (timely_match (accepts U) narrow rel g toks absent_free (proj1 US) (proj2 US) timely0 absent_some fuel r H) as [(s & m & -> & J & D & N)|[-> N]].
    - left. exists s, m. split; [reflexivity|]. split; [exact J|]. split; [apply absent_accept, D|exact N].
    - right. split; [reflexivity|]. intros A. apply absent_accept in A as (d & D). apply (N d D).
  Qed.

  (** Of the readings of a reported range the earliest one is reported, with the empty
      parts left out. *)
  Notation FI := (built_filters U set_order c sets fuel h root g built0 mild0 rule0 made).
  Lemma timely_reading (Fl : flat h root) : exists ha, activated_graph (activate c) (activate_pipeline c) h ha root /\
    forall i j d, best_derivation (accepts U) g toks i j d ->
    exists w, traced g (fun _ => None) d w /\ words_of U set_order KNone ha root w /\ spells U w toks i j /\
      forall w', words_of U set_order KNone ha root w' -> spells U w' toks i j -> w' = w \/ sooner w w'.
  Proof.
    destruct (words_kept U set_order c fuel h root g built0 Fl rule0 made) as (ha & A & K). exists ha. split; [exact A|]. intros i j d [D P].
    destruct (preferred_words g (accepts U) toks (fun _ => None) (keys_uniform U set_order c fuel h root g built0 mild0 rule0 made) _ _ _ _ D) as (w & T & L).
    assert (Li : i <= length toks) by (apply (timely_pos (accepts U) g toks absent_some) in D; lia). exists w. split; [exact T|].
    assert (R : reads U g (fun _ => None) toks i j w) by (exists d; auto). apply K in R as [W Sp]; [|exact Li]. split; [exact W|]. split; [exact Sp|].
    intros w' W' Sp'. assert (R' : reads U g (fun _ => None) toks i j w') by (apply K; auto). destruct R' as (d' & D' & T'). apply (L _ _ d' w' D'); [apply P, D'|exact T'].
  Qed.
  Theorem text_readings_timely s ms : flat h root -> no_morph_pipeline h root -> parser_findall U set_order c rel fuel h root text = Some (Ok (s, ms)) ->
    exists ha, activated_graph (activate c) (activate_pipeline c) h ha root /\
    forall m, In m ms -> exists d w, present d = Some (erase (m_root m)) /\ traced g (fun _ => None) d w /\ words_of U set_order KNone ha root w /\ spells U w toks (fst (m_range m)) (snd (m_range m)) /\
      forall w', words_of U set_order KNone ha root w' -> spells U w' toks (fst (m_range m)) (snd (m_range m)) -> w' = w \/ sooner w w'.
  Proof.
    intros Fl NM. unfold parser_findall. rewrite (with_parser_on U set_order c fuel h root text _ g toks made tokenized). intros H.
    destruct (timely_reading Fl) as (ha & A & K). exists ha. split; [exact A|]. intros m Hm.
    destruct (timely_findall_best (accepts U) narrow rel g toks absent_free (proj1 US) (proj2 US) (FI NM) timely0 absent_some fuel _ H) as (s' & ms' & trees & E & _ & _ & Best). injection E as <- <-.
    destruct (Best m Hm) as (d & B & P & _). destruct (K _ _ d B) as (w & T). exists d, w. auto.
  Qed.
  Theorem match_reading_timely s m : flat h root -> no_morph_pipeline h root -> start_not_used g -> parser_match U set_order c rel fuel h root text = Some (Ok (s, Some m)) ->
    exists ha, activated_graph (activate c) (activate_pipeline c) h ha root /\ m_range m = (0, length toks) /\
    exists d w, present d = Some (erase (m_root m)) /\ traced g (fun _ => None) d w /\ words_of U set_order KNone ha root w /\ spells U w toks 0 (length toks) /\
      forall w', words_of U set_order KNone ha root w' -> spells U w' toks 0 (length toks) -> w' = w \/ sooner w w'.
  Proof.
    intros Fl NM NU. unfold parser_match. rewrite (with_parser_on U set_order c fuel h root text _ g toks made tokenized). intros H.
    destruct (timely_reading Fl) as (ha & A & K). exists ha. split; [exact A|].
    destruct (timely_match_best (accepts U) narrow rel g toks absent_free (proj1 US) (proj2 US) (FI NM) timely0 absent_some fuel _ NU H) as [(s' & m' & d & E & R & B & P & _)|[E _]]; [|discriminate]. injection E as <- <-. split; [exact R|].
    destruct (K _ _ d B) as (w & T). exists d, w. auto.
  Qed.
  Theorem text_agree_timely s m r : no_morph_pipeline h root -> start_not_used g -> parser_match U set_order c rel fuel h root text = Some (Ok (s, Some m)) -> parser_findall U set_order c rel fuel h root text = Some r ->
    exists s' m', r = Ok (s', [m']) /\ m_range m' = m_range m /\ erase (m_root m') = erase (m_root m) /\ m_tokens m' = m_tokens m /\ m_span m' = m_span m.
  Proof.
    intros NM NU. unfold parser_match, parser_findall. rewrite !(with_parser_on U set_order c fuel h root text _ g toks made tokenized).
    apply (timely_agree (accepts U) narrow rel g toks absent_free (proj1 US) (proj2 US) (FI NM) timely0 absent_some fuel fuel s m r NU).
  Qed.
End Absent.
