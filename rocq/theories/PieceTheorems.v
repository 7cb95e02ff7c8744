(** A Parser applied to a text put together from two texts. *)
From Verif Require Import Base TokenModel EarleyModel EarleySpec EarleyProofs TokenizerModel TaggerModel PredicateModel PredicateSpec PredicateProofs PipelineModel PipelineSpec
  TreeModel TreeSpec ParserModel ParserSpec ParserTheorems RuleModel RuleSpec RuleAccept RuleNormalized RuleBuild GrammarModel GrammarSpec RuleNestSpec RuleMild RuleTheorems TextModel TextSpec TextProofs TextTheorems
  RaiseSpec RaiseTheorems AbsentSpec AbsentTheorems AbsentPrefer TextAbsent PieceSpec PieceTokens PieceProofs.
Open Scope nat_scope.

(** ** Predicates and positions *)
(** No predicate class of the user inside. *)
Definition from_bank (p : predicate) : Prop := forall f, ~ inside (PUser f) p.
Lemma from_bank_blind U p : from_bank p -> blind U p.
Proof.
  intros N k t. unfold from_bank in N. induction p using predicate_rect'.
  - cbn. f_equal. apply map_ext_in. intros q Hq. rewrite Forall_forall in H. apply H; [exact Hq|]. intros f I. apply (N f). econstructor; eassumption.
  - cbn. f_equal. apply map_ext_in. intros q Hq. rewrite Forall_forall in H. apply H; [exact Hq|]. intros f I. apply (N f). eapply inside_or; eassumption.
  - cbn. rewrite IHp; [reflexivity|]. intros f I. apply (N f). constructor. exact I.
  - destruct p; try contradiction; try reflexivity. exfalso. apply (N function). constructor.
Qed.
Lemma activated_bank c : forall p q, activate c p = Ok q -> from_bank p -> from_bank q.
Proof.
  assert (L : forall ps qs, mapM (activate c) ps = Ok qs -> forall q, In q qs -> exists p, In p ps /\ activate c p = Ok q).
  { induction ps as [|p ps IH]; intros qs M q Hq; cbn in M; [injection M as <-; destruct Hq|]. destruct (activate c p) as [q0|] eqn:E; [|discriminate]. cbn in M. destruct (mapM (activate c) ps) as [qs0|] eqn:M0; [|discriminate].
    cbn in M. injection M as <-. destruct Hq as [<-|Hq]; [exists p; split; [left; reflexivity|exact E]|]. destruct (IH qs0 eq_refl q Hq) as (p' & Hp & E'). exists p'. split; [right; exact Hp|exact E']. }
  intros p. induction p using predicate_rect'; intros q E N f I.
  - cbn in E. destruct (mapM (activate c) ps) as [qs|] eqn:M; [|discriminate]. cbn in E. injection E as <-. inversion I; subst. destruct (L ps qs M p H1) as (p' & Hp & Ep). rewrite Forall_forall in H. apply (H p' Hp p Ep) with (f := f); [|assumption]. intros f' I'. apply (N f'). econstructor; eassumption.
  - cbn in E. destruct (mapM (activate c) ps) as [qs|] eqn:M; [|discriminate]. cbn in E. injection E as <-. inversion I; subst. destruct (L ps qs M p H1) as (p' & Hp & Ep). rewrite Forall_forall in H. apply (H p' Hp p Ep) with (f := f); [|assumption]. intros f' I'. apply (N f'). eapply inside_or; eassumption.
  - cbn in E. destruct (activate c p) as [q'|] eqn:M; [|discriminate]. cbn in E. injection E as <-. inversion I; subst. apply (IHp q' eq_refl) with (f := f); [|assumption]. intros f' I'. apply (N f'). constructor. exact I'.
  - destruct p; try contradiction; cbn in E; unfold bind in E;
      repeat match type of E with context [match ?x with _ => _ end] => destruct x; try discriminate end;
      injection E as <-; inversion I; subst; eapply N; constructor.
Qed.
(** A rule none of whose predicates is a class of the user. *)
Lemma bank_rule_blind U c h root : (forall x ts main p, reach h root x -> nth_error h x = Some (OProd ts main) -> In (TPred p) ts -> from_bank p) -> blind_rule U c h root.
Proof. intros N x ts main p q R E I A. apply from_bank_blind, (activated_bank c p q A), (N x ts main p R E I). Qed.

Lemma narrow_moved k p t : narrow p (moved k t) = moved k (narrow p t).
Proof.
  destruct t as [v st sp ty tg fm]. destruct p; try reflexivity; destruct fm as [fs|]; try reflexivity; unfold narrow, constrain, get_forms, moved, constrained, bind; cbn [t_forms t_value t_start t_stop t_type t_tag]; match goal with |- context [filter ?f fs] => destruct (filter f fs) end; reflexivity.
Qed.

(** ** Spans *)
Definition bounded (toks : list token) (x : (nat * nat) * (Z * Z)) : Prop :=
  exists a b, nth_error toks (fst (fst x)) = Some a /\ nth_error toks (snd (fst x) - 1) = Some b /\ fst (fst x) < snd (fst x) /\ snd x = (t_start a, t_stop b).
Lemma bounded_lists toks : forall x y, Forall (bounded toks) x -> Forall (bounded toks) y -> map fst x = map fst y -> x = y.
Proof.
  induction x as [|[r sp] x IH]; intros [|[r' sp'] y] F G E; try discriminate; [reflexivity|]. inversion F as [|? ? B F']; inversion G as [|? ? B' G']; subst. cbn [map fst] in E. injection E as -> E. f_equal; [|apply IH; assumption].
  destruct B as (a & b & A1 & A2 & _ & A3), B' as (a' & b' & B1 & B2 & _ & B3). cbn [fst snd] in *. congruence.
Qed.
Lemma bounded_first a b x : bounded a x -> bounded (a ++ b) x.
Proof.
  intros (u & v & A1 & A2 & L & A3). exists u, v. split; [rewrite nth_error_app1; [exact A1|apply nth_error_Some; congruence]|]. split; [rewrite nth_error_app1; [exact A2|apply nth_error_Some; congruence]|]. auto.
Qed.
Lemma bounded_second k a b r sp : bounded b (r, sp) -> bounded (a ++ map (moved k) b) (later_range (length a) r, later_span k sp).
Proof.
  intros (u & v & A1 & A2 & L & A3). cbn [fst snd] in *. exists (moved k u), (moved k v). cbn [fst snd later_range].
  split; [rewrite nth_error_app2, nth_error_map by lia; replace (length a + fst r - length a) with (fst r) by lia; rewrite A1; reflexivity|].
  split; [rewrite nth_error_app2, nth_error_map by lia; replace (length a + snd r - 1 - length a) with (snd r - 1) by lia; rewrite A2; reflexivity|]. split; [lia|]. subst. reflexivity.
Qed.

Section Text.
  Variable U : unicode.
  Variable set_order : list str -> list str.
  Variable c : context.
  Hypothesis sets : set_iteration set_order.
  Variable rel : nat -> form -> form -> bool.
  Notation accept := (rule_accepts U set_order c).
  Variable fuel : nat.
  Variable h : rule_heap.
  Variable root : nat.
  Hypothesis built0 : built h.
  Hypothesis mild0 : harmless h root.
  Hypothesis rule0 : is_rule_at h root.
  Variable g : grammar token predicate.
  Hypothesis made : parser_grammar U set_order c fuel h root = Some (Ok g).
  Hypothesis unrelated : no_relations_in h root.
  Hypothesis timely0 : timely g.
  Hypothesis some : ~ accept h root [] 0 0.
  Hypothesis blind0 : blind_rule U c h root.
  Variables a b : str.
  Variable x : N.
  Hypothesis between : separates (c_tokenizer c) x.
  Hypothesis tags : tags_apart c.
  Variables ts ts' : list token.
  Hypothesis tokens_a : text_tokens c a = Some (Ok ts).
  Hypothesis tokens_b : text_tokens c b = Some (Ok ts').
  Notation k := (Z.of_nat (S (length a))).
  Notation n := (length ts).
  (** Nothing accepted crosses the border. *)
  Hypothesis apart : forall toks, text_tokens c (a ++ x :: b) = Some (Ok toks) -> forall i j, accept h root toks i j -> j <= n \/ n <= i.

  Notation US := (usable U set_order c sets fuel h root g built0 mild0 rule0 made).
  Notation RF := (absent_free U set_order c sets fuel h root built0 mild0 rule0 g made unrelated).
  Notation NN := (absent_some U set_order c sets fuel h root built0 mild0 rule0 g made some).
  Notation toks := (ts ++ map (moved k) ts').
  Lemma tokens_ab : text_tokens c (a ++ x :: b) = Some (Ok toks).
  Proof. apply text_tokens_join; assumption. Qed.
  Lemma blind_terms r q p : In q (g_prods g r) -> In (TPred p) (g_terms g q) -> forall t, accepts U p (moved k t) = accepts U p t.
  Proof.
    intros Q P t. unfold accepts. destruct (grammar_preds U set_order c fuel h root built0 mild0 rule0 g made r q p Q P) as [K|(y & l & main & p0 & R & E & I & A)].
    - destruct p; try contradiction; reflexivity.
    - rewrite (blind0 y l main p0 p R E I A). reflexivity.
  Qed.
  Lemma apart_derives i j d : derives (accepts U) g toks (TRule (g_start g)) i j d -> j <= n \/ n <= i.
  Proof. intros D. apply (apart toks tokens_ab). apply (absent_accept U set_order c sets fuel h root built0 mild0 rule0 g toks made some). eauto. Qed.
  Lemma findall_on text toks' r : text_tokens c text = Some (Ok toks') -> parser_findall U set_order c rel fuel h root text = Some r -> findall (accepts U) narrow rel g fuel toks' = Some r.
  Proof. intros T. unfold parser_findall. rewrite (with_parser_on U set_order c fuel h root text _ g toks' made T). auto. Qed.

  Theorem text_ranges_join s s1 s2 ms ms1 ms2 :
    parser_findall U set_order c rel fuel h root (a ++ x :: b) = Some (Ok (s, ms)) ->
    parser_findall U set_order c rel fuel h root a = Some (Ok (s1, ms1)) -> parser_findall U set_order c rel fuel h root b = Some (Ok (s2, ms2)) ->
    map (fun m => (m_range m, m_span m)) ms = map (fun m => (m_range m, m_span m)) ms1 ++ map (fun m => (later_range n (m_range m), later_span k (m_span m))) ms2.
  Proof.
    intros F F1 F2.
    assert (R := ranges_join (accepts U) narrow rel g ts ts' k blind_terms RF (proj1 US) (proj2 US) timely0 NN apart_derives fuel fuel fuel s s1 s2 ms ms1 ms2
      (findall_on _ _ _ tokens_ab F) (findall_on _ _ _ tokens_a F1) (findall_on _ _ _ tokens_b F2)).
    assert (G : forall text l s ms, text_tokens c text = Some (Ok l) -> parser_findall U set_order c rel fuel h root text = Some (Ok (s, ms)) -> Forall (fun m => bounded l (m_range m, m_span m)) ms).
    { intros text l s0 ms0 T F0. apply Forall_forall. intros m I. destruct (text_findall U set_order c sets rel fuel h root text built0 mild0 rule0 s0 ms0 F0) as (l' & T' & M). rewrite T in T'. injection T' as <-. destruct (M m I) as (_ & _ & X). exact X. }
    assert (F' := G _ _ _ _ tokens_ab F). assert (F1' := G _ _ _ _ tokens_a F1). assert (F2' := G _ _ _ _ tokens_b F2).
    apply (bounded_lists toks).
    - rewrite Forall_map. exact F'.
    - apply Forall_app. rewrite !Forall_map. split; eapply Forall_impl; try eassumption; cbn beta; intros m.
      + apply bounded_first.
      + apply bounded_second.
    - rewrite map_app, !map_map. cbn [fst]. transitivity (map m_range ms); [reflexivity|]. rewrite R, map_map. reflexivity.
  Qed.
  Hypothesis no_morph : no_morph_pipeline h root.
  Theorem text_findall_join s s1 s2 ms ms1 ms2 :
    parser_findall U set_order c rel fuel h root (a ++ x :: b) = Some (Ok (s, ms)) ->
    parser_findall U set_order c rel fuel h root a = Some (Ok (s1, ms1)) -> parser_findall U set_order c rel fuel h root b = Some (Ok (s2, ms2)) ->
    map shown ms = map shown ms1 ++ map (later n k) (map shown ms2).
  Proof.
    intros F F1 F2.
    apply (findall_join (accepts U) narrow rel g ts ts' k blind_terms (narrow_moved k) RF (proj1 US) (proj2 US) timely0 NN apart_derives
      (built_filters U set_order c sets fuel h root g built0 mild0 rule0 made no_morph) fuel fuel fuel s s1 s2 ms ms1 ms2
      (findall_on _ _ _ tokens_ab F) (findall_on _ _ _ tokens_a F1) (findall_on _ _ _ tokens_b F2)).
  Qed.
End Text.

(** Taggers one after the other. *)
Lemma composed_apart t m tgs : (forall tg, In tg tgs -> tags_apart (mkContext t m (Some tg))) -> tags_apart (mkContext t m (Some (TaggersComposition tgs))).
Proof.
  intros A k a b. cbn [tagger_call]. revert a b. induction tgs as [|tg tgs IH]; intros a b; [reflexivity|]. cbn [fold_left].
  rewrite (A tg (or_introl eq_refl) k a b). apply IH. intros tg' I. apply A. right. exact I.
Qed.
