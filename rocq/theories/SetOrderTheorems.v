(** Results that do not depend on the order in which sets are iterated. *)
From Coq Require String. Import String.StringSyntax.
From Verif Require Import Base TokenModel EarleyModel TokenizerModel TaggerModel PredicateModel PipelineModel PipelineSpec PipelineTheorems PredicateCases Cases TreeModel ParserModel
  RuleModel RuleSpec RuleBuild RuleMethods RuleKeep RuleBuilt GrammarModel GrammarProofs RuleCases TextModel TextSpec TextProofs IndexCases SetOrder.
Open Scope nat_scope.

Section Orders.
  Variable U : unicode.
  Variables order order' : list str -> list str.
  Variable c : context.
  Definition not_morph (p : pipeline) : Prop := pipeline_kind p <> Morph.
  Definition not_morph_bnf (b : pipeline_bnf) : Prop := b_kind b <> Morph.

  Lemma build_index_same (ps : list (list predicate)) : (forall q p, In q ps -> In p q -> match p with PDictionary _ => False | _ => True end) ->
    forall n i, build_index order n ps i = build_index order' n ps i.
  Proof.
    induction ps as [|q ps IH]; intros H n i; cbn [build_index]; [reflexivity|]. destruct q as [|p q]; [reflexivity|].
    assert (E : index_values order p = index_values order' p). { specialize (H (p :: q) p (or_introl eq_refl) (or_introl eq_refl)). destruct p; try reflexivity. destruct H. }
    rewrite E. apply IH. intros q' p' Hq. apply H. right. exact Hq.
  Qed.
  Lemma as_bnf_same p : not_morph p -> pipeline_as_bnf U order p = pipeline_as_bnf U order' p.
  Proof.
    intros N. unfold pipeline_as_bnf. destruct (pipeline_productions U p) as [ls|] eqn:E; [|reflexivity]. cbn [bind].
    rewrite (build_index_same (map snd ls)); [reflexivity|].
    intros q x Hq Hx. destruct p; cbn in E; try discriminate; try (destruct (N eq_refl)); injection E as <-; rewrite map_map in Hq; apply in_map_iff in Hq as (k & <- & _); cbn in Hx; apply in_map_iff in Hx as (y & <- & _); exact I.
  Qed.
  Lemma as_bnf_kind p b : pipeline_as_bnf U order p = Ok b -> b_kind b = pipeline_kind p.
  Proof. unfold pipeline_as_bnf. destruct pipeline_productions; [|discriminate]. cbn [bind]. destruct build_index; [|discriminate]. cbn. intros E. injection E as <-. reflexivity. Qed.
  Lemma predict_bnf_same b t : not_morph_bnf b -> pipeline_predict U order b t = pipeline_predict U order' b t.
  Proof. unfold not_morph_bnf, pipeline_predict. destruct (b_kind b); [reflexivity|reflexivity|intros N; destruct (N eq_refl)]. Qed.

  Section Rule.
    Variable fuel : nat.
    Variable h : rule_heap.
    Variable root : nat.
    Hypothesis built0 : built h.
    Hypothesis plain0 : no_morph_pipeline h root.
    Let D p := reach h root p \/ length h <= p.
    Lemma later0 p : length h <= p -> D p.
    Proof. right. assumption. Qed.
    Lemma root0 : D root.
    Proof. left. constructor. Qed.
    Lemma good0 : good_heap false false not_morph not_morph_bnf (fun _ => True) D (length h) h.
    Proof.
      split; [lia|]. intros p o [Rp|Lp] E; [|assert (p < length h) by (apply nth_error_Some; congruence); lia].
      split; [|intros d Hd; left; econstructor; eassumption].
      destruct (built_sound h built0 p o E) as (P & _). destruct o; cbn in P |- *; try discriminate; auto; try (split; [discriminate|auto]; fail). apply (plain0 p pipeline Rp E).
    Qed.
    Lemma made0 x b : not_morph x -> pipeline_as_bnf U order x = Ok b -> not_morph_bnf b.
    Proof. intros N E. unfold not_morph_bnf. rewrite (as_bnf_kind x b E). exact N. Qed.
    Lemma active0 x y : not_morph x -> activate_pipeline c x = Ok y -> not_morph y.
    Proof. intros N E. unfold not_morph. rewrite (active_kind c x y E). exact N. Qed.
    Lemma build_rule_same : build_rule U order c fuel h root = build_rule U order' c fuel h root.
    Proof.
      unfold build_rule. apply (parser_rule_agree _ _ b_productions (activate c) (activate_pipeline c) not_morph not_morph_bnf made0 active0 as_bnf_same D (length h) later0 fuel h root root0 good0).
    Qed.
    Lemma grammars_same : match parser_grammar U order c fuel h root with
      | Some (Ok g) => exists p, parser_grammar U order' c fuel h root = Some (Ok (with_predict g p)) /\ forall r t, g_predict g r t = p r t
      | x => parser_grammar U order' c fuel h root = x end.
    Proof.
      unfold parser_grammar. rewrite <- build_rule_same. destruct (build_rule U order c fuel h root) as [[[r h']|e]|] eqn:E; cbn [then_]; try reflexivity. destruct (bfs fuel h' r) as [objects|] eqn:B; [|reflexivity].
      destruct (parser_rule_keeps (pipeline_as_bnf U order) b_productions (activate c) (activate_pipeline c) false false not_morph not_morph_bnf (fun _ => True)) with (D := D) (n0 := length h) (fuel := fuel) (h := h) (root := root) (r := r) (h' := h') as [G Dr].
      - intros x b N Ex. split; [exact (made0 x b N Ex)|]. intros key ps _. split; [discriminate|auto].
      - exact active0.
      - auto.
      - exact later0.
      - exact root0.
      - exact good0.
      - exact E.
      - exists (g_predict (restrict objects (grammar_of (pipeline_predict U order') h' r))). split; [reflexivity|]. intros x t. cbn. destruct (is_in x objects) eqn:Ix; [|reflexivity].
        destruct (nth_error h' x) as [o|] eqn:Ex; [|reflexivity]. destruct o as [| | | | | | | | | | | | | |ps a|b ps a| | |]; try reflexivity.
        assert (Dx : D x). { assert (F := bfs_in false false not_morph not_morph_bnf (fun _ => True) D (length h) h' G fuel [r] [r] objects (Forall_cons _ Dr (Forall_nil _)) B). rewrite Forall_forall in F. apply F, is_in_true, Ix. }
        rewrite (predict_bnf_same b t); [reflexivity|]. apply (proj1 (proj2 G x _ Dx Ex)).
    Qed.
  End Rule.
  Theorem orders_agree rel fuel h root text : built h -> no_morph_pipeline h root ->
    parser_findall U order c rel fuel h root text = parser_findall U order' c rel fuel h root text /\
    parser_find U order c rel fuel h root text = parser_find U order' c rel fuel h root text /\
    parser_match U order c rel fuel h root text = parser_match U order' c rel fuel h root text /\
    forall all, parser_extract U order c rel fuel h root text all = parser_extract U order' c rel fuel h root text all.
  Proof.
    intros B N. assert (G := grammars_same fuel h root B N).
    assert (K : forall A (f : grammar token predicate -> list token -> option (res A)), (forall g p toks, (forall r t, g_predict g r t = p r t) -> f g toks = f (with_predict g p) toks) ->
      with_parser U order c fuel h root text f = with_parser U order' c fuel h root text f).
    { intros A f Hf. unfold with_parser. destruct (parser_grammar U order c fuel h root) as [[g|e]|]; [|rewrite G; reflexivity..].
      destruct G as (p & -> & Sp). cbn [then_]. destruct (text_tokens c text) as [[toks|]|]; cbn [then_]; auto. }
    repeat split; intros; unfold parser_findall, parser_find, parser_match, parser_extract; apply K; intros g p toks Sp.
    - apply findall_same, Sp.
    - apply find_same, Sp.
    - apply match_same, Sp.
    - rewrite (extract_same _ _ _ _ p Sp). reflexivity.
  Qed.
End Orders.

(** morph_pipeline(['сталь', 'стать']) on the text 'стали', which is a form of both. *)
Definition noun_word : str := [1089; 1090; 1072; 1083; 1100]%N.
Definition verb_word : str := [1089; 1090; 1072; 1090; 1100]%N.
Definition both_word : str := [1089; 1090; 1072; 1083; 1080]%N.
Definition noun_reading : form := mkForm noun_word [str_of "NOUN"] 0.
Definition verb_reading : form := mkForm verb_word [str_of "VERB"] 1.
Definition russian : context := mkContext small_tokenizer
  (Some (mkMorph (fun w => if str_eqb w noun_word then [noun_reading] else if str_eqb w verb_word then [verb_reading] else if str_eqb w both_word then [noun_reading; verb_reading] else []) (fun _ => true)))
  (Some PassTagger).
Definition lexicon : list rule_call := [CPipeline (scheme Morph [noun_word; verb_word])].
Definition no_relations : nat -> form -> form -> bool := fun _ _ _ => true.
(** The line of the dictionary that a match of the dictionary reports. *)
Definition line_reported (g : grammar token predicate) (m : amatch (pred := predicate)) : option str :=
  match m_root m with Node _ _ q _ _ => g_key g q | _ => None end.
Definition reported (order : list str -> list str) : option str :=
  match parser_grammar ASCII order russian 100 (program lexicon) 0, parser_match ASCII order russian no_relations 100 (program lexicon) 0 both_word with
  | Some (Ok g), Some (Ok (_, Some m)) => line_reported g m
  | _, _ => None
  end.
Lemma reported_first : reported first_seen = Some noun_word.
Proof. vm_compute. reflexivity. Qed.
Lemma reported_last : reported last_seen = Some verb_word.
Proof. vm_compute. reflexivity. Qed.
Lemma reported_parts order line : reported order = Some line -> exists g s m, parser_grammar ASCII order russian 100 (program lexicon) 0 = Some (Ok g) /\
  parser_match ASCII order russian no_relations 100 (program lexicon) 0 both_word = Some (Ok (s, Some m)) /\ line_reported g m = Some line.
Proof.
  unfold reported. destruct (parser_grammar _ _ _ _ _ _) as [[g|]|]; try discriminate. destruct (parser_match _ _ _ _ _ _ _ _) as [[[s [m|]]|]|]; try discriminate. eauto 6.
Qed.
Lemma orders_refute : exists U order order' c rel fuel h root text g g' s s' m m' line line',
  set_iteration order /\ set_iteration order' /\ built h /\ flat h root /\ is_rule_at h root /\
  parser_grammar U order c fuel h root = Some (Ok g) /\ parser_grammar U order' c fuel h root = Some (Ok g') /\
  parser_match U order c rel fuel h root text = Some (Ok (s, Some m)) /\ parser_match U order' c rel fuel h root text = Some (Ok (s', Some m')) /\
  line_reported g m = Some line /\ line_reported g' m' = Some line' /\ line <> line'.
Proof.
  destruct (reported_parts _ _ reported_first) as (g & s & m & G & P & L). destruct (reported_parts _ _ reported_last) as (g' & s' & m' & G' & P' & L').
  exists ASCII, first_seen, last_seen, russian, no_relations, 100, (program lexicon), 0, both_word, g, g', s, s', m, m', noun_word, verb_word.
  split; [exact first_seen_iterates|]. split; [exact last_seen_iterates|]. split; [apply program_built; reflexivity|]. split; [apply flatb_true; reflexivity|]. split; [apply is_rule_atb_true; reflexivity|].
  split; [exact G|]. split; [exact G'|]. split; [exact P|]. split; [exact P'|]. split; [exact L|]. split; [exact L'|]. discriminate.
Qed.
