(** The grammar of a parser: soundness and completeness of its lookup, acceptance. *)
From Verif Require Import Base TokenModel EarleyModel EarleySpec EarleyProofs ParserModel ParserSpec PredicateModel PredicateProofs PipelineModel PipelineSpec PipelineProofs
  RuleModel RuleSpec RuleWords RuleLike RulePass RuleMethods RuleNormal RuleNormalized RuleBfs RuleBNF RuleForward RuleNames RuleAccept RuleTrace RuleActivate RuleTransfer RuleRoot RuleParser GrammarModel GrammarSpec.
Open Scope nat_scope.

Lemma pipe_twice c x y : activate_pipeline c x = Ok y -> activate_pipeline c y = Ok y.
Proof.
  destruct x; cbn; try (intros H; injection H as <-; reflexivity);
    match goal with |- context [mapM ?f ?l] => destruct (mapM f l); cbn; [|discriminate]; intros H; injection H as <-; reflexivity end.
Qed.
Lemma pred_twice c p q : activate c p = Ok q -> activate c q = Ok q.
Proof. apply activate_twice. Qed.
Lemma lines_active U set_order c x b key ps p :
  active_bnf (pipeline_as_bnf U set_order) (activate_pipeline c) x = Ok b -> In (key, ps) (b_productions b) -> In p ps -> activate c p = Ok p.
Proof.
  unfold active_bnf. destruct (activate_pipeline c x) as [y|e]; [|discriminate]. unfold pipeline_as_bnf. destruct (pipeline_productions U y) as [l|e] eqn:E; [|discriminate]. cbn.
  destruct (build_index _ _ _ _) as [i|e]; [|discriminate]. cbn. intros H. injection H as <-. cbn. intros H Hp.
  destruct y; try discriminate; injection E as <-; apply in_map_iff in H as (k & H & _); injection H as <- <-; apply in_map_iff in Hp as (v & <- & _); reflexivity.
Qed.

Lemma forall2_get {A B} (P : A -> B -> Prop) l l' k a : Forall2 P l l' -> nth_error l k = Some a -> exists b, nth_error l' k = Some b /\ P a b.
Proof.
  intros F. revert k. induction F as [|x y l l' H F IH]; intros [|k] E; try discriminate; cbn in *.
  - injection E as <-. eauto.
  - eauto.
Qed.
Lemma filter_true {A} (l : list A) : filter (fun _ => true) l = l.
Proof. induction l; cbn; congruence. Qed.
Lemma picked (ps : list nat) : forall F keep, (forall k q, nth_error ps k = Some q -> keep q = F k) ->
  flat_map (fun i => match nth_error ps i with Some q => [q] | None => [] end) (filter F (seq 0 (length ps))) = filter keep ps.
Proof.
  induction ps as [|x ps IH]; intros F keep K; [reflexivity|]. cbn [length seq]. rewrite <- seq_shift.
  assert (E : flat_map (fun i => match nth_error (x :: ps) i with Some q => [q] | None => [] end) (filter F (map S (seq 0 (length ps)))) = filter keep ps).
  { rewrite <- (IH (fun k => F (S k)) keep (fun k q => K (S k) q)). clear. induction (seq 0 (length ps)) as [|y l IH]; [reflexivity|]. cbn. destruct (F (S y)); cbn; rewrite IH; reflexivity. }
  cbn. rewrite (K 0 x eq_refl). destruct (F 0); cbn; rewrite <- E; reflexivity.
Qed.

Section Restrict.
  Variable accepts : predicate -> token -> bool.
  Variable g : grammar token predicate.
  Variable objects : list nat.
  Hypothesis closed : forall r q r', In r objects -> In q (g_prods g r) -> In (TRule r') (g_terms g q) -> In r' objects.
  Lemma is_in_true r : is_in r objects = true <-> In r objects.
  Proof. unfold is_in. rewrite existsb_exists. split; [intros (x & Hx & E); apply Nat.eqb_eq in E as <-; exact Hx|]. intros H. exists r. rewrite Nat.eqb_refl. auto. Qed.
  Lemma restrict_sound toks : (forall t i j d, derives accepts (restrict objects g) toks t i j d -> derives accepts g toks t i j d) /\
    (forall ts i j ds, derives_seq accepts (restrict objects g) toks ts i j ds -> derives_seq accepts g toks ts i j ds).
  Proof.
    apply (derives_mutind _ _ accepts (restrict objects g) toks (fun t i j d _ => derives accepts g toks t i j d) (fun ts i j ds _ => derives_seq accepts g toks ts i j ds)); intros.
    - econstructor; eassumption.
    - cbn in i0. destruct (is_in r objects); [|destruct i0]. constructor; assumption.
    - constructor.
    - econstructor; eassumption.
  Qed.
  Lemma restrict_complete toks : (forall t i j d, derives accepts g toks t i j d -> (forall r, t = TRule r -> In r objects) -> derives accepts (restrict objects g) toks t i j d) /\
    (forall ts i j ds, derives_seq accepts g toks ts i j ds -> (forall r, In (TRule r) ts -> In r objects) -> derives_seq accepts (restrict objects g) toks ts i j ds).
  Proof.
    apply (derives_mutind _ _ accepts g toks (fun t i j d _ => (forall r, t = TRule r -> In r objects) -> derives accepts (restrict objects g) toks t i j d)
      (fun ts i j ds _ => (forall r, In (TRule r) ts -> In r objects) -> derives_seq accepts (restrict objects g) toks ts i j ds)).
    - intros p i t E A _. econstructor; eassumption.
    - intros r q i j ds Hq D IH K. specialize (K r eq_refl). constructor.
      + cbn. rewrite (proj2 (is_in_true r) K). exact Hq.
      + apply IH. intros r' Hr. apply (closed r q r' K Hq Hr).
    - constructor.
    - intros t ts i k j d ds D IH1 Ds IH2 K. econstructor; [apply IH1; intros r ->; apply K; left; reflexivity|]. apply IH2. intros r Hr. apply K. right. exact Hr.
  Qed.
  Lemma restrict_traced sh d w : traced (restrict objects g) sh d w -> traced g sh d w.
  Proof.
    revert d w. fix IH 3. intros d w T. destruct T as [i p|r q i ds w E T]; [constructor|].
    assert (Ep : g_prods (restrict objects g) r = g_prods g r) by (cbn in E |- *; destruct (is_in r objects); [reflexivity|destruct i; discriminate]).
    rewrite Ep in E |- *. change (g_key (restrict objects g) q) with (g_key g q). change (g_main (restrict objects g) q) with (g_main g q) in T.
    econstructor; [exact E|]. clear E Ep.
    revert T. generalize (g_main g q) as m, 0 as k. revert w. revert ds. fix IHs 5. intros ds w m k T. destruct T as [m k|m k d ds u w T1 T2]; [constructor|].
    constructor; [apply IH, T1|apply IHs, T2].
  Qed.
  Lemma traced_restrict sh toks t i j d w : derives accepts g toks t i j d -> (forall r, t = TRule r -> In r objects) -> traced g sh d w -> traced (restrict objects g) sh d w.
  Proof.
    intros D. revert w. revert t i j d D.
    enough (K : (forall t i j d, derives accepts g toks t i j d -> (forall r, t = TRule r -> In r objects) -> forall w, traced g sh d w -> traced (restrict objects g) sh d w) /\
      (forall ts i j ds, derives_seq accepts g toks ts i j ds -> (forall r, In (TRule r) ts -> In r objects) -> forall m k w, traced_children g sh m k ds w -> traced_children (restrict objects g) sh m k ds w))
      by (intros t i j d D w K0 T; exact (proj1 K t i j d D K0 w T)).
    apply (derives_mutind _ _ accepts g toks (fun t i j d _ => (forall r, t = TRule r -> In r objects) -> forall w, traced g sh d w -> traced (restrict objects g) sh d w)
      (fun ts i j ds _ => (forall r, In (TRule r) ts -> In r objects) -> forall m k w, traced_children g sh m k ds w -> traced_children (restrict objects g) sh m k ds w)).
    - intros p i t E A _ w T. inversion T; subst. constructor.
    - intros r q i j ds Hq D IH K w T. specialize (K r eq_refl). inversion T as [|? ? n ? u En Tc]; subst.
      assert (Ei := proj2 (is_in_true r) K).
      assert (Ep : g_prods (restrict objects g) r = g_prods g r) by (cbn; rewrite Ei; reflexivity).
      rewrite <- Ep. apply (traced_node (restrict objects g) sh r q n ds u); [rewrite Ep; exact En|]. apply IH; [|exact Tc]. intros r' Hr. apply (closed r q r' K Hq Hr).
    - intros i K m k w T. inversion T; subst. constructor.
    - intros t ts i k j d ds D IH1 Ds IH2 K m n w T. inversion T; subst. constructor; [apply IH1; [intros r ->; apply K; left; reflexivity|assumption]|].
      apply IH2; [|assumption]. intros r Hr. apply K. right. exact Hr.
  Qed.
End Restrict.

Section Grammar.
  Variable U : unicode.
  Variable set_order : list str -> list str.
  Variable c : context.
  Notation pipe_bnf := (pipeline_as_bnf U set_order).
  Notation heap := rule_heap.

  Section Heap.
    Variable h : heap.
    Variable r : nat.
    Variable objects : list nat.
    Hypothesis objects_reach : forall x, In x objects <-> reach h r x.
    Hypothesis graph0 : bnf_graph pipe_bnf b_productions false h (reach h r).
    Let g := grammar_of (pipeline_predict U set_order) h r.

    Lemma objects_closed x q x' : In x objects -> In q (g_prods g x) -> In (TRule x') (g_terms g q) -> In x' objects.
    Proof.
      intros Hx Hq Ht. apply objects_reach in Hx. apply objects_reach. cbn in Hq, Ht. destruct (nth_error h x) as [o|] eqn:E; [|destruct Hq].
      destruct (nth_error h q) as [oq|] eqn:Eq; [|destruct Ht].
      assert (Rq : reach h r q) by (apply (reach_step h r x o q Hx E); destruct o; try contradiction; exact Hq).
      apply (reach_step h r q oq x' Rq Eq). destruct oq; cbn in Ht; try contradiction; try (apply in_map_iff in Ht as (z & Hz & _); discriminate).
      cbn. unfold rule_terms. apply in_flat_map. exists (TRule x'). split; [exact Ht|left; reflexivity].
    Qed.
    Let gr := restrict objects g.
    Lemma finite0 : finite_grammar gr objects.
    Proof.
      split; [apply objects_reach; constructor|]. intros x q x' Hx Hq. change (g_terms gr q) with (g_terms g q). cbn in Hq. rewrite (proj2 (is_in_true objects x) Hx) in Hq. exact (objects_closed x q x' Hx Hq).
    Qed.
    Lemma sound0 : predict_sound gr.
    Proof.
      intros x t q. cbn. destruct (is_in x objects); [|auto]. destruct (nth_error h x) as [o|]; [|auto]. destruct o as [| | | | | | | | | | | | | |ps a|b ps a| | |]; auto. intros H. apply in_flat_map in H as (k & _ & H).
      destruct (nth_error ps k) eqn:E; [|destruct H]. destruct H as [<-|[]]. exact (nth_error_In _ _ E).
    Qed.
    Hypothesis sets : set_iteration set_order.
    Lemma complete0 : predict_complete (accepts U) gr.
    Proof.
      intros x t q. cbn. destruct (is_in x objects) eqn:Ix; [|auto]. apply is_in_true in Ix. apply objects_reach in Ix. destruct (graph0 x Ix) as (o & E & B & _). rewrite E.
      destruct o as [| | | | | | | | | | | | | |ps a|b ps a| | |]; auto.
      destruct B as [(p & Hp) F]. intros Hq Hf. apply In_nth_error in Hq as (k & Hk). apply in_flat_map. exists k. rewrite Hk. split; [|left; reflexivity].
      apply (predict_spec U set_order sets p b Hp). destruct (forall2_get _ _ _ k q F Hk) as ([key fs] & El & Eq). cbn in Eq. rewrite Eq in Hf. cbn in Hf.
      destruct (as_bnf_spec U set_order sets p b Hp) as (_ & _ & NE & _). destruct fs as [|first rest]; [destruct (NE key [] (nth_error_In _ _ El) eq_refl)|]. exists key, first, rest. auto.
    Qed.
    Lemma filters0 : (forall x b ps a, reach h r x -> nth_error h x = Some (OPipeBNF b ps a) -> b_kind b <> Morph) -> predict_filters gr.
    Proof.
      intros M x t. cbn. destruct (is_in x objects) eqn:Ix; [|exists (fun _ => true); reflexivity]. apply is_in_true in Ix. apply objects_reach in Ix. destruct (graph0 x Ix) as (o & E & B & _). rewrite E.
      destruct o as [| | | | | | | | | | | | | |ps a|b ps a| | |]; try (exists (fun _ => true); rewrite ?filter_true; reflexivity).
      destruct B as [(p & Hp) F]. exists (fun q => match nth_error h q with Some (OPipeProd _ (first :: _)) => accepts U first t | _ => false end).
      rewrite (predict_filter U set_order sets p b Hp (M x b ps a Ix E) t). unfold production_numbers. rewrite <- (forall2_length _ _ _ F). apply picked.
      intros k q Hk. destruct (forall2_get _ _ _ k q F Hk) as ([key fs] & El & Eq). cbn in Eq. rewrite Eq, El. reflexivity.
    Qed.
  End Heap.

  Notation rule_accepts := (rule_accepts U set_order c).
  Theorem parser_grammar_ok fuel (h : heap) root g : set_iteration set_order -> source h root -> parser_grammar U set_order c fuel h root = Some (Ok g) ->
    (exists rules, finite_grammar g rules) /\ predict_sound g /\ predict_complete (accepts U) g /\
    forall toks i j, i <= length toks -> ((exists d, derives (accepts U) g toks (TRule (g_start g)) i j d) <-> rule_accepts h root toks i j).
  Proof.
    intros Se S H. unfold parser_grammar in H. apply then_ok in H as ((r & h') & H & Hb). destruct (bfs fuel h' r) as [objects|] eqn:Bf; [|discriminate]. injection Hb as <-.
    destruct (bfs_ok h' fuel r objects Bf) as (_ & Re & _).
    destruct (parser_rule_ok pipe_bnf b_productions (activate c) (activate_pipeline c) (pred_twice c) (pipe_twice c) fuel h root r h' S H) as (ha & rn & hn & h1 & l & _ & _ & _ & B & _).
    split; [exists objects; apply finite0, Re|]. split; [apply sound0|]. split; [apply complete0; assumption|].
    intros toks i j Li. eapply iff_trans; [|apply (parser_accepts pipe_bnf b_productions (accepts U) (pipeline_predict U set_order) (activate c) (activate_pipeline c) (pred_twice c) (pipe_twice c)
      (lines_active U set_order c) fuel h root r h' toks i j S H Li)].
    split; intros (d & D); exists d.
    - apply (restrict_sound (accepts U) _ objects toks) in D. exact D.
    - apply (restrict_complete (accepts U) _ objects (objects_closed h' r objects Re) toks); [exact D|]. intros x Ex. injection Ex as <-. apply Re. constructor.
  Qed.

  Lemma traced_shown (g : grammar token predicate) sh sh' d w : (forall r, g_prods g r <> [] -> sh r = sh' r) -> traced g sh d w -> traced g sh' d w.
  Proof.
    intros E. revert d w. fix IH 3. intros d w T. destruct T as [i p|r q i ds w Eq T]; [constructor|]. rewrite E by (intros Z; rewrite Z in Eq; destruct i; discriminate). econstructor; [exact Eq|]. clear Eq.
    revert T. generalize (g_main g q) as m, 0 as k. revert w. revert ds. fix IHs 5. intros ds w m k T. destruct T as [m k|m k d ds u w T1 T2]; [constructor|].
    constructor; [apply IH, T1|apply IHs, T2].
  Qed.
  Lemma reads_restrict (h' : heap) r objects sh toks i j w : (forall x, In x objects <-> reach h' r x) ->
    reads U (restrict objects (grammar_of (pipeline_predict U set_order) h' r)) sh toks i j w <->
    exists d, derives (accepts U) (grammar_of (pipeline_predict U set_order) h' r) toks (TRule r) i j d /\ traced (grammar_of (pipeline_predict U set_order) h' r) sh d w.
  Proof.
    intros Re. assert (K : forall x, TRule (pred := predicate) r = TRule x -> In x objects) by (intros x Ex; injection Ex as <-; apply Re; constructor). split; intros (d & D & T); exists d.
    - split; [apply (restrict_sound (accepts U) _ objects toks) in D; exact D|]. apply (restrict_traced _ objects), T.
    - split; [apply (restrict_complete (accepts U) _ objects (objects_closed h' r objects Re) toks); [exact D|exact K]|].
      apply (traced_restrict (accepts U) _ objects (objects_closed h' r objects Re) sh toks (TRule r) i j d w D K T).
  Qed.

  Theorem parser_grammar_traces fuel (h : heap) root g kd : source h root -> parser_grammar U set_order c fuel h root = Some (Ok g) ->
    kd = KNone \/ (top not_once h root /\ kd <> KName) ->
    exists ha, activated_graph (activate c) (activate_pipeline c) h ha root /\
    forall toks i j w, i <= length toks -> reads U g (attribute_of kd g) toks i j w <-> words_of U set_order kd ha root w /\ spells U w toks i j.
  Proof.
    intros S H K. unfold parser_grammar in H. apply then_ok in H as ((r & h') & H & Hb). destruct (bfs fuel h' r) as [objects|] eqn:Bf; [|discriminate]. injection Hb as <-.
    destruct (bfs_ok h' fuel r objects Bf) as (_ & Re & _).
    destruct (parser_rule_ok pipe_bnf b_productions (activate c) (activate_pipeline c) (pred_twice c) (pipe_twice c) fuel h root r h' S H) as (ha & rn & hn & h1 & l & A & (Ga & Oa & Ra) & Hn & B & (o & E & Bo) & W0 & W & _).
    exists ha. split; [exact A|]. intros toks i j w Li.
    assert (Wk : same (open_words pipe_bnf b_productions kd none ha root) (open_words pipe_bnf b_productions kd none h' r)).
    { destruct K as [->|[T N]]; [exact W0|]. apply W; [|exact N].
      apply (top_not_sole hn rn (normalized_top pipe_bnf b_productions fuel ha root rn hn Ga Oa Ra (top_activated (activate c) (activate_pipeline c) h ha root A T) Hn)). }
    set (g0 := grammar_of (pipeline_predict U set_order) h' r).
    assert (Sh : kd <> KName -> forall x, g_prods (restrict objects g0) x <> [] -> attribute_of kd (restrict objects g0) x = shown_at kd h' x).
    { intros N x. unfold attribute_of, shown_at. cbn. destruct (is_in x objects); [|congruence]. intros _. destruct kd; try congruence; destruct (nth_error h' x) as [ox|]; try reflexivity; destruct (get_attributes ox); reflexivity. }
    assert (N : kd <> KName) by (destruct K as [->|[_ N]]; [discriminate|exact N]).
    eapply iff_trans; [|eapply iff_trans; [apply (traced_words pipe_bnf b_productions (accepts U) (pipeline_predict U set_order) kd toks h' (reach h' r) r B r o i j w (reach_refl h' r) E Bo Li)|]].
    - eapply iff_trans; [|apply (reads_restrict h' r objects (shown_at kd h') toks i j w Re)]. split; intros (d & D & T); exists d; (split; [exact D|]); eapply traced_shown; try exact T; intros x Hx; [apply Sh; [exact N|exact Hx]|symmetry; apply Sh; [exact N|exact Hx]].
    - split; intros [Hw Q]; (split; [apply Wk, Hw|exact Q]).
  Qed.

  Lemma rule_name_of (h : heap) x : rule_name h x = name_of h x.
  Proof. unfold rule_name, name_of, attributes_of. destruct (nth_error h x) as [o|]; [|reflexivity]. destruct o; reflexivity. Qed.
  Theorem build_rule_names fuel (h : heap) root r h' : source h root -> build_rule U set_order c fuel h root = Some (Ok (r, h')) ->
    exists ha (names : nat -> option str) rest,
    activated_graph (activate c) (activate_pipeline c) h ha root /\
    (forall x n, names x = Some n -> n <> [] /\ rule_name h' x = Some n) /\
    NoDup rest /\ (forall x, In x rest <-> reach h' r x /\ is_bnf_rule h' x /\ names x = None) /\
    (forall i x, nth_error rest i = Some x -> rule_name h' x = Some (generated_name i)) /\
    (top not_once h root -> forall toks i j w, i <= length toks ->
     reads U (grammar_of (pipeline_predict U set_order) h' r) (fun x => option_map AName (names x)) toks i j w <->
     words_of U set_order KName ha root w /\ spells U w toks i j).
  Proof.
    intros S H. destruct (parser_names pipe_bnf b_productions (accepts U) (pipeline_predict U set_order) (activate c) (activate_pipeline c) (pred_twice c) (pipe_twice c) fuel h root r h' S H)
      as (ha & names & rest & A & N & ND & Hr & Hg & K).
    exists ha, names, rest. split; [exact A|]. split; [intros x n Hx; rewrite rule_name_of; apply N, Hx|]. split; [exact ND|]. split; [exact Hr|].
    split; [intros i x Hx; rewrite rule_name_of; apply Hg, Hx|]. intros T toks i j w Li. exact (K T toks i j w Li).
  Qed.
End Grammar.
