(** The number of steps of the parser of a rule. *)
From Verif Require Import Base TokenModel EarleyModel EarleySpec TokenizerModel PredicateModel PipelineModel PipelineSpec PipelineProofs
  ParserModel RuleModel RuleSpec RulePass RuleMethods RuleForward RuleBuild RuleBuilt RuleBfs RuleNormalized GrammarModel GrammarProofs RuleLoopSpec LoopTheorems SizeSpec SizeProofs.
Open Scope nat_scope.

Section Rules.
  Variable U : unicode.
  Variable set_order : list str -> list str.
  Variable c : context.
  Hypothesis sets : set_iteration set_order.
  Lemma flat_map_length {A B} (f : A -> list B) n l : (forall x, length (f x) <= n) -> length (flat_map f l) <= length l * n.
  Proof. intros H. induction l as [|x l IH]; cbn; [lia|]. rewrite app_length. specialize (H x). lia. Qed.
  Lemma filter_few {A} (f : A -> bool) l : length (filter f l) <= length l.
  Proof. induction l as [|x l IH]; cbn; [lia|]. destruct (f x); cbn; lia. Qed.
  Lemma predict_few p b t f : pipeline_as_bnf U set_order p = Ok b -> (forall fs, t_forms t = Some fs -> length fs <= f) -> 1 <= f ->
    length (pipeline_predict U set_order b t) <= f * length (b_productions b).
  Proof.
    intros H L O1. rewrite predict_looked. destruct (as_bnf_spec U set_order sets p b H) as (_ & _ & _ & _ & IX). etransitivity; [apply (flat_map_length _ (length (b_productions b)))|].
    - intros w. rewrite IX. unfold production_numbers. etransitivity; [apply filter_few|]. rewrite seq_length. lia.
    - apply Nat.mul_le_mono_r. unfold looked_up. destruct (b_kind b); cbn; try lia. destruct (t_forms t) as [fs|]; cbn; [|lia].
      destruct (sets (map f_normalized fs)) as [N I]. etransitivity; [apply (NoDup_incl_length N (fun x => proj1 (I x)))|]. rewrite map_length. apply L. reflexivity.
  Qed.
  Definition most (g : grammar token predicate) (rules : list nat) : nat := list_max (map (fun r => length (g_prods g r)) rules).
  Theorem rule_alternatives fuel (h : rule_heap) root g : built h -> is_rule_at h root -> parser_grammar U set_order c fuel h root = Some (Ok g) ->
    exists rules p, finite_grammar g rules /\ predict_sound g /\
    forall toks f, 1 <= f -> few_forms f toks -> alternatives g toks (f * p).
  Proof.
    intros B R H. unfold parser_grammar in H. apply then_ok in H as ((r & h') & H & Hb). destruct (bfs fuel h' r) as [objects|] eqn:Bf; [|discriminate]. injection Hb as <-.
    destruct (bfs_ok h' fuel r objects Bf) as (_ & Re & _). assert (G := built_graph U set_order c fuel h root r h' B R H).
    set (g := restrict objects (grammar_of (pipeline_predict U set_order) h' r)). exists objects, (most g objects). split; [apply finite0, Re|]. split; [apply sound0|].
    intros toks f F1 F x.
    assert (M : length (g_prods g x) <= most g objects).
    { destruct (is_in x objects) eqn:Ix; [|cbn; rewrite Ix; cbn; lia]. apply is_in_true in Ix. assert (HM := proj1 (list_max_le (map (fun r => length (g_prods g r)) objects) (most g objects)) (le_n _)).
      rewrite Forall_forall in HM. apply HM, (in_map (fun r => length (g_prods g r))), Ix. }
    split; [etransitivity; [exact M|]; destruct f; [lia|]; apply Nat.le_add_r|].
    intros t Ht. assert (length (g_predict g x t) <= f * length (g_prods g x)) as K; [|etransitivity; [exact K|]; apply Nat.mul_le_mono_l, M].
    cbn. destruct (is_in x objects) eqn:Ix; [|cbn; lia]. apply is_in_true, Re in Ix. destruct (G x Ix) as (o & E & Bo & _). rewrite E.
    destruct o as [| | | | | | | | | | | | | |ps a|b ps a| | |]; cbn; try lia; [destruct f; [lia|]; apply Nat.le_add_r|].
    destruct Bo as [(p & Hp) Fa]. assert (Lp : length ps = length (b_productions b)) by (clear - Fa; induction Fa; cbn; congruence). rewrite Lp.
    etransitivity; [apply (flat_map_length _ 1); intros i; destruct (nth_error ps i); cbn; lia|]. rewrite Nat.mul_1_r. apply (predict_few p); auto. intros fs. apply F, Ht.
  Qed.

  (** Every text is parsed in a number of steps polynomial in its length, unless it has many readings. *)
  Theorem rule_chart_bounded fuel (h : rule_heap) root g : built h -> is_rule_at h root -> parser_grammar U set_order c fuel h root = Some (Ok g) ->
    exists b p, forall toks f m all,
    1 <= f -> few_forms f toks -> readings (accepts U) g toks m ->
    let n := S (length toks) in let column := m * (b * n) in
    forall fuel, 2 * column + 1 <= fuel -> exists st, chart (accepts U) narrow g toks fuel all = Some st /\
    (forall k, k < n -> length (cols st k) <= column) /\ fresh st <= n * (f * p + column * (f * p + column + 2)).
  Proof.
    intros B R H. destruct (rule_alternatives fuel h root g B R H) as (rules & p & FIN & PS & AL). exists (places g rules), p. intros toks f m all F1 F RD n column fl HF.
    destruct (chart_bounded (accepts U) narrow g rules toks m (f * p) all FIN PS (AL toks f F1 F) RD fl HF) as (st & E & C & O). exists st. split; [exact E|]. split; [|exact O].
    intros k Hk. etransitivity; [apply C; unfold n in Hk; lia|]. unfold column. apply Nat.mul_le_mono_l, Nat.mul_le_mono_l. lia.
  Qed.
End Rules.
