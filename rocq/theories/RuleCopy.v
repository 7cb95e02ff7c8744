(** Parsers of the same rule at two places give the same results. *)
From Verif Require Import Base TokenModel EarleyModel TreeModel TreeProofs PredicateModel PipelineModel ParserModel InterpModel RuleModel RuleSpec GrammarModel TextModel
  RuleCopySpec RuleRename GrammarRename.
Open Scope nat_scope.

Section Copy.
  Variable f : nat -> nat.
  Variable D : nat -> Prop.
  Hypothesis inj : forall p q, D p -> D q -> f p = f q -> p = q.
  Notation node := (node token predicate).
  Notation grammar := (grammar token predicate).
  Notation ren_node := (ren_node (pred := predicate) f).
  Notation node_in := (node_in (pred := predicate) D).

  (** ** What can be seen of a match *)
  Section Views.
    Variables g g' : grammar.
    Hypothesis same : renumbered f D g g'.
    Lemma view_ren n : node_in n -> view_of g' (ren_node n) = view_of g n.
    Proof.
      induction n as [id pos p tk|id r q rank ch IH] using node_ind2; intros H; [reflexivity|]. inversion H as [|? ? ? ? ? Dr Dq F]; subst. cbn [GrammarRename.ren_node view_of].
      rewrite (n_relation _ _ _ _ same r Dr), (n_interp _ _ _ _ same r Dr), (n_key _ _ _ _ same q Dq), (n_main _ _ _ _ same q Dq). f_equal. rewrite map_map. clear H.
      induction IH as [|c ch Hc IH IHc]; [reflexivity|]. inversion F; subst. cbn. f_equal; auto.
    Qed.
    Lemma has_interp_ren n : node_in n -> has_interp g' (ren_node n) = has_interp g n.
    Proof. intros H. destruct n as [|id r q rank ch]; [reflexivity|]. inversion H; subst. cbn. rewrite (n_interp _ _ _ _ same r) by assumption. reflexivity. Qed.
    Lemma kept_ren n : node_in n -> kept g' (ren_node n) = map ren_node (kept g n) /\ Forall node_in (kept g n).
    Proof.
      induction n as [id pos p tk|id r q rank ch IH] using node_ind2; intros H; [split; [reflexivity|constructor; [exact H|constructor]]|].
      assert (I := has_interp_ren _ H). inversion H as [|? ? ? ? ? Dr Dq F]; subst. cbn [GrammarRename.ren_node] in I. cbn [GrammarRename.ren_node kept]. rewrite I.
      assert (K : flat_map (kept g') (map ren_node ch) = map ren_node (flat_map (kept g) ch) /\ Forall node_in (flat_map (kept g) ch)).
      { clear H I. induction IH as [|c ch Hc IH IHc]; cbn; [split; [reflexivity|constructor]|]. inversion F; subst. destruct (IHc H2) as [-> Fr]. destruct (Hc H1) as [-> Fc]. rewrite map_app. split; [reflexivity|apply Forall_app; auto]. }
      destruct K as [-> Fk]. destruct (has_interp g _); split; try reflexivity; try assumption. constructor; [|constructor]. constructor; assumption.
    Qed.
    Variable schemes : nat -> scheme.
    Variable subclass : nat -> nat -> bool.
    Variable U : unicode.
    Variable inflect : nat -> list str -> option str.
    Variable interps : nat -> interpretator.
    Variable s : store.
    Lemma visit_interp_ren n : node_in n -> visit_interp schemes subclass U inflect g' interps s (ren_node n) = visit_interp schemes subclass U inflect g interps s n.
    Proof.
      induction n as [id pos p tk|id r q rank ch IH] using node_ind2; intros H; [reflexivity|]. inversion H as [|? ? ? ? ? Dr Dq F]; subst. cbn [GrammarRename.ren_node visit_interp].
      rewrite (n_interp _ _ _ _ same r Dr), (n_key _ _ _ _ same q Dq).
      assert (K : mapM (visit_interp schemes subclass U inflect g' interps s) (map ren_node ch) = mapM (visit_interp schemes subclass U inflect g interps s) ch).
      { clear H. induction IH as [|c ch Hc IH IHc]; [reflexivity|]. inversion F; subst. cbn [map mapM]. rewrite Hc by assumption. rewrite IHc by assumption. reflexivity. }
      rewrite K. reflexivity.
    Qed.
    Lemma fact_ren m : match_in D m -> match_fact schemes subclass U inflect g' interps s (ren_match f m) = match_fact schemes subclass U inflect g interps s m.
    Proof.
      intros H. unfold match_fact, interpret, keep. cbn [ren_match m_root]. rewrite has_interp_ren by exact H. destruct (kept_ren (m_root m) H) as [-> F]. destruct (has_interp g (m_root m)); [|reflexivity].
      destruct (kept g (m_root m)) as [|n [|n' l]]; [reflexivity| |reflexivity]. cbn. inversion F; subst. rewrite visit_interp_ren by assumption. reflexivity.
    Qed.
  End Views.
  Lemma match_seen g g' s m : renumbered f D g g' -> match_in D m -> same_match g g' s m (ren_match f m).
  Proof. intros R H. constructor; try reflexivity; [symmetry; apply view_ren; assumption|]. intros. symmetry. apply fact_ren; assumption. Qed.

  (** ** The grammar of a rule *)
  Variables n0 n1 : nat.
  Hypothesis later : forall p, n0 <= p -> D p.
  Hypothesis shift : forall p, n0 <= p -> f p = n1 + (p - n0).
  Variable U : unicode.
  Variable set_order : list str -> list str.
  Notation rel_heap := (rel_heap (pred := predicate) (pipe := pipeline) (bnf := pipeline_bnf) f D n0 n1).
  Lemma picks_ren (ps : list nat) is : Forall D ps ->
    flat_map (fun i => match nth_error (map f ps) i with Some q => [q] | None => [] end) is = map f (flat_map (fun i => match nth_error ps i with Some q => [q] | None => [] end) is) /\
    Forall D (flat_map (fun i => match nth_error ps i with Some q => [q] | None => [] end) is).
  Proof.
    intros F. induction is as [|i is [IH FI]]; cbn; [split; [reflexivity|constructor]|]. rewrite nth_error_map, IH, map_app. destruct (nth_error ps i) as [q|] eqn:E; cbn; (split; [reflexivity|]); [|exact FI]. constructor; [|exact FI]. rewrite Forall_forall in F. apply F. eapply nth_error_In, E.
  Qed.
  Lemma is_in_ren r l : D r -> Forall D l -> is_in (f r) (map f l) = is_in r l.
  Proof.
    intros Dr F. unfold is_in. induction F as [|x l Dx F IH]; cbn; [reflexivity|]. rewrite IH. f_equal. destruct (Nat.eqb_spec r x) as [->|N]; [apply Nat.eqb_refl|]. apply Nat.eqb_neq. intros E. apply N, (inj r x Dr Dx E).
  Qed.
  Lemma grammar_ren h h' r objects : D r -> Forall D objects -> rel_heap h h' ->
    renumbered f D (restrict objects (grammar_of (pipeline_predict U set_order) h r)) (restrict (map f objects) (grammar_of (pipeline_predict U set_order) h' (f r))).
  Proof.
    intros Dr F (_ & _ & K). constructor; cbn; try (intros x).
    - auto.
    - intros Dx. rewrite is_in_ren by assumption. destruct (is_in x objects); [|split; [reflexivity|constructor]]. destruct (K x Dx) as [-> Kx]. destruct (nth_error h x) as [o|]; cbn; [|split; [reflexivity|constructor]].
      specialize (Kx o eq_refl). destruct o; cbn; try (split; [reflexivity|constructor]); split; try reflexivity; apply Forall_forall; exact Kx.
    - intros t Dx. rewrite is_in_ren by assumption. destruct (is_in x objects); [|split; [reflexivity|constructor]]. destruct (K x Dx) as [-> Kx]. destruct (nth_error h x) as [o|]; cbn; [|split; [reflexivity|constructor]].
      specialize (Kx o eq_refl). destruct o; cbn; try (split; [reflexivity|constructor]); [split; [reflexivity|apply Forall_forall; exact Kx]|apply picks_ren, Forall_forall; exact Kx].
    - intros Dx. destruct (K x Dx) as [-> Kx]. destruct (nth_error h x) as [o|]; cbn; [|split; [reflexivity|constructor]]. specialize (Kx o eq_refl).
      destruct o; cbn; try (split; [reflexivity|constructor]).
      + split; [reflexivity|]. apply Forall_forall. intros t Ht. destruct t as [y|p]; [|exact I]. apply Kx. cbn. unfold rule_terms. apply in_flat_map. exists (TRule y). split; [exact Ht|left; reflexivity].
      + rewrite map_map. split; [reflexivity|]. apply Forall_map, Forall_forall. intros p _. exact I.
    - intros Dx. destruct (K x Dx) as [-> _]. destruct (nth_error h x) as [o|]; [|reflexivity]. destruct o; reflexivity.
    - intros Dx. destruct (K x Dx) as [-> _]. destruct (nth_error h x) as [o|]; [|reflexivity]. destruct o; reflexivity.
    - intros Dx. rewrite is_in_ren by assumption. destruct (is_in x objects); [|reflexivity]. destruct (K x Dx) as [-> _]. destruct (nth_error h x) as [o|]; [|reflexivity]. destruct o; reflexivity.
    - intros Dx. rewrite is_in_ren by assumption. destruct (is_in x objects); [|reflexivity]. destruct (K x Dx) as [-> _]. destruct (nth_error h x) as [o|]; [|reflexivity]. destruct o; reflexivity.
  Qed.
  Variable c : context.
  Notation same_run := (same_run (pred := predicate) (pipe := pipeline) (bnf := pipeline_bnf) f D n0 n1).
  Lemma parser_grammar_ren fuel h root h' root' : same_run (build_rule U set_order c fuel h root) (build_rule U set_order c fuel h' root') ->
    same_end (renumbered f D) (parser_grammar U set_order c fuel h root) (parser_grammar U set_order c fuel h' root').
  Proof.
    intros S. unfold parser_grammar, then_. unfold RuleRename.same_run in S. destruct (build_rule U set_order c fuel h root) as [[[r h1]|e]|], (build_rule U set_order c fuel h' root') as [[[r' h1']|e']|]; try contradiction; auto.
    destruct S as (-> & Dr & R). destruct (bfs_sim f D n0 n1 inj fuel h1 h1' r Dr R) as [-> F]. destruct (bfs fuel h1 r) as [l|]; cbn; [|exact I]. apply grammar_ren; auto.
  Qed.
  Variable rel : nat -> form -> form -> bool.
  Lemma results_ren fuel h root h' root' text : same_run (build_rule U set_order c fuel h root) (build_rule U set_order c fuel h' root') ->
    same_results U set_order c rel fuel h root h' root' text.
  Proof.
    intros S. assert (G := parser_grammar_ren _ _ _ _ _ S). unfold same_results, parser_findall, parser_find, parser_match, parser_extract, with_parser, same_matches.
    destruct (parser_grammar U set_order c fuel h root) as [[g|e]|], (parser_grammar U set_order c fuel h' root') as [[g'|e']|]; try contradiction; cbn [then_ same_end] in *; auto 6.
    destruct (text_tokens c text) as [[toks|e]|]; cbn [then_ same_end]; auto 6.
    assert (Ms : forall s ms, Forall (match_in D) ms -> Forall2 (same_match g g' s) ms (map (ren_match f) ms)) by (intros s ms F; induction F as [|m ms H F IH]; cbn; constructor; auto using match_seen).
    assert (Os : forall s m, (forall x, m = Some x -> match_in D x) -> same_option (same_match g g' s) m (option_map (ren_match f) m)) by (intros s [m|] H; cbn; [apply match_seen; auto|exact I]).
    split; [|split; [|split]].
    - destruct (findall_ren (accepts U) narrow rel f D inj g g' G toks fuel) as [-> K]. destruct (findall (accepts U) narrow rel g fuel toks) as [[[s ms]|e]|]; cbn; auto. split; [reflexivity|]. exists g, g'. split; [reflexivity|]. split; [reflexivity|]. apply Ms, (K s ms eq_refl).
    - destruct (find_ren (accepts U) narrow rel f D inj g g' G toks fuel) as [-> K]. destruct (find (accepts U) narrow rel g fuel toks) as [[[s m]|e]|]; cbn; auto. split; [reflexivity|]. exists g, g'. split; [reflexivity|]. split; [reflexivity|]. apply Os. intros x ->. apply (K s x eq_refl).
    - destruct (match_ren (accepts U) narrow rel f D inj g g' G toks fuel) as [-> K]. destruct (match_ (accepts U) narrow rel g fuel toks) as [[[s m]|e]|]; cbn; auto. split; [reflexivity|]. exists g, g'. split; [reflexivity|]. split; [reflexivity|]. apply Os. intros x ->. apply (K s x eq_refl).
    - intros all. destruct (extract_ren (accepts U) narrow rel f D inj g g' G toks fuel all) as [-> K]. destruct (extract (accepts U) narrow rel g fuel toks all) as [[[ms s] e]|]; cbn; auto. split; [reflexivity|]. split; [reflexivity|]. exists g, g'. split; [reflexivity|]. split; [reflexivity|]. apply Ms, (K ms s e eq_refl).
  Qed.
End Copy.

(** ** The moved rule *)
Section Moved.
  Context {pred pipe bnf : Type}.
  Notation heap := (heap pred pipe bnf).
  Variables (h : heap) (root : nat) (h' : heap).
  Variable m : nat -> nat.
  Hypothesis one : forall p q, reach h root p -> reach h root q -> m p = m q -> p = q.
  Hypothesis copied : forall p, reach h root p -> exists o, nth_error h p = Some o /\ nth_error h' (m p) = Some (moved_obj m o).
  Definition place (p : nat) : nat := if p <? length h then m p else length h' + (p - length h).
  Definition part (p : nat) : Prop := reach h root p \/ length h <= p.
  Lemma reach_old p : reach h root p -> p < length h /\ m p < length h'.
  Proof. intros R. destruct (copied p R) as (o & E & E'). split; apply nth_error_Some; congruence. Qed.
  Lemma place_old p : reach h root p -> place p = m p.
  Proof. intros R. unfold place. rewrite (proj2 (Nat.ltb_lt p (length h)) (proj1 (reach_old p R))). reflexivity. Qed.
  Lemma place_new p : length h <= p -> place p = length h' + (p - length h).
  Proof. intros L. unfold place. destruct (Nat.ltb_spec p (length h)); [lia|reflexivity]. Qed.
  Lemma part_later p : length h <= p -> part p.
  Proof. intros L. right. exact L. Qed.
  Lemma place_inj p q : part p -> part q -> place p = place q -> p = q.
  Proof.
    intros [Rp|Lp] [Rq|Lq] E.
    - rewrite (place_old p Rp), (place_old q Rq) in E. apply (one p q Rp Rq E).
    - rewrite (place_old p Rp), (place_new q Lq) in E. pose proof (reach_old p Rp). lia.
    - rewrite (place_new p Lp), (place_old q Rq) in E. pose proof (reach_old q Rq). lia.
    - rewrite (place_new p Lp), (place_new q Lq) in E. lia.
  Qed.
  Lemma moved_same (k : nat -> nat) (o : obj pred pipe bnf) : (forall c, In c (children o) -> k c = m c) -> moved_obj k o = moved_obj m o.
  Proof.
    destruct o; cbn; intros K; try reflexivity; try (f_equal; apply K; left; reflexivity); try (f_equal; apply map_ext_in; exact K).
    - destruct rule as [r|]; [cbn; rewrite (K r (or_introl eq_refl)); reflexivity|reflexivity].
    - f_equal. apply map_ext_in. intros t Ht. destruct t as [r|p]; [|reflexivity]. cbn. f_equal. apply K. unfold rule_terms. apply in_flat_map. exists (TRule r). split; [exact Ht|left; reflexivity].
  Qed.
  Lemma place_heap : rel_heap place part (length h) (length h') h h'.
  Proof.
    split; [lia|]. split; [lia|]. intros p [R|L].
    - destruct (copied p R) as (o & E & E'). rewrite (place_old p R), E, E'. cbn. assert (Ro : forall c, In c (children o) -> reach h root c) by (intros c Hc; eapply reach_step; eassumption). split.
      + f_equal. symmetry. apply moved_same. intros c Hc. apply place_old, Ro, Hc.
      + intros x Ex. injection Ex as <-. intros c Hc. left. apply Ro, Hc.
    - rewrite (place_new p L). rewrite (proj2 (nth_error_None h p)) by lia. rewrite (proj2 (nth_error_None h' _)) by lia. split; [reflexivity|discriminate].
  Qed.
End Moved.

Theorem same_rule_results U set_order c rel fuel (h : rule_heap) root h' root' text : same_rule h root h' root' -> same_results U set_order c rel fuel h root h' root' text.
Proof.
  intros (m & <- & one & copied). rewrite <- (place_old h root h' m copied root (reach_refl h root)).
  apply (results_ren (place h h' m) (part h root) (place_inj h root h' m one copied) (length h) (length h') ).
  apply parser_rule_sim; [apply part_later|apply place_new|apply (place_inj h root h' m one copied)|left; constructor|apply (place_heap h root h' m copied)].
Qed.
