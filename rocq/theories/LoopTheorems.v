(** Parsing with a rule without loops comes to an end on every text. *)
From Verif Require Import Base TokenModel EarleyModel EarleySpec TokenizerModel TokenizerProofs PredicateModel PipelineModel PipelineSpec PipelineProofs
  ParserModel ParserTheorems RuleModel RuleSpec RulePass RuleMethods RuleNormalized RuleOrder RuleActivate RuleTidy RuleForward RuleAsBnf RuleBuild RuleBuilt RuleTotal RuleBfs RuleAgainSpec
  GrammarModel GrammarProofs TextModel RuleLoopSpec RuleLoop.
Open Scope nat_scope.

Section Ends.
  Variable U : unicode.
  Variable set_order : list str -> list str.
  Variable c : context.
  Hypothesis sets : set_iteration set_order.
  Notation heap := rule_heap.
  Notation pipe_bnf := (pipeline_as_bnf U set_order).

  Lemma no_blank x b key ps : pipe_bnf x = Ok b -> In (key, ps) (b_productions b) -> ps <> [].
  Proof. intros H Hin. destruct (as_bnf_spec U set_order sets x b H) as (_ & _ & NE & _). exact (NE key ps Hin). Qed.

  (** The shape of the parser's rule, with quantifiers nested or not. *)
  Lemma built_graph fuel (h : heap) root r h' : built h -> is_rule_at h root -> build_rule U set_order c fuel h root = Some (Ok (r, h')) ->
    bnf_graph pipe_bnf b_productions false h' (reach h' r).
  Proof.
    intros B R H. apply built_sound in B. assert (K : RuleTidy.kind h root false) by (apply is_rule_prod in R; exact R).
    assert (T := sound_tidy h B). assert (O := sound_ordered h B). assert (L : root < length h) by (destruct K as (o & E & _); apply nth_error_Some; congruence).
    unfold build_rule, parser_rule in H. apply then_ok in H as ((ra & ha) & Ha & H). apply then_ok in H as ((rn & hn) & Hn & H).
    destruct (activate_ok (activate c) (activate_pipeline c) (pred_twice c) (pipe_twice c) fuel h root ra ha Ha) as [-> A].
    destruct (activated_tidy _ _ h ha root false O T K A) as [Ta Ka]. assert (Oa := activated_ordered _ _ h ha root A (reach_dec h root O L) O).
    assert (La : root < length ha) by (destruct Ka as (o & E & _); apply nth_error_Some; congruence).
    destruct (normalized_tidy pipe_bnf b_productions fuel ha root rn hn Ta Ka Hn) as [Gn Kn]. destruct (normalized_ordered fuel ha root rn hn Oa La Hn) as (On & _).
    destruct (as_bnf_ok pipe_bnf b_productions fuel hn rn r h' Gn On Kn H) as (G & _). exact G.
  Qed.

  Theorem loop_free_grammar fuel (h : heap) root g : built h -> is_rule_at h root -> loop_free h root -> parser_grammar U set_order c fuel h root = Some (Ok g) ->
    (exists rules, finite_grammar g rules) /\ predict_sound g /\ acyclic g.
  Proof.
    intros B R [Un (level & Lo)] H. unfold parser_grammar in H. apply then_ok in H as ((r & h') & H & Hb). destruct (bfs fuel h' r) as [objects|] eqn:Bf; [|discriminate]. injection Hb as <-.
    destruct (bfs_ok h' fuel r objects Bf) as (_ & Re & _). assert (G := built_graph fuel h root r h' B R H).
    split; [exists objects; apply finite0, Re|]. split; [apply sound0|].
    assert (there : forall p, reach h root p -> exists o, nth_error h p = Some o /\ match o with OPipeProd _ _ => False | _ => True end).
    { intros p Rp. apply built_sound in B. assert (exists o, nth_error h p = Some o) as (o & E).
      { destruct Rp as [|y q oq x Rq Eq Hx]; [apply is_rule_prod in R as (o & E & _); eauto|]. destruct (B q oq Eq) as (_ & _ & C). destruct (C x Hx) as (ox & Ex & _). eauto. }
      exists o. split; [exact E|]. destruct (B p o E) as (P & _). destruct o; try exact Logic.I. discriminate. }
    assert (O := first_ok h root there level Un Lo).
    destruct (parser_rule_keeps pipe_bnf b_productions no_blank (length h) (reached h root) (fun p L => or_intror L) (activate c) (activate_pipeline c) fuel h root r h' _ O H) as (w & Ow).
    eapply (no_loops pipe_bnf b_productions (length h) (reached h root) w h' r Ow).
    - intros x Rx. destruct (G x Rx) as (o & E & K & _). eauto.
    - intros x q Hq. cbn in Hq. destruct (is_in x objects) eqn:Ix; [|destruct Hq]. assert (Rx : reach h' r x) by (apply Re, (proj1 (is_in_true objects x)), Ix). split; [exact Rx|].
      destruct (nth_error h' x) as [o|]; [|destruct Hq]. exists o. split; [reflexivity|]. destruct o; try (destruct Hq; fail); auto.
    - reflexivity.
  Qed.
  Lemma loop_free_acyclic fuel (h : heap) root g : built h -> is_rule_at h root -> loop_free h root -> parser_grammar U set_order c fuel h root = Some (Ok g) -> acyclic g.
  Proof. intros B R L E. exact (proj2 (proj2 (loop_free_grammar fuel h root g B R L E))). Qed.
  Lemma text_tokens_ends text : exists r, text_tokens c text = Some r.
  Proof.
    unfold text_tokens, morph_tokenize. destruct (tokenize_terminates (c_tokenizer c) text _ (le_n _)) as (r & E). destruct (c_morph c) as [m|]; rewrite E; cbn [then_]; destruct r; cbn [bind then_]; eauto.
  Qed.

  Variable rel : nat -> form -> form -> bool.
  Lemma ends_map {A B} (f : nat -> option A) (g : nat -> option B) (k : A -> B) : (forall n a, f n = Some a -> g n = Some (k a)) -> ends f -> ends g.
  Proof. intros E (a & N & H). exists (k a), N. intros n L. apply E, H, L. Qed.
  Lemma with_parser_ends {A} (h : heap) root text (f : nat -> grammar token predicate -> list token -> option (res A)) : built h -> is_rule_at h root ->
    (forall g toks, (exists fuel, parser_grammar U set_order c fuel h root = Some (Ok g)) -> ends (fun n => f n g toks)) ->
    ends (fun n => with_parser U set_order c n h root text (f n)).
  Proof.
    intros B R F. destruct (construction_ends U set_order c h root B R) as (o & N & E). destruct (text_tokens_ends text) as (ts & Et). unfold with_parser.
    destruct o as [g|e]; [|exists (Err e), N; intros n L; rewrite (E n L); reflexivity].
    destruct ts as [toks|e]; [|exists (Err e), N; intros n L; rewrite (E n L); cbn [then_]; rewrite Et; reflexivity].
    destruct (F g toks) as (r & N' & E'); [exists N; apply E; lia|]. exists r, (N + N'). intros n L. rewrite (E n) by lia. cbn [then_]. rewrite Et. cbn [then_]. apply E'. lia.
  Qed.
  Lemma parse_ends (h : heap) root g toks all : built h -> is_rule_at h root -> loop_free h root -> (exists fuel, parser_grammar U set_order c fuel h root = Some (Ok g)) ->
    ends (fun n => parse (accepts U) narrow g n toks all).
  Proof.
    intros B R L (fuel & H). destruct (loop_free_grammar fuel h root g B R L H) as ((rules & F) & S & A). destruct (parse_terminates (accepts U) narrow g rules toks all F S A) as (N & trees & E). exists trees, N. exact E.
  Qed.
  Theorem loop_free_ends (h : heap) root text : built h -> is_rule_at h root -> loop_free h root ->
    ends (fun n => parser_findall U set_order c rel n h root text) /\ ends (fun n => parser_find U set_order c rel n h root text) /\
    ends (fun n => parser_match U set_order c rel n h root text) /\ forall all, ends (fun n => parser_extract U set_order c rel n h root text all).
  Proof.
    intros B R L. split; [|split; [|split]]; [| | |intros all]; apply with_parser_ends; try assumption; intros g toks H.
    - eapply ends_map; [|exact (parse_ends h root g toks true B R L H)]. intros n trees E. unfold findall. rewrite E. reflexivity.
    - eapply ends_map; [|exact (parse_ends h root g toks true B R L H)]. intros n trees E. unfold find, findall. rewrite E. reflexivity.
    - eapply ends_map; [|exact (parse_ends h root g toks false B R L H)]. intros n trees E. unfold match_. rewrite E. reflexivity.
    - eapply ends_map; [|exact (parse_ends h root g toks all B R L H)]. intros n trees E. unfold extract. rewrite E. reflexivity.
  Qed.

  (** Without forward rules only empty repetitions remain. *)
  Theorem plain_loop_free (h : heap) root : built h -> plain_rule h root ->
    (forall p o r, reach h root p -> nth_error h p = Some o -> repeated o r -> ~ can_be_empty h r) -> loop_free h root.
  Proof.
    intros B P Un. split; [exact Un|]. exists (fun p => p). apply built_sound in B. intros p x Rp A. specialize (P p Rp).
    assert (exists o, nth_error h p = Some o /\ In x (children o)) as (o & E & Hx).
    { destruct A as [o x E _ Hx|pre x post main E _ _]; [eauto|]. eexists. split; [exact E|]. cbn. unfold rule_terms. apply in_flat_map. exists (TRule x). split; [apply in_app_iff; right; left; reflexivity|left; reflexivity]. }
    destruct (B p o E) as (_ & _ & C). destruct (C x Hx) as (ox & _ & _ & L). rewrite E in P. destruct o; try contradiction; apply L; reflexivity.
  Qed.
End Ends.
