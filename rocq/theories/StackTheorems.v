(** How much stack the parser of a rule needs. *)
From Verif Require Import Base TokenModel EarleyModel EarleySpec EarleyInv EarleyProofs EarleyTerm TreeProofs TokenizerModel PredicateModel PipelineModel PipelineSpec ParserModel ParserSpec ParserTheorems
  RuleModel RuleSpec RuleBuild RuleAgainSpec RuleTotal GrammarModel GrammarProofs TextModel RuleLoopSpec LoopTheorems SizeRules StackModel StackText StackSpec StackProofs.
Open Scope nat_scope.

Lemma levels_depth {pred} (n : node token pred) : levels n = depth (erase n).
Proof.
  induction n as [|id r q rank ch IH] using node_ind2; [reflexivity|]. cbn. f_equal. f_equal. rewrite map_map. induction IH as [|c ch H _ IHc]; [reflexivity|]. cbn. rewrite H, IHc. reflexivity.
Qed.
Section Bounds.
  Context {pred : Type}.
  Variable accepts : pred -> token -> bool.
  Variable constrain : pred -> token -> token.
  Variable g : grammar token pred.
  (** Trees are at most proportional to the text. *)
  Theorem trees_levels rules : finite_grammar g rules -> predict_sound g -> acyclic g ->
    exists k, forall toks all fuel trees n i j, parse accepts constrain g fuel toks all = Some trees -> In (n, (i, j)) trees -> levels n <= k * S (length toks).
  Proof.
    intros F S1 (level & L). exists (S (maxlevel rules level)). intros toks all fuel trees n i j P H. destruct (parse_sound accepts constrain g fuel toks all trees n i j S1 P H) as (D & _ & Lj & _).
    rewrite levels_depth. etransitivity; [apply (proj1 (depth_bound accepts g toks rules F level L) _ _ _ _ D _ eq_refl (proj1 F))|]. unfold dbound.
    assert (M := level_max rules level (g_start g) (proj1 F)). nia.
  Qed.
  (** Rules that do not contain themselves. *)
  Theorem nested_levels k : predict_sound g -> nested_at_most g k ->
    forall toks all fuel trees n i j, parse accepts constrain g fuel toks all = Some trees -> In (n, (i, j)) trees -> levels n <= k.
  Proof.
    intros S1 (level & Ls & L) toks all fuel trees n i j P H. destruct (parse_sound accepts constrain g fuel toks all trees n i j S1 P H) as (D & _). rewrite levels_depth.
    assert (X : (forall t i j d, derives accepts g toks t i j d -> depth d <= match t with TRule r => S (level r) | TPred _ => 0 end) /\
      (forall ts i j ds, derives_seq accepts g toks ts i j ds -> forall d, In d ds -> exists t, In t ts /\ depth d <= match t with TRule r => S (level r) | TPred _ => 0 end)).
    { apply (derives_mutind _ _ accepts g toks); cbn.
      - intros; lia.
      - intros r q a b ds Hq _ IH. apply le_n_S. apply list_max_bound. intros x Hx. apply in_map_iff in Hx as (d & <- & Hd). destruct (IH d Hd) as ([r'|p] & Ht & Hl); [|lia]. specialize (L r q r' Hq Ht). lia.
      - intros _ d [].
      - intros t ts a b c d ds _ IH1 _ IH2 d' [<-|Hd]; [exists t; auto|]. destruct (IH2 d' Hd) as (t' & Ht & Hl). exists t'. auto. }
    apply (proj1 X) in D. cbn in D. lia.
  Qed.

  (** With enough stack everything is as without a limit. *)
  Variable rel : nat -> form -> form -> bool.
  Variable comp : nat.
  Definition stack_for (k : nat) : nat := (3 + comp) * k + 2.
  Theorem enough_stack k limit fuel toks all trees : parse accepts constrain g fuel toks all = Some trees -> (forall n i j, In (n, (i, j)) trees -> levels n <= k) -> stack_for k <= limit -> all_fit comp limit trees.
  Proof. intros P H L [n [i j]] Ht. specialize (H n i j Ht). unfold fits. cbn [fst]. unfold stack_for in L. nia. Qed.
  Lemma same_enough {A} (P : Prop) (x : run A) r : P -> same_unless P x r -> x = Returns r.
  Proof. intros H [E|[_ N]]; [exact E|destruct (N H)]. Qed.
  Theorem findall_enough k limit fuel toks : (forall trees n i j, parse accepts constrain g fuel toks true = Some trees -> In (n, (i, j)) trees -> levels n <= k) -> stack_for k <= limit ->
    findall_within comp rel g limit accepts constrain fuel toks = option_map Returns (findall accepts constrain rel g fuel toks).
  Proof.
    intros H L. destruct (parse accepts constrain g fuel toks true) as [trees|] eqn:P; [|unfold findall_within, findall; rewrite P; reflexivity].
    destruct (findall_same comp g rel limit accepts constrain fuel toks trees P) as (x & r & E1 & E2 & X). rewrite E1, E2. cbn. f_equal. refine (same_enough _ x r _ X). refine (enough_stack k limit fuel toks _ trees P (fun n i j Hn => H trees n i j eq_refl Hn) L).
  Qed.
  Theorem match_enough k limit fuel toks : (forall trees n i j, parse accepts constrain g fuel toks false = Some trees -> In (n, (i, j)) trees -> levels n <= k) -> stack_for k <= limit ->
    match_within comp rel g limit accepts constrain fuel toks = option_map Returns (match_ accepts constrain rel g fuel toks).
  Proof.
    intros H L. destruct (parse accepts constrain g fuel toks false) as [trees|] eqn:P; [|unfold match_within, match_; rewrite P; reflexivity].
    destruct (match_same comp g rel limit accepts constrain fuel toks trees P) as (x & r & E1 & E2 & X). rewrite E1, E2. cbn. f_equal. refine (same_enough _ x r _ X). refine (enough_stack k limit fuel toks _ trees P (fun n i j Hn => H trees n i j eq_refl Hn) L).
  Qed.
  Theorem find_enough k limit fuel toks : (forall trees n i j, parse accepts constrain g fuel toks true = Some trees -> In (n, (i, j)) trees -> levels n <= k) -> stack_for k <= limit ->
    find_within comp rel g limit accepts constrain fuel toks = option_map Returns (find accepts constrain rel g fuel toks).
  Proof. intros H L. unfold find_within, find. rewrite (findall_enough k limit fuel toks H L). destruct (findall accepts constrain rel g fuel toks) as [[[s ms]|e]|]; reflexivity. Qed.
  Theorem extract_enough k limit fuel toks all : (forall trees n i j, parse accepts constrain g fuel toks all = Some trees -> In (n, (i, j)) trees -> levels n <= k) -> stack_for k <= limit ->
    extract_within comp rel g limit accepts constrain fuel toks all = option_map unlimited (extract accepts constrain rel g fuel toks all).
  Proof.
    intros H L. destruct (parse accepts constrain g fuel toks all) as [trees|] eqn:P; [|unfold extract_within, extract; rewrite P; reflexivity].
    destruct (extract_same comp g rel limit accepts constrain fuel toks all trees P) as (x & r & E1 & E2 & X). rewrite E1, E2. cbn. f_equal.
    destruct X as [[X1 X2]|(_ & N & _)]; [|destruct (N (enough_stack k limit fuel toks all trees P (fun n i j Hn => H trees n i j eq_refl Hn) L))].
    destruct x as [[ms s] e], r as [[ms' s'] e']. cbn in *. injection X1 as -> ->. subst e. reflexivity.
  Qed.
End Bounds.

Section Rules.
  Variable U : unicode.
  Variable set_order : list str -> list str.
  Variable c : context.
  Hypothesis sets : set_iteration set_order.
  Variable comp : nat.
  Theorem rule_stack (h : rule_heap) root : built h -> is_rule_at h root -> loop_free h root ->
    exists k fuel0, forall rel fuel text toks limit, fuel0 <= fuel -> text_tokens c text = Some (Ok toks) -> k * S (length toks) <= limit ->
    parser_findall_within U set_order c rel comp limit fuel h root text = option_map Returns (parser_findall U set_order c rel fuel h root text) /\
    parser_match_within U set_order c rel comp limit fuel h root text = option_map Returns (parser_match U set_order c rel fuel h root text).
  Proof.
    intros B R L. destruct (construction_ends U set_order c h root B R) as (o & N & E). destruct o as [g|e].
    - destruct (loop_free_grammar U set_order c sets N h root g B R L (E N (le_n _))) as ((rules & F) & S1 & A). destruct (trees_levels (accepts U) narrow g rules F S1 A) as (k & K).
      exists ((3 + comp) * k + 2), N. intros rel fuel text toks limit HF Et HL. unfold parser_findall_within, parser_match_within, with_parser_within, parser_findall, parser_match, with_parser. rewrite (E fuel HF), Et. cbn [then_].
      assert (Z : stack_for comp (k * S (length toks)) <= limit) by (unfold stack_for; nia).
      split; [apply (findall_enough _ _ _ _ _ (k * S (length toks)))|apply (match_enough _ _ _ _ _ (k * S (length toks)))]; auto; intros; eapply K; eauto.
    - exists 0, N. intros rel fuel text toks limit HF Et HL. unfold parser_findall_within, parser_match_within, with_parser_within, parser_findall, parser_match, with_parser. rewrite (E fuel HF). split; reflexivity.
  Qed.
  Theorem rule_stack_others (h : rule_heap) root : built h -> is_rule_at h root -> loop_free h root ->
    exists k fuel0, forall rel fuel text toks limit, fuel0 <= fuel -> text_tokens c text = Some (Ok toks) -> k * S (length toks) <= limit ->
    parser_find_within U set_order c rel comp limit fuel h root text = option_map Returns (parser_find U set_order c rel fuel h root text) /\
    forall all, parser_extract_within U set_order c rel comp limit fuel h root text all = option_map (fun r => Returns (let! x := r in Ok (unlimited x))) (parser_extract U set_order c rel fuel h root text all).
  Proof.
    intros B R L. destruct (construction_ends U set_order c h root B R) as (o & N & E). destruct o as [g|e].
    - destruct (loop_free_grammar U set_order c sets N h root g B R L (E N (le_n _))) as ((rules & F) & S1 & A). destruct (trees_levels (accepts U) narrow g rules F S1 A) as (k & K).
      exists ((3 + comp) * k + 2), N. intros rel fuel text toks limit HF Et HL. unfold parser_find_within, parser_extract_within, with_parser_within, parser_find, parser_extract, with_parser. rewrite (E fuel HF), Et. cbn [then_].
      assert (Z : stack_for comp (k * S (length toks)) <= limit) by (unfold stack_for; nia).
      split; [apply (find_enough _ _ _ _ _ (k * S (length toks))); auto; intros; eapply K; eauto|]. intros all.
      rewrite (extract_enough _ _ _ rel comp (k * S (length toks)) limit fuel toks all) by (auto; intros; eapply K; eauto). destruct (extract (accepts U) narrow rel g fuel toks all); reflexivity.
    - exists 0, N. intros rel fuel text toks limit HF Et HL. unfold parser_find_within, parser_extract_within, with_parser_within, parser_find, parser_extract, with_parser. rewrite (E fuel HF). split; [reflexivity|intros; reflexivity].
  Qed.
  (** More stack never changes what is returned. *)
  Theorem stack_or_same (h : rule_heap) root rel fuel text limit :
    (forall x, parser_findall_within U set_order c rel comp limit fuel h root text = Some x -> x = TooDeep \/ exists r, x = Returns r /\ parser_findall U set_order c rel fuel h root text = Some r) /\
    (forall x, parser_match_within U set_order c rel comp limit fuel h root text = Some x -> x = TooDeep \/ exists r, x = Returns r /\ parser_match U set_order c rel fuel h root text = Some r).
  Proof.
    unfold parser_findall_within, parser_match_within, with_parser_within, parser_findall, parser_match, with_parser. destruct (parser_grammar U set_order c fuel h root) as [[g|e]|]; cbn [then_]; [|split; intros x [= <-]; eauto|split; discriminate].
    destruct (text_tokens c text) as [[toks|e]|]; cbn [then_]; [|split; intros x [= <-]; eauto|split; discriminate]. split; intros x H.
    - destruct (parse (accepts U) narrow g fuel toks true) as [trees|] eqn:P; [|unfold findall_within in H; rewrite P in H; discriminate].
      destruct (findall_same comp g rel limit (accepts U) narrow fuel toks trees P) as (x' & r & E1 & E2 & X). rewrite H in E1. injection E1 as <-. destruct X as [->|[-> _]]; eauto.
    - destruct (parse (accepts U) narrow g fuel toks false) as [trees|] eqn:P; [|unfold match_within in H; rewrite P in H; discriminate].
      destruct (match_same comp g rel limit (accepts U) narrow fuel toks trees P) as (x' & r & E1 & E2 & X). rewrite H in E1. injection E1 as <-. destruct X as [->|[-> _]]; eauto.
  Qed.
  Theorem stack_or_same_others (h : rule_heap) root rel fuel text limit :
    (forall x, parser_find_within U set_order c rel comp limit fuel h root text = Some x -> x = TooDeep \/ exists r, x = Returns r /\ parser_find U set_order c rel fuel h root text = Some r) /\
    (forall all x, parser_extract_within U set_order c rel comp limit fuel h root text all = Some x -> exists r, parser_extract U set_order c rel fuel h root text all = Some r /\
      ((exists found, r = Ok found /\ x = Returns (Ok (unlimited found))) \/ (exists e, r = Err e /\ x = Returns (Err e)) \/
       exists found rest s s' e, x = Returns (Ok (found, s, OutOfStack)) /\ r = Ok (found ++ rest, s', e))).
  Proof.
    unfold parser_find_within, parser_extract_within, with_parser_within, parser_find, parser_extract, with_parser. destruct (parser_grammar U set_order c fuel h root) as [[g|e]|]; cbn [then_]; [|split; [intros x [= <-]; eauto|intros all x [= <-]; eauto 8]|split; discriminate].
    destruct (text_tokens c text) as [[toks|e]|]; cbn [then_]; [|split; [intros x [= <-]; eauto|intros all x [= <-]; eauto 8]|split; discriminate]. split.
    - intros x H. unfold find_within, find in *. destruct (parse (accepts U) narrow g fuel toks true) as [trees|] eqn:P; [|unfold findall_within in H; rewrite P in H; discriminate].
      destruct (findall_same comp g rel limit (accepts U) narrow fuel toks trees P) as (x' & r & E1 & E2 & X). rewrite E1 in H. rewrite E2. injection H as <-. destruct X as [->|[-> _]]; [|left; reflexivity]. right. eexists. split; [|reflexivity]. destruct r as [[s ms]|e]; reflexivity.
    - intros all x H. destruct (parse (accepts U) narrow g fuel toks all) as [trees|] eqn:P; [|unfold extract_within in H; rewrite P in H; discriminate].
      destruct (extract_same comp g rel limit (accepts U) narrow fuel toks all trees P) as (x' & r & E1 & E2 & X). rewrite E1 in H. rewrite E2. injection H as <-. cbn [option_map]. eexists. split; [reflexivity|].
      destruct x' as [[ms s] e], r as [[ms' s'] e']. destruct X as [[X1 X2]|(X1 & _ & rest & X2)]; cbn in *; [injection X1 as -> ->; subst e; left; eexists; split; reflexivity|subst; right; right; repeat eexists].
  Qed.
  Theorem nested_stack_others fuel (h : rule_heap) root g k : built h -> is_rule_at h root -> parser_grammar U set_order c fuel h root = Some (Ok g) -> nested_at_most g k ->
    forall rel text limit, (3 + comp) * k + 2 <= limit ->
    parser_find_within U set_order c rel comp limit fuel h root text = option_map Returns (parser_find U set_order c rel fuel h root text) /\
    forall all, parser_extract_within U set_order c rel comp limit fuel h root text all = option_map (fun r => Returns (let! x := r in Ok (unlimited x))) (parser_extract U set_order c rel fuel h root text all).
  Proof.
    intros B R E N rel text limit L. destruct (rule_alternatives U set_order c sets fuel h root g B R E) as (_ & _ & _ & S1 & _).
    unfold parser_find_within, parser_extract_within, with_parser_within, parser_find, parser_extract, with_parser. rewrite E. cbn [then_].
    destruct (text_tokens c text) as [[toks|e]|]; cbn [then_ option_map]; [|split; reflexivity|split; reflexivity].
    split; [apply (find_enough _ _ _ _ _ k); auto; intros; eapply (nested_levels (accepts U) narrow g k S1 N); eauto|]. intros all.
    rewrite (extract_enough _ _ _ rel comp k limit fuel toks all) by (auto; intros; eapply (nested_levels (accepts U) narrow g k S1 N); eauto). destruct (extract (accepts U) narrow rel g fuel toks all); reflexivity.
  Qed.
  (** A rule that does not contain itself: the same stack for all texts. *)
  Theorem nested_stack fuel (h : rule_heap) root g k : built h -> is_rule_at h root -> parser_grammar U set_order c fuel h root = Some (Ok g) -> nested_at_most g k ->
    forall rel text limit, (3 + comp) * k + 2 <= limit ->
    parser_findall_within U set_order c rel comp limit fuel h root text = option_map Returns (parser_findall U set_order c rel fuel h root text) /\
    parser_match_within U set_order c rel comp limit fuel h root text = option_map Returns (parser_match U set_order c rel fuel h root text).
  Proof.
    intros B R E N rel text limit L. destruct (rule_alternatives U set_order c sets fuel h root g B R E) as (_ & _ & _ & S1 & _).
    unfold parser_findall_within, parser_match_within, with_parser_within, parser_findall, parser_match, with_parser. rewrite E. cbn [then_].
    destruct (text_tokens c text) as [[toks|e]|]; cbn [then_ option_map]; [|split; reflexivity|split; reflexivity].
    split; [apply (findall_enough _ _ _ _ _ k)|apply (match_enough _ _ _ _ _ k)]; auto; intros; eapply (nested_levels (accepts U) narrow g k S1 N); eauto.
  Qed.
End Rules.
