(** A rule whose trees are as deep as the text is long. *)
From Coq Require String.
From Verif Require Import Base TokenModel EarleyModel EarleySpec EarleyInv EarleyProofs EarleyTerm TreeProofs TokenizerModel TaggerModel PredicateModel PredicateCases PipelineModel PipelineSpec PipelineTheorems ParserModel ParserSpec
  ParserTheorems ResultProofs RuleModel RuleSpec RuleBuild GrammarModel GrammarProofs RuleNestSpec TextModel TextSpec TextTheorems Cases RuleCases RuleTheorems RuleLoopSpec LoopTheorems LoopCases PieceSpec PieceTokens PieceCases SizeCases
  StackModel StackText StackSpec StackProofs StackTheorems.
Import String.StringSyntax.
Open Scope nat_scope.

Section Deep.
  Context {pred : Type}.
  Variable comp limit : nat.
  Variable rel : nat -> form -> form -> bool.
  Variable g : grammar token pred.
  (** When the matches are collected, no range has only deep trees. *)
  Definition deep (t : @tree pred) : Prop := limit < (3 + comp) * levels (fst t).
  Lemma range_eqb_refl r : range_eqb r r = true.
  Proof. unfold range_eqb. rewrite !Nat.eqb_refl. reflexivity. Qed.
  Lemma range_eqb_eq r r' : range_eqb r r' = true -> r = r'.
  Proof. destruct r, r'. unfold range_eqb. cbn. intros H. apply andb_prop in H as [H1 H2]. apply Nat.eqb_eq in H1, H2. congruence. Qed.
  Lemma lookup_some (r : nat * nat) (acc : list ((nat * nat) * @amatch pred)) m : lookup_range r acc = Some m -> In (r, m) acc.
  Proof. induction acc as [|[r' m'] acc IH]; cbn; [discriminate|]. destruct (range_eqb r r') eqn:E; [intros [= <-]; apply range_eqb_eq in E as ->; left; reflexivity|right; auto]. Qed.
  Lemma collect_shallow trees range : (forall t, In t trees -> snd t = range -> deep t) -> forall acc s x, (forall m, ~ In (range, m) acc) ->
    collect_within comp rel g limit trees acc s = Returns (Ok x) -> forall t, In t trees -> snd t <> range.
  Proof.
    induction trees as [|t trees IH]; intros D acc s x NA E t' Ht; [destruct Ht|]. assert (D' : forall t, In t trees -> snd t = range -> deep t) by (intros; apply D; [right|]; assumption).
    cbn [collect_within] in E. destruct (lookup_range (snd t) acc) as [m|] eqn:Lr.
    - apply lookup_some in Lr. assert (N : snd t <> range) by (intros <-; exact (NA m Lr)). destruct Ht as [<-|Ht]; [exact N|]. eapply IH; eauto.
    - assert (N : snd t <> range). { intros Er. rewrite (prepare_deep comp g rel limit t s) in E; [discriminate|]. apply D; [left; reflexivity|exact Er]. }
      destruct Ht as [<-|Ht]; [exact N|]. destruct (prepare_match_within comp rel g limit t s) as [[[s' [m|]]|e]|]; cbn in E; try discriminate.
      + eapply IH; [exact D'| |exact E|exact Ht]. intros m' Hm. apply in_app_iff in Hm as [Hm|[Hm|[]]]; [exact (NA m' Hm)|]. injection Hm as Hm _. exact (N Hm).
      + eapply IH; eauto.
  Qed.
  Variable accepts : pred -> token -> bool.
  Variable constrain : pred -> token -> token.
  Theorem findall_deep fuel toks trees range s ms : parse accepts constrain g fuel toks true = Some trees -> findall accepts constrain rel g fuel toks = Some (Ok (s, ms)) ->
    (exists t, In t trees /\ snd t = range) -> (forall t, In t trees -> snd t = range -> deep t) -> findall_within comp rel g limit accepts constrain fuel toks = Some TooDeep.
  Proof.
    intros P F (t & Ht & Er) D. destruct (findall_same comp g rel limit accepts constrain fuel toks trees P) as (x & r & E1 & E2 & X). rewrite F in E2. injection E2 as <-. rewrite E1. f_equal. destruct X as [->|[-> _]]; [|reflexivity]. exfalso.
    unfold findall_within in E1. rewrite P in E1. cbn [option_map] in E1. injection E1 as E1. destruct (sort_within limit trees []) as [[sorted|]|] eqn:Es; cbn in E1; try discriminate.
    destruct (sort_same comp limit trees []) as [K|[K _]]; rewrite Es in K; [|discriminate]. injection K as K. assert (HI := StackProofs.sort_in trees [] sorted (eq_sym K)).
    unfold prepare_resolved_within in E1. destruct (collect_within comp rel g limit sorted [] []) as [[[s' found]|]|] eqn:Ec; cbn in E1; try discriminate.
    refine (collect_shallow sorted range _ [] [] _ (fun m H => H) Ec t _ Er); [|apply HI; left; exact Ht]. intros t' Ht'. apply HI in Ht' as [Ht'|[]]. apply D. exact Ht'.
  Qed.
End Deep.

(** ** rule('a').repeatable() *)
Definition many_parser : nat * rule_heap := Eval vm_compute in parser_heap (program many_program) 2.
Definition many_grammar : grammar token predicate := data_grammar many_parser (reached many_parser).
Lemma many_made n : parser_grammar ASCII first_seen small_context (100 + n) (program many_program) 2 = Some (Ok many_grammar).
Proof.
  assert (E : build_rule ASCII first_seen small_context (100 + n) (program many_program) 2 = Some (Ok many_parser)) by (vm_compute; reflexivity).
  assert (E2 : bfs (100 + n) (snd many_parser) (fst many_parser) = Some (reached many_parser)) by (vm_compute; reflexivity).
  unfold parser_grammar. rewrite E. cbn [then_]. destruct many_parser as [r h'] eqn:EP. cbn [fst snd] in E2. rewrite E2. unfold many_grammar. rewrite EP. reflexivity.
Qed.
Lemma many_built : built (program many_program) /\ is_rule_at (program many_program) 2 /\ harmless (program many_program) 2 /\ loop_free (program many_program) 2.
Proof.
  assert (B : built (program many_program)) by (apply program_built; vm_compute; reflexivity). assert (K : is_rule_at (program many_program) 2) by (apply is_rule_atb_true; vm_compute; reflexivity).
  split; [exact B|]. split; [exact K|]. split; [apply harmlessb_true; auto|]. apply (loop_freeb_true (program many_program) (fun p => p)). vm_compute. reflexivity.
Qed.
Lemma many_prods r q : In q (g_prods many_grammar r) -> r = 31 /\ (q = 29 \/ q = 30).
Proof.
  intros Hq. apply data_prods in Hq as [Hr Hq]. vm_compute in Hr.
  repeat (destruct Hr as [<-|Hr]; [vm_compute in Hq; repeat (destruct Hq as [<-|Hq]; [lia|]); destruct Hq|]). destruct Hr.
Qed.
Lemma many_terms : g_terms many_grammar 29 = [letter; TRule 31] /\ g_terms many_grammar 30 = [letter] /\ g_start many_grammar = 31.
Proof. vm_compute. auto. Qed.
Lemma many_relations : relation_free many_grammar.
Proof.
  assert (H : forallb (fun o => match get_attributes o with Some a => match a_relation a with Some _ => false | None => true end | None => true end) (snd many_parser) = true) by (vm_compute; reflexivity).
  rewrite forallb_forall in H. intros r. unfold many_grammar, data_grammar, restrict, grammar_of. cbn [g_relation]. destruct (is_in r (reached many_parser)); [|reflexivity].
  destruct (nth_error (snd many_parser) r) as [o|] eqn:E; [|reflexivity]. specialize (H o (nth_error_In _ _ E)). destruct (get_attributes o) as [a|]; [|reflexivity]. destruct (a_relation a); [discriminate|reflexivity].
Qed.
Lemma many_deep toks i j d : derives (accepts ASCII) many_grammar toks (TRule 31) i j d -> i < j /\ j - i <= depth d.
Proof.
  destruct many_terms as (T1 & T2 & _). assert (X : forall n i j d, depth d <= n -> derives (accepts ASCII) many_grammar toks (TRule 31) i j d -> i < j /\ j - i <= depth d); [|exact (X _ i j d (le_n _))].
  clear i j d. induction n as [|n IH]; intros i j d L H; inversion H as [|? q ? ? ds Hq Hs]; subst; [inversion L|]. apply many_prods in Hq as [_ [-> | ->]].
  - rewrite T1 in Hs. inversion Hs as [|? ? ? ? ? d1 ds1 Ha Hb]; subst. inversion Hb as [|? ? ? ? ? d2 ds2 Hc Hd]; subst. inversion Hd; subst. inversion Ha; subst. cbn [depth map] in *. rewrite !list_max_cons in *. destruct (IH _ _ d2 ltac:(lia) Hc) as [L1 L2]. lia.
  - rewrite T2 in Hs. inversion Hs as [|? ? ? ? ? d1 ds1 Ha Hb]; subst. inversion Hb; subst. inversion Ha; subst. cbn [depth]. lia.
Qed.
Fixpoint many_reading (n i : nat) : dtree predicate := match n with 0 => DNode 31 30 [leaf_at i] | S n' => DNode 31 29 [leaf_at i; many_reading n' (S i)] end.
Lemma many_derived toks : (forall t, In t toks -> the_a t) -> forall n i, n + i < length toks -> derives (accepts ASCII) many_grammar toks (TRule 31) i (S (n + i)) (many_reading n i) /\ no_empty_part (many_reading n i).
Proof.
  intros A. destruct many_terms as (T1 & T2 & _).
  assert (Lt : forall i, i < length toks -> derives (accepts ASCII) many_grammar toks letter i (S i) (leaf_at i)).
  { intros i L. destruct (nth_error toks i) as [t|] eqn:E; [|apply nth_error_None in E; lia]. apply (derives_pred _ _ _ _ i t E). apply A, (nth_error_In _ _ E). }
  induction n as [|n IH]; intros i L; cbn [many_reading].
  - split; [|cbn; repeat split; discriminate]. apply derives_rule; [vm_compute; auto|]. rewrite T2. econstructor; [apply Lt; lia|constructor].
  - destruct (IH (S i) ltac:(lia)) as [D N]. split; [|cbn; repeat split; [discriminate|exact N]]. apply derives_rule; [vm_compute; auto|]. rewrite T1. econstructor; [apply Lt; lia|]. econstructor; [|constructor]. replace (S (S n + i)) with (S (n + S i)) by lia. exact D.
Qed.
(** n + 1 letters need more than (3 + comp) * (n + 1) frames. *)
Lemma many_too_deep comp limit rel n : limit < (3 + comp) * S n -> exists toks fuel0, text_tokens small_context (many n) = Some (Ok toks) /\ length toks = S n /\
  forall fuel, fuel0 <= fuel -> parser_findall_within ASCII first_seen small_context rel comp limit fuel (program many_program) 2 (many n) = Some TooDeep /\
  exists r, parser_findall ASCII first_seen small_context rel fuel (program many_program) 2 (many n) = Some (Ok r).
Proof.
  intros HL. destruct (many_tokens n) as (toks & E & L & A). exists toks. destruct many_built as (B & K & H & LF). destruct many_terms as (_ & _ & Gs).
  destruct (loop_free_grammar ASCII first_seen small_context first_seen_iterates _ _ 2 _ B K LF (many_made 0)) as ((rules & F) & S1 & Ac).
  destruct (grammar_usable ASCII first_seen small_context first_seen_iterates _ _ 2 _ B H K (many_made 0)) as (_ & _ & C).
  destruct (parse_terminates (accepts ASCII) narrow many_grammar rules toks true F S1 Ac) as (f0 & trees & T).
  exists (100 + f0). split; [exact E|]. split; [exact L|]. intros fuel HF. replace fuel with (100 + (fuel - 100)) by lia. assert (T' := T (100 + (fuel - 100)) ltac:(lia)).
  assert (Sp : forall m i j, In (m, (i, j)) trees -> i < j /\ j - i <= levels m).
  { intros m i j Hm. destruct (parse_sound (accepts ASCII) narrow many_grammar _ toks true trees m i j S1 T' Hm) as (D & _). rewrite Gs in D. rewrite levels_depth. exact (many_deep toks i j _ D). }
  destruct (free_findall_ok (accepts ASCII) narrow rel many_grammar _ toks trees many_relations T' (fun m i j Hm => proj1 (Sp m i j Hm))) as (s & ms & Fa).
  unfold parser_findall_within, with_parser_within, parser_findall, with_parser. rewrite (many_made (fuel - 100)), E. cbn [then_]. split; [|exists (s, ms); exact Fa].
  destruct (many_derived toks A n 0 ltac:(lia)) as [D NE]. rewrite Nat.add_0_r in D. rewrite <- Gs in D.
  destruct (parse_complete (accepts ASCII) narrow many_grammar _ toks true trees 0 (S n) _ C T' D NE) as (m & Hm & _); [lia|auto|auto|].
  apply (findall_deep comp limit rel many_grammar (accepts ASCII) narrow _ toks trees (0, S n) s ms T' Fa); [exists (m, (0, S n)); auto|].
  intros [m' [i j]] Hm' Er. cbn in Er. injection Er as -> ->. destruct (Sp m' 0 (S n) Hm') as [_ L2]. unfold deep. cbn [fst]. nia.
Qed.
Lemma stack_exceeded : exists U set_order c h root, set_iteration set_order /\ built h /\ is_rule_at h root /\ harmless h root /\ loop_free h root /\
  forall comp limit rel, exists text fuel0, forall fuel, fuel0 <= fuel ->
  parser_findall_within U set_order c rel comp limit fuel h root text = Some TooDeep /\ exists r, parser_findall U set_order c rel fuel h root text = Some (Ok r).
Proof.
  exists ASCII, first_seen, small_context, (program many_program), 2. destruct many_built as (B & K & H & LF). split; [exact first_seen_iterates|]. split; [exact B|]. split; [exact K|]. split; [exact H|]. split; [exact LF|].
  intros comp limit rel. destruct (many_too_deep comp limit rel limit ltac:(nia)) as (toks & f0 & _ & _ & X). exists (many limit), f0. exact X.
Qed.
(** What a limited stack gives for n + 1 letters: the ranges found. *)
Definition found_within (comp limit n : nat) : option (run (list (nat * nat))) :=
  option_map (fun x => run_bind x (fun '(_, ms) => Returns (Ok (map m_range ms)))) (parser_findall_within ASCII first_seen small_context (fun _ _ _ => true) comp limit 1000 (program many_program) 2 (many n)).
Definition extracted_within (comp limit n : nat) : option (run (list (nat * nat) * ending)) :=
  option_map (fun x => run_bind x (fun '(ms, _, e) => Returns (Ok (map m_range ms, e)))) (parser_extract_within ASCII first_seen small_context (fun _ _ _ => true) comp limit 1000 (program many_program) 2 (many n) true).

(** ** A rule that does not contain itself: rule('a').repeatable(max=3) *)
Definition nestedb (x : nat * rule_heap) (objects : list nat) (level : nat -> nat) (k : nat) : bool :=
  let g := data_grammar x objects in
  Nat.ltb (level (g_start g)) k &&
  forallb (fun r => forallb (fun q => forallb (fun t => match t with TRule r' => Nat.ltb (level r') (level r) | TPred _ => true end) (g_terms g q)) (g_prods g r)) objects.
Lemma nestedb_true x objects level k : nestedb x objects level k = true -> nested_at_most (data_grammar x objects) k.
Proof.
  unfold nestedb. intros H. apply andb_prop in H as [H1 H2]. apply Nat.ltb_lt in H1. rewrite forallb_forall in H2. exists level. split; [exact H1|]. intros r q r' Hq Ht.
  assert (Hr : In r objects) by (apply data_prods in Hq; tauto). specialize (H2 r Hr). rewrite forallb_forall in H2. specialize (H2 q Hq). rewrite forallb_forall in H2. specialize (H2 _ Ht). apply Nat.ltb_lt in H2. exact H2.
Qed.
Definition three_program : list rule_call := [CRule [W "a"; W "b"]; CRepeatable 1 None (Some 3%Z) false].
Definition three_parser : nat * rule_heap := Eval vm_compute in parser_heap (program three_program) 2.
Definition three_grammar : grammar token predicate := data_grammar three_parser (reached three_parser).
Lemma three_made n : parser_grammar ASCII first_seen small_context (100 + n) (program three_program) 2 = Some (Ok three_grammar).
Proof.
  unfold parser_grammar. assert (B : build_rule ASCII first_seen small_context (100 + n) (program three_program) 2 = Some (Ok three_parser)) by (vm_compute; reflexivity).
  rewrite B. unfold three_parser, then_. assert (F : bfs (100 + n) (snd three_parser) (fst three_parser) = Some (reached three_parser)) by (vm_compute; reflexivity).
  unfold three_parser, fst, snd in F. cbv beta iota. rewrite F. reflexivity.
Qed.
Lemma three_nested : nested_at_most three_grammar 3.
Proof. apply (nestedb_true three_parser (reached three_parser) (fun r => if Nat.eqb r 49 then 2 else if Nat.eqb r 47 then 1 else 0) 3). vm_compute. reflexivity. Qed.
Lemma three_built : built (program three_program) /\ is_rule_at (program three_program) 2.
Proof. split; [apply program_built; vm_compute; reflexivity|apply is_rule_atb_true; vm_compute; reflexivity]. Qed.
Definition three_within (comp limit : nat) (text : str) : option (run (list (nat * nat))) :=
  option_map (fun x => run_bind x (fun '(_, ms) => Returns (Ok (map m_range ms)))) (parser_findall_within ASCII first_seen small_context (fun _ _ _ => true) comp limit 1000 (program three_program) 2 text).
