(** Rules with and without loops. *)
From Coq Require String.
From Verif Require Import Base TokenModel EarleyModel PredicateModel PredicateCases PipelineModel PipelineSpec PipelineTheorems ParserModel Cases RuleModel RuleSpec RuleBuild RuleCases
  GrammarModel TextModel TextTheorems RuleAgainSpec RuleAgainCases Runaway RuleLoopSpec.
Import String.StringSyntax.
Open Scope nat_scope.

(** ** A test for rules without loops *)
Section Test.
  Variable h : rule_heap.
  Notation obj := (obj predicate pipeline pipeline_bnf).
  Definition skippableb (o : obj) : bool := match o with OOptional _ _ | ORepOpt _ _ _ | OEmpty | OEmptyProd => true | _ => false end.
  Definition term_in (es : list nat) (t : term predicate) : bool := match t with TRule r => is_in r es | TPred _ => false end.
  Definition emptyb (es : list nat) (o : obj) : bool :=
    skippableb o || match o with OProd ts _ => forallb (term_in es) ts | o => existsb (fun c => is_in c es) (children o) end.
  Definition object_at (p : nat) : obj := nth p h OEmpty.
  Definition grow (es : list nat) : list nat := filter (fun p => emptyb es (object_at p)) (seq 0 (length h)).
  Definition empties : list nat := Nat.iter (length h) grow [].
  Fixpoint splits (pre post : list (term predicate)) (f : list (term predicate) -> nat -> bool) : bool :=
    match post with
    | [] => true
    | t :: post' => match t with TRule r => f (pre ++ post') r | TPred _ => true end && splits (pre ++ [t]) post' f
    end.
  Definition loop_free_obj (es : list nat) (level : nat -> nat) (p : nat) (o : obj) : bool :=
    (negb (emptyb es o) || is_in p es) &&
    match o with
    | OProd ts _ => splits [] ts (fun others c => negb (forallb (term_in es) others) || Nat.ltb (level c) (level p))
    | _ => forallb (fun c => Nat.ltb (level c) (level p)) (children o)
    end &&
    match o with ORepeatable r _ | ORepOpt r _ _ | OMin r _ _ => negb (is_in r es) | _ => true end.
  Definition loop_freeb (level : nat -> nat) : bool :=
    let es := empties in forallb (fun p => loop_free_obj es level p (object_at p)) (seq 0 (length h)).

  Lemma is_in_spec p l : is_in p l = true <-> In p l.
  Proof. unfold is_in. rewrite existsb_exists. split; [intros (x & Hx & E); apply Nat.eqb_eq in E as <-; exact Hx|]. intros H. exists p. rewrite Nat.eqb_refl. auto. Qed.
  Lemma splits_ok f : forall post pre a r b, splits pre post f = true -> post = a ++ TRule r :: b -> f (pre ++ a ++ b) r = true.
  Proof.
    induction post as [|t post IH]; intros pre a r b S E; [destruct a; discriminate|]. cbn in S. apply andb_true_iff in S as [S1 S2]. destruct a as [|x a]; injection E as -> E.
    - subst post. exact S1.
    - specialize (IH (pre ++ [x]) a r b S2 E). rewrite <- app_assoc in IH. exact IH.
  Qed.
  Lemma object_found p o : nth_error h p = Some o -> object_at p = o /\ In p (seq 0 (length h)).
  Proof. intros E. split; [unfold object_at; apply nth_error_nth, E|]. apply in_seq. split; [lia|]. cbn. apply nth_error_Some. congruence. Qed.
  Lemma loop_freeb_true level root : loop_freeb level = true -> loop_free h root.
  Proof.
    unfold loop_freeb. generalize empties. intros es K. rewrite forallb_forall in K.
    assert (O : forall p o, nth_error h p = Some o -> loop_free_obj es level p o = true).
    { intros p o E. destruct (object_found p o E) as [<- Hp]. apply K, Hp. }
    assert (T : forall ts, (forall x, ~ In (TPred x) ts) -> (forall r, In (TRule r) ts -> In r es) -> forallb (term_in es) ts = true).
    { intros ts NP NR. apply forallb_forall. intros [r|x] Ht; [apply is_in_spec, NR, Ht|destruct (NP x Ht)]. }
    assert (C : forall p, can_be_empty h p -> In p es).
    { intros p H. induction H as [p o E S|p o c E NP Hc H IH|p ts main E NP H IH]; specialize (O p _ E); unfold loop_free_obj in O; rewrite !andb_true_iff in O; destruct O as [[O _] _]; apply orb_true_iff in O as [O|O];
        try (apply is_in_spec; exact O); exfalso; apply negb_true_iff in O; apply not_true_iff_false in O; apply O; unfold emptyb; apply orb_true_iff.
      - left. destruct o; try destruct S; reflexivity.
      - right. assert (X : existsb (fun c => is_in c es) (children o) = true) by (apply existsb_exists; exists c; split; [exact Hc|apply is_in_spec, IH]). destruct o; try exact X. destruct NP. exact Logic.I.
      - right. apply T; assumption. }
    split.
    - intros p o r _ E Hr He. specialize (O p o E). unfold loop_free_obj in O. rewrite !andb_true_iff in O. destruct O as [_ O]. apply C, is_in_spec in He.
      destruct o; cbn in Hr; try contradiction; subst; rewrite He in O; discriminate.
    - exists level. intros p c _ A. destruct A as [o c E NP Hc|pre c post main E NP H]; specialize (O p _ E); unfold loop_free_obj in O; rewrite !andb_true_iff in O; destruct O as [[_ O] _].
      + assert (X : forallb (fun c => Nat.ltb (level c) (level p)) (children o) = true) by (destruct o; try exact O; destruct NP; exact Logic.I). rewrite forallb_forall in X. apply Nat.ltb_lt, X, Hc.
      + apply (splits_ok _ _ [] pre c post) in O; [|reflexivity]. cbn [app] in O. rewrite T in O; [cbn in O; apply Nat.ltb_lt, O|exact NP|]. intros r Hr. apply C, H, Hr.
  Qed.
End Test.

(** ** rule(rule('a').optional(), rule('b').optional()).repeatable() *)
Definition optionals_program : list rule_call := [CRule [W "a"]; CRule [W "b"]; COptional 1 false; COptional 3 false; CRule [R 4; R 5]; CRepeatable 7 None None false].
Definition optionals_heap : rule_heap := Eval vm_compute in program optionals_program.
Definition grammar_of_rule (h : rule_heap) (root : nat) : grammar token predicate :=
  match parser_grammar ASCII first_seen small_context 50 h root with Some (Ok g) => g | _ => mkGrammar (fun _ => []) (fun _ _ => []) (fun _ => []) (fun _ => 0) (fun _ => None) (fun _ => None) (fun _ => None) 0 end.
Definition text_words (text : str) : list token := match text_tokens small_context text with Some (Ok toks) => toks | _ => [] end.
Definition optionals_grammar : grammar token predicate := Eval vm_compute in grammar_of_rule optionals_heap 8.
Lemma optionals_constructed n : parser_grammar ASCII first_seen small_context (50 + n) optionals_heap 8 = Some (Ok optionals_grammar).
Proof. vm_compute. reflexivity. Qed.

(** ** f = forward(); f.define(or_(rule(f), rule('a'))) *)
Definition self_program : list rule_call := [CForward; CRule [R 0]; CRule [W "a"]; COr [2; 4]; CDefine 0 5].
Definition self_heap : rule_heap := Eval vm_compute in program self_program.
Definition self_grammar : grammar token predicate := Eval vm_compute in grammar_of_rule self_heap 0.
Lemma self_constructed n : parser_grammar ASCII first_seen small_context (50 + n) self_heap 0 = Some (Ok self_grammar).
Proof. vm_compute. reflexivity. Qed.

Definition stuck_second (g : grammar token predicate) (text : str) (all : bool) (n r : nat) : bool :=
  let toks := text_words text in
  negb (Nat.eqb (length toks) 0) &&
  match drain (accepts ASCII) narrow g toks 50 0 0 (start_column g toks all 0 init_cst) with
  | Some st => runs_away_from (accepts ASCII) narrow g toks 50 n 1 0 r (start_column g toks all 1 st)
  | None => false
  end.
Lemma stuck_second_true g text all n r : stuck_second g text all n r = true -> forall fuel, parse (accepts ASCII) narrow g fuel (text_words text) all = None.
Proof.
  unfold stuck_second. intros H fuel. apply andb_true_iff in H as [T H]. destruct (drain _ _ _ _ _ _ _ _) as [st|] eqn:D; [|discriminate]. unfold parse.
  rewrite (stuck_chart_second _ _ _ _ 50 st fuel all); [reflexivity| |exact D|].
  - intros X. rewrite X in T. discriminate.
  - apply (runs_away_from_stuck _ _ _ _ 50 n 1 0 r), H.
Qed.
Lemma stuck_parser h root text g rel : (forall n, parser_grammar ASCII first_seen small_context (50 + n) h root = Some (Ok g)) ->
  text_tokens small_context text = Some (Ok (text_words text)) ->
  (forall fuel all, parse (accepts ASCII) narrow g fuel (text_words text) all = None) -> forall n,
  parser_findall ASCII first_seen small_context rel (50 + n) h root text = None /\ parser_match ASCII first_seen small_context rel (50 + n) h root text = None.
Proof.
  intros G T P n. unfold parser_findall, parser_match, with_parser. rewrite G. cbn [then_]. rewrite T. cbn [then_]. unfold findall, match_. rewrite !P. split; reflexivity.
Qed.
Lemma optionals_never rel fuel : parser_findall ASCII first_seen small_context rel fuel optionals_heap 8 (str_of "a") = None /\
  parser_match ASCII first_seen small_context rel fuel optionals_heap 8 (str_of "a") = None.
Proof.
  do 50 (destruct fuel as [|fuel]; [vm_compute; split; reflexivity|]). apply (stuck_parser _ _ _ optionals_grammar).
  - exact optionals_constructed.
  - vm_compute. reflexivity.
  - intros f [|]; apply (stuck_second_true _ _ _ 30 85); vm_compute; reflexivity.
Qed.
Lemma self_never rel fuel : parser_findall ASCII first_seen small_context rel fuel self_heap 0 (str_of "a") = None /\
  parser_match ASCII first_seen small_context rel fuel self_heap 0 (str_of "a") = None.
Proof.
  do 50 (destruct fuel as [|fuel]; [vm_compute; split; reflexivity|]). apply (stuck_parser _ _ _ self_grammar).
  - exact self_constructed.
  - vm_compute. reflexivity.
  - intros f [|]; apply (stuck_second_true _ _ _ 10 (g_start self_grammar)); vm_compute; reflexivity.
Qed.

Lemma loops_refute : exists U set_order c h root text, set_iteration set_order /\ built h /\ flat h root /\ is_rule_at h root /\ plain_rule h root /\
  (exists g, parser_grammar U set_order c 50 h root = Some (Ok g)) /\
  forall rel, never_ends (fun n => parser_findall U set_order c rel n h root text) /\ never_ends (fun n => parser_match U set_order c rel n h root text).
Proof.
  exists ASCII, first_seen, small_context, optionals_heap, 8, (str_of "a"). split; [exact first_seen_iterates|]. split; [apply (program_built optionals_program); reflexivity|].
  split; [apply flatb_true; vm_compute; reflexivity|]. split; [apply is_rule_atb_true; vm_compute; reflexivity|]. split; [apply plain_ruleb_true; vm_compute; reflexivity|].
  split; [exists optionals_grammar; exact (optionals_constructed 0)|]. intros rel. split; intros fuel; apply optionals_never.
Qed.

(** ** rule(expr, rule(';').optional()).repeatable(), where expr is the rule of expressions *)
Definition lines_program : list rule_call := expr_program ++ [CRule [W ";"]; COptional 10 false; CRule [R 0; R 11]; CRepeatable 13 None None false].
Definition lines_heap : rule_heap := Eval vm_compute in program lines_program.
Definition lines_level (p : nat) : nat := match p with 0 => 9 | S _ => p + 10 * (p / 10) end.
Lemma lines_loop_free : built lines_heap /\ is_rule_at lines_heap 14 /\ loop_free lines_heap 14.
Proof.
  split; [apply (program_built lines_program); reflexivity|]. split; [apply is_rule_atb_true; vm_compute; reflexivity|]. apply (loop_freeb_true _ lines_level). vm_compute. reflexivity.
Qed.
Lemma lines_reach : reach lines_heap 14 0 /\ reach lines_heap 8 0.
Proof.
  split.
  - apply (reach_step _ 14 12 (OProd [TRule 0; TRule 11] 0)); [|reflexivity|left; reflexivity]. apply (reach_step _ 14 13 (ORule [12])); [|reflexivity|left; reflexivity].
    apply (reach_step _ 14 14 (ORepeatable 13 false)); [constructor|reflexivity|left; reflexivity].
  - eapply reach_step; [eapply (reach_step _ 8 7); [eapply (reach_step _ 8 8); [constructor|reflexivity|right; left; reflexivity]|reflexivity|left; reflexivity]|reflexivity|left; reflexivity].
Qed.
Lemma lines_parts : can_be_empty lines_heap 11 /\ may_be_just lines_heap 12 0.
Proof.
  assert (E : can_be_empty lines_heap 11) by (apply (empty_itself _ 11 (OOptional 10 false)); [reflexivity|exact Logic.I]). split; [exact E|].
  apply (just_term _ 12 [] 0 [TRule 11] 0); [reflexivity|intros x [X|[]]; discriminate|]. intros r [X|[]]. injection X as <-. exact E.
Qed.
Lemma self_refute : exists U set_order c h root text, set_iteration set_order /\ built h /\ flat h root /\ is_rule_at h root /\
  (forall p o r, reach h root p -> nth_error h p = Some o -> ~ repeated o r) /\
  (exists g, parser_grammar U set_order c 50 h root = Some (Ok g)) /\
  forall rel, never_ends (fun n => parser_findall U set_order c rel n h root text) /\ never_ends (fun n => parser_match U set_order c rel n h root text).
Proof.
  exists ASCII, first_seen, small_context, self_heap, 0, (str_of "a"). split; [exact first_seen_iterates|]. split; [apply (program_built self_program); reflexivity|].
  split; [apply flatb_true; vm_compute; reflexivity|]. split; [apply is_rule_atb_true; vm_compute; reflexivity|].
  split; [|split; [exists self_grammar; exact (self_constructed 0)|]; intros rel; split; intros fuel; apply self_never].
  intros p o r _ E. do 6 (destruct p as [|p]; [injection E as <-; intros []|]). destruct p; discriminate.
Qed.
Lemma looping_parts :
  optionals_heap = program [CRule [W "a"]; CRule [W "b"]; COptional 1 false; COptional 3 false; CRule [R 4; R 5]; CRepeatable 7 None None false] /\
  self_heap = program [CForward; CRule [R 0]; CRule [W "a"]; COr [2; 4]; CDefine 0 5] /\
  can_be_empty optionals_heap 7 /\ may_be_just self_heap 0 5 /\ may_be_just self_heap 5 2 /\ may_be_just self_heap 2 1 /\ may_be_just self_heap 1 0.
Proof.
  split; [vm_compute; reflexivity|]. split; [vm_compute; reflexivity|]. split; [|repeat split].
  - apply (empty_part _ 7 (ORule [6]) 6); [reflexivity|intros []|left; reflexivity|]. apply (empty_terms _ 6 [TRule 4; TRule 5] 0); [reflexivity|intros x [X|[X|[]]]; discriminate|].
    intros r [X|[X|[]]]; injection X as <-; (eapply empty_itself; [reflexivity|exact Logic.I]).
  - eapply just_part; [reflexivity|intros []|left; reflexivity].
  - eapply just_part; [reflexivity|intros []|left; reflexivity].
  - eapply just_part; [reflexivity|intros []|left; reflexivity].
  - apply (just_term _ 1 [] 0 [] 0); [reflexivity|intros x []|intros r []].
Qed.
