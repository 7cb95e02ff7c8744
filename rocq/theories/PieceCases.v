(** Concrete rules and texts put together from two texts. *)
From Coq Require String.
From Verif Require Import Base TokenModel EarleyModel EarleySpec EarleyProofs TokenizerModel TokenizerSpec TaggerModel PredicateModel PredicateSpec PipelineModel PipelineSpec PipelineTheorems
  TreeModel TreeSpec ParserModel ParserSpec ParserTheorems RuleModel RuleSpec RuleAccept RuleNormalized RuleBuild RuleCalls GrammarModel GrammarSpec RuleNestSpec RuleMild RuleTheorems TextModel TextSpec TextProofs TextTheorems TextEqual EqualSpec PredicateCases Cases RuleCases SetOrderTheorems TokenizerTheorems
  AbsentSpec AbsentTheorems TextAbsent AbsentCases RuleAgainCases PieceSpec PieceTokens PieceProofs PieceTheorems.
Import String.StringSyntax.
Open Scope nat_scope.

(** or_(rule(a, x.repeatable(), y), rule(z, a, x, x, y, w)), the optional part [y] being
    one object. *)
Definition after_program : list rule_call :=
  [CRule [W "y"]; COptional 1 false; CRule [W "x"]; CRepeatable 4 None None false; CRule [W "a"; R 5; R 2]; CRule [W "z"; W "a"; W "x"; W "x"; R 2; W "w"]; COr [7; 9]].
Definition from_bankb : predicate -> bool := fix F p := match p with PAnd l | POr l => forallb F l | PNot q => F q | PUser _ => false | _ => true end.
Lemma from_bankb_true p : from_bankb p = true -> from_bank p.
Proof.
  intros B f I. induction I as [|ps p J I IH|ps p J I IH|p I IH]; cbn in B; try discriminate; auto; apply IH; rewrite forallb_forall in B; apply B, J.
Qed.
Definition bank_programb (h : rule_heap) : bool := forallb (fun o => match o with OProd ts _ => forallb (fun t => match t with TPred p => from_bankb p | TRule _ => true end) ts | _ => true end) h.
Lemma bank_programb_true U c h root : bank_programb h = true -> blind_rule U c h root.
Proof.
  intros B. apply bank_rule_blind. intros x ts main p _ E I. unfold bank_programb in B. rewrite forallb_forall in B. specialize (B _ (nth_error_In _ _ E)). cbn in B. rewrite forallb_forall in B. apply from_bankb_true, (B _ I).
Qed.

Lemma small_separates x : ~ visible basic_chars x -> ~ eol_char basic_chars x -> separates (c_tokenizer small_context) x.
Proof. intros V E. apply (default_separates basic_chars); [exact basic_sane|reflexivity|exact V|exact E]. Qed.
Lemma small_tags : tags_apart small_context.
Proof. intros k a b. reflexivity. Qed.

Definition space : N := 32%N.
Lemma after_apart toks i j : text_tokens small_context (str_of "z a x x") = Some (Ok toks) -> rule_accepts ASCII first_seen small_context (program after_program) 10 toks i j -> j <= 1 \/ 1 <= i.
Proof.
  intros T (ts & (pre & post & E & Lp & Lj) & M). destruct i as [|i]; [|right; lia]. left. exfalso. destruct pre as [|]; [|discriminate]. cbn [app] in E.
  assert (V : map t_value toks = map str_of ["z"; "a"; "x"; "x"]%string) by (revert T; vm_compute; intros E'; injection E' as <-; reflexivity).
  rewrite E, map_app in V. clear E T Lp Lj.
  apply (or_matches ASCII first_seen small_context _ 10 [7; 9]) in M; [|reflexivity]. destruct M as (r & [<-|[<-|[]]] & M).
  - apply (sequence_matches ASCII first_seen small_context _ 7 [TPred (PEq (str_of "a")); TRule 5; TRule 2]) in M; [|eexists _, _; split; reflexivity]. inversion M as [|p tl t tt A M'|]; subst. cbn in V. injection V as V _. cbn in A. unfold accepts_active in A. cbn in A. unfold accepts in A. cbn in A. rewrite V in A. discriminate.
  - apply (sequence_matches ASCII first_seen small_context _ 9 ([TPred (PEq (str_of "z")); TPred (PEq (str_of "a")); TPred (PEq (str_of "x")); TPred (PEq (str_of "x")); TRule 2] ++ [TPred (PEq (str_of "w"))])) in M; [|eexists _, _; split; reflexivity].
    apply in_sequence_app in M as (us & vs & -> & _ & M). inversion M as [|p tl t tt A M'|]; subst. assert (I : In (t_value t) (map str_of ["z"; "a"; "x"; "x"]%string)) by (rewrite <- V; apply in_or_app; left; apply in_map, in_elt).
    unfold accepts_active in A. cbn in A. unfold accepts in A. cbn in A. apply PredicateProofs.str_eqb_eq in A. rewrite A in I. vm_compute in I. repeat (destruct I as [I|I]; [discriminate|]). destruct I.
Qed.

(** Nothing found crosses the border. *)
Definition apart_in (p : list rule_call) (root : nat) (text : str) (n : nat) : bool :=
  match parser_grammar ASCII first_seen small_context 100 (program p) root, text_tokens small_context text with
  | Some (Ok g), Some (Ok toks) => match parse (accepts ASCII) narrow g 100 toks true with Some trees => forallb (fun t => (snd (snd t) <=? n) || (n <=? fst (snd t))) trees | None => false end
  | _, _ => false
  end.
Lemma apart_in_true p root text n g toks : usual ASCII first_seen small_context 100 (program p) root text g toks -> timely g -> apart_in p root text n = true ->
  forall i j, rule_accepts ASCII first_seen small_context (program p) root toks i j -> j <= n \/ n <= i.
Proof.
  intros (ST & B & H & R & N & G & T & SO) TI. unfold apart_in. rewrite G, T. destruct (parse _ _ _ _ _ _) as [trees|] eqn:P; [|discriminate]. intros F i j A.
  assert (Li : i <= length toks) by (eapply accept_start, A).
  apply (absent_accept ASCII first_seen small_context ST 100 (program p) root B H R g toks G SO) in A as (d & D).
  destruct (timely_parse_complete (accepts ASCII) narrow g toks 100 true trees i j d (proj1 (usable ASCII first_seen small_context ST 100 (program p) root g B H R G)) (proj2 (usable ASCII first_seen small_context ST 100 (program p) root g B H R G)) TI P D Li) as (nd & I & _); auto.
  rewrite forallb_forall in F. specialize (F _ I). cbn [fst snd] in F. apply orb_true_iff in F as [F|F]; apply Nat.leb_le in F; auto.
Qed.

Lemma found_data h root text l : found_in small_context h root text = Some (Ok l) ->
  exists s ms, parser_findall ASCII first_seen small_context no_relations 100 h root text = Some (Ok (s, ms)) /\ map (fun m => (m_range m, m_span m)) ms = l.
Proof. unfold found_in, ranges_of. destruct (parser_findall _ _ _ _ _ _ _ _) as [[[s ms]|]|]; try discriminate. intros E. injection E as E. eauto. Qed.
Lemma pieces_differ : exists U set_order c rel fuel h root a x b g toks ts ts' s s1 s2 ms ms1 ms2,
  usual U set_order c fuel h root (a ++ x :: b) g toks /\ blind_rule U c h root /\ no_morph_pipeline h root /\ separates (c_tokenizer c) x /\ tags_apart c /\
  text_tokens c a = Some (Ok ts) /\ text_tokens c b = Some (Ok ts') /\
  (forall i j, rule_accepts U set_order c h root toks i j -> j <= length ts \/ length ts <= i) /\
  parser_findall U set_order c rel fuel h root (a ++ x :: b) = Some (Ok (s, ms)) /\
  parser_findall U set_order c rel fuel h root a = Some (Ok (s1, ms1)) /\ parser_findall U set_order c rel fuel h root b = Some (Ok (s2, ms2)) /\
  map m_range ms <> map m_range ms1 ++ map (later_range (length ts)) (map m_range ms2).
Proof.
  destruct (usualb_true after_program 10 (str_of "z a x x")) as (g & toks & Us); [vm_compute; reflexivity|].
  destruct (text_tokens small_context (str_of "z")) as [[ts|]|] eqn:T1; [|exfalso; revert T1; vm_compute; discriminate|exfalso; revert T1; vm_compute; discriminate].
  destruct (text_tokens small_context (str_of "a x x")) as [[ts'|]|] eqn:T2; [|exfalso; revert T2; vm_compute; discriminate|exfalso; revert T2; vm_compute; discriminate].
  assert (L : length ts = 1) by (revert T1; vm_compute; intros E; injection E as <-; reflexivity).
  assert (F : found_in small_context (program after_program) 10 (str_of "z a x x") = Some (Ok [((1, 3), (2%Z, 5%Z))])) by (vm_compute; reflexivity).
  assert (F1 : found_in small_context (program after_program) 10 (str_of "z") = Some (Ok [])) by (vm_compute; reflexivity).
  assert (F2 : found_in small_context (program after_program) 10 (str_of "a x x") = Some (Ok [((0, 3), (0%Z, 5%Z))])) by (vm_compute; reflexivity).
  apply found_data in F as (s & ms & E & F). apply found_data in F1 as (s1 & ms1 & E1 & F1). apply found_data in F2 as (s2 & ms2 & E2 & F2).
  exists ASCII, first_seen, small_context, no_relations, 100, (program after_program), 10, (str_of "z"), space, (str_of "a x x"), g, toks, ts, ts', s, s1, s2, ms, ms1, ms2.
  change (str_of "z" ++ space :: str_of "a x x") with (str_of "z a x x"). rewrite L.
  split; [exact Us|]. split; [apply bank_programb_true; vm_compute; reflexivity|].
  split; [intros x p _ I; exfalso; apply nth_error_In in I; revert I; vm_compute; intuition discriminate|].
  split; [apply small_separates; [vm_compute; discriminate|intros (y & I & J); vm_compute in I; intuition congruence]|]. split; [exact small_tags|].
  split; [exact T1|]. split; [exact T2|]. split; [intros i j; apply after_apart; apply Us|]. split; [exact E|]. split; [exact E1|]. split; [exact E2|].
  clear - F F1 F2.
  destruct ms as [|m [|]]; try discriminate. destruct ms1; try discriminate. destruct ms2 as [|m2 [|]]; try discriminate. cbn in *. injection F as -> _. injection F2 as -> _. discriminate.
Qed.
