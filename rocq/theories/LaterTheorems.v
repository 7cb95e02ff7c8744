(** What happens to a match after it has been reported: rules and texts. *)
From Coq Require String.
From Verif Require Import Base TokenModel TokenizerModel RelationModel EarleyModel EarleySpec PredicateModel PipelineModel PipelineSpec PipelineTheorems TreeModel ParserModel TreeSpec RelationSpec ParserSpec InterpModel RuleModel RuleSpec RuleBuild RuleNestSpec GrammarModel TextModel TextSpec TextProofs
  IndependenceProofs AbsentSpec Cases RelationCases RuleCases LaterModel LaterSpec LaterProofs TestsBase TestsInterp LaterCases.
Import String.StringSyntax.
Open Scope nat_scope.

Section Text.
  Variable U : unicode.
  Variable set_order : list str -> list str.
  Variable c : context.
  Variable rel : nat -> form -> form -> bool.
  Variable fuel : nat.
  Variable h : rule_heap.
  Variable root : nat.
  Variable text : str.
  Lemma with_parser_inv {A} (f : grammar token predicate -> list token -> option (res A)) x : with_parser U set_order c fuel h root text f = Some (Ok x) ->
    exists g toks, parser_grammar U set_order c fuel h root = Some (Ok g) /\ text_tokens c text = Some (Ok toks) /\ f g toks = Some (Ok x).
  Proof.
    unfold with_parser, then_. destruct (parser_grammar U set_order c fuel h root) as [[g|e]|]; try discriminate. destruct (text_tokens c text) as [[toks|e]|]; try discriminate. intros H. exists g, toks. auto.
  Qed.
  Theorem text_yields all found s e : parser_extract_yielded U set_order c rel fuel h root text all = Some (Ok (found, s, e)) ->
    parser_extract U set_order c rel fuel h root text all = Some (Ok (map fst found, s, e)).
  Proof.
    unfold parser_extract_yielded, parser_extract. intros H. destruct (with_parser_inv _ _ H) as (g & toks & G & T & F). unfold with_parser. rewrite G. cbn [then_]. rewrite T. cbn [then_].
    destruct (extract_yielded _ _ _ g fuel toks all) as [r|] eqn:E; [|discriminate]. cbn in F. injection F as ->. rewrite (extract_yields _ _ _ _ _ _ _ _ _ _ E). reflexivity.
  Qed.
  Theorem text_extract_later all found sf e : parser_extract_yielded U set_order c rel fuel h root text all = Some (Ok (found, sf, e)) ->
    forall m s, In (m, s) found -> tree_tokens s (m_root m) = m_tokens m /\ Forall2 fewer (tree_tokens sf (m_root m)) (m_tokens m).
  Proof.
    intros H. destruct (with_parser_inv _ _ H) as (g & toks & G & T & F). destruct (extract_yielded _ _ _ g fuel toks all) as [r|] eqn:E; [|discriminate]. cbn in F. injection F as ->. exact (extract_later _ _ _ _ _ _ _ _ _ _ E).
  Qed.
  Theorem text_findall_later s ms : parser_findall U set_order c rel fuel h root text = Some (Ok (s, ms)) -> forall m, In m ms -> Forall2 fewer (tree_tokens s (m_root m)) (m_tokens m).
  Proof. intros H. destruct (with_parser_inv _ _ H) as (g & toks & G & T & F). exact (findall_later _ _ _ _ _ _ _ _ F). Qed.
  Theorem text_find_later s m : parser_find U set_order c rel fuel h root text = Some (Ok (s, Some m)) -> Forall2 fewer (tree_tokens s (m_root m)) (m_tokens m).
  Proof. intros H. destruct (with_parser_inv _ _ H) as (g & toks & G & T & F). exact (find_later _ _ _ _ _ _ _ _ F). Qed.
  Theorem text_match_unchanged s m : parser_match U set_order c rel fuel h root text = Some (Ok (s, Some m)) -> tree_tokens s (m_root m) = m_tokens m.
  Proof. intros H. destruct (with_parser_inv _ _ H) as (g & toks & G & T & F). exact (match_unchanged _ _ _ _ _ _ _ _ F). Qed.
  (** Candidates with tokens of their own. *)
  Section Own.
    Variable g : grammar token predicate.
    Variable toks : list token.
    Hypothesis G : parser_grammar U set_order c fuel h root = Some (Ok g).
    Hypothesis T : text_tokens c text = Some (Ok toks).
    Theorem text_extract_unchanged all trees : parse (accepts U) narrow g fuel toks all = Some trees -> separate g trees ->
      forall found sf e, parser_extract_yielded U set_order c rel fuel h root text all = Some (Ok (found, sf, e)) -> forall m s, In (m, s) found ->
      tree_tokens sf (m_root m) = m_tokens m /\
      forall schemes subclass inflect interps, match_fact schemes subclass U inflect g interps sf m = match_fact schemes subclass U inflect g interps s m.
    Proof.
      intros PA S found sf e H m s HI. destruct (with_parser_inv _ _ H) as (g' & toks' & G' & T' & F). rewrite G in G'. injection G' as <-. rewrite T in T'. injection T' as <-.
      destruct (extract_yielded _ _ _ g fuel toks all) as [r|] eqn:E; [|discriminate]. cbn in F. injection F as ->. destruct (extract_unchanged _ _ _ _ _ _ _ _ _ _ _ PA S E m s HI) as [K1 K2]. auto.
    Qed.
    Theorem text_findall_unchanged trees : parse (accepts U) narrow g fuel toks true = Some trees -> unshared g trees ->
      (forall s ms, parser_findall U set_order c rel fuel h root text = Some (Ok (s, ms)) -> forall m, In m ms -> tree_tokens s (m_root m) = m_tokens m) /\
      (forall s m, parser_find U set_order c rel fuel h root text = Some (Ok (s, Some m)) -> tree_tokens s (m_root m) = m_tokens m).
    Proof.
      intros PA S. split; [intros s ms H m HI|intros s m H]; destruct (with_parser_inv _ _ H) as (g' & toks' & G' & T' & F); rewrite G in G'; injection G' as <-; rewrite T in T'; injection T' as <-.
      - exact (findall_unchanged _ _ _ _ _ _ _ _ _ PA S F m HI).
      - exact (find_unchanged _ _ _ _ _ _ _ _ _ PA S F).
    Qed.
  End Own.
  (** Rules without relations. *)
  Hypothesis sets : set_iteration set_order.
  Hypothesis built0 : built h.
  Hypothesis mild0 : harmless h root.
  Hypothesis rule0 : is_rule_at h root.
  Hypothesis unrelated : no_relations_in h root.
  Theorem text_unrelated :
    (forall all found sf e, parser_extract_yielded U set_order c rel fuel h root text all = Some (Ok (found, sf, e)) -> forall m s, In (m, s) found ->
      tree_tokens sf (m_root m) = m_tokens m /\
      forall g, parser_grammar U set_order c fuel h root = Some (Ok g) -> forall schemes subclass inflect interps, match_fact schemes subclass U inflect g interps sf m = match_fact schemes subclass U inflect g interps s m) /\
    (forall s ms, parser_findall U set_order c rel fuel h root text = Some (Ok (s, ms)) -> forall m, In m ms -> tree_tokens s (m_root m) = m_tokens m).
  Proof.
    assert (RF : forall g, parser_grammar U set_order c fuel h root = Some (Ok g) -> relation_free g).
    { intros g G. apply (solid_relation_free U set_order c sets fuel h root g built0 mild0 rule0 G). intros x o Rx Ex. specialize (unrelated x o Rx Ex). destruct o; auto. }
    split.
    - intros all found sf e H m s HI. destruct (with_parser_inv _ _ H) as (g & toks & G & T & F). destruct (parse (accepts U) narrow g fuel toks all) as [trees|] eqn:PA; [|unfold extract_yielded in F; rewrite PA in F; discriminate].
      destruct (text_extract_unchanged g toks G T all trees PA (free_separate g trees (RF g G)) found sf e H m s HI) as [K1 K2]. split; [exact K1|]. intros g' G'. rewrite G in G'. injection G' as <-. exact K2.
    - intros s ms H. destruct (with_parser_inv _ _ H) as (g & toks & G & T & F). destruct (parse (accepts U) narrow g fuel toks true) as [trees|] eqn:PA; [|unfold findall in F; rewrite PA in F; discriminate].
      exact (proj1 (text_findall_unchanged g toks G T trees PA (free_unshared g trees (RF g G))) s ms H).
  Qed.
End Text.

(** ** Witnesses *)
Lemma then_inv {A B} (a : option (res A)) (f : A -> option (res B)) x : then_ a f = Some (Ok x) -> exists y, a = Some (Ok y) /\ f y = Some (Ok x).
Proof. destruct a as [[y|e]|]; cbn; try discriminate. intros H. exists y. auto. Qed.
Definition names_program : list TestsBase.rule_call :=
  [CRule [P (SGram (str_of "Name"))]; CInterpretation 1 0; CMatch 2 0; CRule [P (SGram (str_of "Surn"))]; CInterpretation 5 1; CMatch 6 0].
Definition last_name_program : list rule_call := names_program ++ [CRule [R 7; R 3]; CRule [R 7]; COr [9; 11]; CInterpretation 12 2].
Definition handed_over_program : list rule_call := names_program ++ [CRule [W "передал"; R 7; P (SGram (str_of "Name"))]; CRule [R 7; R 3]; COr [9; 11]; CInterpretation 12 2].
Lemma last_name_made : last_name [] = Ok (13, program last_name_program) /\ built (program last_name_program) /\ is_rule_at (program last_name_program) 13.
Proof. split; [vm_compute; reflexivity|]. split; [apply program_built; vm_compute; reflexivity|apply is_rule_atb_true; vm_compute; reflexivity]. Qed.
Lemma handed_over_made : handed_over [] = Ok (13, program handed_over_program) /\ built (program handed_over_program) /\ is_rule_at (program handed_over_program) 13.
Proof. split; [vm_compute; reflexivity|]. split; [apply program_built; vm_compute; reflexivity|apply is_rule_atb_true; vm_compute; reflexivity]. Qed.
Notation names_context := (context_with sasha).
Notation name_fact g := (match_fact first_last Nat.eqb python inflected_sasha g (interp_at name_interps)).
Lemma attrs_later_inv (m : making nat) txt k root h a b rest e : m [] = Ok (root, h) -> attrs_later m txt k = Some (Ok ((Ok a, Ok b) :: rest, e)) ->
  exists g found sf x s v w, parser_grammar python seen names_context fuel h root = Some (Ok g) /\ parser_extract_yielded python seen names_context gnc fuel h root (TestsBase.text txt) true = Some (Ok (found, sf, e)) /\ In (x, s) found /\
  name_fact g s x = Ok v /\ name_fact g sf x = Ok w /\ value_attr (str_of k) v = a /\ value_attr (str_of k) w = b.
Proof.
  intros M E. unfold attrs_later in E. rewrite M in E. cbn [then_] in E. apply then_inv in E as (g & G & E). apply then_inv in E as (((found & sf) & e') & Y & E). injection E as E Ee. subst e'.
  destruct found as [|[x s] found]; [discriminate|]. cbn [map] in E. injection E as E1 E2 _.
  destruct (name_fact g s x) as [v|] eqn:V; [|discriminate]. destruct (name_fact g sf x) as [w|] eqn:W; [|discriminate]. cbn [bind] in E1, E2. injection E1 as E1. injection E2 as E2.
  exists g, ((x, s) :: found), sf, x, s, v, w. repeat split; auto. left. reflexivity.
Qed.
Lemma forms_found_inv (m : making nat) txt root h a b f rest : m [] = Ok (root, h) -> forms_found m txt = Some (Ok ((a, b, f) :: rest)) -> a <> b ->
  exists s ms x, parser_findall python seen names_context gnc fuel h root (TestsBase.text txt) = Some (Ok (s, ms)) /\ In x ms /\ tree_tokens s (m_root x) <> m_tokens x.
Proof.
  intros M E NE. unfold forms_found in E. rewrite M in E. cbn [then_] in E. apply then_inv in E as (g & G & E). apply then_inv in E as ((s & ms) & Y & E). injection E as E.
  destruct ms as [|x ms]; [discriminate|]. cbn [map] in E. injection E as E1 E2 _ _. exists s, (x :: ms), x. split; [exact Y|]. split; [left; reflexivity|]. intros X. rewrite X in E2. congruence.
Qed.
Theorem fact_changes : exists h root text g found sf m s v w,
  built h /\ is_rule_at h root /\ parser_grammar python seen names_context fuel h root = Some (Ok g) /\ parser_extract_yielded python seen names_context gnc fuel h root text true = Some (Ok (found, sf, None)) /\ In (m, s) found /\
  name_fact g s m = Ok v /\ name_fact g sf m = Ok w /\ value_attr (str_of "last") v = Some (S_ "иванов") /\ value_attr (str_of "last") w = Some (S_ "иванова").
Proof.
  destruct last_name_made as (M & B & K).
  destruct (attrs_later_inv last_name "Иванову Сашу" "last" _ _ (Some (S_ "иванов")) (Some (S_ "иванова")) [(Ok (Some (S_ "иванова")), Ok (Some (S_ "иванова")))] None M ltac:(vm_compute; reflexivity)) as (g & found & sf & x & s & v & w & H).
  exists (program last_name_program), 13, (TestsBase.text "Иванову Сашу"), g, found, sf, x, s, v, w. split; [exact B|]. split; [exact K|]. exact H.
Qed.
Theorem leaves_change : exists h root text s ms m,
  built h /\ is_rule_at h root /\ parser_findall python seen names_context gnc fuel h root text = Some (Ok (s, ms)) /\ In m ms /\ tree_tokens s (m_root m) <> m_tokens m.
Proof.
  destruct handed_over_made as (M & B & K).
  destruct (forms_found_inv handed_over "передал Иванову Сашу" _ _ [[]; [TestsBase.text "иванов"; TestsBase.text "иванова"]; [TestsBase.text "саша"]] [[]; [TestsBase.text "иванова"]; [TestsBase.text "саша"]]
     (Ok (Fact 0 [("first", VNone); ("last", S_ "иванова")]%string)) [] M ltac:(vm_compute; reflexivity) ltac:(vm_compute; discriminate)) as (s & ms & x & H).
  exists (program handed_over_program), 13, (TestsBase.text "передал Иванову Сашу"), s, ms, x. split; [exact B|]. split; [exact K|]. exact H.
Qed.

(** ** Names, one after another: candidates with tokens of their own *)
Definition separate_ranges (h : rule_heap) (root : nat) (txt : String.string) : option (res (bool * list (nat * nat))) :=
  then_ (parser_grammar python seen names_context fuel h root) (fun g =>
  then_ (text_tokens names_context (TestsBase.text txt)) (fun toks =>
  match parse (accepts python) narrow g fuel toks true with Some trees => Some (Ok (unsharedb g trees, map snd trees)) | None => None end)).
Lemma separate_ranges_inv h root txt ranges : separate_ranges h root txt = Some (Ok (true, ranges)) -> NoDup ranges ->
  exists g toks trees, parser_grammar python seen names_context fuel h root = Some (Ok g) /\
  text_tokens names_context (TestsBase.text txt) = Some (Ok toks) /\ parse (accepts python) narrow g fuel toks true = Some trees /\
  separate g trees /\ unshared g trees /\ map snd trees = ranges.
Proof.
  intros E ND. unfold separate_ranges in E. apply then_inv in E as (g & G & E). apply then_inv in E as (toks & T & E).
  destruct (parse (accepts python) narrow g fuel toks true) as [trees|] eqn:PA; [|discriminate]. injection E as E1 E2. apply unsharedb_true in E1. exists g, toks, trees. repeat split; auto.
  apply unshared_separate; [rewrite E2; exact ND|exact E1].
Qed.
Definition name_program : list TestsBase.rule_call := names_program ++ [CRule [R 3; R 7]; CInterpretation 9 2].
Lemma two_names : exists g toks trees, parser_grammar python seen names_context fuel (program name_program) 10 = Some (Ok g) /\
  text_tokens names_context (TestsBase.text "сашу иванову, саше иванову") = Some (Ok toks) /\ parse (accepts python) narrow g fuel toks true = Some trees /\
  separate g trees /\ unshared g trees /\ map snd trees = [(0, 2); (3, 5)].
Proof.
  apply separate_ranges_inv; [vm_compute; reflexivity|repeat constructor; cbn; intuition discriminate].
Qed.
