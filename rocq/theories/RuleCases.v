(** Concrete rules for the examples and the refutations about rules. *)
From Coq Require String.
From Verif Require Import Base TokenModel EarleyModel EarleySpec PredicateModel PipelineModel PipelineSpec PipelineTheorems PredicateCases Cases
  RuleModel RuleSpec RuleAccept RuleBuild GrammarModel GrammarSpec ParserModel RuleNestSpec RuleSquash RuleMild RuleTheorems.
Open Scope nat_scope.

(** ** Programs *)
Notation rule_call := (call (pred := predicate) (pipe := pipeline)).
Definition program (calls : list rule_call) : rule_heap := fold_left (fun h c => after_call c h) calls [].
Definition is_rule_atb (h : rule_heap) (p : nat) : bool :=
  match nth_error h p with None | Some (OProd _ _) | Some OEmptyProd | Some (OPipeProd _ _) => false | Some _ => true end.
Fixpoint valid (h : rule_heap) (calls : list rule_call) : bool :=
  match calls with
  | [] => true
  | c :: calls' => forallb (is_rule_atb h) (call_rules c) && valid (after_call c h) calls'
  end.
Lemma is_rule_atb_true h p : is_rule_atb h p = true -> is_rule_at h p.
Proof. unfold is_rule_atb, is_rule_at. destruct (nth_error h p) as [o|]; [|discriminate]. intros H. exists o. split; [reflexivity|]. destruct o; try discriminate; exact I. Qed.
Lemma program_built calls : valid [] calls = true -> built (program calls).
Proof.
  unfold program. generalize (built_nothing (pred := predicate) (pipe := pipeline) (bnf := pipeline_bnf)). generalize ([] : rule_heap). induction calls as [|c calls IH]; intros h B V; [exact B|].
  cbn in V. apply andb_true_iff in V as [V1 V2]. apply (IH (after_call c h)); [|exact V2]. constructor; [exact B|]. intros r Hr. rewrite forallb_forall in V1. apply is_rule_atb_true, V1, Hr.
Qed.
Definition flatb (h : rule_heap) : bool :=
  forallb (fun o => negb (quantifier o) || forallb (fun c => match nth_error h c with Some oc => negb (quantifier oc) | None => true end) (children o)) h.
Lemma flatb_true h root : flatb h = true -> flat h root.
Proof.
  intros F p o c oc _ E Q Hc Ec. unfold flatb in F. rewrite forallb_forall in F. specialize (F o (nth_error_In _ _ E)). rewrite Q in F. cbn in F. rewrite forallb_forall in F. specialize (F c Hc). rewrite Ec in F.
  destruct (quantifier oc); [discriminate|reflexivity].
Qed.
(** Quantifiers put on each other. *)
Definition child (h : rule_heap) (p : nat) : option nat := match nth_error h p with Some o => match children o with [c] => Some c | _ => None end | None => None end.
Fixpoint stackb (fuel : nat) (sort : obj predicate pipeline pipeline_bnf -> bool) (h : rule_heap) (p : nat) : bool :=
  match fuel, nth_error h p with
  | S fuel', Some o => negb (quantifier o) || sort o && match child h p with Some c => stackb fuel' sort h c | None => false end
  | _, _ => false
  end.
Fixpoint mildb (fuel : nat) (h : rule_heap) (p : nat) : bool :=
  match fuel with
  | O => false
  | S fuel' => stackb fuel loose h p || stackb fuel bounded h p || match nth_error h p with Some (OOptional r _) => mildb fuel' h r | _ => false end
  end.
Definition harmlessb (h : rule_heap) : bool := forallb (mildb (length h) h) (seq 0 (length h)).
Lemma stackb_true fuel sort (h : rule_heap) : forall p, stackb fuel sort h p = true -> stack sort h p.
Proof.
  induction fuel as [|fuel IH]; intros p K; [discriminate|]. cbn [stackb] in K. destruct (nth_error h p) as [o|] eqn:E; [|discriminate]. destruct (quantifier o) eqn:Q; cbn in K.
  - apply andb_true_iff in K as [K1 K2]. unfold child in K2. rewrite E in K2. destruct (children o) as [|d [|]] eqn:C; try discriminate. apply (stack_more sort h p o d E K1 C (IH d K2)).
  - apply (stack_end sort h p o E Q).
Qed.
Lemma mildb_true fuel (h : rule_heap) : forall p, mildb fuel h p = true -> mild h p.
Proof.
  induction fuel as [|fuel IH]; intros p K; [discriminate|]. cbn [mildb] in K. apply orb_true_iff in K as [K|K]; [apply orb_true_iff in K as [K|K]|].
  - apply mild_loose, (stackb_true _ _ h p K).
  - apply mild_bounded, (stackb_true _ _ h p K).
  - destruct (nth_error h p) as [[]|] eqn:E; try discriminate. apply (mild_optional h p _ _ E), IH, K.
Qed.
Lemma harmlessb_true (h : rule_heap) root : built h -> is_rule_at h root -> harmlessb h = true -> harmless h root.
Proof.
  intros B R K p Rp. destruct (reach_some h root p B R Rp) as (o & E & _). unfold harmlessb in K. rewrite forallb_forall in K. apply (mildb_true (length h)), K. apply in_seq. split; [lia|]. cbn. apply nth_error_Some. congruence.
Qed.
(** No rule of the program refers to the root. *)
Definition aloneb (h : rule_heap) (root : nat) : bool := forallb (fun o => negb (is_in root (children o))) h.
Lemma aloneb_true h root o : nth_error h root = Some o -> not_once o -> aloneb h root = true -> top not_once h root.
Proof.
  intros E N A. exists o. split; [exact E|]. right. split; [exact N|]. intros q oq _ Eq Hin. unfold aloneb in A. rewrite forallb_forall in A. specialize (A oq (nth_error_In _ _ Eq)).
  assert (is_in root (children oq) = true) as K; [|rewrite K in A; discriminate]. unfold is_in. apply existsb_exists. exists root. rewrite Nat.eqb_refl. auto.
Qed.

Definition item := item (pred := predicate).
Definition W (s : String.string) : item := Plain (TPred (PEq (str_of s))).
Definition R (r : nat) : item := Plain (TRule r).
Definition grammar_for (h : rule_heap) (root : nat) := parser_grammar ASCII first_seen small_context 100 h root.
(** Ranges found by findall; no relation is checked. *)
Definition found (h : rule_heap) (root : nat) (ws : list String.string) : option (res (list (nat * nat))) :=
  match grammar_for h root with
  | Some (Ok g) =>
      match findall (accepts ASCII) narrow (fun _ _ _ => true) g 1000 (words ws) with
      | Some (Ok (_, ms)) => Some (Ok (map m_range ms))
      | Some (Err e) => Some (Err e)
      | None => None
      end
  | Some (Err e) => Some (Err e)
  | None => None
  end.
(** The rules of the grammar, with their productions. *)
Definition listing (n : nat) (x : option (res (grammar token predicate))) : option (res (nat * list (nat * list (list (term predicate))))) :=
  match x with
  | Some (Ok g) => Some (Ok (g_start g, flat_map (fun r => match g_prods g r with [] => [] | ps => [(r, map (g_terms g) ps)] end) (seq 0 n)))
  | Some (Err e) => Some (Err e)
  | None => None
  end.

(** expr = forward(); term = or_(rule('x'), rule('(', expr, ')')); expr.define(or_(term, rule(expr, '+', term))) *)
Definition expr_program : list rule_call :=
  [CForward; CRule [W "x"]; CRule [W "("; R 0; W ")"]; COr [2; 4]; CRule [R 0; W "+"; R 5]; COr [5; 7]; CDefine 0 8].
Lemma expr_built : built (program expr_program) /\ flat (program expr_program) 0 /\ is_rule_at (program expr_program) 0 /\ top not_once (program expr_program) 0.
Proof.
  split; [apply program_built; reflexivity|]. split; [apply flatb_true; reflexivity|]. split; [apply is_rule_atb_true; reflexivity|].
  eexists. split; [reflexivity|left; reflexivity].
Qed.

(** ** Nested quantifiers: x.repeatable().repeatable(min=2) *)
Definition star_program : list rule_call := [CRule [W "x"]; CRepeatable 1 None None false].
(** The grammar as data: the heap of the parser, its root and the reachable objects. *)
Definition parser_heap (h : rule_heap) (root : nat) : nat * rule_heap :=
  match build_rule ASCII first_seen small_context 100 h root with Some (Ok x) => x | _ => (0, []) end.
Definition reached (x : nat * rule_heap) : list nat := match bfs 100 (snd x) (fst x) with Some l => l | None => [] end.
Definition built_ok (h : rule_heap) (root : nat) : bool :=
  match build_rule ASCII first_seen small_context 100 h root with
  | Some (Ok (r, h')) => match bfs 100 h' r with Some _ => true | None => false end
  | _ => false
  end.
Definition data_grammar (x : nat * rule_heap) (objects : list nat) : grammar token predicate :=
  restrict objects (grammar_of (pipeline_predict ASCII first_seen) (snd x) (fst x)).
Lemma grammar_data h root : built_ok h root = true -> grammar_for h root = Some (Ok (data_grammar (parser_heap h root) (reached (parser_heap h root)))).
Proof.
  unfold built_ok, grammar_for, parser_grammar, reached, parser_heap, data_grammar. generalize 100 as fuel. intros fuel. destruct (build_rule ASCII first_seen small_context fuel h root) as [[[r h']|]|]; try discriminate. cbn.
  destruct (bfs fuel h' r); [reflexivity|discriminate].
Qed.
Lemma data_prods x objects r q : In q (g_prods (data_grammar x objects) r) -> In r objects /\ In q (g_prods (data_grammar x [r]) r).
Proof.
  cbn. rewrite Nat.eqb_refl. cbn. destruct (is_in r objects) eqn:I; [|intros []]. intros H. split; [|exact H].
  unfold is_in in I. apply existsb_exists in I as (y & Hy & E). apply Nat.eqb_eq in E as <-. exact Hy.
Qed.
Lemma nonempty_spans U (g : grammar token predicate) toks : (forall r q, In q (g_prods g r) -> g_terms g q <> []) ->
  (forall t i j d, derives (accepts U) g toks t i j d -> i < j) /\ (forall ts i j ds, derives_seq (accepts U) g toks ts i j ds -> ts = [] /\ i = j \/ i < j).
Proof.
  intros N. apply (RuleGrammar.derives_mutind _ _ (accepts U) g toks (fun t i j d => i < j) (fun ts i j ds => ts = [] /\ i = j \/ i < j)); intros.
  - lia.
  - destruct H1 as [[E _]|]; [destruct (N r q H E)|assumption].
  - left. auto.
  - right. destruct H2 as [[_ ->]|]; lia.
Qed.
Definition star_heap : rule_heap := Eval vm_compute in program star_program.
Definition star_parser := Eval vm_compute in parser_heap star_heap 2.
Definition star_star_heap : rule_heap := Eval vm_compute in star_heap ++ [OMin 2 2 false].
Definition star_star_parser := Eval vm_compute in parser_heap star_star_heap 3.
Lemma nested_refutes :
  exists U set_order c fuel h r min max rev root h1 gr g toks i j,
    set_iteration set_order /\ built h /\ is_rule_at h r /\ min <> Some 0%Z /\ max <> Some 0%Z /\
    run_call (CRepeatable r min max rev) h = Ok (root, h1) /\
    parser_grammar U set_order c fuel h r = Some (Ok gr) /\ parser_grammar U set_order c fuel h1 root = Some (Ok g) /\ i <= length toks /\
    grammar_accepts U g toks i j /\ ~ exists n, within min max n /\ occurrences (grammar_accepts U gr toks) n i j.
Proof.
  set (gr := data_grammar star_parser (reached star_parser)). set (toks := words ["x"]%string).
  exists ASCII, first_seen, small_context, 100, star_heap, 2, (Some 2%Z), None, false, 3, star_star_heap, gr, (data_grammar star_star_parser (reached star_star_parser)), toks, 0, 1.
  split; [exact first_seen_iterates|]. split; [apply (program_built star_program); reflexivity|]. split; [apply is_rule_atb_true; reflexivity|]. split; [discriminate|]. split; [discriminate|].
  split; [reflexivity|]. split; [apply (grammar_data star_heap 2); vm_compute; reflexivity|]. split; [apply (grammar_data star_star_heap 3); vm_compute; reflexivity|]. split; [cbn; lia|]. split.
  - exists (DNode 33 32 [DLeaf 0 (PEq (str_of "x"))]). econstructor; [right; left; reflexivity|]. econstructor; [|constructor]. econstructor; reflexivity.
  - assert (N : forall r q, In q (g_prods gr r) -> g_terms gr q <> []).
    { intros r q Hq. apply data_prods in Hq as [Hr Hq]. vm_compute in Hr. repeat (destruct Hr as [<-|Hr]; [vm_compute in Hq; repeat (destruct Hq as [<-|Hq]; [vm_compute; discriminate|]); destruct Hq|]). destruct Hr. }
    destruct (nonempty_spans ASCII gr toks N) as [K _].
    assert (M : forall n i j, occurrences (grammar_accepts ASCII gr toks) n i j -> i <= j).
    { intros m. induction m as [|m IH]; intros i j Oc; inversion Oc as [|? ? k' ? (d & D) Oc']; subst; [lia|]. apply K in D. apply IH in Oc'. lia. }
    intros (n & [Wn _] & O). destruct n as [|[|n]]; [lia|lia|].
    inversion O as [|? ? k ? (d1 & D1) O1]; subst. inversion O1 as [|? ? k2 ? (d2 & D2) O2]; subst. apply K in D1. apply K in D2. apply M in O2. lia.
Qed.

(** ** A rule that acquires an interpretation: x = or_('a', rule('b', f)),
    f.define(x.interpretation(i)), Parser(x) *)
Definition loop_program : list rule_call := [CForward; CRule [W "a"]; CRule [W "b"; R 0]; COr [2; 4]; CInterpretation 5 7; CDefine 0 6].
Definition loop_parser := Eval vm_compute in parser_heap (program loop_program) 5.
Lemma loop_refutes :
  exists U set_order c fuel h root g,
    set_iteration set_order /\ built h /\ flat h root /\ is_rule_at h root /\ parser_grammar U set_order c fuel h root = Some (Ok g) /\
    ~ exists ha, activated_graph (activate c) (activate_pipeline c) h ha root /\
      forall toks i j w, i <= length toks -> reads U g (attribute_of KInterp g) toks i j w <-> words_of U set_order KInterp ha root w /\ spells U w toks i j.
Proof.
  exists ASCII, first_seen, small_context, 100, (program loop_program), 5, (data_grammar loop_parser (reached loop_parser)).
  split; [exact first_seen_iterates|]. split; [apply program_built; reflexivity|]. split; [apply flatb_true; reflexivity|]. split; [apply is_rule_atb_true; reflexivity|].
  split; [apply (grammar_data (program loop_program) 5); vm_compute; reflexivity|].
  intros (ha & (_ & A & _) & K). specialize (K (words ["a"]%string) 0 1).
  destruct (A 5 (OOr [2; 4]) (reach_refl _ _) eq_refl) as (o & E & Ko). assert (o = OOr [2; 4]) as -> by (inversion Ko; reflexivity).
  assert (reads ASCII (data_grammar loop_parser (reached loop_parser)) (attribute_of KInterp (data_grammar loop_parser (reached loop_parser))) (words ["a"]%string) 0 1
    [SOpen (AInterp 7); SAlt 0; SPred (PEq (str_of "a")) true; SClose]) as Rd.
  { exists (DNode 41 39 [DLeaf 0 (PEq (str_of "a"))]). split.
    - econstructor; [left; reflexivity|]. econstructor; [|constructor]. econstructor; reflexivity.
    - apply (traced_node (data_grammar loop_parser (reached loop_parser)) (attribute_of KInterp (data_grammar loop_parser (reached loop_parser))) 41 39 0 [DLeaf 0 (PEq (str_of "a"))] [SPred (PEq (str_of "a")) true]); [reflexivity|].
      apply (traced_cons _ _ 0 0 _ [] [SPred (PEq (str_of "a")) true] []); constructor. }
  apply K in Rd as [Rd _]; [|cbn; lia]. apply (RuleWords.open_words_obj _ _ _ _ ha 5 _ E eq_refl) in Rd. destruct Rd as (i & l & u & _ & _ & Eq). cbn in Eq. discriminate.
Qed.

(** ** Forward rules: f.define(rule('a').repeatable()), Parser(f) *)
Lemma define_refutes :
  exists U set_order c fuel h f r h',
    set_iteration set_order /\ built h /\ is_rule_at h f /\ is_rule_at h r /\ nth_error h f = Some (OForward None) /\
    run_call (CDefine f r) h = Ok (f, h') /\ parser_grammar U set_order c fuel h' f = Some (Err ValueError).
Proof.
  exists ASCII, first_seen, small_context, 100, (program [CForward; CRule [W "a"]; CRepeatable 2 None None false]), 0, 3. eexists.
  split; [exact first_seen_iterates|]. split; [apply program_built; reflexivity|]. split; [apply is_rule_atb_true; reflexivity|]. split; [apply is_rule_atb_true; reflexivity|]. split; [reflexivity|]. split; [reflexivity|].
  vm_compute. reflexivity.
Qed.

(** ** Two parsers: f.define(rule('a').interpretation(i)), x = rule(f), Parser(x) twice *)
Definition again_program : list rule_call := [CForward; CRule [W "a"]; CInterpretation 2 7; CDefine 0 3; CRule [R 0]].
Definition again_first := Eval vm_compute in parser_heap (program again_program) 5.
Definition again_second := Eval vm_compute in parser_heap (snd again_first) 5.
Lemma again_refutes :
  exists U set_order c fuel h root r1 h1 g1 g2,
    set_iteration set_order /\ built h /\ flat h root /\ is_rule_at h root /\
    build_rule U set_order c fuel h root = Some (Ok (r1, h1)) /\
    parser_grammar U set_order c fuel h root = Some (Ok g1) /\ parser_grammar U set_order c fuel h1 root = Some (Ok g2) /\
    ~ forall toks i j w, i <= length toks -> reads U g1 (attribute_of KInterp g1) toks i j w <-> reads U g2 (attribute_of KInterp g2) toks i j w.
Proof.
  exists ASCII, first_seen, small_context, 100, (program again_program), 5, (fst again_first), (snd again_first), (data_grammar again_first (reached again_first)), (data_grammar again_second (reached again_second)).
  split; [exact first_seen_iterates|]. split; [apply program_built; reflexivity|]. split; [apply flatb_true; reflexivity|]. split; [apply is_rule_atb_true; reflexivity|]. split; [vm_compute; reflexivity|].
  split; [apply (grammar_data (program again_program) 5); vm_compute; reflexivity|]. split; [apply (grammar_data (snd again_first) 5); vm_compute; reflexivity|].
  intros K. set (g1 := data_grammar again_first (reached again_first)) in *. set (g2 := data_grammar again_second (reached again_second)) in *.
  assert (reads ASCII g1 (attribute_of KInterp g1) (words ["a"]%string) 0 1 [SOpen (AInterp 7); SPred (PEq (str_of "a")) true; SClose]) as Rd.
  { exists (DNode 34 33 [DNode 32 31 [DLeaf 0 (PEq (str_of "a"))]]). split.
    - econstructor; [left; reflexivity|]. econstructor; [|constructor]. econstructor; [left; reflexivity|]. econstructor; [|constructor]. econstructor; reflexivity.
    - assert (traced g1 (attribute_of KInterp g1) (DNode 32 31 [DLeaf 0 (PEq (str_of "a"))]) [SOpen (AInterp 7); SPred (PEq (str_of "a")) true; SClose]) as T.
      { apply (traced_node g1 (attribute_of KInterp g1) 32 31 0 [DLeaf 0 (PEq (str_of "a"))] [SPred (PEq (str_of "a")) true]); [reflexivity|].
        apply (traced_cons _ _ 0 0 _ [] [SPred (PEq (str_of "a")) true] []); constructor. }
      apply (traced_node g1 (attribute_of KInterp g1) 34 33 0 [DNode 32 31 [DLeaf 0 (PEq (str_of "a"))]] [SOpen (AInterp 7); SPred (PEq (str_of "a")) true; SClose]); [reflexivity|].
      apply (traced_cons _ _ 0 0 _ [] [SOpen (AInterp 7); SPred (PEq (str_of "a")) true; SClose] []); [exact T|constructor]. }
  apply K in Rd as (d & D & T); [|cbn; lia].
  assert (N : forall r, attribute_of KInterp g2 r <> None -> ~ In r (reached again_second)).
  { intros r H I. vm_compute in I. repeat (destruct I as [<-|I]; [apply H; vm_compute; reflexivity|]). destruct I. }
  assert (Q : forall d t i j, derives (accepts ASCII) g2 (words ["a"]%string) t i j d -> forall w, traced g2 (attribute_of KInterp g2) d w -> ~ In (SOpen (AInterp 7)) w).
  { clear d D T K. intros d t i j D.
    refine (proj1 (RuleGrammar.derives_mutind _ _ (accepts ASCII) g2 (words ["a"]%string) (fun t i j d => forall w, traced g2 (attribute_of KInterp g2) d w -> ~ In (SOpen (AInterp 7)) w)
      (fun ts i j ds => forall main k w, traced_children g2 (attribute_of KInterp g2) main k ds w -> ~ In (SOpen (AInterp 7)) w) _ _ _ _) t i j d D); clear t i j d D.
    - intros i p tok _ _ w T. inversion T; subst. intros [H|[]]. discriminate.
    - intros r q i j ds Hq _ IH w T. inversion T as [|r' q' k ds' w' En Tc]; subst.
      assert (attribute_of KInterp g2 r = None) as Ea. { destruct (attribute_of KInterp g2 r) eqn:Ea; [|reflexivity]. destruct (N r); [congruence|]. apply data_prods in Hq as [Hq _]. exact Hq. }
      rewrite Ea. cbn [bracket]. intros H. apply in_app_iff in H as [H|H]; [|apply (IH _ _ _ Tc H)].
      destruct (g_key g2 q); [destruct H as [H|[]]; discriminate|]. unfold mark in H. destruct (Nat.leb (length (g_prods g2 r)) 1); [destruct H|destruct H as [H|[]]; discriminate].
    - intros i main k w T. inversion T; subst. intros [].
    - intros t ts i j k d ds _ IHd _ IHs main m w T. inversion T as [|? ? ? ? u w' Td Tc]; subst. intros H. apply in_app_iff in H as [H|H]; [|apply (IHs _ _ _ Tc H)].
      apply (IHd u Td). destruct (Nat.eqb m main); [exact H|]. unfold clear in H. apply in_map_iff in H as (s & Es & Hs). destruct s; try discriminate. injection Es as ->. exact Hs. }
  apply (Q d _ _ _ D _ T). left. reflexivity.
Qed.

(** ** Names: rule(rule('a').named('R0')) *)
Definition clash_program : list rule_call := [CRule [W "a"]; CNamed 1 (str_of "R0"); CRule [R 2]].
Lemma clash_refutes :
  exists U set_order c fuel h root r h' x y n,
    set_iteration set_order /\ built h /\ flat h root /\ is_rule_at h root /\ build_rule U set_order c fuel h root = Some (Ok (r, h')) /\
    reach h' r x /\ reach h' r y /\ is_bnf_rule h' x /\ is_bnf_rule h' y /\ x <> y /\ rule_name h' x = Some n /\ rule_name h' y = Some n.
Proof.
  exists ASCII, first_seen, small_context, 100, (program clash_program), 4. do 2 eexists. exists 33, 31, (str_of "R0").
  split; [exact first_seen_iterates|]. split; [apply program_built; reflexivity|]. split; [apply flatb_true; reflexivity|]. split; [apply is_rule_atb_true; reflexivity|]. split; [vm_compute; reflexivity|].
  split; [apply reach_refl|]. split.
  - eapply reach_step; [eapply reach_step; [apply reach_refl|reflexivity|left; reflexivity]|reflexivity|left; reflexivity].
  - split; [eexists; split; reflexivity|]. split; [eexists; split; reflexivity|]. split; [lia|]. split; reflexivity.
Qed.

(** ** Words of concrete rules *)
Lemma word_of_predicate h q p s : nth_error h q = Some (OProd [TPred (PEq s)] 0) -> nth_error h p = Some (ORule [q]) -> forall kd, words_of ASCII first_seen kd h p [SPred (PEq s) true].
Proof.
  intros Eq Ep kd. exists 2. cbn [words_in]. rewrite Ep. exists 0. eexists. exists [SPred (PEq s) true]. split; [reflexivity|]. split; [|reflexivity]. cbn [words_in]. rewrite Eq.
  apply (sequence_cons 0 0 _ [] [SPred (PEq s) true] []); [reflexivity|constructor].
Qed.
Lemma shared_case :
  let h := program [CRule [W "x"]; CInterpretation 1 7; CRule [R 2; R 1]] in
  built h /\ flat h 4 /\ is_rule_at h 4 /\ top not_once h 4 /\ built_ok h 4 = true /\
  words_of ASCII first_seen KInterp h 4 [SOpen (AInterp 7); SPred (PEq (str_of "x")) true; SClose; SPred (PEq (str_of "x")) false].
Proof.
  intros h. split; [apply program_built; reflexivity|]. split; [apply flatb_true; reflexivity|]. split; [apply is_rule_atb_true; reflexivity|]. split; [eapply aloneb_true; [reflexivity|exact I|reflexivity]|].
  split; [vm_compute; reflexivity|].
  apply (RuleWords.open_words_obj _ _ KInterp (fun _ => false) h 4 (ORule [3]) eq_refl eq_refl). exists 0. eexists. eexists. split; [reflexivity|]. split; [|reflexivity].
  apply (RuleWords.open_words_obj _ _ KInterp (fun _ => false) h 3 (OProd [TRule 2; TRule 1] 0) eq_refl eq_refl).
  apply (sequence_cons 0 0 _ [_] [SOpen (AInterp 7); SPred (PEq (str_of "x")) true; SClose] [SPred (PEq (str_of "x")) false]).
  - apply (RuleWords.open_words_obj _ _ KInterp (fun _ => false) h 2 (OInterp 1 7) eq_refl eq_refl). exists [SPred (PEq (str_of "x")) true]. split; [|reflexivity]. apply (word_of_predicate h 0 1 (str_of "x") eq_refl eq_refl KInterp).
  - apply (sequence_cons 0 1 _ [] [SPred (PEq (str_of "x")) true] []); [apply (word_of_predicate h 0 1 (str_of "x") eq_refl eq_refl KInterp)|constructor].
Qed.
Lemma head_case :
  let h := program [CRule [W "b"]; CRule [W "c"; W "d"]; COr [1; 3]; CRule [W "a"; Main (TRule 4)]] in
  built h /\ flat h 6 /\ is_rule_at h 6 /\ built_ok h 6 = true /\
  words_of ASCII first_seen KNone h 6 [SPred (PEq (str_of "a")) false; SAlt 1; SPred (PEq (str_of "c")) true; SPred (PEq (str_of "d")) false] /\
  run_call (CRule [Main (TPred (PEq (str_of "a"))); Main (TRule 4)]) h = Err ValueError.
Proof.
  intros h. split; [apply program_built; reflexivity|]. split; [apply flatb_true; reflexivity|]. split; [apply is_rule_atb_true; reflexivity|].
  split; [vm_compute; reflexivity|]. split; [|reflexivity].
  apply (RuleWords.open_words_obj _ _ KNone (fun _ => false) h 6 (ORule [5]) eq_refl eq_refl). exists 0. eexists. eexists. split; [reflexivity|]. split; [|reflexivity].
  apply (RuleWords.open_words_obj _ _ KNone (fun _ => false) h 5 (OProd [TPred (PEq (str_of "a")); TRule 4] 1) eq_refl eq_refl).
  apply (sequence_cons 1 0 _ [_] [SPred (PEq (str_of "a")) true] [SAlt 1; SPred (PEq (str_of "c")) true; SPred (PEq (str_of "d")) false]); [reflexivity|].
  apply (sequence_cons 1 1 _ [] [SAlt 1; SPred (PEq (str_of "c")) true; SPred (PEq (str_of "d")) false] []); [|constructor].
  apply (RuleWords.open_words_obj _ _ KNone (fun _ => false) h 4 (OOr [1; 3]) eq_refl eq_refl). exists 1. eexists. eexists. split; [reflexivity|]. split; [|reflexivity].
  apply (RuleWords.open_words_obj _ _ KNone (fun _ => false) h 3 (ORule [2]) eq_refl eq_refl). exists 0. eexists. eexists. split; [reflexivity|]. split; [|reflexivity].
  apply (RuleWords.open_words_obj _ _ KNone (fun _ => false) h 2 (OProd [TPred (PEq (str_of "c")); TPred (PEq (str_of "d"))] 0) eq_refl eq_refl).
  apply (sequence_cons 0 0 _ [_] [SPred (PEq (str_of "c")) true] [SPred (PEq (str_of "d")) false]); [reflexivity|].
  apply (sequence_cons 0 1 _ [] [SPred (PEq (str_of "d")) true] []); [reflexivity|constructor].
Qed.
Lemma order_case :
  let h := program [CRule [W "x"]; CRepeatable 1 None None false] in
  built h /\ flat h 2 /\ nth_error h 2 = Some (ORepeatable 1 false) /\ built_ok h 2 = true /\
  many (words_of ASCII first_seen KNone h 1) false [SAlt 0; SPred (PEq (str_of "x")) true; SAlt 1; SPred (PEq (str_of "x")) false].
Proof.
  intros h. split; [apply program_built; reflexivity|]. split; [apply flatb_true; reflexivity|]. split; [reflexivity|]. split; [vm_compute; reflexivity|].
  apply (many_more _ false [SPred (PEq (str_of "x")) true] [SAlt 1; SPred (PEq (str_of "x")) true]); [apply (word_of_predicate h 0 1 (str_of "x") eq_refl eq_refl KNone)|].
  apply (many_last _ false [SPred (PEq (str_of "x")) true]). apply (word_of_predicate h 0 1 (str_of "x") eq_refl eq_refl KNone).
Qed.
