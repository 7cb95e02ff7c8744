(** Concrete rules for the examples about facts and readings. *)
From Coq Require String.
From Verif Require Import Base TokenModel EarleyModel EarleySpec EarleyProofs TreeModel TreeSpec ParserModel ParserSpec PredicateModel Cases PredicateCases PipelineModel PipelineSpec PipelineTheorems
  RuleModel RuleSpec RuleAccept RuleNormalized InterpModel InterpSpec InterpCases RuleBuild GrammarModel GrammarSpec RuleNestSpec RuleMild RuleTheorems RuleCases TextModel TextSpec TextProofs TextTheorems SetOrderTheorems
  AbsentSpec AbsentTheorems AbsentPrefer TextAbsent AbsentCases FactWordSpec FactWordProofs.
Import String.StringSyntax.
Open Scope nat_scope.

(** ** All traces of a derivation *)
Section Traces.
  Context {token pred : Type}.
  Variable g : grammar token pred.
  Variable sh : nat -> option RuleSpec.attribute.
  Fixpoint traces (d : dtree pred) : list (word (pred := pred)) :=
    match d with
    | DLeaf _ p => [[SPred p true]]
    | DNode r q ds =>
        flat_map (fun i => if match nth_error (g_prods g r) i with Some q' => q' =? q | None => false end
          then map (fun w => bracket (sh r) (match g_key g q with Some key => [SLine key] | None => mark (length (g_prods g r)) i end ++ w))
            ((fix children (k : nat) (ds : list (dtree pred)) : list word :=
               match ds with
               | [] => [[]]
               | d :: ds => flat_map (fun u => map (fun w => (if k =? g_main g q then u else clear u) ++ w) (children (S k) ds)) (traces d)
               end) 0 ds)
          else []) (seq 0 (length (g_prods g r)))
    end.
  Lemma traced_in d w : traced g sh d w -> In w (traces d).
  Proof.
    revert d w. fix IH 3. intros d w [i p|r q i ds u Hi Hu]; [left; reflexivity|]. cbn [traces]. apply in_flat_map. exists i.
    split; [apply in_seq; split; [lia|]; cbn; apply nth_error_Some; congruence|]. rewrite Hi, Nat.eqb_refl. apply in_map_iff. exists u. split; [reflexivity|].
    revert Hu. generalize 0 as k. generalize (g_main g q) as main. revert ds u. fix IHs 5. intros ds u main k [main' k'|main' k' e ds' v v' Hv Hv']; [left; reflexivity|].
    apply in_flat_map. exists v. split; [apply IH, Hv|]. apply in_map_iff. exists v'. split; [reflexivity|]. apply IHs, Hv'.
  Qed.
End Traces.

Definition facts_in (interps : nat -> interpretator) (p : list rule_call) (root : nat) (text : str) : option (list (res pyval)) :=
  match parser_grammar ASCII first_seen small_context 100 (program p) root, parser_findall ASCII first_seen small_context no_relations 100 (program p) root text with
  | Some (Ok g), Some (Ok (s, ms)) => Some (map (match_fact classes same_class ASCII no_inflect g interps s) ms)
  | _, _ => None
  end.
(** What a rule must satisfy for the theorems about facts. *)
Definition interpreted_rule (U : unicode) (set_order : list str -> list str) (c : context) (fuel : nat) (h : rule_heap) (root : nat) (text : str) (g : grammar token predicate) (toks : list token) : Prop :=
  usual U set_order c fuel h root text g toks /\ timely g /\ flat h root /\ top not_once h root /\ no_morph_pipeline h root /\ g_interp g (g_start g) <> None.
Definition no_morphb (h : rule_heap) : bool := forallb (fun o => match o with OPipeline p => match pipeline_kind p with Morph => false | _ => true end | _ => true end) h.
Definition start_interpreted (p : list rule_call) (root : nat) : bool :=
  match parser_grammar ASCII first_seen small_context 100 (program p) root with Some (Ok g) => match g_interp g (g_start g) with Some _ => true | None => false end | _ => false end.
Definition interpretedb (p : list rule_call) (root : nat) (text : str) : bool :=
  usualb p root text && timely_program p root && flatb (program p) && aloneb (program p) root && no_morphb (program p) && start_interpreted p root &&
  match nth_error (program p) root with Some (OInterp _ _) => true | _ => false end.
Lemma interpretedb_true p root text : interpretedb p root text = true ->
  exists g toks, interpreted_rule ASCII first_seen small_context 100 (program p) root text g toks.
Proof.
  unfold interpretedb. rewrite !andb_true_iff. intros [[[[[[Us T] F] A] M] I] O].
  destruct (timely_ready p root text Us T) as (g & toks & X & Tm). exists g, toks. split; [exact X|]. split; [exact Tm|]. split; [apply flatb_true, F|].
  split; [destruct (nth_error (program p) root) as [[]|] eqn:E; try discriminate; eapply aloneb_true; [exact E|exact Logic.I|exact A]|].
  split; [apply no_morphb_true, M|]. unfold start_interpreted in I. destruct X as (_ & _ & _ & _ & _ & G & _). rewrite G in I. destruct (g_interp g (g_start g)); congruence.
Qed.

(** rule(P.interpretation(name.normalized()), P).interpretation(Person), where P is
    caseless_pipeline(['B']); with the second P replaced by eq('b'). *)
Definition shared_program (shared : bool) : list rule_call :=
  [CPipeline (CaselessPipelineScheme [str_of "B"]); CInterpretation 0 1; CRule [R 1; if shared then R 0 else W "b"]; CInterpretation 3 0].
Definition shared_interps (i : nat) : interpretator := match i with 0 => IFact PERSON | _ => IAttrNorm NAME (NMorph MNormalized) end.
Definition names_in (x : option (list (res pyval))) : option (list (option pyval)) :=
  option_map (map (fun v => option_map snd (List.find (fun a => str_eqb (fst a) (k "name")) (attrs_of v)))) x.

(** rule(P.interpretation(name.normalized()), Q).interpretation(Person), where Q is another
    dictionary, caseless_pipeline(['C']), without an interpretation. *)
Definition other_program : list rule_call :=
  [CPipeline (CaselessPipelineScheme [str_of "B"]); CInterpretation 0 1; CPipeline (CaselessPipelineScheme [str_of "C"]); CRule [R 1; R 2]; CInterpretation 4 0].

(** The traces of all trees of a text, and the tokens of its matches. *)
Definition all_traces (p : list rule_call) (root : nat) (text : str) : option (list (nat * nat * list (word (pred := predicate)))) :=
  match parser_grammar ASCII first_seen small_context 100 (program p) root, text_tokens small_context text with
  | Some (Ok g), Some (Ok toks) =>
      option_map (map (fun t => (snd t, traces g (attribute_of KInterp g) (erase (fst t))))) (parse (accepts ASCII) narrow g 100 toks true)
  | _, _ => None
  end.
Definition match_tokens (p : list rule_call) (root : nat) (text : str) : option (list (nat * nat * list token)) :=
  match parser_findall ASCII first_seen small_context no_relations 100 (program p) root text with
  | Some (Ok (s, ms)) => Some (map (fun m => (m_range m, tree_tokens s (m_root m))) ms)
  | _ => None
  end.
Lemma reading_computed interps p root text r0 w0 ts0 v0 : interpretedb p root text = true ->
  all_traces p root text = Some [(r0, [w0])] -> match_tokens p root text = Some [(r0, ts0)] -> facts_in interps p root text = Some [v0] ->
  exists g toks, interpreted_rule ASCII first_seen small_context 100 (program p) root text g toks /\
  exists s m, parser_findall ASCII first_seen small_context no_relations 100 (program p) root text = Some (Ok (s, [m])) /\
  tree_tokens s (m_root m) = ts0 /\ match_fact classes same_class ASCII no_inflect g interps s m = v0 /\
  exists ha, activated_graph (activate small_context) (activate_pipeline small_context) (program p) ha root /\
  words_of ASCII first_seen KInterp ha root w0 /\ spells ASCII w0 toks (fst (m_range m)) (snd (m_range m)) /\
  forall w', words_of ASCII first_seen KInterp ha root w' -> spells ASCII w' toks (fst (m_range m)) (snd (m_range m)) -> w' = w0 \/ sooner w0 w'.
Proof.
  intros I Tr Mt Fa. destruct (interpretedb_true p root text I) as (g & toks & X). exists g, toks. split; [exact X|].
  destruct X as ((Si & B & H & R & NR & G & T & NE) & Ti & F & To & NM & In0).
  unfold all_traces in Tr. unfold facts_in in Fa. unfold match_tokens in Mt. rewrite G in Tr, Fa. rewrite T in Tr.
  destruct (parser_findall ASCII first_seen small_context no_relations 100 (program p) root text) as [[[s ms]|]|] eqn:Pf; try discriminate.
  destruct ms as [|m [|m' ms]]; try discriminate. cbn [map] in Mt. injection Mt as Er Et. injection Fa as Fa. exists s, m. split; [reflexivity|]. split; [exact Et|]. split; [exact Fa|].
  unfold parser_findall in Pf. rewrite (with_parser_on ASCII first_seen small_context 100 (program p) root text _ g toks G T) in Pf.
  pose proof (usable ASCII first_seen small_context Si 100 (program p) root g B H R G) as US.
  pose proof (absent_free ASCII first_seen small_context Si 100 (program p) root B H R g G NR) as FR.
  pose proof (absent_some ASCII first_seen small_context Si 100 (program p) root B H R g G NE) as SO.
  pose proof (built_filters ASCII first_seen small_context Si 100 (program p) root g B H R G NM) as FI.
  destruct (timely_findall_best (accepts ASCII) narrow no_relations g toks FR (proj1 US) (proj2 US) FI Ti SO 100 _ Pf) as (s' & ms' & trees & E & P & _ & Best). injection E as <- <-.
  destruct (Best m (or_introl eq_refl)) as (d & Bd & Pd & n & Hn & <- & _).
  destruct (best_told ASCII first_seen small_context Si classes same_class no_inflect interps 100 (program p) root B F R To g G In0 toks told_or_not told_or_not_clear (told_or_not_by g ASCII toks) NE) as (ha & A & K).
  exists ha. split; [exact A|]. destruct (K _ _ _ s m Bd Pd) as (w & Tw & W & Sp & L & _).
  rewrite P in Tr. cbn [option_map] in Tr. injection Tr as Tr. assert (Hw : In (m_range m, traces g (attribute_of KInterp g) (erase n)) [(r0, [w0])]).
  { rewrite <- Tr. apply in_map_iff. exists (n, m_range m). split; [reflexivity|exact Hn]. }
  destruct Hw as [E|[]]. injection E as _ E. apply traced_in in Tw. rewrite <- E in Tw. destruct Tw as [<-|[]]. auto.
Qed.
Definition shared_word : word (pred := predicate) := Eval vm_compute in match all_traces (shared_program true) 4 (str_of "b b") with Some [(_, [w])] => w | _ => [] end.
Definition shared_tokens : list token := Eval vm_compute in match match_tokens (shared_program true) 4 (str_of "b b") with Some [(_, ts)] => ts | _ => [] end.
Definition shared_fact : res pyval := Eval vm_compute in match facts_in shared_interps (shared_program true) 4 (str_of "b b") with Some [v] => v | _ => Err TypeError end.
Lemma shared_told : exists v, read_value classes same_class ASCII no_inflect shared_interps told_line shared_word shared_tokens v /\ names_in (Some [v]) = Some [Some (VStr (str_of "B"))].
Proof.
  eexists. split.
  - eexists. split; [|reflexivity]. unfold shared_word, shared_tokens.
    match goal with |- collected _ _ _ _ _ _ [_; _; ?a; ?b; _; ?d; ?e; _] [?t1; ?t2] _ =>
      eapply (collected_part classes same_class ASCII no_inflect shared_interps told_line 0 [SOpen (AInterp 1); a; b; SClose; d; e] [] [t1; t2] [] _ (Ok []) None); [|discriminate|reflexivity|constructor];
      apply (collected_part classes same_class ASCII no_inflect shared_interps told_line 1 [a; b] [d; e] [t1] [t2] (Ok [IToken t1]) (Ok [IToken t2]) (Some (str_of "B"))); [|discriminate|reflexivity|] end.
    + constructor. apply (collected_token _ _ _ _ _ _ _ _ _ [] [] (Ok [])). constructor.
    + constructor. apply (collected_token _ _ _ _ _ _ _ _ _ [] [] (Ok [])). constructor.
  - vm_compute. reflexivity.
Qed.
(** A dictionary that is used twice: its interpretator is not told the line. *)
Lemma shared_line_lost : exists U set_order c rel schemes subclass inflect interps fuel h root text g toks, interpreted_rule U set_order c fuel h root text g toks /\
  exists s m, parser_findall U set_order c rel fuel h root text = Some (Ok (s, [m])) /\
  exists ha w, activated_graph (activate c) (activate_pipeline c) h ha root /\
  words_of U set_order KInterp ha root w /\ spells U w toks (fst (m_range m)) (snd (m_range m)) /\
  (forall w', words_of U set_order KInterp ha root w' -> spells U w' toks (fst (m_range m)) (snd (m_range m)) -> w' = w \/ sooner w w') /\
  exists v, read_value schemes subclass U inflect interps told_line w (tree_tokens s (m_root m)) v /\ match_fact schemes subclass U inflect g interps s m <> v.
Proof.
  exists ASCII, first_seen, small_context, no_relations, classes, same_class, no_inflect, shared_interps, 100, (program (shared_program true)), 4, (str_of "b b").
  destruct (reading_computed shared_interps (shared_program true) 4 (str_of "b b") (0, 2) shared_word shared_tokens shared_fact) as (g & toks & I & s & m & Pf & Et & Ev & ha & A & W & Sp & L);
    [vm_compute; reflexivity..|].
  exists g, toks. split; [exact I|]. exists s, m. split; [exact Pf|]. exists ha, shared_word. split; [exact A|]. split; [exact W|]. split; [exact Sp|]. split; [exact L|].
  rewrite Et, Ev. destruct shared_told as (v & V & N). exists v. split; [exact V|]. intros <-. vm_compute in N. discriminate.
Qed.

(** rule(john.interpretation(name), tall.interpretation(tags).optional(), old.interpretation(tags)).interpretation(Person) *)
Definition tall_program : list rule_call :=
  [CRule [W "john"]; CInterpretation 1 1; CRule [W "tall"]; CInterpretation 4 2; COptional 5 false; CRule [W "old"]; CInterpretation 8 2; CRule [R 2; R 6; R 9]; CInterpretation 11 0].
Definition tall_word : word (pred := predicate) :=
  [SOpen (AInterp 0); SOpen (AInterp 1); SPred (PEq (str_of "john")) true; SClose; SAlt 0; SOpen (AInterp 2); SPred (PEq (str_of "old")) false; SClose; SClose].
Definition tall_tokens : list token := Eval vm_compute in match match_tokens tall_program 12 (str_of "john old") with Some [(_, ts)] => ts | _ => [] end.
Definition tall_fact : res pyval := Eval vm_compute in match facts_in person_interps tall_program 12 (str_of "john old") with Some [v] => v | _ => Err TypeError end.
Lemma tall_reading :
  exists g toks, interpreted_rule ASCII first_seen small_context 100 (program tall_program) 12 (str_of "john old") g toks /\
  exists s m, parser_findall ASCII first_seen small_context no_relations 100 (program tall_program) 12 (str_of "john old") = Some (Ok (s, [m])) /\
  tree_tokens s (m_root m) = tall_tokens /\ match_fact classes same_class ASCII no_inflect g person_interps s m = tall_fact /\
  exists ha, activated_graph (activate small_context) (activate_pipeline small_context) (program tall_program) ha 12 /\
  words_of ASCII first_seen KInterp ha 12 tall_word /\ spells ASCII tall_word toks (fst (m_range m)) (snd (m_range m)) /\
  forall w', words_of ASCII first_seen KInterp ha 12 w' -> spells ASCII w' toks (fst (m_range m)) (snd (m_range m)) -> w' = tall_word \/ sooner tall_word w'.
Proof. apply (reading_computed person_interps tall_program 12 (str_of "john old") (0, 2) tall_word tall_tokens tall_fact); vm_compute; reflexivity. Qed.

(** ** Telling lines, by computation *)
Section Told.
  Context {token pred : Type}.
  Variable g : grammar token pred.
  Variable rules : list nat.
  Fixpoint beginsb (n r : nat) : bool :=
    match n with
    | O => true
    | S n' => match g_interp g r with
      | Some _ => false
      | None => existsb (fun q => match g_key g q with Some _ => true | None => existsb (fun t => match t with TRule r' => beginsb n' r' | TPred _ => false end) (g_terms g q) end) (g_prods g r)
      end
    end.
  Lemma beginsb_true r : begins_with_line g r -> forall n, beginsb n r = true.
  Proof.
    induction 1 as [r q I Q K|r q pre r' post I P T B _ IH]; intros [|n]; try reflexivity; cbn [beginsb]; rewrite I; apply existsb_exists.
    - exists q. split; [exact Q|]. destruct (g_key g q); congruence.
    - exists q. rewrite P. split; [left; reflexivity|]. destruct (g_key g q); [reflexivity|]. apply existsb_exists. exists (TRule r'). rewrite T. split; [apply in_or_app; right; left; reflexivity|apply IH].
  Qed.
  (** A rule that begins with a predicate or with an interpretation is not looked into. *)
  Definition clear_beginning (ts : list (term pred)) : bool :=
    match ts with TRule r1 :: _ => match g_interp g r1 with Some _ => true | None => false end | _ => true end.
  Definition lines_toldb : bool :=
    forallb (fun r => match g_interp g r, g_prods g r with
      | Some _, [q] => clear_beginning (g_terms g q) || forallb (fun t => match t with TRule r' => negb (beginsb 20 r') | TPred _ => true end) (g_terms g q)
      | _, _ => true end) rules.
  Hypothesis only : forall r, ~ In r rules -> g_prods g r = [].
  Lemma lines_toldb_true : lines_toldb = true -> lines_told g.
  Proof.
    unfold lines_toldb. rewrite forallb_forall. intros B r q pre r' post I P T Bl C.
    assert (R : In r rules) by (destruct (in_dec Nat.eq_dec r rules) as [X|X]; [exact X|rewrite (only r X) in P; discriminate]).
    specialize (B r R). cbv beta in B. destruct (g_interp g r) as [k|]; [|congruence]. rewrite P, T in B. apply orb_true_iff in B as [B|B].
    - destruct pre as [|t pre]; cbn [app clear_beginning] in B.
      + destruct C as [r' q' I'|r' q' ? ? ? I']; rewrite I' in B; discriminate.
      + destruct (Bl t (or_introl eq_refl)) as (r1 & -> & Br). inversion Br as [r1' q1 I1]; subst. rewrite I1 in B. discriminate.
    - rewrite forallb_forall in B. specialize (B (TRule r') (in_or_app pre (TRule r' :: post) (TRule r') (or_intror (or_introl eq_refl)))). cbv beta iota in B. rewrite (beginsb_true r' C) in B. discriminate.
  Qed.
End Told.
Definition told_program (p : list rule_call) (root : nat) : bool := match the_grammar p root with Some (g, rules) => lines_toldb g rules | None => false end.
Lemma told_program_true p root g : told_program p root = true -> parser_grammar ASCII first_seen small_context 100 (program p) root = Some (Ok g) -> lines_told g.
Proof. unfold told_program. intros B G. apply the_grammar_made in G as (rules & E & O). rewrite E in B. apply (lines_toldb_true g rules O B). Qed.
