(** From rules and texts to matches. *)
From Verif Require Import Base TokenModel EarleyModel EarleySpec TokenizerModel PredicateModel PredicateProofs PipelineModel PipelineSpec PipelineProofs PipelineTheorems
  TreeModel TreeSpec ParserModel ParserSpec RelationSpec ParserTheorems ReportProofs AgreeProofs ResultProofs RuleModel RuleSpec RuleAccept RuleBfs RulePass RuleMethods RuleNormalized RuleParser RuleForward RuleBuild RuleBuilt RuleGrammar RuleKeep
  GrammarModel GrammarSpec GrammarProofs RuleNestSpec RuleMild RuleTheorems TextModel TextSpec.
Open Scope nat_scope.

(** ** find *)
Section Find.
  Context {pred : Type}.
  Variable accepts : pred -> token -> bool.
  Variable constrain : pred -> token -> token.
  Variable rel : nat -> form -> form -> bool.
  Lemma left_to_right_after l : forall from, left_to_right from l -> forall r, In r l -> from <= fst r.
  Proof.
    induction l as [|[i j] l IH]; intros from L r Hr; [destruct Hr|]. destruct L as (L1 & L2 & L3). destruct Hr as [<-|Hr]; [exact L1|]. specialize (IH j L3 r Hr). lia.
  Qed.
  Theorem find_first g fuel toks r : find accepts constrain rel g fuel toks = Some r ->
    exists r', findall accepts constrain rel g fuel toks = Some r' /\
    match r, r' with
    | Err e, Err e' => e = e'
    | Ok (_, None), Ok (_, ms) => ms = []
    | Ok (_, Some m), Ok (_, ms) => exists rest, ms = m :: rest /\ forall m', In m' rest -> snd (m_range m) <= fst (m_range m')
    | _, _ => False
    end.
  Proof.
    unfold find. destruct (findall accepts constrain rel g fuel toks) as [[[s ms]|e]|] eqn:E; intros H; try discriminate; injection H as <-; eexists; (split; [reflexivity|]); cbn; [|reflexivity].
    destruct ms as [|m rest]; cbn; [reflexivity|]. exists rest. split; [reflexivity|]. intros m' Hm. apply (findall_order accepts constrain rel) in E. cbn in E. destruct (m_range m) as [i j]. destruct E as (_ & _ & E).
    apply (left_to_right_after _ j E), in_map, Hm.
  Qed.
End Find.

(** ** Readings in the order of the alternatives *)
Section Order.
  Context {token pred : Type}.
  Variable g : grammar token pred.
  Variable accepts : pred -> token -> bool.
  Variable toks : list token.
  Variable sh : nat -> option attribute.
  (** All productions of a rule are dictionary lines, or none is. *)
  Hypothesis uniform : forall r q q', In q (g_prods g r) -> In q' (g_prods g r) -> g_key g q = None -> g_key g q' = None.
  Notation derives := (derives accepts g toks).
  Notation derives_seq := (derives_seq accepts g toks).
  Notation word := (word (pred := pred)).

  Definition upto (a b : list nat) : Prop := a = b \/ rank_before a b.
  Lemma upto_cons x y a b : upto (x :: a) (y :: b) -> x < y \/ x = y /\ upto a b.
  Proof.
    intros [H|(p & x0 & y0 & a' & b' & Ea & Eb & L)]; [injection H as -> ->; right; split; [reflexivity|left; reflexivity]|].
    destruct p as [|z p]; [injection Ea as -> ->; injection Eb as -> ->; left; exact L|]. injection Ea as -> ->. injection Eb as -> ->. right. split; [reflexivity|]. right. exists p, x0, y0, a', b'. auto.
  Qed.
  Lemma sooner_front (u w w' : word) : sooner w w' -> sooner (u ++ w) (u ++ w').
  Proof. intros (u0 & x & y & v & v' & -> & -> & E). exists (u ++ u0), x, y, v, v'. rewrite <- !app_assoc. auto. Qed.
  Lemma sooner_back (w w' v v' : word) : sooner w w' -> sooner (w ++ v) (w' ++ v').
  Proof. intros (u0 & x & y & s & s' & -> & -> & E). exists u0, x, y, (s ++ v), (s' ++ v'). rewrite <- !app_assoc. auto. Qed.
  Lemma sooner_clear (w w' : word) : sooner w w' -> sooner (clear w) (clear w').
  Proof.
    intros (u & x & y & v & v' & -> & -> & E). exists (clear u), (clear_symbol x), (clear_symbol y), (clear v), (clear v'). unfold clear. rewrite !map_app. cbn. split; [reflexivity|]. split; [reflexivity|].
    destruct x, y; cbn in *; auto.
  Qed.
  Lemma sooner_bracket a (w w' : word) : sooner w w' -> sooner (bracket a w) (bracket a w').
  Proof. intros S. destruct a as [a|]; cbn; [|exact S]. change (SOpen a :: w ++ [SClose]) with ([SOpen a] ++ w ++ [SClose]). change (SOpen a :: w' ++ [SClose]) with ([SOpen (pred := pred) a] ++ w' ++ [SClose]). apply sooner_front, sooner_back, S. Qed.

  Lemma index_of_nth q l : In q l -> nth_error l (index_of q l) = Some q.
  Proof.
    induction l as [|x l IH]; intros H; [destruct H|]. cbn. destruct (Nat.eqb_spec q x) as [->|N]; [reflexivity|]. destruct H as [->|H]; [congruence|]. cbn. auto.
  Qed.
  Lemma index_of_least q l : forall i, nth_error l i = Some q -> index_of q l <= i.
  Proof.
    induction l as [|x l IH]; intros i H; [destruct i; discriminate|]. cbn. destruct (Nat.eqb_spec q x) as [->|N]; [lia|]. destruct i as [|i]; cbn in H; [congruence|]. specialize (IH i H). lia.
  Qed.
  Lemma nth_two (l : list nat) i j x y : nth_error l i = Some x -> nth_error l j = Some y -> i < j -> 1 < length l.
  Proof. intros _ Hj L. assert (j < length l) by (apply nth_error_Some; congruence). lia. Qed.

  (** The reading that takes the first number of each production. *)
  Definition first_word d (w : word) : Prop := traced g sh d w /\ forall d' w' l l', (exists t i j i' j', derives t i j d /\ derives t i' j' d') -> traced g sh d' w' ->
    upto (choices g d ++ l) (choices g d' ++ l') -> sooner w w' \/ w = w' /\ upto l l'.
  Lemma first_words : (forall t i j d, derives t i j d -> exists w, first_word d w) /\
    (forall ts i j ds, derives_seq ts i j ds -> forall main k, exists w, traced_children g sh main k ds w /\
      forall ds' w' l l' i' j', derives_seq ts i' j' ds' -> traced_children g sh main k ds' w' -> upto (flat_map (choices g) ds ++ l) (flat_map (choices g) ds' ++ l') -> sooner w w' \/ w = w' /\ upto l l').
  Proof.
    apply (derives_mutind _ _ accepts g toks
      (fun t i j d => exists w, first_word d w)
      (fun ts i j ds => forall main k, exists w, traced_children g sh main k ds w /\
        forall ds' w' l l' i' j', derives_seq ts i' j' ds' -> traced_children g sh main k ds' w' -> upto (flat_map (choices g) ds ++ l) (flat_map (choices g) ds' ++ l') -> sooner w w' \/ w = w' /\ upto l l')).
    - intros p i t Ht A. exists [SPred p true]. split; [constructor|]. intros d' w' l l' (t0 & i0 & j0 & i' & j' & D & D') T K. inversion D; subst. inversion D'; subst. inversion T; subst. right. split; [reflexivity|exact K].
    - intros r q i j ds Hq Ds IH. destruct (IH (g_main g q) 0) as (w & T & K). clear IH.
      assert (Hi := index_of_nth q _ Hq). eexists. split; [econstructor; [exact Hi|exact T]|].
      intros d' w' l l' (t0 & i0 & j0 & i' & j' & D & D') T' Up. inversion D; subst. inversion D' as [|? q' ? ? ds' Hq' Ds']; subst. inversion T' as [|? ? n' ? wc Hn' Tc]; subst.
      cbn [choices] in Up. rewrite <- !app_comm_cons in Up. apply upto_cons in Up.
      assert (Diff : forall n, nth_error (g_prods g r) n = Some q' -> index_of q (g_prods g r) < n -> forall v v' : word,
        sooner (bracket (sh r) (match g_key g q with Some key => [SLine key] | None => mark (length (g_prods g r)) (index_of q (g_prods g r)) end ++ v))
               (bracket (sh r) (match g_key g q' with Some key => [SLine key] | None => mark (length (g_prods g r)) n end ++ v'))).
      { intros n Hn L v v'. apply sooner_bracket. assert (Ln := nth_two _ _ _ _ _ Hi Hn L). unfold mark. destruct (Nat.leb_spec (length (g_prods g r)) 1); [lia|].
        destruct (g_key g q) as [key|] eqn:Eq.
        - destruct (g_key g q') as [key'|] eqn:Eq'; [|rewrite (uniform r q' q Hq' Hq Eq') in Eq; discriminate]. exists [], (SLine key), (SLine key'), v, v'. cbn. auto.
        - rewrite (uniform r q q' Hq Hq' Eq). exists [], (SAlt (index_of q (g_prods g r))), (SAlt n), v, v'. cbn. auto. }
      destruct Up as [Lt|[Eqi Up]].
      + left. apply Diff; [exact Hn'|]. assert (Le := index_of_least q' _ n' Hn'). lia.
      + assert (q' = q) as ->. { assert (Hi' := index_of_nth q' _ Hq'). rewrite <- Eqi in Hi'. rewrite Hi in Hi'. congruence. }
        assert (Le := index_of_least q _ n' Hn'). destruct (Nat.eq_dec (index_of q (g_prods g r)) n') as [<-|Ne].
        * destruct (K ds' wc l l' _ _ Ds' Tc Up) as [S|[-> U']]; [left; apply sooner_bracket, sooner_front, S|right; split; [reflexivity|exact U']].
        * left. apply Diff; [exact Hn'|lia].
    - intros i main k. exists []. split; [constructor|]. intros ds' w' l l' i' j' D' T' Up. inversion D'; subst. inversion T'; subst. right. split; [reflexivity|exact Up].
    - intros t ts i k j d ds D (w1 & T1 & K1) Ds IH main n. destruct (IH main (S n)) as (w2 & T2 & K2). exists ((if n =? main then w1 else clear w1) ++ w2). split; [constructor; assumption|].
      intros ds' w' l l' i' j' D' T' Up. inversion D'; subst. inversion T'; subst. cbn [flat_map] in Up. rewrite <- !app_assoc in Up.
      match goal with T : traced g sh _ _ |- _ => rename T into Td end. match goal with T : traced_children g sh _ (S n) ds0 _ |- _ => rename T into Tr end.
      match goal with D1 : derives t i' _ d0, D2 : derives_seq ts _ j' ds0 |- _ => rename D1 into Dd; rename D2 into Dr end.
      destruct (K1 d0 u _ _ (ex_intro _ t (ex_intro _ _ (ex_intro _ _ (ex_intro _ _ (ex_intro _ _ (conj D Dd)))))) Td Up) as [S|[-> Up']].
      + left. apply sooner_back. destruct (n =? main); [exact S|apply sooner_clear, S].
      + destruct (K2 ds0 _ l l' _ _ Dr Tr Up') as [S|[-> Up'']]; [left; apply sooner_front, S|right; split; [reflexivity|exact Up'']].
  Qed.
  Theorem preferred_words t i j d : derives t i j d -> exists w, traced g sh d w /\
    forall i' j' d' w', derives t i' j' d' -> d' = d \/ preferred g d d' -> traced g sh d' w' -> w' = w \/ sooner w w'.
  Proof.
    intros D. destruct (proj1 first_words t i j d D) as (w & T & K). exists w. split; [exact T|]. intros i' j' d' w' D' P T'.
    destruct (K d' w' [] []) as [S|[-> _]]; auto.
    - exists t, i, j, i', j'. auto.
    - rewrite !app_nil_r. destruct P as [->|P]; [left; reflexivity|right; exact P].
  Qed.
End Order.

(** ** The grammar of a solid rule *)
Section Solid.
  Variable U : unicode.
  Variable set_order : list str -> list str.
  Variable c : context.
  Hypothesis sets : set_iteration set_order.
  Notation pipe_bnf := (pipeline_as_bnf U set_order).

  Lemma active_kind x y : activate_pipeline c x = Ok y -> pipeline_kind y = pipeline_kind x.
  Proof.
    destruct x; cbn; try (intros E; injection E as <-; reflexivity); [destruct (mapM (get_key c) lines)|destruct (mapM (get_key c) lines)|destruct (mapM (get_morph_key c) lines)]; cbn; intros E; try discriminate; injection E as <-; reflexivity.
  Qed.
  Section Built.
    Variable fuel : nat.
    Variable h : rule_heap.
    Variable root : nat.
    Variable g : grammar token predicate.
    Hypothesis built0 : built h.
    Hypothesis mild0 : harmless h root.
    Hypothesis rule0 : is_rule_at h root.
    Hypothesis made : parser_grammar U set_order c fuel h root = Some (Ok g).

    Lemma built_parts : exists r h' objects, build_rule U set_order c fuel h root = Some (Ok (r, h')) /\ (forall x, In x objects <-> reach h' r x) /\
      bnf_graph pipe_bnf b_productions false h' (reach h' r) /\ g = restrict objects (grammar_of (pipeline_predict U set_order) h' r).
    Proof.
      unfold parser_grammar in made. apply then_ok in made as ((r & h') & H & Hb). destruct (bfs fuel h' r) as [objects|] eqn:Bf; [|discriminate]. injection Hb as <-.
      destruct (bfs_ok h' fuel r objects Bf) as (_ & Re & _).
      destruct (parser_rule_mild pipe_bnf b_productions (activate c) (activate_pipeline c) (pred_twice c) (pipe_twice c) fuel h root r h' (built_mild h root built0 mild0 rule0) H) as (ha & rn & hn & _ & _ & _ & B & _).
      exists r, h', objects. auto.
    Qed.
    Lemma keys_uniform r q q' : In q (g_prods g r) -> In q' (g_prods g r) -> g_key g q = None -> g_key g q' = None.
    Proof.
      destruct built_parts as (r0 & h' & objects & _ & Re & B & ->). cbn. destruct (is_in r objects) eqn:Ix; [|intros []]. apply is_in_true in Ix. apply Re in Ix. destruct (B r Ix) as (o & E & Bo & _). rewrite E.
      destruct o as [| | | | | | | | | | | | | |ps a|b ps a| | |]; try (intros []; fail); intros Hq Hq'.
      - intros _. destruct (Bo q' Hq') as (oq & Eq & K). rewrite Eq. destruct oq; try reflexivity. destruct K.
      - destruct Bo as [_ F]. apply In_nth_error in Hq as (k & Hk). destruct (forall2_get _ _ _ k q F Hk) as (l & _ & Eq). rewrite Eq. discriminate.
    Qed.
    (** The parts of the rule of the parser. *)
    Lemma kept no_relation no_empty morphless : (forall x o, reach h root x -> nth_error h x = Some o -> simple no_relation no_empty (fun p => morphless = true -> pipeline_kind p <> Morph) (fun b => morphless = true -> b_kind b <> Morph) (fun _ => True) o) ->
      forall r h', build_rule U set_order c fuel h root = Some (Ok (r, h')) -> forall x o, reach h' r x -> nth_error h' x = Some o ->
      simple no_relation no_empty (fun p => morphless = true -> pipeline_kind p <> Morph) (fun b => morphless = true -> b_kind b <> Morph) (fun _ => True) o.
    Proof.
      intros K r h' H. set (fine := fun p => morphless = true -> pipeline_kind p <> Morph) in *. set (fine_bnf := fun b => morphless = true -> b_kind b <> Morph) in *.
      set (D := fun p => reach h root p \/ length h <= p).
      destruct (parser_rule_keeps pipe_bnf b_productions (activate c) (activate_pipeline c) no_relation no_empty fine fine_bnf (fun _ => True)) with (D := D) (n0 := length h) (fuel := fuel) (h := h) (root := root) (r := r) (h' := h') as [G Dr].
      - intros x b F E. destruct (as_bnf_spec U set_order sets x b E) as (_ & Kb & NE & _). split; [intros M; rewrite Kb; exact (F M)|]. intros key ps Hin. split; [intros _; exact (NE key ps Hin)|auto].
      - intros x y F E M. rewrite (active_kind x y E). exact (F M).
      - auto.
      - intros p Hp. right. exact Hp.
      - left. constructor.
      - split; [lia|]. intros p o [Rp|Lp] E; [|assert (p < length h) by (apply nth_error_Some; congruence); lia]. split; [apply (K p o Rp E)|]. intros d Hd. left. econstructor; eassumption.
      - exact H.
      - intros x o R E. apply G with (p := x); [|exact E]. clear E. induction R as [p|p q oq d R IH Eq Hd]; [exact Dr|]. apply (proj2 (proj2 G q oq (IH H Dr) Eq) d Hd).
    Qed.
    Lemma solid_relation_free : (forall x o, reach h root x -> nth_error h x = Some o -> match o with ORelation _ _ => False | _ => True end) -> relation_free g.
    Proof.
      intros S. destruct built_parts as (r0 & h' & objects & H & Re & B & ->). intros r. cbn. destruct (is_in r objects) eqn:Ix; [|reflexivity]. apply is_in_true in Ix. apply Re in Ix. destruct (B r Ix) as (o & E & Bo & _). rewrite E.
      assert (K := kept true false false). specialize (K ltac:(intros x ox Rx Ex; specialize (S x ox Rx Ex); destruct ox; cbn; try discriminate; try contradiction; auto; try (split; [discriminate|auto]; fail); assert (P := proj1 (built_mild h root built0 mild0 rule0) x Rx); destruct P as (o2 & E2 & Pl & _); rewrite Ex in E2; injection E2 as <-; discriminate) r0 h' H r o Ix E).
      destruct o; try reflexivity; cbn in K |- *; [apply K; reflexivity|apply K; reflexivity].
    Qed.
    Lemma solid_simple (o : obj predicate pipeline pipeline_bnf) : RuleMethods.plain o = true -> solid_part o -> simple true true (fun p => false = true -> pipeline_kind p <> Morph) (fun b => false = true -> b_kind b <> Morph) (fun _ => True) o.
    Proof. intros P S. destruct o; cbn in *; try discriminate; try contradiction; unfold fine_line; auto. Qed.
    Lemma solid_no_nullable : solid h root -> no_nullable g.
    Proof.
      intros S. destruct built_parts as (r0 & h' & objects & H & Re & B & ->).
      assert (K : forall x o, reach h' r0 x -> nth_error h' x = Some o -> simple true true (fun p => false = true -> pipeline_kind p <> Morph) (fun b => false = true -> b_kind b <> Morph) (fun _ => True) o).
      { apply (kept true true false); [|exact H]. intros x o Rx Ex. destruct (proj1 (built_mild h root built0 mild0 rule0) x Rx) as (o2 & E2 & Pl & _). rewrite Ex in E2. injection E2 as <-. apply solid_simple; [exact Pl|apply (S x o Rx Ex)]. }
      intros r N. revert N. generalize (TRule (pred := predicate) r) as t. clear r. refine (nullable_ind _ (fun t => False) _). intros r q Hq _ IH.
      cbn [g_prods restrict] in Hq. destruct (is_in r objects) eqn:Ix; [|destruct Hq]. apply is_in_true in Ix. apply Re in Ix.
      destruct (B r Ix) as (o & E & Bo & Co).
      assert (Hc : In q (children o)) by (cbn in Hq; rewrite E in Hq; destruct o; try contradiction; exact Hq). assert (Rq : reach h' r0 q) by (econstructor; eassumption).
      destruct (B q Rq) as (oq & Eq & Bq & _). specialize (K q oq Rq Eq).
      assert (T : forall t, ~ In t (RuleModel.production_terms oq)). { intros t Ht. apply (IH t). cbn. rewrite Eq. exact Ht. }
      assert (is_prod oq = true) as P. { cbn in Hq. rewrite E in Hq. destruct o as [| | | | | | | | | | | | | |ps a|b ps a| | |]; try contradiction.
        - destruct (Bo q Hq) as (oq' & Eq' & Kq). rewrite Eq in Eq'. injection Eq' as <-. destruct oq; try contradiction; reflexivity.
        - destruct Bo as [_ F]. apply In_nth_error in Hq as (k & Hk). destruct (forall2_get _ _ _ k q F Hk) as (l & _ & Eq'). rewrite Eq in Eq'. injection Eq' as ->. reflexivity. }
      destruct oq as [| | | | | | | | | | | | | | | |ts m| |key ps]; try discriminate; cbn in K.
      - destruct ts as [|t ts]; [apply (proj1 K eq_refl eq_refl)|apply (T t); left; reflexivity].
      - destruct ps as [|p ps]; [apply (proj1 K eq_refl eq_refl)|apply (T (TPred p)); left; reflexivity].
    Qed.
    Lemma built_filters : no_morph_pipeline h root -> predict_filters g.
    Proof.
      intros S. destruct built_parts as (r0 & h' & objects & H & Re & B & ->). apply filters0; [exact Re|exact B|exact sets|].
      intros x b ps a Rx Ex. assert (K := kept false false true). refine (proj1 (K _ r0 h' H x _ Rx Ex) eq_refl). clear - S built0 mild0 rule0. intros x o Rx Ex.
      destruct (proj1 (built_mild h root built0 mild0 rule0) x Rx) as (o2 & E2 & Pl & _). rewrite Ex in E2. injection E2 as <-.
      destruct o; cbn; try discriminate; auto; try (split; [discriminate|auto]; fail). intros _. apply (S x pipeline Rx Ex).
    Qed.
    Lemma solid_free : solid h root -> relation_free g.
    Proof. intros S. apply solid_relation_free. intros x o Rx Ex. specialize (S x o Rx Ex). destruct o; auto. Qed.

    Notation accept := (rule_accepts U set_order c h root).
    Lemma accept_iff toks i j : i <= length toks -> (exists d, derives (accepts U) g toks (TRule (g_start g)) i j d) <-> accept toks i j.
    Proof. apply (grammar_of_parser U set_order c sets fuel h root g built0 mild0 rule0 made). Qed.
    Lemma accept_start toks i j : accept toks i j -> i <= length toks.
    Proof. intros (ts & S & _). apply segment_end in S. lia. Qed.
    Lemma usable : predict_sound g /\ predict_complete (accepts U) g.
    Proof. apply (grammar_usable U set_order c sets fuel h root g built0 mild0 rule0 made). Qed.

    (** Any rule: what is reported is accepted. *)
    Lemma tree_accepted all toks trees n i j : parse (accepts U) narrow g fuel toks all = Some trees -> In (n, (i, j)) trees -> i <= length toks -> accept toks i j.
    Proof.
      intros P Hn L. destruct (parse_sound (accepts U) narrow g fuel toks all trees n i j (proj1 usable) P Hn) as (D & _ & J & _). apply accept_iff; [exact L|eauto].
    Qed.

    Section Solid.
      Hypothesis solid0 : solid h root.
      Notation NN := (solid_no_nullable solid0).
      Notation RF := (solid_free solid0).
      Lemma solid_pos toks i j d : derives (accepts U) g toks (TRule (g_start g)) i j d -> i < j /\ j <= length toks.
      Proof. intros D. apply (derives_pos (accepts U) g toks NN i j d D). Qed.
      Lemma best_same (P Q : nat * nat -> Prop) out : (forall i j, P (i, j) <-> Q (i, j)) -> best_ranges P out -> best_ranges Q out.
      Proof.
        intros E (A & B & C & D). split; [exact A|]. split; [intros [i j] Hr; apply E, B, Hr|]. split.
        - intros S L K. apply C; [exact L|]. intros [i j] Hr. apply E, K, Hr.
        - intros S L K. apply D; [exact L|]. intros [i j] Hr. apply E, K, Hr.
      Qed.
      Lemma accept_solid toks i j : (exists d, derives (accepts U) g toks (TRule (g_start g)) i j d) <-> accept toks i j.
      Proof.
        split.
        - intros (d & D). destruct (solid_pos toks i j d D). apply accept_iff; [lia|eauto].
        - intros A. apply accept_iff; [apply (accept_start _ _ _ A)|exact A].
      Qed.
      Lemma solid_findall rel toks r : findall (accepts U) narrow rel g fuel toks = Some r ->
        exists s ms, r = Ok (s, ms) /\ best_ranges (fun x => accept toks (fst x) (snd x)) (map m_range ms).
      Proof.
        intros H. destruct (free_findall_ranges (accepts U) narrow rel g toks RF (proj1 usable) (proj2 usable) NN fuel r H) as (s & ms & -> & B & _).
        exists s, ms. split; [reflexivity|]. revert B. apply best_same. intros i j. apply accept_solid.
      Qed.
      Lemma solid_match rel toks r : match_ (accepts U) narrow rel g fuel toks = Some r ->
        (exists s m, r = Ok (s, Some m) /\ snd (m_range m) = length toks /\ accept toks (fst (m_range m)) (snd (m_range m)) /\ (start_not_used g -> fst (m_range m) = 0)) \/
        (r = Ok ([], None) /\ ~ accept toks 0 (length toks)).
      Proof.
        intros H. destruct (match_spec (accepts U) narrow rel g fuel toks r H) as (trees & P & CASES).
        assert (ACC : forall t s, In t trees -> prepare_match rel g t [] <> Ok (s, None)).
        { intros t s HT. apply (free_no_reject (accepts U) narrow rel g toks false fuel trees P t []); auto; [apply RF|apply pristine_nil]. }
        destruct CASES as [([n [i j]] & s & m & -> & HT & E & LEAST)|[([n [i j]] & e & -> & HT & E & LEAST)|[-> REJ]]].
        - left. exists s, m. split; [reflexivity|].
          destruct (free_result (accepts U) narrow rel g toks RF (proj1 usable) NN _ _ _ _ _ _ _ _ _ P HT (pristine_nil trees) E) as (_ & -> & _). cbn.
          destruct (parse_sound (accepts U) narrow g fuel toks false trees n i j (proj1 usable) P HT) as (D & _ & _ & J). split; [apply J; reflexivity|]. split; [apply accept_solid; eauto|].
          intros NU. apply (whole_text (accepts U) narrow g fuel toks trees n i j NU P HT).
        - exfalso. destruct (tree_facts (accepts U) narrow g toks (proj1 usable) NN _ _ _ _ _ _ P HT) as (D & L & _).
          destruct (free_prepare (accepts U) narrow rel g toks false fuel trees P (n, (i, j)) [] RF (pristine_nil trees) HT L) as (s1 & m1 & E1 & _). rewrite E in E1. discriminate.
        - right. split; [reflexivity|]. intros A. apply accept_solid in A as (d & D). destruct (derives_pos (accepts U) g toks NN _ _ _ D) as (NE & _).
          destruct (parse_complete (accepts U) narrow g fuel toks false trees 0 _ d (proj2 usable) P D NE) as (n & Hn & _); auto; [lia|]. eapply ACC; eauto.
      Qed.
      Lemma solid_readings rel toks s ms : flat h root -> no_morph_pipeline h root -> findall (accepts U) narrow rel g fuel toks = Some (Ok (s, ms)) ->
        exists ha, activated_graph (activate c) (activate_pipeline c) h ha root /\
        forall m, In m ms -> exists w, traced g (fun _ => None) (erase (m_root m)) w /\ words_of U set_order KNone ha root w /\ spells U w toks (fst (m_range m)) (snd (m_range m)) /\
          forall w', words_of U set_order KNone ha root w' -> spells U w' toks (fst (m_range m)) (snd (m_range m)) -> w' = w \/ sooner w w'.
      Proof.
        intros Fl NM H. destruct (words_kept U set_order c fuel h root g built0 Fl rule0 made) as (ha & A & K). exists ha. split; [exact A|]. intros m Hm.
        destruct (findall_by_derivations _ (accepts U) narrow rel g toks fuel _ RF (proj1 usable) (proj2 usable) (built_filters NM) NN H) as (s' & ms' & E & _ & Best). injection E as <- <-.
        destruct (Best m Hm) as (D & P). destruct (preferred_words g (accepts U) toks (fun _ => None) keys_uniform _ _ _ _ D) as (w & T & L).
        assert (Li : fst (m_range m) <= length toks) by (apply solid_pos in D; lia). exists w. split; [exact T|].
        assert (R : reads U g (fun _ => None) toks (fst (m_range m)) (snd (m_range m)) w) by (exists (erase (m_root m)); auto). apply K in R as [W Sp]; [|exact Li]. split; [exact W|]. split; [exact Sp|].
        intros w' W' Sp'. assert (R' : reads U g (fun _ => None) toks (fst (m_range m)) (snd (m_range m)) w') by (apply K; auto). destruct R' as (d' & D' & T'). apply (L _ _ d' w' D'); [apply P, D'|exact T'].
      Qed.
    End Solid.
  End Built.
End Solid.
