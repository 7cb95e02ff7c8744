(** The fact of a match is the value of a reading of its rule. *)
From Verif Require Import Base TokenModel EarleyModel EarleySpec EarleyProofs TreeModel TreeSpec TreeProofs ParserModel ParserSpec FindallProofs ParserProofs ParserTheorems AgreeProofs PredicateModel PredicateProofs PipelineModel PipelineSpec RuleModel RuleSpec RuleAccept RuleNormalized RuleBuild
  GrammarModel GrammarSpec RuleNestSpec RuleMild RuleTheorems TextModel TextSpec TextProofs TextTheorems AbsentSpec AbsentTheorems AbsentPrefer TextAbsent
  InterpModel InterpSpec InterpProofs InterpTheorems InterpMatch FactWordSpec RuleBuilt RuleStart GrammarProofs.
Open Scope nat_scope.

Scheme traced_ind2 := Induction for traced Sort Prop
with traced_children_ind2 := Induction for traced_children Sort Prop.
Combined Scheme traced_both from traced_ind2, traced_children_ind2.

Section Collected.
  Context {pred : Type}.
  Notation word := (word (pred := pred)).
  Variable schemes : nat -> scheme.
  Variable subclass : nat -> nat -> bool.
  Variable U : unicode.
  Variable inflect : nat -> list str -> option str.
  Variable interps : nat -> interpretator.
  Variable told : word -> option str -> Prop.
  Notation collected := (collected schemes subclass U inflect interps told).
  Notation call := (call_interpretator schemes subclass U inflect).

  Lemma collected_app u us x w ts y : collected u us x -> collected w ts y ->
    exists z, collected (u ++ w) (us ++ ts) z /\ z = let! a := x in let! b := y in Ok (a ++ b).
  Proof.
    intros Hu Hw. induction Hu as [|i u us x Hu IH|key u us x Hu IH|p head t u us x Hu IH|i u v us vs x z key Hu _ Ne T Hv IH|i u v vs x z Hu _ Hv IH].
    - exists y. split; [exact Hw|]. destruct y; reflexivity.
    - destruct IH as (z & C & E). exists z. split; [constructor; exact C|exact E].
    - destruct IH as (z & C & E). exists z. split; [constructor; exact C|exact E].
    - destruct IH as (z & C & E). eexists. split; [apply (collected_token _ _ _ _ _ _ _ _ t); exact C|]. subst z. destruct x; cbn [bind]; [destruct y|]; reflexivity.
    - destruct IH as (z' & C & E). rewrite <- app_comm_cons, <- !app_assoc, <- app_comm_cons. eexists. split; [apply (collected_part _ _ _ _ _ _ i u (v ++ w) us (vs ++ ts) x z' key Hu Ne T C)|].
      subst z'. destruct x as [a|]; cbn [bind]; [|reflexivity]. destruct (call (interps i) a key); cbn [bind]; [|reflexivity]. destruct z; cbn [bind]; [destruct y|]; reflexivity.
    - destruct IH as (z' & C & E). rewrite <- app_comm_cons, <- app_assoc, <- app_comm_cons. exists z'. split; [|exact E]. apply (collected_absent _ _ _ _ _ _ i u (v ++ w) (vs ++ ts) x z' Hu C).
  Qed.
  Hypothesis told_clear : forall u key, told u key -> told (clear u) key.
  Lemma collected_clear w ts x : collected w ts x -> collected (clear w) ts x.
  Proof.
    induction 1 as [|i u us x Hu IH|key u us x Hu IH|p head t u us x Hu IH|i u v us vs x z key Hu IHu Ne T Hv IH|i u v vs x z Hu IHu Hv IH];
      unfold clear in *; cbn [map clear_symbol]; rewrite ?map_app; cbn [map clear_symbol]; econstructor; eauto.
  Qed.
  (** A reading has one value. *)
  Hypothesis told_one : forall u key key', told u key -> told u key' -> key = key'.
  Lemma collected_front u us x : collected u us x -> forall u' us' x' v v', collected u' us' x' -> u ++ SClose :: v = u' ++ SClose :: v' -> u = u'.
  Proof.
    induction 1 as [|i u us x Hu IH|key u us x Hu IH|p head t u us x Hu IH|i u w us ts x z key Hu IHu Ne T Hw IH|i u w ts x z Hu IHu Hw IH];
      intros u' us' x' v v' H' E; destruct H' as [|i' u' us' x' H'|key' u' us' x' H'|p' head' t' u' us' x' H'|i' u' w' us' ts' x' z' key' Hu' Ne' T' Hw'|i' u' w' ts' x' z' Hu' Hw']; try discriminate; try reflexivity;
      injection E; intros.
    1-3: subst; f_equal; eapply IH; eauto.
    all: subst; rewrite <- !app_assoc in *; cbn [app] in *; match goal with Hu : collected ?a _ _, IHu : forall u'' us'' x'' v'' v''', _ -> ?a ++ _ = _ -> ?a = u'', E : ?a ++ SClose :: ?w ++ _ = ?b ++ SClose :: ?w' ++ _, C : collected ?b _ _ |- _ =>
      assert (X : a = b) by (eapply IHu; [exact C|exact E]); subst b; apply app_inv_head in E; injection E as E; do 2 f_equal; f_equal end; eapply IH; eauto.
  Qed.
  Lemma collected_length w ts x : collected w ts x -> length ts = length (predicates w).
  Proof.
    induction 1 as [|i u us x Hu IH|key u us x Hu IH|p head t u us x Hu IH|i u w us ts x z key Hu IHu Ne T Hw IH|i u w ts x z Hu IHu Hw IH]; auto.
    - cbn. f_equal. exact IH.
    - unfold predicates in *. cbn [flat_map]. rewrite app_length. cbn [app]. rewrite flat_map_app, app_length. cbn [flat_map app]. rewrite IHu, IH. reflexivity.
    - unfold predicates in *. cbn [flat_map]. cbn [app]. rewrite flat_map_app, app_length. cbn [flat_map app]. rewrite <- IHu, IH. reflexivity.
  Qed.
  Lemma collected_one w ts x : collected w ts x -> forall x', collected w ts x' -> x = x'.
  Proof.
    induction 1 as [|i u us x Hu IH|key u us x Hu IH|p head t u us x Hu IH|i u w us ts x z key Hu IHu Ne T Hw IH|i u w ts x z Hu IHu Hw IH]; intros x' H'; inversion H'; subst; try reflexivity.
    - apply IH. assumption.
    - apply IH. assumption.
    - f_equal. apply IH. assumption.
    - match goal with E : _ ++ SClose :: _ = u ++ SClose :: _, C : collected u0 _ _ |- _ => symmetry in E; pose proof (collected_front u us x Hu _ _ _ _ _ C E) as <-; apply app_inv_head in E; injection E as <- end.
      assert (L : length us0 = length us) by (etransitivity; [eapply collected_length; eassumption|symmetry; eapply collected_length; eassumption]).
      match goal with E : us0 ++ ts0 = us ++ ts |- _ => destruct (app_inj_len _ _ _ _ E L) as [-> ->] end.
      f_equal; [apply IHu; assumption|].
      assert (K : key0 = key) by (eapply told_one; eassumption). subst key0. assert (Z : z = y) by (apply IH; assumption). subst y. reflexivity.
    - exfalso. match goal with E : _ ++ SClose :: _ = u ++ SClose :: _, C : collected u0 [] _ |- _ => symmetry in E; pose proof (collected_front u us x Hu _ _ _ _ _ C E) as <-; apply collected_length in C; apply collected_length in Hu; destruct us; [congruence|rewrite <- C in Hu; discriminate] end.
    - exfalso. match goal with E : _ ++ SClose :: _ = u ++ SClose :: _, C : collected u0 _ _ |- _ => symmetry in E; pose proof (collected_front u [] x Hu _ _ _ _ _ C E) as <-; apply collected_length in C; apply collected_length in Hu; destruct us; [congruence|rewrite <- C in Hu; discriminate] end.
    - match goal with E : _ ++ SClose :: _ = u ++ SClose :: _, C : collected u0 [] _ |- _ => symmetry in E; pose proof (collected_front u [] x Hu _ _ _ _ _ C E) as <-; apply app_inv_head in E; injection E as <- end.
      apply IH. assumption.
  Qed.
End Collected.

Lemma told_line_clear (u : word (pred := predicate)) key : told_line u key -> told_line (clear u) key.
Proof. intros E. red in E |- *. rewrite E. destruct u as [|[] u]; reflexivity. Qed.
Lemma told_or_not_clear (u : word (pred := predicate)) key : told_or_not u key -> told_or_not (clear u) key.
Proof. intros [->|E]; [left; reflexivity|right; apply told_line_clear, E]. Qed.

(** What interpretators are told when the tree is interpreted is what [told] says. *)
Definition told_by (g : grammar token predicate) U toks (told : word (pred := predicate) -> option str -> Prop) : Prop :=
  forall r q i ds w a b, nth_error (g_prods g r) i = Some q -> g_interp g r <> None -> derives_seq (accepts U) g toks (g_terms g q) a b ds ->
  traced_children g (attribute_of KInterp g) (g_main g q) 0 ds w ->
  told (match g_key g q with Some key => [SLine key] | None => mark (length (g_prods g r)) i end ++ w) (g_key g q).
Lemma told_or_not_by g U toks : told_by g U toks told_or_not.
Proof. intros r q i ds w a b _ _ _ _. destruct (g_key g q) as [key|]; [right; reflexivity|left; reflexivity]. Qed.

Section Tree.
  Variable schemes : nat -> scheme.
  Variable subclass : nat -> nat -> bool.
  Variable U : unicode.
  Variable inflect : nat -> list str -> option str.
  Variable interps : nat -> interpretator.
  Variable g : grammar token predicate.
  Variable s : store.
  Variable toks : list token.
  Variable told : word (pred := predicate) -> option str -> Prop.
  Hypothesis told_clear : forall u key, told u key -> told (clear u) key.
  Hypothesis told_ok : told_by g U toks told.
  Notation collected := (collected (pred := predicate) schemes subclass U inflect interps told).
  Notation visit := (visit_interp schemes subclass U inflect g interps s).
  Notation kept := (kept g).
  Notation toks_of n := (tree_tokens s n).
  Notation sh := (attribute_of KInterp g).

  Lemma mapM_app {A B} (f : A -> res B) l l' : mapM f (l ++ l') = let! a := mapM f l in let! b := mapM f l' in Ok (a ++ b).
  Proof.
    induction l as [|x l IH]; cbn [app mapM bind]; [destruct (mapM f l'); reflexivity|]. destruct (f x) as [y|]; cbn [bind]; [|reflexivity]. rewrite IH. destruct (mapM f l); cbn [bind]; [|reflexivity]. destruct (mapM f l'); reflexivity.
  Qed.
  Lemma toks_node id r q rank (ch : list (node token predicate)) : toks_of (Node id r q rank ch) = flat_map (fun n => toks_of n) ch.
  Proof. rewrite tree_tokens_leaves. cbn [tree_leaves]. induction ch as [|c ch IH]; [reflexivity|]. cbn [flat_map]. rewrite map_app, IH, tree_tokens_leaves. reflexivity. Qed.
  Lemma collected_mark n i w ts x : collected w ts x -> collected (mark n i ++ w) ts x.
  Proof. intros H. unfold mark. destruct (n <=? 1); cbn [app]; [exact H|constructor; exact H]. Qed.

  Lemma traced_collected :
    (forall d w, traced g sh d w -> forall t a b, derives (accepts U) g toks t a b d -> match present d with
       | Some e => forall n, erase n = e -> toks_of n <> [] /\ collected w (toks_of n) (mapM visit (kept n))
       | None => collected w [] (Ok []) end) /\
    (forall main i ds w, traced_children g sh main i ds w -> forall ts a b, derives_seq (accepts U) g toks ts a b ds ->
       forall ns, map erase ns = flat_map (fun c => match present c with Some c' => [c'] | None => [] end) ds ->
       collected w (flat_map (fun n => toks_of n) ns) (mapM visit (flat_map kept ns)) /\ (ns <> [] -> flat_map (fun n => toks_of n) ns <> [])).
  Proof.
    apply traced_both.
    - intros i p t0 a b _ n E. destruct n as [id pos q t|]; [|discriminate]. injection E as -> ->. cbn. split; [discriminate|]. apply (collected_token _ _ _ _ _ _ p true (leaf_token s id t) [] [] (Ok [])). constructor.
    - intros r q i ds w Hi T IH t0 a b D. inversion D as [|r0 q0 a0 b0 ds0 Hq Ds]; subst. specialize (IH _ _ _ Ds). cbn [present]. destruct (flat_map (fun c => match present c with Some c' => [c'] | None => [] end) ds) as [|e es] eqn:Ee.
      + destruct (IH [] eq_refl) as [C _]. cbn in C.
        assert (C' : collected (match g_key g q with Some key => [SLine key] | None => mark (length (g_prods g r)) i end ++ w) [] (Ok [])) by (destruct (g_key g q); [constructor; exact C|apply collected_mark, C]).
        unfold bracket, attribute_of. destruct (g_interp g r) as [k|]; cbn [option_map]; [|exact C'].
        apply (collected_absent _ _ _ _ _ _ k _ [] [] (Ok []) (Ok []) C'). constructor.
      + intros n En. destruct n as [|id r' q' rank ch]; [discriminate|]. injection En as -> -> Ech.
        destruct (IH ch Ech) as [C Ne]. assert (Ne' : flat_map (fun n => toks_of n) ch <> []) by (apply Ne; destruct ch; discriminate).
        rewrite toks_node. split; [exact Ne'|].
        assert (C' : collected (match g_key g q with Some key => [SLine key] | None => mark (length (g_prods g r)) i end ++ w) (flat_map (fun n => toks_of n) ch) (mapM visit (flat_map kept ch)))
          by (destruct (g_key g q); [constructor; exact C|apply collected_mark, C]).
        rewrite kept_eq. cbn [has_interp]. unfold attribute_of. destruct (g_interp g r) as [k|] eqn:Ek; cbn [option_map bracket]; [|exact C'].
        assert (T' : told (match g_key g q with Some key => [SLine key] | None => mark (length (g_prods g r)) i end ++ w) (g_key g q)) by (apply (told_ok r q i ds w a b); [exact Hi|congruence|exact Ds|exact T]).
        pose proof (collected_part _ _ _ _ _ _ k _ [] _ [] _ (Ok []) _ C' Ne' T' (collected_nil _ _ _ _ _ _)) as P. rewrite app_nil_r in P.
        match type of P with collected _ _ ?x => replace (mapM visit [Node id r q rank (flat_map kept ch)]) with x; [exact P|] end.
        cbn [mapM visit_interp]. rewrite Ek. destruct (mapM visit (flat_map kept ch)) as [l|]; cbn [bind]; [|reflexivity].
        destruct (call_interpretator schemes subclass U inflect (interps k) l (g_key g q)); reflexivity.
    - intros main i ts a b _ ns E. destruct ns; [|discriminate]. cbn. split; [constructor|auto].
    - intros main i d ds u w Td IHd Tds IHds ts a b D ns E. inversion D as [|t0 ts0 a0 k0 b0 d0 ds0 D1 D2]; subst. specialize (IHd _ _ _ D1). specialize (IHds _ _ _ D2). cbn [flat_map] in E.
      assert (X : forall v ts x, collected v ts x -> collected (if i =? main then v else clear v) ts x) by (intros v ts x Hv; destruct (i =? main); [exact Hv|apply collected_clear; [exact told_clear|exact Hv]]).
      destruct (present d) as [e|]; cbn [app] in E.
      + destruct ns as [|n ns]; [discriminate|]. injection E as En Es. destruct (IHd n En) as [Ne C]. destruct (IHds ns Es) as [Cs _].
        cbn [flat_map]. rewrite mapM_app. split; [|intros _ A; apply app_eq_nil in A as [A _]; congruence].
        destruct (collected_app _ _ _ _ _ _ _ _ _ _ _ _ (X _ _ _ C) Cs) as (z & Cz & ->). exact Cz.
      + destruct (IHds ns E) as [Cs N]. split; [|exact N].
        destruct (collected_app _ _ _ _ _ _ _ _ _ _ _ _ (X _ _ _ IHd) Cs) as (z & Cz & Ez). cbn [app bind] in Cz, Ez. replace (mapM visit (flat_map kept ns)) with z; [exact Cz|]. rewrite Ez. destruct (mapM visit (flat_map kept ns)); reflexivity.
  Qed.
  Lemma traced_value t a b d w (m : amatch (pred := predicate)) : derives (accepts U) g toks t a b d -> traced g sh d w -> present d = Some (erase (m_root m)) -> has_interp g (m_root m) = true ->
    read_value schemes subclass U inflect interps told w (toks_of (m_root m)) (match_fact schemes subclass U inflect g interps s m).
  Proof.
    intros D T P I. pose proof (proj1 traced_collected d w T t a b D) as C. rewrite P in C. destruct (C (m_root m) eq_refl) as [_ C']. clear C P T D.
    exists (mapM visit (kept (m_root m))). split; [exact C'|]. unfold match_fact, interpret, keep. rewrite I. destruct (m_root m) as [|id r q rank ch]; [discriminate|]. rewrite kept_eq, I.
    cbn [bind mapM visit_interp]. destruct (mapM visit (flat_map kept ch)) as [l|]; cbn [bind]; [|reflexivity]. cbn [has_interp] in I. destruct (g_interp g r) as [k|]; [|discriminate].
    destruct (call_interpretator schemes subclass U inflect (interps k) l (g_key g q)); reflexivity.
  Qed.
End Tree.

(** ** The fact of a match of a parser *)
Section Fact.
  Variable U : unicode.
  Variable set_order : list str -> list str.
  Variable c : context.
  Hypothesis sets : set_iteration set_order.
  Variable rel : nat -> form -> form -> bool.
  Variable schemes : nat -> scheme.
  Variable subclass : nat -> nat -> bool.
  Variable inflect : nat -> list str -> option str.
  Variable interps : nat -> interpretator.
  Variable fuel : nat.
  Variable h : rule_heap.
  Variable root : nat.
  Hypothesis built0 : built h.
  Hypothesis flat0 : flat h root.
  Hypothesis rule0 : is_rule_at h root.
  Hypothesis top0 : top not_once h root.
  Variable g : grammar token predicate.
  Hypothesis made : parser_grammar U set_order c fuel h root = Some (Ok g).
  Hypothesis interpreted : g_interp g (g_start g) <> None.
  Variable toks : list token.
  Variable told : word (pred := predicate) -> option str -> Prop.
  Hypothesis told_clear : forall u key, told u key -> told (clear u) key.
  Hypothesis told_ok : told_by g U toks told.
  Notation mild0 := (flat_harmless h root built0 flat0 rule0).
  Notation US := (usable U set_order c sets fuel h root g built0 mild0 rule0 made).
  Notation read := (read_value schemes subclass U inflect interps).
  Notation fact s m := (match_fact schemes subclass U inflect g interps s m).
  Notation sh := (attribute_of KInterp g).

  Lemma root_interpreted i j d (m : amatch (pred := predicate)) : derives (accepts U) g toks (TRule (g_start g)) i j d -> present d = Some (erase (m_root m)) -> has_interp g (m_root m) = true.
  Proof.
    intros D P. inversion D as [|r q i0 j0 ds Hq Ds]; subst. cbn [present] in P. destruct (flat_map _ ds) as [|e es]; [discriminate|]. destruct (m_root m) as [|id r q' rank ch]; [discriminate|].
    injection P as <- _ _. cbn [has_interp]. destruct (g_interp g (g_start g)); [reflexivity|congruence].
  Qed.
  Theorem reported_told s m : reported (accepts U) narrow rel g fuel toks s m ->
    exists ha, activated_graph (activate c) (activate_pipeline c) h ha root /\
    exists w, words_of U set_order KInterp ha root w /\ spells U w toks (fst (m_range m)) (snd (m_range m)) /\ read told w (tree_tokens s (m_root m)) (fact s m).
  Proof.
    intros R. destruct (attributes_kept U set_order c KInterp fuel h root g (or_introl eq_refl) built0 flat0 rule0 top0 made) as (ha & A & K). exists ha. split; [exact A|].
    destruct (reported_tree (accepts U) narrow rel g fuel toks s m (bank_narrow U) R) as (all & trees & n & P & HT & PR & _). destruct (m_range m) as [i j]. cbn [fst snd].
    destruct (parse_sound (accepts U) narrow g fuel toks all trees n i j (proj1 US) P HT) as (D & _ & LE & _).
    destruct (preferred_words g (accepts U) toks sh (keys_uniform U set_order c fuel h root g built0 mild0 rule0 made) _ _ _ _ D) as (w & T & _).
    assert (Li : i <= length toks) by (destruct (proj1 (derives_span (accepts U) g toks) _ _ _ _ D) as (L1 & _); lia).
    assert (Rd : reads U g sh toks i j w) by (exists (erase n); auto). apply K in Rd as [W Sp]; [|exact Li].
    assert (Pr : present (erase n) = Some (erase (m_root m))) by (rewrite present_erase, PR; reflexivity).
    exists w. split; [exact W|]. split; [exact Sp|]. apply (traced_value schemes subclass U inflect interps g s toks told told_clear told_ok _ i j (erase n) w m D T Pr). apply (root_interpreted i j (erase n) m D Pr).
  Qed.

  (** The earliest reading. *)
  Variable text : str.
  Hypothesis tokenized : text_tokens c text = Some (Ok toks).
  Hypothesis unrelated : no_relations_in h root.
  Hypothesis timely0 : timely g.
  Hypothesis some : ~ rule_accepts U set_order c h root [] 0 0.
  Hypothesis no_morph : no_morph_pipeline h root.
  Notation FREE := (absent_free U set_order c sets fuel h root built0 mild0 rule0 g made unrelated).
  Notation SOME := (absent_some U set_order c sets fuel h root built0 mild0 rule0 g made some).
  Notation FI := (built_filters U set_order c sets fuel h root g built0 mild0 rule0 made no_morph).
  Lemma best_told : exists ha, activated_graph (activate c) (activate_pipeline c) h ha root /\
    forall i j d s (m : amatch (pred := predicate)), best_derivation (accepts U) g toks i j d -> present d = Some (erase (m_root m)) ->
    exists w, traced g sh d w /\ words_of U set_order KInterp ha root w /\ spells U w toks i j /\
      (forall w', words_of U set_order KInterp ha root w' -> spells U w' toks i j -> w' = w \/ sooner w w') /\
      read told w (tree_tokens s (m_root m)) (fact s m).
  Proof.
    destruct (attributes_kept U set_order c KInterp fuel h root g (or_introl eq_refl) built0 flat0 rule0 top0 made) as (ha & A & K). exists ha. split; [exact A|]. intros i j d s m [D B] P.
    destruct (preferred_words g (accepts U) toks sh (keys_uniform U set_order c fuel h root g built0 mild0 rule0 made) _ _ _ _ D) as (w & T & L).
    assert (Li : i <= length toks) by (apply (timely_pos (accepts U) g toks SOME) in D; lia).
    assert (R : reads U g sh toks i j w) by (exists d; auto). apply K in R as [W Sp]; [|exact Li]. exists w. split; [exact T|]. split; [exact W|]. split; [exact Sp|]. split.
    - intros w' W' Sp'. assert (R' : reads U g sh toks i j w') by (apply K; auto). destruct R' as (d' & D' & T'). apply (L _ _ d' w' D'); [apply B, D'|exact T'].
    - apply (traced_value schemes subclass U inflect interps g s toks told told_clear told_ok _ i j d w m D T P). apply (root_interpreted i j d m D P).
  Qed.
  Theorem findall_told s ms : parser_findall U set_order c rel fuel h root text = Some (Ok (s, ms)) ->
    exists ha, activated_graph (activate c) (activate_pipeline c) h ha root /\
    forall m, In m ms -> exists w, words_of U set_order KInterp ha root w /\ spells U w toks (fst (m_range m)) (snd (m_range m)) /\
      (forall w', words_of U set_order KInterp ha root w' -> spells U w' toks (fst (m_range m)) (snd (m_range m)) -> w' = w \/ sooner w w') /\
      read told w (tree_tokens s (m_root m)) (fact s m).
  Proof.
    unfold parser_findall. rewrite (with_parser_on U set_order c fuel h root text _ g toks made tokenized). intros H. destruct best_told as (ha & A & K). exists ha. split; [exact A|]. intros m Hm.
    destruct (timely_findall_best (accepts U) narrow rel g toks FREE (proj1 US) (proj2 US) FI timely0 SOME fuel _ H) as (s' & ms' & trees & E & _ & _ & Best). injection E as <- <-.
    destruct (Best m Hm) as (d & B & P & _). destruct (K _ _ d s m B P) as (w & _ & V). exists w. exact V.
  Qed.
  Theorem match_told s m : start_not_used g -> parser_match U set_order c rel fuel h root text = Some (Ok (s, Some m)) ->
    exists ha, activated_graph (activate c) (activate_pipeline c) h ha root /\
    exists w, words_of U set_order KInterp ha root w /\ spells U w toks 0 (length toks) /\
      (forall w', words_of U set_order KInterp ha root w' -> spells U w' toks 0 (length toks) -> w' = w \/ sooner w w') /\
      read told w (tree_tokens s (m_root m)) (fact s m).
  Proof.
    intros NU. unfold parser_match. rewrite (with_parser_on U set_order c fuel h root text _ g toks made tokenized). intros H. destruct best_told as (ha & A & K). exists ha. split; [exact A|].
    destruct (timely_match_best (accepts U) narrow rel g toks FREE (proj1 US) (proj2 US) FI timely0 SOME fuel _ NU H) as [(s' & m' & d & E & _ & B & P & _)|[E _]]; [|discriminate].
    injection E as <- <-. destruct (K _ _ d s m B P) as (w & _ & V). exists w. exact V.
  Qed.
End Fact.

(** Each interpretator over a dictionary is told the line or nothing. *)
Theorem reported_value :
  forall U set_order c, set_iteration set_order -> forall rel schemes subclass inflect interps fuel h root, built h -> flat h root -> is_rule_at h root -> top not_once h root ->
  forall g, parser_grammar U set_order c fuel h root = Some (Ok g) -> g_interp g (g_start g) <> None ->
  forall toks s m, reported (accepts U) narrow rel g fuel toks s m ->
  exists ha, activated_graph (activate c) (activate_pipeline c) h ha root /\
  exists w, words_of U set_order KInterp ha root w /\ spells U w toks (fst (m_range m)) (snd (m_range m)) /\
    read_value schemes subclass U inflect interps told_or_not w (tree_tokens s (m_root m)) (match_fact schemes subclass U inflect g interps s m).
Proof. intros. eapply reported_told; eauto using told_or_not_by, told_or_not_clear. Qed.
Theorem findall_value :
  forall U set_order c, set_iteration set_order -> forall rel schemes subclass inflect interps fuel h root, built h -> flat h root -> is_rule_at h root -> top not_once h root ->
  forall g, parser_grammar U set_order c fuel h root = Some (Ok g) -> g_interp g (g_start g) <> None ->
  forall toks text, text_tokens c text = Some (Ok toks) -> no_relations_in h root -> timely g -> ~ rule_accepts U set_order c h root [] 0 0 -> no_morph_pipeline h root ->
  forall s ms, parser_findall U set_order c rel fuel h root text = Some (Ok (s, ms)) ->
  exists ha, activated_graph (activate c) (activate_pipeline c) h ha root /\
  forall m, In m ms -> exists w, words_of U set_order KInterp ha root w /\ spells U w toks (fst (m_range m)) (snd (m_range m)) /\
    (forall w', words_of U set_order KInterp ha root w' -> spells U w' toks (fst (m_range m)) (snd (m_range m)) -> w' = w \/ sooner w w') /\
    read_value schemes subclass U inflect interps told_or_not w (tree_tokens s (m_root m)) (match_fact schemes subclass U inflect g interps s m).
Proof. intros. eapply findall_told; eauto using told_or_not_by, told_or_not_clear. Qed.
Theorem match_value :
  forall U set_order c, set_iteration set_order -> forall rel schemes subclass inflect interps fuel h root, built h -> flat h root -> is_rule_at h root -> top not_once h root ->
  forall g, parser_grammar U set_order c fuel h root = Some (Ok g) -> g_interp g (g_start g) <> None ->
  forall toks text, text_tokens c text = Some (Ok toks) -> no_relations_in h root -> timely g -> ~ rule_accepts U set_order c h root [] 0 0 -> no_morph_pipeline h root ->
  forall s m, start_not_used g -> parser_match U set_order c rel fuel h root text = Some (Ok (s, Some m)) ->
  exists ha, activated_graph (activate c) (activate_pipeline c) h ha root /\
  exists w, words_of U set_order KInterp ha root w /\ spells U w toks 0 (length toks) /\
    (forall w', words_of U set_order KInterp ha root w' -> spells U w' toks 0 (length toks) -> w' = w \/ sooner w w') /\
    read_value schemes subclass U inflect interps told_or_not w (tree_tokens s (m_root m)) (match_fact schemes subclass U inflect g interps s m).
Proof. intros. eapply match_told; eauto using told_or_not_by, told_or_not_clear. Qed.

(** The line is told when no interpretation is over a rule that begins with a dictionary. *)
Section Told.
  Variable g : grammar token predicate.
  Variable U : unicode.
  Variable toks : list token.
  Notation sh := (attribute_of KInterp g).
  Notation traced := (traced g sh).
  Notation traced_children := (traced_children g sh).
  Lemma clear_nil (u : word (pred := predicate)) : clear u = [] -> u = [].
  Proof. destruct u; [reflexivity|discriminate]. Qed.
  Lemma clear_line (u v : word (pred := predicate)) line : clear u = SLine line :: v -> exists u', u = SLine line :: u'.
  Proof. destruct u as [|[] u]; try discriminate. cbn. intros E. injection E as -> _. eexists; reflexivity. Qed.
  Lemma no_mark (l : list nat) i q (w : word (pred := predicate)) : nth_error l i = Some q -> mark (length l) i ++ w = w \/ exists k v, mark (length l) i ++ w = SAlt k :: v.
  Proof. intros _. unfold mark. destruct (length l <=? 1); [left; reflexivity|right; eexists _, _; reflexivity]. Qed.
  Lemma one_production (l : list nat) i q (w v : word (pred := predicate)) : nth_error l i = Some q -> mark (length l) i ++ w = v -> (forall k v', v <> SAlt k :: v') -> l = [q] /\ v = w.
  Proof.
    unfold mark. intros N E K. destruct (length l <=? 1) eqn:L; cbn [app] in E.
    - split; [|auto]. apply Nat.leb_le in L. destruct l as [|a [|b l]]; cbn in L; try lia; [destruct i; discriminate|]. destruct i as [|i]; [injection N as ->; reflexivity|destruct i; discriminate].
    - exfalso. subst v. eapply K. reflexivity.
  Qed.
  Lemma traced_begins :
    (forall d w, traced d w -> forall t a b, derives (accepts U) g toks t a b d ->
       (w = [] -> exists r, t = TRule r /\ blank g r) /\ (forall line v, w = SLine line :: v -> exists r, t = TRule r /\ begins_with_line g r)) /\
    (forall main i ds w, traced_children main i ds w -> forall ts a b, derives_seq (accepts U) g toks ts a b ds ->
       (w = [] -> blanks g ts) /\ (forall line v, w = SLine line :: v -> exists pre r post, ts = pre ++ TRule r :: post /\ blanks g pre /\ begins_with_line g r)).
  Proof.
    apply traced_both.
    - intros i p t a b D. split; discriminate.
    - intros r q i ds w Hi T IH t a b D. inversion D as [|r0 q0 a0 b0 ds0 Hq Ds]; subst. destruct (IH _ _ _ Ds) as [IHn IHl]. unfold attribute_of. destruct (g_interp g r) as [k|] eqn:Ek; cbn [option_map bracket]; [split; discriminate|].
      destruct (g_key g q) as [key|] eqn:Eq; cbn [app].
      + split; [discriminate|]. intros line v _. exists r. split; [reflexivity|]. apply (begins_line g r q Ek Hq). congruence.
      + split.
        * intros E. destruct (one_production _ _ _ _ _ Hi E) as [L W]; [discriminate|]. exists r. split; [reflexivity|]. apply (blank_rule g r q Ek L Eq). apply IHn. auto.
        * intros line v E. destruct (one_production _ _ _ _ _ Hi E) as [L W]; [discriminate|]. exists r. split; [reflexivity|]. destruct (IHl line v (eq_sym W)) as (pre & r' & post & Et & Bp & Br). apply (begins_part g r q pre r' post Ek L Et Bp Br).
    - intros main i ts a b D. inversion D; subst. split; [intros _ t []|discriminate].
    - intros main i d ds u w Td IHd Tds IHds ts a b D. inversion D as [|t0 ts0 a0 k0 b0 d0 ds0 D1 D2]; subst. destruct (IHd _ _ _ D1) as [Dn Dl]. destruct (IHds _ _ _ D2) as [Sn Sl]. split.
      + intros E. apply app_eq_nil in E as [Eu Ew]. assert (u = []) by (destruct (i =? main); [exact Eu|apply clear_nil, Eu]). intros t [<-|Ht]; [apply Dn; assumption|apply (Sn Ew t Ht)].
      + intros line v E. assert (X : u = [] \/ exists u', u = SLine line :: u').
        { destruct (i =? main); destruct u as [|x u]; auto; right; [injection E as -> _; eexists; reflexivity|]. cbn [clear map app] in E. injection E as E _. destruct x; try discriminate. cbn in E. injection E as ->. eexists; reflexivity. }
        destruct X as [->|(u' & ->)].
        * destruct (Dn eq_refl) as (r & -> & Br). replace (if i =? main then [] else clear []) with (@nil (symbol (pred := predicate))) in E by (destruct (i =? main); reflexivity). cbn [app] in E.
          destruct (Sl line v E) as (pre & r' & post & -> & Bp & B'). exists (TRule r :: pre), r', post. split; [reflexivity|]. split; [|exact B']. intros t [<-|Ht]; [eauto|apply (Bp t Ht)].
        * destruct (Dl line u' eq_refl) as (r & -> & Br). exists [], r, ts0. split; [reflexivity|]. split; [intros t []|exact Br].
  Qed.
  Lemma told_line_by : lines_told g -> told_by g U toks told_line.
  Proof.
    intros L r q i ds w a b Hi Hr Ds T. red. destruct (g_key g q) as [key|] eqn:Eq; [reflexivity|].
    destruct (mark (length (g_prods g r)) i ++ w) as [|[] v] eqn:E; try reflexivity. exfalso.
    destruct (one_production _ _ _ _ _ Hi E) as [Lr W]; [discriminate|]. destruct (proj2 traced_begins _ _ _ _ T _ _ _ Ds) as [_ B]. destruct (B _ _ (eq_sym W)) as (pre & r' & post & Et & Bp & Br).
    exact (L r q pre r' post Hr Lr Et Bp Br).
  Qed.
End Told.
Theorem reported_line :
  forall U set_order c, set_iteration set_order -> forall rel schemes subclass inflect interps fuel h root, built h -> flat h root -> is_rule_at h root -> top not_once h root ->
  forall g, parser_grammar U set_order c fuel h root = Some (Ok g) -> g_interp g (g_start g) <> None ->
  lines_told g -> forall toks s m, reported (accepts U) narrow rel g fuel toks s m ->
  exists ha, activated_graph (activate c) (activate_pipeline c) h ha root /\
  exists w, words_of U set_order KInterp ha root w /\ spells U w toks (fst (m_range m)) (snd (m_range m)) /\
    read_value schemes subclass U inflect interps told_line w (tree_tokens s (m_root m)) (match_fact schemes subclass U inflect g interps s m).
Proof. intros. eapply reported_told; eauto using told_line_by, told_line_clear. Qed.
Theorem findall_line :
  forall U set_order c, set_iteration set_order -> forall rel schemes subclass inflect interps fuel h root, built h -> flat h root -> is_rule_at h root -> top not_once h root ->
  forall g, parser_grammar U set_order c fuel h root = Some (Ok g) -> g_interp g (g_start g) <> None ->
  forall toks text, text_tokens c text = Some (Ok toks) -> no_relations_in h root -> timely g -> ~ rule_accepts U set_order c h root [] 0 0 -> no_morph_pipeline h root ->
  lines_told g -> forall s ms, parser_findall U set_order c rel fuel h root text = Some (Ok (s, ms)) ->
  exists ha, activated_graph (activate c) (activate_pipeline c) h ha root /\
  forall m, In m ms -> exists w, words_of U set_order KInterp ha root w /\ spells U w toks (fst (m_range m)) (snd (m_range m)) /\
    (forall w', words_of U set_order KInterp ha root w' -> spells U w' toks (fst (m_range m)) (snd (m_range m)) -> w' = w \/ sooner w w') /\
    read_value schemes subclass U inflect interps told_line w (tree_tokens s (m_root m)) (match_fact schemes subclass U inflect g interps s m).
Proof. intros. eapply findall_told; eauto using told_line_by, told_line_clear. Qed.

(** ** Readings without lines of dictionaries *)
Section Lines.
  Context {pred : Type}.
  Variable schemes : nat -> scheme.
  Variable subclass : nat -> nat -> bool.
  Variable U : unicode.
  Variable inflect : nat -> list str -> option str.
  Variable interps : nat -> interpretator.
  Notation read told := (read_value (pred := pred) schemes subclass U inflect interps told).
  Lemma collected_lineless (w : word (pred := pred)) ts x : collected schemes subclass U inflect interps told_or_not w ts x -> (forall line, ~ In (SLine line) w) -> collected schemes subclass U inflect interps told_line w ts x.
  Proof.
    induction 1 as [|i u us x Hu IH|key u us x Hu IH|p head t u us x Hu IH|i u v us vs x z key Hu IHu Ne T Hv IH|i u v vs x z Hu IHu Hv IH]; intros N.
    - constructor.
    - constructor. apply IH. intros line Hl. apply (N line). right. exact Hl.
    - exfalso. apply (N key). left. reflexivity.
    - constructor. apply IH. intros line Hl. apply (N line). right. exact Hl.
    - econstructor; [apply IHu; intros line Hl; apply (N line); right; apply in_or_app; left; exact Hl|exact Ne| |apply IH; intros line Hl; apply (N line); right; apply in_or_app; right; right; exact Hl].
      destruct T as [->|T]; [|exact T]. red. destruct u as [|[] u]; try reflexivity. exfalso. eapply N. right. left. reflexivity.
    - econstructor; [apply IHu; intros line Hl; apply (N line); right; apply in_or_app; left; exact Hl|apply IH; intros line Hl; apply (N line); right; apply in_or_app; right; right; exact Hl].
  Qed.
  Theorem value_told_line (w : word (pred := pred)) ts v : (forall line, ~ In (SLine line) w) -> read told_or_not w ts v -> read told_line w ts v.
  Proof. intros N (x & C & E). exists x. split; [apply collected_lineless; assumption|exact E]. Qed.
  Theorem one_value (w : word (pred := pred)) ts v v' : read told_line w ts v -> read told_line w ts v' -> v = v'.
  Proof.
    intros (x & C & ->) (x' & C' & ->). replace x' with x; [reflexivity|]. apply (collected_one schemes subclass U inflect interps told_line) with (w := w) (ts := ts); try assumption. intros u a b -> ->. reflexivity.
  Qed.
  Theorem one_value_lineless (w : word (pred := pred)) ts v v' : (forall line, ~ In (SLine line) w) -> read told_or_not w ts v -> read told_or_not w ts v' -> v = v'.
  Proof. intros N V V'. apply (one_value w ts); apply value_told_line; assumption. Qed.
End Lines.

(** The interpretation of the root is that of the start rule. *)
Theorem root_starts U set_order c fuel h root r i g : built h -> flat h root -> top not_once h root -> nth_error h root = Some (OInterp r i) ->
  parser_grammar U set_order c fuel h root = Some (Ok g) -> g_interp g (g_start g) = Some i.
Proof.
  intros B F T E H. assert (R : is_rule_at h root) by (eexists; split; [exact E|reflexivity]). assert (S := built_source h root B F R).
  unfold parser_grammar in H. apply then_ok in H as ((r' & h') & H & Hb). destruct (bfs fuel h' r') as [objects|] eqn:Bf; [|discriminate]. injection Hb as <-.
  destruct (RuleBfs.bfs_ok h' fuel r' objects Bf) as (_ & Re & _).
  destruct (parser_rule_interp (pipeline_as_bnf U set_order) b_productions (activate c) (activate_pipeline c) (pred_twice c) (pipe_twice c) fuel h root r' h' r i S T E H) as (o & a & Eo & Ea & Ei).
  cbn. assert (K : is_in r' objects = true) by (apply is_in_true, Re; constructor). rewrite K, Eo, Ea. exact Ei.
Qed.

(** Rules without parts that may be absent. *)
Theorem solid_facts U set_order c : set_iteration set_order -> forall rel schemes subclass inflect interps fuel h root r i, built h -> flat h root -> top not_once h root ->
  nth_error h root = Some (OInterp r i) -> solid h root -> no_morph_pipeline h root ->
  forall text s ms, parser_findall U set_order c rel fuel h root text = Some (Ok (s, ms)) ->
  exists g toks ha, parser_grammar U set_order c fuel h root = Some (Ok g) /\ text_tokens c text = Some (Ok toks) /\ activated_graph (activate c) (activate_pipeline c) h ha root /\
  forall m, In m ms -> exists w, words_of U set_order KInterp ha root w /\ spells U w toks (fst (m_range m)) (snd (m_range m)) /\
    (forall w', words_of U set_order KInterp ha root w' -> spells U w' toks (fst (m_range m)) (snd (m_range m)) -> w' = w \/ sooner w w') /\
    read_value schemes subclass U inflect interps told_or_not w (tree_tokens s (m_root m)) (match_fact schemes subclass U inflect g interps s m).
Proof.
  intros SO rel schemes subclass inflect interps fuel h root r i B F T E So NM text s ms H. assert (R : is_rule_at h root) by (eexists; split; [exact E|reflexivity]).
  assert (Mi := flat_harmless h root B F R).
  assert (H' := H). unfold parser_findall, with_parser in H'. apply then_ok in H' as (g & G & H'). apply then_ok in H' as (toks & Tk & _).
  assert (NN := solid_no_nullable U set_order c SO fuel h root g B Mi R G So).
  assert (Em : ~ rule_accepts U set_order c h root [] 0 0).
  { intros A. apply (accept_solid U set_order c SO fuel h root g B Mi R G So) in A as (d & D). destruct (solid_pos U set_order c SO fuel h root g B Mi R G So _ _ _ _ D). lia. }
  assert (Un : no_relations_in h root) by (intros x o Rx Ex; specialize (So x o Rx Ex); destruct o; auto).
  assert (Gi : g_interp g (g_start g) <> None) by (rewrite (root_starts U set_order c fuel h root r i g B F T E G); discriminate).
  destruct (findall_value U set_order c SO rel schemes subclass inflect interps fuel h root B F R T g G Gi toks text Tk Un (no_nullable_timely g NN) Em NM s ms H) as (ha & A & K).
  exists g, toks, ha. auto.
Qed.
