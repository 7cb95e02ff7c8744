(** Predicates that raise: theorems about the chart and about a Parser on a text. *)
From Verif Require Import Base SpanModel EarleyModel EarleySpec EarleyInv EarleyProofs TokenModel TokenizerModel TaggerModel
  PredicateModel PredicateSpec PredicateProofs PipelineModel PipelineSpec PipelineProofs TreeModel ParserModel
  RuleModel RuleSpec RuleAccept RuleActivate RuleKeep RuleBuild GrammarModel GrammarSpec GrammarProofs RuleNestSpec RuleMild RuleTheorems
  TextModel TextSpec TextProofs TextTheorems RaiseModel RaiseSpec RaiseProofs.
Open Scope nat_scope.

(** ** The chart *)
Section Chart.
  Context {pred : Type}.
  Variable call : pred -> token -> res bool.
  Variable narrow : pred -> token -> res token.
  Variable rel : nat -> form -> form -> bool.
  Variable g : grammar token pred.
  Variable toks : list token.
  Variable fuel : nat.
  Hypothesis predict0 : predict_sound g.
  Notation says := (says call).
  Notation narrowed := (narrowed narrow).
  Notation parse := (parse says narrowed g fuel toks).
  Notation findall := (findall says narrowed rel g fuel toks).
  Notation find := (find says narrowed rel g fuel toks).
  Notation match_ := (match_ says narrowed rel g fuel toks).
  Notation extract := (extract says narrowed rel g fuel toks).

  (** Some predicate raised [e] on a token at which it had to be asked. *)
  Definition alarmed (e : exn) : Prop := exists k t p, nth_error toks k = Some t /\ asked call g toks k p /\ raises call narrow p t e.

  Theorem rparse_cases all : rparse call narrow g fuel toks all = option_map Ok (parse all) \/ exists e, alarmed e /\ rparse call narrow g fuel toks all = Some (Err e).
  Proof.
    unfold rparse, ParserModel.parse. destruct (rchart_cases call narrow g toks all predict0 fuel) as [E|(e & A & E)]; rewrite E.
    - left. destruct (chart says narrowed g toks fuel all); reflexivity.
    - right. exists e. split; [|reflexivity]. exact A.
  Qed.
  Theorem rfindall_cases : rfindall call narrow rel g fuel toks = findall \/ exists e, alarmed e /\ rfindall call narrow rel g fuel toks = Some (Err e).
  Proof.
    unfold rfindall, ParserModel.findall. destruct (rparse_cases true) as [E|(e & A & E)]; rewrite E; [left; destruct (parse true); reflexivity|right; exists e; split; [exact A|reflexivity]].
  Qed.
  Theorem rfind_cases : rfind call narrow rel g fuel toks = find \/ exists e, alarmed e /\ rfind call narrow rel g fuel toks = Some (Err e).
  Proof.
    unfold rfind, ParserModel.find. destruct rfindall_cases as [E|(e & A & E)]; rewrite E; [left; reflexivity|right; exists e; split; [exact A|reflexivity]].
  Qed.
  Theorem rmatch_cases : rmatch call narrow rel g fuel toks = match_ \/ exists e, alarmed e /\ rmatch call narrow rel g fuel toks = Some (Err e).
  Proof.
    unfold rmatch, ParserModel.match_. destruct (rparse_cases false) as [E|(e & A & E)]; rewrite E; [left; destruct (parse false); reflexivity|right; exists e; split; [exact A|reflexivity]].
  Qed.
  Theorem rextract_cases all : rextract call narrow rel g fuel toks all = option_map Ok (extract all) \/ exists e, alarmed e /\ rextract call narrow rel g fuel toks all = Some (Err e).
  Proof.
    unfold rextract, ParserModel.extract. destruct (rparse_cases all) as [E|(e & A & E)]; rewrite E; [left; destruct (parse all); reflexivity|right; exists e; split; [exact A|reflexivity]].
  Qed.

  Definition quiet : Prop := forall k t p, nth_error toks k = Some t -> asked call g toks k p -> answers call narrow p t.
  Lemma quiet_alarmed e : quiet -> alarmed e -> False.
  Proof. intros Q (k & t & p & T & A & R). apply (answers_not call narrow p t e (Q k t p T A) R). Qed.
  Theorem quiet_same all : quiet ->
    rparse call narrow g fuel toks all = option_map Ok (parse all) /\ rfindall call narrow rel g fuel toks = findall /\ rfind call narrow rel g fuel toks = find /\
    rmatch call narrow rel g fuel toks = match_ /\ rextract call narrow rel g fuel toks all = option_map Ok (extract all).
  Proof.
    intros Q. destruct (rparse_cases all) as [E1|(e & A & _)]; [|destruct (quiet_alarmed e Q A)]. destruct rfindall_cases as [E2|(e & A & _)]; [|destruct (quiet_alarmed e Q A)].
    destruct rfind_cases as [E3|(e & A & _)]; [|destruct (quiet_alarmed e Q A)]. destruct rmatch_cases as [E4|(e & A & _)]; [|destruct (quiet_alarmed e Q A)].
    destruct (rextract_cases all) as [E5|(e & A & _)]; [|destruct (quiet_alarmed e Q A)]. auto.
  Qed.
  Theorem rparse_error all e : rparse call narrow g fuel toks all = Some (Err e) -> alarmed e.
  Proof. intros H. destruct (rparse_cases all) as [E|(e' & A & E)]; rewrite E in H; [destruct (parse all); discriminate|congruence]. Qed.

  Hypothesis predict1 : predict_complete says g.
  Theorem rparse_answers all trees : rparse call narrow g fuel toks all = Some (Ok trees) ->
    parse all = Some trees /\ forall k t p, nth_error toks k = Some t -> must_answer call g toks all k t p -> answers call narrow p t.
  Proof.
    intros H. unfold rparse in H. destruct (rchart call narrow g toks fuel all) as [[st|]|] eqn:E; try discriminate. injection H as <-.
    destruct (rchart_ok call narrow g toks all fuel st E) as (C & W). split; [unfold ParserModel.parse; rewrite C; reflexivity|].
    intros k t p T M. edestruct (must_waits call narrow g toks all) as (s & Hs & Hw & Hk); [exact C|exact predict1|exact T|exact M|]. apply (W k s p t Hk Hs Hw).
  Qed.
End Chart.

(** ** The predicates of predicates/bank.py *)
Lemma all_raises l e : all_ l = Err e -> In (Err e) l.
Proof. induction l as [|[[]|e'] l IH]; cbn; intros H; try discriminate; [right; auto|left; congruence]. Qed.
Lemma any_raises l e : any_ l = Err e -> In (Err e) l.
Proof. induction l as [|[[]|e'] l IH]; cbn; intros H; try discriminate; [right; auto|left; congruence]. Qed.
Lemma call_raises U p t e : PredicateSpec.plain p -> usual_token U t -> PredicateModel.call U p t = Err e -> exists s, inside s p /\ function_raises e t s.
Proof.
  intros HP [HV HI]. revert HP. induction p using predicate_rect'; intros HP E.
  - cbn in HP, E. apply fold_and in HP. apply all_raises, in_map_iff in E as (p & E & Hp). rewrite Forall_forall in *. destruct (H p Hp (HP p Hp) E) as (s & I & F). exists s. split; [econstructor; eassumption|exact F].
  - cbn in HP, E. apply fold_and in HP. apply any_raises, in_map_iff in E as (p & E & Hp). rewrite Forall_forall in *. destruct (H p Hp (HP p Hp) E) as (s & I & F). exists s. split; [eapply inside_or; eassumption|exact F].
  - cbn in HP, E. destruct (PredicateModel.call U p t) as [b|e'] eqn:C; [discriminate|]. cbn in E. injection E as ->. destruct (IHp HP eq_refl) as (s & I & F). exists s. split; [constructor; exact I|exact F].
  - destruct p; try contradiction; cbn in E; try discriminate.
    + destruct (t_value t); [contradiction|discriminate].
    + unfold int_required in E. destruct (str_eqb (t_type t) INT) eqn:T; [|discriminate]. apply str_eqb_eq in T. destruct (HI T) as (z & Z). rewrite Z in E. discriminate.
    + unfold int_required in E. destruct (str_eqb (t_type t) INT) eqn:T; [|discriminate]. apply str_eqb_eq in T. destruct (HI T) as (z & Z). rewrite Z in E. discriminate.
    + destruct (t_forms t) as [fs|] eqn:F; [discriminate|]. unfold TokenModel.normalized in E. rewrite F in E. discriminate.
    + exists (PCustom function types). split; [constructor|]. cbn. destruct (PredicateModel.truthy types); [exact E|]. destruct (_ || _)%bool; [exact E|discriminate].
    + exists (PUser function). split; [constructor|exact E].
Qed.
Lemma activated_function c e t : forall p q s, activate c p = Ok q -> inside s q -> function_raises e t s -> exists s', inside s' p /\ function_raises e t s'.
Proof.
  assert (L : forall ps qs, mapM (activate c) ps = Ok qs -> forall q, In q qs -> exists p, In p ps /\ activate c p = Ok q).
  { induction ps as [|p ps IH]; intros qs M q Hq; cbn in M; [injection M as <-; destruct Hq|]. destruct (activate c p) as [q0|] eqn:E; [|discriminate]. cbn in M. destruct (mapM (activate c) ps) as [qs0|] eqn:M0; [|discriminate].
    cbn in M. injection M as <-. destruct Hq as [<-|Hq]; [exists p; split; [left; reflexivity|exact E]|]. destruct (IH qs0 eq_refl q Hq) as (p' & Hp & E'). exists p'. split; [right; exact Hp|exact E']. }
  intros p. induction p using predicate_rect'; intros q s E I F.
  - cbn in E. destruct (mapM (activate c) ps) as [qs|] eqn:M; [|discriminate]. injection E as <-. inversion I; subst; [destruct F|]. destruct (L ps qs M _ H1) as (p' & Hp & E'). rewrite Forall_forall in H.
    destruct (H p' Hp _ s E' H2 F) as (s' & I' & F'). exists s'. split; [econstructor; eassumption|exact F'].
  - cbn in E. destruct (mapM (activate c) ps) as [qs|] eqn:M; [|discriminate]. injection E as <-. inversion I; subst; [destruct F|]. destruct (L ps qs M _ H1) as (p' & Hp & E'). rewrite Forall_forall in H.
    destruct (H p' Hp _ s E' H2 F) as (s' & I' & F'). exists s'. split; [eapply inside_or; eassumption|exact F'].
  - cbn in E. destruct (activate c p) as [q0|] eqn:E0; [|discriminate]. injection E as <-. inversion I; subst; [destruct F|]. destruct (IHp q0 s eq_refl H0 F) as (s' & I' & F'). exists s'. split; [constructor; exact I'|exact F'].
  - destruct p; try contradiction; cbn in E;
      repeat match type of E with
      | bind ?x _ = _ => destruct x; cbn in E
      | (match ?x with _ => _ end) = _ => destruct x; cbn in E
      | Err _ = Ok _ => discriminate E
      end; try discriminate E; injection E as <-; inversion I; subst; try contradiction;
      (eexists; split; [apply inside_here|cbn; assumption]).
Qed.

(** ** A Parser on a text *)
Section Text.
  Variable U : unicode.
  Variable set_order : list str -> list str.
  Variable c : context.
  Hypothesis sets : set_iteration set_order.
  Variable rel : nat -> form -> form -> bool.
  Variable fuel : nat.
  Variable h : rule_heap.
  Variable root : nat.
  Hypothesis built0 : built h.
  Hypothesis mild0 : harmless h root.
  Hypothesis rule0 : is_rule_at h root.
  Notation pipe_bnf := (pipeline_as_bnf U set_order).

  (** A predicate of the rule, activated, or a word of a pipeline. *)
  Definition known_pred (q : predicate) : Prop :=
    (match q with PEq _ | PCaseless _ | PDictionary _ => True | _ => False end) \/
    exists x ts main p, RuleSpec.reach h root x /\ nth_error h x = Some (OProd ts main) /\ In (TPred p) ts /\ activate c p = Ok q.
  Lemma pipeline_words x b : pipe_bnf x = Ok b -> forall key ps, In (key, ps) (b_productions b) -> forall p, In p ps -> known_pred p.
  Proof.
    unfold pipeline_as_bnf. destruct (pipeline_productions U x) as [prods|] eqn:E; [|discriminate]. cbn [bind]. destruct (build_index _ _ _ _) as [i|]; [|discriminate]. cbn [bind]. intros H. injection H as <-. cbn.
    intros key ps Hin p Hp. left.
    destruct x; cbn in E; try discriminate; injection E as <-; apply in_map_iff in Hin as (k & Hk & _); injection Hk as _ <-; apply in_map_iff in Hp as (w & <- & _); exact Logic.I.
  Qed.
  Lemma grammar_preds g : parser_grammar U set_order c fuel h root = Some (Ok g) -> forall r q p, In q (g_prods g r) -> In (TPred p) (g_terms g q) -> known_pred p.
  Proof.
    intros made. destruct (built_parts U set_order c fuel h root g built0 mild0 rule0 made) as (r0 & h' & objects & H & Re & B & ->).
    unfold build_rule, parser_rule in H. unfold then_ at 1 in H. destruct (run_inplace _ fuel h root) as [[[r1 ha]|]|] eqn:E1; try discriminate.
    destruct (activate_ok (activate c) (activate_pipeline c) (pred_twice c) (pipe_twice c) fuel h root r1 ha E1) as [-> A].
    set (D := fun p => RuleSpec.reach ha root p \/ length ha <= p).
    destruct (active_rule_keeps pipe_bnf b_productions false false (fun _ => True) (fun _ => True) known_pred) with (D := D) (n0 := length ha) (fuel := fuel) (h := ha) (root := root) (r := r0) (h' := h') as [G Dr].
    - intros x b _ E. split; [exact Logic.I|]. intros key ps Hin. split; [discriminate|]. apply (pipeline_words x b E key ps Hin).
    - intros p Hp. right. exact Hp.
    - left. constructor.
    - split; [lia|]. intros p o [Rp|Lp] E; [|assert (p < length ha) by (apply nth_error_Some; congruence); lia]. split; [|intros d Hd; left; econstructor; eassumption].
      apply (activated_reach _ _ h ha root A) in Rp. destruct (activated_back _ _ h ha root A p o Rp E) as (o0 & E0 & K). inversion K; subst; cbn; auto.
      + split; [discriminate|]. intros q Hq. right. exists p, ts, main. revert Hq. match goal with F : Forall2 _ _ _ |- _ => revert F end. intros F Hq. assert (X : exists x, In (TPred x) ts /\ activate c x = Ok q).
        { clear - F Hq. induction F as [|t t' l l' K F IH]; [destruct Hq|]. destruct Hq as [->|Hq]; [inversion K; subst; eexists; split; [left; reflexivity|assumption]|]. destruct (IH Hq) as (x & Hx & Ex). exists x. split; [right; exact Hx|exact Ex]. }
        destruct X as (x & Hx & Ex). exists x. auto.
      + destruct (proj1 (built_mild h root built0 mild0 rule0) p Rp) as (o2 & E2 & Pl & _). rewrite E0 in E2. injection E2 as <-. destruct o; cbn in *; try discriminate; try contradiction; auto.
    - exact H.
    - assert (R : forall x o, RuleSpec.reach h' r0 x -> nth_error h' x = Some o -> simple false false (fun _ => True) (fun _ => True) known_pred o).
      { intros x o R E. apply (proj2 G) with (p := x); [|exact E]. clear - R G Dr. induction R as [p|p q oq d R IH Eq Hd]; [exact Dr|]. apply (proj2 (proj2 G q oq (IH Dr) Eq) d Hd). }
      intros r q p Hq Hp. cbn in Hq. destruct (is_in r objects) eqn:Ix; [|destruct Hq]. apply is_in_true in Ix. apply Re in Ix. destruct (nth_error h' r) as [o|] eqn:E; [|destruct Hq].
      assert (Hc : In q (children o)) by (destruct o; try contradiction; exact Hq). assert (Rq : RuleSpec.reach h' r0 q) by (econstructor; eassumption).
      cbn in Hp. destruct (nth_error h' q) as [oq|] eqn:Eq; [|destruct Hp]. specialize (R q oq Rq Eq). destruct oq; cbn in Hp; try contradiction.
      + apply (proj2 R p Hp).
      + apply in_map_iff in Hp as (p' & Ep & Hp'). injection Ep as ->. apply (proj2 R p Hp').
  Qed.
  Lemma known_raises q t e : usual_token U t -> raises (PredicateModel.call U) constrain q t e -> known_pred q -> rule_function_raises h root e t.
  Proof.
    intros T [R|[R N]]; [|assert (X := accepted_constrain U q t); unfold accepts in X; rewrite R in X; specialize (X eq_refl); congruence].
    intros [K|(x & ts & main & p & Rx & Ex & Hp & Ea)].
    - destruct (call_raises U q t e) as (s & I & F); [destruct q; try contradiction; exact Logic.I|exact T|exact R|]. destruct q; try contradiction; inversion I; subst; destruct F.
    - destruct (call_raises U q t e (activated_plain c p q Ea) T R) as (s & I & F). destruct (activated_function c e t p q s Ea I F) as (s' & I' & F'). exists x, ts, main, p, s'. auto.
  Qed.

  Variable text : str.
  Variable toks : list token.
  Hypothesis tokens0 : text_tokens c text = Some (Ok toks).
  Hypothesis usual0 : Forall (usual_token U) toks.
  Definition users_fault (e : exn) : Prop := exists t, In t toks /\ rule_function_raises h root e t.
  Lemma alarmed_fault g e : parser_grammar U set_order c fuel h root = Some (Ok g) -> alarmed (PredicateModel.call U) constrain g toks e -> users_fault e.
  Proof.
    intros made (k & t & p & T & (r & q & pre & post & i & ds & Q & Et & _) & R). exists t. apply nth_error_In in T. split; [exact T|]. rewrite Forall_forall in usual0.
    apply (known_raises p t e (usual0 t T) R). apply (grammar_preds g made r q p Q). rewrite Et. apply in_elt.
  Qed.
  Lemma with_same {A} (f f' : grammar token predicate -> list token -> option (res A)) :
    (forall g, parser_grammar U set_order c fuel h root = Some (Ok g) -> f g toks = f' g toks \/ exists e, alarmed (PredicateModel.call U) constrain g toks e /\ f g toks = Some (Err e)) ->
    with_parser U set_order c fuel h root text f = with_parser U set_order c fuel h root text f' \/ exists e, users_fault e /\ with_parser U set_order c fuel h root text f = Some (Err e).
  Proof.
    intros K. unfold with_parser. destruct (parser_grammar U set_order c fuel h root) as [[g|e]|] eqn:G; try (left; reflexivity).
    cbn [then_]. rewrite tokens0. cbn [then_]. destruct (K g eq_refl) as [E|(e & Al & E)]; [left; exact E|right; exists e; split; [apply (alarmed_fault g e G Al)|exact E]].
  Qed.
  Lemma grammar_sound g : parser_grammar U set_order c fuel h root = Some (Ok g) -> predict_sound g.
  Proof. intros made. apply (usable U set_order c sets fuel h root g built0 mild0 rule0 made). Qed.
  Theorem text_exceptions :
    (raising_findall U set_order c rel fuel h root text = parser_findall U set_order c rel fuel h root text \/ exists e, users_fault e /\ raising_findall U set_order c rel fuel h root text = Some (Err e)) /\
    (raising_find U set_order c rel fuel h root text = parser_find U set_order c rel fuel h root text \/ exists e, users_fault e /\ raising_find U set_order c rel fuel h root text = Some (Err e)) /\
    (raising_match U set_order c rel fuel h root text = parser_match U set_order c rel fuel h root text \/ exists e, users_fault e /\ raising_match U set_order c rel fuel h root text = Some (Err e)) /\
    forall all, (raising_extract U set_order c rel fuel h root text all = parser_extract U set_order c rel fuel h root text all \/ exists e, users_fault e /\ raising_extract U set_order c rel fuel h root text all = Some (Err e)).
  Proof.
    split; [|split; [|split; [|intros all]]]; apply with_same; intros g made; assert (P := grammar_sound g made); [apply rfindall_cases|apply rfind_cases|apply rmatch_cases|apply rextract_cases]; exact P.
  Qed.
End Text.
