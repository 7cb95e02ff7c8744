(** The grammar of a parser, for rules with harmless nested quantifiers. *)
From Verif Require Import Base TokenModel EarleyModel EarleySpec ParserModel ParserSpec PredicateModel PredicateProofs PipelineModel PipelineSpec
  RuleModel RuleSpec RuleBuild RuleNestSpec RuleWords RuleLike RulePass RuleMethods RuleExpand RuleNormal RuleNormalized RuleOrder RuleBfs RuleBNF RuleForward RuleNames RuleAsBnf RuleAccept RuleGrammar RuleTrace RuleActivate RuleTransfer RuleParser
  RuleOpen RuleSquash RuleBuilt GrammarModel GrammarSpec GrammarProofs.
Open Scope nat_scope.

Section Mild.
  Context {pred pipe bnf : Type}.
  Notation obj := (obj pred pipe bnf).
  Notation heap := (heap pred pipe bnf).
  Variable pipe_bnf : pipe -> res bnf.
  Variable bnf_lines : bnf -> list (str * list pred).
  Notation closed kd := (closed pipe_bnf bnf_lines kd).
  Notation open_words kd := (open_words pipe_bnf bnf_lines kd).

  Theorem normalized_mild fuel (h : heap) root (G : nat -> Prop) r h' :
    graph plain nothing h G -> G root -> (forall p, G p -> mild h p) -> normalized fuel h root = Some (Ok (r, h')) ->
    graph no_empty nothing h' (reach h' r) /\
    (forall kd, same (closed kd h root) (closed kd h' r)) /\
    (forall o, nth_error h root = Some o -> exists o', nth_error h' r = Some o' /\ is_prod o' = is_prod o).
  Proof.
    intros Gr Gp Mi H. unfold normalized in H.
    apply then_ok in H as ((r1 & h1) & H1 & H). apply then_ok in H as ((r2 & h2) & H2 & H).
    apply then_ok in H as ((r3 & h3) & H3 & H). apply then_ok in H as ((r4 & h4) & H4 & H5).
    destruct (squash_pass pipe_bnf bnf_lines fuel h root G r1 h1 Gr Gp Mi H1) as (G1 & L1 & _ & _ & P1).
    destruct (pass_ok pipe_bnf bnf_lines plain no_quant nothing no_quant_plain (fun _ => eq_refl) (fun _ => eq_refl) _ (replace_extended_ok pipe_bnf bnf_lines) fuel h1 r1
      (reach h1 r1) r2 h2 G1 (reach_refl h1 r1) H2) as (G2 & L2 & _ & _ & P2).
    destruct (pass_ok pipe_bnf bnf_lines no_quant no_or nothing no_or_quant (fun _ => eq_refl) (fun _ => eq_refl) _ (replace_or_ok pipe_bnf bnf_lines) fuel h2 r2
      (reach h2 r2) r3 h3 G2 (reach_refl h2 r2) H3) as (G3 & L3 & _ & _ & P3).
    destruct (pass_ok pipe_bnf bnf_lines no_or no_empty nothing no_empty_or (fun _ => eq_refl) (fun _ => eq_refl) _ (replace_empty_ok pipe_bnf bnf_lines) fuel h3 r3
      (reach h3 r3) r4 h4 G3 (reach_refl h3 r3) H4) as (G4 & L4 & _ & _ & P4).
    destruct (pass_ok pipe_bnf bnf_lines no_empty no_empty nothing (fun _ e => e) (fun _ => eq_refl) (fun _ => eq_refl) _ (fun n0 G => flatten_ok pipe_bnf bnf_lines n0 G fuel) fuel h4 r4
      (reach h4 r4) r h' G4 (reach_refl h4 r4) H5) as (G5 & L5 & _ & _ & P5).
    split; [exact G5|]. split.
    { intros kd. eapply same_trans; [apply L1|].
      assert (L : like2 pipe_bnf bnf_lines none h1 r1 none h' r) by (eapply like2_trans; [exact L2|]; eapply like2_trans; [exact L3|]; eapply like2_trans; [exact L4|exact L5]).
      intros w. split; apply erased_mono; intros u; apply (proj1 L kd). }
    intros o E. destruct (P1 o E) as (o1 & E1 & Q1). destruct (P2 o1 E1) as (o2 & E2 & Q2). destruct (P3 o2 E2) as (o3 & E3 & Q3).
    destruct (P4 o3 E3) as (o4 & E4 & Q4). destruct (P5 o4 E4) as (o5 & E5 & Q5). exists o5. split; [exact E5|congruence].
  Qed.

  (** As [source], with nested quantifiers that do no harm. *)
  Definition mild_source (h : heap) (root : nat) : Prop :=
    graph plain nothing h (reach h root) /\ ordered h /\ harmless h root /\ exists o, nth_error h root = Some o /\ is_prod o = false.
  Lemma same_quant (o : obj) : is_quant o = quantifier o. Proof. destruct o; reflexivity. Qed.
  Lemma source_mild h root : source h root -> mild_source h root.
  Proof.
    intros (G & O & R). split; [apply (graph_nothing _ _ _ _ G)|]. split; [exact O|]. split; [|exact R].
    intros p Rp. destruct (G p Rp) as (o & E & P & _ & C). apply (flat_mild h p o E). intros Q. destruct (quant_plain o Q) as (_ & _ & _ & _ & c & Ch).
    destruct (C c) as (_ & oc & Ec & _ & K); [rewrite Ch; left; reflexivity|]. exists c, oc. split; [exact Ch|]. split; [exact Ec|]. rewrite <- same_quant. apply K. rewrite same_quant. exact Q.
  Qed.

  Variable accepts : pred -> token -> bool.
  Variable bnf_predict : bnf -> token -> list nat.
  Variable activate_pred : pred -> res pred.
  Variable activate_pipe : pipe -> res pipe.
  Hypothesis pred_twice : forall p q, activate_pred p = Ok q -> activate_pred q = Ok q.
  Hypothesis pipe_twice : forall x y, activate_pipe x = Ok y -> activate_pipe y = Ok y.
  Notation parser_rule := (parser_rule pipe_bnf bnf_lines activate_pred activate_pipe).
  Notation activated_graph := (activated_graph activate_pred activate_pipe).

  Lemma activated_plain_graph (h h' : heap) root : activated_graph h h' root -> graph plain nothing h (reach h root) -> graph plain nothing h' (reach h' root).
  Proof.
    intros A G x R'. assert (R := proj2 (activated_reach _ _ h h' root A x) R'). destruct (G x R) as (o & E & P & S & C). destruct (proj1 (proj2 A) x o R E) as (o' & E' & K).
    destruct (activated_class _ _ o o' K) as (Kp & Kq & _ & Kh & _). exists o'. split; [exact E'|]. split; [congruence|]. split; [apply (activated_shape _ _ o o' K S)|].
    rewrite (activated_children _ _ o o' K). intros c Hc. destruct (C c Hc) as (Rc & oc & Ec & Pc & Sc). destruct (proj1 (proj2 A) c oc Rc Ec) as (oc' & Ec' & Kc).
    destruct (activated_class _ _ oc oc' Kc) as (_ & Kcq & Kcp & _ & _). split; [apply (activated_reach _ _ h h' root A), Rc|]. exists oc'. split; [exact Ec'|]. split; [congruence|discriminate].
  Qed.
  Lemma activated_mild (h h' : heap) root : activated_graph h h' root -> (forall x, reach h root x \/ ~ reach h root x) -> forall p, mild h p -> mild h' p.
  Proof.
    intros A D p. apply mild_map. intros x o E. destruct (D x) as [R|N].
    - destruct (proj1 (proj2 A) x o R E) as (o' & E' & K). destruct (quantifier o) eqn:Q.
      + assert (o' = o) as <- by (inversion K; subst; try discriminate; reflexivity). exact E'.
      + exists o'. split; [exact E'|]. rewrite <- same_quant, (proj1 (proj2 (activated_class _ _ o o' K))), same_quant. exact Q.
    - rewrite <- (proj2 (proj2 A) x N) in E. destruct (quantifier o) eqn:Q; eauto.
  Qed.
  Lemma mild_source_activated h h' root : mild_source h root -> activated_graph h h' root -> mild_source h' root.
  Proof.
    intros (G & O & Mi & o & E & P) A. assert (L : root < length h) by (apply nth_error_Some; congruence). assert (D := reach_dec h root O L). split; [apply (activated_plain_graph h h' root A G)|].
    split; [apply (activated_ordered _ _ h h' root A D O)|]. split; [intros p R; apply (activated_mild h h' root A D), Mi, (activated_reach _ _ h h' root A), R|].
    destruct (proj1 (proj2 A) root o (reach_refl h root) E) as (o' & E' & K).
    exists o'. split; [exact E'|]. destruct (activated_class _ _ o o' K) as (_ & _ & -> & _). exact P.
  Qed.

  Theorem parser_rule_mild fuel (h : heap) root r h' : mild_source h root -> parser_rule fuel h root = Some (Ok (r, h')) ->
    exists ha rn hn, activated_graph h ha root /\ mild_source ha root /\ normalized fuel ha root = Some (Ok (rn, hn)) /\
      bnf_graph pipe_bnf bnf_lines false h' (reach h' r) /\ (exists o, nth_error h' r = Some o /\ is_bnf o = true) /\
      same (closed KNone ha root) (closed KNone h' r) /\
      (~ sole_child hn rn rn -> forall kd, kd <> KName -> same (closed kd ha root) (closed kd h' r)).
  Proof.
    intros S H. unfold RuleModel.parser_rule in H. apply then_ok in H as ((r1 & ha) & H1 & H). apply then_ok in H as ((rn & hn) & H2 & H3).
    destruct (activate_ok activate_pred activate_pipe pred_twice pipe_twice fuel h root r1 ha H1) as [-> A]. assert (Sa := mild_source_activated h ha root S A).
    destruct Sa as (Ga & Oa & Ma & oa & Ea & Pa). assert (La : root < length ha) by (apply nth_error_Some; congruence).
    destruct (normalized_mild fuel ha root (reach ha root) rn hn Ga (reach_refl ha root) Ma H2) as (Gn & Ln & Pn).
    destruct (normalized_ordered fuel ha root rn hn Oa La H2) as (On & _ & _). destruct (Pn oa Ea) as (on & En & Kn).
    destruct (as_bnf_ok pipe_bnf bnf_lines fuel hn rn r h' Gn On) as (B & Br & W & Wk & _); [exists on; split; congruence|exact H3|].
    exists ha, rn, hn. split; [exact A|]. split; [split; [exact Ga|split; [exact Oa|split; [exact Ma|eauto]]]|]. split; [exact H2|]. split; [exact B|]. split; [exact Br|]. split.
    - eapply same_trans; [apply Ln|]. intros w. split; apply erased_mono; intros u; apply W.
    - intros N kd K. eapply same_trans; [apply Ln|]. intros w. split; apply erased_mono; intros u; apply (Wk N kd K).
  Qed.

  Lemma erase_predicates (w : word (pred := pred)) : predicates (erase w) = predicates w.
  Proof. induction w as [|s w IH]; [reflexivity|]. unfold erase, predicates in *. destruct s; cbn; rewrite ?IH; reflexivity. Qed.

  Hypothesis lines_active : forall x b key ps p, active_bnf pipe_bnf activate_pipe x = Ok b -> In (key, ps) (bnf_lines b) -> In p ps -> activate_pred p = Ok p.
  Theorem parser_accepts_mild fuel (h : heap) root r h' toks i j : mild_source h root -> parser_rule fuel h root = Some (Ok (r, h')) -> i <= length toks ->
    (exists d, derives accepts (grammar_of bnf_predict h' r) toks (TRule r) i j d) <->
    exists ts, segment toks i j ts /\ matches (active_bnf pipe_bnf activate_pipe) bnf_lines (accepts_active accepts activate_pred) h root ts.
  Proof.
    intros S H Li. destruct (parser_rule_mild fuel h root r h' S H) as (ha & rn & hn & A & Sa & _ & B & (o & E & Bo) & W & _).
    eapply iff_trans; [apply (derives_words_iff pipe_bnf bnf_lines accepts bnf_predict KNone toks h' (reach h' r) r B r o i j (reach_refl h' r) E Bo Li)|].
    assert (M : forall ts, matches pipe_bnf bnf_lines accepts ha root ts <-> matches (active_bnf pipe_bnf activate_pipe) bnf_lines (accepts_active accepts activate_pred) h root ts).
    { intros ts. apply (activated_matches bnf_lines pipe_bnf accepts activate_pred activate_pipe lines_active h ha root A). intros x ox Rx Ex. destruct (proj1 S x Rx) as (o' & E' & P & _). congruence. }
    assert (N := matches_words pipe_bnf bnf_lines accepts KNone ha plain nothing (reach ha root) (proj1 Sa) root).
    split.
    - intros (w & ts & Hw & Hs & K). exists ts. split; [exact Hs|]. apply M, (N ts (reach_refl ha root)).
      destruct (proj2 (W (erase w))) as (u & Hu & Eu); [exists w; split; [exact Hw|reflexivity]|]. exists u. split; [exact Hu|]. rewrite <- erase_predicates, <- Eu, erase_predicates. exact K.
    - intros (ts & Hs & K). apply M, (N ts (reach_refl ha root)) in K as (w & Hw & K).
      destruct (proj1 (W (erase w))) as (u & Hu & Eu); [exists w; split; [exact Hw|reflexivity]|]. exists u, ts. split; [exact Hu|]. split; [exact Hs|]. rewrite <- erase_predicates, <- Eu, erase_predicates. exact K.
  Qed.

  Lemma built_mild (h : heap) root : built h -> harmless h root -> is_rule_at h root -> mild_source h root.
  Proof.
    intros B F R. apply built_sound in B. apply is_rule_prod in R as (o & E & P). assert (O : ordered h).
    { intros p x c Ex Hc. destruct (B p x Ex) as (_ & _ & C). destruct (C c Hc) as (oc & Ec & _ & L). split; [apply nth_error_Some; congruence|exact L]. }
    split; [|split; [exact O|split; [exact F|eauto]]].
    intros p Rp. assert (exists x, nth_error h p = Some x) as (x & Ex).
    { clear F. destruct Rp as [|root p y c Rp Ey Hc]; [eauto|]. destruct (B p y Ey) as (_ & _ & C). destruct (C c Hc) as (oc & Ec & _). eauto. }
    exists x. split; [exact Ex|]. destruct (B p x Ex) as (A & Sh & C). split; [exact A|]. split; [exact Sh|]. intros c Hc. split; [apply (reach_step h root p x c Rp Ex Hc)|].
    destruct (C c Hc) as (oc & Ec & Pc & _). exists oc. split; [exact Ec|]. split; [exact Pc|discriminate].
  Qed.
  Lemma flat_harmless (h : heap) root : built h -> flat h root -> is_rule_at h root -> harmless h root.
  Proof. intros B F R. apply source_mild, built_source; assumption. Qed.
End Mild.

Section Grammar.
  Variable U : unicode.
  Variable set_order : list str -> list str.
  Variable c : context.
  Notation pipe_bnf := (pipeline_as_bnf U set_order).
  Theorem parser_grammar_mild fuel (h : rule_heap) root g : set_iteration set_order -> mild_source h root -> parser_grammar U set_order c fuel h root = Some (Ok g) ->
    (exists rules, finite_grammar g rules) /\ predict_sound g /\ predict_complete (accepts U) g /\
    forall toks i j, i <= length toks -> (grammar_accepts U g toks i j <-> rule_accepts U set_order c h root toks i j).
  Proof.
    intros Se S H. unfold parser_grammar in H. apply then_ok in H as ((r & h') & H & Hb). destruct (bfs fuel h' r) as [objects|] eqn:Bf; [|discriminate]. injection Hb as <-.
    destruct (bfs_ok h' fuel r objects Bf) as (_ & Re & _).
    destruct (parser_rule_mild pipe_bnf b_productions (activate c) (activate_pipeline c) (pred_twice c) (pipe_twice c) fuel h root r h' S H) as (ha & rn & hn & _ & _ & _ & B & _).
    split; [exists objects; apply (finite0 U set_order h' r objects Re)|]. split; [apply sound0|]. split; [apply (complete0 U set_order h' r objects Re B Se)|].
    intros toks i j Li. eapply iff_trans; [|apply (parser_accepts_mild pipe_bnf b_productions (accepts U) (pipeline_predict U set_order) (activate c) (activate_pipeline c) (pred_twice c) (pipe_twice c)
      (lines_active U set_order c) fuel h root r h' toks i j S H Li)].
    split; intros (d & D); exists d.
    - apply (restrict_sound (accepts U) _ objects toks) in D. exact D.
    - apply (restrict_complete (accepts U) _ objects (objects_closed U set_order h' r objects Re) toks); [exact D|]. intros x Ex. injection Ex as <-. apply Re. constructor.
  Qed.
End Grammar.

(** ** Parts of harmless rules *)
Section Parts.
  Context {pred pipe bnf : Type}.
  Notation heap := (heap pred pipe bnf).
  Lemma mild_agree (h h' : heap) (G : nat -> Prop) : (forall x o c, G x -> nth_error h x = Some o -> In c (children o) -> G c) ->
    (forall x, G x -> nth_error h' x = nth_error h x) -> forall p, G p -> mild h p -> mild h' p.
  Proof.
    intros C E.
    assert (S : forall sort p, G p -> stack sort h p -> stack sort h' p).
    { intros sort p Gp S. induction S as [p o Eo Q|p o c Eo So Ch S IH].
      - apply (stack_end sort h' p o); [rewrite E; assumption|exact Q].
      - apply (stack_more sort h' p o c); [rewrite E; assumption|exact So|exact Ch|]. apply IH. apply (C p o c Gp Eo). rewrite Ch. left. reflexivity. }
    intros p Gp M. induction M as [p K|p K|p r rev Eo M IH]; [apply mild_loose, S; assumption|apply mild_bounded, S; assumption|].
    apply (mild_optional h' p r rev); [rewrite E; assumption|]. apply IH. apply (C p _ r Gp Eo). left. reflexivity.
  Qed.
  Lemma reach_app (h t : heap) r x : reach h r x -> reach (h ++ t) r x.
  Proof. intros R. induction R as [p|p q o c R IH E Hc]; [constructor|]. econstructor; [exact IH|apply nth_old, E|exact Hc]. Qed.
  Lemma reach_more (h : heap) a b d : reach h a b -> reach h b d -> reach h a d.
  Proof. intros R1 R2. induction R2 as [|p q o e R2 IH E He]; [exact R1|]. econstructor; [apply IH, R1|exact E|exact He]. Qed.
  Lemma reach_some (h : heap) r x : built h -> is_rule_at h r -> reach h r x -> exists o, nth_error h x = Some o /\ plain o = true.
  Proof.
    intros B R K. apply built_sound in B. apply is_rule_prod in R as (o & E & _). assert (exists y, nth_error h x = Some y) as (y & Ey).
    { destruct K as [|r x y c K Ey Hc]; [eauto|]. destruct (B x y Ey) as (_ & _ & C). destruct (C c Hc) as (oc & Ec & _). eauto. }
    exists y. split; [exact Ey|apply (B x y Ey)].
  Qed.
  Lemma reach_old (h t : heap) r x : built h -> is_rule_at h r -> reach h r x -> nth_error (h ++ t) x = nth_error h x.
  Proof. intros B R K. destruct (reach_some h r x B R K) as (o & E & _). rewrite E. apply nth_old, E. Qed.
  Lemma harmless_part (h t : heap) root r : built h -> is_rule_at h r -> reach (h ++ t) root r -> harmless (h ++ t) root -> harmless h r.
  Proof.
    intros B R K H p Rp. apply (mild_agree (h ++ t) h (reach h r)); [| |exact Rp|].
    - intros x o c Rx E Hc. rewrite (reach_old h t r x B R Rx) in E. econstructor; eassumption.
    - intros x Rx. symmetry. apply (reach_old h t r x B R Rx).
    - apply H. apply (reach_more _ _ r); [exact K|]. apply reach_app, Rp.
  Qed.
  Lemma harmless_wrapped (h : heap) r o : built h -> is_rule_at h r -> In r (children o) -> harmless (h ++ [o]) (length h) -> harmless h r.
  Proof. intros B R C. apply (harmless_part h [o] (length h) r B R). econstructor; [constructor|apply nth_new|exact C]. Qed.
  (** A rule made of harmless ones. *)
  Lemma harmless_new (h : heap) o : built h -> (forall r, In r (children o) -> is_rule_at h r /\ harmless h r) ->
    (quantifier o = true -> forall r x, In r (children o) -> nth_error h r = Some x -> quantifier x = false) -> harmless (h ++ [o]) (length h).
  Proof.
    intros B C Q p R. assert (K : p = length h \/ exists r, In r (children o) /\ reach h r p).
    { remember (length h) as root eqn:Er. induction R as [p|p q oq d R IH E Hd]; [left; reflexivity|]. subst p. right. destruct (IH eq_refl) as [->|(r & Hr & Rr)].
      - rewrite nth_new in E. injection E as <-. exists d. split; [exact Hd|constructor].
      - rewrite (reach_old h [o] r q B (proj1 (C r Hr)) Rr) in E. exists r. split; [exact Hr|]. econstructor; eassumption. }
    destruct K as [->|(r & Hr & Rr)].
    - apply (flat_mild _ _ o (nth_new h o [])). intros Qo. destruct (quant_plain o Qo) as (_ & _ & _ & _ & c & Ch). assert (Hc : In c (children o)) by (rewrite Ch; left; reflexivity).
      destruct (reach_some h c c B (proj1 (C c Hc)) (reach_refl h c)) as (x & Ex & _). exists c, x. split; [exact Ch|]. split; [apply nth_old, Ex|apply (Q Qo c x Hc Ex)].
    - apply (mild_agree h (h ++ [o]) (reach h r)); [| |exact Rr|apply (proj2 (C r Hr) p Rr)].
      + intros x ox c Rx E Hc. econstructor; eassumption.
      + intros x Rx. apply (reach_old h [o] r x B (proj1 (C r Hr)) Rx).
  Qed.
End Parts.
