(** The grammar of a Parser: activation, normalisation and conversion together. *)
From Verif Require Import Base TokenModel EarleyModel EarleySpec RuleModel RuleSpec RuleWords RuleLike RulePass RuleMethods RuleExpand RuleNormal RuleNormalized RuleOrder RuleBfs RuleBNF RuleForward RuleNames RuleAsBnf RuleAccept RuleGrammar RuleTrace RuleActivate RuleTransfer RuleRoot.
Open Scope nat_scope.

Section Parser.
  Context {pred pipe bnf : Type}.
  Notation obj := (obj pred pipe bnf).
  Notation heap := (heap pred pipe bnf).
  Variable pipe_bnf : pipe -> res bnf.
  Variable bnf_lines : bnf -> list (str * list pred).
  Variable accepts : pred -> token -> bool.
  Variable bnf_predict : bnf -> token -> list nat.
  Variable activate_pred : pred -> res pred.
  Variable activate_pipe : pipe -> res pipe.
  Hypothesis pred_twice : forall p q, activate_pred p = Ok q -> activate_pred q = Ok q.
  Hypothesis pipe_twice : forall x y, activate_pipe x = Ok y -> activate_pipe y = Ok y.
  Notation parser_rule := (parser_rule pipe_bnf bnf_lines activate_pred activate_pipe).
  Notation open_words kd := (open_words pipe_bnf bnf_lines kd).
  Notation activated_graph := (activated_graph activate_pred activate_pipe).

  (** A rule as a user can build it: well formed and without directly nested quantifiers;
      sub-rules are built before the rules they are part of, only forward rules may be
      defined later. *)
  Definition source (h : heap) (root : nat) : Prop :=
    graph plain is_quant h (reach h root) /\ ordered h /\ exists o, nth_error h root = Some o /\ is_prod o = false.

  Lemma source_activated h h' root : source h root -> activated_graph h h' root -> source h' root.
  Proof.
    intros (G & O & o & E & P) A. assert (L : root < length h) by (apply nth_error_Some; congruence). split; [apply (activated_source _ _ h h' root A G)|].
    split; [apply (activated_ordered _ _ h h' root A (reach_dec h root O L) O)|]. destruct (proj1 (proj2 A) root o (reach_refl h root) E) as (o' & E' & K).
    exists o'. split; [exact E'|]. destruct (activated_class _ _ o o' K) as (_ & _ & -> & _). exact P.
  Qed.

  Theorem parser_rule_ok fuel (h : heap) root r h' : source h root -> parser_rule fuel h root = Some (Ok (r, h')) ->
    exists ha rn hn h1 objects,
      activated_graph h ha root /\ source ha root /\ normalized fuel ha root = Some (Ok (rn, hn)) /\
      bnf_graph pipe_bnf bnf_lines false h' (reach h' r) /\ (exists o, nth_error h' r = Some o /\ is_bnf o = true) /\
      same (open_words KNone none ha root) (open_words KNone none h' r) /\
      (~ sole_child hn rn rn -> forall kd, kd <> KName -> same (open_words kd none ha root) (open_words kd none h' r)) /\
      h' = generate_names (bnf_rules h1 objects) 0 h1 /\ NoDup objects /\ (forall x, In x objects <-> reach h1 r x) /\ (exists rest, objects = r :: rest) /\ bnf_graph pipe_bnf bnf_lines false h1 (reach h1 r) /\
      (~ sole_child hn rn rn -> same (open_words KName none ha root) (open_words KName none h1 r)).
  Proof.
    intros S H. unfold RuleModel.parser_rule in H. apply then_ok in H as ((r1 & ha) & H1 & H). apply then_ok in H as ((rn & hn) & H2 & H3).
    destruct (activate_ok activate_pred activate_pipe pred_twice pipe_twice fuel h root r1 ha H1) as [-> A]. assert (Sa := source_activated h ha root S A).
    destruct Sa as (Ga & Oa & oa & Ea & Pa). assert (La : root < length ha) by (apply nth_error_Some; congruence).
    destruct (normalized_ok pipe_bnf bnf_lines fuel ha root (reach ha root) rn hn Ga (reach_refl ha root) H2) as (Gn & Ln & Pn & _).
    destruct (normalized_ordered fuel ha root rn hn Oa La H2) as (On & _ & _). destruct (Pn oa Ea) as (on & En & Kn).
    destruct (as_bnf_ok pipe_bnf bnf_lines fuel hn rn r h' Gn On) as (B & Br & W & Wk & h1 & objects & Eh & ND & Re & Hd & B1 & Wn); [exists on; split; congruence|exact H3|].
    exists ha, rn, hn, h1, objects. split; [exact A|]. split; [split; [exact Ga|split; [exact Oa|eauto]]|]. split; [exact H2|]. split; [exact B|]. split; [exact Br|].
    split; [eapply same_trans; [apply Ln|exact W]|]. split; [intros N kd K; eapply same_trans; [apply Ln|exact (Wk N kd K)]|].
    split; [exact Eh|]. split; [exact ND|]. split; [exact Re|]. split; [exact Hd|]. split; [exact B1|]. intros N. eapply same_trans; [apply Ln|exact (Wn N)].
  Qed.

  (** What the parser's grammar derives from tokens [i] to [j] is what the rule accepts. *)
  Hypothesis lines_active : forall x b key ps p, active_bnf pipe_bnf activate_pipe x = Ok b -> In (key, ps) (bnf_lines b) -> In p ps -> activate_pred p = Ok p.
  Theorem parser_accepts fuel (h : heap) root r h' toks i j : source h root -> parser_rule fuel h root = Some (Ok (r, h')) -> i <= length toks ->
    (exists d, derives accepts (grammar_of bnf_predict h' r) toks (TRule r) i j d) <->
    exists ts, segment toks i j ts /\ matches (active_bnf pipe_bnf activate_pipe) bnf_lines (accepts_active accepts activate_pred) h root ts.
  Proof.
    intros S H Li. destruct (parser_rule_ok fuel h root r h' S H) as (ha & rn & hn & h1 & objects & A & Sa & _ & B & (o & E & Bo) & W & _).
    eapply iff_trans; [apply (derives_words_iff pipe_bnf bnf_lines accepts bnf_predict KNone toks h' (reach h' r) r B r o i j (reach_refl h' r) E Bo Li)|].
    assert (M : forall ts, matches pipe_bnf bnf_lines accepts ha root ts <-> matches (active_bnf pipe_bnf activate_pipe) bnf_lines (accepts_active accepts activate_pred) h root ts).
    { intros ts. apply (activated_matches bnf_lines pipe_bnf accepts activate_pred activate_pipe lines_active h ha root A). intros x ox Rx Ex. destruct (proj1 S x Rx) as (o' & E' & P & _). congruence. }
    assert (N := matches_words pipe_bnf bnf_lines accepts KNone ha plain is_quant (reach ha root) (proj1 Sa) root).
    split.
    - intros (w & ts & Hw & Hs & K). exists ts. split; [exact Hs|]. apply M, (N ts (reach_refl ha root)). exists w. split; [apply W, Hw|exact K].
    - intros (ts & Hs & K). apply M, (N ts (reach_refl ha root)) in K as (w & Hw & K). exists w, ts. split; [apply W, Hw|]. auto.
  Qed.

  (** The root is a forward rule, or it is not a part of itself (and not a repetition
      bounded by one, which is replaced by the repeated rule). *)
  Lemma top_activated (h h' : heap) root : activated_graph h h' root -> top not_once h root -> top not_once h' root.
  Proof.
    intros A (o & E & T). destruct (proj1 (proj2 A) root o (reach_refl h root) E) as (o' & E' & K). exists o'. split; [exact E'|].
    destruct (activated_class _ _ o o' K) as (_ & _ & _ & _ & F). destruct T as [T|[N T]]; [left; congruence|].
    right. split; [inversion K; subst; try exact I; exact N|]. intros q oq R Eq. apply (activated_reach _ _ h h' root A q) in R.
    destruct (activated_back _ _ h h' root A q oq R Eq) as (o0 & E0 & K0). rewrite (activated_children _ _ _ _ K0). apply (T q o0 R E0).
  Qed.

  (** The derivations, read with the attributes of the rules they pass, are the words of the rule. *)
  Theorem parser_traces fuel (h : heap) root r h' toks i j kd w : source h root -> top not_once h root -> parser_rule fuel h root = Some (Ok (r, h')) ->
    i <= length toks -> kd <> KName ->
    exists ha, activated_graph h ha root /\
    ((exists d, derives accepts (grammar_of bnf_predict h' r) toks (TRule r) i j d /\ traced (grammar_of bnf_predict h' r) (shown_at kd h') d w) <->
     open_words kd none ha root w /\ exists ts, segment toks i j ts /\ one_by_one accepts (predicates w) ts).
  Proof.
    intros S T H Li K. destruct (parser_rule_ok fuel h root r h' S H) as (ha & rn & hn & h1 & objects & A & (Ga & Oa & Ra) & Hn & B & (o & E & Bo) & _ & W & _).
    exists ha. split; [exact A|]. assert (N := top_not_sole hn rn (normalized_top pipe_bnf bnf_lines fuel ha root rn hn Ga Oa Ra (top_activated h ha root A T) Hn)).
    eapply iff_trans; [apply (traced_words pipe_bnf bnf_lines accepts bnf_predict kd toks h' (reach h' r) r B r o i j w (reach_refl h' r) E Bo Li)|].
    split; intros [Hw Q]; (split; [apply (W N kd K), Hw|exact Q]).
  Qed.

  (** The same for names, the generated ones left out. *)
  Lemma renamed_grammar (h h' : heap) r : renamed_heap h h' ->
    (forall x, g_prods (grammar_of bnf_predict h' r) x = g_prods (grammar_of bnf_predict h r) x) /\
    (forall x, g_terms (grammar_of bnf_predict h' r) x = g_terms (grammar_of bnf_predict h r) x) /\
    (forall x, g_main (grammar_of bnf_predict h' r) x = g_main (grammar_of bnf_predict h r) x) /\
    (forall x, g_key (grammar_of bnf_predict h' r) x = g_key (grammar_of bnf_predict h r) x).
  Proof.
    intros R. assert (K : forall x, (nth_error h x = None /\ nth_error h' x = None) \/ exists o f, nth_error h x = Some o /\ nth_error h' x = Some (update_attributes f o)).
    { intros x. destruct (nth_error h x) as [o|] eqn:E; [right|left].
      - destruct (proj2 R x o E) as (o' & E' & f & -> & _). eauto.
      - split; [reflexivity|]. apply nth_error_None. rewrite (proj1 R). apply nth_error_None, E. }
    repeat split; intros x; cbn; destruct (K x) as [[-> ->]|(o & f & -> & ->)]; try reflexivity; destruct o; reflexivity.
  Qed.
  Section Agree.
    Variables g g' : grammar token pred.
    Hypothesis prods : forall x, g_prods g' x = g_prods g x.
    Hypothesis terms : forall x, g_terms g' x = g_terms g x.
    Hypothesis mains : forall x, g_main g' x = g_main g x.
    Hypothesis keys : forall x, g_key g' x = g_key g x.
    Lemma derives_agree toks : (forall t i j d, derives accepts g toks t i j d -> derives accepts g' toks t i j d) /\
      (forall ts i j ds, derives_seq accepts g toks ts i j ds -> derives_seq accepts g' toks ts i j ds).
    Proof.
      apply (derives_mutind _ _ accepts g toks (fun t i j d => derives accepts g' toks t i j d) (fun ts i j ds => derives_seq accepts g' toks ts i j ds)); intros.
      - econstructor; eassumption.
      - constructor; [rewrite prods; assumption|]. rewrite terms. assumption.
      - constructor.
      - econstructor; eassumption.
    Qed.
    Lemma traced_agree sh d w : traced g sh d w -> traced g' sh d w.
    Proof.
      revert d w. fix IH 3. intros d w T. destruct T as [i p|r q i ds w E T]; [constructor|]. rewrite <- (keys q), <- (prods r). econstructor; [rewrite prods; exact E|]. rewrite mains.
      revert T. generalize (g_main g q) as m, 0 as k, w. clear E w. revert ds. fix IHs 5. intros ds m k w T. destruct T as [m k|m k d ds u w T1 T2]; [constructor|].
      constructor; [apply IH, T1|apply IHs, T2].
    Qed.
  End Agree.

  (** [names]: the names given by the user; [rest]: the rules without one, in the order
      of the walk. *)
  Theorem parser_names fuel (h : heap) root r h' : source h root -> parser_rule fuel h root = Some (Ok (r, h')) ->
    exists ha (names : nat -> option str) rest,
    activated_graph h ha root /\
    (forall x n, names x = Some n -> n <> [] /\ name_of h' x = Some n) /\
    NoDup rest /\ (forall x, In x rest <-> reach h' r x /\ (exists o, nth_error h' x = Some o /\ is_bnf o = true) /\ names x = None) /\
    (forall i x, nth_error rest i = Some x -> name_of h' x = Some (generated_name i)) /\
    (top not_once h root -> forall toks i j w, i <= length toks ->
     (exists d, derives accepts (grammar_of bnf_predict h' r) toks (TRule r) i j d /\
        traced (grammar_of bnf_predict h' r) (fun x => option_map AName (names x)) d w) <->
     open_words KName none ha root w /\ exists ts, segment toks i j ts /\ one_by_one accepts (predicates w) ts).
  Proof.
    intros S H. destruct (parser_rule_ok fuel h root r h' S H) as (ha & rn & hn & h1 & objects & A & (Ga & Oa & Ra) & Hn & B & (o & E & Bo) & _ & _ & Eh & ND & Re & _ & B1 & Wn).
    assert (Rn := generate_renamed (bnf_rules h1 objects) 0 h1). rewrite <- Eh in Rn.
    assert (NDr : NoDup (bnf_rules h1 objects)) by (apply NoDup_filter, ND).
    destruct (generate_names_ok (bnf_rules h1 objects) 0 h1 NDr) as [Gn Gk]. rewrite <- Eh in Gn, Gk.
    set (names := fun x => match name_of h1 x with Some (c :: s) => Some (c :: s) | _ => None end).
    assert (U : forall x o, nth_error h1 x = Some o -> is_bnf o = true -> unnamed h1 x = match names x with Some _ => false | None => true end).
    { intros x ox Ex Bx. unfold unnamed, names, name_of, attributes_of. rewrite Ex. destruct ox; try discriminate; cbn; unfold has_name; destruct (a_name a) as [[|c s]|]; reflexivity. }
    exists ha, names, (filter (unnamed h1) (bnf_rules h1 objects)). split; [exact A|]. split; [|split; [|split; [|split]]].
    - intros x n Hx. unfold names in Hx. destruct (name_of h1 x) as [[|c s]|] eqn:Nx; try discriminate. injection Hx as <-. split; [discriminate|]. rewrite Gk; [exact Nx|].
      unfold unnamed, name_of, attributes_of in *. destruct (nth_error h1 x) as [ox|]; [|reflexivity]. destruct (get_attributes ox) as [a|]; [|reflexivity]. unfold has_name. rewrite Nx. reflexivity.
    - apply NoDup_filter, NDr.
    - intros x. rewrite filter_In. unfold bnf_rules at 1. rewrite filter_In, Re, (renamed_reach h1 h' r x Rn). split.
      + intros ((R & Bx) & Ux). destruct (nth_error h1 x) as [ox|] eqn:Ex; [|discriminate]. rewrite (U x ox Ex Bx) in Ux. destruct (proj2 Rn x ox Ex) as (o' & E' & Ro).
        split; [exact R|]. split; [exists o'; split; [exact E'|]; rewrite (proj2 (renamed_children _ _ Ro)); exact Bx|]. destruct (names x); [discriminate|reflexivity].
      + intros (R & (o' & E' & Bx) & Nx). destruct (renamed_back h1 h' x o' Rn E') as (ox & Ex & Ro). rewrite Ex. rewrite (proj2 (renamed_children _ _ Ro)) in Bx.
        split; [split; assumption|]. rewrite (U x ox Ex Bx), Nx. reflexivity.
    - intros i x Ex. apply (Gn i x Ex).
    - intros T toks i j w Li.
      assert (N := top_not_sole hn rn (normalized_top pipe_bnf bnf_lines fuel ha root rn hn Ga Oa Ra (top_activated h ha root A T) Hn)).
      destruct (renamed_back h1 h' r o Rn E) as (o1 & E1 & Ro). assert (Bo1 : is_bnf o1 = true) by (rewrite <- (proj2 (renamed_children _ _ Ro)); exact Bo).
      assert (Tw := traced_words pipe_bnf bnf_lines accepts bnf_predict KName toks h1 (reach h1 r) r B1 r o1 i j w (reach_refl h1 r) E1 Bo1 Li).
      destruct (renamed_grammar h1 h' r Rn) as (A1 & A2 & A3 & A4).
      assert (Sh : forall x, option_map AName (names x) = shown_at KName h1 x).
      { intros x. unfold names, name_of, attributes_of, shown_at. destruct (nth_error h1 x) as [ox|]; [|reflexivity]. destruct (get_attributes ox) as [a|]; [|reflexivity].
        cbn. destruct (a_name a) as [[|c s]|]; reflexivity. }
      assert (Se : forall g d w, traced (token := token) (pred := pred) g (fun x => option_map AName (names x)) d w <-> traced g (shown_at KName h1) d w).
      { intros g. assert (Ex : forall f f' : nat -> option attribute, (forall x, f x = f' x) -> forall d w, traced (token := token) (pred := pred) g f d w -> traced g f' d w).
        { intros f f' Ef. fix IH 3. intros d0 w0 T0. destruct T0 as [i0 p|r0 q i0 ds w0 E0 T0]; [constructor|]. rewrite Ef. econstructor; [exact E0|].
          revert T0. generalize (g_main g q) as m, 0 as k. clear E0. revert ds w0. fix IHs 5. intros ds w0 m k T0. destruct T0 as [m k|m k d1 ds u w1 T1 T2]; [constructor|].
          constructor; [apply IH, T1|apply IHs, T2]. }
        intros d0 w0. split; apply Ex; intros x; [apply Sh|symmetry; apply Sh]. }
      eapply iff_trans; [|eapply iff_trans; [exact Tw|]].
      + split; intros (d & D & Q); exists d.
        * split; [apply (proj1 (derives_agree _ _ (fun x => eq_sym (A1 x)) (fun x => eq_sym (A2 x)) toks)), D|]. apply Se in Q.
          apply (traced_agree _ _ (fun x => eq_sym (A1 x)) (fun x => eq_sym (A3 x)) (fun x => eq_sym (A4 x)) _ d w Q).
        * split; [apply (proj1 (derives_agree _ _ A1 A2 toks)), D|]. apply Se. apply (traced_agree _ _ A1 A3 A4 _ d w Q).
      + split; intros [Hw Q]; (split; [apply (Wn N), Hw|exact Q]).
  Qed.
End Parser.
