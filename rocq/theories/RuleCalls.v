(** What the rule returned by a call accepts. *)
From Verif Require Import Base SpanProofs TokenModel EarleyModel EarleySpec PredicateModel PredicateProofs PipelineModel PipelineSpec PipelineProofs
  RuleModel RuleSpec RuleWords RuleLike RulePass RuleMethods RuleOrder RuleBfs RuleKeep RuleAccept RuleGrammar RuleTrace RuleActivate RuleTransfer RuleParser RuleBuild RuleBuilt GrammarModel GrammarSpec GrammarProofs RuleNestSpec RuleMild RuleTheorems
  RuleCallSpec.
Open Scope nat_scope.

Section Calls.
  Variable U : unicode.
  Variable set_order : list str -> list str.
  Variable c : context.
  Hypothesis sets : set_iteration set_order.
  Notation pipe_bnf := (active_bnf (pipeline_as_bnf U set_order) (activate_pipeline c)).
  Notation acc := (accepts_active (accepts U) (activate c)).
  Notation matches := (matches pipe_bnf b_productions acc).
  Notation repeats := (repeats pipe_bnf b_productions acc).
  Notation in_sequence := (in_sequence pipe_bnf b_productions acc).
  Notation rule_accepts := (rule_accepts U set_order c).
  Notation parser_grammar := (parser_grammar U set_order c).
  Notation call_accepts := (call_accepts U c).

  (** Objects added to the heap; they are made of the rules [rs]. *)
  Section Added.
    Variable h : rule_heap.
    Variable rs : list nat.
    Variable new_ones : rule_heap.
    Hypothesis built0 : built h.
    Hypothesis rule0 : forall r, In r rs -> is_rule_at h r.
    Let h1 := h ++ new_ones.
    Let G x := exists r, In r rs /\ reach h r x.
    Lemma G_old x : G x -> exists o, nth_error h x = Some o /\ plain o = true.
    Proof. intros (r & Hr & R). apply (reach_some h r x built0 (rule0 r Hr) R). Qed.
    Lemma added_old x : G x -> nth_error h1 x = nth_error h x.
    Proof. intros Gx. destruct (G_old x Gx) as (o & E & _). apply nth_error_app1. apply nth_error_Some. congruence. Qed.
    Lemma added_matches r ts : In r rs -> matches h1 r ts <-> matches h r ts.
    Proof.
      intros Hr. symmetry. apply (matches_agree U set_order c h h1 G); auto.
      - intros x ox d (r' & Hr' & Rx) E Hd. exists r'. split; [exact Hr'|]. econstructor; eassumption.
      - apply G_old.
      - apply added_old.
      - exists r. split; [exact Hr|constructor].
    Qed.
    Lemma added_accepts r toks i j : In r rs -> rule_accepts h1 r toks i j <-> rule_accepts h r toks i j.
    Proof. intros Hr. split; intros (ts & S & M); exists ts; (split; [exact S|]); apply added_matches in M || apply added_matches; auto. Qed.
  End Added.

  Lemma reach_trans (h : rule_heap) a b d : reach h a b -> reach h b d -> reach h a d.
  Proof. intros R1 R2. induction R2 as [|p q o e R2 IH E He]; [exact R1|]. econstructor; [apply IH, R1|exact E|exact He]. Qed.
  Lemma segment_none (toks : list token) i j : i <= length toks -> segment toks i j [] <-> i = j.
  Proof.
    intros L. split.
    - intros (pre & post & _ & _ & ->). cbn. lia.
    - intros <-. exists (firstn i toks), (skipn i toks). cbn. rewrite firstn_skipn, firstn_length, Nat.min_l by exact L. auto.
  Qed.
  Lemma segment_one (toks : list token) i t : nth_error toks i = Some t <-> segment toks i (S i) [t].
  Proof.
    split.
    - intros E. apply nth_error_split in E as (pre & post & -> & <-). exists pre, post. split; [reflexivity|]. split; [reflexivity|]. cbn. lia.
    - intros (pre & post & -> & <- & _). rewrite nth_error_app2, Nat.sub_diag by lia. reflexivity.
  Qed.
  Lemma sequence_row (h : rule_heap) (part : nat -> nat -> nat -> Prop) toks terms :
    (forall r i j, In (TRule r) terms -> i <= length toks -> part r i j <-> rule_accepts h r toks i j) ->
    forall i j, i <= length toks -> (exists ts, segment toks i j ts /\ in_sequence h terms ts) <-> in_a_row U c toks part terms i j.
  Proof.
    induction terms as [|t terms IH]; intros P i j L.
    - split.
      + intros (ts & S & K). inversion K; subst. apply segment_none in S; [|exact L]. subst. constructor.
      + intros K. inversion K; subst. exists []. split; [apply segment_none; auto|constructor].
    - assert (IH' := IH (fun r i j Hr => P r i j (or_intror Hr))). split.
      + intros (ts & S & K). inversion K as [|p ? t' ts' A K'|r ? us ts' M K']; subst.
        * change (t' :: ts') with ([t'] ++ ts') in S. apply segment_split in S as (k & S1 & S2). assert (k = S i) by (destruct S1 as (? & ? & _ & _ & ->); cbn; lia). subst k.
          unfold accepts_active in A. destruct (activate c p) as [q|] eqn:E; [|discriminate]. apply segment_one in S1 as N.
          econstructor; [exact E|exact N|exact A|]. apply IH'; [apply segment_end in S1; lia|]. eauto.
        * apply segment_split in S as (k & S1 & S2). econstructor; [apply P; [left; reflexivity|exact L|exists us; eauto]|]. apply IH'; [apply segment_end in S1; lia|]. eauto.
      + intros K. inversion K as [|p q t' ts' ? ? E N A K'|r ts' ? k ? M K']; subst.
        * apply segment_one in N as S1. apply IH' in K' as (ts & S2 & K2); [|apply segment_end in S1; lia]. exists ([t'] ++ ts). split; [apply (segment_app toks i (S i) j [t'] ts S1 S2)|].
          cbn. constructor; [|exact K2]. unfold accepts_active. rewrite E. exact A.
        * apply P in M as (us & S1 & M); [|left; reflexivity|exact L]. apply IH' in K' as (ts & S2 & K2); [|apply segment_end in S1; lia].
          exists (us ++ ts). split; [apply (segment_app toks i k j us ts S1 S2)|]. constructor; assumption.
  Qed.

  Ltac invert K E := inversion K; subst; rewrite E in *; try discriminate; match goal with X : Some _ = Some _ |- _ => injection X; intros; subst end.
  Lemma rule_matches (h : rule_heap) p ps ts : nth_error h p = Some (ORule ps) -> matches h p ts <-> exists q, In q ps /\ matches h q ts.
  Proof. intros E. split; [intros K; invert K E; eauto|intros (q & Hq & K); econstructor; eassumption]. Qed.
  Lemma production_matches (h : rule_heap) p terms m ts : nth_error h p = Some (OProd terms m) -> matches h p ts <-> in_sequence h terms ts.
  Proof. intros E. split; [intros K; invert K E; eauto|intros K; econstructor; eassumption]. Qed.
  Lemma or_matches (h : rule_heap) p rs ts : nth_error h p = Some (OOr rs) -> matches h p ts <-> exists r, In r rs /\ matches h r ts.
  Proof. intros E. split; [intros K; invert K E; eauto|intros (q & Hq & K); econstructor; eassumption]. Qed.
  Lemma named_matches (h : rule_heap) p r n ts : nth_error h p = Some (ONamed r n) -> matches h p ts <-> matches h r ts.
  Proof. intros E. split; [intros K; invert K E; eauto|intros K; econstructor; eassumption]. Qed.
  Lemma interp_matches (h : rule_heap) p r n ts : nth_error h p = Some (OInterp r n) -> matches h p ts <-> matches h r ts.
  Proof. intros E. split; [intros K; invert K E; eauto|intros K; eapply match_interp; eassumption]. Qed.
  Lemma relation_matches (h : rule_heap) p r n ts : nth_error h p = Some (ORelation r n) -> matches h p ts <-> matches h r ts.
  Proof. intros E. split; [intros K; invert K E; eauto|intros K; eapply match_relation; eassumption]. Qed.
  Lemma forward_matches (h : rule_heap) p r ts : nth_error h p = Some (OForward (Some r)) -> matches h p ts <-> matches h r ts.
  Proof. intros E. split; [intros K; invert K E; eauto|intros K; eapply match_forward; eassumption]. Qed.
  Lemma empty_matches (h : rule_heap) p ts : nth_error h p = Some OEmpty -> matches h p ts <-> ts = [].
  Proof. intros E. split; [intros K; inversion K; subst; rewrite E in *; congruence|intros ->; econstructor; eassumption]. Qed.
  Lemma pipeline_matches (h : rule_heap) p x ts : nth_error h p = Some (OPipeline x) ->
    matches h p ts <-> exists b key ps, pipe_bnf x = Ok b /\ In (key, ps) (b_productions b) /\ one_by_one acc ps ts.
  Proof. intros E. split; [intros K; invert K E; eauto 7|intros (b & key & ps & K1 & K2 & K3); eapply match_pipeline; eassumption]. Qed.

  (** One new object. *)
  Section One.
    Variable h : rule_heap.
    Variable o : obj predicate pipeline pipeline_bnf.
    Lemma one_top : nth_error (h ++ [o]) (length h) = Some o.
    Proof. rewrite nth_error_app2, Nat.sub_diag by lia. reflexivity. Qed.
    Hypothesis built0 : built h.
    Hypothesis rule0 : forall r, In r (children o) -> is_rule_at h r.
    Lemma one_accepts r toks i j : In r (children o) -> rule_accepts (h ++ [o]) r toks i j <-> rule_accepts h r toks i j.
    Proof. apply (added_accepts h (children o) [o] built0 rule0). Qed.
  End One.
  Lemma truthy_again z : truthy (truthy z) = truthy z.
  Proof. destruct z as [z|]; [|reflexivity]. cbn. destruct (Z.eqb_spec z 0); [reflexivity|]. cbn. destruct (Z.eqb_spec z 0); [contradiction|reflexivity]. Qed.
  Lemma truthy_not_zero z : truthy z <> Some 0%Z.
  Proof. destruct z as [z|]; [|discriminate]. cbn. destruct (Z.eqb_spec z 0); [discriminate|congruence]. Qed.
  Lemma lines_by_one kd lines y b ts : activate_pipeline c (scheme kd lines) = Ok y -> pipeline_as_bnf U set_order y = Ok b ->
    (exists key ps, In (key, ps) (b_productions b) /\ one_by_one acc ps ts) <-> exists line, In line lines /\ line_agrees U c kd line ts.
  Proof.
    intros A P. destruct (as_bnf_spec U set_order sets y b P) as (P' & _ & _). destruct (scheme_productions U c kd lines y _ A P') as (_ & S1 & S2).
    assert (Same : forall parts ps, Forall2 (part_predicate U c kd) parts ps -> one_by_one acc ps ts <-> Forall2 (word_agrees U c kd) parts ts).
    { intros parts ps F. rewrite <- (parts_agree U c kd parts ps ts F). unfold one_by_one. clear - F. revert ts. induction F as [|part p parts ps H F IH]; intros ts; split; intros K; inversion K; subst; constructor.
      2, 4: apply IH; assumption.
      all: assert (E : activate c p = Ok p) by (apply plain_fixed; destruct kd; cbn in H; [subst; exact Logic.I|subst; exact Logic.I|destruct H as (m & _ & ->); exact Logic.I]).
      all: unfold accepts_active in *; rewrite E in *; assumption. }
    split.
    - intros (key & ps & Hin & O). destruct (S2 key ps Hin) as (HL & parts & Sp & F). exists key. split; [exact HL|]. exists parts. split; [apply split_line_words, Sp|]. apply (Same parts ps F), O.
    - intros (line & HL & parts & Sp & F). destruct (S1 line HL) as (parts' & ps & Sp' & Hin & F'). apply split_line_words in Sp. rewrite Sp in Sp'. injection Sp' as <-. exists line, ps. split; [exact Hin|]. apply (Same parts ps F'), F.
  Qed.

  Lemma call_adds (h : rule_heap) k root h1 : makes_rule U set_order c k -> run_call k h = Ok (root, h1) -> exists t, h1 = h ++ t /\ forall r, In r (call_rules k) -> reach h1 root r.
  Proof.
    intros MK H. assert (One : forall o : obj predicate pipeline pipeline_bnf, (forall r, In r (call_rules k) -> In r (children o)) -> exists t, h ++ [o] = h ++ t /\ forall r, In r (call_rules k) -> reach (h ++ [o]) (length h) r).
    { intros o C. exists [o]. split; [reflexivity|]. intros r Hr. econstructor; [constructor|apply one_top|apply C, Hr]. }
    destruct k; cbn [makes_rule] in MK; try contradiction; cbn [run_call] in H; try (injection H as <- <-; apply One; intros ? K; exact K).
    - unfold new_rule, RuleModel.production in H. assert (K := prepare_spec items 0). destruct (prepare_terms items 0 None) as [[ts m]|e]; [|discriminate]. cbn [bind] in H. destruct K as [-> _]. unfold new in H. injection H as <- <-.
      rewrite <- app_assoc. cbn [app]. eexists. split; [reflexivity|]. intros r Hr. rewrite app_length. cbn [length]. replace (length h + 1) with (S (length h)) by lia.
      match goal with |- reach ?x _ _ => assert (E1 : nth_error x (S (length h)) = Some (ORule [length h])) by (rewrite nth_error_app2 by lia; replace (S (length h) - length h) with 1 by lia; reflexivity);
        assert (E0 : exists m', nth_error x (length h) = Some (OProd (map item_term items) m')) by (rewrite nth_error_app2, Nat.sub_diag by lia; cbn; eauto) end. destruct E0 as (m' & E0).
      apply (reach_step _ _ (length h) (OProd (map item_term items) m')); [|exact E0|exact Hr]. apply (reach_step _ _ (S (length h)) (ORule [length h])); [constructor|exact E1|left; reflexivity].
    - destruct (repeatable r min max reverse) as [o|] eqn:Eo; [|discriminate]. cbn in H. injection H as <- <-.
      destruct (repeatable_shape (pred := predicate) (pipe := pipeline) (bnf := pipeline_bnf) r min max reverse o Eo) as (_ & _ & Co & _). apply One. intros x Hx. rewrite Co. exact Hx.
  Qed.

  Theorem call_composes fuels fuel (h : rule_heap) k root h1 (gs : nat -> grammar token predicate) g toks i j :
    built h -> makes_rule U set_order c k ->
    (forall r, In r (call_rules k) -> is_rule_at h r /\ parser_grammar (fuels r) h r = Some (Ok (gs r))) ->
    run_call k h = Ok (root, h1) -> harmless h1 root -> parser_grammar fuel h1 root = Some (Ok g) -> i <= length toks ->
    grammar_accepts U g toks i j <-> call_accepts toks (fun r => grammar_accepts U (gs r) toks) k i j.
  Proof.
    intros B MK Parts H F1 Hg L.
    assert (B1 : built h1). { assert (K := built_call k h B (fun r Hr => proj1 (Parts r Hr))). unfold after_call in K. rewrite H in K. exact K. }
    assert (Pg : forall r i j, In r (call_rules k) -> i <= length toks -> grammar_accepts U (gs r) toks i j <-> rule_accepts h r toks i j).
    { intros r i' j' Hr L'. destruct (Parts r Hr) as (R & Gr). destruct (call_adds h k root h1 MK H) as (t & -> & K). assert (F := harmless_part h t root r B R (K r Hr) F1). apply (grammar_of_parser U set_order c sets (fuels r) h r (gs r) B F R Gr toks i' j' L'). }
    assert (R1 : is_rule_at h1 root). { clear - H MK. destruct k; cbn in H, MK; try contradiction; try (injection H as <- <-; eexists; rewrite one_top; split; [reflexivity|exact I]).
      - assert (K := main_designated items h). cbn [run_call] in K. rewrite H in K. destruct K as (q & m & E & _). eexists. split; [exact E|exact I].
      - destruct (repeatable r min max reverse) as [o|] eqn:Eo; [|discriminate]. injection H as <- <-. exists o. rewrite one_top. split; [reflexivity|].
        revert Eo. clear. unfold repeatable, assert_greater_equals. destruct (truthy min), (truthy max); repeat (destruct (Z.ltb _ _); cbn; try discriminate); intros E; injection E as <-; exact I. }
    destruct k; cbn [makes_rule] in MK; try contradiction; cbn [run_call] in H; cbn [call_accepts].
    - (* rule *)
      unfold new_rule, RuleModel.production in H. assert (K := prepare_spec items 0). destruct (prepare_terms items 0 None) as [[ts m]|e]; [|discriminate]. cbn [bind] in H. destruct K as [-> _]. unfold new in H. injection H as <- <-.
      rewrite <- app_assoc in Hg, B1, R1, F1. cbn [app] in Hg, B1, R1, F1.
      assert (R0 : forall r, In r (rule_terms (map item_term items)) -> is_rule_at h r) by (intros r Hr; apply Parts, Hr).
      rewrite app_length in Hg, R1, F1. cbn [length] in Hg, R1, F1. replace (length h + 1) with (S (length h)) in * by lia.
      set (m' := if Nat.ltb 0 0 then 0 else m) in *.
      set (news := [OProd (map item_term items) m'; ORule [length h]] : rule_heap) in *.
      rewrite (grammar_of_parser U set_order c sets fuel _ _ g B1 F1 R1 Hg toks i j L).
      assert (E0 : nth_error (h ++ news) (length h) = Some (OProd (map item_term items) m')) by (rewrite nth_error_app2, Nat.sub_diag by lia; reflexivity).
      assert (E1 : nth_error (h ++ news) (S (length h)) = Some (ORule [length h])) by (rewrite nth_error_app2 by lia; replace (S (length h) - length h) with 1 by lia; reflexivity).
      rewrite <- (sequence_row (h ++ news) _ toks (map item_term items)); [|intros r i' j' Hr L'|exact L].
      + split; intros (ts & S & M); exists ts; (split; [exact S|]).
        * apply (rule_matches _ _ _ ts E1) in M as (q & [<-|[]] & M). apply (production_matches _ _ _ _ ts E0) in M. exact M.
        * apply (rule_matches _ _ _ ts E1). exists (length h). split; [left; reflexivity|]. apply (production_matches _ _ _ _ ts E0). exact M.
      + assert (Hr' : In r (rule_terms (map item_term items))) by (apply in_flat_map; eexists; split; [exact Hr|left; reflexivity]).
        rewrite (added_accepts h (rule_terms (map item_term items)) news B R0 r toks i' j' Hr'). apply Pg; [exact Hr'|exact L'].
    - (* or_ *)
      injection H as <- <-.
      rewrite (grammar_of_parser U set_order c sets fuel _ _ g B1 F1 R1 Hg toks i j L). split.
      + intros (ts & S & M). apply (or_matches _ _ rs ts (one_top h _)) in M as (r & Hr & M). exists r. split; [exact Hr|]. apply Pg; [exact Hr|exact L|].
        apply (one_accepts h (OOr rs) B (fun r Hr => proj1 (Parts r Hr)) r toks i j Hr). exists ts. auto.
      + intros (r & Hr & K). apply Pg in K; [|exact Hr|exact L].
        apply (one_accepts h (OOr rs) B (fun r Hr => proj1 (Parts r Hr)) r toks i j Hr) in K as (ts & S & M). exists ts. split; [exact S|].
        apply (or_matches _ _ rs ts (one_top h _)). eauto.
    - (* optional *)
      destruct (Parts r (or_introl eq_refl)) as (R & Gr). apply (optional_counts U set_order c sets (fuels r) fuel h r reverse root h1 (gs r) g toks i j B R H F1 Gr Hg L).
    - (* repeatable *)
      destruct (Parts r (or_introl eq_refl)) as (R & Gr).
      apply (repeatable_counts U set_order c sets (fuels r) fuel h r (truthy min) (truthy max) reverse root h1 (gs r) g toks i j B R (truthy_not_zero min) (truthy_not_zero max)); auto.
      cbn [run_call]. unfold repeatable in *. rewrite !truthy_again. exact H.
    - (* named *)
      injection H as <- <-.
      rewrite (grammar_of_parser U set_order c sets fuel _ _ g B1 F1 R1 Hg toks i j L), (Pg r i j (or_introl eq_refl) L).
      rewrite <- (one_accepts h (ONamed r name) B (fun r Hr => proj1 (Parts r Hr)) r toks i j (or_introl eq_refl)).
      split; intros (ts & S & M); exists ts; (split; [exact S|]); apply (named_matches _ _ r name ts (one_top h _)); exact M.
    - (* interpretation *)
      injection H as <- <-.
      rewrite (grammar_of_parser U set_order c sets fuel _ _ g B1 F1 R1 Hg toks i j L), (Pg r i j (or_introl eq_refl) L).
      rewrite <- (one_accepts h (OInterp r i0) B (fun r Hr => proj1 (Parts r Hr)) r toks i j (or_introl eq_refl)).
      split; intros (ts & S & M); exists ts; (split; [exact S|]); apply (interp_matches _ _ r i0 ts (one_top h _)); exact M.
    - (* match *)
      injection H as <- <-.
      rewrite (grammar_of_parser U set_order c sets fuel _ _ g B1 F1 R1 Hg toks i j L), (Pg r i j (or_introl eq_refl) L).
      rewrite <- (one_accepts h (ORelation r relation) B (fun r Hr => proj1 (Parts r Hr)) r toks i j (or_introl eq_refl)).
      split; intros (ts & S & M); exists ts; (split; [exact S|]); apply (relation_matches _ _ r relation ts (one_top h _)); exact M.
    - (* empty *)
      injection H as <- <-.
      rewrite (grammar_of_parser U set_order c sets fuel _ _ g B1 F1 R1 Hg toks i j L), <- (segment_none toks i j L). split.
      + intros (ts & S & M). apply (empty_matches _ _ ts (one_top h _)) in M as ->. exact S.
      + intros S. exists []. split; [exact S|]. apply (empty_matches _ _ [] (one_top h _)). reflexivity.
    - (* pipelines *)
      destruct MK as (kd & lines & y & b & -> & A & P). injection H as <- <-.
      assert (PB : pipe_bnf (scheme kd lines) = Ok b) by (unfold active_bnf; rewrite A; exact P).
      rewrite (grammar_of_parser U set_order c sets fuel _ _ g B1 F1 R1 Hg toks i j L). split.
      + intros (ts & S & M). apply (pipeline_matches _ _ _ ts (one_top h _)) in M as (b' & key & ps & E & Hin & O). rewrite PB in E. injection E as <-.
        exists kd, lines. split; [reflexivity|]. destruct (proj1 (lines_by_one kd lines y b ts A P)) as (line & HL & K); [eauto|]. exists line, ts. auto.
      + intros (kd' & lines' & E & line & ts & HL & S & K). assert (kd' = kd /\ lines' = lines) as [-> ->] by (destruct kd, kd'; cbn in E; try discriminate; injection E as <-; auto).
        exists ts. split; [exact S|]. apply (pipeline_matches _ _ _ ts (one_top h _)). destruct (proj2 (lines_by_one kd lines y b ts A P)) as (key & ps & Hin & O); [eauto|]. exists b, key, ps. auto.
  Qed.

  (** f.define(r): the forward rule accepts what [r] does, once both know the definition. *)
  Theorem define_composes fuel fuel' (h : rule_heap) f r f' h1 gr g toks i j :
    built h -> is_rule_at h f -> is_rule_at h r -> run_call (CDefine f r) h = Ok (f', h1) -> harmless h1 f' ->
    parser_grammar fuel h1 r = Some (Ok gr) -> parser_grammar fuel' h1 f' = Some (Ok g) -> i <= length toks ->
    grammar_accepts U g toks i j <-> grammar_accepts U gr toks i j.
  Proof.
    intros B Rf Rr H F1 Hr Hg L.
    assert (B1 : built h1). { assert (K := built_call (CDefine f r) h B). unfold after_call in K. rewrite H in K. apply K. intros x [<-|[<-|[]]]; assumption. }
    cbn [run_call] in H. unfold define_forward in H. destruct (forward_of (S (length h)) h f) as [x|] eqn:Fo; cbn [bind] in H; [|discriminate].
    assert (Ex : exists d, nth_error h x = Some (OForward d)).
    { clear - Fo. revert f Fo. generalize (S (length h)). induction n as [|n IH]; intros f H; [discriminate|]. cbn [forward_of] in H.
      destruct (nth_error h f) as [[]|] eqn:E; try discriminate; try (apply (IH _ H)). injection H as <-. eauto. }
    destruct Ex as (d & Ex). destruct Rr as (o & Eo & Po). rewrite Eo in H.
    assert (Ho : Ok (x, setitem h x (OForward (Some r))) = Ok (f', h1)) by (destruct o; (exact H || discriminate H)). clear H. injection Ho as <- <-.
    assert (E1 : nth_error (setitem h x (OForward (Some r))) x = Some (OForward (Some r))) by (rewrite nth_setitem, Nat.eqb_refl, Ex; reflexivity).
    assert (R1 : is_rule_at (setitem h x (OForward (Some r))) x) by (eexists; split; [exact E1|exact Logic.I]).
    assert (Rr1 : is_rule_at (setitem h x (OForward (Some r))) r).
    { destruct (Nat.eq_dec x r) as [->|N]; [exact R1|]. exists o. split; [|exact Po]. rewrite nth_setitem. destruct (Nat.eqb_spec r x); [congruence|exact Eo]. }
    assert (Fr : harmless (setitem h x (OForward (Some r))) r).
    { intros p R. apply (F1 p). eapply reach_trans; [eapply reach_step; [apply reach_refl|exact E1|left; reflexivity]|exact R]. }
    rewrite (grammar_of_parser U set_order c sets fuel' _ _ g B1 F1 R1 Hg toks i j L), (grammar_of_parser U set_order c sets fuel _ _ gr B1 Fr Rr1 Hr toks i j L).
    split; intros (ts & S & M); exists ts; (split; [exact S|]); apply (forward_matches _ _ r ts E1); exact M.
  Qed.
End Calls.

(** ForwardRule.define. *)
Lemma define_call (h : rule_heap) f d r : nth_error h f = Some (OForward d) ->
  (forall d', nth_error h r = Some (OForward d') -> run_call (CDefine f r) h = Err ValueError) /\
  ((forall d', nth_error h r <> Some (OForward d')) ->
   exists h', run_call (CDefine f r) h = Ok (f, h') /\ nth_error h' f = Some (OForward (Some r)) /\ forall q, q <> f -> nth_error h' q = nth_error h q).
Proof.
  intros F. cbn [run_call]. unfold define_forward. cbn [forward_of]. rewrite F. cbn [bind]. split.
  - intros d' E. rewrite E. reflexivity.
  - intros N. exists (setitem h f (OForward (Some r))). split.
    + destruct (nth_error h r) as [o|] eqn:E; [destruct o; try reflexivity; destruct (N rule); reflexivity|reflexivity].
    + split; [rewrite nth_setitem, Nat.eqb_refl, F; reflexivity|]. intros q Hq. rewrite nth_setitem. destruct (Nat.eqb_spec q f); [contradiction|reflexivity].
Qed.
