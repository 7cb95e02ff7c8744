(** Acceptance does not change when the parts of a rule graph are replaced by parts
    that accept the same; in particular, activated predicates accept as the rule written. *)
From Verif Require Import Base TokenModel EarleyModel RuleModel RuleSpec RuleWords RuleLike RulePass RuleMethods RuleNormal RuleBNF RuleForward RuleAccept RuleGrammar RuleActivate.
Open Scope nat_scope.

Section Transfer.
  Context {token pred pipe bnf : Type}.
  Notation obj := (obj pred pipe bnf).
  Notation heap := (heap pred pipe bnf).
  Variable bnf_lines : bnf -> list (str * list pred).
  Variable pipe1 pipe2 : pipe -> res bnf.
  Variable accepts1 accepts2 : pred -> token -> bool.
  Definition lines_imply (x y : pipe) : Prop :=
    forall b key ps ts, pipe1 x = Ok b -> In (key, ps) (bnf_lines b) -> one_by_one accepts1 ps ts ->
    exists b' key' ps', pipe2 y = Ok b' /\ In (key', ps') (bnf_lines b') /\ one_by_one accepts2 ps' ts.
  Inductive implies_term : term pred -> term pred -> Prop :=
  | implies_pred p q : (forall t, accepts1 p t = true -> accepts2 q t = true) -> implies_term (TPred p) (TPred q)
  | implies_rule r : implies_term (TRule r) (TRule r).
  Inductive implies_obj : obj -> obj -> Prop :=
  | implies_prod ts ts' main : Forall2 implies_term ts ts' -> implies_obj (OProd ts main) (OProd ts' main)
  | implies_pipeline x y : lines_imply x y -> implies_obj (OPipeline x) (OPipeline y)
  | implies_same o : (match o with OProd _ _ | OPipeline _ | OPipeProd _ _ => False | _ => True end) -> implies_obj o o.
  Variable h h' : heap.
  Variable G : nat -> Prop.
  Hypothesis closed : forall x o c, G x -> nth_error h x = Some o -> In c (children o) -> G c.
  Hypothesis corr : forall x o, G x -> nth_error h x = Some o -> exists o', nth_error h' x = Some o' /\ implies_obj o o'.
  Lemma same_here x o : G x -> nth_error h x = Some o -> (match o with OProd _ _ | OPipeline _ | OPipeProd _ _ => False | _ => True end) -> nth_error h' x = Some o.
  Proof. intros Gx E N. destruct (corr x o Gx E) as (o' & E' & K). inversion K; subst; try contradiction. exact E'. Qed.

  Lemma matches_transfer :
    (forall p ts, matches pipe1 bnf_lines accepts1 h p ts -> G p -> matches pipe2 bnf_lines accepts2 h' p ts) /\
    (forall r n ts, repeats pipe1 bnf_lines accepts1 h r n ts -> G r -> repeats pipe2 bnf_lines accepts2 h' r n ts) /\
    (forall terms ts, in_sequence pipe1 bnf_lines accepts1 h terms ts -> (forall r, In (TRule r) terms -> G r) ->
       forall terms', Forall2 implies_term terms terms' -> in_sequence pipe2 bnf_lines accepts2 h' terms' ts).
  Proof.
    apply matches_mutind.
    - intros p ps q ts E Hq _ IH Gp. apply (match_rule _ _ _ h' p ps q ts); [apply same_here; auto; exact I|exact Hq|apply IH, (closed p _ q Gp E), Hq].
    - intros p ps q ts E Hq _ IH Gp. apply (match_or _ _ _ h' p ps q ts); [apply same_here; auto; exact I|exact Hq|apply IH, (closed p _ q Gp E), Hq].
    - intros p r rev n ts E L _ IH Gp. apply (match_optional _ _ _ h' p r rev n ts); [apply same_here; auto; exact I|exact L|apply IH, (closed p _ r Gp E); left; reflexivity].
    - intros p r rev n ts E L _ IH Gp. apply (match_repeatable _ _ _ h' p r rev n ts); [apply same_here; auto; exact I|exact L|apply IH, (closed p _ r Gp E); left; reflexivity].
    - intros p r rr ro n ts E _ IH Gp. apply (match_any _ _ _ h' p r rr ro n ts); [apply same_here; auto; exact I|apply IH, (closed p _ r Gp E); left; reflexivity].
    - intros p r m rev n ts E L _ IH Gp. apply (match_min _ _ _ h' p r m rev n ts); [apply same_here; auto; exact I|exact L|apply IH, (closed p _ r Gp E); left; reflexivity].
    - intros p r m rev n ts E L _ IH Gp. apply (match_max _ _ _ h' p r m rev n ts); [apply same_here; auto; exact I|exact L|apply IH, (closed p _ r Gp E); left; reflexivity].
    - intros p r m k rev n ts E L _ IH Gp. apply (match_min_max _ _ _ h' p r m k rev n ts); [apply same_here; auto; exact I|exact L|apply IH, (closed p _ r Gp E); left; reflexivity].
    - intros p r x ts E _ IH Gp. apply (match_named _ _ _ h' p r x ts); [apply same_here; auto; exact I|apply IH, (closed p _ r Gp E); left; reflexivity].
    - intros p r x ts E _ IH Gp. apply (match_interp _ _ _ h' p r x ts); [apply same_here; auto; exact I|apply IH, (closed p _ r Gp E); left; reflexivity].
    - intros p r x ts E _ IH Gp. apply (match_relation _ _ _ h' p r x ts); [apply same_here; auto; exact I|apply IH, (closed p _ r Gp E); left; reflexivity].
    - intros p r ts E _ IH Gp. apply (match_forward _ _ _ h' p r ts); [apply same_here; auto; exact I|apply IH, (closed p _ r Gp E); left; reflexivity].
    - intros p E Gp. apply (match_empty _ _ _ h' p). apply same_here; auto; exact I.
    - intros p x b key ps ts E Eb Hin F Gp. destruct (corr p _ Gp E) as (o' & E' & K). inversion K; subst; try contradiction.
      match goal with H : lines_imply x _ |- _ => destruct (H b key ps ts Eb Hin F) as (b' & key' & ps' & Eb' & Hin' & F') end. eapply match_pipeline; eassumption.
    - intros p ps a q ts E Hq _ IH Gp. apply (match_bnf _ _ _ h' p ps a q ts); [apply same_here; auto; exact I|exact Hq|apply IH, (closed p _ q Gp E), Hq].
    - intros p b ps a q ts E Hq _ IH Gp. apply (match_pipe_bnf _ _ _ h' p b ps a q ts); [apply same_here; auto; exact I|exact Hq|apply IH, (closed p _ q Gp E), Hq].
    - intros p terms main ts E _ IH Gp. destruct (corr p _ Gp E) as (o' & E' & K). inversion K; subst; try contradiction. eapply match_production; [exact E'|].
      apply IH; [intros r Hr; apply (closed p _ r Gp E), in_rule_terms, Hr|assumption].
    - intros p E Gp. apply (match_empty_production _ _ _ h' p). apply same_here; auto; exact I.
    - intros p key ps ts E F Gp. destruct (corr p _ Gp E) as (o' & E' & K). inversion K; subst; contradiction.
    - intros r _. constructor.
    - intros r n us ts _ IH _ IH' Gr. constructor; auto.
    - intros _ terms' F. inversion F; subst. constructor.
    - intros p terms t ts A _ IH Gt terms' F. inversion F as [|? t' ? ? K F']; subst. inversion K; subst. constructor; [auto|]. apply IH; [intros r Hr; apply Gt; right; exact Hr|exact F'].
    - intros r terms us ts _ IH _ IH' Gt terms' F. inversion F as [|? t' ? ? K F']; subst. inversion K; subst. constructor; [apply IH, Gt; left; reflexivity|].
      apply IH'; [intros r' Hr; apply Gt; right; exact Hr|exact F'].
  Qed.
End Transfer.

Section Activated.
  Context {token pred pipe bnf : Type}.
  Notation heap := (heap pred pipe bnf).
  Variable bnf_lines : bnf -> list (str * list pred).
  Variable pipe_bnf : pipe -> res bnf.
  Variable accepts : pred -> token -> bool.
  Variable activate_pred : pred -> res pred.
  Variable activate_pipe : pipe -> res pipe.
  (** A predicate as written accepts what its activation accepts; a pipeline stands for
      the lines of its activation. *)
  Notation accepts_active := (accepts_active accepts activate_pred).
  Notation active_bnf := (active_bnf pipe_bnf activate_pipe).
  (** The predicates a dictionary line is made of need no activation. *)
  Hypothesis lines_active : forall x b key ps p, active_bnf x = Ok b -> In (key, ps) (bnf_lines b) -> In p ps -> activate_pred p = Ok p.
  Lemma line_active x b key ps (ts : list token) : active_bnf x = Ok b -> In (key, ps) (bnf_lines b) -> one_by_one accepts_active ps ts <-> one_by_one accepts ps ts.
  Proof.
    intros E Hin. assert (A : forall p, In p ps -> activate_pred p = Ok p) by (intros p Hp; apply (lines_active x b key ps p E Hin Hp)). clear E Hin.
    unfold one_by_one, accepts_active. revert ts. induction ps as [|p ps IH]; intros ts; split; intros F; inversion F; subst; constructor; try (apply IH; auto; fail).
    - rewrite (A p (or_introl eq_refl)) in H1. exact H1.
    - apply IH; [intros q Hq; apply A; right; exact Hq|assumption].
    - rewrite (A p (or_introl eq_refl)). exact H1.
    - apply IH; [intros q Hq; apply A; right; exact Hq|assumption].
  Qed.
  Variable h h' : heap.
  Variable root : nat.
  Hypothesis act : activated_graph activate_pred activate_pipe h h' root.
  Hypothesis no_lines : forall x o, reach h root x -> nth_error h x = Some o -> plain o = true.

  Theorem activated_matches ts : matches pipe_bnf bnf_lines accepts h' root ts <-> matches active_bnf bnf_lines accepts_active h root ts.
  Proof.
    split.
    - intro H. destruct (matches_transfer bnf_lines pipe_bnf active_bnf accepts accepts_active h' h (reach h' root)) as (T & _ & _); [intros; econstructor; eassumption| |exact (T root ts H (reach_refl h' root))].
      intros x o' R' E'. assert (R := proj2 (activated_reach _ _ h h' root act x) R'). destruct (activated_back _ _ h h' root act x o' R E') as (o & E & K). exists o. split; [exact E|].
      assert (P := no_lines x o R E). inversion K; subst.
      + constructor. revert H0. clear. induction 1 as [|t t' l l' K F IH]; constructor; auto. inversion K; subst; constructor. intros t. unfold accepts_active. rewrite H. auto.
      + constructor. intros b key ps ts' Eb Hin F. assert (Ea : active_bnf x0 = Ok b) by (unfold active_bnf; rewrite H0; exact Eb). exists b, key, ps. split; [exact Ea|]. split; [exact Hin|].
        apply (line_active x0 b key ps ts' Ea Hin), F.
      + apply implies_same. destruct o'; try exact I; try contradiction; discriminate.
    - intro H. destruct (matches_transfer bnf_lines active_bnf pipe_bnf accepts_active accepts h h' (reach h root)) as (T & _ & _); [intros; econstructor; eassumption| |exact (T root ts H (reach_refl h root))].
      intros x o R E. destruct (proj1 (proj2 act) x o R E) as (o' & E' & K). exists o'. split; [exact E'|].
      assert (P := no_lines x o R E). inversion K; subst.
      + constructor. revert H0. clear. induction 1 as [|t t' l l' K F IH]; constructor; auto. inversion K; subst; constructor. intros t. unfold accepts_active. rewrite H. auto.
      + constructor. intros b key ps ts' Eb Hin F. exists b, key, ps. split; [unfold active_bnf in Eb; rewrite H0 in Eb; exact Eb|]. split; [exact Hin|].
        apply (line_active x0 b key ps ts' Eb Hin), F.
      + apply implies_same. destruct o'; try exact I; try contradiction; discriminate.
  Qed.
End Activated.
