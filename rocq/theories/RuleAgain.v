(** Constructing a parser leaves other rules usable. *)
From Verif Require Import Base SpanProofs TokenModel EarleyModel PredicateModel PipelineModel RuleModel RuleSpec RuleBuild RuleWords RuleLike RulePass RuleMethods RuleNormal RuleNormalized RuleOrder RuleBfs RuleBNF RuleForward RuleNames RuleAsBnf RuleAccept RuleActivate RuleParser RuleBuilt RuleKeep RuleFrame GrammarModel GrammarProofs RuleCopySpec RuleRename RuleCopy RuleAgainSpec.
Open Scope nat_scope.

Section Again.
  Context {pred pipe bnf : Type}.
  Notation obj := (obj pred pipe bnf).
  Notation heap := (heap pred pipe bnf).
  Notation state := (state pred pipe bnf).
  Variable pipe_bnf : pipe -> res bnf.
  Variable bnf_lines : bnf -> list (str * list pred).
  Variable activate_pred : pred -> res pred.
  Variable activate_pipe : pipe -> res pipe.
  Hypothesis pred_twice : forall p q, activate_pred p = Ok q -> activate_pred q = Ok q.
  Hypothesis pipe_twice : forall x y, activate_pipe x = Ok y -> activate_pipe y = Ok y.
  Notation activate_visit := (activate_visit (bnf := bnf) activate_pred activate_pipe).
  Notation activated_term := (activated_term activate_pred).
  Notation activated := (activated (bnf := bnf) activate_pred activate_pipe).
  Notation parser_rule := (parser_rule pipe_bnf bnf_lines activate_pred activate_pipe).

  (** ** Activation of one object *)
  Definition act_term (t : term pred) : res (term pred) := match t with TPred p => bind (activate_pred p) (fun q => Ok (TPred q)) | TRule r => Ok (TRule r) end.
  Definition act_obj (o : obj) : res obj :=
    match o with
    | OProd ts main => bind (mapM act_term ts) (fun ts' => Ok (OProd ts' main))
    | OPipeline x => bind (activate_pipe x) (fun y => Ok (OPipeline y))
    | o => Ok o
    end.
  Lemma act_terms ts (s : state) : mapMM (fun t => match t with TPred x => bindM (lift_res (activate_pred x)) (fun y => ret (TPred y)) | TRule r => ret (TRule r) end) ts s =
    match mapM act_term ts with Ok ts' => Some (Ok (ts', s)) | Err e => Some (Err e) end.
  Proof.
    match goal with |- mapMM ?g _ _ = _ => set (step := g) end.
    assert (St : forall t, step t s = match act_term t with Ok t' => Some (Ok (t', s)) | Err e => Some (Err e) end).
    { intros [r|p]; cbn; [reflexivity|]. unfold bindM, lift_res. destruct (activate_pred p); reflexivity. }
    induction ts as [|t ts IH]; [reflexivity|]. change (mapMM step (t :: ts) s) with (bindM (step t) (fun y => bindM (mapMM step ts) (fun ys => ret (y :: ys))) s). cbn [mapM]. unfold bindM at 1. rewrite St. destruct (act_term t) as [t'|e]; [|reflexivity].
    unfold bindM. rewrite IH. cbn [bind]. destruct (mapM act_term ts); reflexivity.
  Qed.
  Lemma act_terms_spec ts : forall ts', mapM act_term ts = Ok ts' <-> Forall2 activated_term ts ts'.
  Proof.
    induction ts as [|t ts IH]; intros ts'; cbn [mapM].
    - split; [intros E; injection E as <-; constructor|intros F; inversion F; reflexivity].
    - split.
      + destruct (act_term t) as [t'|] eqn:Et; [|discriminate]. cbn [bind]. destruct (mapM act_term ts) as [l|] eqn:El; [|discriminate]. cbn. intros E. injection E as <-. constructor; [|apply IH; reflexivity].
        destruct t as [r|p]; cbn in Et; [injection Et as <-; constructor|]. destruct (activate_pred p) as [q|] eqn:Ep; [|discriminate]. injection Et as <-. constructor. exact Ep.
      + intros F. inversion F; subst. match goal with H : activated_term _ _ |- _ => inversion H; subst end; cbn [act_term bind].
        * rewrite H. cbn [bind]. match goal with H : Forall2 _ _ _ |- _ => apply IH in H; rewrite H end. reflexivity.
        * match goal with H : Forall2 _ _ _ |- _ => apply IH in H; rewrite H end. reflexivity.
  Qed.
  Lemma act_obj_spec o o' : act_obj o = Ok o' <-> activated o o'.
  Proof.
    split.
    - destruct o; cbn [act_obj]; try (intros E; injection E as <-; constructor; exact Logic.I).
      + destruct (activate_pipe _) as [y|] eqn:E; [|discriminate]. cbn. intros K. injection K as <-. constructor. exact E.
      + destruct (mapM act_term terms) as [l|] eqn:E; [|discriminate]. cbn. intros K. injection K as <-. constructor. apply act_terms_spec, E.
    - intros A. inversion A; subst; cbn [act_obj].
      + apply act_terms_spec in H. rewrite H. reflexivity.
      + rewrite H. reflexivity.
      + destruct o'; try reflexivity; contradiction.
  Qed.
  (** What one visit does. *)
  Lemma visit_none p (s : state) : nth_error (st_heap s) p = None -> activate_visit p s = Some (Err AttributeError).
  Proof. intros E. unfold RuleModel.activate_visit, bindM at 1, get. rewrite E. reflexivity. Qed.
  Lemma visit_err p (s : state) o e : nth_error (st_heap s) p = Some o -> act_obj o = Err e -> activate_visit p s = Some (Err e).
  Proof.
    intros E A. unfold RuleModel.activate_visit, bindM at 1, get. rewrite E. destruct o; cbn [act_obj] in A; try discriminate.
    - unfold bindM at 1, lift_res. destruct (activate_pipe _) as [y|e']; [discriminate|]. injection A as ->. reflexivity.
    - unfold bindM at 1. rewrite act_terms. destruct (mapM act_term terms) as [l|e']; [discriminate|]. injection A as ->. reflexivity.
  Qed.
  Lemma visit_ok p (s : state) o o' : nth_error (st_heap s) p = Some o -> act_obj o = Ok o' ->
    exists s', activate_visit p s = Some (Ok (p, s')) /\ length (st_heap s') = length (st_heap s) /\ forall q, nth_error (st_heap s') q = if Nat.eqb q p then Some o' else nth_error (st_heap s) q.
  Proof.
    intros E A. unfold RuleModel.activate_visit, bindM at 1, get. rewrite E.
    assert (Keep : o' = o -> exists s', ret p s = Some (Ok (p, s')) /\ length (st_heap s') = length (st_heap s) /\ forall q, nth_error (st_heap s') q = if Nat.eqb q p then Some o' else nth_error (st_heap s) q).
    { intros ->. exists s. split; [reflexivity|]. split; [reflexivity|]. intros q. destruct (Nat.eqb_spec q p) as [->|_]; [exact E|reflexivity]. }
    assert (Put : exists s', bindM (put p o') (fun _ => ret p) s = Some (Ok (p, s')) /\ length (st_heap s') = length (st_heap s) /\ forall q, nth_error (st_heap s') q = if Nat.eqb q p then Some o' else nth_error (st_heap s) q).
    { eexists. split; [reflexivity|]. cbn [st_heap]. split; [apply setitem_length|]. intros q. rewrite nth_setitem. destruct (Nat.eqb_spec q p) as [->|_]; [rewrite E|]; reflexivity. }
    destruct o; cbn [act_obj] in A; try (injection A as <-; apply Keep; reflexivity).
    - unfold bindM at 1, lift_res. destruct (activate_pipe _) as [y|e']; [|discriminate]. injection A as <-. exact Put.
    - unfold bindM at 1. rewrite act_terms. destruct (mapM act_term terms) as [l|e']; [|discriminate]. injection A as <-. exact Put.
  Qed.

  (** ** The object as it was, or activated *)
  Definition maybe_active (o o' : obj) : Prop := o' = o \/ activated o o'.
  Lemma maybe_children o o' : maybe_active o o' -> children o' = children o.
  Proof. intros [->|A]; [reflexivity|]. eapply activated_children, A. Qed.
  Lemma maybe_trans o o1 o2 : maybe_active o o1 -> maybe_active o1 o2 -> maybe_active o o2.
  Proof. intros [->|A] [->|B]; try (left; reflexivity); try (right; assumption). right. rewrite (activated_twice activate_pred activate_pipe pred_twice pipe_twice o o1 o2 A B). exact A. Qed.
  Lemma maybe_act o o' : maybe_active o o' -> act_obj o' = act_obj o.
  Proof.
    intros [->|A]; [reflexivity|]. assert (E := proj2 (act_obj_spec o o') A). rewrite E. apply act_obj_spec.
    inversion A; subst.
    - constructor. clear A E. induction H as [|t t' l l' K F IH]; constructor; [|exact IH]. inversion K; subst; constructor. eapply pred_twice. eassumption.
    - constructor. eapply pipe_twice. eassumption.
    - exact A.
  Qed.
  Lemma activated_maybe o o1 o' : maybe_active o o1 -> activated o1 o' -> activated o o'.
  Proof. intros M A. apply act_obj_spec in A. rewrite (maybe_act o o1 M) in A. apply act_obj_spec, A. Qed.
  Lemma activated_once o o1 o2 : activated o o1 -> activated o o2 -> o1 = o2.
  Proof. intros A B. apply act_obj_spec in A, B. congruence. Qed.
  Lemma maybe_class o o' : maybe_active o o' -> is_forward o' = is_forward o /\ is_bnf o' = is_bnf o.
  Proof. intros [->|A]; [auto|]. inversion A; subst; auto. Qed.

  (** ** Activation of a heap leaves every object as it was or activated *)
  Lemma walk_maybe : forall fuel queue visited (s : state) u s',
    walk_loop fuel (fun p => bindM (activate_visit p) (fun _ => ret tt)) queue visited s = Some (Ok (u, s')) ->
    length (st_heap s') = length (st_heap s) /\ forall p o, nth_error (st_heap s) p = Some o -> exists o', nth_error (st_heap s') p = Some o' /\ maybe_active o o'.
  Proof.
    assert (R : forall h : heap, length h = length h /\ forall p o, nth_error h p = Some o -> exists o', nth_error h p = Some o' /\ maybe_active o o') by (intros h; split; [reflexivity|]; intros p o E; exists o; split; [exact E|left; reflexivity]).
    induction fuel as [|fuel IH]; intros [|x queue] visited s u s' H; cbn [walk_loop] in H; try discriminate.
    1,2: apply ret_ok in H as [_ ->]; apply R.
    apply bind_ok in H as (v & s1 & H1 & H). apply bind_ok in H1 as (r & s1' & H1 & Hr). apply ret_ok in Hr as [_ ->]. apply bind_ok in H as (o & s2 & H2 & H). apply get_ok in H2 as [E ->].
    destruct (enqueue (children o) queue visited) as [queue2 vis2]. apply IH in H as [L K]. destruct (activate_visit_ok activate_pred activate_pipe x s r s1' H1) as (_ & _ & o1 & o2 & E1 & A & L1 & E2 & U).
    split; [congruence|]. intros p op Ep. destruct (Nat.eq_dec p x) as [->|N].
    - destruct (K x o2 E2) as (o' & E' & M). exists o'. split; [exact E'|]. rewrite E1 in Ep. injection Ep as <-. eapply maybe_trans; [right; exact A|exact M].
    - apply K. rewrite (U p N). exact Ep.
  Qed.
  Lemma activate_maybe fuel (h : heap) root r h' : run_inplace activate_visit fuel h root = Some (Ok (r, h')) ->
    forall p o, nth_error h p = Some o -> exists o', nth_error h' p = Some o' /\ maybe_active o o'.
  Proof.
    intros H p o E. unfold run_inplace, transform_inplace in H.
    destruct (bindM (walk fuel (fun p => bindM (activate_visit p) (fun _ => ret tt)) root) (fun _ => activate_visit root) (mkState h [])) as [[[r1 s2]|e]|] eqn:T; try discriminate.
    injection H as -> <-. apply bind_ok in T as (u & s1 & T1 & T2). unfold walk in T1. apply walk_maybe in T1 as [_ K]. destruct (K p o E) as (o1 & E1 & M).
    destruct (activate_visit_ok activate_pred activate_pipe root s1 r s2 T2) as (_ & _ & or & o2 & Er & A & _ & E2 & U). destruct (Nat.eq_dec p root) as [->|N].
    - exists o2. split; [exact E2|]. rewrite E1 in Er. injection Er as <-. eapply maybe_trans; [exact M|right; exact A].
    - exists o1. split; [rewrite (U p N); exact E1|exact M].
  Qed.

  (** ** Two activations in lockstep *)
  Section Lockstep.
    Variable D : nat -> Prop.
    Definition mixed (h h' : heap) : Prop := forall p, D p -> exists o o', nth_error h p = Some o /\ nth_error h' p = Some o' /\ maybe_active o o' /\ forall c, In c (children o) -> D c.
    Definition ends {A} (x x' : option (res (A * state))) : Prop :=
      match x, x' with
      | Some (Ok (_, s)), Some (Ok (_, s')) => mixed (st_heap s) (st_heap s')
      | Some (Err e), Some (Err e') => e = e'
      | None, None => True
      | _, _ => False
      end.
    Lemma visit_lockstep p (s s' : state) : D p -> mixed (st_heap s) (st_heap s') -> ends (activate_visit p s) (activate_visit p s').
    Proof.
      intros Dp M. destruct (M p Dp) as (o & o' & E & E' & K & C). assert (A := maybe_act o o' K). destruct (act_obj o) as [x|e] eqn:Eo.
      - destruct (visit_ok p s o x E Eo) as (s1 & -> & _ & N). destruct (visit_ok p s' o' x E' A) as (s1' & -> & _ & N'). cbn. intros q Dq. rewrite N, N'. destruct (Nat.eqb_spec q p) as [->|_]; [|apply M, Dq].
        exists x, x. split; [reflexivity|]. split; [reflexivity|]. split; [left; reflexivity|]. intros c Hc. apply C. apply act_obj_spec in Eo. rewrite <- (activated_children activate_pred activate_pipe o x Eo). exact Hc.
      - rewrite (visit_err p s o e E Eo), (visit_err p s' o' e E' A). reflexivity.
    Qed.
    Lemma enqueue_D cs queue visited : Forall D cs -> Forall D queue -> Forall D (fst (enqueue cs queue visited)).
    Proof. intros C Q. destruct (enqueue cs queue visited) as [q v] eqn:E. apply (RuleFrame.enqueue_in D cs queue visited q v E C Q). Qed.
    Definition act_step : nat -> M pred pipe bnf unit := fun p => bindM (activate_visit p) (fun _ => ret tt).
    Lemma act_step_eq p (s : state) : act_step p s = match activate_visit p s with Some (Ok (_, s1)) => Some (Ok (tt, s1)) | Some (Err e) => Some (Err e) | None => None end.
    Proof. unfold act_step, bindM. destruct (activate_visit p s) as [[[r s1]|e]|]; reflexivity. Qed.
    Lemma walk_step fuel (act : nat -> M pred pipe bnf unit) x queue visited (s : state) : walk_loop (S fuel) act (x :: queue) visited s =
      match act x s with
      | Some (Ok (_, s1)) => match nth_error (st_heap s1) x with
                             | Some o => let (q, v) := enqueue (children o) queue visited in walk_loop fuel act q v s1
                             | None => Some (Err AttributeError)
                             end
      | Some (Err e) => Some (Err e)
      | None => None
      end.
    Proof.
      cbn [walk_loop]. unfold bindM. destruct (act x s) as [[[u s1]|e]|]; try reflexivity. unfold get. destruct (nth_error (st_heap s1) x) as [o|]; [|reflexivity]. destruct (enqueue (children o) queue visited). reflexivity.
    Qed.
    Lemma walk_lockstep : forall fuel queue visited (s s' : state), Forall D queue -> mixed (st_heap s) (st_heap s') ->
      ends (walk_loop fuel (fun p => bindM (activate_visit p) (fun _ => ret tt)) queue visited s) (walk_loop fuel (fun p => bindM (activate_visit p) (fun _ => ret tt)) queue visited s').
    Proof.
      induction fuel as [|fuel IH]; intros [|x queue] visited s s' F M; try exact M; try exact Logic.I. inversion F as [|? ? Dx Fq]; subst. assert (V := visit_lockstep x s s' Dx M).
      change (ends (walk_loop (S fuel) act_step (x :: queue) visited s) (walk_loop (S fuel) act_step (x :: queue) visited s')). rewrite !walk_step. rewrite !act_step_eq.
      destruct (activate_visit x s) as [[[r s1]|e]|], (activate_visit x s') as [[[r' s1']|e']|]; cbn in V; try contradiction; try exact V; try exact Logic.I.
      destruct (V x Dx) as (o & o' & E & E' & K & C). rewrite E, E', (maybe_children o o' K). assert (Q := enqueue_D (children o) queue visited (proj2 (Forall_forall _ _) C) Fq). destruct (enqueue (children o) queue visited) as [q v]. apply IH; assumption.
    Qed.
    Lemma activation_lockstep fuel (h h' : heap) root : D root -> mixed h h' ->
      match run_inplace activate_visit fuel h root, run_inplace activate_visit fuel h' root with
      | Some (Ok (_, ha)), Some (Ok (_, ha')) => mixed ha ha'
      | Some (Err e), Some (Err e') => e = e'
      | None, None => True
      | _, _ => False
      end.
    Proof.
      intros Dr M. assert (W := walk_lockstep fuel [root] [root] (mkState h []) (mkState h' []) (Forall_cons _ Dr (Forall_nil _)) M). unfold run_inplace, transform_inplace, walk.
      assert (B : forall t : state, bindM (walk_loop fuel act_step [root] [root]) (fun _ => activate_visit root) t = match walk_loop fuel act_step [root] [root] t with Some (Ok (_, s1)) => activate_visit root s1 | Some (Err e) => Some (Err e) | None => None end).
      { intros t. unfold bindM. destruct (walk_loop fuel act_step [root] [root] t) as [[[u s1]|e]|]; reflexivity. }
      fold act_step in W |- *. rewrite !B.
      destruct (walk_loop fuel act_step [root] [root] (mkState h [])) as [[[u s1]|e]|], (walk_loop fuel act_step [root] [root] (mkState h' [])) as [[[u' s1']|e']|]; cbn in W; try contradiction; try exact W; try exact Logic.I.
      assert (V := visit_lockstep root s1 s1' Dr W). destruct (activate_visit root s1) as [[[r s2]|e]|], (activate_visit root s1') as [[[r' s2']|e']|]; cbn in V; try contradiction; auto.
    Qed.
  End Lockstep.

  (** ** Two parsers from a rule in two heaps *)
  Lemma mixed_reach (h h' : heap) root : mixed (reach h root) h h' -> forall p, reach h root p <-> reach h' root p.
  Proof.
    intros M p. split; intros R.
    - induction R as [|x q o c R IH E Hc]; [constructor|]. destruct (M q R) as (o1 & o' & E1 & E' & K & _). rewrite E in E1. injection E1 as <-. eapply reach_step; [exact (IH M)|exact E'|]. rewrite (maybe_children o o' K). exact Hc.
    - induction R as [|x q o c R IH E Hc]; [constructor|]. destruct (M q (IH M)) as (o1 & o' & E1 & E' & K & _). rewrite E in E'. injection E' as <-. eapply reach_step; [exact (IH M)|exact E1|]. rewrite <- (maybe_children o1 o K). exact Hc.
  Qed.
  Lemma moved_id (o : obj) : moved_obj (fun p => p) o = o.
  Proof.
    destruct o; cbn; try reflexivity; rewrite ?map_id; try reflexivity.
    - destruct rule; reflexivity.
    - f_equal. rewrite <- (map_id terms) at 2. apply map_ext. intros [r|x]; reflexivity.
  Qed.
  Record numbering (f : nat -> nat) (D : nat -> Prop) (n0 n1 : nat) : Prop := {
    number_inj : forall p q, D p -> D q -> f p = f q -> p = q;
    number_later : forall p, n0 <= p -> D p;
    number_shift : forall p, n0 <= p -> f p = n1 + (p - n0) }.
  Lemma build_same fuel (h h' : heap) root : mixed (reach h root) h h' ->
    exists f D n0 n1, numbering f D n0 n1 /\ same_run f D n0 n1 (parser_rule fuel h root) (parser_rule fuel h' root) /\
      ((exists x, parser_rule fuel h root = Some (Ok x)) -> forall p, reach h root p -> f p = p /\ D p).
  Proof.
    intros M. unfold RuleModel.parser_rule. assert (L := activation_lockstep (reach h root) fuel h h' root (reach_refl h root) M).
    assert (Triv : numbering (fun p => p) (fun _ => True) 0 0) by (constructor; auto; intros; lia).
    destruct (run_inplace activate_visit fuel h root) as [[[r ha]|e]|] eqn:E, (run_inplace activate_visit fuel h' root) as [[[r' ha']|e']|] eqn:E'; try contradiction; cbn [then_].
    2: subst e'; exists (fun p => p), (fun _ => True), 0, 0; split; [exact Triv|]; split; [reflexivity|intros [x X]; discriminate].
    2: exists (fun p => p), (fun _ => True), 0, 0; split; [exact Triv|]; split; [exact Logic.I|intros [x X]; discriminate].
    destruct (activate_ok activate_pred activate_pipe pred_twice pipe_twice fuel h root r ha E) as [-> A]. destruct (activate_ok activate_pred activate_pipe pred_twice pipe_twice fuel h' root r' ha' E') as [-> A'].
    assert (Re := activated_reach activate_pred activate_pipe h ha root A). assert (Re' := mixed_reach h h' root M).
    assert (Same : forall p, reach ha root p -> exists o, nth_error ha p = Some o /\ nth_error ha' p = Some (moved_obj (fun p => p) o)).
    { intros p R. apply Re in R. destruct (M p R) as (o & o' & Eo & Eo' & K & _). destruct (proj1 (proj2 A) p o R Eo) as (o1 & E1 & A1). destruct (proj1 (proj2 A') p o' (proj1 (Re' p) R) Eo') as (o1' & E1' & A1').
      exists o1. split; [exact E1|]. rewrite moved_id, E1'. f_equal. apply (activated_once o o1' o1); [apply (activated_maybe o o' o1' K A1')|exact A1]. }
    set (f := place ha ha' (fun p => p)). set (D := part ha root).
    assert (one : forall p q : nat, reach ha root p -> reach ha root q -> p = q -> p = q) by auto.
    assert (Old : forall p, reach ha root p -> f p = p) by (intros p R; apply (place_old ha root ha' (fun p => p) Same p R)).
    assert (N : numbering f D (length ha) (length ha')).
    { constructor; [apply (place_inj ha root ha' (fun p => p) one Same)|apply part_later|apply place_new]. }
    exists f, D, (length ha), (length ha'). split; [exact N|]. split; [|intros _ p R; apply Re in R; split; [apply Old, R|left; exact R]].
    assert (Dr : D root) by (left; constructor). assert (RH : rel_heap f D (length ha) (length ha') ha ha') by apply (place_heap ha root ha' (fun p => p) Same).
    rewrite <- (Old root (reach_refl ha root)) at 2. destruct N as [inj later shift]. apply same_then; [apply normalized_sim; assumption|]. intros r2 h2 h2' D2 R2. apply as_bnf_sim; assumption.
  Qed.

  (** ** What stays *)
  (** A rule without forward rules. *)
  Lemma plain_keep fuel (h : heap) root r h' : plain_rule h root -> parser_rule fuel h root = Some (Ok (r, h')) ->
    forall p o, nth_error h p = Some o -> exists o', nth_error h' p = Some o' /\ maybe_active o o'.
  Proof.
    intros P H p o E. unfold RuleModel.parser_rule in H. apply then_ok in H as ((r1 & ha) & H1 & H). apply then_ok in H as ((rn & hn) & H2 & H3).
    destruct (activate_ok activate_pred activate_pipe pred_twice pipe_twice fuel h root r1 ha H1) as [-> A]. destruct (activate_maybe fuel h root root ha H1 p o E) as (o1 & E1 & M). exists o1. split; [|exact M].
    apply (passes_keep pipe_bnf bnf_lines fuel ha root rn hn r h'); auto. intros q Rq. apply (activated_reach activate_pred activate_pipe h ha root A) in Rq. specialize (P q Rq).
    destruct (nth_error h q) as [oq|] eqn:Eq; [|contradiction]. destruct (activate_maybe fuel h root root ha H1 q oq Eq) as (o2 & E2 & M2). destruct (maybe_class oq o2 M2) as [F B]. exists o2. split; [exact E2|]. rewrite F, B. destruct oq; try contradiction; auto.
  Qed.
  (** Objects that are not part of the rule. *)
  Lemma others_keep fuel (h : heap) root r h' : parser_rule fuel h root = Some (Ok (r, h')) ->
    forall p o, ~ reach h root p -> nth_error h p = Some o -> nth_error h' p = Some o.
  Proof.
    intros H p o N E. unfold RuleModel.parser_rule in H. apply then_ok in H as ((r1 & ha) & H1 & H). apply then_ok in H as ((rn & hn) & H2 & H3).
    destruct (activate_ok activate_pred activate_pipe pred_twice pipe_twice fuel h root r1 ha H1) as [-> A]. apply (passes_keep_others pipe_bnf bnf_lines fuel ha root rn hn r h'); auto.
    - intros R. apply N. apply (activated_reach activate_pred activate_pipe h ha root A), R.
    - rewrite (proj2 (proj2 A) p N). exact E.
  Qed.
  (** The other objects of a rule with forward rules. *)
  Lemma source_keep fuel (h : heap) root r h' : source h root -> parser_rule fuel h root = Some (Ok (r, h')) ->
    forall p o, reach h root p -> nth_error h p = Some o -> is_forward o = false -> exists o', nth_error h' p = Some o' /\ activated o o'.
  Proof.
    intros S H p o R E F. unfold RuleModel.parser_rule in H. apply then_ok in H as ((r1 & ha) & H1 & H). apply then_ok in H as ((rn & hn) & H2 & H).
    destruct (activate_ok activate_pred activate_pipe pred_twice pipe_twice fuel h root r1 ha H1) as [-> A]. assert (Sa := source_activated activate_pred activate_pipe h ha root S A).
    destruct (proj1 (proj2 A) p o R E) as (o1 & E1 & A1). exists o1. split; [|exact A1]. assert (F1 : is_forward o1 = false) by (rewrite (proj1 (maybe_class o o1 (or_intror A1))); exact F).
    assert (Pl : plain o1 = true). { destruct (proj1 Sa p (proj1 (activated_reach activate_pred activate_pipe h ha root A p) R)) as (x & Ex & Px & _). rewrite E1 in Ex. injection Ex as <-. exact Px. }
    destruct Sa as (Ga & Oa & oa & Ea & Pa). assert (La : root < length ha) by (apply nth_error_Some; congruence).
    destruct (normalized_ok pipe_bnf bnf_lines fuel ha root (reach ha root) rn hn Ga (reach_refl ha root) H2) as (Gn & Ln & Pn & Kn).
    destruct (normalized_ordered fuel ha root rn hn Oa La H2) as (On & _ & _). destruct (Pn oa Ea) as (on & En & Kin).
    specialize (Kn p o1 E1 F1).
    unfold as_bnf in H. apply then_ok in H as ((r3 & h3) & H3 & H). apply then_ok in H as ((r4 & h4) & H4 & H).
    destruct (nth_error h4 r4) as [o4|] eqn:E4; [|discriminate]. destruct (is_bnf o4) eqn:B; [|discriminate]. destruct (bfs fuel h4 r4) as [objects|] eqn:Bf; [|discriminate]. injection H as <- <-.
    assert (Root : exists o, nth_error hn rn = Some o /\ is_prod o = false) by (exists on; split; [exact En|congruence]).
    destruct (to_bnf_ok pipe_bnf bnf_lines fuel hn rn r3 h3 Gn On Root H3) as (G3 & R3 & _).
    unfold to_bnf in H3. destruct (bfs fuel hn rn) as [l|] eqn:Bl; [|discriminate]. destruct (bfs_ok hn fuel rn l Bl) as (ND & Rl & _).
    destruct (transform_ok pipe_bnf bnf_lines hn rn l ND Rl Gn On Root fuel r3 h3 H3) as (Fin & _ & _ & Rok & K3).
    specialize (K3 p o1 Kn F1).
    assert (Lp : p < length hn) by (apply nth_error_Some; congruence).
    assert (E4p : nth_error h4 p = Some o1).
    { destruct (remove_forward_ok pipe_bnf bnf_lines h3 (reach h3 r3) G3 fuel r3 r4 h4 (reach_refl h3 r3) R3 H4) as (_ & _ & _ & [_ Near]). destruct (Near p o1 K3) as (o' & E' & [->|(ts & ts' & m & -> & _)]); [exact E'|].
      (* an old production is not part of the converted rule *)
      assert (NR : ~ reach h3 r3 p).
      { assert (New : forall x, reach h3 r3 x -> forall ts m, nth_error h3 x = Some (OProd ts m) -> length hn <= x).
        { intros x Rx. inversion Rx as [|y q oq c Rq Eq Hc]; subst.
          - intros ts0 m0 Ex. destruct Rok as (ox & Eo & [[Bo _]|[Fo _]]); rewrite Ex in Eo; injection Eo as <-; discriminate.
          - intros ts0 m0 Ex. destruct (Fin q Rq) as (oq' & Eq' & Nq). rewrite Eq in Eq'. injection Eq' as <-. destruct Nq as [Nq|[->|[->|(d & -> & Gd)]]]; try contradiction.
            + destruct oq; cbn in Nq, Hc; try contradiction.
              * destruct (Nq x Hc) as [(t1 & m1 & _ & L1)|[E1' _]]; [exact L1|congruence].
              * destruct Nq as [_ Nq]. exfalso. revert Hc. clear - Nq Ex. induction Nq as [|a b la lb [Ka _] Nq IH]; [intros []|intros [<-|Hc]; [congruence|exact (IH Hc)]].
              * destruct Nq as [_ Nq]. unfold rule_terms in Hc. apply in_flat_map in Hc as (t & Ht & Hc). destruct t as [rr|pp]; [|contradiction]. destruct Hc as [<-|[]]. destruct (Nq rr Ht) as (ox & Eo & [[Bo _]|[Fo _]]); rewrite Ex in Eo; injection Eo as <-; discriminate.
            + destruct Hc as [<-|[]]. destruct Gd as (od & Ed & Bd & _). rewrite Ex in Ed. injection Ed as <-. discriminate. }
        intros Rp. specialize (New p Rp ts m K3). lia. }
      assert (Keep := run_inplace_keeps h3 (fun x => reach h3 r3 x \/ length h3 <= x) (fun x => x = p)).
      assert (Ld : p < length h3) by (apply nth_error_Some; congruence).
      assert (early : forall x ox, reach h3 r3 x \/ length h3 <= x -> x = p -> nth_error h3 x = Some ox -> is_forward ox = false /\ is_bnf ox = false /\ forall c, In c (children ox) -> c = p /\ c < length h3).
      { intros x ox [Rx|Lx] -> Ex; [destruct (NR Rx)|lia]. }
      destruct (Keep remove_forward_visit fuel h3 r3 r4 h4) as [[[_ Kp] _] _].
      - apply (remove_forward_keeps h3 _ _ early).
      - left. constructor.
      - split; [split; [lia|auto]|]. intros x ox [Rx|Lx] Ex c Hc; [left; eapply reach_step; eassumption|]. assert (x < length h3) by (apply nth_error_Some; congruence). lia.
      - exact H4.
      - apply Kp; [reflexivity|exact K3]. }
    destruct (generate_renamed (bnf_rules h4 objects) 0 h4) as [_ Rn]. destruct (Rn p o1 E4p) as (o' & E' & g & -> & _). rewrite E'. f_equal. destruct o1; try reflexivity; discriminate.
  Qed.
End Again.

(** ** Parsers *)
Section Parsers.
  Variable c : context.
  Notation maybe := (maybe_active (bnf := pipeline_bnf) (activate c) (activate_pipeline c)).
  Notation mixed := (mixed (bnf := pipeline_bnf) (activate c) (activate_pipeline c)).
  Lemma mixed_results U set_order rel fuel (h h' : rule_heap) root text : mixed (reach h root) h h' -> same_results U set_order c rel fuel h root h' root text.
  Proof.
    intros M. destruct (build_same (pipeline_as_bnf U set_order) b_productions (activate c) (activate_pipeline c) (pred_twice c) (pipe_twice c) fuel h h' root M) as (f & D & n0 & n1 & [inj later shift] & S & _).
    apply (results_ren f D inj n0 n1). exact S.
  Qed.
  (** A program that only uses rules without forward rules. *)
  Lemma history_keep (h h' : rule_heap) : history c h h' -> forall p o, nth_error h p = Some o -> is_forward o = false -> exists o', nth_error h' p = Some o' /\ maybe o o'.
  Proof.
    induction 1 as [|h1 x H IH|h1 f d r H IH Ef|h1 U set_order fuel root r h2 H IH P B]; intros p o E F.
    - exists o. split; [exact E|left; reflexivity].
    - destruct (IH p o E F) as (o' & E' & M). exists o'. split; [|exact M]. rewrite nth_error_app1; [exact E'|]. apply nth_error_Some. congruence.
    - destruct (IH p o E F) as (o' & E' & M). exists o'. split; [|exact M]. destruct (Nat.eq_dec p f) as [->|N]; [|rewrite setitem_other by auto; exact E']. rewrite Ef in E'. injection E' as <-. destruct (maybe_class (activate c) (activate_pipeline c) _ _ M) as [K _]. rewrite F in K. discriminate.
    - destruct (IH p o E F) as (o1 & E1 & M1). destruct (plain_keep _ _ (activate c) (activate_pipeline c) (pred_twice c) (pipe_twice c) fuel h1 root r h2 P B p o1 E1) as (o2 & E2 & M2). exists o2. split; [exact E2|]. eapply maybe_trans; eauto using pred_twice, pipe_twice.
  Qed.
  Theorem history_results (h h' : rule_heap) U set_order rel fuel root text : history c h h' -> plain_rule h root -> same_results U set_order c rel fuel h root h' root text.
  Proof.
    intros H P. apply mixed_results. intros p R. assert (K := P p R). destruct (nth_error h p) as [o|] eqn:E; [|contradiction]. destruct (history_keep h h' H p o E) as (o' & E' & M); [destruct o; try reflexivity; contradiction|].
    exists o, o'. split; [reflexivity|]. split; [exact E'|]. split; [exact M|]. intros x Hx. eapply reach_step; eassumption.
  Qed.
  (** Parsers from rules of one heap, no forward rule used twice. *)
  Lemma built_reach (h : rule_heap) root p : built h -> is_rule_at h root -> reach h root p -> exists o, nth_error h p = Some o.
  Proof.
    intros B R Rp. apply built_sound in B. apply is_rule_prod in R as (o & E & _). destruct Rp as [|y q oq x Rq Eq Hx]; [eauto|]. destruct (B q oq Eq) as (_ & _ & C). destruct (C x Hx) as (ox & Ex & _). eauto.
  Qed.
  Definition spared (h : rule_heap) (done : list nat) (p : nat) (o : obj predicate pipeline pipeline_bnf) : Prop := is_forward o = false \/ forall r, In r done -> ~ reach h r p.
  Lemma own_mixed (h h' : rule_heap) done root : built h -> is_rule_at h root -> own_forwards h done root ->
    (forall p o, nth_error h p = Some o -> spared h done p o -> exists o', nth_error h' p = Some o' /\ maybe o o') -> mixed (reach h root) h h'.
  Proof.
    intros B R Own K p Rp. destruct (built_reach h root p B R Rp) as (o & E). destruct (K p o E) as (o' & E' & M).
    - destruct (is_forward o) eqn:F; [right|left; exact F]. destruct o; try discriminate. apply (Own p _ Rp E).
    - exists o, o'. split; [exact E|]. split; [exact E'|]. split; [exact M|]. intros x Hx. eapply reach_step; eassumption.
  Qed.
  Lemma constructed_keep (h : rule_heap) : built h -> forall done h', constructed c h done h' -> forall p o, nth_error h p = Some o -> spared h done p o -> exists o', nth_error h' p = Some o' /\ maybe o o'.
  Proof.
    intros Bh. induction 1 as [|done h1 U set_order fuel root r h2 H IH R Fl Own B]; intros p o E Sp.
    - exists o. split; [exact E|left; reflexivity].
    - assert (M := own_mixed h h1 done root Bh R Own IH). assert (S := built_source h root Bh Fl R).
      assert (Sp1 : spared h done p o) by (destruct Sp as [F|Sp]; [left; exact F|right; intros x Hx; apply Sp; right; exact Hx]). destruct (IH p o E Sp1) as (o1 & E1 & M1).
      destruct S as (Gr & Or & Ro). assert (Lr : root < length h) by (destruct Ro as (oR & ER & _); apply nth_error_Some; congruence).
      destruct (reach_dec h root Or Lr p) as [Rp|Np].
      + destruct Sp as [F|Sp]; [|destruct (Sp root (or_introl eq_refl) Rp)].
        destruct (build_same (pipeline_as_bnf U set_order) b_productions (activate c) (activate_pipeline c) (pred_twice c) (pipe_twice c) fuel h h1 root M) as (f & D & n0 & n1 & N & SR & Old).
        unfold build_rule in B. rewrite B in SR. unfold same_run in SR.
        destruct (parser_rule (pipeline_as_bnf U set_order) b_productions (activate c) (activate_pipeline c) fuel h root) as [[[r0 h20]|e]|] eqn:B0; try contradiction. destruct SR as (_ & _ & RH).
        destruct (source_keep _ _ _ _ (pred_twice c) (pipe_twice c) fuel h root r0 h20 (conj Gr (conj Or Ro)) B0 p o Rp E F) as (o2 & E2 & A2).
        destruct (Old (ex_intro _ _ eq_refl) p Rp) as [Fp Dp]. destruct (proj2 (proj2 RH) p Dp) as [Eq _]. rewrite Fp, E2 in Eq. cbn in Eq. exists o2. split; [|right; exact A2]. rewrite Eq. f_equal.
        rewrite <- (moved_id o2) at 2. apply moved_same. intros x Hx. apply (Old (ex_intro _ _ eq_refl)). rewrite (activated_children _ _ _ _ A2) in Hx. eapply reach_step; eassumption.
      + exists o1. split; [|exact M1]. apply (others_keep _ _ _ _ (pred_twice c) (pipe_twice c) fuel h1 root r h2 B p o1); [|exact E1]. intros R1. apply Np, (mixed_reach (activate c) (activate_pipeline c) h h1 root M p), R1.
  Qed.
  Theorem constructed_results (h h' : rule_heap) done U set_order rel fuel root text : built h -> constructed c h done h' -> is_rule_at h root -> own_forwards h done root ->
    same_results U set_order c rel fuel h root h' root text.
  Proof. intros B H R Own. apply mixed_results. apply (own_mixed h h' done root B R Own). apply (constructed_keep h B done h' H). Qed.
End Parsers.
