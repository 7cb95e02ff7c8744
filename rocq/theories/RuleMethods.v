(** The passes of Rule.normalized preserve words. *)
From Verif Require Import Base EarleyModel RuleModel RuleSpec RuleWords RuleLike RulePass.
Open Scope nat_scope.

Section Stages.
  Context {pred pipe bnf : Type}.
  Notation obj := (obj pred pipe bnf).
  Definition plain (o : obj) : bool := match o with OBNF _ _ | OPipeBNF _ _ _ | OPipeProd _ _ => false | _ => true end.
  Definition no_quant (o : obj) : bool := plain o && negb (is_quant o).
  Definition no_or (o : obj) : bool := no_quant o && match o with OOr _ => false | _ => true end.
  Definition no_empty (o : obj) : bool := no_or o && match o with OEmpty => false | _ => true end.
  Definition nothing (o : obj) : bool := false.
End Stages.

Section Core.
  Context {pred pipe bnf : Type}.
  Notation obj := (obj pred pipe bnf).
  Notation heap := (heap pred pipe bnf).
  Notation M := (M pred pipe bnf).
  Notation state := (state pred pipe bnf).
  Notation visitor := (visitor pred pipe bnf).
  Variable pipe_bnf : pipe -> res bnf.
  Variable bnf_lines : bnf -> list (str * list pred).
  Notation like := (like pipe_bnf bnf_lines).
  Notation denotes := (denotes pipe_bnf bnf_lines).
  Notation open_words := (open_words pipe_bnf bnf_lines).
  Variables allowed produced special : obj -> bool.
  Hypothesis produced_allowed : forall o, produced o = true -> allowed o = true.
  Variable n0 : nat.
  Variable G : nat -> Prop.
  Notation old := (old n0).
  Notation dom := (dom n0 G).
  Notation clean := (clean produced n0).
  Notation pair := (pair pipe_bnf bnf_lines produced special n0 G).
  Notation heap_inv := (heap_inv allowed produced special n0 G).
  Notation inv := (inv pipe_bnf bnf_lines allowed produced special n0 G).
  Notation keeps := (keeps pipe_bnf bnf_lines allowed produced special n0 G).
  Notation visit_ok := (visit_ok pipe_bnf bnf_lines allowed produced special n0 G).

  (** ** Lists of visits *)
  Lemma mapMM_ok {A B} (f : A -> M B) (Pre : heap -> A -> Prop) (Post : heap -> A -> B -> Prop) :
    (forall h t x, Pre h x -> Pre (h ++ t) x) ->
    (forall h t x y, heap_inv h -> Pre h x -> Post h x y -> Post (h ++ t) x y) ->
    (forall x s y s', inv s -> Pre (st_heap s) x -> f x s = Some (Ok (y, s')) -> ext s s' /\ inv s' /\ Post (st_heap s') x y) ->
    forall l s ys s', inv s -> Forall (Pre (st_heap s)) l -> mapMM f l s = Some (Ok (ys, s')) ->
    ext s s' /\ inv s' /\ Forall2 (Post (st_heap s')) l ys.
  Proof.
    intros Up Uq F. induction l as [|x l IH]; intros s ys s' I P H; cbn [mapMM] in H.
    - apply ret_ok in H as [-> ->]. split; [apply ext_refl|]. split; [exact I|constructor].
    - inversion P as [|? ? Px Pl]; subst. apply bind_ok in H as (y & s1 & H1 & H). apply bind_ok in H as (ys' & s2 & H2 & H). apply ret_ok in H as [-> ->].
      destruct (F x s y s1 I Px H1) as (X1 & I1 & Q1).
      assert (Pl1 : Forall (Pre (st_heap s1)) l) by (destruct X1 as [t ->]; revert Pl; apply Forall_impl; intros; auto).
      destruct (IH s1 ys' s2 I1 Pl1 H2) as (X2 & I2 & Q2). split; [eapply ext_trans; eassumption|]. split; [exact I2|].
      constructor; [|exact Q2]. assert (Px1 : Pre (st_heap s1) x) by (destruct X1 as [t ->]; auto).
      destruct X2 as [t ->]. apply Uq; [apply I1|exact Px1|exact Q1].
  Qed.
  Lemma visits_ok V : visit_ok V -> forall l s ys s', inv s -> Forall (dom (st_heap s)) l -> mapMM V l s = Some (Ok (ys, s')) ->
    ext s s' /\ inv s' /\ Forall2 (pair (st_heap s')) l ys.
  Proof.
    intros OK. apply mapMM_ok.
    - intros h t x. apply dom_app.
    - intros h t x y I D P. eapply pair_app; eassumption.
    - intros x s y s' I D H. apply (OK x s y s' I D H).
  Qed.
  Definition term_dom (h : heap) (t : term pred) : Prop := match t with TRule r => dom h r | TPred _ => True end.
  Lemma terms_ok V : visit_ok V -> forall l s ys s', inv s -> Forall (term_dom (st_heap s)) l -> mapMM (visit_term V) l s = Some (Ok (ys, s')) ->
    ext s s' /\ inv s' /\ Forall2 (like_term (pair (st_heap s'))) l ys.
  Proof.
    intros OK. apply (mapMM_ok (visit_term V) term_dom (fun h => like_term (pair h))).
    - intros h t [r|p]; cbn; [apply dom_app|auto].
    - intros h t [r|p] [r'|p'] I D P; cbn in *; auto. eapply pair_app; eassumption.
    - intros [r|p] s y s' I D H; cbn [visit_term] in H.
      + apply bind_ok in H as (r' & s1 & H1 & H). apply ret_ok in H as [-> ->]. apply (OK r s r' s1 I D H1).
      + apply ret_ok in H as [-> ->]. split; [apply ext_refl|]. split; [exact I|reflexivity].
  Qed.

  (** ** Objects *)
  Lemma obj_like opaque h p o p' o' : nth_error h p = Some o -> nth_error h p' = Some o' ->
    is_forward o && opaque p = false -> is_forward o' && opaque p' = false ->
    (forall kd, same (denotes kd (open_words kd opaque h) o) (denotes kd (open_words kd opaque h) o')) ->
    (forall q, (exists c, In c (children o) /\ uses opaque h c q) <-> exists c, In c (children o') /\ uses opaque h c q) ->
    like opaque h p p'.
  Proof.
    intros E E' F F' S U. split.
    - intros kd w. rewrite (open_words_step pipe_bnf bnf_lines kd opaque h p w), (open_words_step pipe_bnf bnf_lines kd opaque h p' w).
      unfold step. split.
      + intros (o1 & E1 & H). rewrite E in E1. injection E1 as <-. rewrite F in H. exists o'. split; [exact E'|]. rewrite F'. apply S, H.
      + intros (o1 & E1 & H). rewrite E' in E1. injection E1 as <-. rewrite F' in H. exists o. split; [exact E|]. rewrite F. apply S, H.
    - intros q. rewrite (uses_obj opaque h p o q E F), (uses_obj opaque h p' o' q E' F'). apply U.
  Qed.

  Lemma copy_in (R R' : nat -> nat -> Prop) o o' : (forall c c', In c (children o) -> R c c' -> R' c c') -> copy (pred:=pred) (pipe:=pipe) (bnf:=bnf) R o o' -> copy R' o o'.
  Proof.
    intros H C. destruct C; cbn [children] in H; constructor; try (apply H; [left; reflexivity|assumption]).
    - induction H0; constructor; [apply H; [left; reflexivity|assumption]|]. apply IHForall2. intros c c' Hc. apply H. right. exact Hc.
    - induction H0; constructor; [apply H; [left; reflexivity|assumption]|]. apply IHForall2. intros c c' Hc. apply H. right. exact Hc.
    - unfold rule_terms in H. induction H0 as [|x y l l' K F IH]; constructor.
      + destruct x, y; cbn in *; try contradiction; [|assumption]. apply H; [left; reflexivity|assumption].
      + apply IH. intros c c' Hc. apply H. cbn. apply in_or_app. right. exact Hc.
  Qed.
  Lemma copy_form R o o' : copy (pred:=pred) (pipe:=pipe) (bnf:=bnf) R o o' -> is_prod o' = is_prod o /\ has_prods o' = has_prods o /\ (shape o -> shape o') /\ atomic o = false.
  Proof.
    intros C. destruct C; cbn; auto. repeat split; auto. intros [->|L]; [left; reflexivity|right].
    clear - H L. assert (E : length ts = length ts') by (clear L; induction H; cbn; auto). lia.
  Qed.

  Lemma not_atomic_clean h p o : nth_error h p = Some o -> atomic o = false -> clean h p -> n0 <= p.
  Proof. intros E A [N|(o' & E' & A' & _)]; [exact N|]. congruence. Qed.

  (** Allocating a copy. *)
  Lemma copy_pair h p o n o' : heap_inv h -> dom h p -> dom h n -> n0 <= n -> nth_error h p = Some o -> nth_error h n = Some o' ->
    copy (pair h) o o' -> special o' = special o -> pair h p n.
  Proof.
    intros I Dp Dn N E E' C S. destruct (copy_form _ _ _ C) as (P1 & P2 & P3 & P4). constructor.
    - exact Dn.
    - left. exact N.
    - intros o1 E1. rewrite E in E1. injection E1 as <-. eauto.
    - apply (copy_like pipe_bnf bnf_lines old h p o n o' E E'). revert C. apply copy_in. intros c c' _ Pc. apply (pair_old _ _ _ _ _ _ _ _ _ Pc).
    - intros Cp. apply (copy_like pipe_bnf bnf_lines all h p o n o' E E'). revert C. apply copy_in. intros c c' Hc Pc.
      apply (pair_all _ _ _ _ _ _ _ _ _ Pc). apply (proj2 (inv_new _ _ _ _ _ _ I p o (not_atomic_clean h p o E P4 Cp) E) c Hc).
  Qed.
  Lemma alloc_copy s p o o' r s' : inv s -> dom (st_heap s) p -> nth_error (st_heap s) p = Some o ->
    copy (pair (st_heap s)) o o' -> produced o' = true -> special o' = special o -> alloc o' s = Some (Ok (r, s')) -> keeps s p r s'.
  Proof.
    intros I D E C P S H. unfold alloc in H. injection H as <- <-. set (h := st_heap s) in *.
    assert (I' : heap_inv (h ++ [o'])).
    { apply heap_inv_app; [apply I|]. intros x [<-|[]]. split; [exact P|]. destruct (inv_graph _ _ _ _ _ _ (inv_heap _ _ _ _ _ _ _ _ I) p D) as (o1 & E1 & A & Sh & Co).
      fold h in E1. rewrite E in E1. injection E1 as <-. destruct (copy_form _ _ _ C) as (P1 & P2 & P3 & P4).
      assert (K : forall c', In c' (children o') -> exists c, In c (children o) /\ pair h c c').
      { intros c' Hc'. destruct (copy_children _ _ _ c' (copy_flip _ _ _ C) Hc') as (c & Hc & Q). eauto. }
      split; [split; [apply produced_allowed, P|split; [apply P3, Sh|]]|].
      - intros c' Hc'. destruct (K c' Hc') as (c & Hc & Q). destruct (Co c Hc) as (Dc & oc & Ec & X1 & X2).
        destruct (pair_form _ _ _ _ _ _ _ _ _ Q oc Ec) as (oc' & Ec' & Y1 & Y2).
        split; [apply dom_app, (pair_dom _ _ _ _ _ _ _ _ _ Q)|]. exists oc'. split; [apply nth_old, Ec'|]. split; [congruence|]. rewrite S, Y2. exact X2.
      - intros c' Hc'. destruct (K c' Hc') as (c & Hc & Q). apply clean_app, (pair_clean _ _ _ _ _ _ _ _ _ Q). }
    split; [exists [o']; reflexivity|]. split; [apply inv_app; assumption|]. cbn [st_heap].
    apply copy_pair with (o := o) (o' := o').
    - exact I'.
    - apply dom_app, D.
    - split; [rewrite app_length; cbn; lia|right; apply (inv_size _ _ _ _ _ _ (inv_heap _ _ _ _ _ _ _ _ I))].
    - apply (inv_size _ _ _ _ _ _ (inv_heap _ _ _ _ _ _ _ _ I)).
    - apply nth_old, E.
    - apply nth_new.
    - revert C. apply copy_in. intros c c' Hc Q. apply (pair_app pipe_bnf bnf_lines allowed produced special n0 G h [o'] c c'); [apply I| |exact Q].
      destruct (inv_graph _ _ _ _ _ _ (inv_heap _ _ _ _ _ _ _ _ I) p D) as (o1 & E1 & A & Sh & Co). fold h in E1. rewrite E in E1. injection E1 as <-. apply (Co c Hc).
    - exact S.
  Qed.
  Lemma self_pair h p o : dom h p -> nth_error h p = Some o -> atomic o = true -> produced o = true -> pair h p p.
  Proof.
    intros D E A P. constructor.
    - exact D.
    - right. exists o. auto.
    - intros o1 E1. eauto.
    - apply like_refl.
    - intros _. apply like_refl.
  Qed.

  (** ** RuleTransformator *)
  Lemma child_dom s p o c : inv s -> dom (st_heap s) p -> nth_error (st_heap s) p = Some o -> In c (children o) -> dom (st_heap s) c.
  Proof. intros I D E Hc. destruct (inv_graph _ _ _ _ _ _ (inv_heap _ _ _ _ _ _ _ _ I) p D) as (o1 & E1 & _ & _ & Co). rewrite E in E1. injection E1 as <-. apply (Co c Hc). Qed.
  Lemma children_dom s p o : inv s -> dom (st_heap s) p -> nth_error (st_heap s) p = Some o -> Forall (dom (st_heap s)) (children o).
  Proof. intros I D E. apply Forall_forall. intros c Hc. apply (child_dom s p o c I D E Hc). Qed.
  Lemma terms_dom s p ts main : inv s -> dom (st_heap s) p -> nth_error (st_heap s) p = Some (OProd ts main) -> Forall (term_dom (st_heap s)) ts.
  Proof.
    intros I D E. apply Forall_forall. intros [r|q] Hr; [|exact Logic.I]. apply (child_dom s p _ r I D E). apply in_rule_terms, Hr.
  Qed.

  Lemma visit_copy V s p o r (f : nat -> obj) q s' : visit_ok V -> inv s -> dom (st_heap s) p -> nth_error (st_heap s) p = Some o -> children o = [r] ->
    (forall (R : nat -> nat -> Prop) (r' : nat), R r r' -> copy R o (f r')) -> (forall r', produced (f r') = true /\ special (f r') = special o) ->
    bindM (V r) (fun r' => alloc (f r')) s = Some (Ok (q, s')) -> keeps s p q s'.
  Proof.
    intros OK I D E Ch C P H. apply bind_ok in H as (r' & s1 & H1 & H).
    assert (Dr : dom (st_heap s) r) by (apply (child_dom s p o r I D E); rewrite Ch; left; reflexivity).
    destruct (OK r s r' s1 I Dr H1) as (X & I1 & Q).
    destruct (alloc_copy s1 p o (f r') q s' I1 (ext_dom n0 G s s1 p X D) (ext_get s s1 p o X E) (C _ r' Q) (proj1 (P r')) (proj2 (P r')) H) as (X2 & I2 & Q2).
    split; [eapply ext_trans; eassumption|]. auto.
  Qed.
  Lemma base_ok V s p o r s' : visit_ok V -> inv s -> dom (st_heap s) p -> nth_error (st_heap s) p = Some o -> plain o = true ->
    (forall (R : nat -> nat -> Prop) o', copy R o o' -> produced o' = true /\ special o' = special o) -> (atomic o = true -> produced o = true) ->
    base_method V p o s = Some (Ok (r, s')) -> keeps s p r s'.
  Proof.
    intros OK I D E Pl C A H.
    assert (Self : atomic o = true -> ret p s = Some (Ok (r, s')) -> keeps s p r s').
    { intros At K. apply ret_ok in K as [-> ->]. split; [apply ext_refl|]. split; [exact I|]. apply (self_pair _ _ o); auto. }
    destruct o as [ps|rs|r0 rev|r0 rev|r0 rr ro|r0 m rev|r0 m rev|r0 m n rev|r0 n|r0 i|r0 rel|d| |pl|ps a|b ps a|ts m| |k ps]; cbn [base_method] in H; try discriminate; try (apply Self; [reflexivity|exact H]).
    - apply bind_ok in H as (ps' & s1 & H1 & H). destruct (visits_ok V OK ps s ps' s1 I (children_dom s p _ I D E) H1) as (X & I1 & F).
      assert (K : copy (pair (st_heap s1)) (ORule ps : obj) (ORule ps')) by (constructor; exact F). destruct (C _ _ K) as [C1 C2].
      destruct (alloc_copy s1 p _ _ r s' I1 (ext_dom n0 G s s1 p X D) (ext_get s s1 p _ X E) K C1 C2 H) as (X2 & I2 & Q2).
      split; [eapply ext_trans; eassumption|]. auto.
    - apply bind_ok in H as (ps' & s1 & H1 & H). destruct (visits_ok V OK rs s ps' s1 I (children_dom s p _ I D E) H1) as (X & I1 & F).
      assert (K : copy (pair (st_heap s1)) (OOr rs : obj) (OOr ps')) by (constructor; exact F). destruct (C _ _ K) as [C1 C2].
      destruct (alloc_copy s1 p _ _ r s' I1 (ext_dom n0 G s s1 p X D) (ext_get s s1 p _ X E) K C1 C2 H) as (X2 & I2 & Q2).
      split; [eapply ext_trans; eassumption|]. auto.
    - eapply (visit_copy V s p _ r0 (fun r' => OMin r' m rev)); eauto; [intros; constructor; assumption|]. intros r'. eapply (C (fun _ _ => True)). constructor. exact Logic.I.
    - eapply (visit_copy V s p _ r0 (fun r' => OMax r' m rev)); eauto; [intros; constructor; assumption|]. intros r'. eapply (C (fun _ _ => True)). constructor. exact Logic.I.
    - eapply (visit_copy V s p _ r0 (fun r' => OMinMax r' m n rev)); eauto; [intros; constructor; assumption|]. intros r'. eapply (C (fun _ _ => True)). constructor. exact Logic.I.
    - eapply (visit_copy V s p _ r0 (fun r' => ONamed r' n)); eauto; [intros; constructor; assumption|]. intros r'. eapply (C (fun _ _ => True)). constructor. exact Logic.I.
    - eapply (visit_copy V s p _ r0 (fun r' => OInterp r' i)); eauto; [intros; constructor; assumption|]. intros r'. eapply (C (fun _ _ => True)). constructor. exact Logic.I.
    - eapply (visit_copy V s p _ r0 (fun r' => ORelation r' rel)); eauto; [intros; constructor; assumption|]. intros r'. eapply (C (fun _ _ => True)). constructor. exact Logic.I.
    - unfold visit_Production in H. apply bind_ok in H as (ts' & s1 & H1 & H). destruct (terms_ok V OK ts s ts' s1 I (terms_dom s p ts m I D E) H1) as (X & I1 & F).
      assert (K : copy (pair (st_heap s1)) (OProd ts m : obj) (OProd ts' m)) by (constructor; exact F). destruct (C _ _ K) as [C1 C2].
      destruct (alloc_copy s1 p _ _ r s' I1 (ext_dom n0 G s s1 p X D) (ext_get s s1 p _ X E) K C1 C2 H) as (X2 & I2 & Q2).
      split; [eapply ext_trans; eassumption|]. auto.
  Qed.
End Core.
