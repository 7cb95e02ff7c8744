(** Rules built by the functions of the library are well formed. *)
From Verif Require Import Base SpanProofs EarleyModel RuleModel RuleSpec RuleWords RuleLike RulePass RuleMethods RuleOrder RuleParser RuleBuild.
Open Scope nat_scope.

Section Built.
  Context {pred pipe bnf : Type}.
  Notation obj := (obj pred pipe bnf).
  Notation heap := (heap pred pipe bnf).
  Notation is_rule_at := (is_rule_at (pred := pred) (pipe := pipe) (bnf := bnf)).

  Lemma is_rule_prod (h : heap) p : is_rule_at h p <-> exists o, nth_error h p = Some o /\ is_prod o = false.
  Proof. split; intros (o & E & K); exists o; (split; [exact E|]); destruct o; try reflexivity; try contradiction; try discriminate; exact I. Qed.

  Definition sound_obj (h : heap) (p : nat) (o : obj) : Prop :=
    plain o = true /\ shape o /\ forall c, In c (children o) -> exists oc, nth_error h c = Some oc /\ is_prod oc = has_prods o /\ (is_forward o = false -> c < p).
  Definition sound (h : heap) : Prop := forall p o, nth_error h p = Some o -> sound_obj h p o.

  Lemma sound_new (o : obj) h : sound h -> plain o = true -> shape o -> (forall c, In c (children o) -> exists oc, nth_error h c = Some oc /\ is_prod oc = has_prods o) ->
    sound (h ++ [o]).
  Proof.
    intros S P Sh K p x E. assert (Old : forall c oc, nth_error h c = Some oc -> nth_error (h ++ [o]) c = Some oc).
    { intros c oc Ec. rewrite nth_error_app1; [exact Ec|]. apply nth_error_Some. congruence. }
    destruct (Nat.lt_ge_cases p (length h)) as [L|L].
    - rewrite nth_error_app1 in E by exact L. destruct (S p x E) as (A & B & C). split; [exact A|]. split; [exact B|]. intros c Hc. destruct (C c Hc) as (oc & Ec & D). exists oc. split; [apply Old, Ec|exact D].
    - rewrite nth_error_app2 in E by exact L. destruct (p - length h) as [|k] eqn:D; [|destruct k; discriminate]. injection E as <-. split; [exact P|]. split; [exact Sh|].
      intros c Hc. destruct (K c Hc) as (oc & Ec & Pc). exists oc. split; [apply Old, Ec|]. split; [exact Pc|]. intros _. assert (c < length h) by (apply nth_error_Some; congruence). lia.
  Qed.
  Lemma sound_define (h : heap) f d r : sound h -> nth_error h f = Some (OForward d) -> is_rule_at h r -> sound (setitem h f (OForward (Some r))).
  Proof.
    intros S Ef Hr p o E. apply is_rule_prod in Hr as (or & Er & Pr). assert (Lf : f < length h) by (apply nth_error_Some; congruence).
    assert (Keep : forall c oc, nth_error h c = Some oc -> exists oc', nth_error (setitem h f (OForward (Some r))) c = Some oc' /\ is_prod oc' = is_prod oc).
    { intros c oc Ec. destruct (Nat.eq_dec c f) as [->|N]; [rewrite setitem_same by exact Lf; eexists; split; [reflexivity|]; rewrite Ef in Ec; injection Ec as <-; reflexivity|].
      rewrite setitem_other by auto. eauto. }
    destruct (Nat.eq_dec p f) as [->|N].
    - rewrite setitem_same in E by exact Lf. injection E as <-. split; [reflexivity|]. split; [exact I|]. intros c [<-|[]]. destruct (Keep r or Er) as (o' & E' & P'). exists o'. split; [exact E'|]. split; [cbn; congruence|discriminate].
    - rewrite setitem_other in E by auto. destruct (S p o E) as (A & B & C). split; [exact A|]. split; [exact B|]. intros c Hc. destruct (C c Hc) as (oc & Ec & Pc & Lc).
      destruct (Keep c oc Ec) as (oc' & Ec' & Pc'). exists oc'. split; [exact Ec'|]. split; [congruence|exact Lc].
  Qed.
  Lemma forward_of_ok fuel (h : heap) f f' : forward_of fuel h f = Ok f' -> exists d, nth_error h f' = Some (OForward d).
  Proof.
    revert f. induction fuel as [|fuel IH]; intros f; cbn; [discriminate|]. destruct (nth_error h f) as [o|] eqn:E; [|discriminate]. destruct o; try discriminate; try apply IH. intros H. injection H as <-. eauto.
  Qed.
  Lemma prepare_terms_ok (items : list (item (pred := pred))) : forall i m ts k, prepare_terms items i m = Ok (ts, k) -> (match m with Some x => x < i | None => True end) ->
    ts = map item_term items /\ (k = 0 \/ k < i + length ts).
  Proof.
    induction items as [|x items IH]; intros i m ts k; cbn [prepare_terms].
    - intros H K. injection H as <- <-. split; [reflexivity|]. destruct m; [right; cbn; lia|left; reflexivity].
    - intros H K. set (m' := match x, m with Main _, Some _ => Err ValueError | Main _, None => Ok (Some i) | Plain _, _ => Ok m end) in H.
      destruct m' as [y|] eqn:Em; [|discriminate]. cbn [bind] in H. destruct (prepare_terms items (S i) y) as [[ts' k']|] eqn:E; [|discriminate]. cbn in H. injection H as <- <-.
      apply IH in E as [-> Hk]; [|destruct x, m; try discriminate Em; injection Em as <-; try exact I; lia]. split; [reflexivity|]. cbn. lia.
  Qed.
  Lemma production_ok (items : list item) (o : obj) : RuleModel.production items 0 = Ok o -> exists m, o = OProd (map item_term items) m /\ (m = 0 \/ m < length (map item_term items)).
  Proof.
    unfold RuleModel.production. destruct (prepare_terms items 0 None) as [[ts k]|] eqn:E; [|discriminate]. cbn. intros H. injection H as <-. apply prepare_terms_ok in E as [-> K]; [|exact I]. eauto.
  Qed.
  Lemma new_rule_ok (items : list item) (h : heap) r h' : sound h -> (forall x, In x (rule_terms (map item_term items)) -> is_rule_at h x) -> new_rule items h = Ok (r, h') ->
    sound h' /\ is_rule_at h' r /\ forall p o, nth_error h p = Some o -> nth_error h' p = Some o.
  Proof.
    intros S K. unfold new_rule. destruct (RuleModel.production items 0) as [o|] eqn:E; [|discriminate]. cbn. intros H. injection H as <- <-. apply production_ok in E as (m & -> & M).
    assert (S1 : sound (h ++ [OProd (map item_term items) m])).
    { apply sound_new; [exact S|reflexivity|exact M|]. intros c Hc. apply K in Hc. apply is_rule_prod in Hc. exact Hc. }
    split; [|split].
    - apply sound_new; [exact S1|reflexivity|exact I|]. intros c [<-|[]]. eexists. rewrite nth_error_app2 by lia. rewrite Nat.sub_diag. split; reflexivity.
    - exists (ORule [length h]). split; [|exact I]. rewrite nth_error_app2 by lia. rewrite Nat.sub_diag. reflexivity.
    - intros p o Eo. assert (p < length h) by (apply nth_error_Some; congruence). rewrite nth_error_app1 by (rewrite app_length; lia). rewrite nth_error_app1 by lia. exact Eo.
  Qed.
  Lemma repeatable_shape r min max rev (o : obj) : repeatable r min max rev = Ok o -> plain o = true /\ shape o /\ children o = [r] /\ has_prods o = false.
  Proof.
    unfold repeatable, assert_greater_equals. destruct (truthy min) as [m|], (truthy max) as [n|]; repeat (match goal with |- context [Z.ltb ?a ?b] => destruct (Z.ltb_spec a b) end; cbn; try discriminate);
      intros K; injection K as <-; repeat split; cbn; lia.
  Qed.
  Lemma after_call_sound c (h : heap) : sound h -> (forall r, In r (call_rules c) -> is_rule_at h r) -> sound (after_call c h).
  Proof.
    intros S K. unfold after_call. destruct (run_call c h) as [[r h']|] eqn:E; [|exact S].
    assert (One : forall o : obj, plain o = true -> shape o -> has_prods o = false -> (forall x, In x (children o) -> In x (call_rules c)) -> sound (h ++ [o])).
    { intros o P Sh B Q. apply sound_new; [exact S|exact P|exact Sh|]. intros x Hx. rewrite B. apply is_rule_prod, K, Q, Hx. }
    destruct c; cbn [run_call] in E; try (injection E as <- <-; apply One; try reflexivity; try exact I; cbn; intros y Hy; exact Hy).
    - apply (new_rule_ok items h r h' S K E).
    - destruct (repeatable r0 min max reverse) as [o|] eqn:R; [|discriminate]. injection E as <- <-. apply repeatable_shape in R as (P & Sh & C & B). apply One; auto. rewrite C. intros x Hx. exact Hx.
    - unfold define_forward in E. destruct (forward_of (Datatypes.S (length h)) h f) as [f'|] eqn:F; [|discriminate]. apply forward_of_ok in F as (d & F). cbn in E.
      assert (R : is_rule_at h r0) by (apply K; right; left; reflexivity).
      assert (Q : Ok (f', setitem h f' (OForward (Some r0))) = Ok (r, h')) by (destruct (nth_error h r0) as [[]|]; try discriminate E; exact E).
      injection Q as <- <-. apply (sound_define h f' d r0 S F R).
    - destruct (forward_of (Datatypes.S (length h)) h f) as [f'|] eqn:F; [|discriminate]. apply forward_of_ok in F as (d & F). cbn [bind] in E.
      destruct (new_rule items h) as [[x h1]|] eqn:R; [|discriminate]. cbn in E. injection E as <- <-.
      apply new_rule_ok in R as (S1 & Rx & Keep); [|exact S|intros x' Hx'; apply K; right; exact Hx']. apply (sound_define h1 f' d x S1 (Keep f' _ F) Rx).
  Qed.
  Theorem built_sound (h : heap) : built h -> sound h.
  Proof. intros B. induction B as [|c h B IH K]; [intros p o E; destruct p; discriminate|]. apply after_call_sound; auto. Qed.

  Lemma built_source (h : heap) root : built h -> flat h root -> is_rule_at h root -> source h root.
  Proof.
    intros B F R. apply built_sound in B. apply is_rule_prod in R as (o & E & P). assert (O : ordered h).
    { intros p x c Ex Hc. destruct (B p x Ex) as (_ & _ & C). destruct (C c Hc) as (oc & Ec & _ & L). split; [apply nth_error_Some; congruence|exact L]. }
    split; [|split; [exact O|eauto]].
    intros p Rp. assert (exists x, nth_error h p = Some x) as (x & Ex).
    { clear F. destruct Rp as [|root p y c Rp Ey Hc]; [eauto|]. destruct (B p y Ey) as (_ & _ & C). destruct (C c Hc) as (oc & Ec & _). eauto. }
    exists x. split; [exact Ex|]. destruct (B p x Ex) as (A & Sh & C). split; [exact A|]. split; [exact Sh|]. intros c Hc. split; [apply (reach_step h root p x c Rp Ex Hc)|].
    destruct (C c Hc) as (oc & Ec & Pc & _). exists oc. split; [exact Ec|]. split; [exact Pc|]. intros Q. apply (F p x c oc Rp Ex Q Hc Ec).
  Qed.
End Built.
