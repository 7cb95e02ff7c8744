(** What activation does to a rule graph, and acceptance under it. *)
From Verif Require Import Base SpanProofs TokenModel EarleyModel RuleModel RuleSpec RuleWords RuleLike RulePass RuleMethods RuleExpand RuleNormal RuleOrder RuleBfs RuleBNF RuleForward RuleAccept RuleGrammar.
Open Scope nat_scope.

Section Activate.
  Context {pred pipe bnf : Type}.
  Notation obj := (obj pred pipe bnf).
  Notation heap := (heap pred pipe bnf).
  Notation M := (M pred pipe bnf).
  Notation state := (state pred pipe bnf).
  Variable activate_pred : pred -> res pred.
  Variable activate_pipe : pipe -> res pipe.
  Notation activate_visit := (activate_visit (bnf := bnf) activate_pred activate_pipe).

  Notation activated_term := (activated_term activate_pred).
  Notation activated := (activated (bnf := bnf) activate_pred activate_pipe).
  Notation activated_graph := (activated_graph (bnf := bnf) activate_pred activate_pipe).
  Hypothesis pred_twice : forall p q, activate_pred p = Ok q -> activate_pred q = Ok q.
  Hypothesis pipe_twice : forall x y, activate_pipe x = Ok y -> activate_pipe y = Ok y.

  Lemma terms_twice ts : forall ts1 ts2, Forall2 activated_term ts ts1 -> Forall2 activated_term ts1 ts2 -> ts2 = ts1.
  Proof.
    induction ts as [|t ts IH]; intros ts1 ts2 F1 F2; inversion F1; subst; inversion F2; subst; [reflexivity|]. f_equal; [|eapply IH; eassumption].
    match goal with H : activated_term t _ |- _ => inversion H; subst end; match goal with H : activated_term _ _ |- _ => inversion H; subst end; try reflexivity.
    match goal with H : activated_term (TPred ?q) _ |- _ => inversion H; subst end. f_equal. apply pred_twice in H. congruence.
  Qed.
  Lemma activated_twice o o1 o2 : activated o o1 -> activated o1 o2 -> o2 = o1.
  Proof.
    intros A B. inversion A; subst; inversion B; subst; try reflexivity; try match goal with H : match _ with OProd _ _ => _ | _ => _ end |- _ => destruct H; fail end; try contradiction.
    - f_equal. eapply terms_twice; eassumption.
    - f_equal. match goal with H : activate_pipe x = Ok y |- _ => apply pipe_twice in H end. congruence.
  Qed.
  Lemma activated_terms ts (s : state) ts' s' :
    mapMM (fun t => match t with TPred x => bindM (lift_res (activate_pred x)) (fun y => ret (TPred y)) | TRule r => ret (TRule r) end) ts s = Some (Ok (ts', s')) ->
    s' = s /\ Forall2 activated_term ts ts'.
  Proof.
    revert ts' s'. induction ts as [|t ts IH]; intros ts' s' H; cbn [mapMM] in H.
    - apply ret_ok in H as [-> ->]. split; [reflexivity|constructor].
    - apply bind_ok in H as (t' & s1 & H1 & H). apply bind_ok in H as (l & s2 & H2 & H). apply ret_ok in H as [-> ->].
      assert (s1 = s /\ activated_term t t') as [-> A].
      { destruct t as [r|p]; [apply ret_ok in H1 as [-> ->]; split; [reflexivity|constructor]|].
        apply bind_ok in H1 as (y & s3 & H3 & H1). apply ret_ok in H1 as [-> ->]. unfold lift_res in H3. destruct (activate_pred p) as [q|e] eqn:E; [|discriminate].
        apply ret_ok in H3 as [-> ->]. split; [reflexivity|constructor; exact E]. }
      apply IH in H2 as [-> F]. split; [reflexivity|constructor; assumption].
  Qed.
  Lemma activate_visit_ok x (s : state) r s' : activate_visit x s = Some (Ok (r, s')) ->
    r = x /\ st_visited s' = st_visited s /\ exists o o', nth_error (st_heap s) x = Some o /\ activated o o' /\ length (st_heap s') = length (st_heap s) /\
      nth_error (st_heap s') x = Some o' /\ forall y, y <> x -> nth_error (st_heap s') y = nth_error (st_heap s) y.
  Proof.
    intros H. unfold RuleModel.activate_visit in H. apply bind_ok in H as (o & s1 & H1 & H). apply get_ok in H1 as [E ->].
    assert (L : x < length (st_heap s)) by (apply nth_error_Some; congruence).
    assert (Other : ret x s = Some (Ok (r, s')) -> (match o with OProd _ _ | OPipeline _ => False | _ => True end) ->
      r = x /\ st_visited s' = st_visited s /\ exists o o', nth_error (st_heap s) x = Some o /\ activated o o' /\ length (st_heap s') = length (st_heap s) /\
      nth_error (st_heap s') x = Some o' /\ forall y, y <> x -> nth_error (st_heap s') y = nth_error (st_heap s) y).
    { intros K N. apply ret_ok in K as [-> ->]. split; [reflexivity|]. split; [reflexivity|]. exists o, o. split; [exact E|]. split; [constructor; exact N|]. auto. }
    destruct o; try (apply Other; [exact H|exact I]).
    - apply bind_ok in H as (y & s1 & H1 & H). apply bind_ok in H as (u & s2 & H2 & H). apply ret_ok in H as [-> ->]. unfold lift_res in H1.
      match type of H1 with match activate_pipe ?x with _ => _ end _ = _ => destruct (activate_pipe x) as [y'|e] eqn:Ea; [|discriminate] end. apply ret_ok in H1 as [-> ->].
      injection H2 as <- <-. cbn [st_heap st_visited]. split; [reflexivity|]. split; [reflexivity|]. eexists _, (OPipeline y'). split; [exact E|]. split; [constructor; exact Ea|].
      rewrite setitem_length, setitem_same by exact L. split; [reflexivity|]. split; [reflexivity|]. intros z Hz. apply setitem_other. auto.
    - apply bind_ok in H as (ts' & s1 & H1 & H). apply bind_ok in H as (u & s2 & H2 & H). apply ret_ok in H as [-> ->]. apply activated_terms in H1 as [-> F].
      injection H2 as <- <-. cbn [st_heap st_visited]. split; [reflexivity|]. split; [reflexivity|]. eexists _, (OProd ts' _). split; [exact E|]. split; [constructor; exact F|].
      rewrite setitem_length, setitem_same by exact L. split; [reflexivity|]. split; [reflexivity|]. intros z Hz. apply setitem_other. auto.
  Qed.
  Lemma activated_children o o' : activated o o' -> children o' = children o.
  Proof.
    intros A. inversion A; subst; try reflexivity. cbn. unfold rule_terms. induction H as [|t t' ts ts' K F IH]; [reflexivity|]. cbn. rewrite IH; [inversion K; reflexivity|].
    constructor. exact F.
  Qed.

  Section Walk.
    Variable h0 : heap.
    Variable root : nat.
    (** Objects of [processed] are activated, the others unchanged. *)
    Definition half (processed : nat -> Prop) (h : heap) : Prop :=
      length h = length h0 /\ (forall x, ~ processed x -> nth_error h x = nth_error h0 x) /\
      (forall x o, processed x -> nth_error h0 x = Some o -> exists o', nth_error h x = Some o' /\ activated o o').
    Lemma half_children P h x o : half P h -> (P x \/ ~ P x) -> nth_error h x = Some o -> exists o0, nth_error h0 x = Some o0 /\ children o0 = children o.
    Proof.
      intros (L & U & A) D E. destruct (nth_error h0 x) as [o0|] eqn:E0.
      - exists o0. split; [reflexivity|]. destruct D as [D|D]; [destruct (A x o0 D E0) as (o' & E' & K); rewrite E in E'; injection E' as <-; symmetry; apply activated_children, K|].
        rewrite (U x D) in E. congruence.
      - apply nth_error_None in E0. assert (x < length h) by (apply nth_error_Some; congruence). lia.
    Qed.
    Lemma activate_walk : forall fuel queue vis (s : state) u s',
      NoDup queue -> (forall x, In x queue -> In x vis) -> (forall x, In x vis -> reach h0 root x) ->
      half (fun x => In x vis /\ ~ In x queue) (st_heap s) ->
      (forall x o c, In x vis -> ~ In x queue -> nth_error h0 x = Some o -> In c (children o) -> In c vis) ->
      walk_loop fuel (fun p => bindM (activate_visit p) (fun _ => ret tt)) queue vis s = Some (Ok (u, s')) ->
      exists vis', (forall x, In x vis -> In x vis') /\ (forall x, In x vis' -> reach h0 root x) /\ half (fun x => In x vis') (st_heap s') /\
        (forall x o c, In x vis' -> nth_error h0 x = Some o -> In c (children o) -> In c vis') /\ st_visited s' = st_visited s.
    Proof.
      induction fuel as [|fuel IH]; intros [|x queue] vis s u s' ND Q Rv Hf Cl H; cbn [walk_loop] in H; try discriminate.
      1,2: apply ret_ok in H as [_ ->]; exists vis; split; [auto|]; split; [exact Rv|]; split; [|split; [intros y o c Hy; apply (Cl y o c Hy); intros []|reflexivity]];
        destruct Hf as (L & U & A); split; [exact L|]; split; [intros y Hy; apply U; tauto|intros y o Hy; apply A; split; [exact Hy|intros []]].
      apply bind_ok in H as (v & s1 & H1 & H). apply bind_ok in H1 as (r & s1' & H1 & Hr). apply ret_ok in Hr as [_ ->].
      apply bind_ok in H as (o & s2 & H2 & H). apply get_ok in H2 as [E ->].
      destruct (enqueue (children o) queue vis) as [queue2 vis2] eqn:En. destruct (enqueue_new _ _ _ _ _ En) as (new & -> & Nn & Kw & Vn & Cn).
      inversion ND as [|? ? Nx ND']; subst. assert (Vx : In x vis) by (apply Q; left; reflexivity).
      destruct (activate_visit_ok x s r s1' H1) as (_ & Vs & o1 & o2 & E1 & A & Ln & E2 & Un). rewrite E in E2. injection E2 as <-.
      destruct Hf as (L & U & A0). assert (E0 : nth_error h0 x = Some o1) by (rewrite <- E1; symmetry; apply U; intros [_ K]; apply K; left; reflexivity).
      assert (Co := activated_children o1 o A).
      destruct (IH (queue ++ new) vis2 s1' u s') as (vis' & V1 & V2 & V3 & V4 & V5); auto.
      - apply RuleBfs.NoDup_app_intro; [exact ND'|exact Nn|]. intros y Hy Hn. apply (Kw y Hn), Q. right. exact Hy.
      - intros y Hy. apply Vn. apply in_app_or in Hy as [Hy|Hy]; [left; apply Q; right; exact Hy|right; exact Hy].
      - intros y Hy. apply Vn in Hy as [Hy|Hy]; [apply Rv, Hy|]. apply (reach_step h0 root x o1 y); [apply Rv, Vx|exact E0|rewrite <- Co; apply (Kw y Hy)].
      - split; [congruence|]. split.
        + intros y Hy. destruct (Nat.eq_dec y x) as [->|Ny]; [destruct Hy; split; [apply Vn; left; exact Vx|]; intros Hy; apply in_app_or in Hy as [Hy|Hy]; [auto|apply (Kw x Hy), Vx]|].
          rewrite (Un y Ny). apply U. intros [Hv Hq]. apply Hy. split; [apply Vn; left; exact Hv|]. intros Hn. apply in_app_or in Hn as [Hn|Hn]; [apply Hq; right; exact Hn|apply (Kw y Hn), Hv].
        + intros y o' [Hv Hq] Ey. destruct (Nat.eq_dec y x) as [->|Ny]; [rewrite E0 in Ey; injection Ey as <-; eauto|]. rewrite (Un y Ny). apply A0; [|exact Ey].
          apply Vn in Hv as [Hv|Hv]; [|destruct Hq; apply in_or_app; right; exact Hv]. split; [exact Hv|]. intros [->|K]; [apply Ny; reflexivity|]. apply Hq, in_or_app. left. exact K.
      - intros y o' c Hv Hq Ey Hc. destruct (Nat.eq_dec y x) as [->|Ny]; [rewrite E0 in Ey; injection Ey as <-; apply Cn; rewrite Co; exact Hc|].
        apply Vn in Hv as [Hv|Hv]; [|destruct Hq; apply in_or_app; right; exact Hv]. apply Vn. left. apply (Cl y o' c Hv); [|exact Ey|exact Hc].
        intros [->|K]; [apply Ny; reflexivity|]. apply Hq, in_or_app. left. exact K.
      - exists vis'. split; [intros y Hy; apply V1, Vn; left; exact Hy|]. split; [exact V2|]. split; [exact V3|]. split; [exact V4|congruence].
    Qed.
  End Walk.

  Theorem activate_ok fuel (h : heap) root r h' :
    run_inplace activate_visit fuel h root = Some (Ok (r, h')) -> r = root /\ activated_graph h h' root.
  Proof.
    intros H. unfold run_inplace, transform_inplace in H.
    destruct (bindM (walk fuel (fun p => bindM (activate_visit p) (fun _ => ret tt)) root) (fun _ => activate_visit root) (mkState h [])) as [[[r1 s2]|e]|] eqn:T; try discriminate.
    injection H as -> <-. apply bind_ok in T as (u & s1 & T1 & T2). unfold walk in T1.
    destruct (activate_walk h root fuel [root] [root] (mkState h []) u s1) as (vis & V1 & V2 & V3 & V4 & _); auto.
    { repeat constructor. intros []. }
    { intros x [<-|[]]. constructor. }
    { split; [reflexivity|]. split; [reflexivity|]. intros x o [A B]. destruct (B A). }
    { intros x o c A B. destruct (B A). }
    destruct V3 as (L & U & A). destruct (activate_visit_ok root s1 r s2 T2) as (-> & _ & o1 & o2 & E1 & A1 & Ln & E2 & Un).
    assert (Vr : In root vis) by (apply V1; left; reflexivity).
    assert (Re : forall x, reach h root x -> In x vis) by (intros x Hx; revert Hx; apply (reach_holds (fun x => In x vis)); [exact Vr|exact V4]).
    assert (S : forall x, nth_error (st_heap s2) x = nth_error (st_heap s1) x).
    { intros x. destruct (Nat.eq_dec x root) as [->|N]; [|apply Un, N]. rewrite E1, E2. f_equal. destruct (nth_error h root) as [o|] eqn:E.
      - destruct (A root o Vr E) as (o' & E' & K). rewrite E1 in E'. injection E' as <-. apply (activated_twice o o1 o2 K A1).
      - exfalso. apply nth_error_None in E. assert (root < length (st_heap s1)) by (apply nth_error_Some; congruence). lia. }
    split; [reflexivity|]. split; [congruence|]. split.
    - intros x o Rx E. rewrite S. apply A; [apply Re, Rx|exact E].
    - intros x N. rewrite S. apply U. intros Hv. apply N, V2, Hv.
  Qed.

  (** The activated graph has the same shape. *)
  Section Shape.
    Variable h h' : heap.
    Variable root : nat.
    Hypothesis act : activated_graph h h' root.
    Lemma activated_back x o' : reach h root x -> nth_error h' x = Some o' -> exists o, nth_error h x = Some o /\ activated o o'.
    Proof.
      intros R E. destruct act as (L & A & _). destruct (nth_error h x) as [o|] eqn:Eo.
      - destruct (A x o R Eo) as (o1 & E1 & K). rewrite E in E1. injection E1 as <-. eauto.
      - apply nth_error_None in Eo. assert (x < length h') by (apply nth_error_Some; congruence). lia.
    Qed.
    Lemma activated_reach x : reach h root x <-> reach h' root x.
    Proof.
      split.
      - intros R. enough (K : reach h root x /\ reach h' root x) by tauto. revert R. apply (reach_holds (fun x => reach h root x /\ reach h' root x)); [split; constructor|].
        intros y o c [R1 R2] E Hc. split; [econstructor; eassumption|]. destruct (proj1 (proj2 act) y o R1 E) as (o' & E' & K). econstructor; [exact R2|exact E'|]. rewrite (activated_children o o' K). exact Hc.
      - intros R. enough (K : reach h root x /\ reach h' root x) by tauto. revert R. apply (reach_holds (fun x => reach h root x /\ reach h' root x)); [split; constructor|].
        intros y o' c [R1 R2] E' Hc. split; [|econstructor; eassumption]. destruct (activated_back y o' R1 E') as (o & E & K). econstructor; [exact R1|exact E|]. rewrite <- (activated_children o o' K). exact Hc.
    Qed.
    Lemma activated_class o o' : activated o o' -> plain o' = plain o /\ is_quant o' = is_quant o /\ is_prod o' = is_prod o /\ has_prods o' = has_prods o /\ is_forward o' = is_forward o.
    Proof. intros A. inversion A; subst; auto 6. Qed.
    Lemma activated_shape o o' : activated o o' -> shape o -> shape o'.
    Proof. intros A S. inversion A; subst; try exact S. cbn in *. rewrite <- (forall2_length _ _ _ H). exact S. Qed.
    Lemma activated_source : graph plain is_quant h (reach h root) -> graph plain is_quant h' (reach h' root).
    Proof.
      intros G x R'. assert (R := proj2 (activated_reach x) R'). destruct (G x R) as (o & E & P & S & C). destruct (proj1 (proj2 act) x o R E) as (o' & E' & K).
      destruct (activated_class o o' K) as (Kp & Kq & _ & Kh & _). exists o'. split; [exact E'|]. split; [congruence|]. split; [apply (activated_shape o o' K S)|].
      rewrite (activated_children o o' K). intros c Hc. destruct (C c Hc) as (Rc & oc & Ec & Pc & Sc). destruct (proj1 (proj2 act) c oc Rc Ec) as (oc' & Ec' & Kc).
      destruct (activated_class oc oc' Kc) as (_ & Kcq & Kcp & _ & _). split; [apply activated_reach, Rc|]. exists oc'. split; [exact Ec'|]. split; [congruence|]. rewrite Kq, Kcq. exact Sc.
    Qed.
    Lemma activated_ordered (dec : forall x, reach h root x \/ ~ reach h root x) : ordered h -> ordered h'.
    Proof.
      intros O x o' c E' Hc. assert (L := proj1 act). destruct (dec x) as [R|N].
      - destruct (activated_back x o' R E') as (o & E & K). rewrite (activated_children o o' K) in Hc. destruct (activated_class o o' K) as (_ & _ & _ & _ & F). rewrite L, F. apply (O x o c E Hc).
      - rewrite (proj2 (proj2 act) x N) in E'. rewrite L. apply (O x o' c E' Hc).
    Qed.
  End Shape.
  (** Reachability is decidable: the walk finds the reachable objects. *)
  Lemma reach_dec (h : heap) root : ordered h -> root < length h -> forall x, reach h root x \/ ~ reach h root x.
  Proof.
    intros O L x. destruct (bfs_total h (length h) root) as (l & B); [intros p o c E Hc; apply (O p o c E Hc)|exact L|lia|].
    destruct (bfs_ok h (length h) root l B) as (_ & Re & _). destruct (in_dec Nat.eq_dec x l) as [K|K]; [left; apply Re, K|right; intros R; apply K, Re, R].
  Qed.
End Activate.
