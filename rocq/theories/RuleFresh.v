(** The rule a parser starts from is used by no production, if the root is not a part of
    itself. *)
From Verif Require Import Base SpanProofs EarleyModel RuleModel RuleSpec RuleWords RuleLike RulePass RuleMethods RuleNormal RuleNormalized RuleOrder RuleTotal RuleBfs RuleBNF RuleForward RuleNames RuleAsBnf RuleRoot
  RuleActivate RuleParser RuleStart WholeSpec.
Open Scope nat_scope.

Section Fresh.
  Context {pred pipe bnf : Type}.
  Notation obj := (obj pred pipe bnf).
  Notation heap := (heap pred pipe bnf).
  Notation visitor := (visitor pred pipe bnf).
  Notation state := (state pred pipe bnf).
  Notation M := (M pred pipe bnf).
  Variable pipe_bnf : pipe -> res bnf.
  Variable bnf_lines : bnf -> list (str * list pred).

  (** ** The conversion to BNF makes no forward rules. *)
  Definition stay (s s' : state) : Prop :=
    length (st_heap s) <= length (st_heap s') /\ forall f d, nth_error (st_heap s') f = Some (OForward d) -> nth_error (st_heap s) f = Some (OForward d).
  Definition stays {A} (x : M A) : Prop := forall s a s', x s = Some (Ok (a, s')) -> stay s s'.
  Lemma stay_refl s : stay s s. Proof. split; auto. Qed.
  Lemma stay_trans s1 s2 s3 : stay s1 s2 -> stay s2 s3 -> stay s1 s3.
  Proof. intros [L1 F1] [L2 F2]. split; [lia|auto]. Qed.
  Lemma stays_bind {A B} (x : M A) (f : A -> M B) : stays x -> (forall a, stays (f a)) -> stays (bindM x f).
  Proof. intros X F s b s' H. apply bind_ok in H as (a & s1 & H1 & H2). eapply stay_trans; [eapply X, H1|eapply F, H2]. Qed.
  Lemma stays_ret {A} (a : A) : stays (ret a). Proof. intros s b s' H. apply ret_ok in H as [_ ->]. apply stay_refl. Qed.
  Lemma stays_raise {A} e : stays (@raise pred pipe bnf A e). Proof. intros s b s' H. discriminate. Qed.
  Lemma stays_get p : stays (@get pred pipe bnf p). Proof. intros s b s' H. apply get_ok in H as [_ ->]. apply stay_refl. Qed.
  Lemma stays_alloc (o : obj) : is_forward o = false -> stays (alloc o).
  Proof.
    intros N s r s' H. injection H as <- <-. split; cbn; [rewrite app_length; lia|]. intros f d E. destruct (Nat.lt_ge_cases f (length (st_heap s))) as [L|L].
    - rewrite nth_error_app1 in E by exact L. exact E.
    - rewrite nth_error_app2 in E by exact L. destruct (f - length (st_heap s)) as [|k]; [|destruct k; discriminate]. injection E as ->. discriminate.
  Qed.
  Lemma stays_map {A B} (f : A -> M B) l : (forall x, stays (f x)) -> stays (mapMM f l).
  Proof. intros F. induction l as [|x l IH]; cbn [mapMM]; [apply stays_ret|]. apply stays_bind; [apply F|]. intros y. apply stays_bind; [exact IH|]. intros ys. apply stays_ret. Qed.
  Lemma stays_lift r : stays (@lift pred pipe bnf r). Proof. unfold lift. apply stays_bind; [apply stays_alloc; reflexivity|]. intros q. apply stays_alloc. reflexivity. Qed.
  Lemma attribute_stays present update r : stays (@set_attribute pred pipe bnf present update r).
  Proof.
    unfold set_attribute. intros s a s' H. apply bind_ok in H as (o & s1 & H1 & H). apply get_ok in H1 as [E ->].
    destruct (get_attributes o) as [b|] eqn:Eb; [|discriminate]. apply bind_ok in H as (r' & s2 & H2 & H).
    apply stay_trans with s2; [destruct (present b); [eapply stays_lift, H2|apply ret_ok in H2 as [_ ->]; apply stay_refl]|].
    apply bind_ok in H as (o' & s3 & H3 & H). apply get_ok in H3 as [E' ->]. apply bind_ok in H as (u & s4 & H4 & H). apply ret_ok in H as [_ ->]. injection H4 as _ <-.
    assert (L : r' < length (st_heap s2)) by (apply nth_error_Some; congruence). split; cbn; [rewrite setitem_length; lia|]. intros f d F.
    destruct (Nat.eq_dec r' f) as [<-|N]; [|rewrite setitem_other in F by exact N; exact F]. rewrite setitem_same in F by exact L. injection F as F. rewrite E'. destruct o'; try discriminate F; rewrite <- F; reflexivity.
  Qed.
  Section Stays.
    Variable parents : list nat.
    Notation method := (bnf_method pipe_bnf bnf_lines parents).
    Definition quiet (V : visitor) : Prop := forall p, stays (V p).
    Lemma shared_stays r : stays (@is_shared pred pipe bnf parents r).
    Proof. unfold is_shared. destruct (count_occ Nat.eq_dec parents r); [apply stays_raise|apply stays_ret]. Qed.
    Lemma wrapper_stays V r : quiet V -> stays (visit_WrapperRule parents V r).
    Proof.
      intros HV. unfold visit_WrapperRule. apply stays_bind; [apply stays_get|]. intros o. destruct (is_forward o); [apply stays_lift|]. apply stays_bind; [apply shared_stays|]. intros b.
      apply stays_bind; [apply HV|]. intros r'. destruct b; [apply stays_lift|apply stays_ret].
    Qed.
    Lemma base_stays V p o : quiet V -> stays (base_method V p o).
    Proof.
      intros HV. destruct o; cbn [base_method]; try apply stays_ret; try apply stays_raise; unfold visit_Production, visit_Rule.
      all: apply stays_bind; [first [apply HV | apply stays_map; first [exact HV | intros [r|q]; cbn [visit_term]; [apply stays_bind; [apply HV|intros; apply stays_ret]|apply stays_ret]]]|intros; apply stays_alloc; reflexivity].
    Qed.
    Lemma method_stays V p o : quiet V -> stays (method V p o).
    Proof.
      intros HV. destruct o; cbn [bnf_method]; try apply stays_raise; try (apply base_stays, HV).
      all: try (apply stays_bind; [apply stays_map, HV|intros; apply stays_alloc; reflexivity]).
      all: try (apply stays_bind; [apply wrapper_stays, HV|intros; apply attribute_stays]).
      destruct (pipe_bnf _); [|apply stays_raise]. unfold new_pipeline. apply stays_bind; [apply stays_map; intros; apply stays_alloc; reflexivity|]. intros; apply stays_alloc; reflexivity.
    Qed.
    Lemma visit_quiet fuel : quiet (visit method fuel).
    Proof.
      induction fuel as [|fuel IH]; intros p s r s' H; [discriminate|]. cbn [visit] in H. apply bind_ok in H as (k & s1 & H1 & H). injection H1 as _ <-.
      destruct k as [x|]; [apply ret_ok in H as [_ ->]; apply stay_refl|]. apply bind_ok in H as (o & s1 & H1 & H). apply get_ok in H1 as [_ ->].
      apply bind_ok in H as (x & s1 & H1 & H). apply bind_ok in H as (u & s2 & H2 & H). apply ret_ok in H as [_ ->]. injection H2 as _ <-. exact (method_stays _ _ _ IH _ _ _ H1).
    Qed.

    (** ** The last rule made *)
    Definition last (s : state) (r : nat) (s' : state) : Prop := S r = length (st_heap s') /\ length (st_heap s) < length (st_heap s').
    Lemma alloc_last (o : obj) s r s' : alloc o s = Some (Ok (r, s')) -> last s r s'.
    Proof. intros H. injection H as <- <-. split; cbn; rewrite app_length; cbn; lia. Qed.
    Lemma last_after s1 s2 r s' : stay s1 s2 -> last s2 r s' -> last s1 r s'.
    Proof. intros [L _] [A B]. split; [exact A|lia]. Qed.
    Lemma then_alloc {A} (x : M A) (f : A -> obj) s r s' : stays x -> bindM x (fun a => alloc (f a)) s = Some (Ok (r, s')) -> last s r s'.
    Proof. intros X H. apply bind_ok in H as (a & s1 & H1 & H2). eapply last_after; [eapply X, H1|eapply alloc_last, H2]. Qed.
    Lemma lift_last x s r s' : @lift pred pipe bnf x s = Some (Ok (r, s')) -> last s r s'.
    Proof. unfold lift. apply (then_alloc _ (fun q => OBNF [q] no_attributes)). apply stays_alloc. reflexivity. Qed.
    Lemma attribute_last present update x s0 s r s' : last s0 x s -> @set_attribute pred pipe bnf present update x s = Some (Ok (r, s')) -> last s0 r s'.
    Proof.
      intros [La Lb]. unfold set_attribute. intros H. apply bind_ok in H as (o & s1 & H1 & H). apply get_ok in H1 as [E ->].
      destruct (get_attributes o) as [b|]; [|discriminate]. apply bind_ok in H as (r' & s2 & H2 & H).
      apply bind_ok in H as (o' & s3 & H3 & H). apply get_ok in H3 as [E' ->]. apply bind_ok in H as (u & s4 & H4 & H). apply ret_ok in H as [-> ->]. injection H4 as _ <-.
      unfold last. cbn [st_heap]. rewrite setitem_length. destruct (present b); [apply lift_last in H2 as [A B]; split; lia|apply ret_ok in H2 as [-> ->]; auto].
    Qed.
  End Stays.

  (** ** The objects between the root and the rule that is made for it *)
  Definition wraps (o : obj) (c : nat) : Prop := match o with ONamed r _ | OInterp r _ | ORelation r _ => r = c | _ => False end.
  Section Chain.
    Variable h : heap.
    Variable root : nat.
    Variable objects : list nat.
    Hypothesis each : NoDup objects.
    Hypothesis all : forall q, reach h root q -> In q objects.
    Hypothesis order : RuleOrder.ordered h.
    Hypothesis alone0 : alone h root.
    Hypothesis kinds : forall q o c, reach h root q -> nth_error h q = Some o -> wraps o c -> exists oc, nth_error h c = Some oc /\ is_prod oc = false.
    Variable o0 : obj.
    Hypothesis at_root : nth_error h root = Some o0.
    Hypothesis no_prod : is_prod o0 = false.
    Hypothesis no_forward : is_forward o0 = false.
    Notation parents := (count_parents h objects).
    Inductive chain : nat -> Prop :=
    | chain_root : chain root
    | chain_next p o c oc : chain p -> nth_error h p = Some o -> wraps o c -> nth_error h c = Some oc -> is_forward oc = false -> count_occ Nat.eq_dec parents c <= 1 -> chain c.
    Lemma wraps_child o c : wraps o c -> In c (children o). Proof. destruct o; cbn; try contradiction; auto. Qed.
    Lemma chain_reach q : chain q -> reach h root q.
    Proof. induction 1 as [|p o c oc _ IH E W]; [apply reach_refl|]. eapply reach_step; [exact IH|exact E|apply wraps_child, W]. Qed.
    Lemma chain_kind q : chain q -> exists o, nth_error h q = Some o /\ is_prod o = false /\ is_forward o = false.
    Proof.
      intros [|p o c oc C E W Ec F _]; [eauto|]. destruct (kinds p o c (chain_reach p C) E W) as (oc' & Ec' & P). rewrite Ec in Ec'. injection Ec' as <-. eauto.
    Qed.
    Lemma counted_one x : forall l, In x l -> 1 <= count_occ Nat.eq_dec l x.
    Proof. intros l H. apply count_occ_In. exact H. Qed.
    Lemma counted_two l p q o o' c : NoDup l -> In p l -> In q l -> p <> q -> nth_error h p = Some o -> nth_error h q = Some o' -> In c (children o) -> In c (children o') ->
      2 <= count_occ Nat.eq_dec (count_parents h l) c.
    Proof.
      intros N Hp Hq D Ep Eq Cp Cq. assert (One : forall l x ox, In x l -> nth_error h x = Some ox -> In c (children ox) -> 1 <= count_occ Nat.eq_dec (count_parents h l) c).
      { intros l' x ox Hx Ex Hc. apply counted_one. unfold count_parents. apply in_flat_map. exists x. rewrite Ex. auto. }
      induction l as [|x l IH]; [destruct Hp|]. inversion N as [|? ? N1 N2]; subst. unfold count_parents. cbn [flat_map]. rewrite count_occ_app. fold (count_parents h l).
      destruct Hp as [->|Hp], Hq as [->|Hq]; [congruence| | |specialize (IH N2 Hp Hq); lia].
      - rewrite Ep. assert (A := counted_one c _ Cp). assert (B := One l q o' Hq Eq Cq). lia.
      - rewrite Eq. assert (A := counted_one c _ Cq). assert (B := One l p o Hp Ep Cp). lia.
    Qed.
    (** A member of the chain is only a part of the member before it. *)
    Lemma chain_parent c q o : chain c -> reach h root q -> nth_error h q = Some o -> In c (children o) -> chain q /\ wraps o c.
    Proof.
      intros [|p o1 c' oc C E W Ec F K] R Eq Hc; [destruct (alone0 q o R Eq Hc)|]. destruct (Nat.eq_dec p q) as [<-|D].
      - rewrite E in Eq. injection Eq as <-. auto.
      - assert (X := counted_two objects p q o1 o c' each (all p (chain_reach p C)) (all q R) D E Eq (wraps_child _ _ W) Hc). lia.
    Qed.
    Definition apart (q : nat) : Prop := (reach h root q \/ length h <= q) /\ ~ chain q.
    Lemma apart_new c : length h <= c -> apart c.
    Proof. intros L. split; [right; exact L|]. intros C. destruct (chain_kind c C) as (o & E & _). assert (c < length h) by (apply nth_error_Some; congruence). lia. Qed.
    Lemma chain_old q : chain q -> exists o, nth_error h q = Some o /\ is_forward o = false /\ forall c, In c (children o) -> apart c \/ chain c.
    Proof.
      intros C. destruct (chain_kind q C) as (o & E & _ & F). exists o. split; [exact E|]. split; [exact F|]. intros c Hc.
      assert (R : reach h root c) by (eapply reach_step; [apply chain_reach, C|exact E|exact Hc]).
      assert (W : wraps o c \/ ~ wraps o c). { destruct o; cbn; try (right; intros []; fail); left; cbn in Hc; destruct Hc as [->|[]]; reflexivity. }
      destruct W as [W|W]; [|left; split; [left; exact R|]; intros Cc; apply W; apply (chain_parent c q o Cc (chain_reach q C) E Hc)].
      destruct (nth_error h c) as [oc|] eqn:Ec; [|destruct (order q o c E Hc) as [L _]; apply nth_error_None in Ec; lia].
      destruct (is_forward oc) eqn:Fc.
      { left. split; [left; exact R|]. intros Cc. destruct (chain_kind c Cc) as (x & Ex & _ & Fx). rewrite Ec in Ex. injection Ex as <-. congruence. }
      destruct (le_lt_dec (count_occ Nat.eq_dec parents c) 1) as [K|K]; [right; eapply chain_next; eauto|].
      left. split; [left; exact R|]. intros Cc. destruct Cc as [|p' o' c' oc' C' E' W' Ec' F' K']; [apply (alone0 q o (chain_reach q C) E Hc)|lia].
    Qed.
    Notation method := (bnf_method pipe_bnf bnf_lines parents).
    Notation clean := (clean h chain apart).
    Lemma chain_visit fuel : forall p s r s', chain p -> clean s -> visit method fuel p s = Some (Ok (r, s')) -> last s r s'.
    Proof.
      induction fuel as [|fuel IH]; intros p s r s' C K H; [discriminate|]. cbn [visit] in H. apply bind_ok in H as (k & s1 & H1 & H). injection H1 as <- <-.
      destruct (assoc p (st_visited s)) as [x|] eqn:A; [apply assoc_in in A; destruct (c_memo _ _ _ _ K p x A) as ((_ & N) & _); contradiction|].
      apply bind_ok in H as (o & s1 & H1 & H). apply get_ok in H1 as [E ->]. rewrite (c_chain _ _ _ _ K p C) in E.
      apply bind_ok in H as (x & s1 & H1 & H). apply bind_ok in H as (u & s2 & H2 & H). apply ret_ok in H as [-> ->]. injection H2 as _ <-. change (last s x s1).
      destruct (chain_kind p C) as (o' & E' & P & F). rewrite E in E'. injection E' as <-.
      assert (Wr : forall c y s4, wraps o c -> visit_WrapperRule parents (visit method fuel) c s = Some (Ok (y, s4)) -> last s y s4).
      { intros c y s4 W Hw. unfold visit_WrapperRule in Hw. apply bind_ok in Hw as (oc & s3 & H3 & Hw). apply get_ok in H3 as [Ec ->].
        destruct (is_forward oc) eqn:Fc; [eapply lift_last, Hw|]. apply bind_ok in Hw as (b & s3 & H3 & Hw). unfold is_shared in H3.
        destruct (count_occ Nat.eq_dec parents c) as [|n] eqn:Co; [discriminate|]. apply ret_ok in H3 as [-> ->]. apply bind_ok in Hw as (r' & s3 & H3 & Hw).
        destruct (1 <? S n) eqn:Sh.
        - eapply last_after; [eapply visit_quiet, H3|eapply lift_last, Hw].
        - apply ret_ok in Hw as [-> ->]. apply (IH c s r' s3); [|exact K|exact H3]. apply Nat.ltb_ge in Sh.
          destruct (kinds p o c (chain_reach p C) E W) as (oc' & Ec' & _). apply (chain_next p o c oc' C E W Ec'); [|lia].
          destruct (chain_old p C) as (o2 & E2 & _ & Ch). rewrite E in E2. injection E2 as <-.
          destruct (Ch c (wraps_child _ _ W)) as [Ap|Cc].
          + (* a forward rule defined meanwhile is still a forward rule *)
            destruct (is_forward oc') eqn:F'; [|reflexivity]. destruct (c_forward _ _ _ _ K c oc' Ec' F') as (z & Ez & Fz). rewrite Ec in Ez. injection Ez as <-. congruence.
          + destruct (chain_kind c Cc) as (z & Ez & _ & Fz). rewrite Ec' in Ez. injection Ez as <-. exact Fz. }
      destruct o; cbn [bnf_method] in H1; try discriminate.
      all: try (cbn [base_method] in H1; discriminate).
      all: try (apply bind_ok in H1 as (y & s2 & H2 & H1); eapply attribute_last; [eapply Wr; [reflexivity|exact H2]|exact H1]).
      all: try (eapply then_alloc; [|exact H1]; apply stays_map; apply visit_quiet).
      all: try (cbn [base_method] in H1; eapply then_alloc; [|exact H1]; apply visit_quiet).
      destruct (pipe_bnf _) as [b|e]; [|discriminate]. unfold new_pipeline in H1. eapply then_alloc; [|exact H1]. apply stays_map. intros y. apply stays_alloc. reflexivity.
    Qed.
  End Chain.

  Theorem to_bnf_fresh fuel (h : heap) root o0 r h' : RuleOrder.ordered h -> alone h root ->
    (forall q o c, reach h root q -> nth_error h q = Some o -> wraps o c -> exists oc, nth_error h c = Some oc /\ is_prod oc = false) ->
    nth_error h root = Some o0 -> is_prod o0 = false -> is_forward o0 = false ->
    to_bnf pipe_bnf bnf_lines fuel h root = Some (Ok (r, h')) -> (forall q o, nth_error h' q = Some o -> ~ In r (children o)) /\ forall d, nth_error h' r <> Some (OForward d).
  Proof.
    intros O Al Ki E NP NF H. unfold to_bnf in H. destruct (bfs fuel h root) as [objects|] eqn:B; [|discriminate]. destruct (bfs_ok h fuel root objects B) as (N & Re & _).
    unfold run_visit in H. destruct (transform_walk (bnf_method pipe_bnf bnf_lines (count_parents h objects)) fuel root (mkState h [])) as [[[r1 s2]|e]|] eqn:T; try discriminate.
    injection H as -> <-. unfold transform_walk in T. apply bind_ok in T as (u & s1 & T1 & T2).
    assert (Lroot : root < length h) by (apply nth_error_Some; congruence).
    assert (All : forall q, reach h root q -> In q objects) by (intros q; apply Re).
    assert (New := apart_new h root objects Ki o0 E NP NF). assert (Old := chain_old h root objects N All O Al Ki o0 E NP NF).
    assert (Ap : forall c, apart h root objects c -> ~ chain h root objects c) by (intros x [_ A]; exact A).
    assert (K0 : clean h (chain h root objects) (apart h root objects) (mkState h [])).
    { constructor; cbn; [lia|reflexivity| |intros ? ? []|eauto]. intros q o' x [[R|L] NC] E' Hc; [|apply nth_error_None in L; congruence].
      split; [left; eapply reach_step; eauto|]. intros C. apply NC. apply (chain_parent h root objects N All Al x q o' C R E' Hc). }
    assert (K1 : clean h (chain h root objects) (apart h root objects) s1).
    { refine (proj1 (walk_clean h _ _ Old _ _ fuel [root] [root] _ (mkState h []) u s1 K0 T1)); [|constructor; [right; constructor|constructor]].
      intros p Sp. apply define_visited_clean; auto. }
    destruct (chain_visit h root objects N All O Al Ki o0 E NP NF fuel root s1 r s2 (chain_root h root objects) K1 T2) as [La Lb].
    assert (Sf := bnf_safe pipe_bnf bnf_lines (count_parents h objects)).
    destruct (walk_safe (define_visited (bnf_method pipe_bnf bnf_lines (count_parents h objects)) fuel) (fun n p L => define_visited_safe _ Sf fuel n p L) fuel (length h) [root] [root]
      (Forall_cons root Lroot (Forall_nil _)) (mkState h []) u s1) as (F1 & N1 & _); [split; [exact O|intros ? ? []]|apply le_n|exact T1|].
    assert (L1 : root < size s1) by (unfold size in *; cbn in *; lia).
    destruct (RuleOrder.visit_visits _ Sf fuel (size s1) root L1 s1 r s2 F1 (le_n _) T2) as (F2 & _ & _).
    split; [|intros d Ed; apply (proj2 (visit_quiet _ fuel root s1 r s2 T2)) in Ed; assert (r < length (st_heap s1)) by (apply nth_error_Some; congruence); lia].
    intros q o Eq Hc. destruct (proj1 F2 q o r Eq Hc) as [Lr Lq]. assert (q < length (st_heap s2)) by (apply nth_error_Some; congruence).
    destruct (is_forward o) eqn:Fo; [|specialize (Lq eq_refl); lia]. destruct o as [| | | | | | | | | | |d| | | | | | |]; try discriminate.
    apply (proj2 (visit_quiet _ fuel root s1 r s2 T2)) in Eq. destruct (proj1 F1 q _ r Eq Hc) as [L _]. lia.
  Qed.

  (** ** Roots that stay what they are until then *)
  Definition method_lasts (m : visitor -> nat -> obj -> M nat) : Prop :=
    forall V p o s r s', lasting o -> nth_error (st_heap s) p = Some o -> m V p o s = Some (Ok (r, s')) -> exists o', nth_error (st_heap s') r = Some o' /\ lasting o'.
  Lemma bind_alloc {A} (x : M A) (f : A -> obj) s r s' : (forall a, lasting (f a)) -> bindM x (fun a => alloc (f a)) s = Some (Ok (r, s')) -> exists o', nth_error (st_heap s') r = Some o' /\ lasting o'.
  Proof. intros L H. apply bind_ok in H as (a & s1 & _ & H). injection H as <- <-. exists (f a). split; [|apply L]. cbn. rewrite nth_error_app2, Nat.sub_diag by lia. reflexivity. Qed.
  Lemma base_lasts : method_lasts base_method.
  Proof.
    intros V p o s r s' L E H. destruct o; try contradiction; cbn [base_method] in H; unfold visit_Rule in H;
      try (eapply bind_alloc; [|exact H]; intros; exact I). apply ret_ok in H as [-> ->]. eexists. split; [exact E|exact I].
  Qed.
  Lemma squash_lasts : method_lasts squash_method.
  Proof. intros V p o s r s' L E H. apply (base_lasts V p o s r s' L E). destruct o; try contradiction; exact H. Qed.
  Lemma extended_lasts : method_lasts replace_extended_method.
  Proof. intros V p o s r s' L E H. apply (base_lasts V p o s r s' L E). destruct o; try contradiction; exact H. Qed.
  Lemma or_lasts : method_lasts replace_or_method.
  Proof.
    intros V p o s r s' L E H. destruct o; try contradiction; try (apply (base_lasts V p _ s r s' L E); exact H; fail). cbn [replace_or_method] in H. eapply bind_alloc; [|exact H]. intros; exact I.
  Qed.
  Lemma empty_lasts : method_lasts replace_empty_method.
  Proof. intros V p o s r s' L E H. apply (base_lasts V p o s r s' L E). destruct o; try contradiction; exact H. Qed.
  Lemma flatten_lasts fuel : method_lasts (flatten_method fuel).
  Proof. intros V p o s r s' L E H. apply (base_lasts V p o s r s' L E). destruct o; try contradiction; exact H. Qed.
  Lemma lasting_kind (o : obj) : lasting o -> is_prod o = false /\ is_forward o = false /\ is_quant o = false.
  Proof. destruct o; cbn; auto; contradiction. Qed.
  Lemma lasting_alone fit (h : heap) root o : top fit h root -> nth_error h root = Some o -> lasting o -> alone h root.
  Proof. intros (o' & E & [F|[_ A]]) E' L; [rewrite E' in E; injection E as <-; destruct (lasting_kind o L) as (_ & X & _); congruence|exact A]. Qed.

  Theorem pass_lasts method fuel (h : heap) root o r h' : steady method -> method_lasts method -> nth_error h root = Some o -> lasting o -> alone h root ->
    run_visit method fuel h root = Some (Ok (r, h')) -> exists o', nth_error h' r = Some o' /\ lasting o'.
  Proof.
    intros MK ML E Lo Al H. unfold run_visit in H. destruct (transform_walk method fuel root (mkState h [])) as [[[r1 s2]|e]|] eqn:T; try discriminate.
    injection H as -> <-. unfold transform_walk in T. apply bind_ok in T as (u & s1 & T1 & T2).
    assert (Lroot : root < length h) by (apply nth_error_Some; congruence).
    set (In_play := fun q => reach h root q \/ length h <= q). set (ok := fun q => In_play q /\ q <> root).
    assert (A1 : forall c, length h <= c -> In_play c) by (intros x L; right; exact L).
    assert (A2 : forall c, ok c -> In_play c) by (intros x [A _]; exact A).
    assert (A3 : forall c, length h <= c -> ok c) by (intros x L; split; [right; exact L|lia]).
    assert (K0 : kept h In_play ok (mkState h [])).
    { constructor; cbn; [lia|auto|intros q (d & K); exists d; exact K| |intros ? ? []].
      intros q o' x [R|L] E' Hc; [|apply nth_error_None in L; congruence]. split; [left; eapply reach_step; eauto|]. intros ->. apply (Al q o' R E' Hc). }
    assert (K1 : kept h In_play ok s1).
    { refine (proj1 (walk_keeps h In_play ok A2 _ _ fuel [root] [root] _ (mkState h []) u s1 K0 T1)); [|constructor; [left; apply reach_refl|constructor]].
      intros p Sp. apply define_visited_keeps; auto. }
    destruct (visit_step _ _ _ _ _ _ T2) as [[Hm _]|(fuel' & o' & s3 & E' & Hm & Hh)]; [destruct (k_memo _ _ _ _ K1 root r Hm) as ((_ & N) & _); congruence|].
    rewrite (k_old _ _ _ _ K1 root _ E) in E' by apply (lasting_kind o Lo). injection E' as <-. rewrite Hh. refine (ML _ root o s1 r s3 Lo _ Hm).
    apply (k_old _ _ _ _ K1 root _ E). apply (lasting_kind o Lo).
  Qed.
  Theorem normalized_lasts fuel (h : heap) root r h' o :
    graph plain is_quant h (reach h root) -> RuleOrder.ordered h -> top not_once h root -> nth_error h root = Some o -> lasting o ->
    normalized fuel h root = Some (Ok (r, h')) -> exists o', nth_error h' r = Some o' /\ lasting o'.
  Proof.
    intros Gr O T E Lo H. assert (L : root < length h) by (apply nth_error_Some; congruence). unfold normalized in H.
    apply then_ok in H as ((r1 & h1) & H1 & H). apply then_ok in H as ((r2 & h2) & H2 & H).
    apply then_ok in H as ((r3 & h3) & H3 & H). apply then_ok in H as ((r4 & h4) & H4 & H5).
    destruct (run_visit_ordered squash_method squash_safe fuel h root r1 h1 O L H1) as (O1 & L1 & N1).
    destruct (run_visit_ordered _ replace_extended_safe fuel h1 r1 r2 h2 O1 L1 H2) as (O2 & L2 & N2).
    destruct (run_visit_ordered _ replace_or_safe fuel h2 r2 r3 h3 O2 L2 H3) as (O3 & L3 & N3).
    destruct (run_visit_ordered _ replace_empty_safe fuel h3 r3 r4 h4 O3 L3 H4) as (O4 & L4 & N4).
    assert (Calm : forall (hx : heap) rx ox, nth_error hx rx = Some ox -> lasting ox -> forall o, nth_error hx rx = Some o -> is_prod o = false /\ calm hx o).
    { intros hx rx ox Ex Lx o' Eo. rewrite Ex in Eo. injection Eo as <-. destruct (lasting_kind ox Lx) as (P & _ & Q). split; [exact P|]. intros Q'. congruence. }
    destruct (pass_lasts squash_method fuel h root o r1 h1 squash_steady squash_lasts E Lo (lasting_alone _ _ _ _ T E Lo) H1) as (o1 & E1 & Lo1).
    assert (T1 := pass_top squash_method not_once not_once fuel h root r1 h1 squash_steady squash_safe squash_ends (fun _ e => e) O (Calm _ _ _ E Lo) T H1).
    destruct (pass_lasts _ fuel h1 r1 o1 r2 h2 replace_extended_steady extended_lasts E1 Lo1 (lasting_alone _ _ _ _ T1 E1 Lo1) H2) as (o2 & E2 & Lo2).
    assert (T2 := pass_top _ not_once any fuel h1 r1 r2 h2 replace_extended_steady replace_extended_safe replace_extended_ends (fun _ _ => I) O1 (Calm _ _ _ E1 Lo1) T1 H2).
    destruct (pass_lasts _ fuel h2 r2 o2 r3 h3 replace_or_steady or_lasts E2 Lo2 (lasting_alone _ _ _ _ T2 E2 Lo2) H3) as (o3 & E3 & Lo3).
    assert (T3 := pass_top _ any any fuel h2 r2 r3 h3 replace_or_steady replace_or_safe replace_or_ends (fun _ e => e) O2 (Calm _ _ _ E2 Lo2) T2 H3).
    destruct (pass_lasts _ fuel h3 r3 o3 r4 h4 replace_empty_steady empty_lasts E3 Lo3 (lasting_alone _ _ _ _ T3 E3 Lo3) H4) as (o4 & E4 & Lo4).
    assert (T4 := pass_top _ any any fuel h3 r3 r4 h4 replace_empty_steady replace_empty_safe replace_empty_ends (fun _ e => e) O3 (Calm _ _ _ E3 Lo3) T3 H4).
    apply (pass_lasts _ fuel h4 r4 o4 r h' (flatten_steady fuel) (flatten_lasts fuel) E4 Lo4 (lasting_alone _ _ _ _ T4 E4 Lo4) H5).
  Qed.

  (** ** The whole construction *)
  Definition unused (h : heap) (r : nat) : Prop := forall q o, nth_error h q = Some o -> ~ In r (children o).
  Lemma generate_unused rules : forall n (h : heap) r, unused h r -> unused (generate_names rules n h) r.
  Proof.
    induction rules as [|x rules IH]; intros n h r K; cbn [generate_names]; [exact K|]. destruct (nth_error h x) as [o|] eqn:E; [|apply IH, K].
    destruct (get_attributes o) as [a|] eqn:Ea; [|apply IH, K]. destruct (has_name a); [apply IH, K|]. apply IH. intros q o' E'.
    destruct (Nat.eq_dec x q) as [->|N]; [|rewrite setitem_other in E' by exact N; apply (K q o' E')]. rewrite setitem_same in E' by (apply nth_error_Some; congruence). injection E' as <-.
    intros Hc. apply (K q o E). destruct o; exact Hc.
  Qed.
  Lemma near_unused (h h' : heap) r : near h h' -> unused h r -> unused h' r.
  Proof.
    intros N K q o' E'. destruct (near_get h h' q o' N E') as (o & E & [->|(ts & ts' & m & -> & -> & F)]); [apply (K q o E)|]. specialize (K q _ E) as Kq. cbn [children] in *. unfold rule_terms in *.
    intros Hc. apply in_flat_map in Hc as (t' & Ht & Hr). destruct t' as [x|x]; cbn in Hr; [|exact Hr]. destruct Hr as [Hr|[]]. subst x. rename r into x.
    assert (A : exists t, In t ts /\ followed h t (TRule x)). { clear - F Ht. induction F as [|t t' ts ts' Ft F IH]; [destruct Ht|]. destruct Ht as [<-|Ht]; [exists t; split; [left; reflexivity|exact Ft]|destruct (IH Ht) as (y & Hy & Fy); exists y; split; [right; exact Hy|exact Fy]]. }
    destruct A as (t & Hts & Ft). remember (TRule x) as y eqn:Ey.
    assert (Z : t <> TRule x). { intros ->. apply Kq. apply in_flat_map. exists (TRule x). split; [exact Hts|left; reflexivity]. }
    revert Z. clear - Ft Ey K. induction Ft as [t|f r1 t E1 F1 IH]; intros Z; [congruence|]. apply (IH Ey). intros X. injection X as ->. apply (K f _ E1). left. reflexivity.
  Qed.
  Variable activate_pred : pred -> res pred.
  Variable activate_pipe : pipe -> res pipe.
  Hypothesis pred_twice : forall x y, activate_pred x = Ok y -> activate_pred y = Ok y.
  Hypothesis pipe_twice : forall x y, activate_pipe x = Ok y -> activate_pipe y = Ok y.
  Theorem parser_rule_unused fuel (h : heap) root r h' o : source h root -> top not_once h root -> nth_error h root = Some o -> lasting o ->
    parser_rule pipe_bnf bnf_lines activate_pred activate_pipe fuel h root = Some (Ok (r, h')) -> unused h' r.
  Proof.
    intros S T E Lo H. unfold RuleModel.parser_rule in H. apply then_ok in H as ((r1 & ha) & H1 & H). apply then_ok in H as ((rn & hn) & H2 & H3).
    destruct (activate_ok activate_pred activate_pipe pred_twice pipe_twice fuel h root r1 ha H1) as [-> A]. assert (Sa := source_activated activate_pred activate_pipe h ha root S A).
    assert (Ta := top_activated activate_pred activate_pipe h ha root A T). destruct Sa as (Ga & Oa & oa & Ea & Pa). assert (La : root < length ha) by (apply nth_error_Some; congruence).
    assert (Ei : lasting oa).
    { destruct (proj1 (proj2 A) root _ (reach_refl h root) E) as (o' & E' & K). rewrite Ea in E'. injection E' as <-. inversion K; subst; try contradiction; try exact I; exact Lo. }
    destruct (normalized_lasts fuel ha root rn hn oa Ga Oa Ta Ea Ei H2) as (on & En & Ln).
    assert (Tn := normalized_top pipe_bnf bnf_lines fuel ha root rn hn Ga Oa (ex_intro _ oa (conj Ea Pa)) Ta H2).
    destruct (normalized_ok pipe_bnf bnf_lines fuel ha root (reach ha root) rn hn Ga (reach_refl ha root) H2) as (Gn & _).
    destruct (normalized_ordered fuel ha root rn hn Oa La H2) as (On & _ & _). destruct (lasting_kind on Ln) as (Pn & Fn & _).
    unfold as_bnf in H3. apply then_ok in H3 as ((r1 & h1) & H4 & H). apply then_ok in H as ((r2 & h2) & H5 & H).
    assert (K : unused h1 r1 /\ forall d, nth_error h1 r1 <> Some (OForward d)).
    { apply (to_bnf_fresh fuel hn rn on r1 h1 On (lasting_alone _ _ _ _ Tn En Ln)); auto. intros q o' c Rq Eq W. destruct (Gn q Rq) as (o2 & E2 & _ & _ & C). rewrite Eq in E2. injection E2 as <-.
      destruct (C c (wraps_child o' c W)) as (_ & oc & Ec & Pc & _). exists oc. split; [exact Ec|]. rewrite Pc. destruct o'; try contradiction; reflexivity. }
    destruct (to_bnf_ok pipe_bnf bnf_lines fuel hn rn r1 h1 Gn On (ex_intro _ _ (conj En Pn)) H4) as (G1 & R1 & _).
    destruct (remove_forward_ok pipe_bnf bnf_lines h1 (reach h1 r1) G1 fuel r1 r2 h2 (reach_refl h1 r1) R1 H5) as (_ & _ & _ & Ne).
    destruct (nth_error h2 r2) as [o2|] eqn:Eo; [|discriminate]. destruct (is_bnf o2) eqn:B; [|discriminate]. destruct (bfs fuel h2 r2) as [objects|]; [|discriminate]. injection H as <- <-.
    apply generate_unused, (near_unused h1); [exact Ne|].  destruct (remove_forward_root fuel h1 r1 r2 h2 H5) as [->|(d & F)]; [apply K|].
    destruct (near_get h1 h2 r1 _ Ne F) as (o1 & E1 & [<-|(ts & ts' & m & -> & X & _)]); [destruct (proj2 K _ E1)|discriminate].
  Qed.
End Fresh.
