(** Squashing of quantifiers keeps a heap well formed, whether or not it keeps the words. *)
From Verif Require Import Base EarleyModel RuleModel RuleSpec RuleWords RuleAccept RuleLike RulePass RuleMethods RuleNormal RuleNormalized RuleOrder RuleActivate.
Open Scope nat_scope.

Section Tidy.
  Context {pred pipe bnf : Type}.
  Notation obj := (obj pred pipe bnf).
  Notation heap := (heap pred pipe bnf).
  Notation visitor := (visitor pred pipe bnf).
  Notation state := (state pred pipe bnf).
  Notation M := (M pred pipe bnf).

  Definition kind (h : heap) (p : nat) (b : bool) : Prop := exists o, nth_error h p = Some o /\ is_prod o = b.
  Definition tidy (h : heap) : Prop := forall p o, nth_error h p = Some o -> plain o = true /\ shape o /\ forall c, In c (children o) -> kind h c (has_prods o).
  Definition neat (s : state) : Prop := tidy (st_heap s) /\ forall p r, In (p, r) (st_visited s) -> exists b, kind (st_heap s) p b /\ kind (st_heap s) r b.
  Definition keeps (s s' : state) : Prop := forall p b, kind (st_heap s) p b -> kind (st_heap s') p b.
  Definition tidies {A} (x : M A) (s : state) (Q : A -> state -> Prop) : Prop := forall a s', neat s -> x s = Some (Ok (a, s')) -> neat s' /\ keeps s s' /\ Q a s'.

  Lemma kind_fun h p b b' : kind h p b -> kind h p b' -> b = b'.
  Proof. intros (o & E & K) (o' & E' & K'). congruence. Qed.
  Lemma tidies_bind {A B} (x : M A) (f : A -> M B) s Q Q' : tidies x s Q -> (forall a s', neat s' -> keeps s s' -> Q a s' -> tidies (f a) s' Q') -> tidies (bindM x f) s Q'.
  Proof.
    intros X F b s' N H. apply bind_ok in H as (a & s1 & H1 & H2). destruct (X a s1 N H1) as (N1 & K1 & Qa). destruct (F a s1 N1 K1 Qa b s' N1 H2) as (N2 & K2 & Qb).
    split; [exact N2|]. split; [|exact Qb]. intros p c K. apply K2, K1, K.
  Qed.
  Lemma tidies_ret {A} (a : A) s (Q : A -> state -> Prop) : Q a s -> tidies (ret a) s Q.
  Proof. intros K b s' N H. apply ret_ok in H as [-> ->]. split; [exact N|]. split; [intros p c X; exact X|exact K]. Qed.
  Lemma tidies_raise {A} e s (Q : A -> state -> Prop) : tidies (raise e) s Q.
  Proof. intros a s' _ H. discriminate. Qed.
  Lemma tidies_get p s : tidies (get p) s (fun o s' => s' = s /\ nth_error (st_heap s) p = Some o).
  Proof. intros o s' N H. apply get_ok in H as [E ->]. split; [exact N|]. split; [intros q c X; exact X|auto]. Qed.
  Lemma kind_app (h t : heap) p b : kind h p b -> kind (h ++ t) p b.
  Proof. intros (o & E & K). exists o. split; [apply nth_old, E|exact K]. Qed.
  Lemma tidies_alloc (o : obj) s : plain o = true -> shape o -> (forall c, In c (children o) -> kind (st_heap s) c (has_prods o)) -> tidies (alloc o) s (fun r s' => kind (st_heap s') r (is_prod o)).
  Proof.
    intros P S C r s' [T V] H. injection H as <- <-. cbn. split; [split|split].
    - intros p x E. cbn in E. destruct (Nat.lt_ge_cases p (length (st_heap s))) as [L|L].
      + rewrite nth_error_app1 in E by exact L. destruct (T p x E) as (P1 & S1 & C1). split; [exact P1|]. split; [exact S1|]. intros c Hc. apply kind_app, C1, Hc.
      + assert (E' := E). rewrite nth_error_app2 in E by exact L. destruct (p - length (st_heap s)) as [|[|]]; try discriminate. injection E as <-. split; [exact P|]. split; [exact S|]. intros c Hc. apply kind_app, C, Hc.
    - intros p r Hin. destruct (V p r Hin) as (b & K1 & K2). exists b. split; apply kind_app; assumption.
    - intros p b K. apply kind_app, K.
    - exists o. split; [apply nth_new|reflexivity].
  Qed.
  Lemma tidies_map {A B} (f : A -> M B) (P : A -> state -> Prop) (Q : B -> state -> Prop) : (forall x s, P x s -> tidies (f x) s Q) ->
    (forall x s s', keeps s s' -> P x s -> P x s') -> (forall y s s', keeps s s' -> Q y s -> Q y s') -> forall l s, (forall x, In x l -> P x s) -> tidies (mapMM f l) s (fun ys s' => length ys = length l /\ forall y, In y ys -> Q y s').
  Proof.
    intros F KP KQ. induction l as [|x l IH]; intros s H; cbn [mapMM]; [apply tidies_ret; split; [reflexivity|intros y []]|].
    eapply tidies_bind; [apply F, H; left; reflexivity|]. intros y s1 N1 K1 Q1. eapply tidies_bind; [apply IH; intros z Hz; apply (KP z s s1 K1), H; right; exact Hz|]. cbv beta.
    intros ys s2 N2 K2 [L2 Q2]. apply tidies_ret. split; [cbn; congruence|]. intros z [<-|Hz]; [apply (KQ y s1 s2 K2 Q1)|apply Q2, Hz].
  Qed.

  Definition visits_tidy (V : visitor) : Prop := forall p b s, kind (st_heap s) p b -> tidies (V p) s (fun r s' => kind (st_heap s') r b).
  Definition method_tidy (method : visitor -> nat -> obj -> M nat) : Prop :=
    forall V p o s, visits_tidy V -> nth_error (st_heap s) p = Some o -> tidies (method V p o) s (fun r s' => kind (st_heap s') r (is_prod o)).

  Lemma tidies_neat {A} (x : M A) s Q : (neat s -> tidies x s Q) -> tidies x s Q.
  Proof. intros H a s' N E. apply (H N a s' N E). Qed.
  Lemma visit_one V r b (f : nat -> obj) s : visits_tidy V -> kind (st_heap s) r b ->
    (forall x, plain (f x) = true /\ shape (f x) /\ children (f x) = [x] /\ has_prods (f x) = b /\ is_prod (f x) = false) -> tidies (bindM (V r) (fun r' => alloc (f r'))) s (fun r s' => kind (st_heap s') r false).
  Proof.
    intros HV K F. eapply tidies_bind; [apply (HV r b s K)|]. cbv beta. intros r' s1 N1 K1 Kr. destruct (F r') as (P & S & C & Hp & Ip). rewrite <- Ip. apply tidies_alloc; [exact P|exact S|].
    intros c. rewrite C, Hp. intros [<-|[]]. exact Kr.
  Qed.
  Lemma visit_all V l b s : visits_tidy V -> (forall x, In x l -> kind (st_heap s) x b) -> tidies (mapMM V l) s (fun ys s' => length ys = length l /\ forall y, In y ys -> kind (st_heap s') y b).
  Proof.
    intros HV K. apply (tidies_map V (fun x s => kind (st_heap s) x b) (fun y s => kind (st_heap s) y b)); [intros x t Kx; apply (HV x b t Kx)|intros x t t' Kt Kx; apply Kt, Kx|intros x t t' Kt Kx; apply Kt, Kx|exact K].
  Qed.
  Lemma rule_terms_of ts r : In r (rule_terms (pred := pred) ts) <-> In (TRule r) ts.
  Proof.
    unfold rule_terms. rewrite in_flat_map. split.
    - intros ([q|x] & Ht & K); [|destruct K]. destruct K as [<-|[]]. exact Ht.
    - intros Ht. exists (TRule r). split; [exact Ht|left; reflexivity].
  Qed.
  Definition term_kind (t : term pred) (s : state) : Prop := match t with TRule r => kind (st_heap s) r false | TPred _ => True end.
  Lemma base_tidy : method_tidy base_method.
  Proof.
    intros V p o s HV E. apply tidies_neat. intros [T _]. destruct (T p o E) as (P & S & C).
    destruct o as [ps|rs|r0 rev|r0 rev|r0 rr ro|r0 m rev|r0 m rev|r0 m n' rev|r0 nm|r0 i|r0 rel|d| |pl|ps a|b ps a|ts m| |k ps]; cbn [base_method is_prod]; try discriminate; try apply tidies_raise;
      try (apply tidies_ret; exists (nth p (st_heap s) OEmpty); rewrite (nth_error_nth _ _ _ E); split; [exact E|reflexivity]);
      try (apply (visit_one V r0 false _ s HV); [apply C; left; reflexivity|intros x; repeat split; cbn in *; auto; lia]).
    - unfold visit_Rule. eapply tidies_bind; [apply (visit_all V ps true s HV), C|]. cbv beta. intros ys s1 N1 K1 [_ Ky]. apply (tidies_alloc (ORule ys)); [reflexivity|exact I|exact Ky].
    - eapply tidies_bind; [apply (visit_all V rs false s HV), C|]. cbv beta. intros ys s1 N1 K1 [_ Ky]. apply (tidies_alloc (OOr ys)); [reflexivity|exact I|exact Ky].
    - unfold visit_Production. eapply tidies_bind; [apply (tidies_map (visit_term V) term_kind term_kind)|].
      + intros [r|x] t Kt; cbn; [|apply tidies_ret; exact I]. eapply tidies_bind; [apply (HV r false t Kt)|]. cbv beta. intros r' t1 _ _ Kr. apply tidies_ret. exact Kr.
      + intros [r|x] t t' K Kt; [apply K, Kt|exact I].
      + intros [r|x] t t' K Kt; [apply K, Kt|exact I].
      + intros [r|x] Ht; [|exact I]. apply C. cbn. apply rule_terms_of, Ht.
      + cbv beta. intros ts' s1 N1 K1 [L1 Kt]. apply (tidies_alloc (OProd ts' m)); [reflexivity|cbn in *; rewrite L1; exact S|]. cbn. intros c Hc. apply rule_terms_of in Hc. apply (Kt _ Hc).
  Qed.
  Lemma visit_new_tidy V (o : obj) s r : visits_tidy V -> plain o = true -> shape o -> has_prods o = false -> is_prod o = false -> children o = [r] -> kind (st_heap s) r false ->
    tidies (visit_new V o) s (fun r s' => kind (st_heap s') r false).
  Proof.
    intros HV P S Hp Ip C K. unfold visit_new. eapply tidies_bind; [apply (tidies_alloc o s P S); rewrite C, Hp; intros c [<-|[]]; exact K|]. cbv beta. rewrite Ip. intros t s1 _ _ Kt. apply (HV t false s1 Kt).
  Qed.
  Lemma squash_tidy : method_tidy squash_method.
  Proof.
    intros V p o s HV E. apply tidies_neat. intros [T _]. destruct (T p o E) as (P & S & C). assert (Base := base_tidy V p o s HV E).
    destruct o as [ps|rs|r0 rev|r0 rev|r0 rr ro|r0 m rev|r0 m rev|r0 m n' rev|r0 nm|r0 i|r0 rel|d| |pl|ps a|b ps a|ts m| |k ps]; cbn [squash_method is_prod]; try exact Base; clear Base;
      (eapply tidies_bind; [apply tidies_get|]; cbv beta; intros child s1 N1 _ [-> Ec]; destruct (T r0 child Ec) as (Pc & Sc & Cc));
      (assert (K0 : kind (st_heap s) r0 false) by (apply C; left; reflexivity));
      (assert (Step : forall f : nat -> obj, (forall x, plain (f x) = true /\ shape (f x) /\ children (f x) = [x] /\ has_prods (f x) = false /\ is_prod (f x) = false) ->
         tidies (bindM (V r0) (fun r' => alloc (f r'))) s (fun r s' => kind (st_heap s') r false)) by (intros f F; apply (visit_one V r0 false f s HV K0 F)));
      destruct child as [ps1|rs1|r1 rev1|r1 rev1|r1 rr1 ro1|r1 m1 rev1|r1 m1 rev1|r1 m1 n1 rev1|r1 nm1|r1 i1|r1 rel1|d1| |pl1|ps1 a1|b1 ps1 a1|ts1 m1| |k1 ps1]; cbn [squash_bounded];
      try apply tidies_raise; try (apply Step; intros x; repeat split; cbn in *; auto; lia);
      try (apply (visit_new_tidy V _ s r1 HV); first [exact I|reflexivity|apply Cc; left; reflexivity]);
      (eapply tidies_bind; [apply tidies_alloc; [reflexivity|exact S|intros c [<-|[]]; apply Cc; left; reflexivity]|]; cbv beta; intros t s2 N2 K2 Kt; apply (visit_new_tidy V _ s2 t HV); first [exact I|reflexivity|exact Kt]).
  Qed.

  Section Run.
    Variable method : visitor -> nat -> obj -> M nat.
    Hypothesis method_ok : method_tidy method.
    Lemma visit_tidy fuel : visits_tidy (visit method fuel).
    Proof.
      induction fuel as [|fuel IH]; intros p b s K; cbn [visit]; [intros a s' _ H; discriminate|].
      intros r s' N H. apply bind_ok in H as (known & s1 & H1 & H). injection H1 as <- <-.
      destruct (assoc p (st_visited s)) as [r0|] eqn:A.
      - apply ret_ok in H as [-> ->]. split; [exact N|]. split; [intros q c X; exact X|]. destruct (proj2 N p r0 (assoc_in _ _ _ A)) as (b' & K1 & K2). rewrite (kind_fun _ _ _ _ K K1). exact K2.
      - revert r s' N H. change (tidies (bindM (get p) (fun o => bindM (method (visit method fuel) p o) (fun r => bindM (remember p r) (fun _ => ret r)))) s (fun r s' => kind (st_heap s') r b)).
        eapply tidies_bind; [apply tidies_get|]. cbv beta. intros o s1 N1 _ [-> E]. eapply tidies_bind; [apply (method_ok (visit method fuel) p o s IH E)|]. cbv beta. intros r s1 N2 K2 Kr.
        assert (B : is_prod o = b) by (destruct K as (o' & E' & B); congruence). rewrite B in Kr. intros a s' [T V] H. unfold bindM, remember, ret in H. injection H as <- <-.
        split; [split; [exact T|]|split; [intros q c X; exact X|exact Kr]]. cbn. intros q x [Eq|Hin]; [|apply (V q x Hin)]. injection Eq as <- <-. exists b. split; [apply K2, K|exact Kr].
    Qed.
    Lemma define_tidy fuel p s : tidies (define_visited method fuel p) s (fun _ _ => True).
    Proof.
      unfold define_visited. eapply tidies_bind; [apply tidies_get|]. cbv beta. intros o s1 N1 _ [-> E]. destruct o as [| | | | | | | | | | |[d|]| | | | | | |]; try (apply tidies_ret; exact I).
      destruct (proj1 N1 p _ E) as (_ & _ & C). eapply tidies_bind; [apply (visit_tidy fuel d false s), C; left; reflexivity|]. cbv beta. intros r s1 N2 K2 Kr.
      unfold define. eapply tidies_bind; [apply tidies_get|]. cbv beta. intros o s2 _ _ [-> Er]. destruct (is_forward o) eqn:F; [apply tidies_raise|].
      assert (Kp : kind (st_heap s1) p false) by (apply K2; eexists; split; [exact E|reflexivity]). intros u s' [T V] H. injection H as <- <-.
      assert (Lp : p < length (st_heap s1)) by (destruct Kp as (x & Ex & _); apply nth_error_Some; congruence).
      assert (Kk : forall q b, kind (st_heap s1) q b -> kind (setitem (st_heap s1) p (OForward (Some r))) q b).
      { intros q b (x & Ex & Kx). destruct (Nat.eq_dec q p) as [->|Ne].
        - exists (OForward (Some r)). split; [apply setitem_same, Lp|]. cbn. apply (kind_fun _ _ _ _ Kp). exists x. auto.
        - exists x. rewrite setitem_other by auto. auto. }
      split; [split|split; [exact Kk|exact I]]; cbn.
      - intros q x Ex. destruct (Nat.eq_dec q p) as [->|Ne].
        + rewrite setitem_same in Ex by exact Lp. injection Ex as <-. split; [reflexivity|]. split; [exact I|]. intros c [<-|[]]. apply Kk, Kr.
        + rewrite setitem_other in Ex by auto. destruct (T q x Ex) as (P1 & S1 & C1). split; [exact P1|]. split; [exact S1|]. intros c Hc. apply Kk, C1, Hc.
      - intros q x Hin. destruct (V q x Hin) as (b & K3 & K4). exists b. auto.
    Qed.
    Lemma walk_tidy fuel k : forall queue vis s, tidies (walk_loop k (define_visited method fuel) queue vis) s (fun _ _ => True).
    Proof.
      induction k as [|k IH]; intros [|x queue] vis s; cbn [walk_loop]; try (apply tidies_ret; exact I); [intros a s' _ H; discriminate|].
      eapply tidies_bind; [apply define_tidy|]. intros u s1 _ _ _. eapply tidies_bind; [apply tidies_get|]. cbv beta. intros o s2 _ _ [-> E]. destruct (enqueue _ _ _) as [q v]. apply IH.
    Qed.
    Lemma run_tidy fuel h root r h' b : tidy h -> kind h root b -> run_visit method fuel h root = Some (Ok (r, h')) -> tidy h' /\ kind h' r b.
    Proof.
      intros T K H. unfold run_visit in H. destruct (transform_walk method fuel root (mkState h [])) as [[[r1 s]|e]|] eqn:E; try discriminate. injection H as <- <-.
      assert (X : tidies (transform_walk method fuel root) (mkState h []) (fun r s' => kind (st_heap s') r b)).
      { unfold transform_walk. eapply tidies_bind; [apply walk_tidy|]. intros u s1 _ K1 _. apply (visit_tidy fuel root b s1), K1, K. }
      destruct (X r1 s) as (N & _ & Kr); [split; [exact T|intros p q []]|exact E|]. split; [apply N|exact Kr].
    Qed.
  End Run.

  Lemma tidy_graph h root b : tidy h -> kind h root b -> graph plain nothing h (reach h root).
  Proof.
    intros T (o0 & E0 & _) p R. assert (exists o, nth_error h p = Some o) as (o & E).
    { destruct R as [|root p y c R Ey Hc]; [eauto|]. destruct (T p y Ey) as (_ & _ & C). destruct (C c Hc) as (oc & Ec & _). eauto. }
    exists o. split; [exact E|]. destruct (T p o E) as (P & S & C). split; [exact P|]. split; [exact S|]. intros c Hc. split; [apply (reach_step h root p o c R E Hc)|].
    destruct (C c Hc) as (oc & Ec & K). exists oc. split; [exact Ec|]. split; [exact K|discriminate].
  Qed.
  (** Rule.normalized, with quantifiers nested or not. *)
  Variable pipe_bnf : pipe -> res bnf.
  Variable bnf_lines : bnf -> list (str * list pred).
  Theorem normalized_tidy fuel (h : heap) root r h' : tidy h -> kind h root false -> normalized fuel h root = Some (Ok (r, h')) -> graph no_empty nothing h' (reach h' r) /\ kind h' r false.
  Proof.
    intros T K H. unfold normalized in H. apply then_ok in H as ((r1 & h1) & H1 & H). apply then_ok in H as ((r2 & h2) & H2 & H).
    apply then_ok in H as ((r3 & h3) & H3 & H). apply then_ok in H as ((r4 & h4) & H4 & H5).
    destruct (run_tidy squash_method squash_tidy fuel h root r1 h1 false T K H1) as [T1 K1]. assert (G1 := tidy_graph h1 r1 false T1 K1).
    destruct (pass_ok pipe_bnf bnf_lines plain no_quant nothing no_quant_plain (fun _ => eq_refl) (fun _ => eq_refl) _ (replace_extended_ok pipe_bnf bnf_lines) fuel h1 r1
      (reach h1 r1) r2 h2 G1 (reach_refl h1 r1) H2) as (G2 & _ & _ & _ & P2).
    destruct (pass_ok pipe_bnf bnf_lines no_quant no_or nothing no_or_quant (fun _ => eq_refl) (fun _ => eq_refl) _ (replace_or_ok pipe_bnf bnf_lines) fuel h2 r2
      (reach h2 r2) r3 h3 G2 (reach_refl h2 r2) H3) as (G3 & _ & _ & _ & P3).
    destruct (pass_ok pipe_bnf bnf_lines no_or no_empty nothing no_empty_or (fun _ => eq_refl) (fun _ => eq_refl) _ (replace_empty_ok pipe_bnf bnf_lines) fuel h3 r3
      (reach h3 r3) r4 h4 G3 (reach_refl h3 r3) H4) as (G4 & _ & _ & _ & P4).
    destruct (pass_ok pipe_bnf bnf_lines no_empty no_empty nothing (fun _ e => e) (fun _ => eq_refl) (fun _ => eq_refl) _ (fun n0 G => flatten_ok pipe_bnf bnf_lines n0 G fuel) fuel h4 r4
      (reach h4 r4) r h' G4 (reach_refl h4 r4) H5) as (G5 & _ & _ & _ & P5).
    split; [exact G5|]. destruct K1 as (o1 & E1 & Q1). destruct (P2 o1 E1) as (o2 & E2 & Q2). destruct (P3 o2 E2) as (o3 & E3 & Q3). destruct (P4 o3 E3) as (o4 & E4 & Q4). destruct (P5 o4 E4) as (o5 & E5 & Q5).
    exists o5. split; [exact E5|congruence].
  Qed.

  Variable activate_pred : pred -> res pred.
  Variable activate_pipe : pipe -> res pipe.
  Lemma activated_tidy (h h' : heap) root b : ordered h -> tidy h -> kind h root b -> activated_graph activate_pred activate_pipe h h' root -> tidy h' /\ kind h' root b.
  Proof.
    intros O T K A. assert (L : root < length h) by (destruct K as (o & E & _); apply nth_error_Some; congruence).
    assert (Kk : forall p c, kind h p c -> kind h' p c).
    { intros p c (o & E & Q). destruct (reach_dec h root O L p) as [R|N].
      - destruct (proj1 (proj2 A) p o R E) as (o' & E' & Q'). exists o'. split; [exact E'|]. destruct (activated_class _ _ o o' Q') as (_ & _ & -> & _). exact Q.
      - exists o. rewrite (proj2 (proj2 A) p N). auto. }
    split; [|apply Kk, K]. intros p o' E'. destruct (reach_dec h root O L p) as [R|N].
    - destruct (activated_back _ _ h h' root A p o' R E') as (o & E & Q). destruct (activated_class _ _ o o' Q) as (-> & _ & _ & -> & _). destruct (T p o E) as (P & S & C).
      split; [exact P|]. split; [apply (activated_shape _ _ o o' Q S)|]. rewrite (activated_children _ _ o o' Q). intros c Hc. apply Kk, C, Hc.
    - rewrite (proj2 (proj2 A) p N) in E'. destruct (T p o' E') as (P & S & C). split; [exact P|]. split; [exact S|]. intros c Hc. apply Kk, C, Hc.
  Qed.
End Tidy.
