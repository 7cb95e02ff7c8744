(** Normalisation does not make a rule a part of itself: if the root is not a part of
    itself, nor is the normalised root, unless it is a forward rule. *)
From Verif Require Import Base SpanProofs EarleyModel RuleModel RuleSpec RuleWords RuleLike RulePass RuleMethods RuleNormal RuleNormalized RuleOrder RuleBfs RuleBNF RuleForward RuleAsBnf.
Open Scope nat_scope.

Section Root.
  Context {pred pipe bnf : Type}.
  Notation obj := (obj pred pipe bnf).
  Notation heap := (heap pred pipe bnf).
  Notation visitor := (visitor pred pipe bnf).
  Notation state := (state pred pipe bnf).
  Notation M := (M pred pipe bnf).

  Section Kept.
    Variable h0 : heap.
    (** The objects in play, and the pointers that may be stored. *)
    Variable S ok : nat -> Prop.
    Hypothesis new_S : forall c, length h0 <= c -> S c.
    Hypothesis ok_S : forall c, ok c -> S c.
    Hypothesis new_ok : forall c, length h0 <= c -> ok c.
    Definition old_forward (p : nat) : Prop := exists d, nth_error h0 p = Some (OForward d).
    Record kept (s : state) : Prop := {
      k_size : length h0 <= length (st_heap s);
      k_old : forall q o, nth_error h0 q = Some o -> is_forward o = false -> nth_error (st_heap s) q = Some o;
      k_forward : forall q, old_forward q -> exists d, nth_error (st_heap s) q = Some (OForward d);
      k_children : forall q o c, S q -> nth_error (st_heap s) q = Some o -> In c (children o) -> ok c;
      k_memo : forall p r, In (p, r) (st_visited s) -> ok p /\ ok r /\ (old_forward p -> r = p) }.
    Definition keeps {A} (x : M A) (Q : A -> Prop) : Prop := forall s a s', kept s -> x s = Some (Ok (a, s')) -> kept s' /\ Q a.

    Lemma keeps_bind {A B} (x : M A) (f : A -> M B) Q Q' : keeps x Q -> (forall a, Q a -> keeps (f a) Q') -> keeps (bindM x f) Q'.
    Proof. intros X F s b s' I H. apply bind_ok in H as (a & s1 & H1 & H2). destruct (X s a s1 I H1) as [I1 Qa]. exact (F a Qa s1 b s' I1 H2). Qed.
    Lemma keeps_post {A} (x : M A) (Q Q' : A -> Prop) : keeps x Q -> (forall a, Q a -> Q' a) -> keeps x Q'.
    Proof. intros X K s a s' I H. destruct (X s a s' I H) as [I1 Qa]. auto. Qed.
    Lemma keeps_ret {A} (a : A) (Q : A -> Prop) : Q a -> keeps (ret a) Q.
    Proof. intros K s b s' I H. apply ret_ok in H as [-> ->]. auto. Qed.
    Lemma keeps_raise {A} e (Q : A -> Prop) : keeps (raise e) Q. Proof. intros s b s' I H. discriminate. Qed.
    Lemma keeps_no_fuel {A} (Q : A -> Prop) : keeps no_fuel Q. Proof. intros s b s' I H. discriminate. Qed.
    Lemma keeps_get p : S p -> keeps (get p) (fun o => (forall c, In c (children o) -> ok c) /\ (old_forward p -> is_forward o = true)).
    Proof.
      intros Sp s o s' I H. apply get_ok in H as [E ->]. split; [exact I|]. split; [intros c Hc; apply (k_children s I p o c Sp E Hc)|].
      intros F. destruct (k_forward s I p F) as (d & E'). rewrite E in E'. injection E' as ->. reflexivity.
    Qed.
    Lemma keeps_alloc (o : obj) : (forall c, In c (children o) -> ok c) -> keeps (alloc o) (fun r => ok r /\ length h0 <= r).
    Proof.
      intros K s r s' [I1 I2 I3 I4 I5] H. injection H as <- <-. split; [|split; [apply new_ok, I1|exact I1]]. constructor; cbn.
      - rewrite app_length. lia.
      - intros q o' E F. rewrite nth_error_app1; [apply I2; assumption|]. apply nth_error_Some. rewrite (I2 q o' E F). discriminate.
      - intros q F. destruct (I3 q F) as (d & E). exists d. rewrite nth_error_app1; [exact E|]. apply nth_error_Some. congruence.
      - intros q o' c Sq E Hc. destruct (Nat.lt_ge_cases q (length (st_heap s))) as [L|L].
        + rewrite nth_error_app1 in E by exact L. apply (I4 q o' c Sq E Hc).
        + rewrite nth_error_app2 in E by exact L. destruct (q - length (st_heap s)) as [|k]; [|destruct k; discriminate]. injection E as <-. apply K, Hc.
      - exact I5.
    Qed.
    Lemma keeps_define f r : (old_forward f \/ length h0 <= f) -> ok r -> keeps (define f r) (fun _ => True).
    Proof.
      intros F Kr. unfold define. intros s u s' I H. apply bind_ok in H as (o & s1 & H1 & H). apply get_ok in H1 as [E ->]. destruct (is_forward o); [discriminate|].
      injection H as <- <-. split; [|exact Logic.I]. destruct I as [I1 I2 I3 I4 I5]. constructor; cbn.
      - rewrite setitem_length. exact I1.
      - intros q o' E' F'. rewrite setitem_other; [apply I2; assumption|]. intros ->. destruct F as [(d & F)|F]; [rewrite E' in F; injection F as ->; discriminate|].
        assert (q < length h0) by (apply nth_error_Some; congruence). lia.
      - intros q Fq. destruct (Nat.eq_dec f q) as [->|N]; [|rewrite setitem_other by exact N; apply I3, Fq]. exists (Some r). apply setitem_same. destruct (I3 q Fq) as (d & E').
        apply nth_error_Some. congruence.
      - intros q o' c Sq E' Hc. destruct (Nat.eq_dec f q) as [->|N]; [|rewrite setitem_other in E' by exact N; apply (I4 q o' c Sq E' Hc)].
        assert (L : q < length (st_heap s)) by (rewrite <- (setitem_length (st_heap s) q (OForward (Some r))); apply nth_error_Some; congruence).
        rewrite setitem_same in E' by exact L. injection E' as <-. destruct Hc as [<-|[]]. exact Kr.
      - exact I5.
    Qed.
    Lemma keeps_remember p r : ok p -> ok r -> (old_forward p -> r = p) -> keeps (remember p r) (fun _ => True).
    Proof.
      intros A B C s u s' [I1 I2 I3 I4 I5] H. injection H as <- <-. split; [|exact I]. constructor; cbn; auto. intros q r' [E|H]; [injection E as <- <-; auto|apply I5, H].
    Qed.
    Lemma keeps_recall p : keeps (recall p) (fun o => forall r, o = Some r -> ok p /\ ok r /\ (old_forward p -> r = p)).
    Proof. intros s o s' I H. injection H as <- <-. split; [exact I|]. intros r E. apply (k_memo s I p r), assoc_in, E. Qed.
    Lemma keeps_map {A B} (f : A -> M B) (P : A -> Prop) (Q : B -> Prop) l : (forall x, P x -> keeps (f x) Q) -> Forall P l -> keeps (mapMM f l) (Forall Q).
    Proof.
      intros F W. induction W as [|x l Px W IH]; cbn [mapMM]; [apply keeps_ret; constructor|]. eapply keeps_bind; [apply F, Px|]. intros y Qy.
      eapply keeps_bind; [exact IH|]. intros ys Qs. apply keeps_ret. constructor; assumption.
    Qed.

    Definition answers (p r : nat) : Prop := (r = p \/ ok r) /\ (old_forward p -> r = p).
    Definition visits (V : visitor) : Prop := forall p, ok p -> keeps (V p) ok.
    Definition methods (m : visitor -> nat -> obj -> M nat) : Prop :=
      forall V p o, visits V -> S p -> (forall c, In c (children o) -> ok c) -> (old_forward p -> is_forward o = true) -> keeps (m V p o) (answers p).

    Section Method.
      Variable method : visitor -> nat -> obj -> M nat.
      Hypothesis good : methods method.
      Lemma visit_visits fuel : visits (visit method fuel).
      Proof.
        induction fuel as [|fuel IH]; intros p Kp; cbn [visit]; [apply keeps_no_fuel|].
        eapply keeps_bind; [apply keeps_recall|]. intros [r|] K; [apply keeps_ret; apply (K r eq_refl)|]. clear K.
        eapply keeps_bind; [apply keeps_get, ok_S, Kp|]. intros o [K F]. eapply keeps_bind; [apply (good (visit method fuel) p o IH (ok_S p Kp) K F)|]. intros r [A B].
        assert (Kr : ok r) by (destruct A as [->|A]; assumption). eapply keeps_bind; [apply keeps_remember; auto|]. intros _ _. apply keeps_ret, Kr.
      Qed.
      Lemma define_visited_keeps fuel p : S p -> keeps (define_visited method fuel p) (fun _ => True).
      Proof.
        intros Sp. unfold define_visited. intros s u s' I H. apply bind_ok in H as (o & s1 & H1 & H). apply get_ok in H1 as [E ->].
        destruct o as [| | | | | | | | | | |[r|]| | | | | | |]; try (apply ret_ok in H as [_ ->]; auto; fail).
        assert (Kr : ok r) by (apply (k_children s I p _ r Sp E); left; reflexivity).
        assert (F : old_forward p \/ length h0 <= p).
        { destruct (Nat.lt_ge_cases p (length h0)) as [L|L]; [left|right; exact L]. destruct (nth_error h0 p) as [o|] eqn:Eo; [|apply nth_error_None in Eo; lia].
          destruct (is_forward o) eqn:F; [destruct o; try discriminate; eexists; exact Eo|]. rewrite (k_old s I p o Eo F) in E. injection E as ->. discriminate. }
        revert H. apply (keeps_bind (visit method fuel r) (fun r' => define p r') ok (fun _ => True)); [apply visit_visits, Kr| |exact I].
        intros r' Kr'. apply keeps_define; assumption.
      Qed.
      Lemma walk_keeps (act : nat -> M unit) : (forall p, S p -> keeps (act p) (fun _ => True)) ->
        forall fuel queue vis, Forall S queue -> keeps (walk_loop fuel act queue vis) (fun _ => True).
      Proof.
        intros A. induction fuel as [|fuel IH]; intros [|x queue] vis W; cbn [walk_loop]; try (apply keeps_ret; exact I); [apply keeps_no_fuel|].
        inversion W as [|? ? Sx Wq]; subst. eapply keeps_bind; [apply A, Sx|]. intros _ _. eapply keeps_bind; [apply keeps_get, Sx|]. intros o [K _].
        destruct (enqueue (children o) queue vis) as [queue2 vis2] eqn:En. apply IH. apply Forall_forall. intros y Hy.
        destruct (enqueue_spec _ _ _ _ _ En) as (_ & _ & _ & _ & F). destruct (F y Hy) as [Q|Q]; [|apply ok_S, K, Q]. rewrite Forall_forall in Wq. apply Wq, Q.
      Qed.
    End Method.

    (** ** The methods *)
    Lemma fresh_answers p r : ~ old_forward p -> ok r /\ length h0 <= r -> answers p r.
    Proof. intros F [K _]. split; [right; exact K|]. intros K'. destruct (F K'). Qed.
    Lemma same_answers p : answers p p. Proof. split; auto. Qed.
    Lemma term_ok ts : (forall c, In c (rule_terms ts) -> ok c) <-> Forall (fun t : term pred => match t with TRule r => ok r | TPred _ => True end) ts.
    Proof.
      unfold rule_terms. rewrite Forall_forall. split.
      - intros K [r|p] Hx; [|exact I]. apply K, in_flat_map. exists (TRule r). split; [exact Hx|left; reflexivity].
      - intros K c Hc. apply in_flat_map in Hc as ([r|p] & Ht & Hr); [|destruct Hr]. destruct Hr as [<-|[]]. apply (K (TRule r) Ht).
    Qed.
    Notation good_term := (fun t : term pred => match t with TRule r => ok r | TPred _ => True end).
    Lemma visit_term_keeps V t : visits V -> good_term t -> keeps (visit_term V t) good_term.
    Proof. intros HV W. destruct t as [r|p]; cbn; [|apply keeps_ret; exact I]. eapply keeps_bind; [apply HV, W|]. intros r' K. apply keeps_ret, K. Qed.
    Lemma alloc_keeps p (o : obj) : ~ old_forward p -> (forall c, In c (children o) -> ok c) -> keeps (alloc o) (answers p).
    Proof. intros F K. eapply keeps_post; [apply keeps_alloc, K|]. intros r. apply fresh_answers, F. Qed.
    Lemma one_keeps V p r (f : nat -> obj) : visits V -> ~ old_forward p -> ok r -> (forall x, children (f x) = [x]) -> keeps (bindM (V r) (fun r' => alloc (f r'))) (answers p).
    Proof. intros HV F K C. eapply keeps_bind; [apply HV, K|]. intros r' K'. apply alloc_keeps; [exact F|]. intros c. rewrite C. intros [<-|[]]. exact K'. Qed.
    Lemma list_keeps V p rs (f : list nat -> obj) : visits V -> ~ old_forward p -> (forall c, In c rs -> ok c) -> (forall xs, children (f xs) = xs) -> keeps (bindM (mapMM V rs) (fun xs => alloc (f xs))) (answers p).
    Proof.
      intros HV F K C. eapply keeps_bind; [apply (keeps_map V ok ok); [exact HV|apply Forall_forall, K]|]. intros xs W. apply alloc_keeps; [exact F|]. rewrite C. rewrite Forall_forall in W. exact W.
    Qed.
    Lemma base_keeps : methods base_method.
    Proof.
      intros V p o HV Sp C F.
      destruct o as [ps|rs|r0 rev|r0 rev|r0 rr ro|r0 m rev|r0 m rev|r0 m n' rev|r0 nm|r0 i|r0 rel|d| |pl|ps a|b ps a|ts m| |k ps]; cbn [base_method];
        try (assert (F' : ~ old_forward p) by (intros K; discriminate (F K))); try (apply keeps_raise); try (apply keeps_ret; apply same_answers);
        try (apply (one_keeps V p r0 _ HV F'); [apply C; left; reflexivity|reflexivity]);
        try (apply (list_keeps V p _ _ HV F'); [exact C|reflexivity]).
      unfold visit_Production. eapply keeps_bind; [apply (keeps_map (visit_term V) good_term good_term); [intros t; apply visit_term_keeps, HV|apply term_ok, C]|].
      intros ys W. apply alloc_keeps; [exact F'|]. cbn. apply term_ok, W.
    Qed.
    Lemma visit_new_keeps V p o : visits V -> ~ old_forward p -> (forall c, In c (children o) -> ok c) -> keeps (visit_new V o) (answers p).
    Proof.
      intros HV F C. eapply keeps_bind; [apply keeps_alloc, C|]. intros t [K _]. eapply keeps_post; [apply HV, K|]. intros r Kr. split; [right; exact Kr|]. intros K'. destruct (F K').
    Qed.
    Lemma squash_keeps : methods squash_method.
    Proof.
      intros V p o HV Sp C F. assert (Base := base_keeps V p o HV Sp C F).
      destruct o as [ps|rs|r0 rev|r0 rev|r0 rr ro|r0 m rev|r0 m rev|r0 m nn rev|r0 nm|r0 i|r0 rel|d| |pl|ps a|b ps a|ts m| |k ps]; cbn [squash_method]; try exact Base; clear Base;
        (assert (F' : ~ old_forward p) by (intros K; discriminate (F K))); (assert (L0 : ok r0) by (apply C; left; reflexivity)); clear C;
        (eapply keeps_bind; [apply keeps_get, ok_S, L0|]); intros child [K _];
        destruct child; unfold squash_bounded; try apply keeps_raise;
        try (apply (one_keeps V p r0 _ HV F'); [exact L0|reflexivity]);
        try (apply visit_new_keeps; [exact HV|exact F'|]; intros c [<-|[]]; apply K; left; reflexivity);
        (eapply keeps_bind; [apply keeps_alloc; intros c [<-|[]]; apply K; left; reflexivity|]; intros t [Kt _]; apply visit_new_keeps; [exact HV|exact F'|]; intros c [<-|[]]; exact Kt).
    Qed.
    Lemma new_rule_keeps l : (forall c, In c l -> ok c) -> keeps (new_rule (pred:=pred) (pipe:=pipe) (bnf:=bnf) l) ok.
    Proof.
      intros W. eapply keeps_bind; [apply keeps_alloc|].
      - intros c Hc. cbn in Hc. unfold rule_terms in Hc. apply in_flat_map in Hc as (t & Ht & Hc). apply in_map_iff in Ht as (x & <- & Hx). destruct Hc as [<-|[]]. apply W, Hx.
      - intros q [K _]. eapply keeps_post; [apply keeps_alloc; intros c [<-|[]]; exact K|]. intros r [Kr _]. exact Kr.
    Qed.
    Lemma in_ordered rev (a b c : nat) : In c (RuleModel.ordered rev a b) -> c = a \/ c = b.
    Proof. destruct rev; cbn; intuition. Qed.
    Lemma repeatable_keeps item rev : ok item -> keeps (repeatable_rule (pred:=pred) (pipe:=pipe) (bnf:=bnf) item rev) ok.
    Proof.
      intros L. unfold repeatable_rule. eapply keeps_bind; [apply keeps_alloc; intros c []|]. intros temp [K1 L1].
      eapply keeps_bind; [apply new_rule_keeps; intros c [<-|[<-|[]]]; assumption|]. intros a Ka.
      eapply keeps_bind; [apply keeps_alloc; cbn; intros c Hc; apply in_ordered in Hc as [->| ->]; assumption|]. intros o [Ko _].
      eapply keeps_bind; [apply keeps_define; auto|]. intros _ _. apply keeps_ret, K1.
    Qed.
    Lemma repeatable_optional_keeps item rr ro : ok item -> keeps (repeatable_optional_rule (pred:=pred) (pipe:=pipe) (bnf:=bnf) item rr ro) ok.
    Proof.
      intros L. unfold repeatable_optional_rule. eapply keeps_bind; [apply keeps_alloc; intros c []|]. intros temp [K1 L1].
      eapply keeps_bind; [apply keeps_alloc; intros c []|]. intros a [Ka _].
      eapply keeps_bind; [apply new_rule_keeps; intros c [<-|[<-|[]]]; assumption|]. intros b Kb.
      eapply keeps_bind; [apply keeps_alloc|].
      { cbn. intros c Hc. destruct ro; [apply in_app_or in Hc as [Hc|[<-|[]]]; [apply in_ordered in Hc as [->| ->]; assumption|assumption]|]. destruct Hc as [<-|Hc]; [assumption|apply in_ordered in Hc as [->| ->]; assumption]. }
      intros o [Ko _]. eapply keeps_bind; [apply keeps_define; auto|]. intros _ _. apply keeps_ret, K1.
    Qed.
    Lemma optional_keeps item rev : ok item -> keeps (optional_rule (pred:=pred) (pipe:=pipe) (bnf:=bnf) item rev) ok.
    Proof.
      intros L. unfold optional_rule. eapply keeps_bind; [apply keeps_alloc; intros c []|]. intros a [Ka _].
      eapply keeps_post; [apply keeps_alloc; cbn; intros c Hc; apply in_ordered in Hc as [->| ->]; assumption|]. intros r [Kr _]. exact Kr.
    Qed.
    Lemma max_bound_keeps count : forall item rev, ok item -> keeps (max_bound (pred:=pred) (pipe:=pipe) (bnf:=bnf) item count rev) ok.
    Proof.
      induction count as [|[|count] IH]; intros item rev L; cbn [max_bound]; [apply keeps_no_fuel|apply keeps_ret, L|].
      eapply keeps_bind; [apply IH, L|]. intros rest Kr. eapply keeps_bind; [apply new_rule_keeps; intros c [<-|[<-|[]]]; assumption|]. intros a Ka.
      eapply keeps_post; [apply keeps_alloc; cbn; intros c Hc; apply in_ordered in Hc as [->| ->]; assumption|]. intros r [Kr' _]. exact Kr'.
    Qed.
    Lemma replace_extended_keeps : methods replace_extended_method.
    Proof.
      intros V p o HV Sp C F. assert (Base := base_keeps V p o HV Sp C F).
      assert (A : ~ old_forward p -> forall r, ok r -> answers p r) by (intros F' r Kr; split; [right; exact Kr|intros K'; destruct (F' K')]).
      destruct o as [ps|rs|r0 rev|r0 rev|r0 rr ro|r0 m rev|r0 m rev|r0 m nn rev|r0 nm|r0 i|r0 rel|d| |pl|ps a|b ps a|ts m| |k ps]; cbn [replace_extended_method]; try exact Base; clear Base;
        (assert (F' : ~ old_forward p) by (intros K; discriminate (F K))); specialize (A F'); (assert (L0 : ok r0) by (apply C; left; reflexivity)); clear C;
        (eapply keeps_post; [|exact A]); (eapply keeps_bind; [apply HV, L0|]; intros child L1).
      - apply optional_keeps, L1.
      - apply repeatable_keeps, L1.
      - apply repeatable_optional_keeps, L1.
      - eapply keeps_bind; [apply repeatable_keeps, L1|]. intros x Kx. apply new_rule_keeps. intros c Hc. apply in_app_or in Hc as [Hc|[<-|[]]]; [apply repeat_spec in Hc; subst; exact L1|exact Kx].
      - apply max_bound_keeps, L1.
      - eapply keeps_bind; [apply max_bound_keeps, L1|]. intros x Kx. apply new_rule_keeps. intros c Hc. apply in_app_or in Hc as [Hc|[<-|[]]]; [apply repeat_spec in Hc; subst; exact L1|exact Kx].
    Qed.
    Lemma replace_or_keeps : methods replace_or_method.
    Proof.
      intros V p o HV Sp C F. assert (Base := base_keeps V p o HV Sp C F). destruct o; cbn [replace_or_method]; try exact Base; clear Base.
      assert (F' : ~ old_forward p) by (intros K; discriminate (F K)).
      eapply keeps_bind; [apply (keeps_map _ ok ok)|].
      - intros x Kx. eapply keeps_bind; [apply HV, Kx|]. intros r' Kr. eapply keeps_post; [apply keeps_alloc; intros c [<-|[]]; exact Kr|]. intros r [K _]. exact K.
      - apply Forall_forall, C.
      - intros ys W. apply alloc_keeps; [exact F'|]. rewrite Forall_forall in W. exact W.
    Qed.
    Lemma replace_empty_keeps : methods replace_empty_method.
    Proof.
      intros V p o HV Sp C F. assert (Base := base_keeps V p o HV Sp C F). destruct o; cbn [replace_empty_method]; try exact Base; clear Base.
      assert (F' : ~ old_forward p) by (intros K; discriminate (F K)).
      eapply keeps_bind; [apply keeps_alloc; intros c []|]. intros q [Kq _]. apply alloc_keeps; [exact F'|]. intros c [<-|[]]. exact Kq.
    Qed.
    Lemma flatten_term_keeps V fuel : visits V -> forall t, good_term t -> keeps (flatten_term fuel V t) good_term.
    Proof.
      intros HV. induction fuel as [|fuel IH]; intros t W; cbn [flatten_term]; [apply keeps_no_fuel|]. destruct t as [r|p]; [|apply keeps_ret; exact I].
      assert (D : keeps (visit_term V (TRule r)) good_term) by (apply visit_term_keeps; [exact HV|exact W]).
      eapply keeps_bind; [apply keeps_get, ok_S, W|]. intros o [K _].
      destruct o as [[|q [|q2 ps]]| | | | | | | | | | | | | | | | | |]; try exact D.
      eapply keeps_bind; [apply keeps_get, ok_S, K; left; reflexivity|]. intros oq [K2 _].
      destruct (production_terms oq) as [|t1 [|t2 ts]] eqn:Pt; try exact D. apply IH.
      destruct oq; try discriminate; cbn in Pt; subst.
      - destruct t1 as [r1|p1]; [|exact I]. apply K2. left. reflexivity.
      - destruct terms as [|x [|y l]]; try discriminate. injection Pt as <-. exact I.
    Qed.
    Lemma flatten_keeps fuel : methods (flatten_method fuel).
    Proof.
      intros V p o HV Sp C F. assert (Base := base_keeps V p o HV Sp C F).
      destruct o as [ps|rs|r0 rev|r0 rev|r0 rr ro|r0 m rev|r0 m rev|r0 m nn rev|r0 nm|r0 i|r0 rel|d| |pl|ps a|b ps a|ts m| |k ps]; cbn [flatten_method]; try exact Base; clear Base.
      assert (F' : ~ old_forward p) by (intros K; discriminate (F K)).
      assert (D : keeps (bindM (mapMM (flatten_term fuel V) ts) (fun ts' => alloc (OProd ts' m))) (answers p)).
      { eapply keeps_bind; [apply (keeps_map (flatten_term fuel V) good_term good_term); [intros t; apply flatten_term_keeps, HV|apply term_ok, C]|].
        intros ys W. apply alloc_keeps; [exact F'|]. cbn. apply term_ok, W. }
      destruct ts as [|[r0|p0] [|t2 ts]]; try exact D. eapply keeps_bind; [apply keeps_get, ok_S, C; left; reflexivity|]. intros o [K1 _].
      destruct o as [[|q [|q2 ps]]| | | | | | | | | | | | | | | | | |]; try exact D. eapply keeps_post; [apply HV, K1; left; reflexivity|].
      intros r Kr. split; [right; exact Kr|intros K'; destruct (F' K')].
    Qed.
  End Kept.

  (** ** What a method returns for the root: the object itself, a forward rule, or the
      object created last. *)
  Definition lonely (h : heap) (r : nat) : Prop := forall q o, nth_error h q = Some o -> ~ In r (children o).
  Section Ends.
    Variable fit : obj -> Prop.
    Definition last (h : heap) (p r : nat) : Prop :=
      r = p \/ (exists d, nth_error h r = Some (OForward d)) \/ (exists o, nth_error h r = Some o /\ fit o) /\ lonely h r.
    Definition ends (n p : nat) (x : M nat) : Prop := forall s r s', fine s -> n <= size s -> x s = Some (Ok (r, s')) -> last (st_heap s') p r.
    Lemma ends_bind {A} n p (x : M A) f Q : safe n x Q -> (forall n' a, n <= n' -> Q n' a -> ends n' p (f a)) -> ends n p (bindM x f).
    Proof.
      intros X F s b s' I N H. apply bind_ok in H as (a & s1 & H1 & H2). destruct (X s a s1 I N H1) as (I1 & N1 & Qa). exact (F (size s1) a N1 Qa s1 b s' I1 (le_n _) H2).
    Qed.
    Lemma ends_alloc n p (o : obj) : fit o -> (forall c, In c (children o) -> c < n) -> ends n p (alloc o).
    Proof.
      intros Fo K s r s' [O V] N H. injection H as <- <-. right. right. split; [exists o; split; [cbn; rewrite nth_error_app2, Nat.sub_diag by lia; reflexivity|exact Fo]|].
      intros q o' E Hc. cbn in E. unfold size in *. destruct (Nat.lt_ge_cases q (length (st_heap s))) as [L|L].
      - rewrite nth_error_app1 in E by exact L. destruct (O q o' _ E Hc). lia.
      - rewrite nth_error_app2 in E by exact L. destruct (q - length (st_heap s)) as [|k]; [|destruct k; discriminate]. injection E as <-. specialize (K _ Hc). lia.
    Qed.
    Lemma ends_ret n p : ends n p (ret p).
    Proof. intros s r s' _ _ H. apply ret_ok in H as [-> ->]. left. reflexivity. Qed.
    Lemma ends_raise n p e : ends n p (raise e). Proof. intros s r s' _ _ H. discriminate. Qed.
    Lemma ends_no_fuel n p : ends n p no_fuel. Proof. intros s r s' _ _ H. discriminate. Qed.
    Lemma one_ends V n p r (f : nat -> obj) : RuleOrder.visits V -> r < n -> (forall x, fit (f x)) -> (forall x, children (f x) = [x]) -> ends n p (bindM (V r) (fun r' => alloc (f r'))).
    Proof. intros HV L Ft F. eapply ends_bind; [apply HV, L|]. intros n1 r' N1 L1. apply ends_alloc; [apply Ft|]. intros c. rewrite F. intros [<-|[]]. exact L1. Qed.
    Lemma list_ends V n p rs (f : list nat -> obj) : RuleOrder.visits V -> (forall c, In c rs -> c < n) -> (forall xs, fit (f xs)) -> (forall xs, children (f xs) = xs) -> ends n p (bindM (mapMM V rs) (fun xs => alloc (f xs))).
    Proof.
      intros HV C Ft F. eapply ends_bind; [apply (safe_visits V n rs HV), Forall_forall, C|]. intros n1 ys N1 W. apply ends_alloc; [apply Ft|]. rewrite F. apply below_children, W.
    Qed.
    Lemma forward_ends n p temp x : temp < n -> ends n p (bindM (define temp x) (fun _ => ret temp)).
    Proof.
      intros L s r s' I N H. apply bind_ok in H as (u & s1 & H1 & H). apply ret_ok in H as [-> ->]. unfold define in H1. apply bind_ok in H1 as (o & s2 & H1 & H). apply get_ok in H1 as [E ->].
      destruct (is_forward o); [discriminate|]. injection H as <- <-. right. left. exists (Some x). cbn. apply setitem_same. unfold size in N. lia.
    Qed.
    Lemma new_rule_ends n p l : (forall q, fit (ORule [q])) -> Forall (fun x => x < n) l -> ends n p (new_rule (pred:=pred) (pipe:=pipe) (bnf:=bnf) l).
    Proof.
      intros Ft W. eapply ends_bind; [apply safe_alloc|].
      - intros c Hc. cbn in Hc. unfold rule_terms in Hc. apply in_flat_map in Hc as (t & Ht & Hc). apply in_map_iff in Ht as (x & <- & Hx). destruct Hc as [<-|[]].
        rewrite Forall_forall in W. apply W, Hx.
      - intros n1 q N1 L. apply ends_alloc; [apply Ft|]. intros c [<-|[]]. exact L.
    Qed.
  End Ends.

  (** A rule that is not a repetition bounded by one. *)
  Definition any (o : obj) : Prop := True.
  Definition calm (h : heap) (o : obj) : Prop := is_quant o = true -> forall c, In c (children o) -> exists oc, nth_error h c = Some oc /\ is_quant oc = false.
  Definition method_ends (m : visitor -> nat -> obj -> M nat) (before after : obj -> Prop) : Prop :=
    forall V p o s r s', RuleOrder.visits V -> fine s -> nth_error (st_heap s) p = Some o -> is_prod o = false -> calm (st_heap s) o -> before o ->
    m V p o s = Some (Ok (r, s')) -> last after (st_heap s') p r.
  Lemma in_state_children s p (o : obj) : fine s -> nth_error (st_heap s) p = Some o -> p < size s /\ forall c, In c (children o) -> c < size s.
  Proof. intros [O _] E. split; [apply nth_error_Some; congruence|]. intros c Hc. apply (O p o c E Hc). Qed.
  Lemma base_ends (after : obj -> Prop) n V p o : RuleOrder.visits V -> (forall c, In c (children o) -> c < n) -> is_prod o = false ->
    (forall x : obj, is_quant x = is_quant o -> after x) -> ends after n p (base_method V p o).
  Proof.
    intros HV C P A.
    destruct o as [ps|rs|r0 rev|r0 rev|r0 rr ro|r0 m rev|r0 m rev|r0 m n' rev|r0 nm|r0 i|r0 rel|d| |pl|ps a|b ps a|ts m| |k ps]; cbn [base_method]; try discriminate P;
      try (apply ends_raise); try (apply ends_ret);
      try (apply (one_ends after V n p r0 _ HV); [apply C; left; reflexivity|intros; apply A; reflexivity|reflexivity]; fail); apply (list_ends after V n p _ _ HV); try exact C; intros; try apply A; reflexivity.
  Qed.
  Lemma run_ends after p x s r s' : ends after (size s) p x -> fine s -> x s = Some (Ok (r, s')) -> last after (st_heap s') p r.
  Proof. intros F I H. apply (F s r s' I (le_n _) H). Qed.
  Lemma base_method_ends : method_ends base_method any any.
  Proof. intros V p o s r s' HV I E P _ _. destruct (in_state_children s p o I E) as [L C]. intros H. apply (run_ends _ _ _ _ _ _ (base_ends any (size s) V p o HV C P (fun _ _ => Logic.I)) I H). Qed.
  Lemma squash_ends : method_ends squash_method not_once not_once.
  Proof.
    intros V p o s r s' HV I E P Q B H. destruct (in_state_children s p o I E) as [L C].
    assert (Base : is_quant o = false -> base_method V p o s = Some (Ok (r, s')) -> last not_once (st_heap s') p r).
    { intros Qo H'. refine (run_ends _ _ _ _ _ _ (base_ends not_once (size s) V p o HV C P _) I H'). intros x Qx. rewrite Qo in Qx. destruct x; try exact Logic.I. discriminate. }
    destruct o as [ps|rs|r0 rev|r0 rev|r0 rr ro|r0 m rev|r0 m rev|r0 m n' rev|r0 nm|r0 i|r0 rel|d| |pl|ps a|b ps a|ts m| |k ps]; cbn [squash_method] in H; try (apply Base; [reflexivity|exact H]); clear Base;
      apply bind_ok in H as (child & s1 & H1 & H); apply get_ok in H1 as [E1 ->]; destruct (Q eq_refl r0 (or_introl eq_refl)) as (oc & E2 & Qc); rewrite E1 in E2; injection E2 as <-;
      destruct child; try discriminate Qc; (refine (run_ends _ _ _ _ _ _ (one_ends _ _ _ _ r0 _ HV _ _ _) I H); [apply C; left; reflexivity| |reflexivity]); intros; exact B.
  Qed.
  Lemma max_bound_ends count n p item rev : item < n -> ends any n p (max_bound (pred:=pred) (pipe:=pipe) (bnf:=bnf) item (S (S count)) rev).
  Proof.
    intros L. cbn [max_bound]. eapply ends_bind; [apply (max_bound_safe (S count)), L|]. intros n1 rest N1 L1. cbv beta in L1.
    eapply ends_bind; [apply new_rule_safe; repeat constructor; below|]. intros n2 a N2 L2.
    apply ends_alloc; [exact I|]. apply below_children. cbn. apply ordered_below; below.
  Qed.
  Lemma replace_extended_ends : method_ends replace_extended_method not_once any.
  Proof.
    intros V p o s r s' HV I E P Q B H. destruct (in_state_children s p o I E) as [L C].
    revert H. apply (fun F => run_ends any p _ s r s' F I). 
    assert (Base := base_ends any (size s) V p o HV C P (fun _ _ => Logic.I)).
    destruct o as [ps|rs|r0 rev|r0 rev|r0 rr ro|r0 m rev|r0 m rev|r0 m nn rev|r0 nm|r0 i|r0 rel|d| |pl|ps a|b ps a|ts m| |k ps]; cbn [replace_extended_method]; try exact Base; clear Base;
      (eapply ends_bind; [apply HV, C; left; reflexivity|]; intros n1 child N1 L1; cbv beta in L1).
    - unfold optional_rule. eapply ends_bind; [apply safe_alloc; intros c []|]. intros n2 a N2 L2. apply ends_alloc; [exact Logic.I|]. apply below_children. cbn. apply ordered_below; below.
    - unfold repeatable_rule. eapply ends_bind; [apply safe_alloc; intros c []|]. intros n2 temp N2 L2.
      eapply ends_bind; [apply new_rule_safe; repeat constructor; below|]. intros n3 a N3 L3.
      eapply ends_bind; [apply safe_alloc; cbn; apply below_children, ordered_below; below|]. intros n4 o N4 L4. apply forward_ends. below.
    - unfold repeatable_optional_rule. eapply ends_bind; [apply safe_alloc; intros c []|]. intros n2 temp N2 L2.
      eapply ends_bind; [apply safe_alloc; intros c []|]. intros n3 a N3 L3.
      eapply ends_bind; [apply new_rule_safe; repeat constructor; below|]. intros n4 b N4 L4.
      eapply ends_bind; [apply safe_alloc|].
      { cbn. apply below_children. destruct ro; [apply Forall_app; split; [apply ordered_below; below|repeat constructor; below]|constructor; [below|apply ordered_below; below]]. }
      intros n5 o N5 L5. apply forward_ends. below.
    - eapply ends_bind; [apply repeatable_safe, L1|]. intros n2 x N2 L2. apply new_rule_ends; [intros; exact Logic.I|]. apply Forall_app. split; [apply repeat_below; below|repeat constructor; exact L2].
    - destruct m as [|[|m]]; [apply ends_no_fuel|destruct B|apply max_bound_ends, L1].
    - eapply ends_bind; [apply max_bound_safe, L1|]. intros n2 x N2 L2. apply new_rule_ends; [intros; exact Logic.I|]. apply Forall_app. split; [apply repeat_below; below|repeat constructor; exact L2].
  Qed.
  Lemma replace_or_ends : method_ends replace_or_method any any.
  Proof.
    intros V p o s r s' HV I E P Q B H. destruct (in_state_children s p o I E) as [L C].
    revert H. apply (fun F => run_ends any p _ s r s' F I). assert (Base := base_ends any (size s) V p o HV C P (fun _ _ => Logic.I)).
    destruct o; cbn [replace_or_method]; try exact Base; clear Base.
    eapply ends_bind; [apply (safe_map (size s) _ (fun n x => x < n) (fun n x => x < n))|].
    - intros n' x N' W. apply (one_visit V n' x (fun y => OProd [TRule y] 0)); auto.
    - intros; below.
    - intros; below.
    - apply Forall_forall, C.
    - intros n1 ys N1 W. apply ends_alloc; [exact Logic.I|]. apply below_children, W.
  Qed.
  Lemma replace_empty_ends : method_ends replace_empty_method any any.
  Proof.
    intros V p o s r s' HV I E P Q B H. destruct (in_state_children s p o I E) as [L C].
    revert H. apply (fun F => run_ends any p _ s r s' F I). assert (Base := base_ends any (size s) V p o HV C P (fun _ _ => Logic.I)).
    destruct o; cbn [replace_empty_method]; try exact Base; clear Base.
    eapply ends_bind; [apply safe_alloc; intros c []|]. intros n1 q N1 L1. apply ends_alloc; [exact Logic.I|]. intros c [<-|[]]. exact L1.
  Qed.
  Lemma flatten_ends fuel : method_ends (flatten_method fuel) any any.
  Proof.
    intros V p o s r s' HV I E P Q B H. destruct (in_state_children s p o I E) as [L C].
    revert H. apply (fun F => run_ends any p _ s r s' F I). assert (Base := base_ends any (size s) V p o HV C P (fun _ _ => Logic.I)).
    destruct o; cbn [flatten_method]; try exact Base. discriminate P.
  Qed.

  (** ** One pass *)
  Definition steady (method : visitor -> nat -> obj -> M nat) : Prop :=
    forall (h0 : heap) (In_play ok : nat -> Prop), (forall c, length h0 <= c -> In_play c) -> (forall c, ok c -> In_play c) -> (forall c, length h0 <= c -> ok c) -> methods h0 In_play ok method.
  Lemma visit_step (method : visitor -> nat -> obj -> M nat) fuel p s r s' : visit method fuel p s = Some (Ok (r, s')) ->
    In (p, r) (st_visited s) /\ s' = s \/
    exists fuel' o s1, nth_error (st_heap s) p = Some o /\ method (visit method fuel') p o s = Some (Ok (r, s1)) /\ st_heap s' = st_heap s1.
  Proof.
    destruct fuel as [|fuel]; cbn [visit]; [discriminate|]. intros H. apply bind_ok in H as (k & s1 & H1 & H). injection H1 as <- <-.
    destruct (assoc p (st_visited s)) as [x|] eqn:A; [left; apply ret_ok in H as [-> ->]; split; [apply assoc_in, A|reflexivity]|right].
    apply bind_ok in H as (o & s1 & H1 & H). apply get_ok in H1 as [E ->]. apply bind_ok in H as (x & s1 & H1 & H). apply bind_ok in H as (u & s2 & H2 & H).
    apply ret_ok in H as [-> ->]. injection H2 as _ <-. exists fuel, o, s1. auto.
  Qed.
  Theorem pass_top method (before after : obj -> Prop) fuel (h : heap) root r h' :
    steady method -> RuleOrder.methods method -> method_ends method before after -> (forall o, before o -> after o) ->
    ordered h -> (forall o, nth_error h root = Some o -> is_prod o = false /\ calm h o) -> top before h root ->
    run_visit method fuel h root = Some (Ok (r, h')) -> top after h' r.
  Proof.
    intros MK MO ME BA O Root (o & E & Top) H.
    unfold run_visit in H. destruct (transform_walk method fuel root (mkState h [])) as [[[r1 s2]|e]|] eqn:T; try discriminate.
    injection H as -> <-. unfold transform_walk in T. apply bind_ok in T as (u & s1 & T1 & T2).
    assert (Lroot : root < length h) by (apply nth_error_Some; congruence).
    assert (Run : forall In_play ok : nat -> Prop, (forall c, length h <= c -> In_play c) -> (forall c, ok c -> In_play c) -> (forall c, length h <= c -> ok c) -> In_play root ->
      (forall q o c, In_play q -> nth_error h q = Some o -> In c (children o) -> ok c) ->
      kept h In_play ok s1 /\ (In (root, r) (st_visited s1) /\ s2 = s1 \/ kept h In_play ok (mkState (st_heap s2) []) /\ answers h ok root r)).
    { intros In_play ok A1 A2 A3 A4 A5.
      assert (K0 : kept h In_play ok (mkState h [])) by (constructor; cbn; [lia|auto|intros q (d & K); exists d; exact K|exact A5|intros ? ? []]).
      assert (K1 : kept h In_play ok s1).
      { refine (proj1 (walk_keeps h In_play ok A2 _ _ fuel [root] [root] _ (mkState h []) u s1 K0 T1)); [|constructor; [exact A4|constructor]].
        intros p Sp. apply define_visited_keeps; auto. }
      split; [exact K1|]. destruct (visit_step _ _ _ _ _ _ T2) as [Mm|(fuel' & o' & s3 & E' & Hm & Hh)]; [left; exact Mm|right].
      assert (F : old_forward h root -> is_forward o' = true) by (intros F; destruct (k_forward _ _ _ _ K1 root F) as (d & K); rewrite E' in K; injection K as ->; reflexivity).
      destruct (MK h In_play ok A1 A2 A3 (visit method fuel') root o' (visit_visits h In_play ok A2 method (MK h In_play ok A1 A2 A3) fuel') A4
        (fun c Hc => k_children _ _ _ _ K1 root o' c A4 E' Hc) F s1 r s3 K1 Hm) as [K3 An].
      split; [|exact An]. rewrite Hh. destruct K3 as [X1 X2 X3 X4 X5]. constructor; cbn; auto. intros ? ? []. }
    destruct Top as [F|[Bo Al]].
    - (* the root is a forward rule *)
      destruct (Run (fun _ => True) (fun _ => True)) as [K1 [[Hm ->]|(K2 & [_ An])]]; auto.
      + assert (F' : old_forward h root) by (destruct o; try discriminate; eexists; exact E). destruct (k_memo _ _ _ _ K1 root r Hm) as (_ & _ & Eq). rewrite (Eq F').
        destruct (k_forward _ _ _ _ K1 root F') as (d & E'). exists (OForward d). split; [exact E'|left; reflexivity].
      + assert (F' : old_forward h root) by (destruct o; try discriminate; eexists; exact E). rewrite (An F').
        destruct (k_forward _ _ _ _ K2 root F') as (d & E'). exists (OForward d). split; [exact E'|left; reflexivity].
    - destruct (is_forward o) eqn:F.
      { (* as above *)
        destruct (Run (fun _ => True) (fun _ => True)) as [K1 [[Hm ->]|(K2 & [_ An])]]; auto.
        + assert (F' : old_forward h root) by (destruct o; try discriminate; eexists; exact E). destruct (k_memo _ _ _ _ K1 root r Hm) as (_ & _ & Eq). rewrite (Eq F').
          destruct (k_forward _ _ _ _ K1 root F') as (d & E'). exists (OForward d). split; [exact E'|left; reflexivity].
        + assert (F' : old_forward h root) by (destruct o; try discriminate; eexists; exact E). rewrite (An F').
          destruct (k_forward _ _ _ _ K2 root F') as (d & E'). exists (OForward d). split; [exact E'|left; reflexivity]. }
      set (In_play := fun q => reach h root q \/ length h <= q). set (ok := fun q => In_play q /\ q <> root).
      destruct (Run In_play ok) as [K1 Res].
      + intros c L. right. exact L.
      + intros c [A _]. exact A.
      + intros c L. split; [right; exact L|lia].
      + left. apply reach_refl.
      + intros q o' c [R|L] E' Hc; [|apply nth_error_None in L; congruence]. split; [left; eapply reach_step; eauto|]. intros ->. apply (Al q o' R E' Hc).
      + destruct Res as [[Hm _]|(K2 & _)]; [destruct (k_memo _ _ _ _ K1 root r Hm) as ((_ & N) & _); congruence|].
        assert (Fine1 : fine s1).
        { destruct (walk_safe (define_visited method fuel) (fun n p L => define_visited_safe method MO fuel n p L) fuel (length h) [root] [root]
            (Forall_cons (P := fun x => x < length h) root Lroot (Forall_nil _)) (mkState h []) u s1) as (Fi & _); [split; [exact O|intros ? ? []]|apply le_n|exact T1|exact Fi]. }
        destruct (visit_step _ _ _ _ _ _ T2) as [[Hm _]|(fuel' & o' & s3 & E' & Hm & Hh)]; [destruct (k_memo _ _ _ _ K1 root r Hm) as ((_ & N) & _); congruence|].
        rewrite (k_old _ _ _ _ K1 root o E F) in E'. injection E' as <-. destruct (Root o E) as [P Q].
        assert (Q' : calm (st_heap s1) o).
        { intros Qo c Hc. destruct (Q Qo c Hc) as (oc & Ec & Qc). destruct (is_forward oc) eqn:Fc; [|exists oc; split; [apply (k_old _ _ _ _ K1); assumption|exact Qc]].
          destruct (k_forward _ _ _ _ K1 c) as (d & Ed); [destruct oc; try discriminate; eexists; exact Ec|]. exists (OForward d). split; [exact Ed|reflexivity]. }
        rewrite Hh in *. destruct (ME (visit method fuel') root o s1 r s3 (RuleOrder.visit_visits method MO fuel') Fine1 (k_old _ _ _ _ K1 root o E F) P Q' Bo Hm) as [->|[(d & Ed)|[(o' & Eo & Ao) Lo]]].
        * exists o. split; [apply (k_old _ _ _ _ K2); assumption|right]. split; [apply BA, Bo|]. cbn in K2.
          intros q o' R Eq Hc. assert (Sq : In_play q).
          { revert R. apply (reach_holds (fun x => In_play x)). - left. apply reach_refl. - intros q0 o0 c A B D. apply (k_children _ _ _ _ K2 q0 o0 c A B D). }
          destruct (k_children _ _ _ _ K2 q o' root Sq Eq Hc) as [_ N]. congruence.
        * exists (OForward d). split; [exact Ed|left; reflexivity].
        * exists o'. split; [exact Eo|right]. split; [exact Ao|]. intros q oq _ Eq. apply (Lo q oq Eq).
  Qed.

  (** ** Normalisation *)
  Lemma base_steady : steady base_method. Proof. intros h0 P ok A B C. apply base_keeps; assumption. Qed.
  Lemma squash_steady : steady squash_method. Proof. intros h0 P ok A B C. apply squash_keeps; assumption. Qed.
  Lemma replace_extended_steady : steady replace_extended_method. Proof. intros h0 P ok A B C. apply replace_extended_keeps; assumption. Qed.
  Lemma replace_or_steady : steady replace_or_method. Proof. intros h0 P ok A B C. apply replace_or_keeps; assumption. Qed.
  Lemma replace_empty_steady : steady replace_empty_method. Proof. intros h0 P ok A B C. apply replace_empty_keeps; assumption. Qed.
  Lemma flatten_steady fuel : steady (flatten_method fuel). Proof. intros h0 P ok A B C. apply flatten_keeps; assumption. Qed.
End Root.

Section Top.
  Context {pred pipe bnf : Type}.
  Notation obj := (obj pred pipe bnf).
  Notation heap := (heap pred pipe bnf).
  Variable pipe_bnf : pipe -> res bnf.
  Variable bnf_lines : bnf -> list (str * list pred).
  Lemma graph_calm allowed (h : heap) (G : nat -> Prop) root o : graph allowed is_quant h G -> G root -> nth_error h root = Some o -> calm h o.
  Proof.
    intros Gr Gp E Q c Hc. destruct (Gr root Gp) as (o' & E' & _ & _ & C). rewrite E in E'. injection E' as <-. destruct (C c Hc) as (_ & oc & Ec & _ & K). exists oc. auto.
  Qed.
  Lemma graph_quant (h : heap) allowed (G : nat -> Prop) root o : (forall o : obj, allowed o = true -> is_quant o = false) -> graph allowed nothing h G -> G root -> nth_error h root = Some o -> calm h o.
  Proof. intros K Gr Gp E Q. destruct (Gr root Gp) as (o' & E' & A & _). rewrite E in E'. injection E' as <-. rewrite (K o A) in Q. discriminate. Qed.
  Lemma no_quant_false (o : obj) : no_quant o = true -> is_quant o = false.
  Proof. unfold no_quant. destruct (plain o), (is_quant o); try discriminate; reflexivity. Qed.
  Lemma no_or_false (o : obj) : no_or o = true -> is_quant o = false.
  Proof. unfold no_or. intros H. apply andb_true_iff in H as [H _]. apply no_quant_false, H. Qed.
  Lemma no_empty_false (o : obj) : no_empty o = true -> is_quant o = false.
  Proof. unfold no_empty. intros H. apply andb_true_iff in H as [H _]. apply no_or_false, H. Qed.

  Theorem normalized_top fuel (h : heap) root r h' :
    graph plain is_quant h (reach h root) -> ordered h -> (exists o, nth_error h root = Some o /\ is_prod o = false) -> top not_once h root ->
    normalized fuel h root = Some (Ok (r, h')) -> top any h' r.
  Proof.
    intros Gr O (o & E & P) T H. assert (L : root < length h) by (apply nth_error_Some; congruence). unfold normalized in H.
    apply then_ok in H as ((r1 & h1) & H1 & H). apply then_ok in H as ((r2 & h2) & H2 & H).
    apply then_ok in H as ((r3 & h3) & H3 & H). apply then_ok in H as ((r4 & h4) & H4 & H5).
    destruct (run_visit_ordered squash_method squash_safe fuel h root r1 h1 O L H1) as (O1 & L1 & N1).
    destruct (run_visit_ordered _ replace_extended_safe fuel h1 r1 r2 h2 O1 L1 H2) as (O2 & L2 & N2).
    destruct (run_visit_ordered _ replace_or_safe fuel h2 r2 r3 h3 O2 L2 H3) as (O3 & L3 & N3).
    destruct (run_visit_ordered _ replace_empty_safe fuel h3 r3 r4 h4 O3 L3 H4) as (O4 & L4 & N4).
    destruct (pass_ok pipe_bnf bnf_lines plain plain is_quant (fun _ e => e) (fun _ => eq_refl) (fun _ => eq_refl) _ (squash_ok pipe_bnf bnf_lines) fuel h root (reach h root) r1 h1 Gr (reach_refl h root) H1)
      as (G1 & _ & _ & _ & P1).
    destruct (pass_ok pipe_bnf bnf_lines plain no_quant nothing no_quant_plain (fun _ => eq_refl) (fun _ => eq_refl) _ (replace_extended_ok pipe_bnf bnf_lines) fuel h1 r1
      (reach h1 r1) r2 h2 (graph_nothing _ _ _ _ G1) (reach_refl h1 r1) H2) as (G2 & _ & _ & _ & P2).
    destruct (pass_ok pipe_bnf bnf_lines no_quant no_or nothing no_or_quant (fun _ => eq_refl) (fun _ => eq_refl) _ (replace_or_ok pipe_bnf bnf_lines) fuel h2 r2
      (reach h2 r2) r3 h3 G2 (reach_refl h2 r2) H3) as (G3 & _ & _ & _ & P3).
    destruct (pass_ok pipe_bnf bnf_lines no_or no_empty nothing no_empty_or (fun _ => eq_refl) (fun _ => eq_refl) _ (replace_empty_ok pipe_bnf bnf_lines) fuel h3 r3
      (reach h3 r3) r4 h4 G3 (reach_refl h3 r3) H4) as (G4 & _ & _ & _ & P4).
    destruct (P1 o E) as (o1 & E1 & Q1). destruct (P2 o1 E1) as (o2 & E2 & Q2). destruct (P3 o2 E2) as (o3 & E3 & Q3). destruct (P4 o3 E3) as (o4 & E4 & Q4).
    assert (T1 : top not_once h1 r1).
    { apply (pass_top squash_method not_once not_once fuel h root r1 h1 squash_steady squash_safe squash_ends (fun _ e => e) O); [|exact T|exact H1].
      intros x Ex. rewrite E in Ex. injection Ex as <-. split; [exact P|apply (graph_calm plain h (reach h root) root o Gr (reach_refl h root) E)]. }
    assert (T2 : top any h2 r2).
    { apply (pass_top _ not_once any fuel h1 r1 r2 h2 replace_extended_steady replace_extended_safe replace_extended_ends (fun _ _ => I) O1); [|exact T1|exact H2].
      intros x Ex. rewrite E1 in Ex. injection Ex as <-. split; [congruence|apply (graph_calm plain h1 (reach h1 r1) r1 o1 G1 (reach_refl h1 r1) E1)]. }
    assert (T3 : top any h3 r3).
    { apply (pass_top _ any any fuel h2 r2 r3 h3 replace_or_steady replace_or_safe replace_or_ends (fun _ e => e) O2); [|exact T2|exact H3].
      intros x Ex. rewrite E2 in Ex. injection Ex as <-. split; [congruence|apply (graph_quant h2 no_quant (reach h2 r2) r2 o2 no_quant_false G2 (reach_refl h2 r2) E2)]. }
    assert (T4 : top any h4 r4).
    { apply (pass_top _ any any fuel h3 r3 r4 h4 replace_empty_steady replace_empty_safe replace_empty_ends (fun _ e => e) O3); [|exact T3|exact H4].
      intros x Ex. rewrite E3 in Ex. injection Ex as <-. split; [congruence|apply (graph_quant h3 no_or (reach h3 r3) r3 o3 no_or_false G3 (reach_refl h3 r3) E3)]. }
    apply (pass_top _ any any fuel h4 r4 r h' (flatten_steady fuel) (flatten_safe fuel) (flatten_ends fuel) (fun _ e => e) O4); [|exact T4|exact H5].
    intros x Ex. rewrite E4 in Ex. injection Ex as <-. split; [congruence|apply (graph_quant h4 no_empty (reach h4 r4) r4 o4 no_empty_false G4 (reach_refl h4 r4) E4)].
  Qed.
  Lemma top_not_sole (h : heap) root : top any h root -> ~ sole_child h root root.
  Proof.
    intros (o & E & T) (objects & w & _ & _ & Rw & (ow & Ew & K) & F & _). destruct T as [T|[_ T]]; [destruct o; try discriminate; apply (F _ E)|].
    apply (T w ow Rw Ew), wraps_child, K.
  Qed.
End Top.
