(** Objects are created after the objects they refer to, except that forward rules are
    defined later; all passes keep this. *)
From Verif Require Import Base EarleyModel RuleModel RuleSpec RuleWords RuleLike RulePass.
Open Scope nat_scope.
Ltac below := cbv beta in *; lia.

Section Order.
  Context {pred pipe bnf : Type}.
  Notation obj := (obj pred pipe bnf).
  Notation heap := (heap pred pipe bnf).
  Notation visitor := (visitor pred pipe bnf).
  Notation state := (state pred pipe bnf).
  Notation M := (M pred pipe bnf).

  Definition ordered (h : heap) : Prop :=
    forall p o c, nth_error h p = Some o -> In c (children o) -> c < length h /\ (is_forward o = false -> c < p).
  Definition fine (s : state) : Prop := ordered (st_heap s) /\ forall p r, In (p, r) (st_visited s) -> r < length (st_heap s).
  Definition size (s : state) : nat := length (st_heap s).
  Definition safe {A} (n : nat) (x : M A) (Q : nat -> A -> Prop) : Prop :=
    forall s a s', fine s -> n <= size s -> x s = Some (Ok (a, s')) -> fine s' /\ n <= size s' /\ Q (size s') a.

  Lemma safe_bind {A B} n (x : M A) (f : A -> M B) Q Q' : safe n x Q -> (forall n' a, n <= n' -> Q n' a -> safe n' (f a) Q') -> safe n (bindM x f) Q'.
  Proof.
    intros X F s b s' I N H. apply bind_ok in H as (a & s1 & H1 & H2). destruct (X s a s1 I N H1) as (I1 & N1 & Qa).
    destruct (F (size s1) a N1 Qa s1 b s' I1 (le_n _) H2) as (I2 & N2 & Qb). split; [exact I2|]. split; [lia|exact Qb].
  Qed.
  Lemma safe_post {A} n (x : M A) (Q Q' : nat -> A -> Prop) : safe n x Q -> (forall n' a, n <= n' -> Q n' a -> Q' n' a) -> safe n x Q'.
  Proof. intros X K s a s' I N H. destruct (X s a s' I N H) as (I1 & N1 & Qa). auto. Qed.
  Lemma safe_ret {A} n (a : A) (Q : nat -> A -> Prop) : (forall n', n <= n' -> Q n' a) -> safe n (ret a) Q.
  Proof. intros K s b s' I N H. apply ret_ok in H as [-> ->]. auto. Qed.
  Lemma safe_raise {A} n e (Q : nat -> A -> Prop) : safe n (raise e) Q.
  Proof. intros s b s' I N H. discriminate. Qed.
  Lemma safe_no_fuel {A} n (Q : nat -> A -> Prop) : safe n no_fuel Q.
  Proof. intros s b s' I N H. discriminate. Qed.
  Lemma safe_get n p : safe n (get p) (fun n' (o : obj) => p < n' /\ (forall c, In c (children o) -> c < n' /\ (is_forward o = false -> c < p))).
  Proof.
    intros s o s' I N H. apply get_ok in H as [E ->]. split; [exact I|]. split; [exact N|]. split; [apply nth_error_Some; congruence|].
    intros c Hc. apply (proj1 I p o c E Hc).
  Qed.
  Lemma safe_alloc n (o : obj) : (forall c, In c (children o) -> c < n) -> safe n (alloc o) (fun n' r => r < n').
  Proof.
    intros K s r s' [O V] N H. injection H as <- <-. unfold fine, size in *. cbn. rewrite app_length. cbn. split; [|lia]. split.
    - intros p o' c E Hc. rewrite app_length. cbn. destruct (Nat.lt_ge_cases p (length (st_heap s))) as [L|L].
      + rewrite nth_error_app1 in E by exact L. destruct (O p o' c E Hc). split; [lia|assumption].
      + rewrite nth_error_app2 in E by exact L. destruct (p - length (st_heap s)) as [|k] eqn:P; [|destruct k; discriminate].
        injection E as <-. specialize (K c Hc). split; [lia|]. intros _. lia.
    - intros p r K1. specialize (V p r K1). lia.
  Qed.
  Lemma safe_put n p (o : obj) : (forall c, In c (children o) -> c < n /\ (is_forward o = false -> c < p)) -> safe n (put p o) (fun n' _ => True).
  Proof.
    intros K s u s' [O V] N H. injection H as <- <-. unfold fine, size in *. cbn. rewrite setitem_length. split; [|auto]. split; [|exact V].
    intros q o' c E Hc. rewrite setitem_length. destruct (Nat.eq_dec q p) as [->|Ne].
    - assert (L : p < length (st_heap s)) by (rewrite <- (setitem_length (st_heap s) p o); apply nth_error_Some; congruence).
      rewrite setitem_same in E by exact L. injection E as <-. destruct (K c Hc). split; [lia|assumption].
    - rewrite setitem_other in E by auto. apply (O q o' c E Hc).
  Qed.
  Lemma safe_remember n p r : r < n -> safe n (remember p r) (fun n' _ => True).
  Proof.
    intros K s u s' [O V] N H. injection H as <- <-. unfold fine, size in *. cbn. split; [|auto]. split; [exact O|].
    intros q r' [E|Hr]; [injection E as <- <-; lia|apply (V q r' Hr)].
  Qed.
  Lemma safe_recall n p : safe n (recall p) (fun n' o => forall r, o = Some r -> r < n').
  Proof.
    intros s o s' I N H. injection H as <- <-. split; [exact I|]. split; [exact N|]. intros r E. apply (proj2 I p), assoc_in, E.
  Qed.
  Lemma safe_map {A B} n (f : A -> M B) (P : nat -> A -> Prop) (Q : nat -> B -> Prop) :
    (forall n' x, n <= n' -> P n' x -> safe n' (f x) Q) -> (forall n1 n2 x, n1 <= n2 -> P n1 x -> P n2 x) -> (forall n1 n2 y, n1 <= n2 -> Q n1 y -> Q n2 y) ->
    forall l, Forall (P n) l -> safe n (mapMM f l) (fun n' ys => Forall (Q n') ys).
  Proof.
    intros F MP MQ l. revert n F. induction l as [|x l IH]; intros n F W; cbn [mapMM].
    - apply safe_ret. constructor.
    - inversion W as [|? ? Px Wl]; subst. eapply safe_bind; [apply (F n x (le_n _) Px)|]. intros n1 y N1 Qy.
      eapply safe_bind; [apply IH|].
      + intros n' z Hz. apply F. lia.
      + revert Wl. apply Forall_impl. intros z. apply MP, N1.
      + intros n2 ys N2 Qs. apply safe_ret. intros n3 N3. constructor; [apply (MQ n1); [lia|exact Qy]|]. revert Qs. apply Forall_impl. intros z. apply MQ, N3.
  Qed.

  Definition visits (V : visitor) : Prop := forall n p, p < n -> safe n (V p) (fun n' r => r < n').
  Definition methods (m : visitor -> nat -> obj -> M nat) : Prop :=
    forall V n p o, visits V -> p < n -> (forall c, In c (children o) -> c < n /\ (is_forward o = false -> c < p)) -> safe n (m V p o) (fun n' r => r < n').

  Section Method.
    Variable method : visitor -> nat -> obj -> M nat.
    Hypothesis ok : methods method.
    Lemma visit_visits fuel : visits (visit method fuel).
    Proof.
      induction fuel as [|fuel IH]; intros n p L; cbn [visit]; [apply safe_no_fuel|].
      eapply safe_bind; [apply safe_recall|]. intros n1 [r|] N1 K; [apply safe_ret; intros n2 N2; specialize (K r eq_refl); below|]. clear K.
      eapply safe_bind; [apply safe_get|]. intros n2 o N2 [L2 K].
      eapply safe_bind; [apply (ok (visit method fuel) n2 p o IH L2 K)|]. intros n3 r N3 Lr.
      eapply safe_bind; [apply safe_remember, Lr|]. intros n4 _ N4 _. apply safe_ret. intros n5 N5. below.
    Qed.
    Lemma define_visited_safe fuel n p : p < n -> safe n (define_visited method fuel p) (fun _ _ => True).
    Proof.
      intros L. unfold define_visited. eapply safe_bind; [apply safe_get|]. intros n1 o N1 [L1 K].
      destruct o as [| | | | | | | | | | |[r|]| | | | | | |]; try (apply safe_ret; auto).
      eapply safe_bind; [apply visit_visits, (K r); left; reflexivity|]. intros n2 r' N2 Lr. unfold define.
      eapply safe_bind; [apply safe_get|]. intros n3 o' N3 _. destruct (is_forward o'); [apply safe_raise|].
      apply safe_put. intros c [<-|[]]. split; [below|discriminate].
    Qed.
    Lemma walk_safe (act : nat -> M unit) : (forall n p, p < n -> safe n (act p) (fun _ _ => True)) ->
      forall fuel n queue vis, Forall (fun x => x < n) queue -> safe n (walk_loop fuel act queue vis) (fun _ _ => True).
    Proof.
      intros A. induction fuel as [|fuel IH]; intros n [|x queue] vis W; cbn [walk_loop]; try (apply safe_ret; auto); [apply safe_no_fuel|].
      inversion W as [|? ? Lx Wq]; subst. eapply safe_bind; [apply A, Lx|]. intros n1 _ N1 _. eapply safe_bind; [apply safe_get|]. intros n2 o N2 [L2 K].
      destruct (enqueue (children o) queue vis) as [queue2 vis2] eqn:En. apply IH. apply Forall_forall. intros y Hy.
      destruct (enqueue_spec _ _ _ _ _ En) as (_ & _ & _ & _ & F). destruct (F y Hy) as [Q|Q]; [|apply K, Q].
      rewrite Forall_forall in Wq. specialize (Wq y Q). cbn in Wq. below.
    Qed.
    Lemma run_visit_ordered fuel h root r h' : ordered h -> root < length h -> run_visit method fuel h root = Some (Ok (r, h')) -> ordered h' /\ r < length h' /\ length h <= length h'.
    Proof.
      intros O L H. unfold run_visit in H. destruct (transform_walk method fuel root (mkState h [])) as [[[r1 s1]|e]|] eqn:T; try discriminate. injection H as -> <-.
      assert (S : safe (length h) (transform_walk method fuel root) (fun n' r => r < n')).
      { unfold transform_walk. eapply safe_bind; [apply walk_safe; [intros; apply define_visited_safe; assumption|constructor; [exact L|constructor]]|].
        intros n1 _ N1 _. apply visit_visits. below. }
      destruct (S (mkState h []) r s1) as ((O1 & _) & N1 & L1); [split; [exact O|intros p q []]|apply le_n|exact T|]. auto.
    Qed.
  End Method.

  (** ** The passes *)
  Lemma safe_visits V n l : visits V -> Forall (fun x => x < n) l -> safe n (mapMM V l) (fun n' ys => Forall (fun y => y < n') ys).
  Proof. intros HV W. apply (safe_map n V (fun n x => x < n) (fun n x => x < n)); [intros; apply HV; assumption|intros; below|intros; below|exact W]. Qed.
  Definition term_below (n : nat) (t : term pred) : Prop := match t with TRule r => r < n | TPred _ => True end.
  Lemma terms_below n ts : (forall c, In c (rule_terms ts) -> c < n) <-> Forall (term_below n) ts.
  Proof.
    unfold rule_terms. rewrite Forall_forall. split.
    - intros K [r|p] Hx; [|exact I]. apply K, in_flat_map. exists (TRule r). split; [exact Hx|left; reflexivity].
    - intros K c Hc. apply in_flat_map in Hc as ([r|p] & Ht & Hr); [|destruct Hr]. destruct Hr as [<-|[]]. apply (K (TRule r) Ht).
  Qed.
  Lemma term_below_mono n1 n2 t : n1 <= n2 -> term_below n1 t -> term_below n2 t.
  Proof. destruct t; cbn; [below|auto]. Qed.
  Lemma visit_term_safe V n t : visits V -> term_below n t -> safe n (visit_term V t) (fun n' t' => term_below n' t').
  Proof.
    intros HV W. destruct t as [r|p]; cbn.
    - eapply safe_bind; [apply HV, W|]. intros n1 r' N1 L. apply safe_ret. intros n2 N2. cbn. below.
    - apply safe_ret. exact (fun _ _ => I).
  Qed.
  Lemma below_children n l : Forall (fun x => x < n) l -> forall c, In c l -> c < n.
  Proof. rewrite Forall_forall. auto. Qed.
  Lemma one_visit V n r (f : nat -> obj) : visits V -> r < n -> (forall x, children (f x) = [x]) -> safe n (bindM (V r) (fun r' => alloc (f r'))) (fun n' r => r < n').
  Proof.
    intros HV L F. eapply safe_bind; [apply HV, L|]. intros n1 r' N1 L1. apply safe_alloc. intros c. rewrite F. intros [<-|[]]. exact L1.
  Qed.
  Lemma base_safe : methods base_method.
  Proof.
    intros V n p o HV L K.
    assert (C : forall c, In c (children o) -> c < n) by (intros c Hc; apply (K c Hc)).
    destruct o as [ps|rs|r0 rev|r0 rev|r0 rr ro|r0 m rev|r0 m rev|r0 m n' rev|r0 nm|r0 i|r0 rel|d| |pl|ps a|b ps a|ts m| |k ps]; cbn [base_method];
      try (apply safe_raise); try (apply safe_ret; intros; below);
      try (apply (one_visit V n r0 _ HV); [apply C; left; reflexivity|reflexivity]).
    - unfold visit_Rule. eapply safe_bind; [apply (safe_visits V n ps HV), Forall_forall, C|]. intros n1 ys N1 W. apply safe_alloc. cbn. apply below_children, W.
    - eapply safe_bind; [apply (safe_visits V n rs HV), Forall_forall, C|]. intros n1 ys N1 W. apply safe_alloc. cbn. apply below_children, W.
    - unfold visit_Rule. eapply safe_bind; [apply (safe_visits V n ps HV), Forall_forall, C|]. intros n1 ys N1 W. apply safe_alloc. cbn. apply below_children, W.
    - unfold visit_Rule. eapply safe_bind; [apply (safe_visits V n ps HV), Forall_forall, C|]. intros n1 ys N1 W. apply safe_alloc. cbn. apply below_children, W.
    - unfold visit_Production. eapply safe_bind; [apply (safe_map n (visit_term V) term_below term_below)|].
      + intros n' t N' W. apply visit_term_safe; assumption.
      + intros. eapply term_below_mono; eassumption.
      + intros. eapply term_below_mono; eassumption.
      + apply terms_below, C.
      + intros n1 ys N1 W. apply safe_alloc. cbn. apply terms_below, W.
  Qed.
  Lemma visit_new_safe V n o : visits V -> (forall c, In c (children o) -> c < n) -> safe n (visit_new V o) (fun n' r => r < n').
  Proof. intros HV C. eapply safe_bind; [apply safe_alloc, C|]. intros n1 t N1 L. apply HV, L. Qed.
  Lemma squash_safe : methods squash_method.
  Proof.
    intros V n p o HV L K. assert (Base := base_safe V n p o HV L K).
    assert (C : forall c, In c (children o) -> c < n) by (intros c Hc; apply (K c Hc)).
    destruct o as [ps|rs|r0 rev|r0 rev|r0 rr ro|r0 m rev|r0 m rev|r0 m nn rev|r0 nm|r0 i|r0 rel|d| |pl|ps a|b ps a|ts m| |k ps]; cbn [squash_method]; try exact Base; clear Base;
      (assert (L0 : r0 < n) by (apply C; left; reflexivity)); clear K C; eapply safe_bind; try apply safe_get; intros n1 child N1 [L1 K];
      assert (One : forall x, In x (children child) -> x < n1) by (intros x Hx; apply (K x Hx)); clear K;
      destruct child; unfold squash_bounded; try apply safe_raise;
      try (apply (one_visit V n1 r0 _ HV); [below|reflexivity]);
      try (apply visit_new_safe; [exact HV|]; intros c [<-|[]]; apply One; left; reflexivity);
      (eapply safe_bind; [apply safe_alloc; intros c [<-|[]]; apply One; left; reflexivity|]; intros n2 t N2 Lt; apply visit_new_safe; [exact HV|]; intros c [<-|[]]; exact Lt).
  Qed.
  Lemma new_rule_safe n l : Forall (fun x => x < n) l -> safe n (new_rule (pred:=pred) (pipe:=pipe) (bnf:=bnf) l) (fun n' r => r < n').
  Proof.
    intros W. eapply safe_bind; [apply safe_alloc|].
    - intros c Hc. cbn in Hc. unfold rule_terms in Hc. apply in_flat_map in Hc as (t & Ht & Hc). apply in_map_iff in Ht as (x & <- & Hx). destruct Hc as [<-|[]].
      rewrite Forall_forall in W. apply W, Hx.
    - intros n1 q N1 L. apply safe_alloc. intros c [<-|[]]. exact L.
  Qed.
  Lemma ordered_below rev a b n : a < n -> b < n -> Forall (fun x => x < n) (RuleModel.ordered rev a b).
  Proof. intros A B. destruct rev; repeat constructor; assumption. Qed.
  Lemma repeatable_safe n item rev : item < n -> safe n (repeatable_rule (pred:=pred) (pipe:=pipe) (bnf:=bnf) item rev) (fun n' r => r < n').
  Proof.
    intros L. unfold repeatable_rule. eapply safe_bind; [apply safe_alloc; intros c []|]. intros n1 temp N1 L1.
    eapply safe_bind; [apply new_rule_safe; repeat constructor; below|]. intros n2 a N2 L2.
    eapply safe_bind; [apply safe_alloc; apply below_children, ordered_below; below|]. intros n3 o N3 L3.
    eapply safe_bind; [unfold define; eapply safe_bind; [apply safe_get|]; intros n4 o' N4 _; destruct (is_forward o'); [apply safe_raise|]; apply safe_put; intros c [<-|[]]; split; [below|discriminate]|].
    intros n5 _ N5 _. apply safe_ret. intros. below.
  Qed.
  Lemma repeatable_optional_safe n item rr ro : item < n -> safe n (repeatable_optional_rule (pred:=pred) (pipe:=pipe) (bnf:=bnf) item rr ro) (fun n' r => r < n').
  Proof.
    intros L. unfold repeatable_optional_rule. eapply safe_bind; [apply safe_alloc; intros c []|]. intros n1 temp N1 L1.
    eapply safe_bind; [apply safe_alloc; intros c []|]. intros n2 a N2 L2.
    eapply safe_bind; [apply new_rule_safe; repeat constructor; below|]. intros n3 b N3 L3.
    eapply safe_bind; [apply safe_alloc; apply below_children|].
    { destruct ro; [apply Forall_app; split; [apply ordered_below; below|repeat constructor; below]|constructor; [below|apply ordered_below; below]]. }
    intros n4 o N4 L4.
    eapply safe_bind; [unfold define; eapply safe_bind; [apply safe_get|]; intros n5 o' N5 _; destruct (is_forward o'); [apply safe_raise|]; apply safe_put; intros c [<-|[]]; split; [below|discriminate]|].
    intros n6 _ N6 _. apply safe_ret. intros. below.
  Qed.
  Lemma optional_safe n item rev : item < n -> safe n (optional_rule (pred:=pred) (pipe:=pipe) (bnf:=bnf) item rev) (fun n' r => r < n').
  Proof.
    intros L. unfold optional_rule. eapply safe_bind; [apply safe_alloc; intros c []|]. intros n1 a N1 L1. apply safe_alloc. apply below_children, ordered_below; below.
  Qed.
  Lemma max_bound_safe count : forall n item rev, item < n -> safe n (max_bound (pred:=pred) (pipe:=pipe) (bnf:=bnf) item count rev) (fun n' r => r < n').
  Proof.
    induction count as [|[|count] IH]; intros n item rev L; cbn [max_bound]; [apply safe_no_fuel|apply safe_ret; intros; below|].
    eapply safe_bind; [apply IH, L|]. intros n1 rest N1 L1. eapply safe_bind; [apply new_rule_safe; repeat constructor; below|]. intros n2 a N2 L2.
    apply safe_alloc. apply below_children, ordered_below; below.
  Qed.
  Lemma repeat_below n x k : x < n -> Forall (fun y => y < n) (repeat x k).
  Proof. intros L. apply Forall_forall. intros y Hy. apply repeat_spec in Hy. subst. exact L. Qed.
  Lemma replace_extended_safe : methods replace_extended_method.
  Proof.
    intros V n p o HV L K. assert (Base := base_safe V n p o HV L K).
    assert (C : forall c, In c (children o) -> c < n) by (intros c Hc; apply (K c Hc)).
    destruct o as [ps|rs|r0 rev|r0 rev|r0 rr ro|r0 m rev|r0 m rev|r0 m nn rev|r0 nm|r0 i|r0 rel|d| |pl|ps a|b ps a|ts m| |k ps]; cbn [replace_extended_method]; try exact Base; clear Base;
      (assert (L0 : r0 < n) by (apply C; left; reflexivity)); clear K C; (eapply safe_bind; [apply HV, L0|]; intros n1 child N1 L1).
    - apply optional_safe, L1.
    - apply repeatable_safe, L1.
    - apply repeatable_optional_safe, L1.
    - eapply safe_bind; [apply repeatable_safe, L1|]. intros n2 x N2 L2. apply new_rule_safe, Forall_app. split; [apply repeat_below; below|repeat constructor; exact L2].
    - apply max_bound_safe, L1.
    - eapply safe_bind; [apply max_bound_safe, L1|]. intros n2 x N2 L2. apply new_rule_safe, Forall_app. split; [apply repeat_below; below|repeat constructor; exact L2].
  Qed.
  Lemma replace_or_safe : methods replace_or_method.
  Proof.
    intros V n p o HV L K. assert (Base := base_safe V n p o HV L K).
    assert (C : forall c, In c (children o) -> c < n) by (intros c Hc; apply (K c Hc)).
    destruct o; cbn [replace_or_method]; try exact Base; clear Base.
    eapply safe_bind; [apply (safe_map n _ (fun n x => x < n) (fun n x => x < n))|].
    - intros n' x N' W. apply (one_visit V n' x (fun y => OProd [TRule y] 0)); auto.
    - intros; below.
    - intros; below.
    - apply Forall_forall, C.
    - intros n1 ys N1 W. apply safe_alloc, below_children, W.
  Qed.
  Lemma replace_empty_safe : methods replace_empty_method.
  Proof.
    intros V n p o HV L K. assert (Base := base_safe V n p o HV L K). destruct o; cbn [replace_empty_method]; try exact Base; clear Base.
    eapply safe_bind; [apply safe_alloc; intros c []|]. intros n1 q N1 L1. apply safe_alloc. intros c [<-|[]]. exact L1.
  Qed.
  Lemma flatten_term_safe V fuel : visits V -> forall n t, term_below n t -> safe n (flatten_term fuel V t) (fun n' t' => term_below n' t').
  Proof.
    intros HV. induction fuel as [|fuel IH]; intros n t W; cbn [flatten_term]; [apply safe_no_fuel|]. destruct t as [r|p]; [|apply safe_ret; exact (fun _ _ => I)].
    eapply safe_bind; [apply safe_get|]. intros n1 o N1 [L1 K]. assert (D : safe n1 (visit_term V (TRule r)) (fun n' t' => term_below n' t')) by (apply visit_term_safe; [exact HV|exact L1]).
    destruct o as [[|q [|q2 ps]]| | | | | | | | | | | | | | | | | |]; try exact D.
    eapply safe_bind; [apply safe_get|]. intros n2 oq N2 [L2 K2].
    assert (D2 : safe n2 (visit_term V (TRule r)) (fun n' t' => term_below n' t')) by (apply visit_term_safe; [exact HV|cbn; below]).
    destruct (production_terms oq) as [|t1 [|t2 ts]] eqn:Pt; try exact D2. apply IH.
    destruct oq; try discriminate; cbn in Pt; subst.
    - destruct t1 as [r1|p1]; [|exact I]. apply K2. left. reflexivity.
    - destruct terms as [|x [|y l]]; try discriminate. injection Pt as <-. exact I.
  Qed.
  Lemma flatten_safe fuel : methods (flatten_method fuel).
  Proof.
    intros V n p o HV L K. assert (Base := base_safe V n p o HV L K).
    assert (C : forall c, In c (children o) -> c < n) by (intros c Hc; apply (K c Hc)).
    destruct o as [ps|rs|r0 rev|r0 rev|r0 rr ro|r0 m rev|r0 m rev|r0 m nn rev|r0 nm|r0 i|r0 rel|d| |pl|ps a|b ps a|ts m| |k ps]; cbn [flatten_method]; try exact Base; clear Base.
    assert (D : forall n', n <= n' -> safe n' (bindM (mapMM (flatten_term fuel V) ts) (fun ts' => alloc (OProd ts' m))) (fun n' r => r < n')).
    { intros n' N'. eapply safe_bind; [apply (safe_map n' (flatten_term fuel V) term_below term_below)|].
      - intros n2 t N2 W. apply flatten_term_safe; assumption.
      - intros. eapply term_below_mono; eassumption.
      - intros. eapply term_below_mono; eassumption.
      - apply terms_below. intros c Hc. specialize (C c Hc). below.
      - intros n1 ys N1 W. apply safe_alloc. cbn. apply terms_below, W. }
    destruct ts as [|[r0|p0] [|t2 ts]]; try (apply D; below). eapply safe_bind; [apply safe_get|]. intros n1 o N1 [L1 K1].
    destruct o as [[|q [|q2 ps]]| | | | | | | | | | | | | | | | | |]; try (apply D; exact N1). apply HV, K1. left. reflexivity.
  Qed.

  Theorem normalized_ordered fuel h root r h' : ordered h -> root < length h -> normalized fuel h root = Some (Ok (r, h')) -> ordered h' /\ r < length h' /\ length h <= length h'.
  Proof.
    intros O L H. unfold normalized in H.
    destruct (run_visit squash_method fuel h root) as [[[r1 h1]|e]|] eqn:H1; try discriminate. cbn [then_] in H.
    destruct (run_visit replace_extended_method fuel h1 r1) as [[[r2 h2]|e]|] eqn:H2; try discriminate. cbn [then_] in H.
    destruct (run_visit replace_or_method fuel h2 r2) as [[[r3 h3]|e]|] eqn:H3; try discriminate. cbn [then_] in H.
    destruct (run_visit replace_empty_method fuel h3 r3) as [[[r4 h4]|e]|] eqn:H4; try discriminate. cbn [then_] in H.
    destruct (run_visit_ordered squash_method squash_safe fuel h root r1 h1 O L H1) as (O1 & L1 & N1).
    destruct (run_visit_ordered _ replace_extended_safe fuel h1 r1 r2 h2 O1 L1 H2) as (O2 & L2 & N2).
    destruct (run_visit_ordered _ replace_or_safe fuel h2 r2 r3 h3 O2 L2 H3) as (O3 & L3 & N3).
    destruct (run_visit_ordered _ replace_empty_safe fuel h3 r3 r4 h4 O3 L3 H4) as (O4 & L4 & N4).
    destruct (run_visit_ordered _ (flatten_safe fuel) fuel h4 r4 r h' O4 L4 H) as (O5 & L5 & N5).
    split; [exact O5|]. split; [exact L5|below].
  Qed.
End Order.
