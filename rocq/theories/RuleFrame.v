(** The passes change no object that existed before, except forward rules. *)
From Verif Require Import Base EarleyModel SpanProofs RuleModel RuleSpec RuleKeep.
Open Scope nat_scope.

Section Frame.
  Context {pred pipe bnf : Type}.
  Notation obj := (obj pred pipe bnf).
  Notation heap := (heap pred pipe bnf).
  Notation M := (M pred pipe bnf).
  Notation state := (state pred pipe bnf).
  Notation visitor := (visitor pred pipe bnf).
  Variable pipe_bnf : pipe -> res bnf.
  Variable bnf_lines : bnf -> list (str * list pred).

  (** The first heap, and the objects looked at: part of the first heap or later. *)
  Variable base : heap.
  Variable D : nat -> Prop.
  (** The objects that must not change. *)
  Variable Kept : nat -> Prop.
  Notation n0 := (length base).
  Hypothesis later : forall p, n0 <= p -> D p.
  Hypothesis early : forall p o, D p -> Kept p -> nth_error base p = Some o -> is_forward o = false /\ is_bnf o = false /\ forall c, In c (children o) -> Kept c /\ c < n0.
  Definition good (o : obj) : Prop := forall c, In c (children o) -> D c.
  Definition good_heap (h : heap) : Prop := (n0 <= length h /\ forall p o, Kept p -> nth_error base p = Some o -> nth_error h p = Some o) /\ forall p o, D p -> nth_error h p = Some o -> good o.
  Definition inv (s : state) : Prop := good_heap (st_heap s) /\ forall p r, In (p, r) (st_visited s) -> D r.
  Definition keeps {A} (m : M A) (Q : A -> Prop) : Prop := forall s a s', inv s -> m s = Some (Ok (a, s')) -> inv s' /\ Q a.

  Lemma keeps_ret {A} (a : A) (Q : A -> Prop) : Q a -> keeps (ret a) Q.
  Proof. intros H s b s' I E. injection E as <- <-. auto. Qed.
  Lemma keeps_raise {A} e (Q : A -> Prop) : keeps (raise e) Q.
  Proof. intros s b s' I E. discriminate. Qed.
  Lemma keeps_no_fuel {A} (Q : A -> Prop) : keeps no_fuel Q.
  Proof. intros s b s' I E. discriminate. Qed.
  Lemma keeps_bind {A B} (m : M A) (f : A -> M B) (P : A -> Prop) (Q : B -> Prop) : keeps m P -> (forall a, P a -> keeps (f a) Q) -> keeps (bindM m f) Q.
  Proof.
    intros K1 K2 s b s' I E. unfold bindM in E. destruct (m s) as [[[a s1]|e]|] eqn:Em; try discriminate.
    destruct (K1 s a s1 I Em) as [I1 P1]. exact (K2 a P1 s1 b s' I1 E).
  Qed.
  Lemma keeps_weaken {A} (m : M A) (P Q : A -> Prop) : keeps m P -> (forall a, P a -> Q a) -> keeps m Q.
  Proof. intros K W s a s' I E. destruct (K s a s' I E). auto. Qed.
  (** What an object that was looked up tells: old objects are as in the first heap. *)
  Definition found (p : nat) (o : obj) : Prop := good o /\ (Kept p /\ p < n0 -> nth_error base p = Some o).
  Lemma keeps_get p : D p -> keeps (get p) (found p).
  Proof.
    intros Dp s o s' I E. unfold get in E. destruct (nth_error (st_heap s) p) as [o'|] eqn:Ep; [|discriminate]. injection E as <- <-. split; [exact I|]. split; [apply (proj2 (proj1 I) p o' Dp Ep)|].
    intros [Kp L]. destruct (nth_error base p) as [o|] eqn:Eb; [|apply nth_error_None in Eb; lia]. rewrite (proj2 (proj1 (proj1 I)) p o Kp Eb) in Ep. exact Ep.
  Qed.
  Lemma keeps_alloc o : good o -> keeps (alloc o) (fun p => D p /\ ~ (Kept p /\ p < n0)).
  Proof.
    intros G s p s' I E. injection E as <- <-. destruct I as [[[L B] I] V]. split; [|split; [apply later, L|intros [_ L']; lia]]. split; [|exact V]. cbn. split; [split; [rewrite app_length; lia|]|].
    - intros q o' Kq Eq. specialize (B q o' Kq Eq). rewrite nth_error_app1; [exact B|]. apply nth_error_Some. congruence.
    - intros q o' Dq Eq. destruct (Nat.lt_ge_cases q (length (st_heap s))) as [Lq|Lq]; [rewrite nth_error_app1 in Eq by exact Lq; apply (I q o' Dq Eq)|].
      rewrite nth_error_app2 in Eq by exact Lq. destruct (q - length (st_heap s)) as [|[|k]]; cbn in Eq; try discriminate. injection Eq as <-. exact G.
  Qed.
  Lemma keeps_new o : good o -> keeps (alloc o) D.
  Proof. intros G. eapply keeps_weaken; [apply keeps_alloc, G|]. intros p [H _]. exact H. Qed.
  Lemma keeps_put p o : good o -> (Kept p /\ p < n0 -> nth_error base p = Some o) -> keeps (put p o) (fun _ => True).
  Proof.
    intros G K s u s' I E. injection E as <- <-. destruct I as [[[L B] I] V]. split; [|exact Logic.I]. split; [|exact V]. cbn. split; [split; [rewrite setitem_length; exact L|]|].
    - intros q o' Kq Eq. rewrite nth_setitem. destruct (Nat.eqb_spec q p) as [->|_]; [|apply B; assumption]. rewrite (B p o' Kq Eq). rewrite K in Eq by (split; [exact Kq|apply nth_error_Some; congruence]). exact Eq.
    - intros q o' Dq Eq. rewrite nth_setitem in Eq. destruct (Nat.eqb_spec q p) as [->|_]; [|apply (I q o' Dq Eq)]. destruct (nth_error (st_heap s) p); [injection Eq as <-; exact G|discriminate].
  Qed.
  Lemma keeps_remember p r : D r -> keeps (remember p r) (fun _ => True).
  Proof. intros Dr s u s' I E. injection E as <- <-. destruct I as [I V]. split; [|exact Logic.I]. split; [exact I|]. cbn. intros q x [H|H]; [injection H as <- <-; exact Dr|apply (V q x H)]. Qed.
  Lemma keeps_recall p : keeps (recall p) (fun known => forall r, known = Some r -> D r).
  Proof.
    intros s known s' I E. injection E as <- <-. split; [exact I|]. intros r E. apply (proj2 I p). revert E. generalize (st_visited s). induction l as [|[k v] l IH]; cbn; [discriminate|].
    destruct (Nat.eqb_spec p k) as [->|_]; [intros E; injection E as ->; auto|auto].
  Qed.
  Lemma keeps_mapMM {A B} (f : A -> M B) (l : list A) (Q : B -> Prop) : (forall x, In x l -> keeps (f x) Q) -> keeps (mapMM f l) (fun ys => Forall Q ys /\ length ys = length l).
  Proof.
    induction l as [|x l IH]; intros K; cbn [mapMM]; [apply keeps_ret; split; [constructor|reflexivity]|].
    eapply keeps_bind; [apply K; left; reflexivity|]. intros y Qy. eapply keeps_bind; [apply IH; intros z Hz; apply K; right; exact Hz|]. intros ys [Fy Ly]. apply keeps_ret. split; [constructor; assumption|cbn; congruence].
  Qed.
  Lemma keeps_define f r : D r -> ~ (Kept f /\ f < n0) -> keeps (define f r) (fun _ => True).
  Proof.
    intros Dr L. eapply keeps_bind; [apply keeps_get, Dr|]. intros o _. destruct (is_forward o); [apply keeps_raise|]. apply keeps_put; [|tauto]. intros c [<-|[]]. exact Dr.
  Qed.
  Lemma forward_late p d : D p -> found p (OForward d) -> ~ (Kept p /\ p < n0).
  Proof. intros Dp [_ F] L. destruct (early p _ Dp (proj1 L) (F L)) as [E _]. discriminate. Qed.

  (** ** Visits *)
  Definition visits (V : visitor) : Prop := forall p, D p -> keeps (V p) D.
  Definition term_in (t : term pred) : Prop := match t with TRule r => D r | TPred _ => True end.
  Definition method_keeps (method : visitor -> nat -> obj -> M nat) : Prop := forall V p o, visits V -> D p -> good o -> keeps (method V p o) D.
  Lemma visit_keeps method : method_keeps method -> forall fuel, visits (visit method fuel).
  Proof.
    intros K fuel. induction fuel as [|fuel IH]; intros p Dp; cbn [visit]; [apply keeps_no_fuel|].
    eapply keeps_bind; [apply keeps_recall|]. intros known Hk. destruct known as [r|]; [apply keeps_ret, Hk; reflexivity|].
    eapply keeps_bind; [apply keeps_get, Dp|]. intros o [Go _]. eapply keeps_bind; [apply K; assumption|]. intros r Dr.
    eapply keeps_bind; [apply keeps_remember, Dr|]. intros _ _. apply keeps_ret, Dr.
  Qed.
  Lemma enqueue_in cs : forall queue visited queue' visited', enqueue cs queue visited = (queue', visited') -> Forall D cs -> Forall D queue -> Forall D queue'.
  Proof.
    induction cs as [|c cs IH]; intros queue visited queue' visited' E Fc Fq; cbn in E; [injection E as <- <-; exact Fq|]. inversion Fc; subst.
    destruct (is_in c visited); [apply (IH _ _ _ _ E)|apply (IH _ _ _ _ E)]; auto. apply Forall_app. auto.
  Qed.
  Lemma walk_keeps act : (forall p, D p -> keeps (act p) (fun _ => True)) -> forall fuel queue visited, Forall D queue -> keeps (walk_loop fuel act queue visited) (fun _ => True).
  Proof.
    intros K fuel. induction fuel as [|fuel IH]; intros queue visited F; destruct queue as [|x queue]; cbn [walk_loop]; try (apply keeps_ret; exact Logic.I); [apply keeps_no_fuel|].
    inversion F; subst. eapply keeps_bind; [apply K; assumption|]. intros _ _. eapply keeps_bind; [apply keeps_get; assumption|]. intros o [Go _].
    destruct (enqueue (children o) queue visited) as [queue' visited'] eqn:E. apply IH. apply (enqueue_in _ _ _ _ _ E); [|assumption]. apply Forall_forall. exact Go.
  Qed.
  Lemma run_visit_keeps method fuel h root r h' : method_keeps method -> D root -> good_heap h -> run_visit method fuel h root = Some (Ok (r, h')) -> good_heap h' /\ D r.
  Proof.
    intros K Dr G E. unfold run_visit in E. destruct (transform_walk method fuel root (mkState h [])) as [[[r1 s1]|e]|] eqn:T; try discriminate. injection E as -> <-.
    assert (keeps (transform_walk method fuel root) D) as Kt.
    { unfold transform_walk. eapply keeps_bind; [apply walk_keeps|].
      - intros p Dp. unfold define_visited. eapply keeps_bind; [apply keeps_get, Dp|]. intros o Fo. destruct o as [| | | | | | | | | | |[d|]| | | | | | |]; try (apply keeps_ret; exact Logic.I).
        eapply keeps_bind; [apply (visit_keeps _ K); apply (proj1 Fo); left; reflexivity|]. intros d' Dd. apply keeps_define; [exact Dd|]. apply (forward_late p _ Dp Fo).
      - constructor; [exact Dr|constructor].
      - intros _ _. apply (visit_keeps _ K), Dr. }
    destruct (Kt (mkState h []) r s1) as [I Q]; [split; [exact G|intros p q []]|exact T|]. split; [apply I|exact Q].
  Qed.
  Lemma run_inplace_keeps act fuel h root r h' : (forall p, D p -> keeps (act p) D) -> D root -> good_heap h -> run_inplace act fuel h root = Some (Ok (r, h')) -> good_heap h' /\ D r.
  Proof.
    intros K Dr G E. unfold run_inplace in E. destruct (transform_inplace act fuel root (mkState h [])) as [[[r1 s1]|e]|] eqn:T; try discriminate. injection E as -> <-.
    assert (keeps (transform_inplace act fuel root) D) as Kt.
    { unfold transform_inplace. eapply keeps_bind; [apply walk_keeps|].
      - intros p Dp. eapply keeps_bind; [apply K, Dp|]. intros _ _. apply keeps_ret. exact Logic.I.
      - constructor; [exact Dr|constructor].
      - intros _ _. apply K, Dr. }
    destruct (Kt (mkState h []) r s1) as [I Q]; [split; [exact G|intros p q []]|exact T|]. split; [apply I|exact Q].
  Qed.

  (** ** Methods *)
  Lemma good_terms ts main t : good (OProd ts main) -> In t ts -> term_in t.
  Proof. intros K Ht. destruct t as [r|p]; [|exact Logic.I]. apply K. cbn. unfold rule_terms. apply in_flat_map. exists (TRule r). split; [exact Ht|left; reflexivity]. Qed.
  Lemma good_prod ts main : Forall term_in ts -> good (OProd ts main).
  Proof.
    intros F c Hc. cbn in Hc. unfold rule_terms in Hc. apply in_flat_map in Hc as (t & Ht & Hc). rewrite Forall_forall in F. specialize (F t Ht). destruct t; [|destruct Hc]. destruct Hc as [<-|[]]. exact F.
  Qed.
  Lemma good_rules (f : list nat -> obj) rs : children (f rs) = rs -> Forall D rs -> good (f rs).
  Proof. intros C F c Hc. rewrite C in Hc. rewrite Forall_forall in F. auto. Qed.
  Lemma good_one (o : obj) r : children o = [r] -> D r -> good o.
  Proof. intros C Dr c Hc. rewrite C in Hc. destruct Hc as [<-|[]]. exact Dr. Qed.
  Lemma good_none (o : obj) : children o = [] -> good o.
  Proof. intros C c Hc. rewrite C in Hc. destruct Hc. Qed.
  Lemma visit_term_keeps V t : visits V -> term_in t -> keeps (visit_term V t) term_in.
  Proof. intros Vi T. destruct t as [r|p]; cbn; [|apply keeps_ret; exact Logic.I]. eapply keeps_bind; [apply Vi, T|]. intros r' Dr. apply keeps_ret, Dr. Qed.

  Ltac kids := first [assumption | match goal with G : good _ |- D _ => apply G; cbn; auto end].
  Ltac unit_good := intros ? [<-|[]]; kids.
  Lemma base_keeps : method_keeps base_method.
  Proof.
    intros V p o Vi Dp Go. assert (L : forall ps (F : list nat -> obj), (forall l, children (F l) = l) -> Forall D ps -> keeps (bindM (mapMM V ps) (fun ps' => alloc (F ps'))) D).
    { intros ps F C Fp. eapply keeps_bind; [apply keeps_mapMM with (Q := D); intros x Hx; apply Vi; rewrite Forall_forall in Fp; auto|]. intros ys [Fy _]. apply keeps_new, good_rules; auto. }
    assert (One : forall r (F : nat -> obj), (forall r, children (F r) = [r]) -> D r -> keeps (bindM (V r) (fun r' => alloc (F r'))) D).
    { intros r F C Dr. eapply keeps_bind; [apply Vi, Dr|]. intros r' Dr'. apply keeps_new. eapply good_one; eauto. }
    destruct o; cbn [base_method]; unfold visit_Rule; try (apply keeps_ret, Dp); try apply keeps_raise;
      try (apply (One _ (fun r' => _)); [reflexivity|apply Go; left; reflexivity]).
    - apply (L _ ORule); [reflexivity|apply Forall_forall; exact Go].
    - apply (L _ OOr); [reflexivity|apply Forall_forall; exact Go].
    - apply (L _ ORule); [reflexivity|apply Forall_forall; exact Go].
    - apply (L _ ORule); [reflexivity|apply Forall_forall; exact Go].
    - unfold visit_Production. eapply keeps_bind; [apply keeps_mapMM; intros t Ht; apply visit_term_keeps; [exact Vi|apply (good_terms _ _ _ Go Ht)]|].
      intros ts' [F _]. apply keeps_new, good_prod, F.
  Qed.
  Lemma squash_keeps : method_keeps squash_method.
  Proof.
    intros V p o Vi Dp Go. destruct o; cbn [squash_method]; try (apply base_keeps; assumption);
      (eapply keeps_bind; [apply keeps_get, Go; left; reflexivity|]; intros oc [Goc _]; assert (Dc : D rule) by (apply Go; left; reflexivity); cbn in Goc; clear Go);
      destruct oc; cbn [squash_bounded]; unfold visit_new; try apply keeps_raise;
      repeat first
        [ eapply keeps_bind; [apply Vi; exact Dc|intros ? ?]
        | eapply keeps_bind; [apply keeps_new; intros ? [<-|[]]; first [assumption|apply Goc; left; reflexivity]|intros ? ?]
        | apply keeps_new; intros ? [<-|[]]; assumption
        | apply Vi; assumption ].
  Qed.
  Lemma new_rule_keeps ts : Forall D ts -> keeps (new_rule ts) D.
  Proof.
    intros F. unfold new_rule. eapply keeps_bind; [apply keeps_new, good_prod|].
    - apply Forall_map. exact F.
    - intros q Dq. apply keeps_new. intros c [<-|[]]. exact Dq.
  Qed.
  Lemma or_keeps reverse a b : D a -> D b -> keeps (alloc (OOr (ordered reverse a b))) D.
  Proof. intros Da Db. apply keeps_new. cbn. destruct reverse; intros c [<-|[<-|[]]]; assumption. Qed.
  Lemma max_bound_keeps item reverse : D item -> forall count, keeps (max_bound item count reverse) D.
  Proof.
    intros Di count. induction count as [|count IH]; cbn [max_bound]; [apply keeps_no_fuel|]. destruct count; [apply keeps_ret, Di|].
    eapply keeps_bind; [exact IH|]. intros rest Dr. eapply keeps_bind; [apply new_rule_keeps; repeat constructor; assumption|]. intros a Da. apply or_keeps; assumption.
  Qed.
  Lemma repeatable_keeps item reverse : D item -> keeps (repeatable_rule item reverse) D.
  Proof.
    intros Di. unfold repeatable_rule. eapply keeps_bind; [apply keeps_alloc, good_none; reflexivity|]. intros temp [Dt Lt]. eapply keeps_bind; [apply new_rule_keeps; repeat constructor; assumption|]. intros a Da.
    eapply keeps_bind; [apply or_keeps; assumption|]. intros o Do. eapply keeps_bind; [apply keeps_define; assumption|]. intros _ _. apply keeps_ret, Dt.
  Qed.
  Lemma replace_extended_keeps : method_keeps replace_extended_method.
  Proof.
    intros V p o Vi Dp Go. destruct o; cbn [replace_extended_method]; try (apply base_keeps; assumption);
      (eapply keeps_bind; [apply Vi, Go; left; reflexivity|]; intros child Dc).
    - unfold optional_rule. eapply keeps_bind; [apply keeps_new, good_none; reflexivity|]. intros a Da. apply or_keeps; assumption.
    - apply repeatable_keeps, Dc.
    - unfold repeatable_optional_rule. eapply keeps_bind; [apply keeps_alloc, good_none; reflexivity|]. intros temp [Dt Lt]. eapply keeps_bind; [apply keeps_new, good_none; reflexivity|]. intros a Da.
      eapply keeps_bind; [apply new_rule_keeps; repeat constructor; assumption|]. intros b Db.
      eapply keeps_bind; [apply keeps_new; cbn; destruct reverse_repeatable, reverse_optional; cbn; intros c Hc; repeat destruct Hc as [<-|Hc]; try assumption; destruct Hc|]. intros x Dx.
      eapply keeps_bind; [apply keeps_define; assumption|]. intros _ _. apply keeps_ret, Dt.
    - eapply keeps_bind; [apply repeatable_keeps, Dc|]. intros last Dl. apply new_rule_keeps. apply Forall_app. split; [|repeat constructor; exact Dl].
      apply Forall_forall. intros x Hx. apply repeat_spec in Hx as ->. exact Dc.
    - apply max_bound_keeps, Dc.
    - eapply keeps_bind; [apply max_bound_keeps, Dc|]. intros last Dl. apply new_rule_keeps. apply Forall_app. split; [|repeat constructor; exact Dl].
      apply Forall_forall. intros x Hx. apply repeat_spec in Hx as ->. exact Dc.
  Qed.
  Lemma replace_or_keeps : method_keeps replace_or_method.
  Proof.
    intros V p o Vi Dp Go. destruct o; cbn [replace_or_method]; try (apply base_keeps; assumption).
    eapply keeps_bind; [apply keeps_mapMM with (Q := D)|].
    - intros r Hr. eapply keeps_bind; [apply Vi, (Go _ Hr)|]. intros r' Dr. apply keeps_new, good_prod. repeat constructor. exact Dr.
    - intros ps [F _]. apply keeps_new, good_rules; [reflexivity|exact F].
  Qed.
  Lemma replace_empty_keeps : method_keeps replace_empty_method.
  Proof.
    intros V p o Vi Dp Go. destruct o; cbn [replace_empty_method]; try (apply base_keeps; assumption).
    eapply keeps_bind; [apply keeps_new, good_none; reflexivity|]. intros q Dq. apply keeps_new. intros c [<-|[]]. exact Dq.
  Qed.
  Lemma flatten_term_keeps V t : visits V -> forall fuel, term_in t -> keeps (flatten_term fuel V t) term_in.
  Proof.
    intros Vi fuel. revert t. induction fuel as [|fuel IH]; intros t Ht; cbn [flatten_term]; [apply keeps_no_fuel|]. destruct t as [r|p]; [|apply keeps_ret; exact Logic.I].
    eapply keeps_bind; [apply keeps_get, Ht|]. intros o [Go _].
    assert (keeps (visit_term V (TRule r)) term_in) by (apply visit_term_keeps; assumption).
    destruct o; try assumption. destruct productions as [|q [|]]; try assumption.
    eapply keeps_bind; [apply keeps_get, Go; left; reflexivity|]. intros oq [Gq _]. destruct (production_terms oq) as [|t' [|]] eqn:E; try assumption. apply IH.
    destruct oq; cbn in E; try discriminate.
    - subst terms. apply (good_terms _ _ _ Gq). left. reflexivity.
    - destruct terms as [|x l]; [discriminate|]. injection E as <- _. exact Logic.I.
  Qed.
  Lemma flatten_keeps fuel : method_keeps (flatten_method fuel).
  Proof.
    intros V p o Vi Dp Go. destruct o; cbn [flatten_method]; try (apply base_keeps; assumption).
    assert (K : keeps (bindM (mapMM (flatten_term fuel V) terms) (fun ts' => alloc (OProd ts' main))) D).
    { eapply keeps_bind; [apply keeps_mapMM; intros t Ht; apply flatten_term_keeps; [exact Vi|apply (good_terms _ _ _ Go Ht)]|]. intros ts' [F _]. apply keeps_new, good_prod, F. }
    destruct terms as [|[r|x] [|]]; try exact K.
    eapply keeps_bind; [apply keeps_get, (good_terms _ _ (TRule r) Go); left; reflexivity|]. intros o' [Go' _]. destruct o'; try exact K. destruct productions as [|q [|]]; try exact K. apply Vi, Go'. left. reflexivity.
  Qed.
  Lemma normalized_keeps fuel h root r h' : D root -> good_heap h -> normalized fuel h root = Some (Ok (r, h')) -> good_heap h' /\ D r.
  Proof.
    intros Dr G H. unfold normalized, then_ in H.
    destruct (run_visit squash_method fuel h root) as [[[r1 h1]|]|] eqn:E1; try discriminate. destruct (run_visit_keeps _ _ _ _ _ _ squash_keeps Dr G E1) as [G1 D1].
    destruct (run_visit replace_extended_method fuel h1 r1) as [[[r2 h2]|]|] eqn:E2; try discriminate. destruct (run_visit_keeps _ _ _ _ _ _ replace_extended_keeps D1 G1 E2) as [G2 D2].
    destruct (run_visit replace_or_method fuel h2 r2) as [[[r3 h3]|]|] eqn:E3; try discriminate. destruct (run_visit_keeps _ _ _ _ _ _ replace_or_keeps D2 G2 E3) as [G3 D3].
    destruct (run_visit replace_empty_method fuel h3 r3) as [[[r4 h4]|]|] eqn:E4; try discriminate. destruct (run_visit_keeps _ _ _ _ _ _ replace_empty_keeps D3 G3 E4) as [G4 D4].
    exact (run_visit_keeps _ _ _ _ _ _ (flatten_keeps fuel) D4 G4 H).
  Qed.

  Lemma lift_keeps r : D r -> keeps (lift r) D.
  Proof.
    intros Dr. unfold lift. eapply keeps_bind; [apply keeps_new, good_prod; repeat constructor; exact Dr|]. intros q Dq. apply keeps_new. intros c [<-|[]]. exact Dq.
  Qed.
  Lemma wrapper_keeps parents V r : visits V -> D r -> keeps (visit_WrapperRule parents V r) D.
  Proof.
    intros Vi Dr. unfold visit_WrapperRule. eapply keeps_bind; [apply keeps_get, Dr|]. intros o _. destruct (is_forward o); [apply lift_keeps, Dr|].
    eapply keeps_bind with (P := fun _ => True); [unfold is_shared; destruct (count_occ Nat.eq_dec parents r); [apply keeps_raise|apply keeps_ret; exact Logic.I]|]. intros shared _.
    eapply keeps_bind; [apply Vi, Dr|]. intros r' Dr'. destruct shared; [apply lift_keeps, Dr'|apply keeps_ret, Dr'].
  Qed.
  Lemma not_bnf (o : obj) F : is_bnf o = false -> update_attributes F o = o.
  Proof. destruct o; intros E; try discriminate; reflexivity. Qed.
  Lemma set_attribute_keeps present update r : D r -> keeps (set_attribute present update r) D.
  Proof.
    intros Dr. unfold set_attribute. eapply keeps_bind; [apply keeps_get, Dr|]. intros o _. destruct (get_attributes o) as [a|]; [|apply keeps_raise].
    eapply keeps_bind with (P := D); [destruct (present a); [apply lift_keeps, Dr|apply keeps_ret, Dr]|]. intros r' Dr'. eapply keeps_bind; [apply keeps_get, Dr'|]. intros o' [Go' Fo'].
    eapply keeps_bind; [apply keeps_put|intros _ _; apply keeps_ret, Dr'].
    - destruct o'; exact Go'.
    - intros L. specialize (Fo' L). destruct (early r' o' Dr' (proj1 L) Fo') as (_ & B & _). rewrite not_bnf by exact B. exact Fo'.
  Qed.
  Lemma bnf_keeps parents : method_keeps (bnf_method pipe_bnf bnf_lines parents).
  Proof.
    intros V p o Vi Dp Go.
    assert (R : forall ps, Forall D ps -> keeps (bindM (mapMM V ps) (fun ps' => alloc (OBNF ps' no_attributes))) D).
    { intros ps F. eapply keeps_bind; [apply keeps_mapMM with (Q := D); intros x Hx; apply Vi; rewrite Forall_forall in F; auto|]. intros ps' [F' _]. apply keeps_new. intros c Hc. cbn in Hc. rewrite Forall_forall in F'. auto. }
    destruct o; cbn [bnf_method]; try (apply base_keeps; assumption); try apply keeps_raise; try (apply R, Forall_forall; exact Go);
      try (eapply keeps_bind; [apply wrapper_keeps; [exact Vi|apply Go; left; reflexivity]|]; intros r' Dr'; apply set_attribute_keeps, Dr').
    destruct (pipe_bnf pipeline) as [b|] eqn:E; [|apply keeps_raise]. unfold new_pipeline.
    eapply keeps_bind; [apply keeps_mapMM with (Q := D); intros [key ps] Hl; apply keeps_new; intros c []|].
    intros ps [F _]. apply keeps_new. intros c Hc. cbn in Hc. rewrite Forall_forall in F. auto.
  Qed.
  Lemma keeps_mapMM2 {A} (g : A -> M A) (l : list A) (P : A -> Prop) (same : Prop) : (forall x, In x l -> keeps (g x) (fun y => P y /\ (same -> y = x))) -> keeps (mapMM g l) (fun ys => Forall P ys /\ (same -> ys = l)).
  Proof.
    induction l as [|x l IH]; intros K; cbn [mapMM]; [apply keeps_ret; split; [constructor|reflexivity]|].
    eapply keeps_bind; [apply K; left; reflexivity|]. intros y [Py Sy]. eapply keeps_bind; [apply IH; intros z Hz; apply K; right; exact Hz|]. intros ys [Fy Sys]. apply keeps_ret. split; [constructor; assumption|intros H; rewrite (Sy H), (Sys H); reflexivity].
  Qed.
  Lemma remove_forward_keeps p : D p -> keeps (remove_forward_visit p) D.
  Proof.
    intros Dp. unfold remove_forward_visit. eapply keeps_bind; [apply keeps_get, Dp|]. intros o [Go Fo]. destruct o as [| | | | | | | | | | |[d|]| | | | |ts main| |]; try (apply keeps_ret, Dp); try apply keeps_raise.
    - apply keeps_ret, Go. left. reflexivity.
    - eapply keeps_bind; [apply keeps_mapMM2 with (P := term_in) (same := Kept p /\ p < n0)|].
      + intros t Ht. destruct t as [r|x]; [|apply keeps_ret; split; [exact Logic.I|reflexivity]]. assert (Dr := good_terms _ _ _ Go Ht). eapply keeps_bind; [apply keeps_get, Dr|]. intros o' Fo'.
        assert (S : Kept p /\ p < n0 -> is_forward o' = false).
        { intros L. destruct (early p _ Dp (proj1 L) (Fo L)) as (_ & _ & C). assert (Lr : Kept r /\ r < n0). { apply C. cbn. unfold rule_terms. apply in_flat_map. exists (TRule r). split; [exact Ht|left; reflexivity]. }
          destruct (early r o' Dr (proj1 Lr) (proj2 Fo' Lr)) as (E & _). exact E. }
        destruct o' as [| | | | | | | | | | |[d|]| | | | | | |]; try (apply keeps_ret; split; [exact Dr|reflexivity]); try apply keeps_raise.
        apply keeps_ret. split; [apply (proj1 Fo'); left; reflexivity|]. intros L. discriminate (S L).
      + intros ts' [F S]. eapply keeps_bind; [apply keeps_put; [apply good_prod, F|]|intros _ _; apply keeps_ret, Dp]. intros L. rewrite (S L). exact (Fo L).
  Qed.
  Lemma names_keeps rules : forall count h, good_heap h -> Forall D rules -> good_heap (generate_names rules count h).
  Proof.
    induction rules as [|r rules IH]; intros count h G F; cbn [generate_names]; [exact G|]. inversion F; subst. destruct (nth_error h r) as [o|] eqn:E; [|auto]. destruct (get_attributes o) as [a|] eqn:Ea; [|auto]. destruct (has_name a); [auto|].
    apply IH; [|assumption]. destruct G as [[L B] G]. split; [split; [rewrite setitem_length; exact L|]|].
    - intros p o' Kp Ep. rewrite nth_setitem. assert (Eh := B p o' Kp Ep). destruct (Nat.eqb_spec p r) as [->|_]; [|exact Eh]. rewrite E in Eh. injection Eh as ->. destruct (early r o') as (_ & Bo & _); [assumption|exact Kp|exact Ep|]. rewrite E. f_equal. apply not_bnf, Bo.
    - intros p o' Dp Ep. rewrite nth_setitem in Ep. destruct (Nat.eqb_spec p r) as [->|_]; [|apply (G p o' Dp Ep)]. rewrite E in Ep. injection Ep as <-. specialize (G r o Dp E). destruct o; exact G.
  Qed.
  Lemma bfs_in (h : heap) : good_heap h -> forall fuel queue visited l, Forall D queue -> bfs_loop fuel h queue visited = Some l -> Forall D l.
  Proof.
    intros [_ G] fuel. induction fuel as [|fuel IH]; intros queue visited l F E; destruct queue as [|x queue]; cbn [bfs_loop] in E; try (injection E as <-; constructor); try discriminate.
    inversion F; subst. destruct (enqueue _ queue visited) as [queue' visited'] eqn:En. destruct (bfs_loop fuel h queue' visited') as [l'|] eqn:El; [|discriminate]. injection E as <-. constructor; [assumption|].
    apply (IH queue' visited'); [|exact El]. apply (enqueue_in _ _ _ _ _ En); [|assumption]. destruct (nth_error h x) as [o|] eqn:Ex; [|constructor]. apply Forall_forall. apply (G x o); assumption.
  Qed.
  Lemma as_bnf_keeps fuel h root r h' : D root -> good_heap h -> as_bnf pipe_bnf bnf_lines fuel h root = Some (Ok (r, h')) -> good_heap h' /\ D r.
  Proof.
    intros D2 G2 H.
    unfold as_bnf, to_bnf, then_ in H. destruct (bfs fuel h root) as [objects|]; [|discriminate].
    destruct (run_visit (bnf_method pipe_bnf bnf_lines (count_parents h objects)) fuel h root) as [[[r3 h3]|]|] eqn:E3; try discriminate. destruct (run_visit_keeps _ _ _ _ _ _ (bnf_keeps _) D2 G2 E3) as [G3 D3].
    destruct (run_inplace remove_forward_visit fuel h3 r3) as [[[r4 h4]|]|] eqn:E4; try discriminate. destruct (run_inplace_keeps _ _ _ _ _ _ remove_forward_keeps D3 G3 E4) as [G4 D4].
    destruct (nth_error h4 r4) as [o|]; [|discriminate]. destruct (is_bnf o); [|discriminate]. destruct (bfs fuel h4 r4) as [l|] eqn:E5; [|discriminate]. injection H as <- <-.
    split; [|exact D4]. apply names_keeps; [exact G4|]. apply (bfs_in h4 G4) in E5; [|repeat constructor; exact D4]. unfold bnf_rules. apply Forall_forall. intros x Hx. apply filter_In in Hx as [Hx _]. rewrite Forall_forall in E5. auto.
  Qed.
End Frame.

(** Of a rule without forward rules, normalization and the BNF leave every object as it was. *)
Theorem passes_keep {pred pipe bnf} (pipe_bnf : pipe -> res bnf) (bnf_lines : bnf -> list (str * list pred)) fuel (h : heap pred pipe bnf) root r1 h1 r2 h2 :
  (forall p, reach h root p -> exists o, nth_error h p = Some o /\ is_forward o = false /\ is_bnf o = false) ->
  normalized fuel h root = Some (Ok (r1, h1)) -> as_bnf pipe_bnf bnf_lines fuel h1 r1 = Some (Ok (r2, h2)) ->
  forall p o, nth_error h p = Some o -> nth_error h2 p = Some o.
Proof.
  intros K N B. set (D := fun p => reach h root p \/ length h <= p). set (Kept := fun _ : nat => True).
  assert (later : forall p, length h <= p -> D p) by (intros p L; right; exact L).
  assert (early : forall p o, D p -> Kept p -> nth_error h p = Some o -> is_forward o = false /\ is_bnf o = false /\ forall c, In c (children o) -> Kept c /\ c < length h).
  { intros p o [R|L] _ E; [|assert (p < length h) by (apply nth_error_Some; congruence); lia]. destruct (K p R) as (o' & E' & F & Bo). rewrite E in E'. injection E' as <-. split; [exact F|]. split; [exact Bo|].
    intros c Hc. split; [exact Logic.I|]. destruct (K c) as (oc & Ec & _); [eapply reach_step; eassumption|]. apply nth_error_Some. congruence. }
  assert (G : good_heap h D Kept h).
  { split; [split; [lia|auto]|]. intros p o [R|L] E c Hc; [left; eapply reach_step; eassumption|]. assert (p < length h) by (apply nth_error_Some; congruence). lia. }
  destruct (normalized_keeps h D Kept later early fuel h root r1 h1 (or_introl (reach_refl h root)) G N) as [G1 D1].
  destruct (as_bnf_keeps pipe_bnf bnf_lines h D Kept later early fuel h1 r1 r2 h2 D1 G1 B) as [G2 _]. intros p o. apply (proj2 (proj1 G2)). exact Logic.I.
Qed.
(** Objects that are not part of the rule are left as they were. *)
Theorem passes_keep_others {pred pipe bnf} (pipe_bnf : pipe -> res bnf) (bnf_lines : bnf -> list (str * list pred)) fuel (h : heap pred pipe bnf) root r1 h1 r2 h2 :
  normalized fuel h root = Some (Ok (r1, h1)) -> as_bnf pipe_bnf bnf_lines fuel h1 r1 = Some (Ok (r2, h2)) ->
  forall p o, ~ reach h root p -> nth_error h p = Some o -> nth_error h2 p = Some o.
Proof.
  intros N B. set (D := fun p => reach h root p \/ length h <= p). set (Kept := fun p => ~ reach h root p).
  assert (later : forall p, length h <= p -> D p) by (intros p L; right; exact L).
  assert (early : forall p o, D p -> Kept p -> nth_error h p = Some o -> is_forward o = false /\ is_bnf o = false /\ forall c, In c (children o) -> Kept c /\ c < length h).
  { intros p o [R|L] Q E; [destruct (Q R)|assert (p < length h) by (apply nth_error_Some; congruence); lia]. }
  assert (G : good_heap h D Kept h).
  { split; [split; [lia|auto]|]. intros p o [R|L] E c Hc; [left; eapply reach_step; eassumption|]. assert (p < length h) by (apply nth_error_Some; congruence). lia. }
  destruct (normalized_keeps h D Kept later early fuel h root r1 h1 (or_introl (reach_refl h root)) G N) as [G1 D1].
  destruct (as_bnf_keeps pipe_bnf bnf_lines h D Kept later early fuel h1 r1 r2 h2 D1 G1 B) as [G2 _]. exact (proj2 (proj1 G2)).
Qed.
