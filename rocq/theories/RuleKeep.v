(** What kinds of objects the passes make: no relation without a relation, no empty
    production without an optional part, no dictionary without a dictionary, no
    predicate that is not one of the rule or of a pipeline. *)
From Verif Require Import Base EarleyModel SpanProofs RuleModel RuleSpec.
Open Scope nat_scope.

Section Keep.
  Context {pred pipe bnf : Type}.
  Notation obj := (obj pred pipe bnf).
  Notation heap := (heap pred pipe bnf).
  Notation M := (M pred pipe bnf).
  Notation state := (state pred pipe bnf).
  Notation visitor := (visitor pred pipe bnf).
  Variable pipe_bnf : pipe -> res bnf.
  Variable bnf_lines : bnf -> list (str * list pred).
  Variable activate_pred : pred -> res pred.
  Variable activate_pipe : pipe -> res pipe.
  Variables no_relation no_empty : bool.
  Variable fine : pipe -> Prop.
  Variable fine_bnf : bnf -> Prop.
  Variable fine_pred : pred -> Prop.
  Definition fine_line (ps : list pred) : Prop := (no_empty = true -> ps <> []) /\ forall p, In p ps -> fine_pred p.
  Hypothesis fine_made : forall x b, fine x -> pipe_bnf x = Ok b -> fine_bnf b /\ forall key ps, In (key, ps) (bnf_lines b) -> fine_line ps.
  Hypothesis fine_active : forall x y, fine x -> activate_pipe x = Ok y -> fine y.
  Hypothesis pred_active : forall p q, fine_pred p -> activate_pred p = Ok q -> fine_pred q.

  Definition simple (o : obj) : Prop :=
    match o with
    | ORelation _ _ => no_relation = false
    | OOptional _ _ | ORepOpt _ _ _ | OEmpty | OEmptyProd => no_empty = false
    | OProd ts _ => (no_empty = true -> ts <> []) /\ forall p, In (TPred p) ts -> fine_pred p
    | OPipeProd _ ps => fine_line ps
    | OPipeline x => fine x
    | OBNF _ a => no_relation = true -> a_relation a = None
    | OPipeBNF b _ a => fine_bnf b /\ (no_relation = true -> a_relation a = None)
    | _ => True
    end.

  (** The objects looked at: those reachable in the first heap and all later ones. *)
  Variable D : nat -> Prop.
  Variable n0 : nat.
  Hypothesis later : forall p, n0 <= p -> D p.
  Definition good (o : obj) : Prop := simple o /\ forall c, In c (children o) -> D c.
  Definition good_heap (h : heap) : Prop := n0 <= length h /\ forall p o, D p -> nth_error h p = Some o -> good o.
  Definition inv (s : state) : Prop := good_heap (st_heap s) /\ forall p r, In (p, r) (st_visited s) -> D r.
  Definition keeps {A} (m : M A) (Q : A -> Prop) : Prop := forall s a s', inv s -> m s = Some (Ok (a, s')) -> inv s' /\ Q a.

  Lemma keeps_ret {A} (a : A) (Q : A -> Prop) : Q a -> keeps (ret a) Q.
  Proof. intros H s b s' I E. injection E as <- <-. auto. Qed.
  Lemma keeps_raise {A} e (Q : A -> Prop) : keeps (raise e) Q.
  Proof. intros s b s' I E. discriminate. Qed.
  Lemma keeps_no_fuel {A} (Q : A -> Prop) : keeps no_fuel Q.
  Proof. intros s b s' I E. discriminate. Qed.
  Lemma keeps_bind {A B} (m : M A) (f : A -> M B) (P : A -> Prop) (Q : B -> Prop) : keeps m P -> (forall a, P a -> keeps (f a) Q) -> keeps (bindM m f) Q.
  Proof.
    intros K1 K2 s b s' I E. unfold bindM in E. destruct (m s) as [[[a s1]|e]|] eqn:Em; try discriminate.
    destruct (K1 s a s1 I Em) as [I1 P1]. exact (K2 a P1 s1 b s' I1 E).
  Qed.
  Lemma keeps_weaken {A} (m : M A) (P Q : A -> Prop) : keeps m P -> (forall a, P a -> Q a) -> keeps m Q.
  Proof. intros K W s a s' I E. destruct (K s a s' I E). auto. Qed.
  Lemma keeps_get p : D p -> keeps (get p) good.
  Proof. intros Dp s o s' I E. unfold get in E. destruct (nth_error (st_heap s) p) as [o'|] eqn:Ep; [|discriminate]. injection E as <- <-. split; [exact I|]. apply (proj2 (proj1 I) p o' Dp Ep). Qed.
  Lemma keeps_alloc o : good o -> keeps (alloc o) D.
  Proof.
    intros G s p s' I E. injection E as <- <-. destruct I as [[L I] V]. split; [|apply later, L]. split; [|exact V]. split; [cbn; rewrite app_length; lia|].
    cbn. intros q o' Dq Eq. destruct (Nat.lt_ge_cases q (length (st_heap s))) as [Lq|Lq]; [rewrite nth_error_app1 in Eq by exact Lq; apply (I q o' Dq Eq)|].
    rewrite nth_error_app2 in Eq by exact Lq. destruct (q - length (st_heap s)) as [|[|k]]; cbn in Eq; try discriminate. injection Eq as <-. exact G.
  Qed.
  Lemma nth_setitem {A} (h : list A) p o q : nth_error (setitem h p o) q = if Nat.eqb q p then match nth_error h p with Some _ => Some o | None => None end else nth_error h q.
  Proof.
    revert p q. induction h as [|x h IH]; intros p q; [destruct p, q; cbn; try reflexivity; destruct (Nat.eqb q p); reflexivity|].
    destruct p, q; cbn; try reflexivity. apply IH.
  Qed.
  Lemma keeps_put p o : good o -> keeps (put p o) (fun _ => True).
  Proof.
    intros G s u s' I E. injection E as <- <-. destruct I as [[L I] V]. split; [|exact Logic.I]. split; [|exact V]. split; [cbn; rewrite setitem_length; exact L|].
    cbn. intros q o' Dq Eq. rewrite nth_setitem in Eq. destruct (Nat.eqb_spec q p) as [->|_]; [|apply (I q o' Dq Eq)]. destruct (nth_error (st_heap s) p); [injection Eq as <-; exact G|discriminate].
  Qed.
  Lemma keeps_remember p r : D r -> keeps (remember p r) (fun _ => True).
  Proof. intros Dr s u s' I E. injection E as <- <-. destruct I as [I V]. split; [|exact Logic.I]. split; [exact I|]. cbn. intros q x [H|H]; [injection H as <- <-; exact Dr|apply (V q x H)]. Qed.
  Lemma keeps_recall p : keeps (recall p) (fun known => forall r, known = Some r -> D r).
  Proof.
    intros s known s' I E. injection E as <- <-. split; [exact I|]. intros r E. apply (proj2 I p). revert E. generalize (st_visited s). induction l as [|[k v] l IH]; cbn; [discriminate|].
    destruct (Nat.eqb_spec p k) as [->|_]; [intros E; injection E as ->; auto|auto].
  Qed.
  Lemma keeps_mapMM {A B} (f : A -> M B) (l : list A) (Q : B -> Prop) : (forall x, In x l -> keeps (f x) Q) -> keeps (mapMM f l) (fun ys => Forall Q ys /\ length ys = length l).
  Proof.
    induction l as [|x l IH]; intros K; cbn [mapMM]; [apply keeps_ret; split; [constructor|reflexivity]|].
    eapply keeps_bind; [apply K; left; reflexivity|]. intros y Qy. eapply keeps_bind; [apply IH; intros z Hz; apply K; right; exact Hz|]. intros ys [Fy Ly]. apply keeps_ret. split; [constructor; assumption|cbn; congruence].
  Qed.
  Lemma keeps_define f r : D r -> keeps (define f r) (fun _ => True).
  Proof.
    intros Dr. eapply keeps_bind; [apply keeps_get, Dr|]. intros o _. destruct (is_forward o); [apply keeps_raise|]. apply keeps_put. split; [exact Logic.I|]. intros c [<-|[]]. exact Dr.
  Qed.

  (** ** Visits *)
  Definition visits (V : visitor) : Prop := forall p, D p -> keeps (V p) D.
  Definition term_in (t : term pred) : Prop := match t with TRule r => D r | TPred p => fine_pred p end.
  Definition method_keeps (method : visitor -> nat -> obj -> M nat) : Prop := forall V p o, visits V -> D p -> good o -> keeps (method V p o) D.
  Lemma visit_keeps method : method_keeps method -> forall fuel, visits (visit method fuel).
  Proof.
    intros K fuel. induction fuel as [|fuel IH]; intros p Dp; cbn [visit]; [apply keeps_no_fuel|].
    eapply keeps_bind; [apply keeps_recall|]. intros known Hk. destruct known as [r|]; [apply keeps_ret, Hk; reflexivity|].
    eapply keeps_bind; [apply keeps_get, Dp|]. intros o Go. eapply keeps_bind; [apply K; assumption|]. intros r Dr.
    eapply keeps_bind; [apply keeps_remember, Dr|]. intros _ _. apply keeps_ret, Dr.
  Qed.
  Lemma enqueue_in cs : forall queue visited queue' visited', enqueue cs queue visited = (queue', visited') -> Forall D cs -> Forall D queue -> Forall D queue'.
  Proof.
    induction cs as [|c cs IH]; intros queue visited queue' visited' E Fc Fq; cbn in E; [injection E as <- <-; exact Fq|]. inversion Fc; subst.
    destruct (is_in c visited); [apply (IH _ _ _ _ E)|apply (IH _ _ _ _ E)]; auto. apply Forall_app. auto.
  Qed.
  Lemma walk_keeps act : (forall p, D p -> keeps (act p) (fun _ => True)) -> forall fuel queue visited, Forall D queue -> keeps (walk_loop fuel act queue visited) (fun _ => True).
  Proof.
    intros K fuel. induction fuel as [|fuel IH]; intros queue visited F; destruct queue as [|x queue]; cbn [walk_loop]; try (apply keeps_ret; exact Logic.I); [apply keeps_no_fuel|].
    inversion F; subst. eapply keeps_bind; [apply K; assumption|]. intros _ _. eapply keeps_bind; [apply keeps_get; assumption|]. intros o [_ Go].
    destruct (enqueue (children o) queue visited) as [queue' visited'] eqn:E. apply IH. apply (enqueue_in _ _ _ _ _ E); [|assumption]. apply Forall_forall. exact Go.
  Qed.
  Lemma run_visit_keeps method fuel h root r h' : method_keeps method -> D root -> good_heap h -> run_visit method fuel h root = Some (Ok (r, h')) -> good_heap h' /\ D r.
  Proof.
    intros K Dr G E. unfold run_visit in E. destruct (transform_walk method fuel root (mkState h [])) as [[[r1 s1]|e]|] eqn:T; try discriminate. injection E as -> <-.
    assert (keeps (transform_walk method fuel root) D) as Kt.
    { unfold transform_walk. eapply keeps_bind; [apply walk_keeps|].
      - intros p Dp. unfold define_visited. eapply keeps_bind; [apply keeps_get, Dp|]. intros o [_ Go]. destruct o as [| | | | | | | | | | |[d|]| | | | | | |]; try (apply keeps_ret; exact Logic.I).
        eapply keeps_bind; [apply (visit_keeps _ K); apply Go; left; reflexivity|]. intros d' Dd. apply keeps_define, Dd.
      - constructor; [exact Dr|constructor].
      - intros _ _. apply (visit_keeps _ K), Dr. }
    destruct (Kt (mkState h []) r s1) as [I Q]; [split; [exact G|intros p q []]|exact T|]. split; [apply I|exact Q].
  Qed.
  Lemma run_inplace_keeps act fuel h root r h' : (forall p, D p -> keeps (act p) D) -> D root -> good_heap h -> run_inplace act fuel h root = Some (Ok (r, h')) -> good_heap h' /\ D r.
  Proof.
    intros K Dr G E. unfold run_inplace in E. destruct (transform_inplace act fuel root (mkState h [])) as [[[r1 s1]|e]|] eqn:T; try discriminate. injection E as -> <-.
    assert (keeps (transform_inplace act fuel root) D) as Kt.
    { unfold transform_inplace. eapply keeps_bind; [apply walk_keeps|].
      - intros p Dp. eapply keeps_bind; [apply K, Dp|]. intros _ _. apply keeps_ret. exact Logic.I.
      - constructor; [exact Dr|constructor].
      - intros _ _. apply K, Dr. }
    destruct (Kt (mkState h []) r s1) as [I Q]; [split; [exact G|intros p q []]|exact T|]. split; [apply I|exact Q].
  Qed.

  (** ** Methods *)
  Lemma good_children o : good o -> forall c, In c (children o) -> D c.
  Proof. intros [_ K]. exact K. Qed.
  Lemma good_terms ts main t : good (OProd ts main) -> In t ts -> term_in t.
  Proof. intros [[_ F] K] Ht. destruct t as [r|p]; [|apply F, Ht]. apply K. cbn. unfold rule_terms. apply in_flat_map. exists (TRule r). split; [exact Ht|left; reflexivity]. Qed.
  Lemma good_prod ts main : (no_empty = true -> ts <> []) -> Forall term_in ts -> good (OProd ts main).
  Proof.
    intros N F. rewrite Forall_forall in F. split; [split; [exact N|intros p Hp; exact (F _ Hp)]|]. intros c Hc. cbn in Hc. unfold rule_terms in Hc. apply in_flat_map in Hc as (t & Ht & Hc). specialize (F t Ht). destruct t; [|destruct Hc]. destruct Hc as [<-|[]]. exact F.
  Qed.
  Lemma good_prod_like ts main ts' main' : good (OProd ts main) -> Forall term_in ts' -> length ts' = length ts -> good (OProd ts' main').
  Proof. intros [[N _] _] F L. apply good_prod; [|exact F]. intros E Z. subst ts'. apply (N E). destruct ts; [reflexivity|discriminate]. Qed.
  Lemma good_rules (f : list nat -> obj) rs : simple (f rs) -> children (f rs) = rs -> Forall D rs -> good (f rs).
  Proof. intros S C F. split; [exact S|]. rewrite C. intros c Hc. rewrite Forall_forall in F. auto. Qed.
  Lemma visit_term_keeps V t : visits V -> term_in t -> keeps (visit_term V t) term_in.
  Proof. intros Vi T. destruct t as [r|p]; cbn; [|apply keeps_ret; exact T]. eapply keeps_bind; [apply Vi, T|]. intros r' Dr. apply keeps_ret, Dr. Qed.

  Ltac one := match goal with
    | |- keeps (bindM (?V ?r) _) _ => eapply keeps_bind; [match goal with Vi : visits V |- _ => apply Vi end|intros ? ?]
    | |- keeps (alloc _) _ => apply keeps_alloc
    | |- keeps (ret _) _ => apply keeps_ret
    | |- keeps (raise _) _ => apply keeps_raise
    | |- keeps no_fuel _ => apply keeps_no_fuel
    end.
  Ltac unit_good := split; [try exact Logic.I|]; intros ? [<-|[]]; assumption.
  Lemma base_keeps : method_keeps base_method.
  Proof.
    intros V p o Vi Dp Go. assert (Gc := good_children o Go). destruct o; cbn [base_method]; try (apply keeps_ret, Dp); try apply keeps_raise;
      try (one; [apply Gc; left; reflexivity|]; one; split; [first [exact Logic.I|exact (proj1 Go)]|]; intros ? [<-|[]]; assumption).
    - eapply keeps_bind; [apply keeps_mapMM; intros x Hx; apply Vi, (Gc _ Hx)|]. intros ys [F L]. one. apply good_rules; [exact Logic.I|reflexivity|exact F].
    - eapply keeps_bind; [apply keeps_mapMM; intros x Hx; apply Vi, (Gc _ Hx)|]. intros ys [F L]. one. apply good_rules; [exact Logic.I|reflexivity|exact F].
    - eapply keeps_bind; [apply keeps_mapMM; intros x Hx; apply Vi, (Gc _ Hx)|]. intros ys [F L]. one. apply good_rules; [exact Logic.I|reflexivity|exact F].
    - eapply keeps_bind; [apply keeps_mapMM; intros x Hx; apply Vi, (Gc _ Hx)|]. intros ys [F L]. one. apply good_rules; [exact Logic.I|reflexivity|exact F].
    - unfold visit_Production. eapply keeps_bind; [apply keeps_mapMM; intros t Ht; apply visit_term_keeps; [exact Vi|apply (good_terms _ _ _ Go Ht)]|].
      intros ts' [F L]. one. apply (good_prod_like _ _ _ _ Go F L).
  Qed.

  Lemma squash_keeps : method_keeps squash_method.
  Proof.
    intros V p o Vi Dp Go. assert (Gc := good_children o Go). destruct o; cbn [squash_method]; try (apply base_keeps; assumption);
      (eapply keeps_bind; [apply keeps_get, Gc; left; reflexivity|]; intros oc Goc; assert (Gcc := good_children oc Goc); assert (Dc := Gc); assert (So := proj1 Go); assert (Soc := proj1 Goc); cbn in So);
      destruct oc; cbn [squash_bounded]; unfold visit_new; try apply keeps_raise; cbn in Soc;
      (* a child that is not special, or a new quantifier around the grandchild *)
      repeat first
        [ eapply keeps_bind; [apply Vi; apply Dc; left; reflexivity|intros ? ?]
        | eapply keeps_bind; [apply keeps_alloc; split; [first [exact Logic.I|assumption]|intros ? [<-|[]]; first [assumption|apply Gcc; left; reflexivity]]|intros ? ?]
        | apply keeps_alloc; split; [first [exact Logic.I|assumption]|intros ? [<-|[]]; assumption]
        | apply Vi; assumption ].
  Qed.

  Lemma new_rule_keeps ts : ts <> [] -> Forall D ts -> keeps (new_rule ts) D.
  Proof.
    intros N F. unfold new_rule. eapply keeps_bind; [apply keeps_alloc, good_prod|].
    - intros _ E. apply N. destruct ts; [reflexivity|discriminate].
    - apply Forall_map. exact F.
    - intros q Dq. apply keeps_alloc. split; [exact Logic.I|]. intros c [<-|[]]. exact Dq.
  Qed.
  Lemma or_keeps reverse a b : D a -> D b -> keeps (alloc (OOr (ordered reverse a b))) D.
  Proof. intros Da Db. apply keeps_alloc. split; [exact Logic.I|]. cbn. destruct reverse; intros c [<-|[<-|[]]]; assumption. Qed.
  Lemma max_bound_keeps item reverse : D item -> forall count, keeps (max_bound item count reverse) D.
  Proof.
    intros Di count. induction count as [|count IH]; cbn [max_bound]; [apply keeps_no_fuel|]. destruct count; [apply keeps_ret, Di|].
    eapply keeps_bind; [exact IH|]. intros rest Dr. eapply keeps_bind; [apply new_rule_keeps; [discriminate|repeat constructor; assumption]|]. intros a Da. apply or_keeps; assumption.
  Qed.
  Lemma forward_keeps d : (forall r, d = Some r -> D r) -> keeps (alloc (OForward d)) D.
  Proof. intros H. apply keeps_alloc. split; [exact Logic.I|]. destruct d as [r|]; intros c Hc; [destruct Hc as [<-|[]]; auto|destruct Hc]. Qed.
  Lemma repeatable_keeps item reverse : D item -> keeps (repeatable_rule item reverse) D.
  Proof.
    intros Di. unfold repeatable_rule. eapply keeps_bind; [apply forward_keeps; discriminate|]. intros temp Dt. eapply keeps_bind; [apply new_rule_keeps; [discriminate|repeat constructor; assumption]|]. intros a Da.
    eapply keeps_bind; [apply or_keeps; assumption|]. intros o Do. eapply keeps_bind; [apply keeps_define, Do|]. intros _ _. apply keeps_ret, Dt.
  Qed.
  Lemma replace_extended_keeps : method_keeps replace_extended_method.
  Proof.
    intros V p o Vi Dp Go. assert (Gc := good_children o Go). assert (So := proj1 Go). destruct o; cbn [replace_extended_method]; try (apply base_keeps; assumption); cbn in So;
      (eapply keeps_bind; [apply Vi, Gc; left; reflexivity|]; intros child Dc).
    - unfold optional_rule. eapply keeps_bind; [apply keeps_alloc; split; [exact So|intros c []]|]. intros a Da. apply or_keeps; assumption.
    - apply repeatable_keeps, Dc.
    - unfold repeatable_optional_rule. eapply keeps_bind; [apply forward_keeps; discriminate|]. intros temp Dt. eapply keeps_bind; [apply keeps_alloc; split; [exact So|intros c []]|]. intros a Da.
      eapply keeps_bind; [apply new_rule_keeps; [discriminate|repeat constructor; assumption]|]. intros b Db.
      eapply keeps_bind; [apply keeps_alloc; split; [exact Logic.I|]; cbn; destruct reverse_repeatable, reverse_optional; cbn; intros c Hc; repeat destruct Hc as [<-|Hc]; try assumption; destruct Hc|]. intros x Dx.
      eapply keeps_bind; [apply keeps_define, Dx|]. intros _ _. apply keeps_ret, Dt.
    - eapply keeps_bind; [apply repeatable_keeps, Dc|]. intros last Dl. apply new_rule_keeps; [destruct (repeat child (min - 1)); discriminate|]. apply Forall_app. split; [|repeat constructor; exact Dl].
      apply Forall_forall. intros x Hx. apply repeat_spec in Hx as ->. exact Dc.
    - apply max_bound_keeps, Dc.
    - eapply keeps_bind; [apply max_bound_keeps, Dc|]. intros last Dl. apply new_rule_keeps; [destruct (repeat child (min - 1)); discriminate|]. apply Forall_app. split; [|repeat constructor; exact Dl].
      apply Forall_forall. intros x Hx. apply repeat_spec in Hx as ->. exact Dc.
  Qed.
  Lemma replace_or_keeps : method_keeps replace_or_method.
  Proof.
    intros V p o Vi Dp Go. assert (Gc := good_children o Go). destruct o; cbn [replace_or_method]; try (apply base_keeps; assumption).
    eapply keeps_bind; [apply keeps_mapMM with (Q := D)|].
    - intros r Hr. eapply keeps_bind; [apply Vi, (Gc _ Hr)|]. intros r' Dr. apply keeps_alloc, good_prod; [discriminate|]. repeat constructor. exact Dr.
    - intros ps [F _]. apply keeps_alloc, good_rules; [exact Logic.I|reflexivity|exact F].
  Qed.
  Lemma replace_empty_keeps : method_keeps replace_empty_method.
  Proof.
    intros V p o Vi Dp Go. assert (So := proj1 Go). destruct o; cbn [replace_empty_method]; try (apply base_keeps; assumption).
    eapply keeps_bind; [apply keeps_alloc; split; [exact So|intros c []]|]. intros q Dq. apply keeps_alloc. split; [exact Logic.I|]. intros c [<-|[]]. exact Dq.
  Qed.
  Lemma flatten_term_keeps V t : visits V -> forall fuel, term_in t -> keeps (flatten_term fuel V t) term_in.
  Proof.
    intros Vi fuel. revert t. induction fuel as [|fuel IH]; intros t Ht; cbn [flatten_term]; [apply keeps_no_fuel|]. destruct t as [r|p]; [|apply keeps_ret; exact Ht].
    eapply keeps_bind; [apply keeps_get, Ht|]. intros o Go. assert (Gc := good_children o Go).
    assert (keeps (visit_term V (TRule r)) term_in) by (apply visit_term_keeps; assumption).
    destruct o; try assumption. destruct productions as [|q [|]]; try assumption.
    eapply keeps_bind; [apply keeps_get, Gc; left; reflexivity|]. intros oq Gq. destruct (production_terms oq) as [|t' [|]] eqn:E; try assumption. apply IH.
    destruct oq; cbn in E; try discriminate.
    - subst terms. apply (good_terms _ _ _ Gq). left. reflexivity.
    - destruct terms as [|x l]; [discriminate|]. injection E as <- _. apply (proj2 (proj1 Gq)). left. reflexivity.
  Qed.
  Lemma flatten_keeps fuel : method_keeps (flatten_method fuel).
  Proof.
    intros V p o Vi Dp Go. destruct o; cbn [flatten_method]; try (apply base_keeps; assumption).
    assert (K : keeps (bindM (mapMM (flatten_term fuel V) terms) (fun ts' => alloc (OProd ts' main))) D).
    { eapply keeps_bind; [apply keeps_mapMM; intros t Ht; apply flatten_term_keeps; [exact Vi|apply (good_terms _ _ _ Go Ht)]|]. intros ts' [F L]. apply keeps_alloc, (good_prod_like _ _ _ _ Go F L). }
    destruct terms as [|[r|x] [|]]; try exact K.
    eapply keeps_bind; [apply keeps_get, (good_terms _ _ (TRule r) Go); left; reflexivity|]. intros o' Go'. destruct o'; try exact K. destruct productions as [|q [|]]; try exact K. apply Vi, (good_children _ Go' _). left. reflexivity.
  Qed.
  Lemma normalized_keeps fuel h root r h' : D root -> good_heap h -> normalized fuel h root = Some (Ok (r, h')) -> good_heap h' /\ D r.
  Proof.
    intros Dr G H. unfold normalized, then_ in H.
    destruct (run_visit squash_method fuel h root) as [[[r1 h1]|]|] eqn:E1; try discriminate. destruct (run_visit_keeps _ _ _ _ _ _ squash_keeps Dr G E1) as [G1 D1].
    destruct (run_visit replace_extended_method fuel h1 r1) as [[[r2 h2]|]|] eqn:E2; try discriminate. destruct (run_visit_keeps _ _ _ _ _ _ replace_extended_keeps D1 G1 E2) as [G2 D2].
    destruct (run_visit replace_or_method fuel h2 r2) as [[[r3 h3]|]|] eqn:E3; try discriminate. destruct (run_visit_keeps _ _ _ _ _ _ replace_or_keeps D2 G2 E3) as [G3 D3].
    destruct (run_visit replace_empty_method fuel h3 r3) as [[[r4 h4]|]|] eqn:E4; try discriminate. destruct (run_visit_keeps _ _ _ _ _ _ replace_empty_keeps D3 G3 E4) as [G4 D4].
    exact (run_visit_keeps _ _ _ _ _ _ (flatten_keeps fuel) D4 G4 H).
  Qed.

  Lemma lift_keeps r : D r -> keeps (lift r) D.
  Proof.
    intros Dr. unfold lift. eapply keeps_bind; [apply keeps_alloc, good_prod; [discriminate|repeat constructor; exact Dr]|]. intros q Dq. apply keeps_alloc. split; [intros _; reflexivity|]. intros c [<-|[]]. exact Dq.
  Qed.
  Lemma wrapper_keeps parents V r : visits V -> D r -> keeps (visit_WrapperRule parents V r) D.
  Proof.
    intros Vi Dr. unfold visit_WrapperRule. eapply keeps_bind; [apply keeps_get, Dr|]. intros o _. destruct (is_forward o); [apply lift_keeps, Dr|].
    eapply keeps_bind with (P := fun _ => True); [unfold is_shared; destruct (count_occ Nat.eq_dec parents r); [apply keeps_raise|apply keeps_ret; exact Logic.I]|]. intros shared _.
    eapply keeps_bind; [apply Vi, Dr|]. intros r' Dr'. destruct shared; [apply lift_keeps, Dr'|apply keeps_ret, Dr'].
  Qed.
  Lemma set_attribute_keeps present update r : (forall a, (no_relation = true -> a_relation a = None) -> no_relation = true -> a_relation (update a) = None) -> D r -> keeps (set_attribute present update r) D.
  Proof.
    intros K Dr. unfold set_attribute. eapply keeps_bind; [apply keeps_get, Dr|]. intros o _. destruct (get_attributes o) as [a|]; [|apply keeps_raise].
    eapply keeps_bind with (P := D); [destruct (present a); [apply lift_keeps, Dr|apply keeps_ret, Dr]|]. intros r' Dr'. eapply keeps_bind; [apply keeps_get, Dr'|]. intros o' Go'.
    eapply keeps_bind; [apply keeps_put|intros _ _; apply keeps_ret, Dr'].
    destruct Go' as [So Co]. destruct o'; split; cbn in *; auto. destruct So. split; auto.
  Qed.
  Lemma bnf_keeps parents : method_keeps (bnf_method pipe_bnf bnf_lines parents).
  Proof.
    intros V p o Vi Dp Go. assert (Gc := good_children o Go). assert (So := proj1 Go).
    assert (R : forall ps, Forall D ps -> keeps (bindM (mapMM V ps) (fun ps' => alloc (OBNF ps' no_attributes))) D).
    { intros ps F. eapply keeps_bind; [apply keeps_mapMM with (Q := D); intros x Hx; apply Vi; rewrite Forall_forall in F; auto|]. intros ps' [F' _]. apply keeps_alloc. split; [intros _; reflexivity|]. cbn. rewrite Forall_forall in F'. exact F'. }
    destruct o; cbn [bnf_method]; try (apply base_keeps; assumption); try apply keeps_raise; try (apply R, Forall_forall; exact Gc).
    - eapply keeps_bind; [apply wrapper_keeps; [exact Vi|apply Gc; left; reflexivity]|]. intros r' Dr'. apply set_attribute_keeps; [|exact Dr']. intros a Ha. exact Ha.
    - eapply keeps_bind; [apply wrapper_keeps; [exact Vi|apply Gc; left; reflexivity]|]. intros r' Dr'. apply set_attribute_keeps; [|exact Dr']. intros a Ha. exact Ha.
    - eapply keeps_bind; [apply wrapper_keeps; [exact Vi|apply Gc; left; reflexivity]|]. intros r' Dr'. apply set_attribute_keeps; [|exact Dr']. intros a Ha E. cbn in So. congruence.
    - destruct (pipe_bnf pipeline) as [b|] eqn:E; [|apply keeps_raise]. destruct (fine_made _ _ So E) as [Fb Fl]. unfold new_pipeline.
      eapply keeps_bind; [apply keeps_mapMM with (Q := D); intros [key ps] Hl; apply keeps_alloc; split; [exact (Fl key ps Hl)|intros c []]|].
      intros ps [F _]. apply keeps_alloc. split; [split; [exact Fb|intros _; reflexivity]|]. cbn. rewrite Forall_forall in F. exact F.
  Qed.
  Lemma remove_forward_keeps p : D p -> keeps (remove_forward_visit p) D.
  Proof.
    intros Dp. unfold remove_forward_visit. eapply keeps_bind; [apply keeps_get, Dp|]. intros o Go. destruct o as [| | | | | | | | | | |[d|]| | | | |ts main| |]; try (apply keeps_ret, Dp); try apply keeps_raise.
    - apply keeps_ret, (good_children _ Go _). left. reflexivity.
    - eapply keeps_bind; [apply keeps_mapMM with (Q := term_in)|].
      + intros t Ht. assert (Dr := good_terms _ _ _ Go Ht). destruct t as [r|x]; [|apply keeps_ret; exact Dr]. eapply keeps_bind; [apply keeps_get, Dr|]. intros o' Go'.
        destruct o' as [| | | | | | | | | | |[d|]| | | | | | |]; try (apply keeps_ret; exact Dr); try apply keeps_raise. apply keeps_ret. apply (good_children _ Go' _). left. reflexivity.
      + intros ts' [F L]. eapply keeps_bind; [apply keeps_put, (good_prod_like _ _ _ _ Go F L)|]. intros _ _. apply keeps_ret, Dp.
  Qed.
  Lemma activate_keeps p : D p -> keeps (activate_visit activate_pred activate_pipe p) D.
  Proof.
    intros Dp. unfold activate_visit. eapply keeps_bind; [apply keeps_get, Dp|]. intros o Go. assert (So := proj1 Go). destruct o; try (apply keeps_ret, Dp).
    - cbn in So. eapply keeps_bind with (P := fine); [destruct (activate_pipe pipeline) as [y|] eqn:E; [apply keeps_ret, (fine_active _ _ So E)|apply keeps_raise]|].
      intros y Fy. eapply keeps_bind; [apply keeps_put; split; [exact Fy|intros c []]|]. intros _ _. apply keeps_ret, Dp.
    - eapply keeps_bind; [apply keeps_mapMM with (Q := term_in)|].
      + intros t Ht. destruct t as [r|x]; [apply keeps_ret, (good_terms _ _ _ Go Ht)|]. assert (Fx := good_terms _ _ _ Go Ht). eapply keeps_bind with (P := fine_pred); [destruct (activate_pred x) as [y|] eqn:E; [apply keeps_ret, (pred_active _ _ Fx E)|apply keeps_raise]|]. intros y Fy. apply keeps_ret. exact Fy.
      + intros ts' [F L]. eapply keeps_bind; [apply keeps_put, (good_prod_like _ _ _ _ Go F L)|]. intros _ _. apply keeps_ret, Dp.
  Qed.
  Lemma names_keeps rules : forall count h, good_heap h -> Forall D rules -> good_heap (generate_names rules count h).
  Proof.
    induction rules as [|r rules IH]; intros count h G F; cbn [generate_names]; [exact G|]. inversion F; subst. destruct (nth_error h r) as [o|] eqn:E; [|auto]. destruct (get_attributes o) as [a|]; [|auto]. destruct (has_name a); [auto|].
    apply IH; [|assumption]. destruct G as [L G]. split; [rewrite setitem_length; exact L|]. intros p o' Dp Ep. rewrite nth_setitem in Ep. destruct (Nat.eqb_spec p r) as [->|_]; [|apply (G p o' Dp Ep)].
    rewrite E in Ep. injection Ep as <-. destruct (G r o Dp E) as [So Co]. destruct o; split; cbn in *; auto.
  Qed.

  Lemma bfs_in (h : heap) : good_heap h -> forall fuel queue visited l, Forall D queue -> bfs_loop fuel h queue visited = Some l -> Forall D l.
  Proof.
    intros [_ G] fuel. induction fuel as [|fuel IH]; intros queue visited l F E; destruct queue as [|x queue]; cbn [bfs_loop] in E; try (injection E as <-; constructor); try discriminate.
    inversion F; subst. destruct (enqueue _ queue visited) as [queue' visited'] eqn:En. destruct (bfs_loop fuel h queue' visited') as [l'|] eqn:El; [|discriminate]. injection E as <-. constructor; [assumption|].
    apply (IH queue' visited'); [|exact El]. apply (enqueue_in _ _ _ _ _ En); [|assumption]. destruct (nth_error h x) as [o|] eqn:Ex; [|constructor]. apply Forall_forall. apply (G x o); assumption.
  Qed.
  Theorem active_rule_keeps fuel h root r h' : D root -> good_heap h -> then_ (normalized fuel h root) (fun '(r, h1) => as_bnf pipe_bnf bnf_lines fuel h1 r) = Some (Ok (r, h')) -> good_heap h' /\ D r.
  Proof.
    intros D1 G1 H. unfold then_ in H.
    destruct (normalized fuel h root) as [[[r2 h2]|]|] eqn:E2; try discriminate. destruct (normalized_keeps _ _ _ _ _ D1 G1 E2) as [G2 D2].
    unfold as_bnf, to_bnf, then_ in H. destruct (bfs fuel h2 r2) as [objects|]; [|discriminate].
    destruct (run_visit (bnf_method pipe_bnf bnf_lines (count_parents h2 objects)) fuel h2 r2) as [[[r3 h3]|]|] eqn:E3; try discriminate. destruct (run_visit_keeps _ _ _ _ _ _ (bnf_keeps _) D2 G2 E3) as [G3 D3].
    destruct (run_inplace remove_forward_visit fuel h3 r3) as [[[r4 h4]|]|] eqn:E4; try discriminate. destruct (run_inplace_keeps _ _ _ _ _ _ remove_forward_keeps D3 G3 E4) as [G4 D4].
    destruct (nth_error h4 r4) as [o|]; [|discriminate]. destruct (is_bnf o); [|discriminate]. destruct (bfs fuel h4 r4) as [l|] eqn:E5; [|discriminate]. injection H as <- <-.
    split; [|exact D4]. apply names_keeps; [exact G4|]. apply (bfs_in h4 G4) in E5; [|repeat constructor; exact D4]. unfold bnf_rules. apply Forall_forall. intros x Hx. apply filter_In in Hx as [Hx _]. rewrite Forall_forall in E5. auto.
  Qed.
  Theorem parser_rule_keeps fuel h root r h' : D root -> good_heap h -> parser_rule pipe_bnf bnf_lines activate_pred activate_pipe fuel h root = Some (Ok (r, h')) -> good_heap h' /\ D r.
  Proof.
    intros Dr G H. unfold parser_rule in H. unfold then_ at 1 in H.
    destruct (run_inplace (activate_visit activate_pred activate_pipe) fuel h root) as [[[r1 h1]|]|] eqn:E1; try discriminate. destruct (run_inplace_keeps _ _ _ _ _ _ activate_keeps Dr G E1) as [G1 D1].
    exact (active_rule_keeps _ _ _ _ _ D1 G1 H).
  Qed.
End Keep.
