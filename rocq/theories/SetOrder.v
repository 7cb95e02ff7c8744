(** Two ways to iterate sets give the same parser when they agree on the dictionaries of the rule. *)
From Verif Require Import Base TokenModel EarleyModel SpanProofs ParserModel RuleModel RuleSpec RuleKeep.
Open Scope nat_scope.

Section Agree.
  Context {pred pipe bnf : Type}.
  Notation obj := (obj pred pipe bnf).
  Notation heap := (heap pred pipe bnf).
  Notation M := (M pred pipe bnf).
  Notation state := (state pred pipe bnf).
  Notation visitor := (visitor pred pipe bnf).
  Variables pipe_bnf pipe_bnf' : pipe -> res bnf.
  Variable bnf_lines : bnf -> list (str * list pred).
  Variable activate_pred : pred -> res pred.
  Variable activate_pipe : pipe -> res pipe.
  Variable fine : pipe -> Prop.
  Variable fine_bnf : bnf -> Prop.
  Notation any := (fun _ : pred => True).
  Hypothesis fine_made : forall x b, fine x -> pipe_bnf x = Ok b -> fine_bnf b.
  Hypothesis fine_active : forall x y, fine x -> activate_pipe x = Ok y -> fine y.
  Hypothesis fine_same : forall x, fine x -> pipe_bnf x = pipe_bnf' x.
  Variable D : nat -> Prop.
  Variable n0 : nat.
  Hypothesis later : forall p, n0 <= p -> D p.
  Lemma fine_made' : forall x b, fine x -> pipe_bnf x = Ok b -> fine_bnf b /\ forall key ps, In (key, ps) (bnf_lines b) -> fine_line false any ps.
  Proof. intros x b F E. split; [eauto|]. intros key ps _. split; [discriminate|auto]. Qed.
  Lemma any_active : forall p q : pred, True -> activate_pred p = Ok q -> True.
  Proof. auto. Qed.
  Notation inv := (inv false false fine fine_bnf any D n0).
  Notation good := (good false false fine fine_bnf any D).
  Notation good_heap := (good_heap false false fine fine_bnf any D n0).
  Notation keeps := (keeps false false fine fine_bnf any D n0).
  Notation visits := (visits false false fine fine_bnf any D n0).

  Definition agree {A} (m m' : M A) : Prop := forall s, inv s -> m s = m' s.
  Lemma agree_refl {A} (m : M A) : agree m m.
  Proof. intros s _. reflexivity. Qed.
  Lemma agree_bind {A B} (m m' : M A) (f f' : A -> M B) (P : A -> Prop) : agree m m' -> keeps m P -> (forall a, P a -> agree (f a) (f' a)) -> agree (bindM m f) (bindM m' f').
  Proof.
    intros Am K Af s Is. unfold bindM. rewrite <- (Am s Is). destruct (m s) as [[[a s1]|e]|] eqn:E; try reflexivity. destruct (K s a s1 Is E) as [I1 Pa]. apply (Af a Pa s1 I1).
  Qed.
  Lemma agree_mapMM {A B} (f f' : A -> M B) l (Q : B -> Prop) : (forall x, In x l -> agree (f x) (f' x) /\ keeps (f x) Q) -> agree (mapMM f l) (mapMM f' l).
  Proof.
    induction l as [|x l IH]; intros K; cbn [mapMM]; [apply agree_refl|]. destruct (K x (or_introl eq_refl)) as [Ax Kx].
    eapply agree_bind; [exact Ax|exact Kx|]. intros y Qy. eapply agree_bind with (P := fun ys => Forall Q ys /\ length ys = length l); [apply IH; intros z Hz; apply K; right; exact Hz| |intros ys _; apply agree_refl].
    apply keeps_mapMM. intros z Hz. apply K. right. exact Hz.
  Qed.
  Definition vagree (V V' : visitor) : Prop := forall p, D p -> agree (V p) (V' p).
  Definition method_agree (m m' : visitor -> nat -> obj -> M nat) : Prop := forall V V' p o, visits V -> vagree V V' -> D p -> good o -> agree (m V p o) (m' V' p o).
  Lemma agree_rest {A B} (m m' : M A) (f : A -> M B) (P : A -> Prop) : agree m m' -> keeps m P -> agree (bindM m f) (bindM m' f).
  Proof. intros Am K. eapply agree_bind; [exact Am|exact K|]. intros a _. apply agree_refl. Qed.
  Lemma base_agree : method_agree base_method base_method.
  Proof.
    intros V V' p o Vi Va Dp Go. assert (Gc := proj2 Go).
    destruct o; cbn [base_method]; try apply agree_refl;
      try (eapply agree_rest; [apply Va|apply Vi]; apply Gc; left; reflexivity);
      try (eapply agree_rest; [eapply agree_mapMM with (Q := D); intros x Hx; split; [apply Va|apply Vi]; apply Gc, Hx|apply keeps_mapMM with (Q := D); intros x Hx; apply Vi, Gc, Hx]).
    unfold visit_Production. assert (K : forall t, In t terms -> agree (visit_term V t) (visit_term V' t) /\ keeps (visit_term V t) (term_in any D)).
    { intros t Ht. assert (T := good_terms false false fine fine_bnf any D terms main t Go Ht). split; [|apply visit_term_keeps; assumption]. destruct t as [r|x]; cbn; [|apply agree_refl]. eapply agree_rest; [apply Va, T|apply Vi, T]. }
    eapply agree_rest; [eapply agree_mapMM; exact K|apply keeps_mapMM with (Q := term_in any D); intros t Ht; apply K, Ht].
  Qed.
  Lemma wrapper_agree parents V V' r : visits V -> vagree V V' -> D r -> agree (visit_WrapperRule parents V r) (visit_WrapperRule parents V' r).
  Proof.
    intros Vi Va Dr. unfold visit_WrapperRule. eapply agree_bind; [apply agree_refl|apply keeps_get; exact Dr|]. intros o _. destruct (is_forward o); [apply agree_refl|].
    eapply agree_bind with (P := fun _ => True); [apply agree_refl|unfold is_shared; destruct (count_occ Nat.eq_dec parents r); [apply keeps_raise|apply keeps_ret; exact Logic.I]|]. intros shared _.
    eapply agree_rest; [apply Va, Dr|apply Vi, Dr].
  Qed.
  Lemma bnf_agree parents : method_agree (bnf_method pipe_bnf bnf_lines parents) (bnf_method pipe_bnf' bnf_lines parents).
  Proof.
    intros V V' p o Vi Va Dp Go. assert (Gc := proj2 Go). assert (So := proj1 Go). destruct o; cbn [bnf_method]; try (apply base_agree; assumption); try apply agree_refl;
      try (eapply agree_rest; [eapply agree_mapMM with (Q := D); intros x Hx; split; [apply Va|apply Vi]; apply Gc, Hx|apply keeps_mapMM with (Q := D); intros x Hx; apply Vi, Gc, Hx]);
      try (eapply agree_rest; [apply wrapper_agree|eapply wrapper_keeps]; try eassumption; apply Gc; left; reflexivity).
    rewrite <- (fine_same pipeline So). apply agree_refl.
  Qed.
  Lemma visit_agree m m' : method_keeps false false fine fine_bnf any D n0 m -> method_agree m m' -> forall fuel, vagree (visit m fuel) (visit m' fuel).
  Proof.
    intros K Am fuel. induction fuel as [|fuel IH]; intros p Dp; cbn [visit]; [apply agree_refl|].
    eapply agree_bind; [apply agree_refl|apply keeps_recall|]. intros known _. destruct known as [r|]; [apply agree_refl|].
    eapply agree_bind; [apply agree_refl|apply keeps_get, Dp|]. intros o Go. assert (Vi := visit_keeps false false fine fine_bnf any D n0 m K fuel). eapply agree_rest; [apply Am|apply K]; assumption.
  Qed.
  Lemma walk_agree act act' : (forall p, D p -> agree (act p) (act' p)) -> (forall p, D p -> keeps (act p) (fun _ => True)) ->
    forall fuel queue visited, Forall D queue -> agree (walk_loop fuel act queue visited) (walk_loop fuel act' queue visited).
  Proof.
    intros Aa K fuel. induction fuel as [|fuel IH]; intros queue visited F; destruct queue as [|x queue]; cbn [walk_loop]; try apply agree_refl.
    inversion F; subst. eapply agree_bind; [apply Aa; assumption|apply K; assumption|]. intros _ _. eapply agree_bind; [apply agree_refl|apply keeps_get; assumption|]. intros o [_ Go].
    destruct (enqueue (children o) queue visited) as [queue' visited'] eqn:E. apply IH. apply (enqueue_in D _ _ _ _ _ E); [|assumption]. apply Forall_forall. exact Go.
  Qed.
  Lemma run_visit_agree m m' fuel h root : method_keeps false false fine fine_bnf any D n0 m -> method_agree m m' -> D root -> good_heap h -> run_visit m fuel h root = run_visit m' fuel h root.
  Proof.
    intros K Am Dr G. unfold run_visit. assert (Vk := visit_keeps false false fine fine_bnf any D n0 m K).
    assert (Kd : forall p, D p -> keeps (define_visited m fuel p) (fun _ => True)).
    { intros p Dp. unfold define_visited. eapply keeps_bind; [apply keeps_get, Dp|]. intros o [_ Go]. destruct o as [| | | | | | | | | | |[d|]| | | | | | |]; try (apply keeps_ret; exact Logic.I).
      eapply keeps_bind; [apply Vk, Go; left; reflexivity|]. intros d' Dd. apply keeps_define, Dd. }
    assert (agree (transform_walk m fuel root) (transform_walk m' fuel root)) as At.
    { unfold transform_walk. eapply agree_bind with (P := fun _ => True).
      - apply walk_agree; [|exact Kd|repeat constructor; exact Dr]. intros p Dp. unfold define_visited. eapply agree_bind; [apply agree_refl|apply keeps_get, Dp|]. intros o [_ Go].
        destruct o as [| | | | | | | | | | |[d|]| | | | | | |]; try apply agree_refl. eapply agree_rest; [apply visit_agree; try assumption|apply Vk]; apply Go; left; reflexivity.
      - apply walk_keeps; [exact Kd|repeat constructor; exact Dr].
      - intros _ _. apply visit_agree; assumption. }
    rewrite (At (mkState h [])); [reflexivity|]. split; [exact G|intros p q []].
  Qed.
  Theorem parser_rule_agree fuel h root : D root -> good_heap h ->
    parser_rule pipe_bnf bnf_lines activate_pred activate_pipe fuel h root = parser_rule pipe_bnf' bnf_lines activate_pred activate_pipe fuel h root.
  Proof.
    intros Dr G. unfold parser_rule, then_.
    destruct (run_inplace (activate_visit activate_pred activate_pipe) fuel h root) as [[[r1 h1]|]|] eqn:E1; try reflexivity.
    destruct (run_inplace_keeps false false fine fine_bnf any D n0 _ _ _ _ _ _ (activate_keeps _ _ false false fine fine_bnf any fine_active any_active D n0) Dr G E1) as [G1 D1].
    destruct (normalized fuel h1 r1) as [[[r2 h2]|]|] eqn:E2; try reflexivity. destruct (normalized_keeps false false fine fine_bnf any D n0 later _ _ _ _ _ D1 G1 E2) as [G2 D2].
    unfold as_bnf, to_bnf. destruct (bfs fuel h2 r2) as [objects|]; [|reflexivity].
    rewrite (run_visit_agree _ (bnf_method pipe_bnf' bnf_lines (count_parents h2 objects)) fuel h2 r2); [reflexivity| |apply bnf_agree|exact D2|exact G2].
    apply bnf_keeps; [exact fine_made'|exact later].
  Qed.
End Agree.

(** Charts depend on the answers of [predict] only. *)
Section Predict.
  Context {pred : Type}.
  Variable accepts : pred -> token -> bool.
  Variable constrain : pred -> token -> token.
  Variable rel : nat -> form -> form -> bool.
  Definition with_predict (g : grammar token pred) (p : nat -> token -> list nat) : grammar token pred :=
    mkGrammar (g_prods g) p (g_terms g) (g_main g) (g_key g) (g_relation g) (g_interp g) (g_start g).
  Variable g : grammar token pred.
  Variable p : nat -> token -> list nat.
  Hypothesis same : forall r t, g_predict g r t = p r t.
  Notation g' := (with_predict g p).

  Lemma predict_same toks k r st : predict g toks k r st = predict g' toks k r st.
  Proof. unfold predict, predicted. destruct (nth_error toks k); [rewrite same|]; reflexivity. Qed.
  Lemma complete_same fuel : forall k s j st, complete_loop g fuel k s j st = complete_loop g' fuel k s j st.
  Proof. induction fuel as [|fuel IH]; intros k s j st; cbn [complete_loop]; [reflexivity|]. change (expecting g' (s_start s) (s_rule s) st) with (expecting g (s_start s) (s_rule s) st). destruct nth_error; [apply IH|reflexivity]. Qed.
  Lemma process_same toks fuel k s st : process accepts constrain g toks fuel k s st = process accepts constrain g' toks fuel k s st.
  Proof. unfold process. change (next_term g' s) with (next_term g s). destruct (next_term g s) as [[r|x]|]; [rewrite predict_same; reflexivity|reflexivity|apply complete_same]. Qed.
  Lemma drain_same toks fuel : forall k i st, drain accepts constrain g toks fuel k i st = drain accepts constrain g' toks fuel k i st.
  Proof. induction fuel as [|fuel IH]; intros k i st; cbn [drain]; [reflexivity|]. destruct nth_error as [s|]; [|reflexivity]. rewrite process_same. destruct process; [apply IH|reflexivity]. Qed.
  Lemma chart_same toks fuel all : forall n k st, chart_from accepts constrain g toks fuel all k n st = chart_from accepts constrain g' toks fuel all k n st.
  Proof.
    induction n as [|n IH]; intros k st; cbn [chart_from]; [reflexivity|]. replace (start_column g' toks all k st) with (start_column g toks all k st) by (unfold start_column; destruct (_ || _); [apply predict_same|reflexivity]).
    rewrite drain_same. destruct drain; [apply IH|reflexivity].
  Qed.
  Lemma parse_same fuel toks all : parse accepts constrain g fuel toks all = parse accepts constrain g' fuel toks all.
  Proof. unfold parse, chart. rewrite chart_same. destruct chart_from; reflexivity. Qed.
  Lemma prepare_same t s : prepare_match rel g t s = prepare_match rel g' t s.
  Proof. reflexivity. Qed.
  Lemma extract_same fuel toks all : extract accepts constrain rel g fuel toks all = extract accepts constrain rel g' fuel toks all.
  Proof. unfold extract. rewrite parse_same. reflexivity. Qed.
  Lemma findall_same fuel toks : findall accepts constrain rel g fuel toks = findall accepts constrain rel g' fuel toks.
  Proof. unfold findall. rewrite parse_same. reflexivity. Qed.
  Lemma find_same fuel toks : find accepts constrain rel g fuel toks = find accepts constrain rel g' fuel toks.
  Proof. unfold find. rewrite findall_same. reflexivity. Qed.
  Lemma match_same fuel toks : match_ accepts constrain rel g fuel toks = match_ accepts constrain rel g' fuel toks.
  Proof. unfold match_. rewrite parse_same. reflexivity. Qed.
End Predict.
