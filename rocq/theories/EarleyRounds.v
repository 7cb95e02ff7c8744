(** The rounds of a column, and completeness of the chart for timely grammars. *)
From Verif Require Import Base EarleyModel EarleySpec EarleyInv EarleyProofs AbsentSpec.
Open Scope nat_scope.

Section Rounds.
  Context {token pred : Type}.
  Variable accepts : pred -> token -> bool.
  Variable constrain : pred -> token -> token.
  Variable g : grammar token pred.
  Variable toks : list token.
  Variable all : bool.

  Notation state := (state token pred).
  Notation cst := (cst token pred).
  Notation predicted := (predicted g toks).
  Notation next_term := (next_term g).
  Notation completed := (completed g).
  Notation expects := (expects g).
  Notation Inv := (Inv accepts constrain g toks).
  Notation derives := (derives accepts g toks).
  Notation derives_seq := (derives_seq accepts g toks).

  (** ** What a column holds before it is processed, and who added the rest *)
  Definition scanned (x : state) : Prop := exists n p, s_dot x = S n /\ nth_error (g_terms g (s_prod x)) n = Some (TPred p).
  Definition at_start (x : state) : Prop := s_dot x = 0 /\ In (s_prod x) (g_prods g (g_start g)).
  Definition caused (s x : state) : Prop :=
    (exists r, next_term s = Some (TRule r) /\ s_rule x = r /\ s_dot x = 0) \/
    (completed s = true /\ exists n, s_dot x = S n /\ nth_error (g_terms g (s_prod x)) n = Some (TRule (s_rule s))).

  Lemma predict_new K r (P : state -> Prop) prods : forall rank st, (forall q id rank', In q prods -> P (mkState r q 0 K K id rank' [])) ->
    forall x k, In x (cols (predict_loop K r rank prods st) k) -> In x (cols st k) \/ (k = K /\ P x).
  Proof.
    induction prods as [|q prods IH]; intros rank st HP x k Hx; cbn in Hx; [left; exact Hx|].
    destruct (IH _ _ (fun q' id rk Hq => HP q' id rk (or_intror Hq)) x k Hx) as [Hy|Hy]; [|right; exact Hy].
    apply append_in in Hy as [Hy|[-> ->]]; [left; exact Hy|right; split; [reflexivity|apply HP; left; reflexivity]].
  Qed.
  Lemma complete_new K s : completed s = true -> forall fuel j st st', complete_loop g fuel K s j st = Some st' ->
    forall x k, In x (cols st' k) -> In x (cols st k) \/ (k = K /\ caused s x).
  Proof.
    intros C. induction fuel as [|fuel IH]; intros j st st' H x k Hx; cbn [complete_loop] in H; destruct (nth_error (expecting g (s_start s) (s_rule s) st) j) as [p|] eqn:E; try discriminate; try (injection H as <-; left; exact Hx).
    destruct (IH _ _ _ H x k Hx) as [Hy|Hy]; [|right; exact Hy]. apply append_in in Hy as [Hy|[-> ->]]; [left; exact Hy|right; split; [reflexivity|]].
    right. split; [exact C|]. exists (s_dot p). split; [reflexivity|]. apply expecting_in in E as [_ X]. apply expects_term in X. exact X.
  Qed.
  Lemma process_new fuel K s st st' : process accepts constrain g toks fuel K s st = Some st' ->
    forall x k, In x (cols st' k) -> In x (cols st k) \/ (k = K /\ caused s x) \/ (k = S K /\ scanned x).
  Proof.
    unfold process. intros H x k Hx. destruct (next_term s) as [[r|p]|] eqn:E.
    - injection H as <-. destruct (predict_new K r (caused s) (predicted K r) 0 st) with (x := x) (k := k) as [Y|Y]; auto.
      intros q id rank' _. left. exists r. auto.
    - destruct (nth_error toks K) as [t|]; injection H as <-; [|auto]. unfold scan in Hx. destruct (accepts p t); [|auto].
      apply append_in in Hx as [Hx|[-> ->]]; [left; exact Hx|right; right; split; [reflexivity|]]. exists (s_dot s), p. split; [reflexivity|exact E].
    - destruct (complete_new K s) with (fuel := fuel) (j := 0) (st := st) (st' := st') (x := x) (k := k) as [Y|Y]; auto.
      unfold EarleyModel.completed. rewrite E. reflexivity.
  Qed.

  (** ** Rounds of column [K]: [L i] is the number of its states when state [i] is taken up *)
  Definition among (m : nat) (st : cst) (k : nat) (e : nat * nat * nat * nat * list (dtree pred)) : Prop :=
    exists i x, i < m /\ nth_error (cols st k) i = Some x /\ serase x = e.
  Definition effects (st : cst) (K m : nat) (s : state) : Prop :=
    match next_term s with
    | Some (TRule r) => forall q, In q (predicted K r) -> among m st K (r, q, 0, K, [])
    | Some (TPred _) => True
    | None => forall i p, nth_error (cols st (s_start s)) i = Some p -> s_start s < K \/ s_start s = K /\ i < m -> expects (s_rule s) p = true ->
        among m st K (serase (advance K p s 0))
    end.
  Record schedule (st : cst) (K : nat) (first : nat) (L : nat -> nat) : Prop := {
    sch_grows : forall i, first <= i -> L i <= L (S i);
    sch_ahead : forall i, first <= i -> i <= length (cols st K) -> i <= L i;
    sch_most : forall i, first <= i -> L i <= length (cols st K);
    sch_effects : forall i s, first <= i -> nth_error (cols st K) i = Some s -> effects st K (L (S i)) s;
    sch_cause : forall m x, L first <= m -> nth_error (cols st K) m = Some x ->
      exists i s, first <= i /\ L i <= m < L (S i) /\ nth_error (cols st K) i = Some s /\ caused s x }.

  Lemma among_ext K m st st' k e : ext K st st' -> among m st k e -> among m st' k e.
  Proof. intros X (i & x & Hi & Hx & E). exists i, x. split; [exact Hi|]. split; [eapply ext_nth; eauto|exact E]. Qed.
  Lemma has_among st k e : has st k e -> among (length (cols st k)) st k e.
  Proof. intros H. apply has_iff in H as (x & Hx & E). apply In_nth_error in Hx as (i & Hi). exists i, x. split; [apply nth_error_Some; congruence|auto]. Qed.

  Lemma process_effects fuel K I s st st' st2 : Inv K I st -> nth_error (cols st K) I = Some s -> process accepts constrain g toks fuel K s st = Some st' ->
    ext K st' st2 -> effects st2 K (length (cols st' K)) s.
  Proof.
    intros V Hn H X. pose proof (nth_error_In _ _ Hn) as Hs. unfold process in H. unfold effects. destruct (next_term s) as [[r|p]|] eqn:E; [|exact Logic.I|].
    - injection H as <-. intros q Hq. apply (among_ext K _ _ _ _ _ X), has_among. apply (predict_ops g toks all); [|exact Hq]. right. exists s. split; [exact Hs|]. unfold EarleyModel.expects. rewrite E. apply Nat.eqb_refl.
    - intros i p Hp D Hx. apply (among_ext K _ _ _ _ _ X), has_among.
      assert (C : completed s = true) by (unfold EarleyModel.completed; rewrite E; reflexivity).
      assert (Hp' : In p (cols st' (s_start s))).
      { destruct D as [Lt|[Eq Lt]].
        - destruct X as [_ X]. rewrite (X _ Lt) in Hp. eapply nth_error_In; eauto.
        - rewrite Eq in *. destruct X as [X _]. destruct (X K) as [l El]. rewrite El, nth_error_app1 in Hp by exact Lt. eapply nth_error_In; eauto. }
      assert (Hj : In p (expecting g (s_start s) (s_rule s) st')) by (unfold expecting; apply filter_In; auto).
      apply In_nth_error in Hj as [j Hj]. eapply complete_loop_closed; [exact all|exact C|exact V|exact Hs|exact H| |exact Hj]. lia.
  Qed.

  Lemma drain_schedule K : forall fuel I st st', Inv K I st -> I <= length (cols st K) -> drain accepts constrain g toks fuel K I st = Some st' ->
    ext K st st' /\ exists L, L I = length (cols st K) /\ schedule st' K I L.
  Proof.
    assert (END : forall I st, I <= length (cols st K) -> nth_error (cols st K) I = None -> ext K st st /\ exists L, L I = length (cols st K) /\ schedule st K I L).
    { intros I st Le E. split; [apply ext_refl|]. apply nth_error_None in E. exists (fun _ => length (cols st K)). split; [reflexivity|]. split; try (intros; lia).
      - intros i s Hi Hs. assert (i < length (cols st K)) by (apply nth_error_Some; congruence). lia.
      - intros m x Hm Hx. assert (m < length (cols st K)) by (apply nth_error_Some; congruence). lia. }
    induction fuel as [|fuel IH]; intros I st st' V Le H; cbn [drain] in H; destruct (nth_error (cols st K) I) as [s|] eqn:E; try discriminate; try (injection H as <-; apply END; assumption).
    destruct (process accepts constrain g toks (S fuel) K s st) as [st1|] eqn:P; [|discriminate].
    destruct (process_inv _ _ _ _ all _ _ _ _ _ _ V E P) as [V1 X1]. assert (Lt : I < length (cols st K)) by (apply nth_error_Some; congruence).
    assert (Le1 : length (cols st K) <= length (cols st1 K)) by (destruct X1 as [X _]; destruct (X K) as [l ->]; rewrite app_length; lia).
    destruct (IH (S I) st1 st' V1 ltac:(lia) H) as (X2 & L & L0 & Sc). split; [eapply ext_trans; eauto|].
    assert (Le2 : length (cols st1 K) <= length (cols st' K)) by (destruct X2 as [X _]; destruct (X K) as [l ->]; rewrite app_length; lia).
    exists (fun i => if i =? I then length (cols st K) else L i). rewrite Nat.eqb_refl. split; [reflexivity|].
    assert (N : forall i, S I <= i -> (i =? I) = false) by (intros i Hi; apply Nat.eqb_neq; lia).
    split; cbv beta.
    - intros i Hi. rewrite (N (S i)) by lia. destruct (i =? I) eqn:Ei; [apply Nat.eqb_eq in Ei; subst i; rewrite L0; exact Le1|apply Nat.eqb_neq in Ei; apply (sch_grows _ _ _ _ Sc); lia].
    - intros i Hi Hl. destruct (i =? I) eqn:Ei; [apply Nat.eqb_eq in Ei; lia|apply Nat.eqb_neq in Ei; apply (sch_ahead _ _ _ _ Sc); lia].
    - intros i Hi. destruct (i =? I) eqn:Ei; [lia|apply Nat.eqb_neq in Ei; apply (sch_most _ _ _ _ Sc); lia].
    - intros i y Hi Hy. rewrite (N (S i)) by lia. destruct (Nat.eq_dec i I) as [->|Ne]; [|apply (sch_effects _ _ _ _ Sc); [lia|exact Hy]].
      assert (y = s) as -> by (assert (Z := ext_nth _ _ _ _ _ _ (ext_trans _ _ _ _ X1 X2) E); congruence). rewrite L0. apply (process_effects (S fuel) K I s st st1 st' V E P X2).
    - intros m x Hm Hx. rewrite Nat.eqb_refl in Hm. destruct (Nat.lt_ge_cases m (L (S I))) as [Lm|Lm].
      + exists I, s. rewrite Nat.eqb_refl, (N (S I)) by lia. split; [lia|]. split; [lia|]. split; [apply (ext_nth _ _ _ _ _ _ (ext_trans _ _ _ _ X1 X2) E)|].
        assert (Hx1 : nth_error (cols st1 K) m = Some x) by (destruct X2 as [X _]; destruct (X K) as [l El]; rewrite El, nth_error_app1 in Hx by lia; exact Hx).
        assert (NI : ~ In x (cols st K)).
        { intros Hin. apply In_nth_error in Hin as (i & Hi). assert (Li : i < length (cols st K)) by (apply nth_error_Some; congruence).
          assert (i = m); [|lia]. eapply (serase_inj_nth accepts constrain g toks _ _ st1 K x x i m V1); [eapply ext_nth; eauto|exact Hx1|reflexivity]. }
        destruct (process_new (S fuel) K s st st1 P x K (nth_error_In _ _ Hx1)) as [Hin|[[_ Ca]|[Bad _]]]; [contradiction|exact Ca|lia].
      + destruct (sch_cause _ _ _ _ Sc m x Lm Hx) as (i & y & Hi & Hr & Hy & Ca). exists i, y. rewrite (N i), (N (S i)) by lia. split; [lia|]. auto.
  Qed.

  Lemma schedule_same st st' K first L : (forall k, k <= K -> cols st' k = cols st k) -> schedule st K first L -> schedule st' K first L.
  Proof.
    intros X [A B C D E]. assert (XK := X K (le_n K)).
    assert (AM : forall m e, among m st K e -> among m st' K e) by (intros m e (i & x & Hi & Hx & He); exists i, x; rewrite XK; auto).
    split; rewrite ?XK; auto. intros i s Hi Hs. specialize (D i s Hi Hs). unfold effects in *.
    destruct (next_term s) as [[r|p]|]; [intros q Hq; apply AM, D, Hq|exact Logic.I|].
    intros j p Hp Hc Hx. apply AM. rewrite (X (s_start s)) in Hp by lia. apply (D j p Hp Hc Hx).
  Qed.
  Lemma drain_new K : forall fuel I st st', drain accepts constrain g toks fuel K I st = Some st' ->
    forall x k, In x (cols st' k) -> In x (cols st k) \/ k = K \/ (k = S K /\ scanned x).
  Proof.
    induction fuel as [|fuel IH]; intros I st st' H x k Hx; cbn [drain] in H; destruct (nth_error (cols st K) I) as [s|] eqn:E; try discriminate; try (injection H as <-; left; exact Hx).
    destruct (process accepts constrain g toks (S fuel) K s st) as [st1|] eqn:P; [|discriminate].
    destruct (IH _ _ _ H x k Hx) as [Hy|Hy]; [|right; exact Hy]. destruct (process_new (S fuel) K s st st1 P x k Hy) as [Hz|[[-> _]|Hz]]; auto.
  Qed.

  Lemma drain_inv K : forall fuel I st st', Inv K I st -> drain accepts constrain g toks fuel K I st = Some st' -> Inv (S K) 0 st'.
  Proof.
    induction fuel as [|fuel IH]; intros I st st' V H; cbn [drain] in H; destruct (nth_error (cols st K) I) as [s|] eqn:E; try discriminate; try (injection H as <-; apply (Inv_next accepts constrain g toks K I st V)).
    destruct (process accepts constrain g toks (S fuel) K s st) as [st1|] eqn:P; [|discriminate].
    destruct (process_inv _ _ _ _ all _ _ _ _ _ _ V E P) as [V1 _]. apply (IH _ _ _ V1 H).
  Qed.

  (** The whole history of column [k]. *)
  Record history (st : cst) (k : nat) (L : nat -> nat) : Prop := {
    his_schedule : schedule st k 0 L;
    his_first : forall m x, m < L 0 -> nth_error (cols st k) m = Some x -> scanned x \/ at_start x;
    his_start : k = 0 \/ all = true -> forall q, In q (predicted k (g_start g)) -> among (L 0) st k (g_start g, q, 0, k, []) }.
  Hypothesis PS : predict_sound g.
  Lemma predicted_in k r q : In q (predicted k r) -> In q (g_prods g r).
  Proof. unfold EarleyModel.predicted. destruct (nth_error toks k); [apply PS|auto]. Qed.

  Lemma chart_from_history fuel : forall n k st st', Inv k 0 st -> (forall x, In x (cols st k) -> scanned x) -> (forall x, ~ In x (cols st (S k))) ->
    chart_from accepts constrain g toks fuel all k n st = Some st' ->
    ext k st st' /\ forall k', k <= k' < k + n -> exists L, history st' k' L.
  Proof.
    induction n as [|n IH]; intros k st st' V SC SCnext H; cbn [chart_from] in H; [injection H as <-; split; [apply ext_refl|intros; lia]|].
    destruct (drain accepts constrain g toks fuel k 0 (start_column g toks all k st)) as [st1|] eqn:D; [|discriminate].
    pose proof (start_column_ops g toks all k st) as O. set (st0 := start_column g toks all k st) in *.
    assert (V0 : Inv k 0 st0) by (eapply ops_inv; eauto). assert (X0 : ext k st st0) by (eapply ops_ext; eauto).
    destruct (drain_schedule k fuel 0 st0 st1 V0 (Nat.le_0_l _) D) as (X1 & L & L0 & Sc).
    assert (ND := drain_new k fuel 0 st0 st1 D).
    assert (NS : forall x k', In x (cols st0 k') -> In x (cols st k') \/ (k' = k /\ at_start x)).
    { intros x k' Hx. unfold st0, start_column in Hx. destruct ((k =? 0) || all); [|left; exact Hx].
      apply (predict_new k (g_start g) at_start (predicted k (g_start g)) 0 st); [|exact Hx]. intros q id rk Hq. split; [reflexivity|apply (predicted_in k), Hq]. }
    assert (V1 : Inv (S k) 0 st1) by (apply (drain_inv k fuel 0 st0 st1 V0 D)).
    destruct (IH (S k) st1 st' V1) as (X2 & R2); [| |exact H|].
    { intros x Hx. destruct (ND x (S k) Hx) as [Hy|[Bad|[_ Sx]]]; [|lia|exact Sx]. destruct (NS x (S k) Hy) as [Hz|[Bad _]]; [|lia].
      exfalso. apply (SCnext x Hz). }
    { intros x Hx. assert (Z := inv_future _ _ _ _ _ _ _ V0 (S (S k)) ltac:(lia)). destruct (ND x (S (S k)) Hx) as [Hy|[Bad|[Bad _]]]; [rewrite Z in Hy; destruct Hy|lia..]. }
    split; [eapply ext_trans; [exact X0|]; eapply ext_trans; [exact X1|]; eapply ext_weaken; [|exact X2]; lia|].
    intros k' Hk. destruct (Nat.eq_dec k' k) as [->|Ne]; [|apply R2; lia]. exists L.
    assert (SAME : forall i, i <= k -> cols st' i = cols st1 i) by (intros i Hi; destruct X2 as [_ X2]; apply X2; lia).
    split.
    - apply (schedule_same st1 st' k 0 L SAME Sc).
    - intros m x Hm Hx. rewrite SAME in Hx by lia. rewrite L0 in Hm. destruct X1 as [X1 _]. destruct (X1 k) as [l El]. rewrite El, nth_error_app1 in Hx by exact Hm.
      destruct (NS x k (nth_error_In _ _ Hx)) as [Hy|[_ Hy]]; [left; apply SC, Hy|right; exact Hy].
    - intros Ha q Hq. assert (AM : among (L 0) st1 k (g_start g, q, 0, k, [])).
      { rewrite L0. apply (among_ext k _ _ _ _ _ X1), has_among. unfold st0, start_column. replace ((k =? 0) || all) with true; [apply (predict_ops g toks all); [left; auto|exact Hq]|].
        symmetry. apply orb_true_iff. destruct Ha as [->|]; auto. }
      destruct AM as (i & x & Hi & Hx & E). exists i, x. rewrite SAME by lia. auto.
  Qed.
  Lemma chart_history fuel st : chart accepts constrain g toks fuel all = Some st -> forall k, k <= length toks -> exists L, history st k L.
  Proof.
    intros H k Hk. apply (proj2 (chart_from_history fuel _ _ _ _ (Inv_init accepts constrain g toks) (fun x Hx => match Hx with end) (fun x Hx => match Hx with end) H)). lia.
  Qed.
End Rounds.
