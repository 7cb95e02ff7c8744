(** A loop of the chart that never ends. *)
From Verif Require Import Base EarleyModel EarleyTerm.
Open Scope nat_scope.

Section Runaway.
  Context {token pred : Type}.
  Variable accepts : pred -> token -> bool.
  Variable constrain : pred -> token -> token.
  Variable g : grammar token pred.
  Variable toks : list token.

  Notation state := (state token pred).
  Notation cst := (cst token pred).
  Notation drain := (drain accepts constrain g toks).
  Notation process := (process accepts constrain g toks).
  Notation completed := (completed g).

  Lemma nats_eqb_eq a : forall b, nats_eqb a b = true -> a = b.
  Proof.
    induction a as [|x a IH]; intros [|y b] H; try discriminate; auto. cbn in H.
    apply andb_true_iff in H as [H1 H2]. apply Nat.eqb_eq in H1. f_equal; auto.
  Qed.

  (** The states at the end of column [k] are completed states that the only
      waiting state turns into other completed states of the same kind. *)
  Definition pending (r j : nat) (s : state) : Prop := completed s = true /\ s_rule s = r /\ s_start s = j.
  Fixpoint increasing (l : list nat) : Prop :=
    match l with
    | [] => True
    | x :: l' => (forall y, In y l' -> x < y) /\ increasing l'
    end.
  Lemma increasing_snoc l x : increasing l -> (forall y, In y l -> y < x) -> increasing (l ++ [x]).
  Proof.
    induction l as [|y l IH]; intros A B; cbn; [split; [intros z []|exact Logic.I]|]. destruct A as [A1 A2]. split.
    - intros z Hz. apply in_app_or in Hz as [Hz|[<-|[]]]; [apply A1, Hz|apply B; left; reflexivity].
    - apply IH; [exact A2|]. intros z Hz. apply B. right. exact Hz.
  Qed.
  Lemma runaway k j r P : s_rule P = r -> s_start P = j -> length (g_terms g (s_prod P)) = S (s_dot P) ->
    forall fuel (st : cst) before s queue,
    cols st k = before ++ s :: queue -> (forall s', In s' (s :: queue) -> pending r j s') ->
    increasing (map s_id (s :: queue)) -> (forall s', In s' (s :: queue) -> s_id s' < fresh st) ->
    expecting g j r st = [P] ->
    (forall s', In s' (cols st k) \/ In s' (cols st j) -> forall c, In c (s_children s') -> node_id c < s_id s) ->
    drain fuel k (length before) st = None.
  Proof.
    intros PR PS PD. induction fuel as [|fuel IH]; intros st before s queue HN HP HO HI HE HF; cbn [EarleyModel.drain].
    - rewrite HN, nth_error_app2, Nat.sub_diag by lia. reflexivity.
    - rewrite HN, nth_error_app2, Nat.sub_diag by lia. cbn [nth_error]. unfold EarleyModel.process.
      destruct (HP s (or_introl eq_refl)) as (HC & HR & HS).
      assert (NT : next_term g s = None).
      { unfold EarleyModel.completed in HC. destruct (next_term g s); auto. discriminate. }
      rewrite NT. cbn [complete_loop]. rewrite HS, HR, HE. cbn [nth_error].
      set (s' := advance k P s (fresh st)).
      assert (NEW : existsb (same_key s') (cols (alloc st) k) = false).
      { apply not_true_iff_false. intros X. apply existsb_exists in X as (u & HU & X).
        unfold same_key in X. rewrite !andb_true_iff in X. destruct X as [_ X]. apply nats_eqb_eq in X.
        unfold s', advance in X. cbn [s_children] in X. rewrite map_app in X. cbn [map node_id state_node] in X.
        assert (In (s_id s) (map node_id (s_children u))) as Y by (rewrite <- X; apply in_or_app; right; left; auto).
        apply in_map_iff in Y as (c & E & Hc). specialize (HF u (or_introl HU) c Hc). lia. }
      assert (ST : append k s' (alloc st) = mkCst (fun i => if Nat.eqb i k then cols st k ++ [s'] else cols st i) (S (fresh st))).
      { unfold append. rewrite NEW. reflexivity. }
      rewrite ST. set (st' := mkCst _ _).
      assert (CE : cols st' k = cols st k ++ [s']) by (cbn; rewrite Nat.eqb_refl; auto).
      assert (CC : completed s' = true).
      { unfold EarleyModel.completed, next_term, s', advance. cbn [s_prod s_dot].
        destruct (nth_error (g_terms g (s_prod P)) (S (s_dot P))) eqn:E; auto.
        assert (S (s_dot P) < length (g_terms g (s_prod P))) by (apply nth_error_Some; congruence). lia. }
      assert (EX : expecting g j r st' = [P]).
      { unfold expecting in *. cbn [st' cols]. destruct (Nat.eqb_spec j k) as [->|]; [|exact HE]. rewrite filter_app, HE. cbn [filter].
        replace (expects g r s') with false; auto. symmetry. unfold expects. unfold EarleyModel.completed in CC.
        destruct (next_term g s'); auto; discriminate. }
      assert (LOOP : complete_loop g fuel k s 1 st' = Some st').
      { destruct fuel; cbn [complete_loop]; rewrite HS, HR, EX; reflexivity. }
      rewrite LOOP. cbn [map increasing] in HO. destruct HO as [HO1 HO2].
      assert (exists s2 queue2, queue ++ [s'] = s2 :: queue2 /\ s_id s < s_id s2) as (s2 & queue2 & Q & L).
      { destruct queue as [|s2 queue]; [exists s', []|exists s2, (queue ++ [s'])]; (split; [reflexivity|]).
        - cbn. apply HI. left. reflexivity.
        - apply HO1. left. reflexivity. }
      replace (S (length before)) with (length (before ++ [s])) by (rewrite app_length; cbn; lia). apply (IH st' (before ++ [s]) s2 queue2).
      + rewrite CE, HN, <- !app_assoc. cbn. rewrite <- Q. reflexivity.
      + rewrite <- Q. intros x Hx. apply in_app_or in Hx as [Hx|[<-|[]]]; [apply HP; right; exact Hx|]. split; [exact CC|]. split; [exact PR|exact PS].
      + rewrite <- Q, map_app. apply increasing_snoc; [exact HO2|]. intros y Hy. apply in_map_iff in Hy as (x & <- & Hx). cbn. apply HI. right. exact Hx.
      + rewrite <- Q. intros x Hx. cbn. apply in_app_or in Hx as [Hx|[<-|[]]]; [|cbn; lia]. specialize (HI x (or_intror Hx)). lia.
      + exact EX.
      + intros u HU c Hc. assert (HU' : (In u (cols st k) \/ In u (cols st j)) \/ u = s').
        { rewrite CE in HU. cbn [st' cols] in HU. destruct (Nat.eqb_spec j k) as [->|]; rewrite ?in_app_iff in HU; cbn [In] in HU; intuition auto. }
        destruct HU' as [HU'| ->].
        * specialize (HF u HU' c Hc). lia.
        * unfold s', advance in Hc. cbn [s_children] in Hc. apply in_app_or in Hc as [Hc|[<-|[]]].
          -- assert (In P (cols st j)).
             { assert (In P (expecting g j r st)) by (rewrite HE; left; auto). apply filter_In in H. tauto. }
             specialize (HF P (or_intror H) c Hc). lia.
          -- cbn. lia.
  Qed.

  (** The first [n] iterations of the loop over a column. *)
  Fixpoint steps (c n k i : nat) (st : cst) : option (nat * cst) :=
    match n with
    | O => Some (i, st)
    | S n' =>
        match nth_error (cols st k) i with
        | None => None
        | Some s => match process c k s st with Some st' => steps c n' k (S i) st' | None => None end
        end
    end.
  Lemma steps_drain c k : forall n i st i' st', steps c n k i st = Some (i', st') ->
    forall fuel, c <= fuel -> drain (n + fuel) k i st = drain fuel k i' st'.
  Proof.
    induction n as [|n IH]; intros i st i' st' H fuel L; cbn [steps] in H.
    - injection H as <- <-. reflexivity.
    - cbn [Nat.add EarleyModel.drain]. destruct (nth_error (cols st k) i) as [s|]; [|discriminate].
      destruct (process c k s st) as [st1|] eqn:E; [|discriminate].
      rewrite (process_fuel accepts constrain g toks k s st st1 c (S (n + fuel)) E) by lia. auto.
  Qed.

  Lemma stuck_drain c n k i st i' st' : steps c n k i st = Some (i', st') ->
    (forall fuel, drain fuel k i' st' = None) -> forall fuel, drain fuel k i st = None.
  Proof.
    intros H N fuel. destruct (drain fuel k i st) as [x|] eqn:E; auto.
    rewrite <- E. rewrite <- (N (c + fuel)).
    rewrite <- (steps_drain c k n i st i' st' H (c + fuel)) by lia.
    rewrite (drain_fuel accepts constrain g toks k _ _ _ _ (n + (c + fuel)) E) by lia. auto.
  Qed.

  (** Checks that after [n] iterations the situation of [runaway] is reached. *)
  Fixpoint increasingb (l : list nat) : bool :=
    match l with
    | [] => true
    | x :: l' => forallb (Nat.ltb x) l' && increasingb l'
    end.
  Lemma increasingb_true l : increasingb l = true -> increasing l.
  Proof.
    induction l as [|x l IH]; cbn; [trivial|]. rewrite andb_true_iff, forallb_forall. intros [A B]. split; [|auto]. intros y Hy. apply Nat.ltb_lt, A, Hy.
  Qed.
  Definition runs_away_from (c n k j r : nat) (st : cst) : bool :=
    match steps c n k 0 st with
    | None => false
    | Some (i, st') =>
        match skipn i (cols st' k), expecting g j r st' with
        | s :: queue, [P] =>
            Nat.eqb (s_rule P) r && Nat.eqb (s_start P) j &&
            Nat.eqb (length (g_terms g (s_prod P))) (S (s_dot P)) &&
            forallb (fun s => completed s && (Nat.eqb (s_rule s) r && Nat.eqb (s_start s) j && Nat.ltb (s_id s) (fresh st'))) (s :: queue) &&
            increasingb (map s_id (s :: queue)) &&
            forallb (fun u => forallb (fun c => Nat.ltb (node_id c) (s_id s)) (s_children u)) (cols st' k ++ cols st' j)
        | _, _ => false
        end
    end.
  Lemma runs_away_from_stuck c n k j r st : runs_away_from c n k j r st = true -> forall fuel, drain fuel k 0 st = None.
  Proof.
    unfold runs_away_from. destruct (steps c n k 0 st) as [[i st']|] eqn:E; [|discriminate].
    destruct (skipn i (cols st' k)) as [|s queue] eqn:HN; [discriminate|].
    destruct (expecting g j r st') as [|P [|]] eqn:HE; try discriminate.
    rewrite !andb_true_iff, !Nat.eqb_eq, !forallb_forall.
    intros (((((A1 & A2) & A3) & A4) & A5) & A6).
    assert (Q : forall x, In x (s :: queue) -> pending r j x /\ s_id x < fresh st').
    { intros x Hx. specialize (A4 x Hx). rewrite !andb_true_iff, !Nat.eqb_eq, Nat.ltb_lt in A4. unfold pending. tauto. }
    assert (LI : length (firstn i (cols st' k)) = i).
    { apply firstn_length_le. destruct (Nat.le_gt_cases i (length (cols st' k))) as [H|H]; [exact H|]. rewrite skipn_all2 in HN by lia. discriminate. }
    eapply stuck_drain; [exact E|]. intros fuel. rewrite <- LI. apply (runaway k j r P A1 A2 A3 fuel st' _ s queue).
    - rewrite <- HN. symmetry. apply firstn_skipn.
    - intros x Hx. apply Q, Hx.
    - apply increasingb_true, A5.
    - intros x Hx. apply Q, Hx.
    - exact HE.
    - intros u HU d Hd. specialize (A6 u (proj2 (in_app_iff _ _ _) HU)). rewrite forallb_forall in A6. apply Nat.ltb_lt. auto.
  Qed.
  Definition runs_away (c n k r : nat) (st : cst) : bool := runs_away_from c n k k r st.
  Lemma runs_away_stuck c n k r st : runs_away c n k r st = true -> forall fuel, drain fuel k 0 st = None.
  Proof. apply runs_away_from_stuck. Qed.

  Lemma stuck_chart fuel all : (forall fuel, drain fuel 0 0 (start_column g toks all 0 (init_cst)) = None) ->
    chart accepts constrain g toks fuel all = None.
  Proof. intros H. unfold chart. cbn [chart_from]. rewrite H. reflexivity. Qed.
  (** The same for the second column. *)
  Lemma stuck_chart_second c st fuel all : toks <> [] -> drain c 0 0 (start_column g toks all 0 (init_cst)) = Some st ->
    (forall fuel, drain fuel 1 0 (start_column g toks all 1 st) = None) -> chart accepts constrain g toks fuel all = None.
  Proof.
    intros T D H. unfold chart. assert (exists n, length toks = S n) as (n & ->) by (destruct toks as [|t ts]; [destruct (T eq_refl)|exists (length ts); reflexivity]).
    cbn [chart_from].
    destruct (drain fuel 0 0 (start_column g toks all 0 init_cst)) as [st'|] eqn:D'; [|reflexivity].
    assert (st' = st) as ->.
    { pose proof (drain_fuel accepts constrain g toks 0 _ _ _ _ (c + fuel) D ltac:(lia)) as X. pose proof (drain_fuel accepts constrain g toks 0 _ _ _ _ (c + fuel) D' ltac:(lia)). congruence. }
    rewrite H. reflexivity.
  Qed.
End Runaway.
