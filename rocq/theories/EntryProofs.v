(** The entries of the chart are those of [EntrySpec.v]. *)
From Verif Require Import Base EarleyModel EarleySpec EarleyInv EarleyProofs AbsentSpec EarleyRounds EarleyAbsent EntrySpec.
Open Scope nat_scope.

Section Entries.
  Context {token pred : Type}.
  Variable accepts : pred -> token -> bool.
  Variable constrain : pred -> token -> token.
  Variable g : grammar token pred.
  Variable toks : list token.
  Variable all : bool.
  Notation state := (state token pred).
  Notation cst := (cst token pred).
  Notation predicted := (predicted g toks).
  Notation next_term := (next_term g).
  Notation completed := (completed g).
  Notation expects := (expects g).
  Notation Inv := (Inv accepts constrain g toks).
  Notation looked_for := (looked_for accepts g toks all).
  Notation possible := (possible g toks).
  Notation entry := (entry accepts g toks all).

  Lemma possible_predicted r q i : possible r q i <-> In q (predicted i r).
  Proof. unfold EntrySpec.possible, EarleyModel.predicted. destruct (nth_error toks i); reflexivity. Qed.

  (** ** Every state is an entry *)
  Hypothesis PS : predict_sound g.
  Definition lit (st : cst) : Prop := forall k s, In s (cols st k) -> looked_for (s_rule s) (s_start s).
  Lemma lit_append k s st : lit st -> looked_for (s_rule s) (s_start s) -> lit (append k s st).
  Proof. intros H Hs k' y Hy. apply append_in in Hy as [Hy|[_ ->]]; [exact (H _ _ Hy)|exact Hs]. Qed.
  Lemma state_derives K I st k s : Inv K I st -> In s (cols st k) ->
    possible (s_rule s) (s_prod s) (s_start s) /\ s_dot s <= length (g_terms g (s_prod s)) /\ s_stop s = k /\
    derives_seq accepts g toks (firstn (s_dot s) (g_terms g (s_prod s))) (s_start s) k (map erase (s_children s)).
  Proof.
    intros V Hs. destruct (inv_ok _ _ _ _ _ _ _ V k s Hs) as (A & B & C & D & _ & F). split; [apply possible_predicted; eapply nth_error_In; eauto|]. split; [exact C|]. split; [exact A|].
    exact (proj2 (node_ok_derives accepts constrain g toks PS) _ _ _ _ F).
  Qed.
  Lemma op_lit K I a b : K <= length toks -> Inv K I a -> op g toks all K a b -> lit a -> lit b.
  Proof.
    intros HK V O H. destruct O as [r rank q MP N _|s parent Hs C Hp X].
    - apply lit_append; [exact H|]. cbn. destruct MP as [[-> A]|(s & Hs & X)]; [apply looked_start; assumption|].
      destruct (state_derives _ _ _ _ _ V Hs) as (P & _ & _ & D). apply expects_term in X. unfold EarleyModel.next_term in X.
      apply nth_error_split in X as (pre & post & Et & El). rewrite <- El, Et, firstn_app, Nat.sub_diag, firstn_all, app_nil_r in D.
      exact (looked_inside accepts g toks all _ _ _ _ _ _ _ _ (H _ _ Hs) P Et D).
    - apply lit_append; [exact H|]. cbn. exact (H _ _ Hp).
  Qed.
  Lemma ops_lit K I a b : K <= length toks -> Inv K I a -> ops g toks all K a b -> lit a -> lit b.
  Proof.
    intros HK V O. revert V. induction O as [|a b c O1 O2 IH]; intros V H; [exact H|]. apply IH; [|exact (op_lit _ _ _ _ HK V O1 H)].
    exact (ops_inv accepts constrain g toks all K I a b (ops_one g toks all K a b O1) V).
  Qed.
  Lemma drain_lit K : K <= length toks -> forall fuel I st st', Inv K I st -> lit st -> drain accepts constrain g toks fuel K I st = Some st' -> Inv (S K) 0 st' /\ lit st'.
  Proof.
    intros HK. induction fuel as [|fuel IH]; intros I st st' V H D; cbn [drain] in D; destruct (nth_error (cols st K) I) as [s|] eqn:E; try discriminate.
    - injection D as <-. split; [eapply Inv_next; eauto|exact H].
    - destruct (process accepts constrain g toks (S fuel) K s st) as [st1|] eqn:P; [|discriminate].
      destruct (process_inv _ _ _ _ all _ _ _ _ _ _ V E P) as [V1 X1]. apply (IH _ _ _ V1); [|exact D].
      destruct (process_ops accepts constrain g toks all _ _ _ _ _ _ E P) as [O|O]; [exact (ops_lit _ _ _ _ HK V O H)|].
      destruct O as [s' p t Hs _ _ _]. apply lit_append; [exact H|]. cbn. apply nth_error_In in Hs. exact (H _ _ Hs).
    - injection D as <-. split; [eapply Inv_next; eauto|exact H].
  Qed.
  Lemma chart_from_lit fuel : forall n k st st', k + n = S (length toks) -> Inv k 0 st -> lit st -> chart_from accepts constrain g toks fuel all k n st = Some st' -> lit st'.
  Proof.
    induction n as [|n IH]; intros k st st' Hk V H D; cbn [chart_from] in D; [injection D as <-; exact H|].
    destruct (drain _ _ _ _ _ _ _ _) as [st1|] eqn:E; [|discriminate].
    assert (O := start_column_ops g toks all k st). assert (HK : k <= length toks) by lia.
    assert (V0 := ops_inv accepts constrain g toks all k 0 _ _ O V). assert (H0 := ops_lit k 0 _ _ HK V O H).
    destruct (drain_lit k HK _ _ _ _ V0 H0 E) as [V1 H1]. refine (IH (S k) st1 st' _ V1 H1 D). lia.
  Qed.
  Variable fuel : nat.
  Variable st : cst.
  Hypothesis CH : chart accepts constrain g toks fuel all = Some st.
  Theorem states_are_entries k s : In s (cols st k) -> s_stop s = k /\ entry (s_rule s) (s_prod s) (s_dot s) (s_start s) k (map erase (s_children s)).
  Proof.
    intros Hs. destruct (chart_spec accepts constrain g toks all fuel st CH) as (V & _ & _). destruct (state_derives _ _ _ _ _ V Hs) as (P & L & E & D).
    split; [exact E|]. split; [|split; [exact P|split; [exact L|exact D]]].
    refine (chart_from_lit fuel (S (length toks)) 0 (init_cst) st eq_refl (Inv_init accepts constrain g toks) _ CH k s Hs). intros k' y [].
  Qed.
  (** No entry twice. *)
  Theorem states_once k : NoDup (map recorded (cols st k)).
  Proof. destruct (chart_spec accepts constrain g toks all fuel st CH) as (V & _ & _). exact (inv_nodup _ _ _ _ _ _ _ V k). Qed.

  (** ** Every entry is a state, when empty parts come in time *)
  Hypothesis PC : predict_complete accepts g.
  Hypothesis T : timely g.
  Lemma looked_le r i : looked_for r i -> i <= length toks.
  Proof. induction 1 as [|r q i j before r' after ds _ IH _ _ D]; [assumption|]. exact (proj2 (proj2 (proj2 (derives_span accepts g toks) _ _ _ _ D)) IH). Qed.
  Lemma read_found lo up (RO : rounds g lo up) r q i j before after ds : expected g toks all up st i r -> i <= length toks -> In q (predicted i r) ->
    g_terms g q = before ++ after -> derives_seq accepts g toks before i j ds ->
    exists m s, nth_error (cols st j) m = Some s /\ s_rule s = r /\ s_prod s = q /\ s_start s = i /\ s_dot s = length before /\ map erase (s_children s) = ds /\
      by_round g toks all st j m (up q (length before)).
  Proof.
    intros EX Hi Q Et D. destruct (EX q Q) as (m & s & Hs & Es & Bs). unfold serase in Es. injection Es as Er Ep Ed Ef Ec.
    destruct (proj2 (found accepts constrain g toks all PS PC lo up RO fuel st CH) _ _ _ _ D Hi r q i [] after m s (predicted_in g toks PS i r q Q) Et Hs Er Ep Ef Ed Bs) as (m' & s' & A1 & A2 & A3 & A4 & A5 & A6 & A7).
    exists m', s'. rewrite A6, Ec. auto 10.
  Qed.
  Lemma looked_expected lo up (RO : rounds g lo up) r i : looked_for r i -> expected g toks all up st i r.
  Proof.
    induction 1 as [i Hi A|r q i j before r' after ds H IH P Et D]; [exact (start_expected accepts constrain g toks all PS up fuel st CH i Hi A)|].
    assert (Hi := looked_le _ _ H). assert (Hj := proj2 (proj2 (proj2 (derives_span accepts g toks) _ _ _ _ D)) Hi).
    destruct (read_found lo up RO r q i j before (TRule r' :: after) ds IH Hi (proj1 (possible_predicted _ _ _) P) Et D) as (m & s & Hs & A2 & A3 & A4 & A5 & A6 & A7).
    apply (waiting_expected accepts constrain g toks all PS lo up RO fuel st CH j m s r' Hj Hs).
    - unfold EarleyModel.next_term. rewrite A3, A5, Et, nth_error_app2, Nat.sub_diag by lia. reflexivity.
    - rewrite A3, A5. exact A7.
  Qed.
  Theorem entries_are_states r q d i j ds : entry r q d i j ds -> In (r, q, d, i, ds) (map recorded (cols st j)).
  Proof.
    intros (H & P & L & D). destruct T as (lo & up & RO).
    destruct (read_found lo up RO r q i j _ (skipn d (g_terms g q)) ds (looked_expected lo up RO r i H) (looked_le _ _ H) (proj1 (possible_predicted _ _ _) P) (eq_sym (firstn_skipn d _)) D) as (m & s & Hs & A2 & A3 & A4 & A5 & A6 & _).
    apply in_map_iff. exists s. split; [|eapply nth_error_In; eauto]. unfold recorded. rewrite firstn_length_le in A5 by exact L. congruence.
  Qed.
  Theorem states_exactly r q d i j ds : In (r, q, d, i, ds) (map recorded (cols st j)) <-> entry r q d i j ds.
  Proof.
    split; [|apply entries_are_states]. intros H. apply in_map_iff in H as (s & E & Hs). destruct (states_are_entries j s Hs) as [_ X]. unfold recorded in E. injection E as <- <- <- <- <-. exact X.
  Qed.
End Entries.
