(** Soundness, completeness and uniqueness of the chart. *)
From Verif Require Import Base EarleyModel EarleySpec EarleyInv.

Scheme derives_ind' := Induction for derives Sort Prop
  with derives_seq_ind' := Induction for derives_seq Sort Prop.
Combined Scheme derives_mutind from derives_ind', derives_seq_ind'.

Section Proofs.
  Context {token pred : Type}.
  Variable accepts : pred -> token -> bool.
  Variable constrain : pred -> token -> token.
  Variable g : grammar token pred.
  Variable toks : list token.
  Variable all : bool.

  Notation state := (state token pred).
  Notation cst := (cst token pred).
  Notation node := (node token pred).
  Notation predicted := (predicted g toks).
  Notation next_term := (next_term g).
  Notation completed := (completed g).
  Notation expects := (expects g).
  Notation Inv := (Inv accepts constrain g toks).
  Notation sok := (sok accepts constrain g toks).
  Notation node_ok := (node_ok accepts constrain g toks).
  Notation nodes_ok := (nodes_ok accepts constrain g toks).
  Notation derives := (derives accepts g toks).
  Notation derives_seq := (derives_seq accepts g toks).
  Notation op := (op g toks all).
  Notation ops := (ops g toks all).
  Notation scan_op := (scan_op accepts constrain g toks).

  (** ** Appending makes the state present *)
  Lemma append_has k (s : state) st log :
    (forall y, In y (cols st k) -> forall c, In c (s_children y) ->
       nth_error log (node_id c) = Some c) ->
    (forall c, In c (s_children s) -> nth_error log (node_id c) = Some c) ->
    has (append k s st) k (serase s).
  Proof.
    intros L1 L2. apply has_iff.
    destruct (append_cases k s st) as [[-> (y & Hy & E)]|(_ & _ & A & _)].
    - exists y. split; auto. apply same_key_iff in E.
      destruct E as (E1 & E2 & E3 & E4 & E5 & E6).
      assert (E : s_children s = s_children y).
      { specialize (L1 y Hy). revert E6 L1 L2.
        generalize (s_children s), (s_children y). clear.
        intros l; induction l as [|x l IH]; intros [|y l'] E L1 L2; simpl in *;
          try discriminate; auto.
        injection E as E1 E2.
        assert (x = y).
        { specialize (L1 y (or_introl eq_refl)). specialize (L2 x (or_introl eq_refl)).
          rewrite E1 in L2. congruence. }
        subst. f_equal. apply IH; auto. }
      unfold serase. congruence.
    - rewrite A. exists s. split; auto. apply in_or_app. right. left. auto.
  Qed.

  Lemma expecting_ext K k r a b j p : ext K a b ->
    nth_error (expecting g k r a) j = Some p -> nth_error (expecting g k r b) j = Some p.
  Proof.
    intros [A _] H. unfold expecting in *. destruct (A k) as [l ->].
    rewrite filter_app, nth_error_app1; auto. apply nth_error_Some. congruence.
  Qed.

  Lemma serase_advance k p (s : state) id :
    serase (advance k p s id) =
    (s_rule p, s_prod p, S (s_dot p), s_start p,
     map erase (s_children p) ++ [erase (state_node s)]).
  Proof. unfold serase, advance. simpl. rewrite map_app. reflexivity. Qed.

  Lemma complete_loop_closed K I s : completed s = true -> forall fuel j st st',
    Inv K I st -> In s (cols st K) ->
    complete_loop g fuel K s j st = Some st' ->
    forall j' p, j <= j' ->
      nth_error (expecting g (s_start s) (s_rule s) st') j' = Some p ->
      has st' K (serase (advance K p s 0)).
  Proof.
    intros C. induction fuel as [|fuel IH]; intros j st st' V Hs H j' p Hj Hp.
    - cbn [complete_loop] in H.
      destruct (nth_error (expecting g (s_start s) (s_rule s) st) j) eqn:E; [discriminate|].
      injection H as <-. apply nth_error_None in E.
      assert (j' < length (expecting g (s_start s) (s_rule s) st)).
      { apply nth_error_Some. congruence. } lia.
    - cbn [complete_loop] in H.
      destruct (nth_error (expecting g (s_start s) (s_rule s) st) j) as [parent|] eqn:E.
      + destruct (expecting_in _ _ _ _ _ _ E) as [E1 E2].
        set (st1 := append _ _ _) in H.
        assert (O : op K st st1) by (apply op_complete; auto).
        assert (V1 : Inv K I st1) by (eapply op_inv; eauto).
        assert (X1 : ext K st st1) by (eapply op_ext; eauto).
        assert (Hs1 : In s (cols st1 K)) by (eapply ext_in; eauto).
        destruct (Nat.eq_dec j' j) as [->|N].
        * assert (X2 : ext K st1 st').
          { eapply ops_ext with (toks := toks) (all := all). eapply complete_loop_ops; eauto. }
          eapply expecting_ext in E; [|eapply ext_trans; eauto].
          assert (p = parent) by congruence. subst p.
          eapply ext_has; [exact X2|]. unfold st1.
          destruct (inv_log _ _ _ _ _ _ _ V) as (log & _ & L).
          replace (serase (advance K parent s 0))
            with (serase (advance K parent s (fresh st))) by reflexivity.
          apply append_has with (log := log).
          -- intros y Hy. apply (L _ _ Hy).
          -- intros c Hc. unfold advance in Hc. simpl in Hc.
             apply in_app_or in Hc as [Hc|[<-|[]]].
             ++ apply (proj2 (L _ _ E1)). auto.
             ++ apply (proj1 (L _ _ Hs)).
        * eapply IH; [exact V1|exact Hs1|exact H| |exact Hp]. lia.
      + injection H as <-. apply nth_error_None in E.
        assert (j' < length (expecting g (s_start s) (s_rule s) st)).
        { apply nth_error_Some. congruence. } lia.
  Qed.

  (** ** A processed state has had its effect *)
  Definition reach (st : cst) (k r : nat) : Prop :=
    forall q, In q (predicted k r) -> has st k (r, q, 0, k, []).

  Definition closed (st : cst) (k : nat) (s : state) : Prop :=
    match next_term s with
    | Some (TRule r) => reach st k r
    | Some (TPred p) => forall t, nth_error toks k = Some t -> accepts p t = true ->
        has st (S k) (s_rule s, s_prod s, S (s_dot s), s_start s,
                      map erase (s_children s) ++ [DLeaf k p])
    | None => s_start s < k -> forall p, In p (cols st (s_start s)) ->
        expects (s_rule s) p = true -> has st k (serase (advance k p s 0))
    end.

  Lemma closed_ext K st st' k s :
    ext K st st' -> k <= K -> closed st k s -> closed st' k s.
  Proof.
    intros X Hk H. unfold closed, reach in *.
    destruct (next_term s) as [[r|p]|].
    - intros q Hq. eapply ext_has; eauto.
    - intros t Ht Ha. eapply ext_has; eauto.
    - intros Hs p Hp Hx. eapply ext_has; eauto. apply H; auto.
      destruct X as [_ X]. rewrite <- X; auto. lia.
  Qed.

  Definition closed_upto (K I : nat) (st : cst) : Prop :=
    (forall k s, k < K -> In s (cols st k) -> closed st k s) /\
    (forall i s, i < I -> nth_error (cols st K) i = Some s -> closed st K s).

  Lemma closed_upto_ext K I st st' :
    ext K st st' -> I <= length (cols st K) -> closed_upto K I st -> closed_upto K I st'.
  Proof.
    intros X HI [A B]. split.
    - intros k s Hk Hs. eapply closed_ext; eauto. lia.
      apply A; auto. destruct X as [_ X]. rewrite <- X; auto.
    - intros i s Hi Hs. eapply closed_ext; eauto. apply (B i); auto.
      destruct X as [X _]. destruct (X K) as [l E]. rewrite E, nth_error_app1 in Hs; auto. lia.
  Qed.

  Lemma process_closed fuel K I s st st' :
    Inv K I st -> nth_error (cols st K) I = Some s ->
    process accepts constrain g toks fuel K s st = Some st' -> closed st' K s.
  Proof.
    intros V Hn H. pose proof (nth_error_In _ _ Hn) as Hs.
    unfold process in H. unfold closed.
    destruct (next_term s) as [[r|p]|] eqn:E.
    - injection H as <-. unfold reach. apply (predict_ops g toks all). right. exists s.
      split; auto. unfold EarleyModel.expects. rewrite E. apply Nat.eqb_refl.
    - intros t Ht Ha. rewrite Ht in H. injection H as <-. unfold scan. rewrite Ha.
      set (leaf := Leaf _ _ _ _). set (s' := mkState _ _ _ _ _ _ _ _).
      replace (s_rule s, s_prod s, S (s_dot s), s_start s,
                map erase (s_children s) ++ [DLeaf K p]) with (serase s').
      2:{ unfold s', serase, leaf. simpl. rewrite map_app. auto. }
      destruct (inv_log _ _ _ _ _ _ _ V) as (log & L0 & L).
      assert (LL : forall k y, In y (cols st k) -> forall c, In c (s_children y) ->
                     nth_error (log ++ [leaf]) (node_id c) = Some c).
      { intros k y Hy c Hc. pose proof (proj2 (L _ _ Hy) _ Hc).
        rewrite nth_error_app1; auto. apply nth_error_Some. congruence. }
      apply append_has with (log := log ++ [leaf]).
      + intros y Hy. apply (LL _ _ Hy).
      + intros c Hc. unfold s' in Hc. simpl in Hc. apply in_app_or in Hc as [Hc|[<-|[]]].
        * eapply LL; eauto.
        * unfold leaf. simpl. rewrite nth_error_app2, L0, Nat.sub_diag by lia. auto.
    - intros Hlt p Hp Hx.
      assert (C : completed s = true) by (unfold EarleyModel.completed; rewrite E; auto).
      assert (In p (expecting g (s_start s) (s_rule s) st')).
      { unfold expecting. apply filter_In. auto. }
      apply In_nth_error in H0 as [j Hj].
      eapply complete_loop_closed; [exact C|exact V|exact Hs|exact H| |exact Hj]. lia.
  Qed.

  Lemma drain_spec K : forall fuel I st st',
    Inv K I st -> closed_upto K I st ->
    drain accepts constrain g toks fuel K I st = Some st' ->
    Inv (S K) 0 st' /\ closed_upto (S K) 0 st' /\ ext K st st'.
  Proof.
    assert (END : forall I st, nth_error (cols st K) I = None ->
      Inv K I st -> closed_upto K I st ->
      Inv (S K) 0 st /\ closed_upto (S K) 0 st /\ ext K st st).
    { intros I st E V [A B]. split; [eapply Inv_next; eauto|]. split; [|apply ext_refl].
      split; [|intros; lia]. intros k s Hk Hs.
      destruct (Nat.eq_dec k K) as [->|]; [|apply A; auto; lia].
      apply In_nth_error in Hs as [i Hi]. apply (B i); auto.
      apply nth_error_None in E.
      assert (i < length (cols st K)) by (apply nth_error_Some; congruence). lia. }
    induction fuel as [|fuel IH]; intros I st st' V CL H; cbn [drain] in H;
      destruct (nth_error (cols st K) I) as [s|] eqn:E; try discriminate.
    - injection H as <-. eauto.
    - destruct (process accepts constrain g toks (S fuel) K s st) as [st1|] eqn:P; [|discriminate].
      destruct (process_inv _ _ _ _ all _ _ _ _ _ _ V E P) as [V1 X1].
      assert (CL1 : closed_upto K (S I) st1).
      { assert (I < length (cols st K)) by (apply nth_error_Some; congruence).
        destruct (closed_upto_ext _ _ _ _ X1 (Nat.lt_le_incl _ _ H0) CL) as [A B].
        split; auto. intros i y Hi Hy.
        destruct (Nat.eq_dec i I) as [->|]; [|apply (B i); auto; lia].
        pose proof (ext_nth _ _ _ _ _ _ X1 E) as E'. assert (y = s) by congruence. subst.
        exact (process_closed _ _ _ _ _ _ V E P). }
      destruct (IH _ _ _ V1 CL1 H) as (A & B & C). split; [auto|]. split; [auto|].
      eapply ext_trans; eauto.
    - injection H as <-. eauto.
  Qed.

  Lemma chart_from_spec fuel : forall n k st st',
    Inv k 0 st -> closed_upto k 0 st ->
    chart_from accepts constrain g toks fuel all k n st = Some st' ->
    Inv (k + n) 0 st' /\ closed_upto (k + n) 0 st' /\ ext k st st' /\
    forall k', k <= k' < k + n -> k' = 0 \/ all = true -> reach st' k' (g_start g).
  Proof.
    induction n as [|n IH]; intros k st st' V CL H; cbn [chart_from] in H.
    - injection H as <-. rewrite Nat.add_0_r.
      split; [auto|]. split; [auto|]. split; [apply ext_refl|]. intros; lia.
    - destruct (drain _ _ _ _ _ _ _ _) as [st1|] eqn:D; [|discriminate].
      pose proof (start_column_ops g toks all k st) as O.
      set (st0 := start_column g toks all k st) in *.
      assert (V0 : Inv k 0 st0) by (eapply ops_inv; eauto).
      assert (X0 : ext k st st0) by (eapply ops_ext; eauto).
      assert (CL0 : closed_upto k 0 st0) by (eapply closed_upto_ext; eauto; lia).
      destruct (drain_spec _ _ _ _ _ V0 CL0 D) as (V1 & CL1 & X1).
      destruct (IH _ _ _ V1 CL1 H) as (V2 & CL2 & X2 & R2).
      replace (k + S n) with (S k + n) by lia.
      split; [auto|]. split; [auto|]. split.
      + eapply ext_trans; [exact X0|]. eapply ext_trans; [exact X1|].
        eapply ext_weaken; [|exact X2]. lia.
      + intros k' Hk Ha. destruct (Nat.eq_dec k' k) as [->|]; [|apply R2; auto; lia].
        intros q Hq. eapply ext_has; [exact X2|]. eapply ext_has; [exact X1|].
        revert q Hq. unfold st0, start_column.
        replace (Nat.eqb k 0 || all) with true.
        * apply (predict_ops g toks all). left. auto.
        * symmetry. apply orb_true_iff. destruct Ha as [->|]; auto.
  Qed.

  Lemma chart_spec fuel st :
    chart accepts constrain g toks fuel all = Some st ->
    Inv (S (length toks)) 0 st /\ closed_upto (S (length toks)) 0 st /\
    forall k, k <= length toks -> k = 0 \/ all = true -> reach st k (g_start g).
  Proof.
    intros H. unfold chart in H.
    destruct (chart_from_spec _ _ _ _ _ (Inv_init accepts constrain g toks)
                (conj (fun k s H => match Nat.nlt_0_r _ H with end)
                      (fun i s H => match Nat.nlt_0_r _ H with end)) H)
      as (V & C & _ & R).
    split; [exact V|]. split; [exact C|]. intros k Hk. apply R. lia.
  Qed.

  (** ** Soundness *)
  Lemma predicted_sound : predict_sound g -> forall k r q, In q (predicted k r) -> In q (g_prods g r).
  Proof.
    intros H k r q. unfold EarleyModel.predicted. destruct nth_error; auto. apply H.
  Qed.

  Lemma node_ok_derives : predict_sound g ->
    (forall t n i j, node_ok t n i j -> derives t i j (erase n)) /\
    (forall ts ns i j, nodes_ok ts ns i j -> derives_seq ts i j (map erase ns)).
  Proof.
    intros PS. apply node_ok_mutind; intros; simpl; try (econstructor; eauto; fail).
    constructor; auto. eapply predicted_sound; eauto. eapply nth_error_In; eauto.
  Qed.

  Lemma node_ok_leaves :
    (forall t n i j, node_ok t n i j -> leaves_ok accepts constrain toks n) /\
    (forall ts ns i j, nodes_ok ts ns i j ->
       (fix all (ch : list node) : Prop :=
         match ch with
         | [] => True
         | c :: ch' => leaves_ok accepts constrain toks c /\ all ch'
         end) ns).
  Proof.
    apply node_ok_mutind; intros; simpl; eauto.
  Qed.

  Lemma derives_span :
    (forall t i j d, derives t i j d -> i <= j /\ leaves d = seq i (j - i) /\
       (i <= length toks -> j <= length toks)) /\
    (forall ts i j ds, derives_seq ts i j ds ->
       i <= j /\ flat_map leaves ds = seq i (j - i) /\
       (i <= length toks -> j <= length toks)).
  Proof.
    apply derives_mutind.
    - intros p i t H1 H2. cbn [leaves]. replace (S i - i) with 1 by lia. split; [lia|].
      split; [reflexivity|]. intros _. apply nth_error_Some. congruence.
    - intros r q i j ds H1 H2 IH. exact IH.
    - intros i. rewrite Nat.sub_diag. auto.
    - intros t ts i k j d ds Hd (A1 & A2 & A3) Hs (B1 & B2 & B3).
      split; [lia|]. split; [|auto].
      simpl. rewrite A2, B2. replace (j - i) with ((k - i) + (j - k)) by lia.
      rewrite seq_app. f_equal. f_equal. lia.
  Qed.

  (** ** Completeness *)
  Lemma derives_predicted t i j r q ds : predict_complete accepts g ->
    derives t i j (DNode r q ds) -> In q (predicted i r).
  Proof.
    intros PC H. inversion H as [|r' q' i' j' ds' H1 H2]; subst.
    unfold EarleyModel.predicted. destruct (nth_error toks i) as [tk|] eqn:E; auto.
    apply PC; auto. destruct (g_terms g q) as [|[r0|p] ts]; auto.
    inversion H2 as [|? ? ? k ? ? ? D]; subst. inversion D; subst. congruence.
  Qed.

  Variable fuel : nat.
  Variable st : cst.
  Hypothesis CH : chart accepts constrain g toks fuel all = Some st.

  Lemma final_closed k s : k <= length toks -> In s (cols st k) -> closed st k s.
  Proof.
    intros Hk. destruct (chart_spec _ _ CH) as (_ & [C _] & _). apply C. lia.
  Qed.

  Lemma chart_complete_gen : predict_complete accepts g ->
    forall t i j d, derives t i j d -> no_empty_part d -> i <= length toks ->
    forall r, t = TRule r -> reach st i r ->
    exists s, In s (cols st j) /\ completed s = true /\ s_rule s = r /\ s_start s = i /\
              erase (state_node s) = d.
  Proof.
    intros PC. fix IH 5. intros t i j d H. destruct H as [p i t H1 H2|r q i j ds H1 H2];
      intros NE Hi r' E R; [discriminate|].
    injection E as <-.
    assert (Q : In q (predicted i r)).
    { eapply derives_predicted; eauto. econstructor; eauto. }
    specialize (R _ Q). apply has_iff in R as (s0 & Hs0 & E0).
    unfold serase in E0. injection E0 as Er Ep Ed Es Ec.
    assert (GEN : forall ts k ds, derives_seq ts k j ds ->
      (fix all (ds : list (dtree pred)) : Prop :=
           match ds with [] => True | d :: ds' => no_empty_part d /\ all ds' end) ds ->
      k <= length toks ->
      forall s pre, In s (cols st k) -> s_rule s = r -> s_prod s = q -> s_start s = i ->
      g_terms g q = pre ++ ts -> s_dot s = length pre ->
      exists s', In s' (cols st j) /\ s_rule s' = r /\ s_prod s' = q /\ s_start s' = i /\
        s_dot s' = length (g_terms g q) /\
        map erase (s_children s') = map erase (s_children s) ++ ds).
    { clear - IH CH all. intros ts k ds H. induction H as [k|t ts k m j d ds Hd Hs IHs].
      - intros _ Hk s pre Hs Er Ep Es Et Ed. exists s. rewrite app_nil_r in *.
        repeat (split; [solve [auto]|]). split; auto. congruence.
      - intros [NE NEs] Hk s pre Hin Er Ep Es Et Ed.
        pose proof (final_closed k s Hk Hin) as CL.
        assert (NT : next_term s = Some t).
        { unfold EarleyModel.next_term. rewrite Ep, Et, nth_error_app2, Ed, Nat.sub_diag by lia.
          reflexivity. }
        unfold closed in CL. rewrite NT in CL.
        assert (NEXT : exists s1, In s1 (cols st m) /\ s_rule s1 = r /\ s_prod s1 = q /\
           s_start s1 = i /\ s_dot s1 = S (length pre) /\
           map erase (s_children s1) = map erase (s_children s) ++ [d]).
        { destruct t as [r'|p].
          - destruct (IH _ _ _ _ Hd NE Hk r' eq_refl CL) as (c & Hc & Cc & Rc & Sc & Ec).
            destruct (proj1 derives_span _ _ _ _ Hd) as (Lkm & Lv & Lt).
            assert (k < m).
            { destruct d as [|r0 q0 ds0].
              - inversion Hd.
              - destruct NE as [NE _]. simpl in Lv. rewrite Lv in NE.
                destruct (m - k) eqn:F; [|lia]. simpl in NE. tauto. }
            pose proof (final_closed m c (Lt Hk) Hc) as CLc.
            unfold closed in CLc.
            assert (NTc : next_term c = None).
            { unfold EarleyModel.completed in Cc. destruct (next_term c); [discriminate|auto]. }
            rewrite NTc in CLc.
            assert (X : expects (s_rule c) s = true).
            { unfold EarleyModel.expects. rewrite NT, Rc. apply Nat.eqb_refl. }
            rewrite Sc in CLc. specialize (CLc H s Hin X).
            rewrite serase_advance, Ec in CLc.
            apply has_iff in CLc as (s1 & H1 & E1). unfold serase in E1.
            injection E1 as F1 F2 F3 F4 F5. exists s1. rewrite <- Ed.
            repeat (split; [solve [auto|congruence]|]). auto.
          - inversion Hd as [p' i' tk T1 T2|]; subst.
            specialize (CL _ T1 T2). apply has_iff in CL as (s1 & H1 & E1).
            unfold serase in E1. injection E1 as F1 F2 F3 F4 F5. exists s1.
            repeat (split; [solve [auto|congruence]|]). auto. }
        destruct NEXT as (s1 & N1 & N2 & N3 & N4 & N5 & N6).
        destruct (proj1 derives_span _ _ _ _ Hd) as (Lkm & Lv & Lt).
        destruct (IHs NEs (Lt Hk) s1 (pre ++ [t])) as (s' & A1 & A2 & A3 & A4 & A5 & A6); auto.
        + rewrite <- app_assoc. auto.
        + rewrite app_length. simpl. lia.
        + exists s'. repeat (split; [solve [auto]|]).
          rewrite A6, N6, <- app_assoc. auto. }
    destruct NE as [_ NE].
    destruct (GEN _ _ _ H2 NE Hi s0 []) as (s & A1 & A2 & A3 & A4 & A5 & A6); auto.
    exists s. split; auto. split.
    - apply completed_iff. rewrite A3, A5. auto.
    - split; auto. split; auto. simpl. rewrite A2, A3, A6, Ec. reflexivity.
  Qed.
End Proofs.
