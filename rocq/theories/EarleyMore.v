(** Further invariants of the finished chart. *)
From Verif Require Import Base EarleyModel EarleySpec EarleyInv EarleyProofs EarleyTerm.

Section More.
  Context {token pred : Type}.
  Variable accepts : pred -> token -> bool.
  Variable constrain : pred -> token -> token.
  Variable g : grammar token pred.
  Variable toks : list token.
  Variable all : bool.

  Notation cst := (cst token pred).
  Notation Inv := (Inv accepts constrain g toks).
  Notation op := (op g toks all).
  Notation ops := (ops g toks all).
  Notation scan_op := (scan_op accepts constrain g toks).

  (** A property kept by every step holds of the finished chart. *)
  Section Preserve.
    Variable P : cst -> Prop.
    Hypothesis P_op : forall K I a b, Inv K I a -> op K a b -> P a -> P b.
    Hypothesis P_scan : forall K I a b, Inv K I a -> scan_op K I a b -> P a -> P b.

    Lemma ops_preserve K I a b : ops K a b -> Inv K I a -> P a -> P b.
    Proof.
      induction 1; auto. intros. apply IHops; [eapply op_inv; eauto|eapply P_op; eauto].
    Qed.

    Lemma drain_preserve fuel K : forall I st st', Inv K I st -> P st ->
      drain accepts constrain g toks fuel K I st = Some st' -> P st' /\ Inv (S K) 0 st'.
    Proof.
      induction fuel as [|fuel IH]; intros I st st' V HP H; cbn [drain] in H;
        destruct (nth_error (cols st K) I) as [s|] eqn:E; try discriminate.
      - injection H as <-. split; auto. eapply Inv_next; eauto.
      - destruct (process accepts constrain g toks (S fuel) K s st) as [st1|] eqn:E1; [|discriminate].
        assert (V1 : Inv K (S I) st1) by (eapply process_inv; eauto).
        assert (HP1 : P st1).
        { eapply process_ops with (all := all) in E1 as [O|O]; [| |exact E].
          - exact (ops_preserve _ _ _ _ O V HP).
          - exact (P_scan _ _ _ _ V O HP). }
        eapply IH; eauto.
      - injection H as <-. split; auto. eapply Inv_next; eauto.
    Qed.

    Lemma chart_from_preserve fuel n : forall k st st', Inv k 0 st -> P st ->
      chart_from accepts constrain g toks fuel all k n st = Some st' -> P st'.
    Proof.
      induction n as [|n IH]; intros k st st' V HP H; cbn [chart_from] in H.
      - injection H as <-. auto.
      - destruct (drain accepts constrain g toks fuel k 0 (start_column g toks all k st)) as [st1|] eqn:E; [|discriminate].
        pose proof (start_column_ops g toks all k st) as O.
        apply drain_preserve in E as [HP1 V1].
        + eapply IH; eauto.
        + eapply ops_inv; eauto.
        + eapply ops_preserve; eauto.
    Qed.

    Lemma chart_preserve fuel st : P (init_cst) -> chart accepts constrain g toks fuel all = Some st -> P st.
    Proof. intros H. apply chart_from_preserve; auto. apply Inv_init. Qed.
  End Preserve.

  (** If the start rule occurs in no production, then with [all = false] it is
      only tried at the beginning of the text. *)
  Lemma start_only_first fuel st : all = false -> (forall q, ~ In (TRule (g_start g)) (g_terms g q)) ->
    chart accepts constrain g toks fuel all = Some st ->
    forall k s, In s (cols st k) -> s_rule s = g_start g -> s_start s = 0.
  Proof.
    intros ALL NU. apply (chart_preserve (fun st => forall k s, In s (cols st k) -> s_rule s = g_start g -> s_start s = 0)).
    - intros K I a b V O HP k s Hs Hr. destruct O as [r rank q MP HN HQ|s' parent Hs' C Hp X];
        apply append_in in Hs as [Hs|[-> ->]]; eauto; simpl in *.
      + subst r. destruct MP as [[_ [->|E]]|(s & H1 & H2)]; auto; [congruence|].
        apply expects_term in H2. exfalso. apply (NU (s_prod s)). eapply nth_error_In; exact H2.
      + exact (HP _ _ Hp Hr).
    - intros K I a b V O HP k s Hs Hr. destruct O as [s' p t Hn HT Ht HA].
      apply append_in in Hs as [Hs|[-> ->]]; eauto. simpl in *. eapply HP; eauto. eapply nth_error_In; eauto.
    - intros k s [].
  Qed.

  (** A grammar without nullable rules has no derivation with an empty part. *)
  Lemma no_nullable_no_empty : (forall r, ~ nullable g (TRule r)) ->
    (forall t i j d, derives accepts g toks t i j d -> no_empty_part d) /\
    (forall ts i j ds, derives_seq accepts g toks ts i j ds ->
       (fix all (ds : list (dtree pred)) : Prop :=
         match ds with [] => True | d :: ds' => no_empty_part d /\ all ds' end) ds).
  Proof.
    intros NN. apply derives_mutind; simpl; auto.
    intros r q i j ds H1 H2 IH. split; auto. intros E. apply (NN r). econstructor; eauto.
    eapply (proj2 (derives_empty accepts g toks)); eauto.
    destruct (proj2 (derives_span accepts g toks) _ _ _ _ H2) as (L & S & _). rewrite E in S.
    destruct (j - i) eqn:D; [lia|discriminate].
  Qed.
End More.
