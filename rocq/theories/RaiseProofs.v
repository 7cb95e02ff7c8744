(** The chart with predicates that may raise and the chart of [EarleyModel]. *)
From Verif Require Import Base SpanModel EarleyModel EarleySpec EarleyInv EarleyProofs TokenModel TreeModel
  ParserModel RaiseModel RaiseSpec.
Open Scope nat_scope.

Section Raise.
  Context {token pred : Type}.
  Variable call : pred -> token -> res bool.
  Variable narrow : pred -> token -> res token.
  Variable g : grammar token pred.
  Variable toks : list token.
  Variable all : bool.

  Notation state := (state token pred).
  Notation cst := (cst token pred).
  Notation says := (says call).
  Notation narrowed := (narrowed narrow).
  Notation Inv := (Inv says narrowed g toks).
  Notation process := (process says narrowed g toks).
  Notation drain := (drain says narrowed g toks).
  Notation next_term := (next_term g).
  Notation asked := (asked call g toks).
  Notation answers := (answers call narrow).
  Notation raises := (raises call narrow).
  Notation predicted := (predicted g toks).
  Notation reach := (reach g toks).
  Notation derives := (derives says g toks).
  Notation derives_seq := (derives_seq says g toks).

  Lemma answers_or p t : answers p t \/ exists e, raises p t e.
  Proof.
    unfold RaiseSpec.answers, RaiseSpec.raises. destruct (call p t) as [[|]|e]; eauto.
    destruct (narrow p t); eauto 6.
  Qed.

  Lemma answers_not p t e : answers p t -> raises p t e -> False.
  Proof. intros [A|(A & t' & N)] [B|(B & M)]; congruence. Qed.

  (** ** One step *)
  Lemma rscan_answers k p t s st : answers p t ->
    rscan call narrow k p t s st = Ok (scan says narrowed k p t s st).
  Proof.
    unfold rscan, scan, RaiseSpec.says, RaiseSpec.narrowed. intros [->|(-> & t' & ->)]; reflexivity.
  Qed.
  Lemma rscan_raises k p t s st e : raises p t e -> rscan call narrow k p t s st = Err e.
  Proof. unfold rscan. intros [->|(-> & ->)]; reflexivity. Qed.

  Definition waits (s : state) (k : nat) (p : pred) (t : token) : Prop :=
    next_term s = Some (TPred p) /\ nth_error toks k = Some t.

  Lemma rprocess_cases fuel k s st :
    (rprocess call narrow g toks fuel k s st = option_map Ok (process fuel k s st) /\
     forall p t, waits s k p t -> answers p t) \/
    (exists p t e, waits s k p t /\ raises p t e /\ rprocess call narrow g toks fuel k s st = Some (Err e)).
  Proof.
    unfold rprocess, EarleyModel.process, waits. destruct (next_term s) as [[r|p]|].
    - left. split; [reflexivity|]. intros p t (E & _). discriminate.
    - destruct (nth_error toks k) as [t|].
      + destruct (answers_or p t) as [A|(e & R)].
        * left. split; [rewrite rscan_answers by auto; reflexivity|]. intros ? ? (E & E').
          injection E as <-. injection E' as <-. auto.
        * right. exists p, t, e. rewrite (rscan_raises _ _ _ _ _ _ R). auto.
      + left. split; [reflexivity|]. intros ? ? (_ & E). discriminate.
    - left. split; [reflexivity|]. intros p t (E & _). discriminate.
  Qed.

  (** ** The predicates asked *)
  Hypothesis PS : predict_sound g.

  Lemma waits_asked K I st s p t : Inv K I st -> In s (cols st K) -> waits s K p t -> asked K p.
  Proof.
    intros V Hs (E & _). destruct (inv_ok _ _ _ _ _ _ _ V _ _ Hs) as (A1 & A2 & A3 & A4 & A5 & A6).
    unfold EarleyModel.next_term in E. exists (s_rule s), (s_prod s), (firstn (s_dot s) (g_terms g (s_prod s))).
    exists (skipn (S (s_dot s)) (g_terms g (s_prod s))), (s_start s), (map erase (s_children s)).
    split; [eapply predicted_sound; eauto; eapply nth_error_In; eauto|]. split.
    - rewrite <- (firstn_skipn (s_dot s)) at 1. f_equal.
      revert E. generalize (g_terms g (s_prod s)). generalize (s_dot s). clear.
      induction n as [|n IH]; intros [|x l] E; try discriminate.
      + injection E as ->. reflexivity.
      + simpl. apply IH. exact E.
    - apply (proj2 (node_ok_derives says narrowed g toks PS) _ _ _ _ A6).
  Qed.

  Definition alarm (e : exn) : Prop :=
    exists k t p, nth_error toks k = Some t /\ asked k p /\ raises p t e.

  Lemma rdrain_cases K : forall fuel I st, Inv K I st ->
    (rdrain call narrow g toks fuel K I st = option_map Ok (drain fuel K I st)) \/
    (exists e, alarm e /\ rdrain call narrow g toks fuel K I st = Some (Err e)).
  Proof.
    induction fuel as [|fuel IH]; intros I st V; cbn [rdrain EarleyModel.drain].
    - left. destruct nth_error; reflexivity.
    - destruct (nth_error (cols st K) I) as [s|] eqn:N; [|left; reflexivity].
      destruct (rprocess_cases (S fuel) K s st) as [(-> & _)|(p & t & e & W & R & ->)].
      + destruct (process (S fuel) K s st) as [st1|] eqn:P; cbn [option_map]; [|left; reflexivity].
        apply IH. apply (process_inv _ _ _ _ all _ _ _ _ _ _ V N P).
      + right. exists e. split; [|reflexivity]. exists K, t, p. split; [apply W|]. split; auto.
        eapply waits_asked; eauto. eapply nth_error_In; eauto.
  Qed.

  Lemma drain_inv K : forall fuel I st st', Inv K I st -> drain fuel K I st = Some st' -> Inv (S K) 0 st'.
  Proof.
    induction fuel as [|fuel IH]; intros I st st' V E; cbn [EarleyModel.drain] in E.
    - destruct nth_error; [discriminate|]. injection E as <-. eapply Inv_next; eauto.
    - destruct (nth_error (cols st K) I) as [s|] eqn:N.
      + destruct (process (S fuel) K s st) as [st1|] eqn:P; [|discriminate].
        eapply IH; [|exact E]. apply (process_inv _ _ _ _ all _ _ _ _ _ _ V N P).
      + injection E as <-. eapply Inv_next; eauto.
  Qed.

  Lemma rfrom_cases fuel : forall n k st, Inv k 0 st ->
    (rchart_from call narrow g toks fuel all k n st =
       option_map Ok (chart_from says narrowed g toks fuel all k n st)) \/
    (exists e, alarm e /\ rchart_from call narrow g toks fuel all k n st = Some (Err e)).
  Proof.
    induction n as [|n IH]; intros k st V; cbn [rchart_from chart_from]; [left; reflexivity|].
    assert (V0 : Inv k 0 (start_column g toks all k st))
      by (eapply ops_inv; [apply start_column_ops|exact V]).
    destruct (rdrain_cases k fuel 0 _ V0) as [->|(e & A & ->)]; [|right; eauto].
    destruct drain as [st1|] eqn:D; cbn [option_map]; [|left; reflexivity].
    apply IH. eapply drain_inv; eauto.
  Qed.

  Lemma rchart_cases fuel :
    (rchart call narrow g toks fuel all = option_map Ok (chart says narrowed g toks fuel all)) \/
    (exists e, alarm e /\ rchart call narrow g toks fuel all = Some (Err e)).
  Proof. apply rfrom_cases. apply Inv_init. Qed.

  (** ** When nothing is raised *)
  Lemma rdrain_ok K : forall fuel I st st', Inv K I st ->
    rdrain call narrow g toks fuel K I st = Some (Ok st') ->
    drain fuel K I st = Some st' /\ ext K st st' /\
    forall j s, I <= j -> nth_error (cols st' K) j = Some s -> forall p t, waits s K p t -> answers p t.
  Proof.
    induction fuel as [|fuel IH]; intros I st st' V E; cbn [rdrain EarleyModel.drain] in *;
      destruct (nth_error (cols st K) I) as [s|] eqn:N; try discriminate;
      try (injection E as <-; split; [reflexivity|]; split; [apply ext_refl|];
           intros j s Hj Hs; exfalso; apply nth_error_None in N;
           assert (j < length (cols st K)) by (apply nth_error_Some; congruence); lia).
    destruct (rprocess_cases (S fuel) K s st) as [(P & A)|(p & t & e & W & R & P)]; rewrite P in E; [|discriminate].
    destruct (process (S fuel) K s st) as [st1|] eqn:P1; cbn [option_map] in E; [|discriminate].
    destruct (process_inv _ _ _ _ all _ _ _ _ _ _ V N P1) as (V1 & X1).
    destruct (IH _ _ _ V1 E) as (D & X & B). split; [exact D|]. split; [eapply ext_trans; eauto|].
    intros j y Hj Hy. destruct (Nat.eq_dec j I) as [->|NE]; [|apply (B j); auto; lia].
    pose proof (ext_nth _ _ _ _ _ _ (ext_trans _ _ _ _ X1 X) N). replace y with s by congruence. exact A.
  Qed.

  Lemma rfrom_ok fuel : forall n k st st', Inv k 0 st ->
    rchart_from call narrow g toks fuel all k n st = Some (Ok st') ->
    chart_from says narrowed g toks fuel all k n st = Some st' /\ ext k st st' /\
    forall k' s, k <= k' < k + n -> In s (cols st' k') -> forall p t, waits s k' p t -> answers p t.
  Proof.
    induction n as [|n IH]; intros k st st' V E; cbn [rchart_from chart_from] in *.
    - injection E as <-. split; [reflexivity|]. split; [apply ext_refl|]. intros; lia.
    - pose proof (start_column_ops g toks all k st) as O.
      assert (V0 : Inv k 0 (start_column g toks all k st)) by (eapply ops_inv; eauto).
      destruct rdrain as [[st1|e]|] eqn:D; try discriminate.
      destruct (rdrain_ok k fuel 0 _ _ V0 D) as (D1 & X1 & A1). rewrite D1.
      destruct (IH _ _ _ (drain_inv k fuel 0 _ _ V0 D1) E) as (C & X2 & A2).
      split; [exact C|]. split.
      + eapply ext_trans; [eapply ops_ext; eauto|]. eapply ext_trans; [exact X1|].
        eapply ext_weaken; [|exact X2]. lia.
      + intros k' s Hk Hs. destruct (Nat.eq_dec k' k) as [->|NE]; [|apply A2; auto; lia].
        rewrite (proj2 X2) in Hs by lia. apply In_nth_error in Hs as (j & Hj).
        apply (A1 j); auto. lia.
  Qed.

  Lemma rchart_ok fuel st : rchart call narrow g toks fuel all = Some (Ok st) ->
    chart says narrowed g toks fuel all = Some st /\
    forall k s p t, k <= length toks -> In s (cols st k) -> waits s k p t -> answers p t.
  Proof.
    intros E. destruct (rfrom_ok fuel _ _ _ _ (Inv_init says narrowed g toks) E) as (C & _ & A).
    split; [exact C|]. intros k s p t Hk Hs W. apply (A k s); auto. lia.
  Qed.

  (** ** What has to be answered *)
  Section Final.
  Variable fuel : nat.
  Variable st : cst.
  Hypothesis CH : chart says narrowed g toks fuel all = Some st.
  Hypothesis PC : predict_complete says g.

  Lemma moved t k m d : derives t k m d -> no_empty_part d -> k <= length toks -> forall s,
    In s (cols st k) -> next_term s = Some t ->
    exists s', In s' (cols st m) /\ s_rule s' = s_rule s /\ s_prod s' = s_prod s /\
      s_start s' = s_start s /\ s_dot s' = S (s_dot s).
  Proof.
    intros D NE Hk s Hs NT. pose proof (final_closed says narrowed g toks all fuel st CH k s Hk Hs) as CL.
    unfold closed in CL. rewrite NT in CL. destruct t as [r|p].
    - destruct (chart_complete_gen says narrowed g toks all fuel st CH PC _ _ _ _ D NE Hk r eq_refl CL)
        as (c & Hc & Cc & Rc & Sc & Ec).
      destruct (proj1 (derives_span says g toks) _ _ _ _ D) as (Lkm & Lv & Lt).
      assert (k < m).
      { destruct d as [|r0 q0 ds0]; [inversion D|]. destruct NE as [NE _]. simpl in Lv. rewrite Lv in NE.
        destruct (m - k) eqn:F; [|lia]. simpl in NE. tauto. }
      pose proof (final_closed says narrowed g toks all fuel st CH m c (Lt Hk) Hc) as CLc. unfold closed in CLc.
      assert (NTc : next_term c = None).
      { unfold completed in Cc. destruct (next_term c); [discriminate|auto]. }
      rewrite NTc, Sc in CLc. assert (X : expects g (s_rule c) s = true).
      { unfold expects. rewrite NT, Rc. apply Nat.eqb_refl. }
      specialize (CLc H s Hs X). rewrite serase_advance in CLc.
      apply has_iff in CLc as (s1 & H1 & E1). unfold serase in E1. injection E1 as F1 F2 F3 F4 F5.
      exists s1. auto.
    - inversion D as [p' i' tk T1 T2|]; subst. specialize (CL _ T1 T2).
      apply has_iff in CL as (s1 & H1 & E1). unfold serase in E1. injection E1 as F1 F2 F3 F4 F5.
      exists s1. auto.
  Qed.

  Lemma advanced q rest : forall ts k j ds, derives_seq ts k j ds -> Forall no_empty_part ds -> k <= length toks ->
    forall s pre, In s (cols st k) -> s_prod s = q -> g_terms g q = pre ++ ts ++ rest -> s_dot s = length pre ->
    exists s', In s' (cols st j) /\ s_rule s' = s_rule s /\ s_prod s' = q /\ s_start s' = s_start s /\
      s_dot s' = length (pre ++ ts).
  Proof.
    induction ts as [|t ts IH]; intros k j ds D NE Hk s pre Hs Ep Et Ed.
    - inversion D; subst. exists s. rewrite app_nil_r. auto.
    - inversion D as [|? ? ? m ? d ds' D1 D2]; subst. inversion NE as [|? ? N1 N2]; subst.
      destruct (moved t k m d D1 N1 Hk s Hs) as (s1 & A1 & A2 & A3 & A4 & A5).
      { unfold EarleyModel.next_term. rewrite Et, nth_error_app2, Ed, Nat.sub_diag by lia. reflexivity. }
      destruct (proj1 (derives_span says g toks) _ _ _ _ D1) as (_ & _ & Lt).
      destruct (IH m j ds' D2 N2 (Lt Hk) s1 (pre ++ [t])) as (s' & B1 & B2 & B3 & B4 & B5); auto.
      + rewrite Et, <- app_assoc. reflexivity.
      + rewrite app_length. simpl. lia.
      + exists s'. rewrite <- app_assoc in B5. split; [auto|]. split; [congruence|]. split; [congruence|].
        split; [congruence|]. exact B5.
  Qed.

  Lemma from_reach i r q pre post k ds : reach st i r -> In q (predicted i r) ->
    g_terms g q = pre ++ post -> derives_seq pre i k ds -> Forall no_empty_part ds -> i <= length toks ->
    exists s, In s (cols st k) /\ s_rule s = r /\ s_prod s = q /\ s_dot s = length pre /\ k <= length toks.
  Proof.
    intros R Q Et D NE Hi. specialize (R _ Q). apply has_iff in R as (s0 & Hs0 & E0).
    unfold serase in E0. injection E0 as F1 F2 F3 F4 F5.
    destruct (advanced q post pre i k ds D NE Hi s0 [] Hs0 F2 Et F3) as (s & A1 & A2 & A3 & A4 & A5).
    exists s. split; [auto|]. split; [congruence|]. split; [auto|]. split; [auto|].
    destruct (proj2 (derives_span says g toks) _ _ _ _ D) as (_ & _ & Lt). auto.
  Qed.

  Lemma predicted_if i r q pre post k ds : In q (g_prods g r) -> g_terms g q = pre ++ post ->
    derives_seq pre i k ds ->
    (forall p post', pre = [] -> post = TPred p :: post' -> forall t, nth_error toks i = Some t -> In q (g_predict g r t)) ->
    In q (predicted i r).
  Proof.
    intros Q Et D F. unfold EarleyModel.predicted. destruct (nth_error toks i) as [t|] eqn:T; [|exact Q].
    destruct pre as [|x pre].
    - destruct post as [|[r'|p] post'].
      + apply PC; auto. rewrite Et. exact Logic.I.
      + apply PC; auto. rewrite Et. exact Logic.I.
      + eapply F; eauto.
    - apply PC; auto. rewrite Et. destruct x as [r'|p]; [exact Logic.I|]. cbn [app].
      inversion D as [|? ? ? m ? d ds' D1 D2]; subst. inversion D1; subst. congruence.
  Qed.

  Lemma sought_reach r k : sought call g toks all r k -> reach st k r /\ k <= length toks.
  Proof.
    induction 1 as [k H|r q pre r' post i k ds S IH Q Et D NE].
    - destruct (chart_spec says narrowed g toks all fuel st CH) as (_ & _ & R).
      split; [apply R|]; destruct H as [->|(-> & H)]; auto; lia.
    - destruct IH as (R & Hi).
      assert (P : In q (predicted i r)) by (eapply predicted_if; eauto; intros; discriminate).
      destruct (from_reach i r q pre (TRule r' :: post) k ds R P Et D NE Hi) as (s & A1 & A2 & A3 & A4 & A5).
      split; [|exact A5]. pose proof (final_closed says narrowed g toks all fuel st CH k s A5 A1) as CL.
      unfold closed in CL. unfold EarleyModel.next_term in CL.
      rewrite A3, Et, A4, nth_error_app2, Nat.sub_diag in CL by lia. exact CL.
  Qed.

  Lemma must_waits k t p : nth_error toks k = Some t -> must_answer call g toks all k t p ->
    exists s, In s (cols st k) /\ waits s k p t /\ k <= length toks.
  Proof.
    intros T (r & q & pre & post & i & ds & S & Q & Et & D & NE & F).
    destruct (sought_reach r i S) as (R & Hi).
    assert (P : In q (predicted i r)).
    { eapply predicted_if; eauto. intros p' post' -> E t' T'. inversion D; subst.
      destruct F as [F|F]; [congruence|]. congruence. }
    destruct (from_reach i r q pre (TPred p :: post) k ds R P Et D NE Hi) as (s & A1 & A2 & A3 & A4 & A5).
    exists s. split; [exact A1|]. split; [|exact A5]. split; [|exact T].
    unfold EarleyModel.next_term. rewrite A3, Et, A4, nth_error_app2, Nat.sub_diag by lia. reflexivity.
  Qed.
  End Final.
End Raise.
