(** The stored chart of [HashModel]: what it reports is right whatever the hash
    function; it is the chart of [EarleyModel] when no two states of a column
    collide; and with finitely many hash values something is lost. *)
From Verif Require Import Base SpanModel EarleyModel EarleySpec EarleyInv EarleyProofs TokenModel TreeModel
  ParserModel HashModel HashSpec.
Open Scope nat_scope.

Section Hash.
  Context {token pred : Type}.
  Variable hash : hash_key -> Z.
  Variable accepts : pred -> token -> bool.
  Variable constrain : pred -> token -> token.
  Variable g : grammar token pred.
  Variable toks : list token.

  Notation state := (state token pred).
  Notation cst := (cst token pred).
  Notation hst := (hst token pred).
  Notation node := (node token pred).
  Notation expects := (expects g).
  Notation completed := (completed g).
  Notation next_term := (next_term g).

  Lemma completed_next (s : state) : completed s = match next_term s with None => true | Some _ => false end.
  Proof. reflexivity. Qed.

  (** ** What is stored beside the states *)
  Definition stored (st : hst) : Prop :=
    (forall k r, h_index st k r = filter (expects r) (h_states st k)) /\
    (forall k v, In v (h_hashes st k) <-> In v (map (fun s => hash (key_of s)) (h_states st k))).

  Lemma stored_init : stored hinit.
  Proof. split; intros; simpl; tauto. Qed.

  Lemma stored_alloc st : stored st -> stored (halloc st).
  Proof. intros K. exact K. Qed.

  Lemma seen_iff st k (s : state) : stored st ->
    existsb (Z.eqb (hash (key_of s))) (h_hashes st k) = true <->
    exists y, In y (h_states st k) /\ hash (key_of y) = hash (key_of s).
  Proof.
    intros (_ & B). rewrite existsb_exists. split.
    - intros (v & Hv & E). apply Z.eqb_eq in E. subst v. apply B in Hv.
      apply in_map_iff in Hv as (y & E & Hy). eauto.
    - intros (y & Hy & E). exists (hash (key_of s)). split; [|apply Z.eqb_refl].
      apply B. apply in_map_iff. eauto.
  Qed.

  Lemma stored_append k (s : state) st : stored st -> stored (happend hash g k s st).
  Proof.
    intros (A & B). unfold happend. destruct existsb eqn:E; [split; assumption|].
    split; cbn [h_index h_states h_hashes].
    - intros k' r. unfold update_index. rewrite completed_next.
      destruct (Nat.eqb_spec k' k) as [->|NE].
      + rewrite filter_app. cbn [filter].
        replace (expects r s) with (match next_term s with Some (TRule r') => Nat.eqb r r' | _ => false end)
          by reflexivity.
        destruct (next_term s) as [[r'|p]|]; rewrite ?Nat.eqb_refl; cbn [andb]; rewrite A, ?app_nil_r; auto.
        destruct (Nat.eqb r r'); rewrite ?app_nil_r; auto.
      + destruct (next_term s) as [[r'|p]|]; try apply A.
        rewrite (proj2 (Nat.eqb_neq _ _) NE). apply A.
    - intros k' v. destruct (Nat.eqb_spec k' k) as [->|NE]; [|apply B].
      rewrite map_app, in_app_iff. simpl. rewrite B. tauto.
  Qed.

  (** ** Soundness for every hash function *)
  Definition hleaves (ch : list node) : Prop := Forall (leaves_ok accepts constrain toks) ch.

  Definition hsok (k : nat) (s : state) : Prop :=
    s_stop s = k /\ s_dot s = length (s_children s) /\
    s_dot s <= length (g_terms g (s_prod s)) /\
    In (s_prod s) (g_prods g (s_rule s)) /\
    derives_seq accepts g toks (firstn (s_dot s) (g_terms g (s_prod s))) (s_start s) k
      (map erase (s_children s)) /\
    hleaves (s_children s).

  Definition sound (st : hst) : Prop :=
    stored st /\ forall k s, In s (h_states st k) -> hsok k s.

  Lemma sound_init : sound hinit.
  Proof. split; [apply stored_init|]. intros k s []. Qed.
  Lemma sound_alloc st : sound st -> sound (halloc st).
  Proof. intros K. exact K. Qed.

  Lemma sound_append k s st : sound st -> hsok k s -> sound (happend hash g k s st).
  Proof.
    intros (A & B) H. split; [apply stored_append; auto|]. intros k' y. unfold happend.
    destruct existsb; [apply B|]. cbn [h_states]. destruct (Nat.eqb_spec k' k) as [->|]; [|apply B].
    intros Hy. apply in_app_or in Hy as [Hy|[<-|[]]]; auto.
  Qed.

  Lemma happend_old k (s : state) st k' y : In y (h_states st k') -> In y (h_states (happend hash g k s st) k').
  Proof.
    intros H. unfold happend. destruct existsb; auto. cbn [h_states].
    destruct (Nat.eqb_spec k' k) as [->|]; auto. apply in_or_app; auto.
  Qed.

  Lemma derives_seq_snoc ts t i k j ds d :
    derives_seq accepts g toks ts i k ds -> derives accepts g toks t k j d ->
    derives_seq accepts g toks (ts ++ [t]) i j (ds ++ [d]).
  Proof.
    intros H. revert t j d. induction ts as [|t0 ts IH] in i, ds, H |- *; intros t j d D.
    - inversion H; subst. simpl. econstructor; eauto. constructor.
    - inversion H; subst. simpl. econstructor; eauto.
  Qed.

  Lemma hsok_more k s t n j id : hsok k s -> next_term s = Some t ->
    derives accepts g toks t k j (erase n) -> leaves_ok accepts constrain toks n ->
    hsok j (mkState (s_rule s) (s_prod s) (S (s_dot s)) (s_start s) j id (s_rank s) (s_children s ++ [n])).
  Proof.
    intros (A1 & A2 & A3 & A4 & A5 & A6) E D L. unfold EarleyModel.next_term in E.
    pose proof E as E'. apply (firstn_snoc) in E'.
    repeat split; cbn [s_stop s_dot s_prod s_rule s_start s_children]; auto.
    - rewrite app_length. simpl. lia.
    - enough (s_dot s < length (g_terms g (s_prod s))) by lia. apply nth_error_Some. congruence.
    - rewrite E', map_app. eapply derives_seq_snoc; eauto.
    - unfold hleaves. apply Forall_app. auto.
  Qed.

  Section Sound.
  Hypothesis PS : predict_sound g.

  Lemma hsok_predict k r q id rank : In q (predicted g toks k r) -> hsok k (mkState r q 0 k k id rank []).
  Proof.
    intros Q. repeat split; cbn [s_stop s_dot s_prod s_rule s_start s_children]; auto.
    - lia.
    - eapply predicted_sound; eauto.
    - constructor.
    - constructor.
  Qed.

  Lemma sound_predict k r st : sound st -> sound (hpredict hash g toks k r st).
  Proof.
    unfold hpredict. intros H.
    assert (K : forall prods rank st, sound st -> (forall q, In q prods -> In q (predicted g toks k r)) ->
      sound (hpredict_loop hash g k r rank prods st)).
    { clear H st. induction prods as [|q prods IH]; intros rank st H Q; simpl; auto.
      apply IH; [|intros; apply Q; simpl; auto]. apply sound_append; [apply sound_alloc; auto|].
      apply hsok_predict. apply Q. simpl; auto. }
    apply K; auto.
  Qed.

  Lemma sound_scan k p t s st : sound st -> In s (h_states st k) -> next_term s = Some (TPred p) ->
    nth_error toks k = Some t -> sound (hscan hash accepts constrain g k p t s st).
  Proof.
    intros H Hs E T. unfold hscan. destruct (accepts p t) eqn:A; auto.
    apply sound_append; [apply sound_alloc, sound_alloc; auto|].
    eapply hsok_more; [apply (proj2 H); exact Hs|exact E| |].
    - simpl. econstructor; eauto.
    - simpl. eauto.
  Qed.

  Lemma hsok_node k s : hsok k s -> completed s = true ->
    derives accepts g toks (TRule (s_rule s)) (s_start s) k (erase (state_node s)) /\
    leaves_ok accepts constrain toks (state_node s).
  Proof.
    intros (A1 & A2 & A3 & A4 & A5 & A6) C. split.
    - unfold state_node. cbn [erase].
      constructor; auto. rewrite completed_next in C.
      assert (s_dot s = length (g_terms g (s_prod s))) as ED.
      { destruct (next_term s) eqn:E; [discriminate|]. unfold EarleyModel.next_term in E.
        apply nth_error_None in E. lia. }
      rewrite ED, firstn_all in A5. exact A5.
    - unfold state_node. simpl. revert A6. unfold hleaves. generalize (s_children s).
      intros l F. induction F; auto.
  Qed.

  Lemma expects_next r s : expects r s = true -> next_term s = Some (TRule r).
  Proof.
    unfold EarleyModel.expects. destruct (next_term s) as [[r'|]|]; try discriminate.
    intros H. apply Nat.eqb_eq in H. congruence.
  Qed.

  Lemma sound_complete k s : completed s = true -> forall fuel j st st',
    sound st -> In s (h_states st k) ->
    hcomplete_loop hash g fuel k s j st = Some st' -> sound st'.
  Proof.
    intros C. induction fuel as [|fuel IH]; intros j st st' H Hs E; simpl in E.
    - destruct nth_error; [discriminate|]. injection E as <-. auto.
    - destruct nth_error as [parent|] eqn:P; [|injection E as <-; auto].
      eapply IH; [| |exact E]; [|apply happend_old; auto].
      apply sound_append; [apply sound_alloc; auto|].
      apply nth_error_In in P. rewrite (proj1 (proj1 H)) in P. apply filter_In in P as (P1 & P2).
      unfold advance. destruct (hsok_node k s (proj2 H _ _ Hs) C) as (D & L).
      eapply hsok_more; [apply (proj2 H); exact P1|apply expects_next; exact P2|exact D|exact L].
  Qed.

  Lemma sound_process fuel k s st st' : sound st -> In s (h_states st k) ->
    hprocess hash accepts constrain g toks fuel k s st = Some st' -> sound st'.
  Proof.
    intros H Hs E. unfold hprocess in E. destruct (next_term s) as [[r|p]|] eqn:T.
    - injection E as <-. apply sound_predict; auto.
    - destruct (nth_error toks k) eqn:K; injection E as <-; auto. apply sound_scan; auto.
    - eapply sound_complete; eauto. rewrite completed_next, T. auto.
  Qed.

  Lemma sound_drain k : forall fuel i st st', sound st ->
    hdrain hash accepts constrain g toks fuel k i st = Some st' -> sound st'.
  Proof.
    induction fuel as [|fuel IH]; intros i st st' H E; cbn [hdrain] in E.
    - destruct nth_error; [discriminate|]. injection E as <-. auto.
    - destruct nth_error as [s|] eqn:N; [|injection E as <-; auto].
      destruct hprocess as [st1|] eqn:P; [|discriminate].
      eapply IH; [|exact E]. eapply sound_process; [exact H| |exact P]. eapply nth_error_In; eauto.
  Qed.

  Lemma sound_from fuel all : forall n k st st', sound st ->
    hchart_from hash accepts constrain g toks fuel all k n st = Some st' -> sound st'.
  Proof.
    induction n as [|n IH]; intros k st st' H E; cbn [hchart_from] in E.
    - injection E as <-. auto.
    - destruct hdrain as [st1|] eqn:D; [|discriminate]. eapply IH; [|exact E].
      eapply sound_drain; [|exact D]. unfold hstart_column. destruct orb; auto. apply sound_predict; auto.
  Qed.

  Lemma hmatches_sound fuel all st s : hchart hash accepts constrain g toks fuel all = Some st ->
    In s (hmatches g toks all st) ->
    derives accepts g toks (TRule (g_start g)) (s_start s) (s_stop s) (erase (state_node s)) /\
    leaves_ok accepts constrain toks (state_node s) /\
    s_stop s <= length toks /\ (all = false -> s_stop s = length toks).
  Proof.
    intros E Hs. assert (H : sound st) by (eapply sound_from; [apply sound_init|exact E]).
    assert (K : exists k, In s (hcolumn_matches g k st) /\ k <= length toks /\ (all = false -> k = length toks)).
    { unfold hmatches in Hs. destruct all; [|exists (length toks); auto].
      apply in_flat_map in Hs as (k & K1 & K2). apply in_seq in K1. exists k. split; [auto|]. split; [lia|discriminate]. }
    destruct K as (k & K1 & K2 & K3). unfold hcolumn_matches in K1. apply filter_In in K1 as (K1 & K4).
    apply andb_true_iff in K4 as (C & R). apply Nat.eqb_eq in R.
    pose proof (proj2 H _ _ K1) as OK. destruct (hsok_node k s OK C) as (D & L).
    pose proof (proj1 OK) as ->. rewrite <- R. auto.
  Qed.
  End Sound.

  (** ** Without collisions: the chart of [EarleyModel] *)
  Definition under (a b : cst) : Prop := forall k s, In s (cols a k) -> In s (cols b k).

  Lemma under_refl a : under a a.
  Proof. intros k s H. exact H. Qed.
  Lemma under_trans a b c : under a b -> under b c -> under a c.
  Proof. intros H1 H2 k s H. auto. Qed.
  Lemma under_append k s st : under st (append k s (alloc st)).
  Proof.
    intros k' y H. unfold append. destruct existsb; [exact H|]. cbn [cols].
    destruct (Nat.eqb_spec k' k) as [->|]; [apply in_or_app; auto|exact H].
  Qed.
  Lemma under_loop k r prods : forall rank st, under st (predict_loop k r rank prods st).
  Proof.
    induction prods as [|q prods IH]; intros rank st; [apply under_refl|].
    cbn [predict_loop]. eapply under_trans; [apply under_append|apply IH].
  Qed.
  Lemma under_scan k p t s st : under st (scan accepts constrain k p t s st).
  Proof.
    unfold scan. destruct accepts; [|apply under_refl].
    eapply under_trans; [|apply under_append]. intros k' y H. exact H.
  Qed.
  Lemma under_complete k s : forall fuel j st st',
    complete_loop g fuel k s j st = Some st' -> under st st'.
  Proof.
    induction fuel as [|fuel IH]; intros j st st' E; cbn [complete_loop] in E.
    - destruct nth_error; [discriminate|]. injection E as <-. apply under_refl.
    - destruct nth_error; [|injection E as <-; apply under_refl].
      eapply under_trans; [apply under_append|eapply IH; exact E].
  Qed.
  Lemma under_process fuel k s st st' :
    process accepts constrain g toks fuel k s st = Some st' -> under st st'.
  Proof.
    unfold process. destruct (next_term s) as [[r|p]|].
    - intros E. injection E as <-. apply under_loop.
    - destruct nth_error; intros E; injection E as <-; [apply under_scan|apply under_refl].
    - apply under_complete.
  Qed.
  Lemma under_drain k : forall fuel i st st',
    drain accepts constrain g toks fuel k i st = Some st' -> under st st'.
  Proof.
    induction fuel as [|fuel IH]; intros i st st' E; cbn [drain] in E.
    - destruct nth_error; [discriminate|]. injection E as <-. apply under_refl.
    - destruct nth_error; [|injection E as <-; apply under_refl].
      destruct process eqn:P; [|discriminate].
      eapply under_trans; [eapply under_process; exact P|eapply IH; exact E].
  Qed.
  Lemma under_start all k st : under st (start_column g toks all k st).
  Proof. unfold start_column. destruct orb; [apply under_loop|apply under_refl]. Qed.
  Lemma under_from fuel all : forall n k st st',
    chart_from accepts constrain g toks fuel all k n st = Some st' -> under st st'.
  Proof.
    induction n as [|n IH]; intros k st st' E; cbn [chart_from] in E.
    - injection E as <-. apply under_refl.
    - destruct drain eqn:D; [|discriminate]. eapply under_trans; [apply under_start|].
      eapply under_trans; [eapply under_drain; exact D|eapply IH; exact E].
  Qed.

  Lemma key_iff (a b : state) : same_key a b = true <-> key_of a = key_of b.
  Proof.
    rewrite same_key_iff. unfold key_of. split.
    - intros (-> & -> & -> & -> & -> & ->). reflexivity.
    - intros E. injection E as -> -> -> -> -> ->. auto 10.
  Qed.

  Definition same (h : hst) (st : cst) : Prop :=
    stored h /\ (forall k, h_states h k = cols st k) /\ h_fresh h = fresh st.

  Section Exact.
    Variable final : cst.
    Hypothesis NC : no_collisions hash final.

    Lemma same_append k s h st : same h st -> under (append k s (alloc st)) final ->
      same (happend hash g k s (halloc h)) (append k s (alloc st)).
    Proof.
      intros (A & B & C) U. split; [apply stored_append, stored_alloc; auto|].
      assert (E : existsb (Z.eqb (hash (key_of s))) (h_hashes h k) = existsb (same_key s) (cols st k)).
      { destruct (existsb (same_key s) (cols st k)) eqn:X.
        - apply (seen_iff h k s A). apply existsb_exists in X as (y & Y1 & Y2). exists y.
          rewrite B. split; auto. apply key_iff in Y2. congruence.
        - destruct (existsb _ (h_hashes h k)) eqn:Y; auto.
          apply (seen_iff h k s A) in Y as (y & Y1 & Y2). rewrite B in Y1.
          unfold append in U. cbn [cols alloc] in U. rewrite X in U.
          assert (In s (cols final k)).
          { apply U. cbn [cols]. rewrite Nat.eqb_refl. apply in_or_app. simpl; auto. }
          assert (In y (cols final k)).
          { apply U. cbn [cols]. rewrite Nat.eqb_refl. apply in_or_app. simpl; auto. }
          assert (same_key s y = true) by (apply key_iff; symmetry; eapply NC; eauto).
          enough (existsb (same_key s) (cols st k) = true) by congruence.
          apply existsb_exists. eauto. }
      unfold happend, append. cbn [h_hashes halloc cols alloc]. rewrite E.
      clear E. destruct (existsb (same_key s) (cols st k));
        cbn [h_states h_fresh cols fresh halloc alloc]; (split; [|congruence]);
        intros k'; rewrite ?B; auto.
    Qed.

    Lemma same_loop k r prods : forall rank h st, same h st ->
      under (predict_loop k r rank prods st) final ->
      same (hpredict_loop hash g k r rank prods h) (predict_loop k r rank prods st).
    Proof.
      induction prods as [|q prods IH]; intros rank h st S U; [exact S|].
      cbn [predict_loop hpredict_loop] in *.
      replace (h_fresh h) with (fresh st) by (symmetry; apply S).
      apply IH; auto. apply same_append; auto.
      eapply under_trans; [apply under_loop|exact U].
    Qed.

    Lemma same_scan k p t s h st : same h st -> under (scan accepts constrain k p t s st) final ->
      same (hscan hash accepts constrain g k p t s h) (scan accepts constrain k p t s st).
    Proof.
      unfold hscan, scan. destruct accepts; auto. intros S U.
      cbn [h_fresh halloc fresh alloc] in *.
      replace (h_fresh h) with (fresh st) by (symmetry; apply S).
      apply same_append; auto.
      destruct S as (S1 & S2 & S3). split; [exact S1|]. split; [exact S2|].
      cbn [h_fresh halloc fresh alloc]. congruence.
    Qed.

    Lemma same_index h st k r : same h st -> h_index h k r = expecting g k r st.
    Proof. intros ((A & _) & B & _). rewrite A, B. reflexivity. Qed.

    Lemma same_complete k s : forall fuel j h st st', same h st -> under st' final ->
      complete_loop g fuel k s j st = Some st' ->
      exists h', hcomplete_loop hash g fuel k s j h = Some h' /\ same h' st'.
    Proof.
      induction fuel as [|fuel IH]; intros j h st st' S U E; cbn [complete_loop hcomplete_loop] in *;
        rewrite (same_index h st _ _ S); destruct nth_error as [parent|] eqn:N; try discriminate;
        try (injection E as <-; eauto; fail).
      replace (h_fresh h) with (fresh st) by (symmetry; apply S).
      eapply IH; [|exact U|exact E]. apply same_append; auto.
      eapply under_trans; [eapply under_complete; exact E|exact U].
    Qed.

    Lemma same_process fuel k s h st st' : same h st -> under st' final ->
      process accepts constrain g toks fuel k s st = Some st' ->
      exists h', hprocess hash accepts constrain g toks fuel k s h = Some h' /\ same h' st'.
    Proof.
      unfold process, hprocess. intros S U E. destruct (next_term s) as [[r|p]|].
      - injection E as <-. eexists. split; [reflexivity|]. apply same_loop; auto.
      - destruct nth_error; injection E as <-; eexists; (split; [reflexivity|]); auto.
        apply same_scan; auto.
      - eapply same_complete; eauto.
    Qed.

    Lemma same_drain k : forall fuel i h st st', same h st -> under st' final ->
      drain accepts constrain g toks fuel k i st = Some st' ->
      exists h', hdrain hash accepts constrain g toks fuel k i h = Some h' /\ same h' st'.
    Proof.
      induction fuel as [|fuel IH]; intros i h st st' S U E; cbn [drain hdrain] in *;
        rewrite (proj1 (proj2 S)); destruct nth_error as [s|] eqn:N; try discriminate;
        try (injection E as <-; eauto; fail).
      destruct process as [st1|] eqn:P; [|discriminate].
      destruct (same_process _ _ _ h _ st1 S (under_trans _ _ _ (under_drain _ _ _ _ _ E) U) P)
        as (h1 & -> & S1).
      eapply IH; eauto.
    Qed.

    Lemma same_from fuel all : forall n k h st st', same h st -> under st' final ->
      chart_from accepts constrain g toks fuel all k n st = Some st' ->
      exists h', hchart_from hash accepts constrain g toks fuel all k n h = Some h' /\ same h' st'.
    Proof.
      induction n as [|n IH]; intros k h st st' S U E; cbn [chart_from hchart_from] in *.
      - injection E as <-. eauto.
      - destruct drain as [st1|] eqn:D; [|discriminate].
        assert (U1 : under st1 final) by (eapply under_trans; [eapply under_from; exact E|exact U]).
        assert (S0 : same (hstart_column hash g toks all k h) (start_column g toks all k st)).
        { assert (U0 : under (start_column g toks all k st) final)
            by (eapply under_trans; [eapply under_drain; exact D|exact U1]).
          revert U0. unfold hstart_column, start_column. destruct orb; auto. intros U0.
          apply same_loop; auto. }
        destruct (same_drain _ _ _ _ _ _ S0 U1 D) as (h1 & -> & S1). eapply IH; eauto.
    Qed.
  End Exact.

  Lemma hchart_exact fuel all st : chart accepts constrain g toks fuel all = Some st ->
    no_collisions hash st ->
    exists h, hchart hash accepts constrain g toks fuel all = Some h /\ forall k, h_states h k = cols st k.
  Proof.
    intros E NC. assert (S0 : same hinit init_cst) by (split; [apply stored_init|split; reflexivity]).
    destruct (same_from st NC fuel all _ _ _ _ _ S0 (under_refl _) E) as (h & E' & S). exists h. split; auto. apply S.
  Qed.

  Lemma hmatches_exact all h st : (forall k, h_states h k = cols st k) ->
    hmatches g toks all h = matches g toks all st.
  Proof.
    intros E. unfold hmatches, matches, hcolumn_matches, column_matches. destruct all.
    - apply flat_map_ext. intros k. rewrite E. reflexivity.
    - rewrite E. reflexivity.
  Qed.
End Hash.
