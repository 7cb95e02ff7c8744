(** Facts about match and findall of one text. *)
From Coq Require Import Permutation Sorted.
From Verif Require Import Base SpanModel EarleyModel EarleySpec EarleyInv EarleyProofs EarleyOrder
  TokenModel TreeModel ParserModel TreeSpec TreeProofs RelationProofs ParserSpec FindallProofs.
Open Scope nat_scope.

(** ** The preference order *)
Lemma rank_before_trans a b c : rank_before a b -> rank_before b c -> rank_before a c.
Proof.
  intros (p & x & y & a' & b' & -> & -> & H1) (q & u & v & b'' & c' & E & -> & H2).
  revert q E. induction p as [|z p IH]; intros [|w q] E; simpl in E; injection E as E0 E1; subst.
  - exists [], x, v, a', c'. split; auto. split; auto. lia.
  - exists [], x, w, a', (q ++ v :: c'). auto.
  - exists [], u, v, (p ++ x :: a'), c'. auto.
  - destruct (IH q E1) as (p0 & x0 & y0 & a0 & b0 & A & B & C).
    exists (w :: p0), x0, y0, a0, b0. simpl. rewrite A, B. auto.
Qed.
Lemma rank_before_irrefl a : ~ rank_before a a.
Proof.
  intros (p & x & y & a' & b' & E1 & E2 & H). rewrite E1 in E2. apply app_inv_head in E2.
  injection E2. lia.
Qed.

Section Order.
  Context {token pred : Type}.
  Notation ttree := (node token pred * (nat * nat))%type.
  Lemma tree_before_trans (a b c : ttree) : tree_before a b -> tree_before b c -> tree_before a c.
  Proof.
    destruct a as [na [sa ea]], b as [nb [sb eb]], c as [nc [sc ec]]. unfold tree_before.
    intros [H|[-> [H|[-> H]]]] [K|[-> [K|[-> K]]]]; auto; try (left; lia); right; split; auto;
      try (left; lia).
    right. split; auto. eapply rank_before_trans; eauto.
  Qed.
  Lemma tree_before_irrefl (a : ttree) : ~ tree_before a a.
  Proof.
    destruct a as [n [s e]]. intros [H|[_ [H|[_ H]]]]; try lia. apply rank_before_irrefl in H. auto.
  Qed.
End Order.

(** ** Sorting *)
Section Sorting.
  Context {pred : Type}.
  Notation tree := (@tree pred).
  Variable L : list tree.
  Hypothesis DEC : forall a b, In a L -> In b L -> a = b \/
    (exists c, tree_lt a b = Ok c /\ if c then tree_before a b else tree_before b a).

  Lemma insert_tree_spec x acc : In x L -> incl acc L -> ~ In x acc -> pairwise tree_before acc ->
    exists acc', insert_tree x acc = Ok acc' /\ Permutation (x :: acc) acc' /\ pairwise tree_before acc'.
  Proof.
    intros Hx. induction acc as [|y acc IH]; intros HI HN HS.
    - exists [x]. split; [reflexivity|]. split; [auto|]. apply pairwise_cons. split; [intros ? []|apply pairwise_nil].
    - cbn [insert_tree]. destruct (DEC x y) as [->|(c & E & Hc)]; auto.
      { apply HI. left. auto. }
      { exfalso. apply HN. left. auto. }
      rewrite E. cbn [bind]. apply pairwise_cons in HS as [S1 S2]. destruct c.
      + exists (x :: y :: acc). split; [reflexivity|]. split; [auto|].
        apply pairwise_cons. split.
        * intros z [<-|Hz]; auto. eapply tree_before_trans; eauto.
        * apply pairwise_cons. auto.
      + destruct IH as (acc' & A & P & S); auto.
        { intros z Hz. apply HI. right. auto. }
        { intros Hz. apply HN. right. auto. }
        rewrite A. cbn [bind]. exists (y :: acc'). split; [reflexivity|]. split.
        * rewrite perm_swap. constructor. auto.
        * apply pairwise_cons. split; auto. intros z Hz.
          apply (Permutation_in _ (Permutation_sym P)) in Hz as [<-|Hz]; auto.
  Qed.

  Lemma sort_trees_gen : forall l acc, incl l L -> incl acc L -> NoDup (l ++ acc) ->
    pairwise tree_before acc ->
    exists r, sort_trees l acc = Ok r /\ Permutation (l ++ acc) r /\ pairwise tree_before r.
  Proof.
    induction l as [|x l IH]; intros acc H1 H2 ND S.
    - exists acc. split; [reflexivity|]. auto.
    - cbn [sort_trees]. cbn [app] in ND. inversion ND as [|? ? N1 N2]; subst.
      destruct (insert_tree_spec x acc) as (acc' & A & P & S'); auto.
      { apply H1. left. auto. }
      { intros Hx. apply N1. apply in_or_app. auto. }
      rewrite A. cbn [bind].
      assert (PP : Permutation (x :: l ++ acc) (l ++ acc')).
      { etransitivity; [apply Permutation_middle|]. apply Permutation_app_head. auto. }
      destruct (IH acc') as (r & B & Q & T); auto.
      { intros z Hz. apply H1. right. auto. }
      { intros z Hz. apply (Permutation_in _ (Permutation_sym P)) in Hz as [<-|Hz]; auto.
        apply H1. left. auto. }
      { eapply Permutation_NoDup; [exact PP|]. constructor; auto. }
      exists r. split; auto. split; auto. cbn [app]. etransitivity; eauto.
  Qed.

  Lemma sort_trees_spec : NoDup L ->
    exists r, sort_trees L [] = Ok r /\ Permutation L r /\ pairwise tree_before r.
  Proof.
    intros ND. destruct (sort_trees_gen L []) as (r & A & B & C).
    - intros x H; auto.
    - intros x [].
    - rewrite app_nil_r. auto.
    - apply pairwise_nil.
    - exists r. rewrite app_nil_r in B. auto.
  Qed.
End Sorting.

(** ** Trees of one chart *)
Section Trees.
  Context {pred : Type}.
  Variable accepts : pred -> token -> bool.
  Variable constrain : pred -> token -> token.
  Variable g : grammar token pred.
  Variable toks : list token.

  Notation node := (node token pred).
  Notation tree := (@tree pred).
  Notation parse := (parse accepts constrain g).
  Notation node_ok := (node_ok accepts constrain g toks).
  Notation nodes_ok := (nodes_ok accepts constrain g toks).

  Section One.
    Variable all : bool.
    Lemma matches_in st s : In s (matches g toks all st) <->
      exists k, k <= length toks /\ (all = false -> k = length toks) /\
        In s (cols st k) /\ completed g s = true /\ s_rule s = g_start g.
    Proof.
      unfold matches. destruct all.
      - rewrite in_flat_map. split.
        + intros (k & H1 & H2). apply in_seq in H1. unfold column_matches in H2.
          apply filter_In in H2 as [H2 H3]. apply andb_true_iff in H3 as [H3 H4].
          apply Nat.eqb_eq in H4. exists k. split; [lia|]. split; [discriminate|]. auto.
        + intros (k & H1 & _ & H2 & H3 & H4). exists k. split; [apply in_seq; lia|].
          unfold column_matches. apply filter_In. split; auto. rewrite H3, H4, Nat.eqb_refl. auto.
      - unfold column_matches. rewrite filter_In, andb_true_iff, Nat.eqb_eq. split.
        + intros (H1 & H2 & H3). exists (length toks). auto.
        + intros (k & _ & H & H1 & H2 & H3). rewrite H in H1; auto.
    Qed.

    Lemma trees_in st n i j : Inv accepts constrain g toks (S (length toks)) 0 st ->
      In (n, (i, j)) (prepare_trees (matches g toks all st)) <->
      j <= length toks /\ (all = false -> j = length toks) /\ chart_node g st n (g_start g) i j.
    Proof.
      intros V. unfold prepare_trees. rewrite in_map_iff. split.
      - intros (s & E & H). injection E as <- <- E. apply matches_in in H as (k & H1 & H2 & H3 & H4 & H5).
        assert (j = k) by (rewrite <- E; apply (inv_ok _ _ _ _ _ _ _ V _ _ H3)). subst k. subst j.
        split; auto. split; auto. exists s. auto.
      - intros (H1 & H2 & s & A1 & A2 & A3 & A4 & ->). exists s. split.
        + pose proof (inv_ok _ _ _ _ _ _ _ V _ _ A1) as (B & _). rewrite A3, B. reflexivity.
        + apply matches_in. exists j. auto.
    Qed.

    Variable fuel : nat.
    Variable trees : list tree.
    Hypothesis PARSE : parse fuel toks all = Some trees.

    Lemma parse_chart : exists st, chart accepts constrain g toks fuel all = Some st /\
      trees = prepare_trees (matches g toks all st) /\
      Inv accepts constrain g toks (S (length toks)) 0 st.
    Proof.
      unfold ParserModel.parse in PARSE. destruct (chart accepts constrain g toks fuel all) as [st|] eqn:E; [|discriminate].
      injection PARSE as <-. exists st. split; auto. split; auto.
      apply (chart_spec accepts constrain g toks all _ _ E).
    Qed.

    Lemma tree_ok n i j : In (n, (i, j)) trees -> node_ok (TRule (g_start g)) n i j.
    Proof.
      destruct parse_chart as (st & E & -> & V). intros H. apply trees_in in H as (H1 & H2 & H3); auto.
      eapply chart_node_ok; eauto.
    Qed.

    Lemma tree_stop n i j : In (n, (i, j)) trees -> j <= length toks /\ (all = false -> j = length toks).
    Proof.
      destruct parse_chart as (st & E & -> & V). intros H. apply trees_in in H; auto. tauto.
    Qed.

    Lemma trees_decided a b : In a trees -> In b trees -> a = b \/
      exists c, tree_lt a b = Ok c /\ if c then tree_before a b else tree_before b a.
    Proof.
      destruct parse_chart as (st & E & -> & V).
      destruct a as [na [sa ea]], b as [nb [sb eb]]. intros Ha Hb.
      apply trees_in in Ha as (_ & _ & Ha); auto. apply trees_in in Hb as (_ & _ & Hb); auto.
      unfold tree_lt, tree_before.
      destruct (Nat.eqb sa sb) eqn:E1; cbn [andb].
      - apply Nat.eqb_eq in E1. subst sb. destruct (Nat.eqb ea eb) eqn:E2.
        + apply Nat.eqb_eq in E2. subst eb.
          destruct (node_order accepts constrain g toks _ _ st V _ _ _ _ _ _ _ (Nat.lt_succ_diag_r _) Ha Hb)
            as [->|(x & y & D & LT)]; [left; auto|right].
          exists (Nat.ltb x y). split; auto.
          destruct D as (p & a' & b' & A & B & N). destruct (Nat.ltb x y) eqn:F.
          * apply Nat.ltb_lt in F. right. split; auto. right. split; auto. exists p, x, y, a', b'. auto.
          * apply Nat.ltb_ge in F. right. split; auto. right. split; auto.
            exists p, y, x, b', a'. split; auto. split; auto. lia.
        + apply Nat.eqb_neq in E2. right. exists (Nat.ltb eb ea). split; auto.
          destruct (Nat.ltb eb ea) eqn:F; right; split; auto; left;
            [apply Nat.ltb_lt in F|apply Nat.ltb_ge in F]; lia.
      - apply Nat.eqb_neq in E1. right. exists (Nat.ltb sa sb). split; auto.
        destruct (Nat.ltb sa sb) eqn:F; left; [apply Nat.ltb_lt in F|apply Nat.ltb_ge in F]; lia.
    Qed.

    Lemma tree_lt_refl a : In a trees -> tree_lt a a = Ok false.
    Proof.
      destruct parse_chart as (st & E & -> & V). destruct a as [n [i j]]. intros H.
      apply trees_in in H as (_ & _ & s & _ & _ & _ & _ & ->); auto. unfold tree_lt.
      rewrite !Nat.eqb_refl. simpl. rewrite !Nat.eqb_refl. reflexivity.
    Qed.

    Lemma trees_nodup_erase : NoDup (map (fun t => (erase (fst t), snd t)) trees).
    Proof.
      destruct parse_chart as (st & _ & -> & V). unfold prepare_trees. rewrite map_map. cbn [fst snd].
      set (f := fun x : state token pred => (erase (state_node x), (s_start x, s_stop x))).
      assert (COL : forall k, NoDup (map f (column_matches g k st))).
      { intros k. unfold column_matches.
        pose proof (inv_nodup _ _ _ _ _ _ _ V k) as ND.
        assert (OK : forall s, In s (cols st k) -> sok accepts constrain g toks k s)
          by (intros; eapply inv_ok; eauto).
        revert ND OK. generalize (cols st k). intros l. induction l as [|s l IH]; intros ND OK; [constructor|].
        cbn [map] in ND. inversion ND as [|? ? N1 N2]; subst. cbn [filter].
        destruct (completed g s && Nat.eqb (s_rule s) (g_start g)) eqn:C;
          [|apply IH; auto; intros; apply OK; right; auto].
        cbn [map]. constructor; [|apply IH; auto; intros; apply OK; right; auto].
        intros H. apply in_map_iff in H as (s' & E & H). apply filter_In in H as [H C'].
        apply andb_true_iff in C as [C _]. apply andb_true_iff in C' as [C' _].
        apply N1. apply in_map_iff. exists s'. split; auto.
        unfold f, state_node in E. cbn [erase] in E. injection E as E1 E2 E3 E4 E5.
        unfold serase.
        pose proof (completed_dot _ _ _ _ _ _ (OK _ (or_introl eq_refl)) C) as D.
        pose proof (completed_dot _ _ _ _ _ _ (OK _ (or_intror H)) C') as D'.
        rewrite E2 in D'. congruence. }
      unfold matches. destruct all; auto.
      rewrite flat_map_concat_map, concat_map, map_map, <- flat_map_concat_map.
      assert (ST : forall k x, In x (map f (column_matches g k st)) -> snd (snd x) = k).
      { intros k x H. apply in_map_iff in H as (s & <- & H). apply filter_In in H as [H _].
        simpl. apply (inv_ok _ _ _ _ _ _ _ V _ _ H). }
      clear V. generalize 0 as a. generalize (S (length toks)) as n. induction n as [|n IH]; intros a; [constructor|].
      cbn [seq flat_map].
      assert (DIS : forall x, In x (map f (column_matches g a st)) ->
        ~ In x (flat_map (fun k => map f (column_matches g k st)) (seq (S a) n))).
      { intros x H1 H2. apply in_flat_map in H2 as (k & H2 & H3). apply in_seq in H2.
        apply ST in H1. apply ST in H3. lia. }
      specialize (IH (S a)). revert IH DIS. generalize (flat_map (fun k => map f (column_matches g k st)) (seq (S a) n)).
      intros l Hl DIS. pose proof (COL a) as HC. induction (map f (column_matches g a st)) as [|x m IHm]; auto.
      inversion HC; subst. cbn [app]. constructor.
      - intros HI. apply in_app_or in HI as [HI|HI]; auto. apply (DIS x); auto. left. auto.
      - apply IHm; auto. intros; apply DIS; right; auto.
    Qed.

    Lemma trees_nodup : NoDup trees.
    Proof.
      pose proof trees_nodup_erase as H. apply NoDup_map_inv in H. auto.
    Qed.

    Lemma sort_trees_ok : exists r, sort_trees trees [] = Ok r /\ Permutation trees r /\ pairwise tree_before r.
    Proof. apply sort_trees_spec. exact trees_decided. exact trees_nodup. Qed.
  End One.
End Trees.
