(** Match and findall in terms of derivations; agreement of the two. *)
From Coq Require Import Permutation.
From Verif Require Import Base SpanModel EarleyModel EarleySpec EarleyInv EarleyProofs EarleyOrder
  EarleyTerm EarleyMore TokenModel TreeModel ParserModel TreeSpec TreeProofs RelationSpec RelationProofs
  ParserSpec FindallProofs ParserProofs MatchProofs ResultProofs ParserTheorems.
Open Scope nat_scope.

Lemma rank_before_app a b c d : rank_before a b -> rank_before (a ++ c) (b ++ d).
Proof.
  intros (p & x & y & a' & b' & -> & -> & L). exists p, x, y, (a' ++ c), (b' ++ d).
  rewrite <- !app_assoc. auto.
Qed.
Lemma rank_before_prefix p a b : rank_before a b -> rank_before (p ++ a) (p ++ b).
Proof.
  intros (q & x & y & a' & b' & -> & -> & L). exists (p ++ q), x, y, a', b'.
  rewrite <- !app_assoc. auto.
Qed.
Lemma rank_before_head x y a b : x < y -> rank_before (x :: a) (y :: b).
Proof. intros L. exists [], x, y, a, b. auto. Qed.

Lemma index_of_nth q l k : nth_error l k = Some q -> (forall m, nth_error l m = Some q -> k <= m) -> index_of q l = k.
Proof.
  revert k. induction l as [|x l IH]; intros k H M; [destruct k; discriminate|]. cbn [index_of].
  destruct (Nat.eqb_spec q x) as [->|N].
  - specialize (M 0 eq_refl). lia.
  - destruct k as [|k]; [injection H as ->; congruence|]. f_equal. apply IH; auto.
    intros m Hm. specialize (M (S m) Hm). lia.
Qed.
Lemma index_of_filter keep : forall l a b, In a (filter keep l) -> In b (filter keep l) ->
  index_of a (filter keep l) < index_of b (filter keep l) -> index_of a l < index_of b l.
Proof.
  induction l as [|x l IH]; intros a b Ha Hb H; [destruct Ha|]. cbn [filter index_of] in *.
  destruct (keep x) eqn:K.
  - cbn [index_of] in H. destruct Ha as [->|Ha]; [rewrite Nat.eqb_refl in *|];
    destruct Hb as [->|Hb]; try rewrite Nat.eqb_refl in *; try lia.
    + destruct (Nat.eqb_spec b a) as [->|]; lia.
    + destruct (Nat.eqb_spec a x) as [->|]; destruct (Nat.eqb_spec b x) as [->|]; try lia.
      assert (index_of a l < index_of b l) by (apply IH; auto; lia). lia.
  - assert (N : forall q, In q (filter keep l) -> Nat.eqb q x = false).
    { intros q Hq. apply filter_In in Hq as [_ Hq]. apply Nat.eqb_neq. congruence. }
    rewrite !N by auto. assert (index_of a l < index_of b l) by (apply IH; auto). lia.
Qed.

Section Agree.
  Context {pred : Type}.
  Variable accepts : pred -> token -> bool.
  Variable constrain : pred -> token -> token.
  Variable rel : nat -> form -> form -> bool.
  Variable g : grammar token pred.
  Variable toks : list token.

  Notation node := (node token pred).
  Notation tree := (@tree pred).
  Notation amatch := (@amatch pred).
  Notation parse := (parse accepts constrain g).
  Notation match_ := (match_ accepts constrain rel g).
  Notation findall := (findall accepts constrain rel g).
  Notation prepare_match := (prepare_match rel g).
  Notation node_ok := (node_ok accepts constrain g toks).
  Notation nodes_ok := (nodes_ok accepts constrain g toks).
  Notation derives := (derives accepts g toks).

  Definition tokens_of (n : node) : list token := map leaf_tk (tree_leaves n).

  (** The derivation determines the ranks and the leaf tokens. *)
  Lemma node_ok_same :
    (forall t a i j, node_ok t a i j -> forall b j', node_ok t b i j' -> erase a = erase b ->
       j = j' /\ ranks a = ranks b /\ tokens_of a = tokens_of b) /\
    (forall ts ch i j, nodes_ok ts ch i j -> forall ch' j', nodes_ok ts ch' i j' -> map erase ch = map erase ch' ->
       j = j' /\ flat_map ranks ch = flat_map ranks ch' /\
       map leaf_tk (flat_map tree_leaves ch) = map leaf_tk (flat_map tree_leaves ch')).
  Proof.
    apply (node_ok_mutind accepts constrain g toks
      (fun t a i j _ => forall b j', node_ok t b i j' -> erase a = erase b ->
         j = j' /\ ranks a = ranks b /\ tokens_of a = tokens_of b)
      (fun ts ch i j _ => forall ch' j', nodes_ok ts ch' i j' -> map erase ch = map erase ch' ->
         j = j' /\ flat_map ranks ch = flat_map ranks ch' /\
         map leaf_tk (flat_map tree_leaves ch) = map leaf_tk (flat_map tree_leaves ch'))).
    - intros id p i t E A b j' H X. inversion H; subst. split; auto. split; auto.
      unfold tokens_of. cbn. congruence.
    - intros id r q rank ch i j R1 R2 N IH b j' H X. inversion H as [|id' r' q' rank' ch' i' j0 Q1 Q2 N']; subst.
      cbn [erase] in X. injection X as <- X. destruct (IH _ _ N' X) as (-> & B & C). split; auto.
      assert (rank = rank') as -> by (apply Nat.le_antisymm; auto). split; [cbn [ranks]; congruence|exact C].
    - intros i ch' j' H X. inversion H; subst. auto.
    - intros t ts n ns i k j H IH1 H2 IH2 ch' j' H' X.
      inversion H' as [|t' ts' n' ns' i' k' j0 Hn Hns]; subst. cbn [map] in X. injection X as X1 X2.
      destruct (IH1 _ _ Hn X1) as (-> & B & C). destruct (IH2 _ _ Hns X2) as (-> & D & E).
      split; auto. cbn [flat_map]. rewrite !map_app. split; [congruence|]. unfold tokens_of in C. congruence.
  Qed.

  Definition both_before (a b : node) : Prop :=
    rank_before (ranks a) (ranks b) /\ preferred g (erase a) (erase b).

  Lemma node_ok_compare : predict_filters g ->
    (forall t a i j, node_ok t a i j -> forall b j', node_ok t b i j' ->
       erase a = erase b \/ both_before a b \/ both_before b a) /\
    (forall ts ch i j, nodes_ok ts ch i j -> forall ch' j', nodes_ok ts ch' i j' ->
       map erase ch = map erase ch' \/
       (rank_before (flat_map ranks ch) (flat_map ranks ch') /\
        rank_before (flat_map (choices g) (map erase ch)) (flat_map (choices g) (map erase ch'))) \/
       (rank_before (flat_map ranks ch') (flat_map ranks ch) /\
        rank_before (flat_map (choices g) (map erase ch')) (flat_map (choices g) (map erase ch)))).
  Proof.
    intros PF. apply (node_ok_mutind accepts constrain g toks
      (fun t a i j _ => forall b j', node_ok t b i j' ->
         erase a = erase b \/ both_before a b \/ both_before b a)
      (fun ts ch i j _ => forall ch' j', nodes_ok ts ch' i j' ->
       map erase ch = map erase ch' \/
       (rank_before (flat_map ranks ch) (flat_map ranks ch') /\
        rank_before (flat_map (choices g) (map erase ch)) (flat_map (choices g) (map erase ch'))) \/
       (rank_before (flat_map ranks ch') (flat_map ranks ch) /\
        rank_before (flat_map (choices g) (map erase ch')) (flat_map (choices g) (map erase ch))))).
    - intros id p i t E A b j' H. inversion H; subst. auto.
    - intros id r q rank ch i j R1 R2 N IH b j' H. inversion H as [|id' r' q' rank' ch' i' j0 Q1 Q2 N']; subst.
      assert (FL : exists keep, predicted g toks i r = filter keep (g_prods g r)).
      { unfold predicted. destruct (nth_error toks i); auto. exists (fun _ => true).
        symmetry. clear. induction (g_prods g r); cbn; congruence. }
      destruct FL as (keep & FL). rewrite FL in R1, R2, Q1, Q2.
      pose proof (index_of_nth _ _ _ R1 R2) as I1. pose proof (index_of_nth _ _ _ Q1 Q2) as I2.
      pose proof (nth_error_In _ _ R1) as In1. pose proof (nth_error_In _ _ Q1) as In2.
      destruct (Nat.lt_trichotomy rank rank') as [L|[<-|L]].
      + right. left. split; [cbn [ranks]; apply rank_before_head; auto|].
        unfold preferred. cbn [erase choices]. apply rank_before_head.
        apply (index_of_filter keep); auto. congruence.
      + assert (q' = q) by congruence. subst q'. destruct (IH _ _ N') as [X|[[X Y]|[X Y]]].
        * left. cbn [erase]. congruence.
        * right. left. split; [apply (rank_before_prefix [rank]); auto|].
          unfold preferred. cbn [erase choices]. apply (rank_before_prefix [_]); auto.
        * right. right. split; [apply (rank_before_prefix [rank]); auto|].
          unfold preferred. cbn [erase choices]. apply (rank_before_prefix [_]); auto.
      + right. right. split; [cbn [ranks]; apply rank_before_head; auto|].
        unfold preferred. cbn [erase choices]. apply rank_before_head.
        apply (index_of_filter keep); auto. congruence.
    - intros i ch' j' H. inversion H; subst. auto.
    - intros t ts n ns i k j H IH1 H2 IH2 ch' j' H'.
      inversion H' as [|t' ts' n' ns' i' k' j0 Hn Hns]; subst. cbn [map flat_map].
      destruct (IH1 _ _ Hn) as [X|[[X Y]|[X Y]]].
      + destruct (proj1 node_ok_same _ _ _ _ H _ _ Hn X) as (<- & R & _). rewrite <- X, <- R.
        destruct (IH2 _ _ Hns) as [X2|[[X2 Y2]|[X2 Y2]]].
        * left. congruence.
        * right. left. split; apply rank_before_prefix; auto.
        * right. right. split; apply rank_before_prefix; auto.
      + right. left. split; apply rank_before_app; auto.
      + right. right. split; apply rank_before_app; auto.
  Qed.

  (** Rank order is the order of the alternatives as written. *)
  Lemma rank_written t a b i j j' : predict_filters g -> node_ok t a i j -> node_ok t b i j' ->
    (rank_before (ranks a) (ranks b) <-> preferred g (erase a) (erase b)).
  Proof.
    intros PF Ha Hb. destruct (proj1 (node_ok_compare PF) _ _ _ _ Ha _ _ Hb) as [X|[[X Y]|[X Y]]].
    - destruct (proj1 node_ok_same _ _ _ _ Ha _ _ Hb X) as (_ & R & _). unfold preferred. rewrite X, R.
      split; intros B; apply rank_before_irrefl in B; destruct B.
    - tauto.
    - unfold preferred in *. split; intros B; exfalso.
      + eapply rank_before_irrefl. eapply rank_before_trans; eauto.
      + eapply rank_before_irrefl. eapply rank_before_trans; eauto.
  Qed.

  Lemma leaves_erase (n : node) : leaves (erase n) = map leaf_pos (tree_leaves n).
  Proof.
    induction n as [id pos p tk|id r q rank ch IH] using node_ind2; [reflexivity|].
    cbn [erase leaves tree_leaves]. induction IH as [|c ch Hc IH IHch]; [reflexivity|].
    cbn [map flat_map]. rewrite map_app. congruence.
  Qed.

  Lemma no_empty_part_node (n : node) : no_empty_part (erase n) -> no_empty_node n.
  Proof.
    induction n as [id pos p tk|id r q rank ch IH] using node_ind2; [intros _; exact I|].
    cbn [erase no_empty_part no_empty_node]. intros [A B]. split.
    - intros ->. apply A. reflexivity.
    - clear A. induction IH as [|c ch Hc IH IHch]; [exact I|]. destruct B as [B1 B2]. split; [auto|]. apply IHch. exact B2.
  Qed.

  Lemma derives_leaf :
    (forall t i j d, derives t i j d -> forall k, In k (leaves d) -> k < length toks) /\
    (forall ts i j ds, derives_seq accepts g toks ts i j ds -> forall k, In k (flat_map leaves ds) -> k < length toks).
  Proof.
    apply (derives_mutind _ _ accepts g toks
      (fun t i j d _ => forall k, In k (leaves d) -> k < length toks)
      (fun ts i j ds _ => forall k, In k (flat_map leaves ds) -> k < length toks)).
    - intros p i t E A k [<-|[]]. apply nth_error_Some. congruence.
    - intros r q i j ds HI H IH k. cbn [leaves]. auto.
    - intros i k [].
    - intros t ts i k j d ds H IH1 H2 IH2 k'. cbn [flat_map]. rewrite in_app_iff. intros []; auto.
  Qed.

  Section Free.
    Hypothesis RF : relation_free g.
    Hypothesis PS : predict_sound g.
    Hypothesis PC : predict_complete accepts g.
    Hypothesis PF : predict_filters g.
    Hypothesis NN : no_nullable g.

    Lemma derives_pos i j d : derives (TRule (g_start g)) i j d -> no_empty_part d /\ i < j /\ j <= length toks.
    Proof.
      intros D. destruct (proj1 (derives_span accepts g toks) _ _ _ _ D) as (L1 & LV & L2).
      pose proof (proj1 (no_nullable_no_empty accepts g toks NN) _ _ _ _ D) as NE.
      split; auto.
      assert (i < j).
      { destruct (Nat.eq_dec i j) as [E|N]; [|lia]. exfalso.
        eapply NN. eapply (proj1 (derives_empty accepts g toks)); eauto. }
      split; auto. apply L2. apply Nat.lt_le_incl. eapply (proj1 derives_leaf); [exact D|].
      rewrite LV. apply in_seq. lia.
    Qed.



    Lemma tree_facts fuel all trees n i j : parse fuel toks all = Some trees -> In (n, (i, j)) trees ->
      derives (TRule (g_start g)) i j (erase n) /\ i < j /\ j <= length toks /\ propagate n = Some n.
    Proof.
      intros P HT. destruct (parse_sound accepts constrain g fuel toks all trees n i j PS P HT) as (D & _).
      destruct (derives_pos _ _ _ D) as (A & B & C). split; auto. split; auto. split; auto.
      apply propagate_id. apply no_empty_part_node. auto.
    Qed.

    (** What the returned match looks like. *)
    Lemma free_result fuel all trees n i j s s' m : parse fuel toks all = Some trees -> In (n, (i, j)) trees ->
      pristine trees s -> prepare_match (n, (i, j)) s = Ok (s', Some m) ->
      m_root m = n /\ m_range m = (i, j) /\ m_tokens m = tokens_of n /\ get_tokens_span (m_tokens m) = Ok (m_span m).
    Proof.
      intros P HT PR H. destruct (tree_facts _ _ _ _ _ _ P HT) as (D & L & _ & PG).
      destruct (free_prepare accepts constrain rel g toks all fuel trees P (n, (i, j)) s RF PR HT L)
        as (s1 & m1 & E & _ & A & B & C & F).
      cbn [fst snd] in *. rewrite H in E. injection E as <- <-. split; [congruence|]. auto.
    Qed.

    (** Preference between trees of the same range. *)
    Lemma same_range_order fuel all trees n n' i j : parse fuel toks all = Some trees ->
      In (n, (i, j)) trees -> In (n', (i, j)) trees ->
      tree_before (n, (i, j)) (n', (i, j)) <-> preferred g (erase n) (erase n').
    Proof.
      intros P H H'. pose proof (tree_ok _ _ _ _ _ _ _ P _ _ _ H) as OK.
      pose proof (tree_ok _ _ _ _ _ _ _ P _ _ _ H') as OK'.
      rewrite <- (rank_written _ _ _ _ _ _ PF OK OK'). unfold tree_before. intuition lia.
    Qed.

    Lemma preferred_total i j d d' t : derives t i j d -> derives t i j d' -> t = TRule (g_start g) ->
      forall fuel trees, parse fuel toks true = Some trees ->
      d = d' \/ preferred g d d' \/ preferred g d' d.
    Proof.
      intros D D' -> fuel trees P.
      destruct (derives_pos _ _ _ D) as (A & B & C). destruct (derives_pos _ _ _ D') as (A' & _).
      destruct (parse_complete accepts constrain g fuel toks true trees i j d PC P D A) as (n & Hn & <-); auto; [lia|].
      destruct (parse_complete accepts constrain g fuel toks true trees i j d' PC P D' A') as (n' & Hn' & <-); auto; [lia|].
      pose proof (tree_ok _ _ _ _ _ _ _ P _ _ _ Hn) as OK. pose proof (tree_ok _ _ _ _ _ _ _ P _ _ _ Hn') as OK'.
      destruct (proj1 (node_ok_compare PF) _ _ _ _ OK _ _ OK') as [X|[[_ X]|[_ X]]]; auto.
    Qed.

    (** Without [PF]: which ranges are reported, and that the reported trees are
        derivations. *)
    Lemma free_match_ranges fuel r : start_not_used g -> match_ fuel toks = Some r ->
      (exists s m, r = Ok (s, Some m) /\ m_range m = (0, length toks) /\
         derives (TRule (g_start g)) 0 (length toks) (erase (m_root m))) \/
      (r = Ok ([], None) /\ forall d, ~ derives (TRule (g_start g)) 0 (length toks) d).
    Proof.
      intros NU H. destruct (match_spec accepts constrain rel g fuel toks r H) as (trees & P & CASES).
      assert (ACC : forall t s, In t trees -> prepare_match t [] <> Ok (s, None)).
      { intros t s HT. apply (free_no_reject accepts constrain rel g toks false fuel trees P t []); auto.
        apply pristine_nil. }
      destruct CASES as [([n [i j]] & s & m & -> & HT & E & LEAST)|[([n [i j]] & e & -> & HT & E & LEAST)|[-> REJ]]].
      - left. exists s, m. split; auto.
        destruct (whole_text accepts constrain g fuel toks trees n i j NU P HT) as [-> ->].
        destruct (free_result _ _ _ _ _ _ _ _ _ P HT (pristine_nil trees) E) as (R1 & R2 & _).
        destruct (tree_facts _ _ _ _ _ _ P HT) as (D & _). rewrite R1. auto.
      - exfalso. destruct (tree_facts _ _ _ _ _ _ P HT) as (D & L & _).
        destruct (free_prepare accepts constrain rel g toks false fuel trees P (n, (i, j)) [] RF (pristine_nil trees) HT L)
          as (s1 & m1 & E1 & _). rewrite E in E1. discriminate.
      - right. split; auto. intros d D. destruct (derives_pos _ _ _ D) as (A & _).
        destruct (parse_complete accepts constrain g fuel toks false trees 0 _ d PC P D A) as (n & HT & _); auto; [lia|].
        eapply ACC; eauto.
    Qed.
    Lemma free_findall_ranges fuel r : findall fuel toks = Some r ->
      exists s ms, r = Ok (s, ms) /\
        best_ranges (fun r => exists d, derives (TRule (g_start g)) (fst r) (snd r) d) (map m_range ms) /\
        (forall m, In m ms ->
           derives (TRule (g_start g)) (fst (m_range m)) (snd (m_range m)) (erase (m_root m))).
    Proof.
      intros H. destruct (parse fuel toks true) as [trees|] eqn:P.
      2:{ unfold ParserModel.findall in H. rewrite P in H. discriminate. }
      destruct (free_findall_ok accepts constrain rel g fuel toks trees RF P) as (s & ms & E).
      { intros n i j HT. destruct (tree_facts _ _ _ _ _ _ P HT) as (_ & L & _). auto. }
      rewrite E in H. injection H as <-. exists s, ms. split; auto.
      destruct (findall_spec accepts constrain rel g fuel toks s ms (pristine trees) trees E P (pristine_nil trees))
        as (found & F1 & F2 & F3 & F4 & F5 & F6).
      { intros t s0 s' m HT PR. eapply free_step; eauto. }
      assert (REJ : forall t s, In t trees -> pristine trees s -> forall s', prepare_match t s <> Ok (s', None)).
      { intros t s0 HT PR s'. apply (free_no_reject accepts constrain rel g toks true fuel trees P t s0); auto. }
      assert (CAND : forall r, In r (map fst found) <-> exists d, derives (TRule (g_start g)) (fst r) (snd r) d).
      { intros r. split.
        - intros HI. apply in_map_iff in HI as ([r' m] & <- & HI). destruct (F2 _ _ HI) as ([n [i j]] & s1 & s2 & HT & <- & _).
          cbn [fst snd]. exists (erase n). apply (tree_facts _ _ _ _ _ _ P HT).
        - intros (d & D). destruct (derives_pos _ _ _ D) as (A & B & C). destruct r as [i j]. cbn [fst snd] in *.
          destruct (parse_complete accepts constrain g fuel toks true trees i j d PC P D A) as (n & HT & _); auto; [lia|].
          destruct (in_dec (fun a b : nat * nat => ltac:(decide equality; apply Nat.eq_dec)) (i, j) (map fst found)) as [X|X]; auto.
          exfalso. destruct (F3 _ HT X) as (s3 & PR & RJ). eapply REJ; eauto. }
      split.
      - destruct F5 as (B1 & B2 & B3 & B4). unfold best_ranges. split; auto. split.
        + intros r Hr. apply CAND. auto.
        + split; intros S LR IN; [apply B3; auto|apply B4; auto]; intros r Hr; apply CAND; auto.
      - intros m Hm. apply F4 in Hm. destruct (F2 _ _ Hm) as ([n [i j]] & s1 & s2 & HT & ER & PR & EM & LEAST).
        destruct (free_result _ _ _ _ _ _ _ _ _ P HT PR EM) as (R1 & R2 & R3 & R4).
        rewrite R1, R2. cbn [fst snd]. apply (tree_facts _ _ _ _ _ _ P HT).
    Qed.

    (** match returns the preferred derivation of the whole text. *)
    Lemma free_match fuel r : start_not_used g -> match_ fuel toks = Some r ->
      (exists s m, r = Ok (s, Some m) /\ m_range m = (0, length toks) /\
         derives (TRule (g_start g)) 0 (length toks) (erase (m_root m)) /\
         (forall d, derives (TRule (g_start g)) 0 (length toks) d ->
            d = erase (m_root m) \/ preferred g (erase (m_root m)) d)) \/
      (r = Ok ([], None) /\ forall d, ~ derives (TRule (g_start g)) 0 (length toks) d).
    Proof.
      intros NU H. destruct (match_spec accepts constrain rel g fuel toks r H) as (trees & P & CASES).
      assert (IN : forall d, derives (TRule (g_start g)) 0 (length toks) d ->
                exists n, In (n, (0, length toks)) trees /\ erase n = d).
      { intros d D. destruct (derives_pos _ _ _ D) as (A & _).
        apply (parse_complete accepts constrain g fuel toks false trees 0 _ d PC P D A); auto. lia. }
      assert (ACC : forall t s, In t trees -> prepare_match t [] <> Ok (s, None)).
      { intros t s HT. apply (free_no_reject accepts constrain rel g toks false fuel trees P t []); auto.
        apply pristine_nil. }
      destruct CASES as [([n [i j]] & s & m & -> & HT & E & LEAST)|[([n [i j]] & e & -> & HT & E & LEAST)|[-> REJ]]].
      - left. exists s, m. split; auto.
        destruct (whole_text accepts constrain g fuel toks trees n i j NU P HT) as [-> ->].
        destruct (free_result _ _ _ _ _ _ _ _ _ P HT (pristine_nil trees) E) as (R1 & R2 & _).
        destruct (tree_facts _ _ _ _ _ _ P HT) as (D & _). rewrite R1. split; auto. split; auto.
        intros d Dd. destruct (IN d Dd) as (n' & HT' & <-).
        pose proof (tree_ok _ _ _ _ _ _ _ P _ _ _ HT) as OK. pose proof (tree_ok _ _ _ _ _ _ _ P _ _ _ HT') as OK'.
        destruct (proj1 (node_ok_compare PF) _ _ _ _ OK _ _ OK') as [X|[[X Y]|[X Y]]]; auto.
        exfalso. eapply (ACC (n', (0, length toks))); auto. apply LEAST; auto. right. split; auto.
      - exfalso. destruct (tree_facts _ _ _ _ _ _ P HT) as (D & L & _).
        destruct (free_prepare accepts constrain rel g toks false fuel trees P (n, (i, j)) [] RF (pristine_nil trees) HT L)
          as (s1 & m1 & E1 & _). rewrite E in E1. discriminate.
      - right. split; auto. intros d D. destruct (IN d D) as (n & HT & _). eapply ACC; eauto.
    Qed.

    (** findall returns, for the best choice of ranges with a derivation, the
        preferred derivation of each range. *)
    Lemma free_findall fuel r : findall fuel toks = Some r ->
      exists s ms, r = Ok (s, ms) /\
        best_ranges (fun r => exists d, derives (TRule (g_start g)) (fst r) (snd r) d) (map m_range ms) /\
        (forall m, In m ms ->
           derives (TRule (g_start g)) (fst (m_range m)) (snd (m_range m)) (erase (m_root m)) /\
           forall d, derives (TRule (g_start g)) (fst (m_range m)) (snd (m_range m)) d ->
             d = erase (m_root m) \/ preferred g (erase (m_root m)) d) /\
        (forall trees, parse fuel toks true = Some trees -> forall m, In m ms ->
           In (m_root m, m_range m) trees /\ m_tokens m = tokens_of (m_root m) /\
           get_tokens_span (m_tokens m) = Ok (m_span m)).
    Proof.
      intros H. destruct (parse fuel toks true) as [trees|] eqn:P.
      2:{ unfold ParserModel.findall in H. rewrite P in H. discriminate. }
      destruct (free_findall_ok accepts constrain rel g fuel toks trees RF P) as (s & ms & E).
      { intros n i j HT. destruct (tree_facts _ _ _ _ _ _ P HT) as (_ & L & _). auto. }
      rewrite E in H. injection H as <-. exists s, ms. split; auto.
      destruct (findall_spec accepts constrain rel g fuel toks s ms (pristine trees) trees E P (pristine_nil trees))
        as (found & F1 & F2 & F3 & F4 & F5 & F6).
      { intros t s0 s' m HT PR. eapply free_step; eauto. }
      assert (REJ : forall t s, In t trees -> pristine trees s -> forall s', prepare_match t s <> Ok (s', None)).
      { intros t s0 HT PR s'. apply (free_no_reject accepts constrain rel g toks true fuel trees P t s0); auto. }
      assert (CAND : forall r, In r (map fst found) <-> exists d, derives (TRule (g_start g)) (fst r) (snd r) d).
      { intros r. split.
        - intros HI. apply in_map_iff in HI as ([r' m] & <- & HI). destruct (F2 _ _ HI) as ([n [i j]] & s1 & s2 & HT & <- & _).
          cbn [fst snd]. exists (erase n). apply (tree_facts _ _ _ _ _ _ P HT).
        - intros (d & D). destruct (derives_pos _ _ _ D) as (A & B & C). destruct r as [i j]. cbn [fst snd] in *.
          destruct (parse_complete accepts constrain g fuel toks true trees i j d PC P D A) as (n & HT & _); auto; [lia|].
          destruct (in_dec (fun a b : nat * nat => ltac:(decide equality; apply Nat.eq_dec)) (i, j) (map fst found)) as [X|X]; auto.
          exfalso. destruct (F3 _ HT X) as (s3 & PR & RJ). eapply REJ; eauto. }
      assert (DET : forall m, In m ms -> In (m_root m, m_range m) trees /\ m_tokens m = tokens_of (m_root m) /\
         get_tokens_span (m_tokens m) = Ok (m_span m) /\
         forall u, In u trees -> snd u = m_range m -> ~ tree_before u (m_root m, m_range m)).
      { intros m Hm. apply F4 in Hm. destruct (F2 _ _ Hm) as ([n [i j]] & s1 & s2 & HT & ER & PR & EM & LEAST).
        cbn [snd] in ER. destruct (free_result _ _ _ _ _ _ _ _ _ P HT PR EM) as (R1 & R2 & R3 & R4).
        rewrite R1, R2. split; auto. split; auto. split; auto. intros u Hu EU BF.
        destruct (LEAST u Hu) as (s3 & PR3 & RJ); [congruence|congruence|]. eapply REJ; eauto. }
      split; [|split].
      - destruct F5 as (B1 & B2 & B3 & B4). unfold best_ranges. split; auto. split.
        + intros r Hr. apply CAND. auto.
        + split; intros S LR IN; [apply B3; auto|apply B4; auto]; intros r Hr; apply CAND; auto.
      - intros m Hm. destruct (DET m Hm) as (HT & _ & _ & LEAST). destruct (m_range m) as [i j] eqn:ER.
        cbn [fst snd]. destruct (tree_facts _ _ _ _ _ _ P HT) as (D & _ & LE & _). split; auto.
        intros d Dd. destruct (derives_pos _ _ _ Dd) as (A & B & C).
        destruct (parse_complete accepts constrain g fuel toks true trees i j d PC P Dd A) as (n & HN & <-); auto; [lia|].
        pose proof (tree_ok _ _ _ _ _ _ _ P _ _ _ HT) as OK. pose proof (tree_ok _ _ _ _ _ _ _ P _ _ _ HN) as OK'.
        destruct (proj1 (node_ok_compare PF) _ _ _ _ OK _ _ OK') as [X|[[X Y]|[X Y]]]; auto.
        exfalso. eapply (LEAST (n, (i, j))); auto. right. split; auto.
      - intros trees' [= <-] m Hm. destruct (DET m Hm) as (A & B & C & _). auto.
    Qed.

    Lemma whole_best out n : 0 < n -> best_ranges (fun r => exists d, derives (TRule (g_start g)) (fst r) (snd r) d) out ->
      n = length toks -> (exists d, derives (TRule (g_start g)) 0 n d) -> out = [(0, n)].
    Proof.
      intros POS (B1 & B2 & B3 & B4) -> D.
      assert (LR : left_to_right 0 [(0, length toks)]) by (cbn; lia).
      assert (IN : forall r, In r [(0, length toks)] -> exists d, derives (TRule (g_start g)) (fst r) (snd r) d).
      { intros r [<-|[]]. auto. }
      assert (COV : forall l from, left_to_right from l -> (forall r, In r l -> snd r <= length toks) ->
                from <= length toks -> covered l <= length toks - from).
      { clear. induction l as [|[i j] l IH]; intros from LR BD LE; [cbn; lia|].
        cbn [left_to_right] in LR. destruct LR as (A & B & C).
        assert (j <= length toks) by (apply (BD (i, j)); left; auto).
        specialize (IH j C (fun r Hr => BD r (or_intror Hr)) H). unfold covered in *. cbn [map list_sum fold_right fst snd].
        change (fold_right Init.Nat.add 0 (map (fun r : nat * nat => snd r - fst r) l)) with (list_sum (map (fun r : nat * nat => snd r - fst r) l)).
        lia. }
      assert (BD : forall r, In r out -> snd r <= length toks).
      { intros r Hr. destruct (B2 r Hr) as (d & Dd). apply derives_pos in Dd. lia. }
      pose proof (COV out 0 B1 BD ltac:(lia)) as C1. pose proof (B3 _ LR IN) as C2.
      assert (C3 : covered [(0, length toks)] = length toks) by (unfold covered; cbn; lia).
      destruct (B4 _ LR IN) as [E|(p & x & y & a' & b' & E1 & E2 & RB)]; [lia|congruence|].
      exfalso. destruct p as [|z p]; cbn [app] in E2.
      - injection E2 as <- <-. destruct RB as [RB|[_ RB]]; cbn [fst snd] in RB; [lia|].
        specialize (BD x). rewrite E1 in BD. specialize (BD (or_introl eq_refl)). lia.
      - injection E2 as _ E2. destruct p; discriminate.
    Qed.

    (** match and findall give the same result on the whole text. *)
    Lemma free_agree fuel fuel' s m r : match_ fuel toks = Some (Ok (s, Some m)) -> m_range m = (0, length toks) ->
      findall fuel' toks = Some r ->
      exists s' m', r = Ok (s', [m']) /\ m_range m' = (0, length toks) /\
        erase (m_root m') = erase (m_root m) /\ m_tokens m' = m_tokens m /\ m_span m' = m_span m.
    Proof.
      intros HM ER HF.
      destruct (match_spec accepts constrain rel g fuel toks _ HM) as (trees & P & CASES).
      destruct CASES as [([n [i j]] & s1 & m1 & X & HT & E & LEAST)|[(t & e & X & _)|[X _]]];
        [injection X as <- <-|discriminate|discriminate].
      destruct (free_result _ _ _ _ _ _ _ _ _ P HT (pristine_nil trees) E) as (R1 & R2 & R3 & R4).
      rewrite R2 in ER. injection ER as -> ->.
      destruct (tree_facts _ _ _ _ _ _ P HT) as (D & POS & _).
      destruct (free_findall fuel' r HF) as (s' & ms & -> & BR & BD & DET).
      assert (OUT : map m_range ms = [(0, length toks)]) by (eapply whole_best; eauto).
      destruct ms as [|m' [|]]; try discriminate. cbn [map] in OUT. injection OUT as EM.
      exists s', m'. split; auto. split; auto.
      destruct (BD m' (or_introl eq_refl)) as (D' & BEST). rewrite EM in D', BEST. cbn [fst snd] in D', BEST.
      destruct (parse fuel' toks true) as [trees'|] eqn:P'.
      2:{ unfold ParserModel.findall in HF. rewrite P' in HF. discriminate. }
      destruct (DET _ eq_refl m' (or_introl eq_refl)) as (HT' & T' & S'). rewrite EM in HT'.
      assert (EQ : erase (m_root m') = erase n).
      { destruct (BEST (erase n) D) as [X|X]; auto. exfalso.
        destruct (derives_pos _ _ _ D') as (A & _).
        destruct (parse_complete accepts constrain g fuel toks false trees 0 _ _ PC P D' A) as (n' & HN & EN); auto; [lia|].
        eapply (free_no_reject accepts constrain rel g toks false fuel trees P (n', (0, length toks)) []); auto using pristine_nil.
        apply LEAST; auto. apply (proj2 (same_range_order fuel false trees n' n 0 (length toks) P HN HT)). rewrite EN. auto. }
      pose proof (tree_ok _ _ _ _ _ _ _ P _ _ _ HT) as OK. pose proof (tree_ok _ _ _ _ _ _ _ P' _ _ _ HT') as OK'.
      destruct (proj1 node_ok_same _ _ _ _ OK' _ _ OK EQ) as (_ & _ & TK).
      split; [congruence|]. split; [congruence|]. assert (m_tokens m' = m_tokens m) as X by congruence.
      rewrite X in S'. congruence.
    Qed.
  End Free.

  (** Trees of match among the trees of extract/findall. *)
  Lemma trees_agree fuel fuel' trees trees' n : predict_sound g -> predict_complete accepts g ->
    parse fuel toks false = Some trees -> parse fuel' toks true = Some trees' ->
    In (n, (0, length toks)) trees -> no_empty_part (erase n) ->
    exists n', In (n', (0, length toks)) trees' /\ erase n' = erase n /\ ranks n' = ranks n /\
      tokens_of n' = tokens_of n.
  Proof.
    intros PS PC P P' HT NE. destruct (parse_sound accepts constrain g fuel toks false trees n _ _ PS P HT) as (D & _).
    destruct (parse_complete accepts constrain g fuel' toks true trees' 0 _ _ PC P' D NE) as (n' & HN & EN); auto; [lia|].
    exists n'. split; auto. split; auto.
    pose proof (tree_ok _ _ _ _ _ _ _ P _ _ _ HT) as OK. pose proof (tree_ok _ _ _ _ _ _ _ P' _ _ _ HN) as OK'.
    destruct (proj1 node_ok_same _ _ _ _ OK' _ _ OK EN) as (_ & R & TK). auto.
  Qed.

  (** The tokens of every match. *)
  Definition good_match (m : amatch) : Prop :=
    Forall2 (stands_for_token toks) (seq (fst (m_range m)) (snd (m_range m) - fst (m_range m))) (m_tokens m) /\
    exists a b, nth_error toks (fst (m_range m)) = Some a /\ nth_error toks (snd (m_range m) - 1) = Some b /\
      fst (m_range m) < snd (m_range m) /\ m_span m = (t_start a, t_stop b).

  Lemma prepare_good fuel all trees t s s' m : predicates_narrow accepts constrain ->
    parse fuel toks all = Some trees -> In t trees -> good_store toks trees s ->
    prepare_match t s = Ok (s', Some m) -> good_store toks trees s' /\ good_match m.
  Proof.
    intros PN P HT GS H.
    destruct (match_tokens_good accepts constrain rel g toks all fuel trees P t s s' m HT GS H) as [A B].
    split; auto. split; auto.
    destruct t as [n [i j]].
    destruct (prepare_match_inv rel g _ _ _ _ _ H (tree_nodup_id _ _ _ _ _ _ _ P _ HT) (tree_nodup_pos _ _ _ _ _ _ _ P _ HT))
        as (rl & gr & M1 & M2 & M3 & M4 & M5 & M6 & M7 & M8 & M9 & M10).
    destruct (span_of_tokens toks _ _ _ _ B M8) as (a & b & X & Y & Z & W).
    exists a, b. split; auto. split; [|split; [lia|auto]].
    rewrite <- Y. f_equal. lia.
  Qed.

  Lemma match_good fuel s m : predicates_narrow accepts constrain ->
    match_ fuel toks = Some (Ok (s, Some m)) -> good_match m.
  Proof.
    intros PN H. destruct (match_spec accepts constrain rel g fuel toks _ H) as (trees & P & CASES).
    destruct CASES as [(t & s1 & m1 & X & HT & E & _)|[(t & e & X & _)|[X _]]];
      [injection X as <- <-|discriminate|discriminate].
    eapply prepare_good; eauto. eapply good_nil; eauto.
  Qed.

  Lemma findall_good fuel s ms m : predicates_narrow accepts constrain ->
    findall fuel toks = Some (Ok (s, ms)) -> In m ms -> good_match m.
  Proof.
    intros PN H HI. destruct (parse fuel toks true) as [trees|] eqn:P.
    2:{ unfold ParserModel.findall in H. rewrite P in H. discriminate. }
    destruct (findall_spec accepts constrain rel g fuel toks s ms (good_store toks trees) trees H P)
      as (found & F1 & F2 & F3 & F4 & F5 & F6).
    { eapply good_nil; eauto. }
    { intros t s0 s' m0 HT GS E. eapply prepare_good; eauto. }
    destruct (F2 _ _ (F4 _ HI)) as (t & s1 & s2 & HT & _ & GS & E & _). eapply prepare_good; eauto.
  Qed.

  Lemma extract_good fuel all ms s e m : predicates_narrow accepts constrain ->
    extract accepts constrain rel g fuel toks all = Some (ms, s, e) -> In m ms -> good_match m.
  Proof.
    intros PN H HI. unfold extract in H. destruct (parse fuel toks all) as [trees|] eqn:P; [|discriminate].
    injection H as H.
    assert (G : forall l s0, incl l trees -> good_store toks trees s0 -> forall ms s e,
       prepare_matches rel g l s0 = (ms, s, e) -> In m ms -> good_match m).
    { induction l as [|t l IH]; intros s0 IC GS ms0 s1 e1 E HM; cbn [prepare_matches] in E.
      - injection E as <- <- <-. destruct HM.
      - assert (HT : In t trees) by (apply IC; left; auto).
        assert (IC' : incl l trees) by (intros x Hx; apply IC; right; auto).
        destruct (prepare_match t s0) as [[s2 [m2|]]|] eqn:EP.
        + destruct (prepare_matches rel g l s2) as [[ms2 s3] e2] eqn:E2. injection E as <- <- <-.
          destruct (prepare_good fuel all trees t s0 s2 m2 PN P HT GS EP) as [G1 G2].
          destruct HM as [<-|HM]; auto. eapply IH; eauto.
        + pose proof (prepare_match_none rel g _ _ _ EP) as ->. eapply IH; eauto.
        + injection E as <- <- <-. destruct HM. }
    eapply G; eauto. { intros x; auto. } eapply good_nil; eauto.
  Qed.
End Agree.
