(** The order on trees of one chart. *)
From Verif Require Import Base EarleyModel EarleySpec EarleyInv EarleyProofs.

Fixpoint node_size {token pred} (n : node token pred) : nat :=
  match n with
  | Leaf _ _ _ _ => 1
  | Node _ _ _ _ ch => S (list_sum (map node_size ch))
  end.

Section Order.
  Context {token pred : Type}.
  Variable accepts : pred -> token -> bool.
  Variable constrain : pred -> token -> token.
  Variable g : grammar token pred.
  Variable toks : list token.

  Notation state := (state token pred).
  Notation cst := (cst token pred).
  Notation node := (node token pred).
  Notation predicted := (predicted g toks).
  Notation completed := (completed g).
  Notation Inv := (Inv accepts constrain g toks).
  Notation sok := (sok accepts constrain g toks).
  Notation node_ok := (node_ok accepts constrain g toks).
  Notation nodes_ok := (nodes_ok accepts constrain g toks).

  Variable K I : nat.
  Variable st : cst.
  Hypothesis V : Inv K I st.

  Definition chart_node (c : node) (r i j : nat) : Prop :=
    exists q, In q (cols st j) /\ completed q = true /\ s_start q = i /\ s_rule q = r /\
              c = state_node q.

  Inductive kids : list (term pred) -> list node -> nat -> nat -> Prop :=
  | kids_nil i : kids [] [] i i
  | kids_leaf id p i tk ts ns j : kids ts ns (S i) j ->
      kids (TPred p :: ts) (Leaf id i p tk :: ns) i j
  | kids_node c r i k ts ns j : chart_node c r i k -> kids ts ns k j ->
      kids (TRule r :: ts) (c :: ns) i j.

  Lemma kids_app ts1 ts2 ns1 ns2 i k j :
    kids ts1 ns1 i k -> kids ts2 ns2 k j -> kids (ts1 ++ ts2) (ns1 ++ ns2) i j.
  Proof.
    intros H; induction H; intros; simpl; auto; econstructor; eauto.
  Qed.

  Lemma nodes_ok_snoc_inv ns1 n : forall ts i j,
    nodes_ok ts (ns1 ++ [n]) i j ->
    exists ts1 t m, ts = ts1 ++ [t] /\ nodes_ok ts1 ns1 i m /\ node_ok t n m j.
  Proof.
    induction ns1 as [|x ns1 IH]; intros ts i j H; simpl in H; inversion H; subst.
    - match goal with H : nodes_ok _ [] _ _ |- _ => inversion H; subst end.
      exists [], t, i. split; [auto|]. split; [constructor|auto].
    - match goal with H : nodes_ok _ (_ ++ _) _ _ |- _ =>
        destruct (IH _ _ _ H) as (ts1 & t' & m & -> & A & B) end.
      exists (t :: ts1), t', m. split; [auto|]. split; [econstructor; eauto|auto].
  Qed.

  Lemma state_kids : forall n k s, length (s_children s) = n -> In s (cols st k) ->
    kids (firstn (s_dot s) (g_terms g (s_prod s))) (s_children s) (s_start s) k.
  Proof.
    induction n as [|n IH]; intros k s HL Hs.
    - destruct (inv_ok _ _ _ _ _ _ _ V _ _ Hs) as (A1 & A2 & A3 & A4 & A5 & A6).
      destruct (s_children s); [|discriminate].
      inversion A6; subst. rewrite H2. constructor.
    - pose proof (inv_ok _ _ _ _ _ _ _ V _ _ Hs) as OK.
      destruct OK as (A1 & A2 & A3 & A4 & A5 & A6).
      destruct (inv_prov _ _ _ _ _ _ _ V _ _ Hs) as
        [N|(cs & c & p & m & i & B1 & B2 & B3 & B4 & B5 & B6 & B7 & B8)].
      { rewrite N in HL. discriminate. }
      rewrite B1 in *. rewrite app_length in HL. simpl in HL.
      pose proof (nth_error_In _ _ B2) as Hp.
      pose proof (inv_ok _ _ _ _ _ _ _ V _ _ Hp) as (C1 & C2 & C3 & C4 & C5 & C6).
      destruct (nodes_ok_snoc_inv _ _ _ _ _ A6) as (ts1 & t & m' & E & N1 & N2).
      specialize (IH m p). rewrite B7 in IH.
      rewrite B4, B5, B7 in *.
      assert (m = m' /\ firstn (s_dot p) (g_terms g (s_prod s)) = ts1) as [<- <-].
      { destruct (proj2 (node_ok_det accepts constrain g toks) _ _ _ _ C6 _ _ _ N1); auto. }
      rewrite E. eapply kids_app.
      + apply IH; auto. lia.
      + destruct B8 as [(id & pr & tk & -> & -> & _)|(q & D1 & D2 & D3 & D4 & ->)].
        * inversion N2; subst. constructor. constructor.
        * inversion N2; subst. econstructor; [|constructor].
          exists q. auto.
  Qed.

  Lemma chart_node_ok c r i j : chart_node c r i j -> node_ok (TRule r) c i j.
  Proof.
    intros (q & H1 & H2 & <- & <- & ->). apply completed_node_ok; auto.
    eapply inv_ok; eauto.
  Qed.

  Lemma chart_node_kids id r' q rank ch r i j :
    chart_node (Node id r' q rank ch) r i j -> kids (g_terms g q) ch i j.
  Proof.
    intros (s & H1 & H2 & <- & <- & E). injection E as -> -> -> -> ->.
    pose proof (state_kids _ _ _ eq_refl H1) as KS.
    apply completed_iff in H2. rewrite firstn_all2 in KS; auto.
  Qed.

  Lemma chart_node_id a b r i j r' i' j' :
    chart_node a r i j -> chart_node b r' i' j' -> node_id a = node_id b -> a = b.
  Proof.
    intros (p & H1 & _ & _ & _ & ->) (q & H1' & _ & _ & _ & ->) E. simpl in E.
    destruct (inv_log _ _ _ _ _ _ _ V) as (log & _ & L).
    pose proof (proj1 (L _ _ H1)). pose proof (proj1 (L _ _ H1')). congruence.
  Qed.

  Lemma chart_node_erase a b r i j r' j' :
    chart_node a r i j -> chart_node b r' i j' -> erase a = erase b -> a = b.
  Proof.
    intros Ha Hb E.
    pose proof (chart_node_ok _ _ _ _ Ha) as Oa. pose proof (chart_node_ok _ _ _ _ Hb) as Ob.
    destruct (proj1 (node_ok_det accepts constrain g toks) _ _ _ _ Oa _ _ _ Ob E) as [<- _].
    destruct Ha as (p & H1 & H2 & H3 & _ & ->), Hb as (q & H1' & H2' & H3' & _ & ->).
    simpl in E. injection E as E1 E2 E3.
    f_equal. eapply serase_inj; eauto. unfold serase.
    pose proof (completed_dot _ _ _ _ _ _ (inv_ok _ _ _ _ _ _ _ V _ _ H1) H2).
    pose proof (completed_dot _ _ _ _ _ _ (inv_ok _ _ _ _ _ _ _ V _ _ H1') H2').
    rewrite E2 in *. congruence.
  Qed.

  Lemma chart_node_span a r i j r' i' j' :
    chart_node a r i j -> chart_node a r' i' j' -> i = i' -> j = j'.
  Proof.
    intros Ha Hb <-.
    apply (proj1 (node_ok_det accepts constrain g toks) _ _ _ _
      (chart_node_ok _ _ _ _ Ha) _ _ _ (chart_node_ok _ _ _ _ Hb) eq_refl).
  Qed.

  Lemma first_difference_app p a b x y :
    first_difference a b x y -> first_difference (p ++ a) (p ++ b) x y.
  Proof.
    intros (q & a' & b' & -> & -> & N). exists (p ++ q), a', b'.
    rewrite !app_assoc. auto.
  Qed.

  Lemma first_difference_suffix a b a' b' x y :
    first_difference a b x y -> first_difference (a ++ a') (b ++ b') x y.
  Proof.
    intros (q & u & v & -> & -> & N). exists q, (u ++ a'), (v ++ b').
    rewrite <- !app_assoc. auto.
  Qed.

  Definition decided (a b : node) : Prop :=
    exists x y, first_difference (ranks a) (ranks b) x y /\ node_lt a b = Ok (Nat.ltb x y).

  Lemma children_order ts :
    forall ca i ja, kids ts ca i ja -> forall cb jb, kids ts cb i jb ->
    (forall x y r i jx jy, In x ca -> chart_node x r i jx -> chart_node y r i jy ->
       x = y \/ decided x y) ->
    (map erase ca = map erase cb /\ children_lt node_lt ca cb = Ok false) \/
    (exists x y, first_difference (flat_map ranks ca) (flat_map ranks cb) x y /\
       children_lt node_lt ca cb = Ok (Nat.ltb x y)).
  Proof.
    intros ca i ja H; induction H as [i|id p i tk ts ns j H IH|c r i k ts ns j Hc H IH];
      intros cb jb Hb D.
    - inversion Hb; subst. left. auto.
    - inversion Hb as [|id' p' i' tk' ts' ns' j' H'|]; subst.
      destruct (IH _ _ H') as [[E1 E2]|(x & y & E1 & E2)].
      + intros; apply (D x y r i0 jx jy); simpl; auto.
      + left. simpl. rewrite E1. auto.
      + right. exists x, y. simpl. auto.
    - inversion Hb as [| |c' r' i' k' ts' ns' j' Hc' H']; subst.
      destruct c as [|ic rc qc kc chc]; [destruct Hc as (? & _ & _ & _ & _ & E); discriminate|].
      destruct c' as [|ic' rc' qc' kc' chc'];
        [destruct Hc' as (? & _ & _ & _ & _ & E); discriminate|].
      cbn [children_lt node_id].
      destruct (Nat.eqb ic ic') eqn:EI.
      + apply Nat.eqb_eq in EI.
        pose proof (chart_node_id _ _ _ _ _ _ _ _ Hc Hc' EI) as EQ.
        rewrite <- EQ in *.
        assert (k = k') by (eapply chart_node_span; eauto). subst k'.
        destruct (IH _ _ H') as [[E1 E2]|(x & y & E1 & E2)].
        * intros; apply (D x y r0 i0 jx jy); simpl; auto.
        * left. cbn [map]. rewrite E1. auto.
        * right. exists x, y. split; auto. cbn [flat_map]. apply first_difference_app. auto.
      + apply Nat.eqb_neq in EI. right.
        destruct (Nat.ltb kc kc') eqn:L1.
        { exists kc, kc'. split; [|rewrite L1; auto]. apply Nat.ltb_lt in L1.
          exists [], (flat_map ranks chc ++ flat_map ranks ns),
                     (flat_map ranks chc' ++ flat_map ranks ns').
          simpl. split; [auto|]. split; [auto|lia]. }
        destruct (Nat.ltb kc' kc) eqn:L2.
        { exists kc, kc'. split; [|rewrite L1; auto]. apply Nat.ltb_lt in L2.
          exists [], (flat_map ranks chc ++ flat_map ranks ns),
                     (flat_map ranks chc' ++ flat_map ranks ns').
          simpl. split; [auto|]. split; [auto|lia]. }
        destruct (D (Node ic rc qc kc chc) (Node ic' rc' qc' kc' chc') r i k k')
          as [E|(x & y & E1 & E2)]; simpl; auto.
        * injection E as E. congruence.
        * exists x, y. split; auto.
          apply (first_difference_suffix _ _ _ _ _ _ E1).
  Qed.

  (** Two different trees of one rule from one start position are ordered by
      the first difference of their alternative numbers. *)
  Lemma node_order : forall n a b r i ja jb, node_size a < n ->
    chart_node a r i ja -> chart_node b r i jb -> a = b \/ decided a b.
  Proof.
    induction n as [|n IH]; intros a b r i ja jb SZ Ha Hb; [lia|].
    destruct a as [|ia ra qa ka ca]; [destruct Ha as (? & _ & _ & _ & _ & E); discriminate|].
    destruct b as [|ib rb qb kb cb]; [destruct Hb as (? & _ & _ & _ & _ & E); discriminate|].
    pose proof (chart_node_ok _ _ _ _ Ha) as Oa. pose proof (chart_node_ok _ _ _ _ Hb) as Ob.
    assert (ra = r /\ rb = r) as [-> ->] by (inversion Oa; inversion Ob; subst; auto).
    destruct (Nat.eq_dec ia ib) as [E|NI].
    { left. eapply chart_node_id; eauto. }
    right. unfold decided. cbn [node_lt]. rewrite Nat.eqb_refl. cbn [negb].
    apply Nat.eqb_neq in NI. rewrite NI.
    destruct (Nat.eqb ka kb) eqn:EK.
    - apply Nat.eqb_eq in EK. subst kb.
      assert (qa = qb) by (inversion Oa; inversion Ob; subst; congruence). subst qb.
      pose proof (chart_node_kids _ _ _ _ _ _ _ _ Ha) as Ka.
      pose proof (chart_node_kids _ _ _ _ _ _ _ _ Hb) as Kb.
      destruct (children_order _ _ _ _ Ka _ _ Kb) as [[E1 E2]|(x & y & E1 & E2)].
      + intros x y r' i' jx jy Hx Cx Cy. eapply IH; eauto.
        assert (node_size x <= list_sum (map node_size ca)).
        { clear - Hx. induction ca as [|z ca IH]; simpl in *; [tauto|].
          destruct Hx as [->|Hx]; [lia|]. specialize (IH Hx). lia. }
        simpl in SZ. lia.
      + exfalso. apply Nat.eqb_neq in NI. apply NI.
        assert (E : Node ia r qa ka ca = Node ib r qa ka cb).
        { eapply chart_node_erase; eauto. simpl. congruence. }
        congruence.
      + exists x, y. split; auto. cbn [ranks].
        apply (first_difference_app [ka]). auto.
    - exists ka, kb. split; auto. exists [], (flat_map ranks ca), (flat_map ranks cb).
      simpl. apply Nat.eqb_neq in EK. auto.
  Qed.
End Order.
