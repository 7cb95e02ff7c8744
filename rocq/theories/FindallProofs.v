(** The overlap resolution in terms of token ranges. *)
From Coq Require Import Sorted.
From Verif Require Import Base SpanModel SpanSpec SpanProofs EarleyModel TokenModel TreeModel ParserModel ParserSpec.

Open Scope nat_scope.

Definition pairwise {A} (R : A -> A -> Prop) (l : list A) : Prop :=
  forall p x q y r, l = p ++ x :: q ++ y :: r -> R x y.

Lemma pairwise_cons {A} (R : A -> A -> Prop) x l :
  pairwise R (x :: l) <-> (forall y, In y l -> R x y) /\ pairwise R l.
Proof.
  split.
  - intros H. split.
    + intros y Hy. apply in_split in Hy as (q & r & ->). apply (H [] x q y r). reflexivity.
    + intros p a q b r ->. apply (H (x :: p) a q b r). reflexivity.
  - intros [H1 H2] [|z p] a q b r E; injection E as -> E.
    + apply H1. rewrite E. apply in_or_app. right. left. auto.
    + eapply H2. exact E.
Qed.
Lemma pairwise_nil {A} (R : A -> A -> Prop) : pairwise R [].
Proof. intros [|] ? ? ? ? E; discriminate. Qed.
Lemma pairwise_SS {A} (R : A -> A -> Prop) l : StronglySorted R l <-> pairwise R l.
Proof.
  induction l as [|x l IH].
  - split; intros _; [apply pairwise_nil|constructor].
  - rewrite pairwise_cons. split.
    + intros H. inversion H as [|? ? H1 H2]; subst. rewrite Forall_forall in H2. split; auto. tauto.
    + intros [H1 H2]. constructor; [tauto|]. apply Forall_forall. auto.
Qed.

Section Ranges.
  Variable L : list (nat * nat).
  Hypothesis SORTED : pairwise range_before L.
  Hypothesis NONEMPTY : forall r, In r L -> fst r < snd r.

  Let ZL := map zrange L.

  Lemma nth_ZL i : i < length L -> exists r, nth_error L i = Some r /\ nth_range ZL i = zrange r.
  Proof.
    intros H. destruct (nth_error L i) as [r|] eqn:E.
    - exists r. split; auto. unfold nth_range, ZL. apply nth_error_nth.
      rewrite nth_error_map, E. reflexivity.
    - apply nth_error_None in E. lia.
  Qed.

  Lemma nth_pair i j a b : nth_error L i = Some a -> nth_error L j = Some b -> i < j ->
    range_before a b.
  Proof.
    intros Ha Hb Hij. apply nth_error_split in Ha as (p & s & E & Hp).
    assert (Hb' : nth_error s (j - S i) = Some b).
    { rewrite E in Hb. rewrite nth_error_app2 in Hb by lia.
      replace (j - length p) with (S (j - S i)) in Hb by lia. exact Hb. }
    apply nth_error_split in Hb' as (q & r & E' & _). subst s. eapply SORTED. exact E.
  Qed.

  Lemma ZL_sorted : sorted_ranges ZL.
  Proof.
    unfold ZL. split.
    - intros i j [H1 H2]. rewrite map_length in H2.
      destruct (nth_ZL i) as (a & A1 & A2); [lia|]. destruct (nth_ZL j) as (b & B1 & B2); [lia|].
      fold ZL. rewrite A2, B2. unfold zrange. simpl.
      destruct (Nat.eq_dec i j) as [->|NE]; [rewrite A1 in B1; injection B1 as ->; lia|].
      destruct (nth_pair i j a b A1 B1) as [|[]]; lia.
    - intros i H. rewrite map_length in H. destruct (nth_ZL i H) as (a & A1 & A2).
      fold ZL. rewrite A2. unfold zrange. simpl. pose proof (NONEMPTY a (nth_error_In _ _ A1)). lia.
  Qed.

  (** Positions of a left-to-right list of candidate ranges. *)
  Lemma ranges_selection : forall S from, left_to_right from S -> incl S L ->
    exists sel, Forall2 (fun i r => nth_error L i = Some r) sel S.
  Proof.
    induction S as [|[i j] S IH]; intros from H HI.
    - exists []. constructor.
    - destruct H as (H1 & H2 & H3). destruct (IH j H3) as (sel & F).
      { intros x Hx. apply HI. right. auto. }
      destruct (In_nth_error L (i, j)) as [k Hk]; [apply HI; left; auto|].
      exists (k :: sel). constructor; auto.
  Qed.

  Lemma left_to_right_pairwise S : forall from, left_to_right from S ->
    pairwise (fun a b => snd a <= fst b) S /\ (forall r, In r S -> from <= fst r /\ fst r < snd r).
  Proof.
    induction S as [|[i j] S IH]; intros from H.
    - split; [apply pairwise_nil|intros ? []].
    - destruct H as (H1 & H2 & H3). destruct (IH _ H3) as [P Q]. split.
      + apply pairwise_cons. split; auto. intros y Hy. simpl. apply Q. auto.
      + intros r [<-|Hr]; simpl; [lia|]. destruct (Q r Hr). lia.
  Qed.

  Lemma pairwise_left_to_right S : pairwise (fun a b => snd a <= fst b) S ->
    (forall r, In r S -> fst r < snd r) ->
    forall from, (forall r, In r S -> from <= fst r) -> left_to_right from S.
  Proof.
    induction S as [|[i j] S IH]; intros H1 H2 from H3; [exact I|].
    apply pairwise_cons in H1 as [H1 H1']. cbn [left_to_right].
    split; [apply (H3 (i, j)); left; auto|]. split; [apply (H2 (i, j)); left; auto|].
    apply IH; auto. intros r Hr. apply H2. right. auto.
  Qed.

  Lemma Forall2_pairwise {A B} (P : A -> B -> Prop) (Q : B -> B -> Prop) (R : A -> A -> Prop) l m :
    Forall2 P l m -> pairwise Q m ->
    (forall a b x y, P a x -> P b y -> Q x y -> R a b) -> pairwise R l.
  Proof.
    induction 1 as [|a x l m H F IH]; intros PQ HR; [apply pairwise_nil|].
    apply pairwise_cons in PQ as [Q1 Q2]. apply pairwise_cons. split.
    - intros b Hb. clear - F Hb Q1 HR H. induction F as [|b' y l m Hy F IH]; [destruct Hb|].
      destruct Hb as [->|Hb].
      + eapply HR; eauto. apply Q1. left. auto.
      + apply IH; auto. intros z Hz. apply Q1. right. auto.
    - apply IH; auto.
  Qed.

  Lemma ranges_selection_ok S from : left_to_right from S -> incl S L ->
    exists sel, selection ZL sel /\ map (nth_range ZL) sel = map zrange S /\
      Forall2 (fun i r => nth_error L i = Some r) sel S.
  Proof.
    intros H HI. destruct (ranges_selection S from H HI) as (sel & F). exists sel.
    destruct (left_to_right_pairwise S from H) as [PW NE].
    assert (N : forall i r, nth_error L i = Some r -> i < length L /\ nth_range ZL i = zrange r).
    { intros i r E. assert (HL : i < length L) by (apply nth_error_Some; congruence).
      split; auto. destruct (nth_ZL i HL) as (r' & E' & ->). congruence. }
    assert (PR : pairwise (fun a b : nat => forall x y, nth_error L a = Some x -> nth_error L b = Some y ->
                snd x <= fst y) sel).
    { eapply (Forall2_pairwise _ _ _ sel S F PW). intros a b x y Ha Hb Q x' y' Hx' Hy'. congruence. }
    split; [|split; auto].
    - split.
      + intros i Hi. unfold ZL. rewrite map_length. clear - F Hi N.
        induction F as [|a x l m Hx F IH]; [destruct Hi|]. destruct Hi as [->|Hi]; auto.
        eapply N; eauto.
      + intros p i q j r E. pose proof (PR p i q j r E) as Hij.
        assert (X : forall z, In z sel -> exists r, nth_error L z = Some r).
        { clear - F. induction F as [|a x l m Hx F IH]; intros z []; subst; eauto. }
        destruct (X i) as (a & Ha); [rewrite E; apply in_or_app; right; left; auto|].
        destruct (X j) as (b & Hb); [rewrite E; apply in_or_app; right; right; apply in_or_app; right; left; auto|].
        specialize (Hij _ _ Ha Hb).
        pose proof (NONEMPTY a (nth_error_In _ _ Ha)). pose proof (NONEMPTY b (nth_error_In _ _ Hb)).
        destruct (Nat.lt_trichotomy i j) as [|[->|Hlt]]; auto.
        * rewrite Ha in Hb. injection Hb as ->. lia.
        * destruct (nth_pair j i b a Hb Ha Hlt) as [|[]]; lia.
      + intros p i q j r E. pose proof (PR p i q j r E) as Hij.
        assert (X : forall z, In z sel -> exists r, nth_error L z = Some r).
        { clear - F. induction F as [|a x l m Hx F IH]; intros z []; subst; eauto. }
        destruct (X i) as (a & Ha); [rewrite E; apply in_or_app; right; left; auto|].
        destruct (X j) as (b & Hb); [rewrite E; apply in_or_app; right; right; apply in_or_app; right; left; auto|].
        specialize (Hij _ _ Ha Hb). left.
        rewrite (proj2 (N _ _ Ha)), (proj2 (N _ _ Hb)). unfold zrange. simpl. lia.
    - clear - F N. induction F as [|a x l m Hx F IH]; [reflexivity|].
      cbn [map]. rewrite IH. rewrite (proj2 (N _ _ Hx)). reflexivity.
  Qed.

  Lemma coverage_covered sel S : Forall2 (fun i r => nth_error L i = Some r) sel S ->
    (forall r, In r S -> fst r < snd r) ->
    coverage ZL sel = Z.of_nat (covered S).
  Proof.
    induction 1 as [|i r sel S H F IH]; intros NE; [reflexivity|].
    unfold coverage in *. cbn [map fold_right]. rewrite IH by (intros; apply NE; right; auto).
    assert (HL : i < length L) by (apply nth_error_Some; congruence).
    destruct (nth_ZL i HL) as (r' & E' & ->). assert (r' = r) by congruence. subst r'.
    unfold covered. cbn [map list_sum fold_right]. unfold zrange. simpl.
    pose proof (NE r (or_introl eq_refl)). unfold list_sum. lia.
  Qed.

  Lemma sel_inj sel sel' S : Forall2 (fun i r => nth_error L i = Some r) sel S ->
    Forall2 (fun i r => nth_error L i = Some r) sel' S -> sel = sel'.
  Proof.
    intros F. revert sel'. induction F as [|i r sel S H F IH]; intros sel' F'; inversion F'; subst; auto.
    f_equal; auto. match goal with E : nth_error L ?k = Some r |- _ = ?k => rename E into Hk; rename k into x end.
    destruct (Nat.lt_trichotomy i x) as [Hlt|[->|Hlt]]; auto.
    - destruct (nth_pair _ _ _ _ H Hk Hlt) as [|[]]; lia.
    - destruct (nth_pair _ _ _ _ Hk H Hlt) as [|[]]; lia.
  Qed.

  Lemma resolve_ranges :
    exists out, resolve_spans ZL = Ok (map zrange out) /\ left_to_right 0 out /\ incl out L /\
      (forall S, left_to_right 0 S -> incl S L -> covered S <= covered out) /\
      (forall S, left_to_right 0 S -> incl S L -> covered S = covered out ->
         S = out \/ ranges_before out S).
  Proof.
    destruct (resolve_spans_spec ZL ZL_sorted) as (sel & E & V & MAX & TIE).
    assert (B : forall i, In i sel -> i < length L).
    { intros i Hi. pose proof (sel_bound _ _ V i Hi) as Q. unfold ZL in Q. rewrite map_length in Q. auto. }
    assert (F : exists out, Forall2 (fun i r => nth_error L i = Some r) sel out).
    { clear - B. induction sel as [|i sel IH]; [exists []; constructor|].
      destruct IH as (out & F); [intros; apply B; right; auto|].
      destruct (nth_error L i) as [r|] eqn:E.
      - exists (r :: out). constructor; auto.
      - apply nth_error_None in E. pose proof (B i (or_introl eq_refl)). lia. }
    destruct F as (out & F). exists out.
    assert (IO : incl out L).
    { clear - F. induction F as [|i r sel S H F IH]; [intros ? []|].
      intros x [<-|Hx]; auto. eapply nth_error_In; eauto. }
    assert (N : forall i r, nth_error L i = Some r -> i < length L /\ nth_range ZL i = zrange r).
    { intros i r E'. assert (HL : i < length L) by (apply nth_error_Some; congruence).
      split; auto. destruct (nth_ZL i HL) as (r' & E'' & ->). congruence. }
    assert (PO : pairwise (fun a b => snd a <= fst b) out).
    { assert (P : pairwise (fun i j => i < j /\ disjoint (nth_range ZL i) (nth_range ZL j)) sel).
      { intros p i q j r EE. split; [eapply sel_incr; eauto|eapply sel_disj; eauto]. }
      assert (FS : Forall2 (fun r i => nth_error L i = Some r) out sel).
      { clear - F. induction F; constructor; auto. }
      eapply (Forall2_pairwise _ _ _ out sel FS P).
      intros a b x y Ha Hb [Q1 Q2]. rewrite (proj2 (N _ _ Ha)), (proj2 (N _ _ Hb)) in Q2.
      pose proof (nth_pair _ _ _ _ Ha Hb Q1) as RB.
      pose proof (NONEMPTY a (nth_error_In _ _ Ha)). pose proof (NONEMPTY b (nth_error_In _ _ Hb)).
      unfold disjoint, zrange in Q2. simpl in Q2. unfold range_before in RB. lia. }
    split; [|split; [|split; [auto|]]].
    - rewrite E. f_equal. clear - F N. induction F as [|i r sel S H F IH]; [reflexivity|].
      cbn [map]. rewrite IH, (proj2 (N _ _ H)). reflexivity.
    - apply pairwise_left_to_right; auto. intros; lia.
    - assert (G : forall S, left_to_right 0 S -> incl S L ->
        exists s, selection ZL s /\ Forall2 (fun i r => nth_error L i = Some r) s S /\
          coverage ZL s = Z.of_nat (covered S)).
      { intros S H1 H2. destruct (ranges_selection_ok S 0 H1 H2) as (s & A1 & _ & A2).
        exists s. split; auto. split; auto. apply coverage_covered; auto. }
      assert (CO : coverage ZL sel = Z.of_nat (covered out)) by (apply coverage_covered; auto).
      split; intros S H1 H2.
      + destruct (G S H1 H2) as (s & A1 & A2 & A3). pose proof (MAX s A1). lia.
      + intros HC. destruct (G S H1 H2) as (s & A1 & A2 & A3).
        destruct (TIE s A1) as [->|X]; [lia| |].
        * left. clear - A2 F. revert S A2. induction F as [|i r sel S' H F IH]; intros S A2; inversion A2; subst; auto.
          f_equal; [congruence|auto].
        * right. destruct X as (p & x & y & a' & b' & -> & -> & Hxy).
          apply Forall2_app_inv_l in F as (o1 & o2 & F1 & F2 & ->).
          apply Forall2_app_inv_l in A2 as (s1 & s2 & S1 & S2 & ->).
          inversion F2 as [|? rx ? o2' Hx F2' ]; subst. inversion S2 as [|? ry ? s2' Hy S2']; subst.
          assert (o1 = s1).
          { clear - F1 S1. revert s1 S1. induction F1 as [|i r sel S' H F IH]; intros S A2; inversion A2; subst; auto.
            f_equal; [congruence|auto]. }
          subst s1. exists o1, rx, ry, o2', s2'. split; auto. split; auto.
          eapply nth_pair; eauto.
  Qed.
End Ranges.
