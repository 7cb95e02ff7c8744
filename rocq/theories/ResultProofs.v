(** match and findall: which trees they return. *)
From Coq Require Import Permutation.
From Verif Require Import Base SpanModel EarleyModel EarleySpec EarleyInv EarleyProofs EarleyOrder
  TokenModel TreeModel ParserModel TreeSpec TreeProofs RelationSpec RelationProofs ParserSpec
  FindallProofs ParserProofs MatchProofs.
Open Scope nat_scope.

Lemma NoDup_app_intro {A} (l m : list A) : NoDup l -> NoDup m -> (forall x, In x l -> ~ In x m) -> NoDup (l ++ m).
Proof.
  induction l as [|x l IH]; intros H1 H2 H; auto. inversion H1; subst. cbn [app]. constructor.
  - intros X. apply in_app_or in X as [X|X]; auto. apply (H x); auto. left. auto.
  - apply IH; auto. intros y Hy. apply H. right. auto.
Qed.

Section Result.
  Context {pred : Type}.
  Variable accepts : pred -> token -> bool.
  Variable constrain : pred -> token -> token.
  Variable rel : nat -> form -> form -> bool.
  Variable g : grammar token pred.
  Variable toks : list token.

  Notation node := (node token pred).
  Notation leaf := (@leaf pred).
  Notation tree := (@tree pred).
  Notation amatch := (@amatch pred).
  Notation parse := (parse accepts constrain g).
  Notation node_ok := (node_ok accepts constrain g toks).
  Notation nodes_ok := (nodes_ok accepts constrain g toks).
  Notation prepare_match := (prepare_match rel g).

  (** ** Leaves of chart trees *)
  Lemma node_ok_pos :
    (forall t n i j, node_ok t n i j -> i <= j /\ map leaf_pos (tree_leaves n) = seq i (j - i)) /\
    (forall ts ns i j, nodes_ok ts ns i j -> i <= j /\ map leaf_pos (flat_map tree_leaves ns) = seq i (j - i)).
  Proof.
    apply node_ok_mutind.
    - intros id p i t H1 H2. split; [lia|]. replace (S i - i) with 1 by lia. reflexivity.
    - intros id r q rank ch i j H1 H2 H3 IH. exact IH.
    - intros i. rewrite Nat.sub_diag. split; auto.
    - intros t ts n ns i k j H1 [A1 A2] H2 [B1 B2]. split; [lia|]. cbn [flat_map].
      rewrite map_app, A2, B2. replace (j - i) with ((k - i) + (j - k)) by lia.
      rewrite seq_app. replace (i + (k - i)) with k by lia. reflexivity.
  Qed.

  Definition leaf_node (l : leaf) : node := let '(id, pos, p, tk) := l in Leaf id pos p tk.

  Lemma chart_leaves_logged K I st log : Inv accepts constrain g toks K I st ->
    (forall k s, In s (cols st k) -> logged log s) ->
    forall N n r i j, node_size n < N -> chart_node g st n r i j ->
    forall l, In l (tree_leaves n) -> nth_error log (leaf_id l) = Some (leaf_node l).
  Proof.
    intros V LOG. induction N as [|N IH]; intros n r i j SZ H l HL; [lia|].
    destruct n as [|id r' q rank ch]; [destruct H as (? & _ & _ & _ & _ & E); discriminate|].
    pose proof (chart_node_kids accepts constrain g toks _ _ _ V _ _ _ _ _ _ _ _ H) as KD.
    destruct H as (s & H1 & H2 & H3 & H4 & E). injection E as E1 E2 E3 E4 E5.
    cbn [tree_leaves] in HL. apply in_flat_map in HL as (c & HC & HL).
    assert (SC : node_size c < N).
    { assert (node_size c <= list_sum (map node_size ch)).
      { clear - HC. induction ch as [|z ch IH]; simpl in *; [tauto|].
        destruct HC as [->|HC]; [lia|]. specialize (IH HC). lia. }
      simpl in SZ. lia. }
    assert (LC : nth_error log (node_id c) = Some c).
    { apply (LOG _ _ H1). rewrite <- E5. auto. }
    clear - KD HC HL LC IH SC. induction KD as [i|id p i tk ts ns j KD IHK|c' r0 i k ts ns j C KD IHK]; [destruct HC| |].
    - destruct HC as [<-|HC]; auto. destruct HL as [<-|[]]. exact LC.
    - destruct HC as [<-|HC]; auto. eapply IH; eauto.
  Qed.

  Section One.
    Variable all : bool.
    Variable fuel : nat.
    Variable trees : list tree.
    Hypothesis PARSE : parse fuel toks all = Some trees.

    Definition chart_leaf (l : leaf) : Prop := exists t, In t trees /\ In l (tree_leaves (fst t)).

    Lemma tree_pos n i j : In (n, (i, j)) trees -> i <= j /\ map leaf_pos (tree_leaves n) = seq i (j - i).
    Proof. intros H. eapply node_ok_pos. eapply tree_ok; eauto. Qed.

    Lemma tree_nodup_pos t : In t trees -> NoDup (map leaf_pos (tree_leaves (fst t))).
    Proof.
      destruct t as [n [i j]]. intros H. cbn [fst]. rewrite (proj2 (tree_pos n i j H)). apply seq_NoDup.
    Qed.

    Lemma chart_leaf_inj a b : chart_leaf a -> chart_leaf b -> leaf_id a = leaf_id b -> a = b.
    Proof.
      destruct (parse_chart accepts constrain g toks all fuel trees PARSE) as (st & E & ET & V).
      destruct (inv_log _ _ _ _ _ _ _ V) as (log & _ & LOG).
      assert (X : forall l, chart_leaf l -> nth_error log (leaf_id l) = Some (leaf_node l)).
      { intros l ([n [i j]] & H1 & H2). rewrite ET in H1. apply (trees_in accepts constrain) in H1 as (_ & _ & H1); auto.
        eapply chart_leaves_logged; eauto. }
      intros Ha Hb Eid. apply X in Ha. apply X in Hb. rewrite Eid, Hb in Ha.
      destruct a as [[[]]], b as [[[]]]. cbn in Ha. congruence.
    Qed.

    Lemma tree_nodup_id t : In t trees -> NoDup (map leaf_id (tree_leaves (fst t))).
    Proof.
      intros H. pose proof (tree_nodup_pos t H) as P.
      assert (INJ : forall a b, In a (tree_leaves (fst t)) -> In b (tree_leaves (fst t)) -> leaf_id a = leaf_id b -> a = b).
      { intros a b Ha Hb. apply chart_leaf_inj; exists t; auto. }
      revert P INJ. generalize (tree_leaves (fst t)). intros ls. induction ls as [|x ls IH]; intros P INJ; [constructor|].
      cbn [map] in *. inversion P as [|? ? N1 N2]; subst. constructor.
      - intros HI. apply in_map_iff in HI as (y & E & HI). apply N1. apply in_map_iff. exists y. split; auto.
        rewrite (INJ y x); auto; [right|left]; auto.
      - apply IH; auto. intros a b Ha Hb. apply INJ; right; auto.
    Qed.

    Lemma accepted_nonempty t s s' m : In t trees -> prepare_match t s = Ok (s', Some m) ->
      fst (snd t) < snd (snd t).
    Proof.
      destruct t as [n [i j]]. intros H HM. destruct (tree_pos n i j H) as [A B].
      unfold ParserModel.prepare_match in HM.
      destruct (propagate n) as [n'|] eqn:P; [|discriminate]. pose proof (propagate_leaves n) as EL.
      rewrite P in EL. cbn [fst snd]. destruct (Nat.eq_dec i j) as [->|]; [|lia]. exfalso.
      rewrite Nat.sub_diag in B. apply map_eq_nil in B. rewrite B in EL.
      eapply no_empty_leaves; [eapply propagate_no_empty; eauto|]. auto.
    Qed.

    (** ** match *)
    Lemma first_match_spec l : 
      (exists pre t post s' m, l = pre ++ t :: post /\ first_match rel g l [] = Ok (s', Some m) /\
         prepare_match t [] = Ok (s', Some m) /\ forall u, In u pre -> prepare_match u [] = Ok ([], None)) \/
      (exists pre t post e, l = pre ++ t :: post /\ first_match rel g l [] = Err e /\
         prepare_match t [] = Err e /\ forall u, In u pre -> prepare_match u [] = Ok ([], None)) \/
      (first_match rel g l [] = Ok ([], None) /\ forall u, In u l -> prepare_match u [] = Ok ([], None)).
    Proof.
      induction l as [|t l IH].
      - right. right. split; [reflexivity|]. intros u [].
      - cbn [first_match]. destruct (prepare_match t []) as [[s' [m|]]|e] eqn:E; cbn [bind].
        + left. exists [], t, l, s', m. split; auto. split; auto. split; auto. intros u [].
        + apply prepare_match_none in E as E'. subst s'.
          destruct IH as [(pre & u & post & s' & m & -> & A & B & C)|[(pre & u & post & e & -> & A & B & C)|[A B]]].
          * left. exists (t :: pre), u, post, s', m. split; auto. split; auto. split; auto.
            intros v [<-|Hv]; auto.
          * right. left. exists (t :: pre), u, post, e. split; auto. split; auto. split; auto.
            intros v [<-|Hv]; auto.
          * right. right. split; auto. intros v [<-|Hv]; auto.
        + right. left. exists [], t, l, e. split; auto. split; auto. split; auto. intros u [].
    Qed.

    (** ** findall *)
    Lemma range_eqb_eq a b : range_eqb a b = true <-> a = b.
    Proof.
      unfold range_eqb. rewrite andb_true_iff, !Nat.eqb_eq. destruct a, b. simpl. split; intros.
      - f_equal; tauto.
      - injection H; auto.
    Qed.
    Lemma lookup_range_in r (l : list ((nat * nat) * amatch)) m : lookup_range r l = Some m -> In (r, m) l.
    Proof.
      induction l as [|[r' m'] l IH]; [discriminate|]. cbn [lookup_range].
      destruct (range_eqb r r') eqn:E; intros H.
      - apply range_eqb_eq in E. injection H as ->. subst. left. auto.
      - right. auto.
    Qed.
    Lemma lookup_range_none r (l : list ((nat * nat) * amatch)) : lookup_range r l = None <-> ~ In r (map fst l).
    Proof.
      induction l as [|[r' m'] l IH]; simpl; [tauto|].
      destruct (range_eqb r r') eqn:E.
      - apply range_eqb_eq in E. subst. split; [discriminate|]. intros H. exfalso. auto.
      - rewrite IH. split; [|tauto]. intros H [->|H']; auto.
        rewrite (proj2 (range_eqb_eq r r)) in E; [discriminate|auto].
    Qed.

    Section Collect.
      Variable P : store -> Prop.
      Hypothesis STEP : forall t s s' m, In t trees -> P s -> prepare_match t s = Ok (s', Some m) -> P s'.

      (** The candidates gathered from a list of trees: for every range the first
          tree that is accepted when its turn comes. *)
      Record gathered (rest : list tree) (old new : list ((nat * nat) * amatch)) : Prop := {
        ga_nodup : NoDup (map fst new);
        ga_new : forall r, In r (map fst new) -> ~ In r (map fst old);
        ga_order : sublist (map fst new) (map snd rest);
        ga_from : forall r m, In (r, m) new -> exists pre t post s1 s2,
          rest = pre ++ t :: post /\ snd t = r /\ P s1 /\ prepare_match t s1 = Ok (s2, Some m) /\
          forall u, In u pre -> snd u = r -> exists s3, P s3 /\ prepare_match u s3 = Ok (s3, None);
        ga_rejected : forall t, In t rest -> ~ In (snd t) (map fst (old ++ new)) ->
          exists s3, P s3 /\ prepare_match t s3 = Ok (s3, None) }.

      Lemma collect_spec : forall rest acc s s' acc', incl rest trees -> P s ->
        collect rel g rest acc s = Ok (s', acc') ->
        exists new, acc' = acc ++ new /\ P s' /\ gathered rest acc new.
      Proof.
        induction rest as [|t rest IH]; intros acc s s' acc' INC HP H; cbn [collect] in H.
        - injection H as <- <-. exists []. rewrite app_nil_r. split; auto. split; auto.
          split; cbn [map].
          + constructor.
          + intros r [].
          + constructor.
          + intros r m [].
          + intros t [].
        - assert (INC' : incl rest trees) by (intros x Hx; apply INC; right; auto).
          assert (HT : In t trees) by (apply INC; left; auto).
          destruct (lookup_range (snd t) acc) as [m0|] eqn:EL.
          + destruct (IH _ _ _ _ INC' HP H) as (new & -> & HP' & [G1 G2 G3 G4 G5]).
            exists new. split; auto. split; auto.
            apply lookup_range_in in EL. assert (KEY : In (snd t) (map fst acc)).
            { apply in_map_iff. exists (snd t, m0). auto. }
            split; auto.
            * cbn [map]. apply sub_skip. auto.
            * intros r m HI. destruct (G4 r m HI) as (pre & u & post & s1 & s2 & -> & A & B & C & D).
              exists (t :: pre), u, post, s1, s2. split; auto. split; auto. split; auto. split; auto.
              intros v [<-|Hv] Ev; auto. exfalso. apply (G2 r); [|congruence].
              apply in_map_iff. exists (r, m). auto.
            * intros v [<-|Hv] NI; auto. exfalso. apply NI. rewrite map_app. apply in_or_app. auto.
          + apply lookup_range_none in EL.
            destruct (prepare_match t s) as [[s1 [m|]]|e] eqn:E; cbn [bind] in H; [| |discriminate].
            * pose proof (STEP _ _ _ _ HT HP E) as HP1.
              destruct (IH _ _ _ _ INC' HP1 H) as (new & -> & HP' & [G1 G2 G3 G4 G5]).
              exists ((snd t, m) :: new). rewrite <- app_assoc. split; auto. split; auto.
              assert (NK : forall r, In r (map fst new) -> r <> snd t).
              { intros r Hr ->. apply (G2 _ Hr). rewrite map_app. apply in_or_app. right. left. auto. }
              split.
              -- cbn [map fst]. constructor; auto. intros X. apply (NK _ X). auto.
              -- intros r [<-|Hr]; auto. intros X. apply (G2 _ Hr). rewrite map_app. apply in_or_app. auto.
              -- cbn [map fst]. apply sub_keep. auto.
              -- intros r m' [HI|HI].
                 ++ injection HI as <- <-. exists [], t, rest, s, s1. split; auto. split; auto. split; auto.
                    split; auto. intros u [].
                 ++ destruct (G4 r m' HI) as (pre & u & post & s2 & s3 & -> & A & B & C & D).
                    exists (t :: pre), u, post, s2, s3. split; auto. split; auto. split; auto. split; auto.
                    intros v [<-|Hv] Ev; auto. exfalso. apply (NK r); [|congruence].
                    apply in_map_iff. exists (r, m'). auto.
              -- intros v [<-|Hv] NI.
                 ++ exfalso. apply NI. rewrite map_app. apply in_or_app. right. left. auto.
                 ++ apply G5; auto. rewrite <- app_assoc. auto.
            * apply prepare_match_none in E as E'. subst s1.
              destruct (IH _ _ _ _ INC' HP H) as (new & -> & HP' & [G1 G2 G3 G4 G5]).
              exists new. split; auto. split; auto. split; auto.
              -- cbn [map]. apply sub_skip. auto.
              -- intros r m HI. destruct (G4 r m HI) as (pre & u & post & s1 & s2 & -> & A & B & C & D).
                 exists (t :: pre), u, post, s1, s2. split; auto. split; auto. split; auto. split; auto.
                 intros v [<-|Hv] Ev; auto. exists s. auto.
              -- intros v [<-|Hv] NI; auto. exists s. auto.
      Qed.

      Lemma sublist_pairwise {A} (R : A -> A -> Prop) a b : sublist a b -> pairwise R b -> pairwise R a.
      Proof.
        induction 1 as [|x a b H IH|x a b H IH]; intros HP; auto.
        - apply pairwise_cons in HP as [_ HP]. auto.
        - apply pairwise_cons in HP as [H1 H2]. apply pairwise_cons. split; auto.
          intros y Hy. apply H1. eapply sublist_in; eauto.
      Qed.

      Lemma weak_pairwise l : pairwise tree_before l ->
        pairwise (fun a b => range_before a b \/ a = b) (map snd (l : list tree)).
      Proof.
        induction l as [|t l IH]; intros H; [apply pairwise_nil|].
        apply pairwise_cons in H as [H1 H2]. cbn [map]. apply pairwise_cons. split; auto.
        intros r Hr. apply in_map_iff in Hr as (u & <- & Hu). specialize (H1 _ Hu).
        destruct t as [nt [st et]], u as [nu [su eu]]. unfold tree_before in H1. unfold range_before. cbn [fst snd].
        destruct H1 as [|[-> [|[-> _]]]]; auto.
      Qed.

      Lemma strict_pairwise {A} (R : A -> A -> Prop) l : pairwise (fun a b => R a b \/ a = b) l -> NoDup l -> pairwise R l.
      Proof.
        induction l as [|x l IH]; intros H ND; [apply pairwise_nil|]. apply pairwise_cons in H as [H1 H2].
        inversion ND; subst. apply pairwise_cons. split; auto. intros y Hy. destruct (H1 y Hy) as [|<-]; auto. contradiction.
      Qed.

      Lemma prepare_match_range t s1 s2 m : In t trees -> prepare_match t s1 = Ok (s2, Some m) -> m_range m = snd t.
      Proof.
        intros HT H. destruct t as [root range].
        destruct (prepare_match_inv rel g _ _ _ _ _ H (tree_nodup_id _ HT) (tree_nodup_pos _ HT))
          as (rl & gr & _ & _ & _ & _ & _ & E & _). auto.
      Qed.

      Lemma lookup_found found r m : NoDup (map fst found) -> In (r, m) found -> lookup_range r found = Some (m : amatch).
      Proof.
        induction found as [|[r' m'] found IH]; intros ND HI; [destruct HI|]. cbn [lookup_range].
        cbn [map fst] in ND. inversion ND as [|? ? N1 N2]; subst. destruct HI as [HI|HI].
        - injection HI as -> ->. rewrite (proj2 (range_eqb_eq r r)); auto.
        - destruct (range_eqb r r') eqn:E; auto. apply range_eqb_eq in E. subst r'. exfalso. apply N1.
          apply in_map_iff. exists (r, m). auto.
      Qed.

      Definition best_selection (found : list (nat * nat)) (out : list (nat * nat)) : Prop :=
        left_to_right 0 out /\ incl out found /\
        (forall S, left_to_right 0 S -> incl S found -> covered S <= covered out) /\
        (forall S, left_to_right 0 S -> incl S found -> covered S = covered out -> S = out \/ ranges_before out S).

      Lemma resolved_gathered sorted ms s' : Permutation trees sorted -> pairwise tree_before sorted ->
        (forall s1 found, collect rel g sorted [] [] = Ok (s1, found) -> gathered sorted [] found) ->
        prepare_resolved_matches rel g sorted [] = Ok (s', ms) ->
        exists found, gathered sorted [] found /\ collect rel g sorted [] [] = Ok (s', found) /\
          (forall m, In m ms -> In (m_range m, m) found) /\ best_selection (map fst found) (map m_range ms).
      Proof.
        intros PM PW GA H. unfold prepare_resolved_matches in H.
        assert (INC : incl sorted trees).
        { intros x Hx. eapply Permutation_in; [apply Permutation_sym; eauto|auto]. }
        destruct (collect rel g sorted [] []) as [[s1 found]|] eqn:C; [|discriminate]. cbn [bind] in H.
        pose proof (GA _ _ eq_refl) as G.
        assert (FT : forall r m, In (r, m) found -> exists t, In t trees /\ snd t = r /\ m_range m = r /\ fst r < snd r).
        { intros r m HI. destruct (ga_from _ _ _ G _ _ HI) as (pre & t & post & s2 & s3 & E1 & E2 & _ & E3 & _).
          assert (HT : In t trees) by (apply INC; rewrite E1; apply in_or_app; right; left; auto).
          exists t. split; auto. split; auto. split.
          - rewrite (prepare_match_range _ _ _ _ HT E3). auto.
          - rewrite <- E2. eapply accepted_nonempty; eauto. }
        destruct (resolve_ranges (map fst found)) as (out & R1 & R2 & R3 & R4).
        { apply strict_pairwise; [|apply G]. eapply sublist_pairwise; [apply G|]. apply weak_pairwise. auto. }
        { intros r Hr. apply in_map_iff in Hr as ([r' m] & <- & Hr). apply FT in Hr as (t & _ & _ & _ & X). auto. }
        rewrite map_map in R1. cbn [fst] in R1.
        replace (map (fun p : nat * nat * amatch => zrange (fst p)) found) with (map (fun x : nat * nat * amatch => zrange (fst x)) found) in H by auto.
        rewrite R1 in H. cbn [bind] in H.
        assert (M : forall out ms0, incl out (map fst found) ->
          mapM (fun sp => match lookup_range (Z.to_nat (fst sp), Z.to_nat (snd sp)) found with
                          | Some m => Ok m | None => Err KeyError end) (map zrange out) = Ok ms0 ->
          map m_range ms0 = out /\ forall m, In m ms0 -> In (m_range m, m) found).
        { clear out R1 R2 R3 R4 H G C INC GA. induction out as [|r out IH]; intros ms0 INC H; cbn [map mapM] in H.
          - injection H as <-. split; auto. intros ? [].
          - unfold zrange in H at 1 2. cbn [fst snd] in H. rewrite !Nat2Z.id in H. rewrite <- surjective_pairing in H.
            destruct (lookup_range r found) as [m|] eqn:E; [|discriminate]. cbn [bind] in H.
            destruct (mapM _ (map zrange out)) as [ms1|] eqn:E1; [|discriminate]. cbn [bind] in H. injection H as <-.
            destruct (IH ms1) as [A B]; auto. { intros x Hx. apply INC. right. auto. }
            apply lookup_range_in in E. destruct (FT _ _ E) as (t & _ & _ & X & _).
            split; [cbn [map]; congruence|]. intros m' [<-|Hm]; auto. rewrite X. auto. }
        destruct (mapM _ (map zrange out)) as [ms1|] eqn:E1; [|discriminate]. cbn [bind] in H. injection H as <- <-.
        destruct (M _ _ R3 E1) as [A B]. exists found. split; auto. split; auto. split; auto.
        unfold best_selection. rewrite A. auto.
      Qed.

      Lemma resolved_spec sorted ms s' : Permutation trees sorted -> pairwise tree_before sorted -> P [] ->
        prepare_resolved_matches rel g sorted [] = Ok (s', ms) ->
        exists found, gathered sorted [] found /\ P s' /\
          (forall m, In m ms -> In (m_range m, m) found) /\ best_selection (map fst found) (map m_range ms).
      Proof.
        intros PM PW HP H.
        assert (INC : incl sorted trees).
        { intros x Hx. eapply Permutation_in; [apply Permutation_sym; eauto|auto]. }
        assert (GA : forall s1 found, collect rel g sorted [] [] = Ok (s1, found) -> gathered sorted [] found /\ P s1).
        { intros s1 found C. destruct (collect_spec _ _ _ _ _ INC HP C) as (new & -> & HP' & G). auto. }
        destruct (resolved_gathered sorted ms s' PM PW) as (found & A & B & C & D); auto.
        { intros s1 found C. apply (GA _ _ C). }
        exists found. split; auto. split; auto. apply (GA _ _ B).
      Qed.
    End Collect.
    (** ** Grammars without relations *)
    (** Leaves still hold the token they were made with. *)
    Definition pristine (s : store) : Prop := forall l, chart_leaf l -> token_at s l = leaf_tk l.

    Lemma pristine_nil : pristine [].
    Proof. intros [[[id pos] p] tk] _. reflexivity. Qed.

    Lemma free_relations s n : relation_free g -> tree_relations g s n = Ok empty_graph /\ related g n [].
    Proof.
      intros RF. unfold tree_relations, related, relation_nodes. induction (walk n) as [|m l [IH1 IH2]].
      - split; [reflexivity|constructor].
      - cbn [fold_left flat_map]. destruct m as [|id r q rank ch]; [split; auto|].
        rewrite (RF r). cbn [app]. split; auto. unfold visit_relation at 2. cbn [bind]. rewrite (RF r). auto.
    Qed.

    Lemma free_prepare t s : relation_free g -> pristine s -> In t trees -> fst (snd t) < snd (snd t) ->
      exists s' m, prepare_match t s = Ok (s', Some m) /\ pristine s' /\
        propagate (fst t) = Some (m_root m) /\ m_range m = snd t /\
        m_tokens m = map leaf_tk (tree_leaves (fst t)) /\ get_tokens_span (m_tokens m) = Ok (m_span m).
    Proof.
      intros RF PS HT NE. destruct t as [n [i j]]. cbn [fst snd] in *.
      destruct (tree_pos n i j HT) as [A B].
      pose proof (propagate_leaves n) as EL.
      destruct (propagate n) as [n'|] eqn:P.
      2:{ rewrite EL in B. simpl in B. assert (j - i = 0) by (destruct (j - i); [auto|discriminate]). lia. }
      destruct (free_relations s n' RF) as [GR RL].
      pose proof (tree_nodup_id _ HT) as ID. pose proof (tree_nodup_pos _ HT) as PO. cbn [fst] in ID, PO.
      rewrite EL in ID, PO.
      destruct (prepare_match_valid rel g s n n' (i, j) P ID PO [] RL empty_graph GR eq_refl)
        as (s1 & m & M1 & M2 & M3 & M4 & M5 & M6 & M7).
      assert (NL : forall l, In l (tree_leaves n') -> narrowed rel s [] empty_graph l = leaf_tk l).
      { intros l HL. rewrite (narrowed_other rel s [] empty_graph) by (intros ? ? []).
        apply PS. exists (n, (i, j)). split; auto. cbn [fst]. rewrite EL. auto. }
      exists s1, m. split; auto. split; [|split; [congruence|split; [auto|split]]]; auto.
      - intros l HL. destruct (in_dec Nat.eq_dec (leaf_id l) (map leaf_id (tree_leaves n'))) as [HI|HI].
        + apply in_map_iff in HI as (l' & E & HI).
          assert (l' = l) as ->.
          { apply chart_leaf_inj; auto. exists (n, (i, j)). split; auto. cbn [fst]. rewrite EL. auto. }
          rewrite M6 by auto. auto.
        + rewrite <- (PS l HL). destruct l as [[[id pos] p] tk]. cbn [token_at leaf_id] in *. unfold leaf_token.
          rewrite M7; auto.
      - rewrite M4, EL. apply map_ext_in. auto.
    Qed.

    Lemma free_no_reject t s s' : relation_free g -> pristine s -> In t trees -> prepare_match t s <> Ok (s', None).
    Proof.
      intros RF PS HT H. destruct t as [n [i j]]. destruct (Nat.lt_ge_cases i j) as [L|L].
      - destruct (free_prepare _ s RF PS HT L) as (s1 & m & E & _). rewrite E in H. discriminate.
      - unfold ParserModel.prepare_match in H. destruct (tree_pos n i j HT) as [A B].
        replace (j - i) with 0 in B by lia. apply map_eq_nil in B.
        apply propagate_none in B. rewrite B in H. discriminate.
    Qed.

    Lemma free_step t s s' m : relation_free g -> In t trees -> pristine s ->
      prepare_match t s = Ok (s', Some m) -> pristine s'.
    Proof.
      intros RF HT PS H. pose proof (accepted_nonempty _ _ _ _ HT H) as NE.
      destruct (free_prepare t s RF PS HT NE) as (s1 & m1 & E & X & _). rewrite E in H. injection H as -> ->. auto.
    Qed.

    (** ** The tokens of a match *)
    (** The token stands for the token at position [pos] of the text. *)
    Definition stands_for (pos : nat) (t : token) : Prop :=
      exists t0, nth_error toks pos = Some t0 /\ same_text t t0 /\ forms_within t t0.
    Definition good_store (s : store) : Prop := forall l, chart_leaf l -> stands_for (leaf_pos l) (token_at s l).

    Lemma same_text_trans a b c : same_text a b -> same_text b c -> same_text a c.
    Proof. unfold same_text. intuition congruence. Qed.
    Lemma forms_within_trans a b c : forms_within a b -> forms_within b c -> forms_within a c.
    Proof.
      unfold forms_within. destruct (t_forms a), (t_forms b), (t_forms c); auto; try tauto. 
    Qed.

    Definition constrain_narrows : Prop := forall p t, accepts p t = true ->
      same_text (constrain p t) t /\ forms_within (constrain p t) t.

    Lemma leaves_ok_in n : leaves_ok accepts constrain toks n -> forall l, In l (tree_leaves n) ->
      exists t, nth_error toks (leaf_pos l) = Some t /\ accepts (let '(_, _, p, _) := l in p) t = true /\
        leaf_tk l = constrain (let '(_, _, p, _) := l in p) t.
    Proof.
      induction n as [id pos p tk|id r q rank ch IH] using node_ind2; intros H l HL.
      - destruct HL as [<-|[]]. exact H.
      - cbn [tree_leaves] in HL. apply in_flat_map in HL as (c & HC & HL).
        cbn [leaves_ok] in H. induction IH as [|c' ch' Hc IH IHch]; [destruct HC|].
        destruct H as [H1 H2]. destruct HC as [->|HC]; auto.
    Qed.

    Lemma good_nil : constrain_narrows -> good_store [].
    Proof.
      intros CN l ([n [i j]] & HT & HL). pose proof (tree_ok _ _ _ _ _ _ _ PARSE _ _ _ HT) as OK.
      apply (proj1 (node_ok_leaves accepts constrain g toks)) in OK.
      destruct (leaves_ok_in n OK l HL) as (t & A & B & C). exists t. split; auto.
      replace (token_at [] l) with (leaf_tk l) by (destruct l as [[[]]]; reflexivity).
      rewrite C. apply CN. auto.
    Qed.

    Lemma match_tokens_good t s s' m : In t trees -> good_store s -> prepare_match t s = Ok (s', Some m) ->
      good_store s' /\ Forall2 stands_for (seq (fst (m_range m)) (snd (m_range m) - fst (m_range m))) (m_tokens m).
    Proof.
      intros HT GS H. destruct t as [n [i j]]. destruct (tree_pos n i j HT) as [A B].
      pose proof (tree_nodup_pos _ HT) as PO.
      destruct (prepare_match_inv rel g _ _ _ _ _ H (tree_nodup_id _ HT) (tree_nodup_pos _ HT))
        as (rl & gr & M1 & M2 & M3 & M4 & M5 & M6 & M7 & M8 & M9 & M10). cbn [fst] in *.
      assert (GN : forall l, In l (tree_leaves n) -> stands_for (leaf_pos l) (narrowed rel s rl gr l)).
      { intros l HL. destruct (GS l) as (t0 & X & Y & Z); [exists (n, (i, j)); auto|].
        exists t0. split; auto. rewrite <- M5 in HL, PO. split.
        - eapply same_text_trans; [|exact Y]. apply (narrowed_same_text rel s rl gr l).
        - eapply forms_within_trans; [|exact Z]. eapply narrowed_within; eauto. }
      split.
      - intros l HL. destruct (in_dec Nat.eq_dec (leaf_id l) (map leaf_id (tree_leaves n))) as [HI|HI].
        + apply in_map_iff in HI as (l' & E & HI).
          assert (l' = l) as -> by (apply chart_leaf_inj; auto; exists (n, (i, j)); auto).
          rewrite M9 by auto. auto.
        + specialize (GS l HL). destruct l as [[[id pos] p] tk]. cbn [token_at leaf_id] in *. unfold leaf_token in *.
          rewrite M10; auto.
      - rewrite M6, M7. cbn [fst snd]. rewrite <- B. clear - GN.
        induction (tree_leaves n) as [|l ls IH]; cbn [map]; constructor.
        + apply GN. left. auto.
        + apply IH. intros. apply GN. right. auto.
    Qed.

    Lemma span_of_tokens i k ts sp : Forall2 stands_for (seq i k) ts -> get_tokens_span ts = Ok sp ->
      exists a b, nth_error toks i = Some a /\ nth_error toks (i + k - 1) = Some b /\ 0 < k /\
        sp = (t_start a, t_stop b).
    Proof.
      intros F H. destruct ts as [|t ts]; [discriminate|]. cbn [get_tokens_span] in H. injection H as <-.
      assert (G : forall ts t i k, Forall2 stands_for (seq i k) (t :: ts) ->
        0 < k /\ stands_for i t /\ stands_for (i + k - 1) (last (t :: ts) t)).
      { clear. intros ts0 t0 i k F. split; [destruct k; [inversion F|lia]|]. split.
        { destruct k; inversion F; subst; auto. }
        assert (L : forall ts t i k d, Forall2 stands_for (seq i k) (t :: ts) ->
          stands_for (i + k - 1) (last (t :: ts) d)).
        { clear. induction ts as [|u ts IH]; intros t i k d F; destruct k as [|k]; inversion F; subst.
          - match goal with H : Forall2 _ (seq _ k) [] |- _ => destruct k; inversion H; subst end.
            replace (i + 1 - 1) with i by lia. auto.
          - replace (i + S k - 1) with (S i + k - 1) by lia.
            match goal with H : Forall2 _ (seq _ k) (u :: ts) |- _ => apply (IH u (S i) k d) in H; exact H end. }
        apply L. auto. }
      destruct (G ts t i k F) as (K & (a & A1 & A2 & _) & (b & B1 & B2 & _)).
      exists a, b. split; auto. split; auto. split; auto.
      destruct A2 as (_ & X & _), B2 as (_ & _ & Y & _). rewrite X. f_equal. exact Y.
    Qed.
  End One.
End Result.
