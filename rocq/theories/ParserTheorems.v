(** The statements about parse, match and findall used in the property files. *)
From Coq Require Import Permutation.
From Verif Require Import Base SpanModel EarleyModel EarleySpec EarleyInv EarleyProofs EarleyOrder
  EarleyTerm EarleyMore TokenModel TreeModel ParserModel TreeSpec TreeProofs RelationSpec RelationProofs
  ParserSpec FindallProofs ParserProofs MatchProofs ResultProofs.
Open Scope nat_scope.

Section Theorems.
  Context {pred : Type}.
  Variable accepts : pred -> token -> bool.
  Variable constrain : pred -> token -> token.
  Variable rel : nat -> form -> form -> bool.
  Variable g : grammar token pred.

  Notation node := (node token pred).
  Notation tree := (@tree pred).
  Notation amatch := (@amatch pred).
  Notation parse := (parse accepts constrain g).
  Notation match_ := (match_ accepts constrain rel g).
  Notation findall := (findall accepts constrain rel g).
  Notation prepare_match := (prepare_match rel g).

  (** ** parse *)
  Lemma parse_sound fuel toks all trees n i j : predict_sound g ->
    parse fuel toks all = Some trees -> In (n, (i, j)) trees ->
    derives accepts g toks (TRule (g_start g)) i j (erase n) /\
    leaves_ok accepts constrain toks n /\ j <= length toks /\ (all = false -> j = length toks).
  Proof.
    intros PS H HT. pose proof (tree_ok _ _ _ _ _ _ _ H _ _ _ HT) as OK.
    split; [apply (proj1 (node_ok_derives accepts constrain g toks PS) _ _ _ _ OK)|].
    split; [apply (proj1 (node_ok_leaves accepts constrain g toks) _ _ _ _ OK)|].
    eapply tree_stop; eauto.
  Qed.

  Lemma parse_complete fuel toks all trees i j d : predict_complete accepts g ->
    parse fuel toks all = Some trees ->
    derives accepts g toks (TRule (g_start g)) i j d -> no_empty_part d -> i <= length toks ->
    i = 0 \/ all = true -> j = length toks \/ all = true ->
    exists n, In (n, (i, j)) trees /\ erase n = d.
  Proof.
    intros PC H D NE HI HA HJ.
    destruct (parse_chart accepts constrain g toks all fuel trees H) as (st & E & -> & V).
    destruct (chart_spec accepts constrain g toks all _ _ E) as (_ & C & R).
    destruct (proj1 (derives_span accepts g toks) _ _ _ _ D) as (L1 & _ & L2).
    destruct (chart_complete_gen accepts constrain g toks all fuel st E PC _ _ _ _ D NE HI _ eq_refl) as (s & H1 & H2 & H3 & H4 & H5).
    { apply R; auto. }
    exists (state_node s). split; auto. apply (trees_in accepts constrain); auto.
    split; [auto|]. split; [intros ->; destruct HJ; [auto|discriminate]|]. exists s. auto.
  Qed.

  Lemma parse_unique fuel toks all trees : parse fuel toks all = Some trees ->
    NoDup (map (fun t => (erase (fst t), snd t)) trees).
  Proof. apply trees_nodup_erase. Qed.

  Lemma parse_terminates rules toks all : finite_grammar g rules -> predict_sound g -> acyclic g ->
    exists fuel0 trees, forall fuel, fuel0 <= fuel -> parse fuel toks all = Some trees.
  Proof.
    intros FIN PS (level & LV). exists (enough_fuel g toks rules level).
    destruct (chart_some accepts constrain g toks all rules FIN PS level LV _ (le_n _)) as (st & E).
    exists (prepare_trees (matches g toks all st)). intros fuel HF. unfold ParserModel.parse.
    rewrite (chart_fuel accepts constrain g toks all _ _ _ E HF). reflexivity.
  Qed.

  Lemma parse_fuel toks all fuel fuel' trees : fuel <= fuel' ->
    parse fuel toks all = Some trees -> parse fuel' toks all = Some trees.
  Proof.
    intros HF H. unfold ParserModel.parse in *.
    destruct (chart accepts constrain g toks fuel all) as [st|] eqn:E; [|discriminate].
    rewrite (chart_fuel accepts constrain g toks all _ _ _ E HF). auto.
  Qed.

  (** ** order *)
  Lemma order_spec fuel toks all trees a b : parse fuel toks all = Some trees -> In a trees -> In b trees ->
    exists c, tree_lt a b = Ok c /\ (c = true <-> tree_before a b) /\
      (a = b \/ tree_before a b \/ tree_before b a).
  Proof.
    intros H Ha Hb. destruct (trees_decided _ _ _ _ _ _ _ H a b Ha Hb) as [->|(c & E & X)].
    - exists false. split; [eapply tree_lt_refl; eauto|]. split; auto. split; [discriminate|].
      intros X. apply tree_before_irrefl in X. tauto.
    - exists c. split; auto. split; [split|].
      + intros ->. auto.
      + destruct c; auto. intros Y. exfalso. eapply tree_before_irrefl. eapply tree_before_trans; eauto.
      + destruct c; auto.
  Qed.

  (** ** match *)
  Lemma match_spec fuel toks r : match_ fuel toks = Some r ->
    exists trees, parse fuel toks false = Some trees /\
    ((exists t s m, r = Ok (s, Some m) /\ In t trees /\ prepare_match t [] = Ok (s, Some m) /\
        forall u, In u trees -> tree_before u t -> prepare_match u [] = Ok ([], None)) \/
     (exists t e, r = Err e /\ In t trees /\ prepare_match t [] = Err e /\
        forall u, In u trees -> tree_before u t -> prepare_match u [] = Ok ([], None)) \/
     (r = Ok ([], None) /\ forall u, In u trees -> prepare_match u [] = Ok ([], None))).
  Proof.
    intros H. unfold ParserModel.match_ in H. destruct (parse fuel toks false) as [trees|] eqn:P; [|discriminate].
    exists trees. split; auto. destruct (sort_trees_ok _ _ _ _ _ _ _ P) as (sorted & S1 & S2 & S3).
    rewrite S1 in H. cbn [bind] in H. injection H as <-.
    assert (PRE : forall pre t post, sorted = pre ++ t :: post -> forall u, In u trees -> tree_before u t -> In u pre).
    { intros pre t post E u Hu B. apply (Permutation_in _ S2) in Hu. rewrite E in Hu.
      apply in_app_or in Hu as [Hu|[->|Hu]]; auto.
      - apply tree_before_irrefl in B. destruct B.
      - exfalso. apply in_split in Hu as (q & z & ->).
        eapply tree_before_irrefl. eapply tree_before_trans; [exact B|]. eapply S3. exact E. }
    assert (BACK : forall u, In u sorted -> In u trees).
    { intros u Hu. eapply Permutation_in; [apply Permutation_sym; eauto|auto]. }
    destruct (first_match_spec rel g sorted)
      as [(pre & t & post & s & m & E & A & B & C)|[(pre & t & post & e & E & A & B & C)|[A B]]].
    - left. exists t, s, m. split; auto. split; [apply BACK; rewrite E; apply in_or_app; right; left; auto|].
      split; auto. intros u Hu BF. apply C. eapply PRE; eauto.
    - right. left. exists t, e. split; auto. split; [apply BACK; rewrite E; apply in_or_app; right; left; auto|].
      split; auto. intros u Hu BF. apply C. eapply PRE; eauto.
    - right. right. split; auto. intros u Hu. apply B. eapply Permutation_in; eauto.
  Qed.

  Lemma match_total fuel toks trees : parse fuel toks false = Some trees -> exists r, match_ fuel toks = Some r.
  Proof. intros H. unfold ParserModel.match_. rewrite H. eauto. Qed.

  (** Without the start rule inside the grammar only the whole text is tried. *)
  Lemma whole_text fuel toks trees n i j : start_not_used g -> parse fuel toks false = Some trees ->
    In (n, (i, j)) trees -> i = 0 /\ j = length toks.
  Proof.
    intros NU H HT. split; [|apply (tree_stop _ _ _ _ _ _ _ H _ _ _ HT); auto].
    destruct (parse_chart accepts constrain g toks false fuel trees H) as (st & E & -> & V).
    apply (trees_in accepts constrain) in HT as (_ & _ & s & A1 & A2 & A3 & A4 & A5); [|exact V].
    rewrite <- A3. eapply start_only_first; eauto.
  Qed.

  (** ** findall *)
  Lemma findall_spec fuel toks s ms (P : store -> Prop) trees :
    findall fuel toks = Some (Ok (s, ms)) -> parse fuel toks true = Some trees -> P [] ->
    (forall t s s' m, In t trees -> P s -> prepare_match t s = Ok (s', Some m) -> P s') ->
    exists found : list ((nat * nat) * amatch),
      NoDup (map fst found) /\
      (forall r m, In (r, m) found -> exists t s1 s2, In t trees /\ snd t = r /\ P s1 /\
         prepare_match t s1 = Ok (s2, Some m) /\
         forall u, In u trees -> snd u = r -> tree_before u t -> exists s3, P s3 /\ prepare_match u s3 = Ok (s3, None)) /\
      (forall t, In t trees -> ~ In (snd t) (map fst found) -> exists s3, P s3 /\ prepare_match t s3 = Ok (s3, None)) /\
      (forall m, In m ms -> In (m_range m, m) found) /\
      best_selection (map fst found) (map m_range ms) /\ P s.
  Proof.
    intros H PA HP STEP. unfold ParserModel.findall in H. rewrite PA in H.
    destruct (sort_trees_ok _ _ _ _ _ _ _ PA) as (sorted & S1 & S2 & S3). rewrite S1 in H. cbn [bind] in H.
    injection H as H.
    destruct (resolved_spec accepts constrain rel g toks true fuel trees PA P STEP sorted ms s S2 S3 HP H)
      as (found & [G1 G2 G3 G4 G5] & HP' & B & C).
    exists found. split; auto. split; [|split; [|auto]].
    - intros r m HI. destruct (G4 r m HI) as (pre & t & post & s1 & s2 & E & A1 & A2 & A3 & A4).
      exists t, s1, s2. split; [eapply Permutation_in; [apply Permutation_sym; eauto|]; rewrite E; apply in_or_app; right; left; auto|].
      split; auto. split; auto. split; auto. intros u Hu Er BF. apply A4; auto.
      apply (Permutation_in _ S2) in Hu. rewrite E in Hu. apply in_app_or in Hu as [Hu|[->|Hu]]; auto.
      + apply tree_before_irrefl in BF. destruct BF.
      + exfalso. apply in_split in Hu as (q & z & ->).
        eapply tree_before_irrefl. eapply tree_before_trans; [exact BF|]. eapply S3. exact E.
    - intros t HT NI. apply G5; auto. eapply Permutation_in; eauto.
  Qed.

  (** Nothing in the text is empty for the start rule: findall does not raise. *)
  Lemma free_findall_ok fuel toks trees : relation_free g -> parse fuel toks true = Some trees ->
    (forall n i j, In (n, (i, j)) trees -> i < j) ->
    exists s ms, findall fuel toks = Some (Ok (s, ms)).
  Proof.
    intros RF PA NE. unfold ParserModel.findall. rewrite PA.
    destruct (sort_trees_ok _ _ _ _ _ _ _ PA) as (sorted & S1 & S2 & S3). rewrite S1. cbn [bind].
    assert (INC : incl sorted trees).
    { intros x Hx. eapply Permutation_in; [apply Permutation_sym; eauto|auto]. }
    assert (COL : forall rest acc s, incl rest trees -> pristine trees s ->
      exists s' acc', collect rel g rest acc s = Ok (s', acc')).
    { induction rest as [|t rest IH]; intros acc s IC PS; cbn [collect]; eauto.
      assert (IC' : incl rest trees) by (intros x Hx; apply IC; right; auto).
      destruct (lookup_range (snd t) acc); auto.
      assert (HT : In t trees) by (apply IC; left; auto).
      assert (NT : fst (snd t) < snd (snd t)) by (destruct t as [n [i j]]; eapply NE; eauto).
      destruct (free_prepare accepts constrain rel g toks true fuel trees PA t s RF PS HT NT) as (s1 & m & E & PS1 & _).
      rewrite E. cbn [bind]. auto. }
    destruct (COL sorted [] [] INC (pristine_nil trees)) as (s1 & found & C).
    unfold prepare_resolved_matches. rewrite C. cbn [bind].
    destruct (collect_spec rel g fuel trees (pristine trees)
      (fun t s s' m HT PS E => free_step accepts constrain rel g toks true fuel trees PA t s s' m RF HT PS E)
      _ _ _ _ _ INC (pristine_nil trees) C) as (new & EN & HP' & G). cbn [app] in EN. subst new.
    destruct (resolve_ranges (map fst found)) as (out & R1 & R2 & R3 & R4).
    { eapply strict_pairwise; eauto; [|apply G]. eapply sublist_pairwise; eauto; [apply G|]. eapply weak_pairwise; eauto. }
    { intros r Hr. apply in_map_iff in Hr as ([r' m] & <- & Hr).
      destruct (ga_from _ _ _ _ _ _ G _ _ Hr) as (pre & t & post & s2 & s3 & E1 & <- & _).
      destruct t as [n [i j]]. cbn [fst snd]. eapply NE. apply INC. rewrite E1. apply in_or_app. right. left. reflexivity. }
    rewrite map_map in R1. rewrite R1. cbn [bind].
    assert (M : forall out, incl out (map fst found) -> exists ms0,
          mapM (fun sp => match lookup_range (Z.to_nat (fst sp), Z.to_nat (snd sp)) found with
                          | Some m => Ok m | None => Err KeyError end) (map zrange out) = Ok ms0).
    { clear out R1 R2 R3 R4. induction out as [|r out IH]; intros IO; cbn [map mapM]; eauto.
      unfold zrange at 1 2. cbn [fst snd]. rewrite !Nat2Z.id. rewrite <- surjective_pairing.
      destruct (lookup_range r found) as [m|] eqn:E.
      - cbn [bind]. destruct IH as (ms0 & EM); [intros x Hx; apply IO; right; auto|]. rewrite EM. cbn [bind]. eauto.
      - eapply lookup_range_none in E; eauto. exfalso. apply E. apply IO. left. auto. }
    destruct (M out R3) as (ms & EM). rewrite EM. cbn [bind]. eauto.
  Qed.
End Theorems.
