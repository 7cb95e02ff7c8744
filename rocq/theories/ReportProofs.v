(** Where reported matches come from. *)
From Coq Require Import Permutation.
From Verif Require Import Base SpanModel EarleyModel EarleySpec EarleyInv EarleyProofs
  TokenModel TreeModel ParserModel TreeSpec TreeProofs RelationSpec RelationProofs
  ParserSpec FindallProofs ParserProofs MatchProofs ResultProofs ParserTheorems AgreeProofs.
Open Scope nat_scope.

Section Reported.
  Context {pred : Type}.
  Variable accepts : pred -> token -> bool.
  Variable constrain : pred -> token -> token.
  Variable rel : nat -> form -> form -> bool.
  Variable g : grammar token pred.
  Variable toks : list token.
  Notation parse := (parse accepts constrain g).

  (** The match is made from a tree of the chart: the tree with its empty
      nodes removed. *)
  Definition from_tree (all : bool) (fuel : nat) (m : @amatch pred) : Prop :=
    exists trees n, parse fuel toks all = Some trees /\ In (n, m_range m) trees /\ propagate n = Some (m_root m).

  Lemma prepare_from fuel all trees t s s' m : parse fuel toks all = Some trees -> In t trees ->
    prepare_match rel g t s = Ok (s', Some m) -> from_tree all fuel m.
  Proof.
    intros P HT H. destruct t as [n [i j]].
    destruct (prepare_match_inv rel g _ _ _ _ _ H (tree_nodup_id _ _ _ _ _ _ _ P _ HT) (tree_nodup_pos _ _ _ _ _ _ _ P _ HT))
        as (rl & gr & M1 & M2 & M3 & M4 & M5 & M6 & _).
    exists trees, n. rewrite M6. auto.
  Qed.

  Lemma match_reported fuel s m : match_ accepts constrain rel g fuel toks = Some (Ok (s, Some m)) -> from_tree false fuel m.
  Proof.
    intros H. destruct (match_spec accepts constrain rel g fuel toks _ H) as (trees & P & CASES).
    destruct CASES as [(t & s1 & m1 & X & HT & E & _)|[(t & e & X & _)|[X _]]];
      [injection X as <- <-|discriminate|discriminate].
    eapply prepare_from; eauto.
  Qed.

  Lemma findall_reported fuel s ms m : findall accepts constrain rel g fuel toks = Some (Ok (s, ms)) -> In m ms ->
    from_tree true fuel m.
  Proof.
    intros H HI. destruct (parse fuel toks true) as [trees|] eqn:P.
    2:{ unfold ParserModel.findall in H. rewrite P in H. discriminate. }
    destruct (findall_spec accepts constrain rel g fuel toks s ms (fun _ => True) trees H P I)
      as (found & F1 & F2 & F3 & F4 & F5 & F6); [auto|].
    destruct (F2 _ _ (F4 _ HI)) as (t & s1 & s2 & HT & _ & GS & E & _). eapply prepare_from; eauto.
  Qed.

  Lemma extract_reported fuel all ms s e m : extract accepts constrain rel g fuel toks all = Some (ms, s, e) ->
    In m ms -> from_tree all fuel m.
  Proof.
    intros H HI. unfold extract in H. destruct (parse fuel toks all) as [trees|] eqn:P; [|discriminate].
    injection H as H.
    assert (G : forall l s0, incl l trees -> forall ms s e,
       prepare_matches rel g l s0 = (ms, s, e) -> In m ms -> from_tree all fuel m).
    { induction l as [|t l IH]; intros s0 IC ms0 s1 e1 E HM; cbn [prepare_matches] in E.
      - injection E as <- <- <-. destruct HM.
      - assert (HT : In t trees) by (apply IC; left; auto).
        assert (IC' : incl l trees) by (intros x Hx; apply IC; right; auto).
        destruct (prepare_match rel g t s0) as [[s2 [m2|]]|] eqn:EP.
        + destruct (prepare_matches rel g l s2) as [[ms2 s3] e2] eqn:E2. injection E as <- <- <-.
          destruct HM as [<-|HM]; [eapply prepare_from; eauto|]. eapply IH; eauto.
        + eapply IH; eauto.
        + injection E as <- <- <-. destruct HM. }
    eapply G; eauto. intros x; auto.
  Qed.

  (** The order of the ranges in findall's result, for every grammar. *)
  Lemma findall_order fuel s ms : findall accepts constrain rel g fuel toks = Some (Ok (s, ms)) ->
    left_to_right 0 (map m_range ms).
  Proof.
    intros H. destruct (parse fuel toks true) as [trees|] eqn:P.
    2:{ unfold ParserModel.findall in H. rewrite P in H. discriminate. }
    destruct (findall_spec accepts constrain rel g fuel toks s ms (fun _ => True) trees H P I)
      as (found & F1 & F2 & F3 & F4 & F5 & F6); [auto|]. apply F5.
  Qed.

  (** Candidates of the overlap resolution, for every grammar. *)
  Definition acceptable (all : bool) (fuel : nat) (r : nat * nat) : Prop :=
    exists trees t s s' m, parse fuel toks all = Some trees /\ In t trees /\ snd t = r /\
      prepare_match rel g t s = Ok (s', Some m).

  Lemma findall_candidates fuel s ms : findall accepts constrain rel g fuel toks = Some (Ok (s, ms)) ->
    exists trees (candidates : list (nat * nat)),
      parse fuel toks true = Some trees /\ NoDup candidates /\
      (forall r, In r candidates -> exists t s1 s2 m, In t trees /\ snd t = r /\
         prepare_match rel g t s1 = Ok (s2, Some m) /\
         forall u, In u trees -> snd u = r -> tree_before u t -> exists s3, prepare_match rel g u s3 = Ok (s3, None)) /\
      (forall t, In t trees -> ~ In (snd t) candidates -> exists s3, prepare_match rel g t s3 = Ok (s3, None)) /\
      best_ranges (fun r => In r candidates) (map m_range ms) /\
      (forall m, In m ms -> exists t s1 s2, In t trees /\ snd t = m_range m /\
         prepare_match rel g t s1 = Ok (s2, Some m) /\
         forall u, In u trees -> snd u = m_range m -> tree_before u t -> exists s3, prepare_match rel g u s3 = Ok (s3, None)).
  Proof.
    intros H. destruct (parse fuel toks true) as [trees|] eqn:P.
    2:{ unfold ParserModel.findall in H. rewrite P in H. discriminate. }
    destruct (findall_spec accepts constrain rel g fuel toks s ms (fun _ => True) trees H P I)
      as (found & F1 & F2 & F3 & F4 & F5 & F6); [auto|].
    exists trees, (map fst found). split; auto. split; auto.
    assert (F2' : forall r m, In (r, m) found -> exists t s1 s2, In t trees /\ snd t = r /\
         prepare_match rel g t s1 = Ok (s2, Some m) /\
         forall u, In u trees -> snd u = r -> tree_before u t -> exists s3, prepare_match rel g u s3 = Ok (s3, None)).
    { intros r m HI. destruct (F2 _ _ HI) as (t & s1 & s2 & A & B & _ & C & D). exists t, s1, s2.
      split; auto. split; auto. split; auto. intros u Hu Er BF. destruct (D u Hu Er BF) as (s3 & _ & X). eauto. }
    split; [|split; [|split]].
    - intros r HR. apply in_map_iff in HR as ([r' m] & <- & HI). destruct (F2' _ _ HI) as (t & s1 & s2 & A & B & C & D).
      exists t, s1, s2, m. auto.
    - intros t HT NI. destruct (F3 t HT NI) as (s3 & _ & X). eauto.
    - exact F5.
    - intros m HM. apply F2'. auto.
  Qed.

  (** find is the first of findall. *)
  Lemma find_first fuel : find accepts constrain rel g fuel toks =
    match findall accepts constrain rel g fuel toks with
    | Some (Ok (s, ms)) => Some (Ok (s, hd_error ms))
    | Some (Err e) => Some (Err e)
    | None => None
    end.
  Proof. unfold find. destruct (findall accepts constrain rel g fuel toks) as [[[s ms]|e]|]; reflexivity. Qed.
End Reported.

Lemma findall_by_derivations :
  forall pred (accepts : pred -> token -> bool) constrain rel g toks fuel r,
  relation_free g -> predict_sound g -> predict_complete accepts g -> predict_filters g -> no_nullable g ->
  findall accepts constrain rel g fuel toks = Some r ->
  exists s ms, r = Ok (s, ms) /\
    best_ranges (fun r => exists d, derives accepts g toks (TRule (g_start g)) (fst r) (snd r) d) (map m_range ms) /\
    (forall m, In m ms ->
       derives accepts g toks (TRule (g_start g)) (fst (m_range m)) (snd (m_range m)) (erase (m_root m)) /\
       forall d, derives accepts g toks (TRule (g_start g)) (fst (m_range m)) (snd (m_range m)) d ->
         d = erase (m_root m) \/ preferred g (erase (m_root m)) d).
Proof.
  intros pred accepts constrain rel g toks fuel r RF PS PC PF NN H.
  destruct (free_findall accepts constrain rel g toks RF PS PC PF NN fuel r H) as (s & ms & A & B & C & _).
  exists s, ms. auto.
Qed.

Lemma tree_before_strict : forall token pred (a b c : node token pred * (nat * nat)),
  ~ tree_before a a /\ (tree_before a b -> tree_before b c -> tree_before a c) /\
  (tree_before a b -> ~ tree_before b a).
Proof.
  intros token pred a b c. split; [apply tree_before_irrefl|]. split; [apply tree_before_trans|].
  intros H1 H2. apply (tree_before_irrefl a). eapply tree_before_trans; eauto.
Qed.

Lemma trees_written_order :
  forall pred (accepts : pred -> token -> bool) constrain g fuel toks all trees n n' i j,
  predict_filters g -> parse accepts constrain g fuel toks all = Some trees ->
  In (n, (i, j)) trees -> In (n', (i, j)) trees ->
  (tree_before (n, (i, j)) (n', (i, j)) <-> preferred g (erase n) (erase n')).
Proof. intros. eapply same_range_order; eauto. Qed.
