(** Parsers of rules with parts that may be empty. *)
From Coq Require Import Permutation.
From Verif Require Import Base SpanModel EarleyModel EarleySpec EarleyInv EarleyProofs EarleyOrder
  EarleyTerm EarleyMore TokenModel TreeModel ParserModel TreeSpec TreeProofs RelationSpec RelationProofs
  ParserSpec FindallProofs ParserProofs MatchProofs ResultProofs ParserTheorems AgreeProofs AbsentSpec EarleyRounds EarleyAbsent.
Open Scope nat_scope.

Section Grammars.
  Context {token pred : Type}.
  Variable g : grammar token pred.

  Lemma no_nullable_timely : no_nullable g -> timely g.
  Proof.
    intros NN. exists (fun _ _ => 0), (fun _ _ => None). split; try reflexivity; try (intros; split; [lia|exact Logic.I]).
    intros r q n r' q' _ _ Hq' AB. exfalso. apply (NN r'). apply nullable_rule with (q := q'); assumption.
  Qed.

  (** Rounds for rules whose empty parts stand behind words. *)
  Definition wordsb (r : nat) : bool :=
    forallb (fun q => match rev (g_terms g q) with TPred _ :: _ => true | _ => false end) (g_prods g r).
  Lemma wordsb_true r : ends_with_word g r -> wordsb r = true.
  Proof.
    intros E. apply forallb_forall. intros q Hq. destruct (E q Hq) as (n & p & Ln & Hn). destruct (rev (g_terms g q)) as [|t l] eqn:R.
    - apply (f_equal (@length _)) in R. rewrite rev_length, Ln in R. discriminate.
    - assert (Et : g_terms g q = rev l ++ [t]) by (rewrite <- (rev_involutive (g_terms g q)), R; reflexivity).
      rewrite Et in Hn, Ln. rewrite app_length in Ln. cbn in Ln. rewrite nth_error_app2, (proj2 (Nat.sub_0_le n (length (rev l)))) in Hn by lia. cbn in Hn. injection Hn as ->. reflexivity.
  Qed.
  Lemma wordsb_last r q : wordsb r = true -> In q (g_prods g r) -> exists n p, length (g_terms g q) = S n /\ nth_error (g_terms g q) n = Some (TPred p).
  Proof.
    intros W Hq. unfold wordsb in W. rewrite forallb_forall in W. specialize (W q Hq). destruct (rev (g_terms g q)) as [|[r'|p] l] eqn:R; try discriminate.
    assert (Et : g_terms g q = rev l ++ [TPred p]) by (rewrite <- (rev_involutive (g_terms g q)), R; reflexivity). exists (length (rev l)), p.
    rewrite Et, app_length, nth_error_app2, Nat.sub_diag by lia. cbn. split; [lia|reflexivity].
  Qed.
  Definition words_up (q n : nat) : option nat :=
    match n with
    | O => None
    | S m => match nth_error (g_terms g q) m with
             | Some (TPred _) => Some 0
             | Some (TRule r) => if wordsb r then Some 1 else None
             | None => None
             end
    end.
  Definition words_lo (q n : nat) : nat := if n =? 0 then if existsb (Nat.eqb q) (g_prods g (g_start g)) then 0 else 1 else 0.
  Lemma absent_after_words_timely : absent_after_words g -> timely g.
  Proof.
    intros W. exists words_lo, words_up. split.
    - intros q Hq. unfold words_lo. cbn. replace (existsb (Nat.eqb q) (g_prods g (g_start g))) with true; [reflexivity|]. symmetry. apply existsb_exists. exists q. split; [exact Hq|apply Nat.eqb_refl].
    - reflexivity.
    - intros r q n r' q' Hq Hn Hq'. split; [|exact Logic.I]. unfold words_lo. cbn. destruct (existsb _ _); lia.
    - intros r q n r' q' Hq Hn Hq'. split; [unfold words_lo; cbn; lia|]. unfold words_up at 1. rewrite Hn. destruct (wordsb r') eqn:E; [|exact Logic.I].
      destruct (wordsb_last r' q' E Hq') as (m & p & -> & Hm). cbn. rewrite Hm. cbn. lia.
    - intros r q n r' q' Hq Hn Hq' AB. assert (N : nullable g (TRule r')) by (apply nullable_rule with (q := q'); assumption).
      assert (Em : g_terms g q' = []).
      { destruct (g_terms g q') as [|t ts] eqn:Et; [reflexivity|exfalso]. destruct t as [r2|p]; [|specialize (AB (TPred p) (or_introl eq_refl)); inversion AB].
        destruct (W r' q' 0 r2 Hq') as (_ & m & Bad & _); [rewrite Et; reflexivity|apply AB; left; reflexivity|discriminate]. }
      rewrite Em. cbn [length]. destruct (W r q n r' Hq Hn N) as (NS & m & -> & C). unfold words_lo. cbn [Nat.eqb].
      replace (existsb (Nat.eqb q') (g_prods g (g_start g))) with false.
      2:{ symmetry. apply not_true_iff_false. intros E. apply existsb_exists in E as (x & Hx & Ex). apply Nat.eqb_eq in Ex as <-. apply NS. eauto. }
      destruct C as [(p & Hm)|(r'' & Hm & E)]; cbn; rewrite Hm; [cbn; lia|]. rewrite (wordsb_true r'' E). cbn. lia.
  Qed.
End Grammars.

Section Parser.
  Context {pred : Type}.
  Variable accepts : pred -> token -> bool.
  Variable constrain : pred -> token -> token.
  Variable rel : nat -> form -> form -> bool.
  Variable g : grammar token pred.
  Variable toks : list token.
  Notation parse := (parse accepts constrain g).
  Notation match_ := (match_ accepts constrain rel g).
  Notation findall := (findall accepts constrain rel g).
  Notation prepare_match := (prepare_match rel g).
  Notation derives := (derives accepts g toks).

  Lemma timely_parse_complete fuel all trees i j d : predict_sound g -> predict_complete accepts g -> timely g ->
    parse fuel toks all = Some trees -> derives (TRule (g_start g)) i j d -> i <= length toks -> i = 0 \/ all = true -> j = length toks \/ all = true ->
    exists n, In (n, (i, j)) trees /\ erase n = d.
  Proof.
    intros PS PC T H D HI HA HJ. destruct (parse_chart accepts constrain g toks all fuel trees H) as (st & E & -> & V).
    destruct (proj1 (derives_span accepts g toks) _ _ _ _ D) as (L1 & _ & L2).
    destruct (timely_chart_complete accepts constrain g toks all fuel st PS PC T E i j d D HI HA) as (s & H1 & H2 & H3 & H4 & H5).
    exists (state_node s). split; [|exact H5]. apply (trees_in accepts constrain); [exact V|]. split; [auto|]. split; [intros ->; destruct HJ; [auto|discriminate]|]. exists s. auto.
  Qed.

  Hypothesis RF : relation_free g.
  Hypothesis PS : predict_sound g.
  Hypothesis PC : predict_complete accepts g.
  Hypothesis TI : timely g.
  Hypothesis NN : ~ nullable g (TRule (g_start g)).
  Lemma timely_pos i j d : derives (TRule (g_start g)) i j d -> i < j /\ j <= length toks.
  Proof.
    intros D. destruct (proj1 (derives_span accepts g toks) _ _ _ _ D) as (L1 & LV & L2).
    assert (i < j). { destruct (Nat.eq_dec i j) as [E|N]; [|lia]. exfalso. apply NN. eapply (proj1 (derives_empty accepts g toks)); eauto. }
    split; [assumption|]. apply L2. apply Nat.lt_le_incl. eapply (proj1 (derives_leaf accepts g toks)); [exact D|]. rewrite LV. apply in_seq. lia.
  Qed.
  Lemma timely_tree fuel all trees n i j : parse fuel toks all = Some trees -> In (n, (i, j)) trees ->
    derives (TRule (g_start g)) i j (erase n) /\ i < j /\ j <= length toks.
  Proof.
    intros P HT. destruct (parse_sound accepts constrain g fuel toks all trees n i j PS P HT) as (D & _). split; [exact D|apply (timely_pos _ _ _ D)].
  Qed.
  Lemma timely_findall fuel r : findall fuel toks = Some r ->
    exists s ms, r = Ok (s, ms) /\ best_ranges (fun r => exists d, derives (TRule (g_start g)) (fst r) (snd r) d) (map m_range ms).
  Proof.
    intros H. destruct (parse fuel toks true) as [trees|] eqn:P.
    2:{ unfold ParserModel.findall in H. rewrite P in H. discriminate. }
    destruct (free_findall_ok accepts constrain rel g fuel toks trees RF P) as (s & ms & E).
    { intros n i j HT. destruct (timely_tree _ _ _ _ _ _ P HT) as (_ & L & _). auto. }
    rewrite E in H. injection H as <-. exists s, ms. split; auto.
    destruct (findall_spec accepts constrain rel g fuel toks s ms (pristine trees) trees E P (pristine_nil trees)) as (found & F1 & F2 & F3 & F4 & F5 & F6).
    { intros t s0 s' m HT PR. eapply free_step; eauto. }
    assert (REJ : forall t s, In t trees -> pristine trees s -> forall s', prepare_match t s <> Ok (s', None)).
    { intros t s0 HT PR s'. apply (free_no_reject accepts constrain rel g toks true fuel trees P t s0); auto. }
    assert (CAND : forall r, In r (map fst found) <-> exists d, derives (TRule (g_start g)) (fst r) (snd r) d).
    { intros r. split.
      - intros HI. apply in_map_iff in HI as ([r' m] & <- & HI). destruct (F2 _ _ HI) as ([n [i j]] & s1 & s2 & HT & <- & _). cbn [fst snd]. exists (erase n). apply (timely_tree _ _ _ _ _ _ P HT).
      - intros (d & D). destruct (timely_pos _ _ _ D) as (B & C). destruct r as [i j]. cbn [fst snd] in *.
        destruct (timely_parse_complete fuel true trees i j d PS PC TI P D) as (n & HT & _); auto; [lia|].
        destruct (in_dec (fun a b : nat * nat => ltac:(decide equality; apply Nat.eq_dec)) (i, j) (map fst found)) as [X|X]; auto.
        exfalso. destruct (F3 _ HT X) as (s3 & PR & RJ). eapply REJ; eauto. }
    destruct F5 as (B1 & B2 & B3 & B4). unfold best_ranges. split; auto. split.
    - intros r Hr. apply CAND. auto.
    - split; intros S LR IN; [apply B3; auto|apply B4; auto]; intros r Hr; apply CAND; auto.
  Qed.
  Lemma timely_match fuel r : match_ fuel toks = Some r ->
    (exists s m, r = Ok (s, Some m) /\ snd (m_range m) = length toks /\ (exists d, derives (TRule (g_start g)) (fst (m_range m)) (snd (m_range m)) d) /\ (start_not_used g -> fst (m_range m) = 0)) \/
    (r = Ok ([], None) /\ forall d, ~ derives (TRule (g_start g)) 0 (length toks) d).
  Proof.
    intros H. destruct (match_spec accepts constrain rel g fuel toks r H) as (trees & P & CASES).
    assert (ACC : forall t s, In t trees -> prepare_match t [] <> Ok (s, None)).
    { intros t s HT. apply (free_no_reject accepts constrain rel g toks false fuel trees P t []); auto. apply pristine_nil. }
    assert (GOOD : forall n i j, In (n, (i, j)) trees -> exists s m, prepare_match (n, (i, j)) [] = Ok (s, Some m) /\ m_range m = (i, j)).
    { intros n i j HT. destruct (timely_tree _ _ _ _ _ _ P HT) as (_ & L & _). destruct (free_prepare accepts constrain rel g toks false fuel trees P (n, (i, j)) [] RF (pristine_nil trees) HT L) as (s1 & m1 & E1 & _ & _ & R & _). eauto. }
    destruct CASES as [([n [i j]] & s & m & -> & HT & E & LEAST)|[([n [i j]] & e & -> & HT & E & LEAST)|[-> REJ]]].
    - left. exists s, m. split; [reflexivity|]. destruct (GOOD n i j HT) as (s1 & m1 & E1 & R). rewrite E in E1. injection E1 as <- <-. rewrite R. cbn [fst snd].
      destruct (parse_sound accepts constrain g fuel toks false trees n i j PS P HT) as (D & _ & _ & J). split; [apply J; reflexivity|]. split; [eauto|].
      intros NU. apply (whole_text accepts constrain g fuel toks trees n i j NU P HT).
    - exfalso. destruct (GOOD n i j HT) as (s1 & m1 & E1 & _). rewrite E in E1. discriminate.
    - right. split; [reflexivity|]. intros d D. destruct (timely_parse_complete fuel false trees 0 _ d PS PC TI P D) as (n & HT & _); auto; [lia|]. eapply ACC; eauto.
  Qed.
End Parser.
