(** Which derivation is reported if empty parts are completed in time. *)
From Coq Require Import Permutation.
From Verif Require Import Base SpanModel EarleyModel EarleySpec EarleyInv EarleyProofs EarleyOrder EarleyTerm EarleyMore TokenModel TreeModel ParserModel TreeSpec TreeProofs RelationSpec RelationProofs
  ParserSpec FindallProofs ParserProofs MatchProofs ResultProofs ParserTheorems AgreeProofs AbsentSpec EarleyRounds EarleyAbsent AbsentTheorems.
Open Scope nat_scope.

Lemma present_erase {pred} (n : node token pred) : present (erase n) = option_map erase (propagate n).
Proof.
  induction n as [id pos p t|id r q rank ch IH] using node_ind2; [reflexivity|]. cbn [erase present propagate].
  assert (E : flat_map (fun c => match present c with Some c' => [c'] | None => [] end) (map erase ch) = map erase (flat_map (fun c => match propagate c with Some c' => [c'] | None => [] end) ch)).
  { induction IH as [|c ch Hc _ IHc]; [reflexivity|]. cbn [map flat_map]. rewrite map_app, IHc, Hc. destruct (propagate c); reflexivity. }
  rewrite E. destruct (flat_map _ ch); reflexivity.
Qed.

Section Prefer.
  Context {pred : Type}.
  Variable accepts : pred -> token -> bool.
  Variable constrain : pred -> token -> token.
  Variable rel : nat -> form -> form -> bool.
  Variable g : grammar token pred.
  Variable toks : list token.
  Notation parse := (parse accepts constrain g).
  Notation match_ := (match_ accepts constrain rel g).
  Notation findall := (findall accepts constrain rel g).
  Notation prepare_match := (prepare_match rel g).
  Notation derives := (derives accepts g toks).
  Hypothesis RF : relation_free g.
  Hypothesis PS : predict_sound g.
  Hypothesis PC : predict_complete accepts g.
  Hypothesis PF : predict_filters g.
  Hypothesis TI : timely g.
  Hypothesis NN : ~ nullable g (TRule (g_start g)).
  Notation POS := (timely_pos accepts g toks NN).
  Notation TREE := (timely_tree accepts constrain g toks PS NN).

  Notation best_derivation := (best_derivation accepts g toks).
  Lemma best_one i j d d' : best_derivation i j d -> best_derivation i j d' -> d = d'.
  Proof.
    intros [D B] [D' B']. destruct (B d' D') as [E|E]; [congruence|]. destruct (B' d D) as [E'|E']; [exact E'|].
    exfalso. unfold preferred in *. eapply rank_before_irrefl. eapply rank_before_trans; eauto.
  Qed.
  Lemma least_best fuel all trees n i j : parse fuel toks all = Some trees -> In (n, (i, j)) trees -> i = 0 \/ all = true -> j = length toks \/ all = true ->
    (forall u, In u trees -> snd u = (i, j) -> ~ tree_before u (n, (i, j))) -> best_derivation i j (erase n).
  Proof.
    intros P HT HI HJ LEAST. destruct (TREE _ _ _ _ _ _ P HT) as (D & L & LE). split; [exact D|]. intros d Dd.
    destruct (timely_parse_complete accepts constrain g toks fuel all trees i j d PS PC TI P Dd) as (n' & HN & <-); auto; [lia|].
    pose proof (tree_ok _ _ _ _ _ _ _ P _ _ _ HT) as OK. pose proof (tree_ok _ _ _ _ _ _ _ P _ _ _ HN) as OK'.
    destruct (proj1 (node_ok_compare _ _ _ _ PF) _ _ _ _ OK _ _ OK') as [X|[[X Y]|[X Y]]]; auto.
    exfalso. apply (LEAST (n', (i, j)) HN eq_refl). right. split; auto.
  Qed.

  Lemma timely_match_best fuel r : start_not_used g -> match_ fuel toks = Some r ->
    (exists s m d, r = Ok (s, Some m) /\ m_range m = (0, length toks) /\ best_derivation 0 (length toks) d /\ present d = Some (erase (m_root m)) /\
       exists trees n, parse fuel toks false = Some trees /\ In (n, (0, length toks)) trees /\ erase n = d /\ m_tokens m = tokens_of n /\ get_tokens_span (m_tokens m) = Ok (m_span m)) \/
    (r = Ok ([], None) /\ forall d, ~ derives (TRule (g_start g)) 0 (length toks) d).
  Proof.
    intros NU H. destruct (match_spec accepts constrain rel g fuel toks r H) as (trees & P & CASES).
    assert (ACC : forall t s, In t trees -> prepare_match t [] <> Ok (s, None)).
    { intros t s HT. apply (free_no_reject accepts constrain rel g toks false fuel trees P t []); auto. apply pristine_nil. }
    assert (GOOD : forall n i j, In (n, (i, j)) trees -> exists s m, prepare_match (n, (i, j)) [] = Ok (s, Some m) /\ propagate n = Some (m_root m) /\ m_range m = (i, j) /\ m_tokens m = tokens_of n /\ get_tokens_span (m_tokens m) = Ok (m_span m)).
    { intros n i j HT. destruct (TREE _ _ _ _ _ _ P HT) as (_ & L & _). destruct (free_prepare accepts constrain rel g toks false fuel trees P (n, (i, j)) [] RF (pristine_nil trees) HT L) as (s1 & m1 & E1 & _ & A & R & T & S). exists s1, m1. auto. }
    destruct CASES as [([n [i j]] & s & m & -> & HT & E & LEAST)|[([n [i j]] & e & -> & HT & E & LEAST)|[-> REJ]]].
    - left. destruct (GOOD n i j HT) as (s1 & m1 & E1 & PR & R & T & S). rewrite E in E1. injection E1 as <- <-.
      destruct (whole_text accepts constrain g fuel toks trees n i j NU P HT) as [-> ->].
      exists s, m, (erase n). split; [reflexivity|]. split; [exact R|]. split; [|split; [rewrite present_erase, PR; reflexivity|exists trees, n; auto]].
      apply (least_best fuel false trees n 0 (length toks) P HT); auto. intros u Hu _ B. apply (ACC u [] Hu). apply LEAST; auto.
    - exfalso. destruct (GOOD n i j HT) as (s1 & m1 & E1 & _). rewrite E in E1. discriminate.
    - right. split; [reflexivity|]. intros d D. destruct (timely_parse_complete accepts constrain g toks fuel false trees 0 _ d PS PC TI P D) as (n & HT & _); auto; [lia|]. eapply ACC; eauto.
  Qed.
  Lemma timely_findall_best fuel r : findall fuel toks = Some r ->
    exists s ms trees, r = Ok (s, ms) /\ parse fuel toks true = Some trees /\
      best_ranges (fun r => exists d, derives (TRule (g_start g)) (fst r) (snd r) d) (map m_range ms) /\
      forall m, In m ms -> exists d, best_derivation (fst (m_range m)) (snd (m_range m)) d /\ present d = Some (erase (m_root m)) /\
        exists n, In (n, m_range m) trees /\ erase n = d /\ m_tokens m = tokens_of n /\ get_tokens_span (m_tokens m) = Ok (m_span m).
  Proof.
    intros H. destruct (timely_findall accepts constrain rel g toks RF PS PC TI NN fuel r H) as (s & ms & -> & BR).
    destruct (parse fuel toks true) as [trees|] eqn:P.
    2:{ unfold ParserModel.findall in H. rewrite P in H. discriminate. }
    exists s, ms, trees. split; [reflexivity|]. split; [reflexivity|]. split; [exact BR|].
    destruct (findall_spec accepts constrain rel g fuel toks s ms (pristine trees) trees) as (found & F1 & F2 & F3 & F4 & F5 & F6); [exact H|exact P|apply pristine_nil| |].
    { intros t s0 s' m HT PR. eapply free_step; eauto. }
    intros m Hm. apply F4 in Hm. destruct (F2 _ _ Hm) as ([n [i j]] & s1 & s2 & HT & ER & PR & EM & LEAST). cbn [snd] in ER. rewrite <- ER in *. cbn [fst snd].
    destruct (TREE _ _ _ _ _ _ P HT) as (_ & L & _).
    destruct (free_prepare accepts constrain rel g toks true fuel trees P (n, (i, j)) s1 RF PR HT L) as (s3 & m3 & E3 & _ & A & R & T & S). rewrite EM in E3. injection E3 as <- <-.
    exists (erase n). split; [|split; [rewrite present_erase; cbn [fst] in A; rewrite A; reflexivity|exists n; auto]].
    apply (least_best fuel true trees n i j P HT); auto. intros u Hu Eu B.
    destruct (LEAST u Hu) as (s4 & PR4 & RJ); [congruence|congruence|]. eapply (free_no_reject accepts constrain rel g toks true fuel trees P u s4); eauto.
  Qed.
  Lemma timely_whole out : best_ranges (fun r => exists d, derives (TRule (g_start g)) (fst r) (snd r) d) out ->
    (exists d, derives (TRule (g_start g)) 0 (length toks) d) -> out = [(0, length toks)].
  Proof.
    intros (B1 & B2 & B3 & B4) [d D]. destruct (POS _ _ _ D) as (L & _).
    assert (LR : left_to_right 0 [(0, length toks)]) by (cbn; lia).
    assert (IN : forall r, In r [(0, length toks)] -> exists d, derives (TRule (g_start g)) (fst r) (snd r) d).
    { intros r [<-|[]]. eauto. }
    assert (BD : forall r, In r out -> snd r <= length toks).
    { intros r Hr. destruct (B2 r Hr) as (d' & Dd). apply POS in Dd. lia. }
    assert (COV : forall l from, left_to_right from l -> (forall r, In r l -> snd r <= length toks) -> from <= length toks -> covered l <= length toks - from).
    { clear. induction l as [|[i j] l IH]; intros from LR BD LE; [cbn; lia|]. cbn [left_to_right] in LR. destruct LR as (A & B & C).
      assert (j <= length toks) by (apply (BD (i, j)); left; auto). specialize (IH j C (fun r Hr => BD r (or_intror Hr)) H). unfold covered in *. cbn [map list_sum fold_right fst snd].
      change (fold_right Init.Nat.add 0 (map (fun r : nat * nat => snd r - fst r) l)) with (list_sum (map (fun r : nat * nat => snd r - fst r) l)). lia. }
    pose proof (COV out 0 B1 BD ltac:(lia)) as C1. pose proof (B3 _ LR IN) as C2.
    assert (C3 : covered [(0, length toks)] = length toks) by (unfold covered; cbn; lia).
    destruct (B4 _ LR IN) as [E|(p & x & y & a' & b' & E1 & E2 & RB)]; [lia|congruence|].
    exfalso. destruct p as [|z p]; cbn [app] in E2.
    - injection E2 as <- <-. destruct RB as [RB|[_ RB]]; cbn [fst snd] in RB; [lia|]. specialize (BD x). rewrite E1 in BD. specialize (BD (or_introl eq_refl)). lia.
    - injection E2 as _ E2. destruct p; discriminate.
  Qed.
  (** match and findall give the same result on the whole text. *)
  Lemma timely_agree fuel fuel' s m r : start_not_used g -> match_ fuel toks = Some (Ok (s, Some m)) -> findall fuel' toks = Some r ->
    exists s' m', r = Ok (s', [m']) /\ m_range m' = m_range m /\ erase (m_root m') = erase (m_root m) /\ m_tokens m' = m_tokens m /\ m_span m' = m_span m.
  Proof.
    intros NU HM HF. destruct (timely_match_best fuel _ NU HM) as [(s1 & m1 & d & E & R & B & PR & trees & n & P & HT & En & T & S)|[E _]]; [|discriminate]. injection E as <- <-.
    destruct (timely_findall_best fuel' r HF) as (s' & ms & trees' & -> & P' & BR & BD).
    assert (OUT : map m_range ms = [(0, length toks)]) by (apply timely_whole; [exact BR|exists d; apply B]).
    destruct ms as [|m' [|]]; try discriminate. cbn [map] in OUT. injection OUT as EM. exists s', m'. split; [reflexivity|]. split; [congruence|].
    destruct (BD m' (or_introl eq_refl)) as (d' & B' & PR' & n' & HT' & En' & T' & S'). rewrite EM in B', HT'. cbn [fst snd] in B'.
    assert (d' = d) by (apply (best_one 0 (length toks)); assumption). subst d'. split; [congruence|].
    pose proof (tree_ok _ _ _ _ _ _ _ P _ _ _ HT) as OK. pose proof (tree_ok _ _ _ _ _ _ _ P' _ _ _ HT') as OK'.
    destruct (proj1 (node_ok_same _ _ _ _) _ _ _ _ OK' _ _ OK) as (_ & _ & TK); [congruence|].
    assert (X : m_tokens m' = m_tokens m) by congruence. split; [exact X|]. rewrite X in S'. congruence.
  Qed.
End Prefer.
