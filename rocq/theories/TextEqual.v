(** Rules that accept the same pieces of text are found at the same places. *)
From Coq Require String.
From Verif Require Import Base TokenModel EarleyModel EarleySpec TokenizerModel TokenizerSpec TaggerModel PredicateModel PipelineModel PipelineSpec PipelineTheorems PredicateCases
  TreeModel TreeSpec ParserModel ParserSpec RuleModel RuleSpec RuleAccept RuleBuild GrammarModel GrammarSpec RuleNestSpec RuleTheorems RuleCases RuleCalls TextModel TextSpec TextProofs TextTheorems EqualSpec.
Open Scope nat_scope.

Lemma range_before_irrefl x : ~ range_before x x.
Proof. unfold range_before. lia. Qed.
Lemma ranges_before_asym a : forall b, ranges_before a b -> ranges_before b a -> False.
Proof.
  induction a as [|x0 a IH]; intros b (p & x & y & a' & b' & E & E' & R) (q & u & v & c & d & F & F' & Q); [destruct p; discriminate|].
  destruct p as [|p0 p], q as [|q0 q]; cbn [app] in *; subst b.
  - injection F as -> ->. injection E as -> ->. injection F' as -> ->. unfold range_before in *. lia.
  - injection F as <- ->. injection E as -> ->. injection F' as -> E. apply (range_before_irrefl _ R).
  - injection E as -> ->. injection F as -> F. injection F' as E _. subst. apply (range_before_irrefl _ Q).
  - injection E as -> ->. injection F as -> F. injection F' as F'. apply (IH (p ++ y :: b')).
    + exists p, x, y, a', b'. auto.
    + exists q, u, v, c, d. auto.
Qed.
Lemma best_ranges_unique (P Q : nat * nat -> Prop) a b : (forall x, P x <-> Q x) -> best_ranges P a -> best_ranges Q b -> a = b.
Proof.
  intros E (A1 & A2 & A3 & A4) (B1 & B2 & B3 & B4).
  assert (A2' : forall r, In r a -> Q r) by (intros r I; apply E, A2, I). assert (B2' : forall r, In r b -> P r) by (intros r I; apply E, B2, I).
  assert (C : covered a = covered b) by (apply Nat.le_antisymm; [apply (B3 a A1 A2')|apply (A3 b B1 B2')]).
  destruct (A4 b B1 B2' (eq_sym C)) as [H|H]; [congruence|]. destruct (B4 a A1 A2' C) as [K|K]; [congruence|]. destruct (ranges_before_asym _ _ H K).
Qed.

Section Equal.
  Variable U : unicode.
  Variable set_order : list str -> list str.
  Variable c : context.
  Hypothesis sets : set_iteration set_order.
  Notation accept := (rule_accepts U set_order c).
  Notation ready := (ready U set_order c).
  Lemma span_of h root toks m m' : match_of U set_order c h root toks m -> forall h' root', match_of U set_order c h' root' toks m' -> m_range m = m_range m' -> m_span m = m_span m'.
  Proof.
    intros (_ & _ & a & b & A & B & _ & E) h' root' (_ & _ & a' & b' & A' & B' & _ & E') R. rewrite <- R in *. rewrite A in A'. rewrite B in B'. injection A' as ->. injection B' as ->. congruence.
  Qed.
  Theorem equal_findall rel rel' fuel fuel' h h' root root' g g' text toks r r' :
    ready fuel h root g -> ready fuel' h' root' g' -> text_tokens c text = Some (Ok toks) ->
    (forall i j, accept h root toks i j <-> accept h' root' toks i j) ->
    parser_findall U set_order c rel fuel h root text = Some r -> parser_findall U set_order c rel' fuel' h' root' text = Some r' ->
    exists s s' ms ms', r = Ok (s, ms) /\ r' = Ok (s', ms') /\ map (fun m => (m_range m, m_span m)) ms = map (fun m => (m_range m, m_span m)) ms'.
  Proof.
    intros (B & H & R & Sd & G) (B' & H' & R' & Sd' & G') T E F F'.
    destruct (text_findall_best U set_order c sets rel fuel h root text B H R g toks G T Sd r F) as (s & ms & -> & K).
    destruct (text_findall_best U set_order c sets rel' fuel' h' root' text B' H' R' g' toks G' T Sd' r' F') as (s' & ms' & -> & K').
    assert (M := best_ranges_unique _ _ _ _ (fun x => E (fst x) (snd x)) K K'). exists s, s', ms, ms'. split; [reflexivity|]. split; [reflexivity|].
    destruct (text_findall U set_order c sets rel fuel h root text B H R s ms F) as (t1 & T1 & M1). destruct (text_findall U set_order c sets rel' fuel' h' root' text B' H' R' s' ms' F') as (t2 & T2 & M2).
    rewrite T in T1, T2. injection T1 as <-. injection T2 as <-. clear - M M1 M2. revert ms' M M2. induction ms as [|m ms IH]; intros [|m' ms'] M M2; try discriminate; [reflexivity|].
    cbn [map] in *. injection M as M0 M. rewrite (span_of h root toks m m' (M1 m (or_introl eq_refl)) h' root' (M2 m' (or_introl eq_refl)) M0), M0. f_equal. apply IH; [intros x I; apply M1; right; exact I|exact M|intros x I; apply M2; right; exact I].
  Qed.
  Theorem equal_find rel rel' fuel fuel' h h' root root' g g' text toks r r' :
    ready fuel h root g -> ready fuel' h' root' g' -> text_tokens c text = Some (Ok toks) ->
    (forall i j, accept h root toks i j <-> accept h' root' toks i j) ->
    parser_find U set_order c rel fuel h root text = Some r -> parser_find U set_order c rel' fuel' h' root' text = Some r' ->
    exists s s' m m', r = Ok (s, m) /\ r' = Ok (s', m') /\ option_map (fun m => (m_range m, m_span m)) m = option_map (fun m => (m_range m, m_span m)) m'.
  Proof.
    intros Y Y' T E F F'. apply text_find_first in F as (x & F & K). apply text_find_first in F' as (x' & F' & K').
    destruct (equal_findall rel rel' fuel fuel' h h' root root' g g' text toks x x' Y Y' T E F F') as (s & s' & ms & ms' & -> & -> & M).
    destruct r as [[s1 m1]|]; [|destruct K]. destruct r' as [[s2 m2]|]; [|destruct K']. exists s1, s2, m1, m2. split; [reflexivity|]. split; [reflexivity|].
    destruct m1 as [m1|], m2 as [m2|].
    - destruct K as (rest & -> & _), K' as (rest' & -> & _). cbn in M. injection M as M M0 _. cbn. congruence.
    - destruct K as (rest & -> & _). subst ms'. discriminate.
    - destruct K' as (rest & -> & _). subst ms. discriminate.
    - reflexivity.
  Qed.
  Theorem equal_match rel rel' fuel fuel' h h' root root' g g' text toks r r' :
    ready fuel h root g -> ready fuel' h' root' g' -> text_tokens c text = Some (Ok toks) ->
    accept h root toks 0 (length toks) <-> accept h' root' toks 0 (length toks) ->
    start_not_used g -> start_not_used g' ->
    parser_match U set_order c rel fuel h root text = Some r -> parser_match U set_order c rel' fuel' h' root' text = Some r' ->
    exists s s' m m', r = Ok (s, m) /\ r' = Ok (s', m') /\ (m = None <-> m' = None).
  Proof.
    intros (B & H & R & Sd & G) (B' & H' & R' & Sd' & G') T E N N' F F'.
    destruct (text_match_solid U set_order c sets rel fuel h root text B H R g toks G T Sd r F) as [(s & m & -> & L & A & Z)|[-> A]];
    destruct (text_match_solid U set_order c sets rel' fuel' h' root' text B' H' R' g' toks G' T Sd' r' F') as [(s' & m' & -> & L' & A' & Z')|[-> A']].
    - exists s, s', (Some m), (Some m'). split; [reflexivity|]. split; [reflexivity|]. split; discriminate.
    - exfalso. apply A', E. rewrite (Z N), L in A. exact A.
    - exfalso. apply A, E. rewrite (Z' N'), L' in A'. exact A'.
    - exists [], [], None, None. split; [reflexivity|]. split; [reflexivity|]. split; reflexivity.
  Qed.
End Equal.

(** ** Laws of rules *)
Section Laws.
  Variable U : unicode.
  Variable set_order : list str -> list str.
  Variable c : context.
  Variable h : rule_heap.
  Notation pipe_bnf := (active_bnf (pipeline_as_bnf U set_order) (activate_pipeline c)).
  Notation acc := (accepts_active (accepts U) (activate c)).
  Notation matches := (matches pipe_bnf b_productions acc h).
  Notation repeats := (repeats pipe_bnf b_productions acc h).
  Notation in_sequence := (in_sequence pipe_bnf b_productions acc h).
  Notation rule_accepts := (rule_accepts U set_order c h).
  Notation sequence_at := (sequence_at h).
  Lemma accepts_by x y : (forall ts, matches x ts <-> matches y ts) -> forall toks i j, rule_accepts x toks i j <-> rule_accepts y toks i j.
  Proof. intros E toks i j. split; intros (ts & S1 & M); exists ts; (split; [exact S1|apply E, M]). Qed.
  Lemma sequence_matches p terms ts : sequence_at p terms -> matches p ts <-> in_sequence terms ts.
  Proof.
    intros (q & m & E & E'). rewrite (rule_matches U set_order c h p [q] ts E). split.
    - intros (q' & [<-|[]] & H). apply (production_matches U set_order c h q terms m ts E'), H.
    - intros H. exists q. split; [left; reflexivity|]. apply (production_matches U set_order c h q terms m ts E'), H.
  Qed.
  Lemma in_sequence_app : forall a b ts, in_sequence (a ++ b) ts <-> exists us vs, ts = us ++ vs /\ in_sequence a us /\ in_sequence b vs.
  Proof.
    induction a as [|x a IH]; intros b ts; cbn [app].
    - split; [intros H; exists [], ts; repeat split; [constructor|exact H]|]. intros (us & vs & -> & H & K). inversion H; subst. exact K.
    - split.
      + intros H. inversion H as [|p tl t tt A H'|r tl us' tt A H']; subst; apply IH in H' as (us & vs & -> & H1 & H2).
        * exists (t :: us), vs. repeat split; [constructor; assumption|exact H2].
        * exists (us' ++ us), vs. rewrite app_assoc. repeat split; [constructor; assumption|exact H2].
      + intros (us & vs & -> & H & K). inversion H as [|p tl t tt A H'|r tl us' tt A H']; subst; cbn [app].
        * constructor; [exact A|]. apply IH. exists tt, vs. auto.
        * rewrite <- app_assoc. constructor; [exact A|]. apply IH. exists tt, vs. auto.
  Qed.
  Lemma in_sequence_one r ts : in_sequence [TRule r] ts <-> matches r ts.
  Proof.
    split.
    - intros H. inversion H as [| |r' tl us tt A H']; subst. inversion H'; subst. rewrite app_nil_r. exact A.
    - intros H. rewrite <- (app_nil_r ts). constructor; [exact H|constructor].
  Qed.
  Lemma in_sequence_around a r b ts : in_sequence (a ++ TRule r :: b) ts <-> exists us vs ws, ts = us ++ vs ++ ws /\ in_sequence a us /\ matches r vs /\ in_sequence b ws.
  Proof.
    change (TRule r :: b) with ([TRule r] ++ b). rewrite in_sequence_app. split.
    - intros (us & x & -> & H & K). apply in_sequence_app in K as (vs & ws & -> & K1 & K2). exists us, vs, ws. rewrite in_sequence_one in K1. auto.
    - intros (us & vs & ws & -> & H & K1 & K2). exists us, (vs ++ ws). repeat split; [exact H|]. apply in_sequence_app. exists vs, ws. rewrite in_sequence_one. auto.
  Qed.

  Theorem or_sets x y rs rs' : nth_error h x = Some (OOr rs) -> nth_error h y = Some (OOr rs') -> (forall r, In r rs <-> In r rs') ->
    forall toks i j, rule_accepts x toks i j <-> rule_accepts y toks i j.
  Proof. intros E E' S1. apply accepts_by. intros ts. rewrite (or_matches _ _ _ _ _ _ _ E), (or_matches _ _ _ _ _ _ _ E'). split; intros (r & I & H); exists r; (split; [apply S1, I|exact H]). Qed.
  Theorem or_nested x y o a rs b : nth_error h x = Some (OOr (a ++ o :: b)) -> nth_error h o = Some (OOr rs) -> nth_error h y = Some (OOr (a ++ rs ++ b)) ->
    forall toks i j, rule_accepts x toks i j <-> rule_accepts y toks i j.
  Proof.
    intros E Eo E'. apply accepts_by. intros ts. rewrite (or_matches _ _ _ _ _ _ _ E), (or_matches _ _ _ _ _ _ _ E'). split; intros (r & I & H).
    - apply in_app_or in I as [I|[<-|I]].
      + exists r. split; [apply in_or_app; left; exact I|exact H].
      + apply (or_matches _ _ _ _ _ _ _ Eo) in H as (r & I & H). exists r. split; [apply in_or_app; right; apply in_or_app; left; exact I|exact H].
      + exists r. split; [apply in_or_app; right; apply in_or_app; right; exact I|exact H].
    - apply in_app_or in I as [I|I]; [exists r; split; [apply in_or_app; left; exact I|exact H]|]. apply in_app_or in I as [I|I].
      + exists o. split; [apply in_elt|]. apply (or_matches _ _ _ _ _ _ _ Eo). exists r. auto.
      + exists r. split; [apply in_or_app; right; right; exact I|exact H].
  Qed.
  Theorem sequence_nested x y s a m b : sequence_at x (a ++ TRule s :: b) -> sequence_at s m -> sequence_at y (a ++ m ++ b) ->
    forall toks i j, rule_accepts x toks i j <-> rule_accepts y toks i j.
  Proof.
    intros E Es E'. apply accepts_by. intros ts. rewrite (sequence_matches _ _ _ E), (sequence_matches _ _ _ E'), in_sequence_around, in_sequence_app. split.
    - intros (us & vs & ws & -> & H & K & L). exists us, (vs ++ ws). repeat split; [exact H|]. apply in_sequence_app. exists vs, ws. apply (sequence_matches _ _ _ Es) in K. auto.
    - intros (us & x0 & -> & H & K). apply in_sequence_app in K as (vs & ws & -> & K & L). exists us, vs, ws. apply (sequence_matches _ _ _ Es) in K. auto.
  Qed.
  Theorem or_distributes x y o a rs b ys : sequence_at x (a ++ TRule o :: b) -> nth_error h o = Some (OOr rs) ->
    nth_error h y = Some (OOr ys) -> Forall2 (fun r z => sequence_at z (a ++ TRule r :: b)) rs ys ->
    forall toks i j, rule_accepts x toks i j <-> rule_accepts y toks i j.
  Proof.
    intros E Eo Ey F. apply accepts_by. intros ts. rewrite (sequence_matches _ _ _ E), (or_matches _ _ _ _ _ _ _ Ey), in_sequence_around. split.
    - intros (us & vs & ws & -> & H & K & L). apply (or_matches _ _ _ _ _ _ _ Eo) in K as (r & I & K).
      assert (Z : exists z, In z ys /\ sequence_at z (a ++ TRule r :: b)).
      { clear - F I. induction F as [|r' z rs ys H F IH]; [destruct I|]. destruct I as [->|I]; [exists z; split; [left; reflexivity|exact H]|]. destruct (IH I) as (z' & I' & S'). exists z'. split; [right; exact I'|exact S']. }
      destruct Z as (z & Iz & Sz). exists z. split; [exact Iz|]. apply (sequence_matches _ _ _ Sz). apply in_sequence_around. exists us, vs, ws. auto.
    - intros (z & I & H). assert (Z : exists r, In r rs /\ sequence_at z (a ++ TRule r :: b)).
      { clear - F I. induction F as [|r' z' rs ys H F IH]; [destruct I|]. destruct I as [->|I]; [exists r'; split; [left; reflexivity|exact H]|]. destruct (IH I) as (r & I' & S'). exists r. split; [right; exact I'|exact S']. }
      destruct Z as (r & Ir & Sz). apply (sequence_matches _ _ _ Sz) in H. apply in_sequence_around in H as (us & vs & ws & -> & H & K & L). exists us, vs, ws. repeat split; auto. apply (or_matches _ _ _ _ _ _ _ Eo). exists r. auto.
  Qed.
  Notation calm := (calm U c).
  Lemma or_calm ps t : (forall p, In p ps -> calm p) -> acc (POr ps) t = existsb (fun p => acc p t) ps.
  Proof.
    intros C. unfold accepts_active. cbn [activate]. assert (A : exists qs, mapM (activate c) ps = Ok qs /\ Forall2 (fun p q => activate c p = Ok q /\ exists b, PredicateModel.call U q t = Ok b) ps qs).
    { clear - C. induction ps as [|p ps IH]; [exists []; split; [reflexivity|constructor]|]. destruct (C p (or_introl eq_refl)) as (q & Eq & K). destruct IH as (qs & E & F); [intros x I; apply C; right; exact I|]. exists (q :: qs). cbn. rewrite Eq. cbn. rewrite E. split; [reflexivity|]. constructor; [split; [exact Eq|apply K]|exact F]. }
    destruct A as (qs & E & F). rewrite E. cbn [bind]. unfold accepts. cbn [PredicateModel.call]. clear - F. induction F as [|p q ps qs (Eq & b & Hb) F IH]; [reflexivity|]. cbn [map any_ existsb]. rewrite Eq, Hb. cbn [bind]. destruct b; [reflexivity|exact IH].
  Qed.
  Theorem or_of_predicates x y ps rs : (forall p, In p ps -> calm p) -> sequence_at x [TPred (POr ps)] -> nth_error h y = Some (OOr rs) ->
    Forall2 (fun p r => sequence_at r [TPred p]) ps rs -> forall toks i j, rule_accepts x toks i j <-> rule_accepts y toks i j.
  Proof.
    intros C E Ey F. apply accepts_by. intros ts. rewrite (sequence_matches _ _ _ E), (or_matches _ _ _ _ _ _ _ Ey).
    assert (One : forall p us, in_sequence [TPred p] us <-> exists t, us = [t] /\ acc p t = true).
    { clear. intros p us. split; [intros K; inversion K as [|p0 tl t0 us0 A K'|]; subst; inversion K'; subst; exists t0; split; [reflexivity|exact A]|]. intros (t & -> & A). constructor; [exact A|constructor]. }
    rewrite One. split.
    - intros (t & -> & A). rewrite (or_calm ps t C) in A. apply existsb_exists in A as (p & I & A). clear - F I A One.
      induction F as [|p' r ps rs H F IH]; [destruct I|]. destruct I as [->|I]; [exists r; split; [left; reflexivity|]; apply (sequence_matches _ _ _ H), One; eauto|]. destruct (IH I) as (r' & I' & M). exists r'. split; [right; exact I'|exact M].
    - intros (r & I & M). assert (Z : exists p, In p ps /\ sequence_at r [TPred p]).
      { clear - F I. induction F as [|p' r' ps rs H F IH]; [destruct I|]. destruct I as [->|I]; [exists p'; split; [left; reflexivity|exact H]|]. destruct (IH I) as (p & I' & S'). exists p. split; [right; exact I'|exact S']. }
      destruct Z as (p & Ip & Sp). assert (M2 := proj1 (sequence_matches _ _ _ Sp) M). apply One in M2. destruct M2 as (t & -> & A). exists t. split; [reflexivity|]. rewrite (or_calm ps t C). apply existsb_exists. eauto.
  Qed.
End Laws.

(** ** a = rule('a').optional(): rule(a, rule(a, 'c')) does not find "c", the same rule with
    another rule('a').optional() inside does. *)
Definition twins_program : list rule_call :=
  [CRule [W "a"]; COptional 1 false; CRule [R 2; W "c"]; CRule [R 2; R 4]; CRule [W "a"]; COptional 8 false; CRule [R 9; W "c"]; CRule [R 2; R 11]].
Definition twins_heap : rule_heap := program twins_program.
Section Twins.
  Notation pipe_bnf := (active_bnf (pipeline_as_bnf ASCII first_seen) (activate_pipeline small_context)).
  Notation acc := (accepts_active (accepts ASCII) (activate small_context)).
  Notation matches := (matches pipe_bnf b_productions acc twins_heap).
  Notation repeats := (repeats pipe_bnf b_productions acc twins_heap).
  Notation in_sequence := (in_sequence pipe_bnf b_productions acc twins_heap).
  Lemma twin_words ts : matches 1 ts <-> matches 8 ts.
  Proof.
    rewrite (sequence_matches ASCII first_seen small_context twins_heap 1 [TPred (PEq (str_of "a"))]) by (exists 0, 0; split; reflexivity).
    rewrite (sequence_matches ASCII first_seen small_context twins_heap 8 [TPred (PEq (str_of "a"))]) by (exists 7, 0; split; reflexivity). reflexivity.
  Qed.
  Lemma twin_optionals ts : matches 2 ts <-> matches 9 ts.
  Proof.
    assert (K : forall r r', (forall us, matches r us <-> matches r' us) -> forall n us, repeats r n us -> repeats r' n us).
    { intros r r' E n. induction n as [|n IH]; intros us H; inversion H; subst; constructor; [apply E; assumption|apply IH; assumption]. }
    rewrite (optional_matches ASCII first_seen small_context twins_heap 2 1 false ts eq_refl), (optional_matches ASCII first_seen small_context twins_heap 9 8 false ts eq_refl).
    split; intros (n & L & H); exists n; (split; [exact L|]); [apply (K 1 8)|apply (K 8 1)]; try exact H; intros us; [|symmetry]; apply twin_words.
  Qed.
  Lemma twin_tails ts : matches 4 ts <-> matches 11 ts.
  Proof.
    rewrite (sequence_matches ASCII first_seen small_context twins_heap 4 ([] ++ TRule 2 :: [TPred (PEq (str_of "c"))])) by (exists 3, 0; split; reflexivity).
    rewrite (sequence_matches ASCII first_seen small_context twins_heap 11 ([] ++ TRule 9 :: [TPred (PEq (str_of "c"))])) by (exists 10, 0; split; reflexivity).
    rewrite !in_sequence_around. split; intros (us & vs & ws & -> & H & K & L); exists us, vs, ws; repeat split; auto; apply twin_optionals, K.
  Qed.
  Lemma twins toks i j : rule_accepts ASCII first_seen small_context twins_heap 6 toks i j <-> rule_accepts ASCII first_seen small_context twins_heap 13 toks i j.
  Proof.
    apply accepts_by. intros ts.
    rewrite (sequence_matches ASCII first_seen small_context twins_heap 6 ([TRule 2] ++ TRule 4 :: [])) by (exists 5, 0; split; reflexivity).
    rewrite (sequence_matches ASCII first_seen small_context twins_heap 13 ([TRule 2] ++ TRule 11 :: [])) by (exists 12, 0; split; reflexivity).
    rewrite !in_sequence_around. split; intros (us & vs & ws & -> & H & K & L); exists us, vs, ws; repeat split; auto; apply twin_tails, K.
  Qed.
End Twins.
Theorem twins_differ : exists U set_order c rel fuel h root root' text s s' m,
  set_iteration set_order /\ built h /\ harmless h root /\ harmless h root' /\ is_rule_at h root /\ is_rule_at h root' /\
  (forall toks i j, rule_accepts U set_order c h root toks i j <-> rule_accepts U set_order c h root' toks i j) /\
  parser_findall U set_order c rel fuel h root text = Some (Ok (s, [])) /\ parser_findall U set_order c rel fuel h root' text = Some (Ok (s', [m])).
Proof.
  exists ASCII, first_seen, small_context, (fun _ _ _ => true), 100, twins_heap, 6, 13, (str_of "c"). eexists. eexists. eexists.
  assert (B : built twins_heap) by (apply program_built; reflexivity).
  assert (R6 : is_rule_at twins_heap 6) by (apply is_rule_atb_true; reflexivity). assert (R13 : is_rule_at twins_heap 13) by (apply is_rule_atb_true; reflexivity).
  split; [exact first_seen_iterates|]. split; [exact B|]. split; [apply harmlessb_true; [exact B|exact R6|reflexivity]|]. split; [apply harmlessb_true; [exact B|exact R13|reflexivity]|].
  split; [exact R6|]. split; [exact R13|]. split; [exact twins|]. split; vm_compute; reflexivity.
Qed.
