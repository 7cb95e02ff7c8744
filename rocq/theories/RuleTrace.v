(** The words read off the derivations of the grammar are the words of the rule. *)
From Verif Require Import Base TokenModel EarleyModel EarleySpec RuleModel RuleSpec RuleWords RuleLike RulePass RuleNormal RuleBNF RuleForward RuleAccept RuleGrammar.
Open Scope nat_scope.

Section Trace.
  Context {pred pipe bnf : Type}.
  Notation obj := (obj pred pipe bnf).
  Notation heap := (heap pred pipe bnf).
  Notation language := (@language pred).
  Notation word := (@word pred).
  Variable pipe_bnf : pipe -> res bnf.
  Variable bnf_lines : bnf -> list (str * list pred).
  Variable accepts : pred -> token -> bool.
  Variable bnf_predict : bnf -> token -> list nat.
  Variable kd : kind.
  Variable toks : list token.
  Notation open_words := (open_words pipe_bnf bnf_lines kd).
  Notation one_by_one := (one_by_one accepts).

  Notation segment := (segment toks).
  Lemma segment_app i k j us ts : segment i k us -> segment k j ts -> segment i j (us ++ ts).
  Proof.
    intros (p1 & q1 & E1 & L1 & J1) (p2 & q2 & E2 & L2 & J2). exists p1, q2. split; [|split; [exact L1|rewrite app_length; lia]].
    assert (p2 = p1 ++ us /\ ts ++ q2 = q1) as [-> <-]; [|rewrite E2, <- !app_assoc; reflexivity].
    rewrite E1 in E2. rewrite app_assoc in E2. apply app_eq_app in E2 as (l & [[A B]|[A B]]).
    - assert (length (p1 ++ us) = length (p2 ++ l)) by congruence. rewrite !app_length in *. destruct l; [|cbn in *; lia]. rewrite app_nil_r in A. cbn in B. auto.
    - assert (length p2 = length ((p1 ++ us) ++ l)) by congruence. rewrite !app_length in *. destruct l; [|cbn in *; lia]. rewrite app_nil_r in A. cbn in B. auto.
  Qed.
  Lemma segment_split i j us ts : segment i j (us ++ ts) -> segment i (i + length us) us /\ segment (i + length us) j ts.
  Proof.
    intros (p & q & E & L & J). rewrite app_length in J. split.
    - exists p, (ts ++ q). rewrite E, <- app_assoc. auto.
    - exists (p ++ us), q. rewrite E, <- !app_assoc. split; [reflexivity|]. rewrite app_length. lia.
  Qed.
  Lemma segment_nil i j : segment i j [] -> j = i. Proof. intros (p & q & _ & _ & J). cbn in J. lia. Qed.
  Lemma segment_one i j t : segment i j [t] -> nth_error toks i = Some t /\ j = S i.
  Proof. intros (p & q & E & L & J). cbn in J. split; [|lia]. rewrite E, <- L, nth_error_app2 by lia. rewrite Nat.sub_diag. reflexivity. Qed.
  Lemma segment_at i t : nth_error toks i = Some t -> segment i (S i) [t].
  Proof. intros E. apply nth_error_split in E as (p & q & E & L). exists p, q. split; [exact E|]. split; [exact L|cbn; lia]. Qed.
  Lemma segment_all ts : segment 0 (length toks) ts <-> ts = toks.
  Proof.
    split.
    - intros (p & q & E & L & J). destruct p; [|discriminate]. cbn in *. rewrite E in J. rewrite app_length in J. destruct q; [rewrite E; rewrite app_nil_r; reflexivity|cbn in J; lia].
    - intros ->. exists [], []. rewrite app_nil_r. auto.
  Qed.

  Section Heap.
    Variable h : heap.
    Variable G : nat -> Prop.
    Variable root : nat.
    Hypothesis graph0 : bnf_graph pipe_bnf bnf_lines false h G.
    Notation W := (open_words none h).
    Notation g := (grammar_of bnf_predict h root).
    Definition shown_at (r : nat) : option attribute :=
      match nth_error h r with Some o => match get_attributes o with Some a => shown kd a | None => None end | None => None end.
    Notation traced := (traced g shown_at).
    Notation traced_children := (traced_children g shown_at).
    Notation derives := (derives accepts g toks).
    Notation derives_seq := (derives_seq accepts g toks).

    Definition key_word (q : nat) : word := match g_key g q with Some key => [SLine key] | None => [] end.
    Lemma key_words q : predicates (key_word q) = []. Proof. unfold key_word. destruct (g_key g q); reflexivity. Qed.
    Lemma G_obj p o : G p -> nth_error h p = Some o -> bnf_obj pipe_bnf bnf_lines false h o /\ forall c, In c (children o) -> G c.
    Proof. intros Gp E. destruct (graph0 p Gp) as (o' & E' & K). rewrite E in E'. injection E' as <-. exact K. Qed.
    Lemma term_rule q o r : G q -> nth_error h q = Some o -> In (TRule r) (production_terms o) -> G r /\ exists o', nth_error h r = Some o' /\ is_bnf o' = true.
    Proof.
      intros Gq E Hr. destruct (G_obj q o Gq E) as [B C]. destruct o as [| | | | | | | | | | | | | |prods at_|b prods at_|terms main| |k ps]; try (destruct Hr; fail).
      - split; [apply C, in_rule_terms, Hr|]. destruct B as [_ B]. destruct (B r Hr) as (o' & E' & [K|[K _]]); [eauto|discriminate].
      - cbn in Hr. apply in_map_iff in Hr as (x & Hx & _). discriminate.
    Qed.
    (** The words of a production, of a rule. *)
    Lemma production_words q o w : G q -> nth_error h q = Some o -> is_prod o = true ->
      W q w <-> exists u, w = key_word q ++ u /\ sequence (g_main g q) 0 (map (denotes_term W) (g_terms g q)) u.
    Proof.
      intros Gq E P. unfold key_word. cbn. rewrite E. destruct o as [| | | | | | | | | | | | | |prods at_|b prods at_|terms main| |k ps]; try discriminate; (eapply iff_trans; [apply (open_words_obj pipe_bnf bnf_lines kd none h q _ E eq_refl)|]); cbn.
      - split; [intros H; exists w; auto|]. intros (u & -> & H). exact H.
      - split; [intros ->; exists []; split; [reflexivity|constructor]|]. intros (u & -> & H). inversion H. reflexivity.
      - unfold line. rewrite map_map. cbn. split; intros (u & A & B); exists u; auto.
    Qed.
    Lemma rule_words_at r o w : G r -> nth_error h r = Some o -> is_bnf o = true ->
      W r w <-> exists i q u, nth_error (g_prods g r) i = Some q /\ W q (key_word q ++ u) /\
        w = bracket (shown_at r) (match g_key g q with Some key => [SLine key] | None => mark (length (g_prods g r)) i end ++ u).
    Proof.
      intros Gr E B. destruct (G_obj r o Gr E) as [K C]. unfold shown_at. cbn. rewrite E. destruct o as [| | | | | | | | | | | | | |prods at_|b prods at_|terms main| |k ps]; try discriminate; (eapply iff_trans; [apply (open_words_obj pipe_bnf bnf_lines kd none h r _ E eq_refl)|]); cbn -[mark] in *.
      - assert (N : forall q, In q prods -> match nth_error h q with Some (OPipeProd key _) => Some key | _ => None end = None).
        { intros q Hq. destruct (K q Hq) as (oq & -> & Q). destruct oq; try reflexivity; destruct Q. }
        unfold key_word. cbn. split.
        + intros (v & (i & l & u & Ei & Hu & ->) & ->). rewrite nth_error_map in Ei. destruct (nth_error prods i) as [q|] eqn:Eq; [|discriminate]. injection Ei as <-.
          exists i, q, u. rewrite (N q (nth_error_In _ _ Eq)). rewrite map_length. auto.
        + intros (i & q & u & Eq & Hu & ->). rewrite (N q (nth_error_In _ _ Eq)) in *. exists (mark (length prods) i ++ u). split; [|reflexivity].
          exists i, (W q), u. rewrite nth_error_map, Eq, map_length. auto.
      - assert (N : forall q, In q prods -> exists key ps, nth_error h q = Some (OPipeProd key ps)).
        { intros q Hq. destruct (forall2_in _ _ _ q (proj2 K) Hq) as (l & _ & Q). eauto. }
        unfold key_word. cbn. split.
        + intros (v & (q & Hq & Hv) & ->). destruct (N q Hq) as (key & ps & Eq). pose proof Hv as Hv0. apply (open_words_obj pipe_bnf bnf_lines kd none h q _ Eq eq_refl) in Hv. destruct Hv as (u & Hu & ->).
          apply In_nth_error in Hq as (i & Ei). exists i, q, u. rewrite Eq. auto.
        + intros (i & q & u & Ei & Hv & ->). destruct (N q (nth_error_In _ _ Ei)) as (key & ps & Eq). rewrite Eq in *. exists ([SLine key] ++ u). split; [|reflexivity]. exists q. split; [apply (nth_error_In _ _ Ei)|exact Hv].
    Qed.
    Lemma prods_of r o q : G r -> nth_error h r = Some o -> In q (g_prods g r) -> G q /\ exists oq, nth_error h q = Some oq /\ is_prod oq = true.
    Proof.
      intros Gr E Hq. destruct (G_obj r o Gr E) as [K C]. cbn in Hq. rewrite E in Hq. destruct o as [| | | | | | | | | | | | | |prods at_|b prods at_|terms main| |k ps]; try (destruct Hq; fail).
      - split; [apply C, Hq|]. destruct (K q Hq) as (oq & Eq & Q). exists oq. split; [exact Eq|]. destruct oq; try destruct Q; reflexivity.
      - split; [apply C, Hq|]. destruct (forall2_in _ _ _ q (proj2 K) Hq) as (l & _ & Q). eexists. split; [exact Q|reflexivity].
    Qed.

    (** From derivations to words. *)
    Lemma segment_end i j ts : segment i j ts -> j <= length toks.
    Proof. intros (p & q & E & L & J). rewrite E, !app_length. lia. Qed.
    Lemma segment_empty i : i <= length toks -> segment i i [].
    Proof. intros L. exists (firstn i toks), (skipn i toks). cbn. rewrite firstn_skipn, firstn_length. split; [reflexivity|]. lia. Qed.
    Definition good_term (t : term pred) : Prop := forall r, t = TRule r -> G r /\ exists o, nth_error h r = Some o /\ is_bnf o = true.
    Lemma good_terms q oq : G q -> nth_error h q = Some oq -> forall t, In t (g_terms g q) -> good_term t.
    Proof. intros Gq Eq t Ht r ->. cbn in Ht. rewrite Eq in Ht. apply (term_rule q oq r Gq Eq Ht). Qed.
    Lemma derives_words :
      (forall t i j d, derives t i j d -> good_term t -> i <= length toks ->
         forall w, traced d w -> denotes_term W t w /\ exists ts, segment i j ts /\ one_by_one (predicates w) ts) /\
      (forall terms i j ds, derives_seq terms i j ds -> (forall t, In t terms -> good_term t) -> i <= length toks ->
         forall main k w, traced_children main k ds w -> sequence main k (map (denotes_term W) terms) w /\ exists ts, segment i j ts /\ one_by_one (predicates w) ts).
    Proof.
      apply derives_mutind.
      - intros p i t E A _ _ w T. inversion T; subst. split; [reflexivity|]. exists [t]. split; [apply segment_at, E|]. repeat constructor. exact A.
      - intros r q i j ds Hq Hs IH Gr Li w T. destruct (Gr r eq_refl) as (Gr' & o & E & B). inversion T as [|? ? k ? u Ek Hu]; subst.
        destruct (prods_of r o q Gr' E Hq) as (Gq & oq & Eq & P). destruct (IH (good_terms q oq Gq Eq) Li _ 0 u Hu) as [S (ts & Hts & K)]. split.
        + cbn. apply (rule_words_at r o _ Gr' E B). exists k, q, u. split; [exact Ek|]. split; [|reflexivity]. apply (production_words q oq _ Gq Eq P). exists u. auto.
        + exists ts. split; [exact Hts|]. rewrite predicates_bracket, predicates_app. destruct (g_key g q); [exact K|]. rewrite predicates_mark. exact K.
      - intros i _ Li main k w T. inversion T; subst. split; [constructor|]. exists []. split; [|constructor]. apply segment_empty, Li.
      - intros t terms i k j d ds Hd IH Hds IH' Gt Li main n w T. inversion T as [|? ? ? ? u v Hu Hv]; subst. destruct (IH (Gt t (or_introl eq_refl)) Li u Hu) as [D (us & Hus & K)].
        destruct (IH' (fun t' H' => Gt t' (or_intror H')) (segment_end _ _ _ Hus) main (S n) v Hv) as [D' (vs & Hvs & K')]. split; [cbn; constructor; assumption|].
        exists (us ++ vs). split; [eapply segment_app; eassumption|]. rewrite predicates_app. apply Forall2_app; [|exact K']. destruct (n =? main); rewrite ?predicates_clear; exact K.
    Qed.
    Lemma derives_traced :
      (forall t i j d, derives t i j d -> exists w, traced d w) /\
      (forall terms i j ds, derives_seq terms i j ds -> forall main k, exists w, traced_children main k ds w).
    Proof.
      apply derives_mutind.
      - intros p i t E A. eexists. constructor.
      - intros r q i j ds Hq _ IH. apply In_nth_error in Hq as (k & Ek). destruct (IH (g_main g q) 0) as (w & Hw). eexists. econstructor; eassumption.
      - intros i main k. eexists. constructor.
      - intros t terms i k j d ds _ (u & Hu) _ IH main n. destruct (IH main (S n)) as (w & Hw). eexists. econstructor; eassumption.
    Qed.

    (** From words to derivations. *)
    Definition found (t : term pred) (w : word) : Prop := forall i j ts, segment i j ts -> one_by_one (predicates w) ts -> exists d, derives t i j d /\ traced d w.
    Definition found_seq (q : nat) (terms : list (term pred)) (main k : nat) (w : word) : Prop :=
      forall i j ts, segment i j ts -> one_by_one (predicates w) ts -> exists ds, derives_seq terms i j ds /\ traced_children main k ds w.
    Definition found_at (p : nat) (w : word) : Prop :=
      G p -> forall o, nth_error h p = Some o ->
        (is_bnf o = true -> found (TRule p) w) /\ (is_prod o = true -> exists u, w = key_word p ++ u /\ found_seq p (g_terms g p) (g_main g p) 0 u).
    Lemma found_sequence q terms : (forall t, In t terms -> good_term t) -> forall main k w, sequence main k (map (denotes_term found_at) terms) w -> found_seq q terms main k w.
    Proof.
      induction terms as [|t terms IH]; intros Gt main k w H; inversion H as [|? l ls u v Hu Hv]; subst; intros i j ts Hs K.
      - inversion K; subst. apply segment_nil in Hs as ->. exists []. split; constructor.
      - rewrite predicates_app in K. apply Forall2_app_inv_l in K as (us & vs & K1 & K2 & ->). assert (K1' : one_by_one (predicates u) us) by (destruct (k =? main); rewrite ?predicates_clear in K1; exact K1).
        apply segment_split in Hs as [S1 S2]. destruct (IH (fun t' H' => Gt t' (or_intror H')) main (S k) v Hv _ _ _ S2 K2) as (ds & D & T).
        assert (exists d, derives t i (i + length us) d /\ traced d u) as (d & Dd & Td); [|exists (d :: ds); split; econstructor; eassumption].
        destruct t as [r|p]; cbn in Hu.
        + destruct (Gt (TRule r) (or_introl eq_refl) r eq_refl) as (Gr & o & E & B). exact (proj1 (Hu Gr o E) B i _ us S1 K1').
        + hnf in Hu. subst u. inversion K1' as [|? t ? ? A B]; subst. inversion B; subst. apply segment_one in S1 as [S1 S3]. rewrite S3. exists (DLeaf i p). split; [|constructor].
          econstructor; eassumption.
    Qed.
    Lemma words_found : forall p, included (W p) (found_at p).
    Proof.
      apply open_words_least. intros p w (o & E & H) Gp o' E'. rewrite E in E'. injection E' as <-. unfold none in H. rewrite andb_false_r in H.
      destruct (G_obj p o Gp E) as [B C]. split.
      - intros Bo i j ts Hs K.
        assert (exists k q u, nth_error (g_prods g p) k = Some q /\ found_at q (key_word q ++ u) /\
                  w = bracket (shown_at p) (match g_key g q with Some key => [SLine key] | None => mark (length (g_prods g p)) k end ++ u)) as (k & q & u & Ek & F & ->).
        { unfold shown_at, key_word. cbn. rewrite E. destruct o as [| | | | | | | | | | | | | |prods at_|b prods at_|terms main| |k ps]; try discriminate; cbn -[mark] in *.
          - destruct H as (v & (k & l & u & Ei & Hu & ->) & ->). rewrite nth_error_map in Ei. destruct (nth_error prods k) as [q|] eqn:Eq; [|discriminate]. injection Ei as <-.
            exists k, q, u. destruct (B q (nth_error_In _ _ Eq)) as (oq & Eoq & Q). rewrite Eoq. rewrite map_length in *. destruct oq; try destruct Q; auto.
          - destruct H as (v & (q & Hq & Hv) & ->). destruct (forall2_in _ _ _ q (proj2 B) Hq) as ([key ps] & _ & Q). cbn in Q.
            destruct (proj2 (Hv (C q Hq) _ Q) eq_refl) as (u & -> & _). apply In_nth_error in Hq as (k & Ek). exists k, q, u. unfold key_word in *. cbn in *. rewrite Q in *. auto. }
        destruct (prods_of p o q Gp E (nth_error_In _ _ Ek)) as (Gq & oq & Eq & P). destruct (proj2 (F Gq oq Eq) P) as (u' & Eu & Fs). apply app_inv_head in Eu as <-.
        rewrite predicates_bracket, predicates_app in K. assert (K' : one_by_one (predicates u) ts) by (destruct (g_key g q); [exact K|rewrite predicates_mark in K; exact K]).
        destruct (Fs i j ts Hs K') as (ds & D & T). exists (DNode p q ds). split; [econstructor; [exact (nth_error_In _ _ Ek)|exact D]|]. econstructor; eassumption.
      - intros P. pose proof (good_terms p o Gp E) as Gt. unfold key_word. cbn in *. rewrite E in *. destruct o as [| | | | | | | | | | | | | |prods at_|b prods at_|terms main| |k ps]; try discriminate; cbn in *.
        + exists w. split; [reflexivity|]. apply (found_sequence p terms Gt main 0 w H).
        + subst w. exists []. split; [reflexivity|]. intros i j ts Hs K. inversion K; subst. apply segment_nil in Hs as ->. exists []. split; constructor.
        + destruct H as (u & Hu & ->). exists u. split; [reflexivity|]. apply (found_sequence p _ Gt 0 0 u). rewrite map_map. exact Hu.
    Qed.

    (** A rule, the tokens it covers, and a word. *)
    Theorem traced_words r o i j w : G r -> nth_error h r = Some o -> is_bnf o = true -> i <= length toks ->
      (exists d, derives (TRule r) i j d /\ traced d w) <-> W r w /\ exists ts, segment i j ts /\ one_by_one (predicates w) ts.
    Proof.
      intros Gr E B Li. split.
      - intros (d & D & T). apply (proj1 derives_words _ _ _ _ D); [|exact Li|exact T]. intros r' H'. injection H' as <-. eauto.
      - intros (Hw & ts & Hs & K). exact (proj1 (words_found r w Hw Gr o E) B i j ts Hs K).
    Qed.
    Theorem derives_words_iff r o i j : G r -> nth_error h r = Some o -> is_bnf o = true -> i <= length toks ->
      (exists d, derives (TRule r) i j d) <-> exists w ts, W r w /\ segment i j ts /\ one_by_one (predicates w) ts.
    Proof.
      intros Gr E B Li. split.
      - intros (d & D). destruct (proj1 derives_traced _ _ _ _ D) as (w & T). destruct (proj1 (traced_words r o i j w Gr E B Li)) as (Hw & ts & K); [eauto|]. exists w, ts. split; assumption.
      - intros (w & ts & Hw & Hs & K). destruct (proj2 (traced_words r o i j w Gr E B Li)) as (d & D & _); [eauto|]. eauto.
    Qed.
  End Heap.
End Trace.
