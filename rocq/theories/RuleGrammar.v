(** Words, accepted token sequences and derivations of the grammar agree. *)
From Verif Require Import Base TokenModel EarleyModel EarleySpec RuleModel RuleSpec RuleWords RuleLike RulePass RuleNormal RuleBNF RuleForward RuleAccept.
Open Scope nat_scope.

Scheme matches_mind := Minimality for matches Sort Prop
  with repeats_mind := Minimality for repeats Sort Prop
  with in_sequence_mind := Minimality for in_sequence Sort Prop.
Combined Scheme matches_mutind from matches_mind, repeats_mind, in_sequence_mind.
Scheme derives_mind := Minimality for derives Sort Prop
  with derives_seq_mind := Minimality for derives_seq Sort Prop.
Combined Scheme derives_mutind from derives_mind, derives_seq_mind.

Section Agree.
  Context {token pred pipe bnf : Type}.
  Notation obj := (obj pred pipe bnf).
  Notation heap := (heap pred pipe bnf).
  Notation language := (@language pred).
  Notation word := (@word pred).
  Variable pipe_bnf : pipe -> res bnf.
  Variable bnf_lines : bnf -> list (str * list pred).
  Variable accepts : pred -> token -> bool.
  Variable kd : kind.
  Notation open_words := (open_words pipe_bnf bnf_lines kd).
  Notation matches := (matches pipe_bnf bnf_lines accepts).
  Notation repeats := (repeats pipe_bnf bnf_lines accepts).
  Notation in_sequence := (in_sequence pipe_bnf bnf_lines accepts).
  Notation one_by_one := (one_by_one accepts).

  Lemma predicates_app (u w : word) : predicates (u ++ w) = predicates u ++ predicates w.
  Proof. apply flat_map_app. Qed.
  Lemma predicates_clear (w : word) : predicates (clear w) = predicates w.
  Proof. unfold predicates. induction w as [|s w IH]; [reflexivity|]. cbn. rewrite IH. destruct s; reflexivity. Qed.
  Lemma predicates_bracket a (w : word) : predicates (bracket a w) = predicates w.
  Proof. destruct a; [|reflexivity]. cbn. fold (predicates (w ++ [SClose])). rewrite predicates_app. cbn. apply app_nil_r. Qed.
  Lemma predicates_mark n i : predicates (mark n i : word) = [].
  Proof. unfold mark. destruct (n <=? 1); reflexivity. Qed.
  Lemma predicates_alt i (w : word) : predicates (SAlt i :: w) = predicates w. Proof. reflexivity. Qed.

  (** ** Pieces of a repetition *)
  Definition pieces (l : language) (n : nat) (w : word) : Prop := exists ws, length ws = n /\ Forall l ws /\ predicates w = flat_map predicates ws.
  Lemma pieces_cons (l : language) n u w v : l u -> pieces l n w -> predicates v = predicates u ++ predicates w -> pieces l (S n) v.
  Proof. intros Hu (ws & L & F & E) Ev. exists (u :: ws). split; [cbn; congruence|]. split; [constructor; assumption|]. cbn. rewrite Ev, E. reflexivity. Qed.
  Lemma pieces_one (l : language) u v : l u -> predicates v = predicates u -> pieces l 1 v.
  Proof. intros Hu E. exists [u]. split; [reflexivity|]. split; [constructor; [exact Hu|constructor]|]. cbn. rewrite app_nil_r. exact E. Qed.
  Lemma pieces_none (l : language) v : predicates v = [] -> pieces l 0 v.
  Proof. intros E. exists []. auto. Qed.
  Lemma many_pieces (l : language) rev w : many l rev w -> exists n, 1 <= n /\ pieces l n w.
  Proof.
    intros H. induction H as [u Hu|u w Hu H (n & L & P)]; [exists 1; split; [lia|apply (pieces_one l u); auto]|].
    exists (S n). split; [lia|]. apply (pieces_cons l n u w); auto. rewrite predicates_alt, predicates_app, predicates_clear. reflexivity.
  Qed.
  Lemma at_most_pieces (l : language) rev m w : at_most l rev m w -> exists n, 1 <= n <= m /\ pieces l n w.
  Proof.
    intros H. induction H as [u Hu|m u Hu|m u w Hu H (n & L & P)]; [exists 1; split; [lia|apply (pieces_one l u); auto]|exists 1; split; [lia|apply (pieces_one l u); auto]|].
    exists (S n). split; [lia|]. apply (pieces_cons l n u w); auto. rewrite predicates_alt, predicates_app, predicates_clear. reflexivity.
  Qed.
  Lemma times_pieces (l rest : language) (P : nat -> Prop) m w : (forall w, rest w -> exists n, P n /\ pieces l n w) -> times l rest m w -> exists n, P n /\ pieces l (m + n) w.
  Proof.
    intros K H. induction H as [w Hw|m u w Hu H (n & L & Q)]; [apply K, Hw|]. exists n. split; [exact L|]. apply (pieces_cons l (m + n) u w); auto.
    rewrite predicates_app, predicates_clear. reflexivity.
  Qed.
  Lemma any_pieces (l : language) rr ro w : any l rr ro w -> exists n, pieces l n w.
  Proof.
    intros H. induction H as [|u Hu|u w Hu H (n & P)]; [exists 0; apply pieces_none; reflexivity|exists 1; apply (pieces_one l u); auto|].
    exists (S n). apply (pieces_cons l n u w); auto. rewrite predicates_alt, predicates_app, predicates_clear. reflexivity.
  Qed.
  Lemma maybe_pieces (l : language) rev w : maybe l rev w -> exists n, n <= 1 /\ pieces l n w.
  Proof. intros [->|(u & Hu & ->)]; [exists 0; split; [lia|apply pieces_none; reflexivity]|exists 1; split; [lia|apply (pieces_one l u); auto]]. Qed.

  Definition spelled (l : language) (ws : list word) : Prop := exists w, l w /\ predicates w = flat_map predicates ws.
  Lemma spell_many (l : language) rev ws : ws <> [] -> Forall l ws -> spelled (many l rev) ws.
  Proof.
    induction ws as [|u ws IH]; intros N F; [destruct N; reflexivity|]. inversion F as [|? ? Hu Fw]; subst. destruct ws as [|v ws].
    - exists (SAlt (stop rev) :: u). split; [constructor; exact Hu|]. cbn. rewrite app_nil_r. reflexivity.
    - destruct IH as (w & Hw & E); [discriminate|exact Fw|]. exists (SAlt (go_on rev) :: u ++ clear w). split; [constructor; assumption|].
      rewrite predicates_alt, predicates_app, predicates_clear, E. reflexivity.
  Qed.
  Lemma spell_at_most (l : language) rev m ws : ws <> [] -> length ws <= m -> Forall l ws -> spelled (at_most l rev m) ws.
  Proof.
    revert m. induction ws as [|u ws IH]; intros m N L F; [destruct N; reflexivity|]. inversion F as [|? ? Hu Fw]; subst. cbn in L.
    destruct m as [|[|m]]; [lia| |].
    - destruct ws as [|v ws]; [|cbn in L; lia]. exists u. split; [constructor; exact Hu|]. cbn. rewrite app_nil_r. reflexivity.
    - destruct ws as [|v ws].
      + exists (SAlt (stop rev) :: u). split; [constructor; exact Hu|]. cbn. rewrite app_nil_r. reflexivity.
      + destruct (IH (S m)) as (w & Hw & E); [discriminate|lia|exact Fw|]. exists (SAlt (go_on rev) :: u ++ clear w). split; [constructor; assumption|].
        rewrite predicates_alt, predicates_app, predicates_clear, E. reflexivity.
  Qed.
  Lemma spell_times (l rest : language) m us ws : length us = m -> Forall l us -> spelled rest ws -> spelled (times l rest m) (us ++ ws).
  Proof.
    intros <- F (w & Hw & E). induction F as [|u us Hu F (v & Hv & Ev)]; cbn [length app].
    - exists w. split; [constructor; exact Hw|exact E].
    - exists (u ++ clear v). split; [constructor; assumption|]. rewrite predicates_app, predicates_clear, Ev. reflexivity.
  Qed.
  Lemma spell_any (l : language) rr ro ws : Forall l ws -> spelled (any l rr ro) ws.
  Proof.
    intros F. induction F as [|u ws Hu F (w & Hw & E)]; [eexists; split; [apply any_none|reflexivity]|].
    exists (SAlt (shift ro (go_on rr)) :: u ++ clear w). split; [constructor; assumption|]. rewrite predicates_alt, predicates_app, predicates_clear, E. reflexivity.
  Qed.
  Lemma spell_maybe (l : language) rev ws : length ws <= 1 -> Forall l ws -> spelled (maybe l rev) ws.
  Proof.
    intros L F. destruct ws as [|u [|v ws]]; [eexists; split; [left; reflexivity|reflexivity]| |cbn in L; lia].
    inversion F; subst. exists (SAlt (if rev then 0 else 1) :: u). split; [right; eauto|]. cbn. rewrite app_nil_r. reflexivity.
  Qed.
  Lemma split_at {A} (l : list A) n : n <= length l -> exists a b, l = a ++ b /\ length a = n /\ length b = length l - n.
  Proof. intros L. exists (firstn n l), (skipn n l). rewrite firstn_skipn, firstn_length, skipn_length. split; [reflexivity|]. lia. Qed.

  (** ** Words and accepted sequences *)
  Section Matches.
    Variable h : heap.
    Variable allowed special : obj -> bool.
    Variable G : nat -> Prop.
    Hypothesis graph0 : graph allowed special h G.
    Notation W := (open_words none h).

    Definition read (l : language) (ts : list token) : Prop := exists w, l w /\ one_by_one (predicates w) ts.
    Definition reads (r n : nat) (ts : list token) : Prop := exists ws, length ws = n /\ Forall (W r) ws /\ one_by_one (flat_map predicates ws) ts.
    Definition read_seq (terms : list (term pred)) (ts : list token) : Prop :=
      forall main i, exists w, sequence main i (map (denotes_term W) terms) w /\ one_by_one (predicates w) ts.
    Lemma read_spelled l ws ts : spelled l ws -> one_by_one (flat_map predicates ws) ts -> read l ts.
    Proof. intros (w & Hw & E) F. exists w. split; [exact Hw|]. rewrite E. exact F. Qed.
    Lemma read_obj p o ts : nth_error h p = Some o -> is_forward o = false -> read (denotes pipe_bnf bnf_lines kd W o) ts -> read (W p) ts.
    Proof. intros E F (w & Hw & K). exists w. split; [apply (open_words_obj pipe_bnf bnf_lines kd none h p o E F), Hw|exact K]. Qed.
    Lemma read_around a l ts : read l ts -> read (around a l) ts.
    Proof. intros (w & Hw & K). exists (bracket a w). split; [exists w; auto|]. rewrite predicates_bracket. exact K. Qed.
    Lemma read_alternatives ps q ts : In q ps -> read (W q) ts -> read (alternatives (map W ps)) ts.
    Proof.
      intros Hq (w & Hw & K). apply In_nth_error in Hq as (i & Ei). exists (mark (length (map W ps)) i ++ w).
      split; [exists i, (W q), w; split; [rewrite nth_error_map, Ei; reflexivity|auto]|]. rewrite predicates_app, predicates_mark. exact K.
    Qed.
    Lemma one_by_one_line (ps : list pred) ts : one_by_one ps ts -> exists u, sequence 0 0 (map one_predicate ps) u /\ one_by_one (predicates u) ts.
    Proof.
      intros F. enough (K : forall main i, exists u, sequence main i (map one_predicate ps) u /\ predicates u = ps) by (destruct (K 0 0) as (u & Hu & E); exists u; rewrite E; auto).
      clear F. induction ps as [|p ps IH]; intros main i; [exists []; split; [constructor|reflexivity]|]. destruct (IH main (S i)) as (u & Hu & E).
      eexists. split; [apply sequence_cons; [reflexivity|exact Hu]|]. rewrite predicates_app, E. destruct (i =? main); reflexivity.
    Qed.
    Lemma G_get p o : G p -> nth_error h p = Some o -> shape o /\ forall c, In c (children o) -> G c.
    Proof. intros Gp E. destruct (graph0 p Gp) as (o' & E' & _ & S & C). rewrite E in E'. injection E' as <-. split; [exact S|]. intros c Hc. apply (C c Hc). Qed.

    Lemma matches_read :
      (forall p ts, matches h p ts -> G p -> read (W p) ts) /\
      (forall r n ts, repeats h r n ts -> G r -> reads r n ts) /\
      (forall terms ts, in_sequence h terms ts -> (forall r, In (TRule r) terms -> G r) -> read_seq terms ts).
    Proof.
      apply matches_mutind.
      - intros p ps q ts E Hq _ IH Gp. destruct (G_get p _ Gp E) as [_ C]. apply (read_obj p _ ts E eq_refl). cbn. apply (read_alternatives ps q ts Hq), IH, C, Hq.
      - intros p ps q ts E Hq _ IH Gp. destruct (G_get p _ Gp E) as [_ C]. apply (read_obj p _ ts E eq_refl). cbn. apply (read_alternatives ps q ts Hq), IH, C, Hq.
      - intros p r rev n ts E L _ IH Gp. destruct (G_get p _ Gp E) as [S C]. destruct (IH (C r (or_introl eq_refl))) as (ws & Ln & F & K). apply (read_obj p _ ts E eq_refl). cbn.
        apply (read_spelled _ ws); [|exact K]. apply spell_maybe; [lia|exact F].
      - intros p r rev n ts E L _ IH Gp. destruct (G_get p _ Gp E) as [S C]. destruct (IH (C r (or_introl eq_refl))) as (ws & Ln & F & K). apply (read_obj p _ ts E eq_refl). cbn.
        apply (read_spelled _ ws); [|exact K]. apply spell_many; [|exact F]. intros ->. cbn in Ln. lia.
      - intros p r rr ro n ts E _ IH Gp. destruct (G_get p _ Gp E) as [S C]. destruct (IH (C r (or_introl eq_refl))) as (ws & Ln & F & K). apply (read_obj p _ ts E eq_refl). cbn.
        apply (read_spelled _ ws); [|exact K]. apply spell_any, F.
      - intros p r m rev n ts E L _ IH Gp. destruct (G_get p _ Gp E) as [S C]. cbn in S. destruct (IH (C r (or_introl eq_refl))) as (ws & Ln & F & K). apply (read_obj p _ ts E eq_refl). cbn.
        destruct (split_at ws (m - 1)) as (us & vs & -> & Lu & Lv); [lia|]. apply Forall_app in F as [Fu Fv]. apply (read_spelled _ (us ++ vs)); [|exact K].
        apply spell_times; [exact Lu|exact Fu|]. apply spell_many; [|exact Fv]. intros ->. rewrite app_length in *. cbn in *. lia.
      - intros p r m rev n ts E L _ IH Gp. destruct (G_get p _ Gp E) as [S C]. cbn in S. destruct (IH (C r (or_introl eq_refl))) as (ws & Ln & F & K). apply (read_obj p _ ts E eq_refl). cbn.
        apply (read_spelled _ ws); [|exact K]. apply spell_at_most; [|lia|exact F]. intros ->. cbn in Ln. lia.
      - intros p r m k rev n ts E L _ IH Gp. destruct (G_get p _ Gp E) as [S C]. cbn in S. destruct (IH (C r (or_introl eq_refl))) as (ws & Ln & F & K). apply (read_obj p _ ts E eq_refl). cbn.
        destruct (split_at ws (m - 1)) as (us & vs & -> & Lu & Lv); [lia|]. apply Forall_app in F as [Fu Fv]. apply (read_spelled _ (us ++ vs)); [|exact K].
        rewrite app_length in *. apply spell_times; [exact Lu|exact Fu|]. apply spell_at_most; [|lia|exact Fv]. intros ->. cbn in *. lia.
      - intros p r x ts E _ IH Gp. destruct (G_get p _ Gp E) as [_ C]. apply (read_obj p _ ts E eq_refl). cbn. apply read_around, IH, C. left. reflexivity.
      - intros p r x ts E _ IH Gp. destruct (G_get p _ Gp E) as [_ C]. apply (read_obj p _ ts E eq_refl). cbn. apply read_around, IH, C. left. reflexivity.
      - intros p r x ts E _ IH Gp. destruct (G_get p _ Gp E) as [_ C]. apply (read_obj p _ ts E eq_refl). cbn. apply read_around, IH, C. left. reflexivity.
      - intros p r ts E _ IH Gp. destruct (G_get p _ Gp E) as [_ C]. destruct (IH (C r (or_introl eq_refl))) as (w & Hw & K). exists w. split; [|exact K].
        apply (open_words_forward pipe_bnf bnf_lines kd none h p r E eq_refl), Hw.
      - intros p E Gp. apply (read_obj p _ [] E eq_refl). exists []. split; [reflexivity|constructor].
      - intros p x b key ps ts E Eb Hin F Gp. apply (read_obj p _ ts E eq_refl). destruct (one_by_one_line ps ts F) as (u & Hu & K). exists (SLine key :: u). split; [|exact K].
        exists b, key, ps. split; [exact Eb|]. split; [exact Hin|]. exists u. auto.
      - intros p ps a q ts E Hq _ IH Gp. destruct (G_get p _ Gp E) as [_ C]. apply (read_obj p _ ts E eq_refl). cbn. apply read_around, (read_alternatives ps q ts Hq), IH, C, Hq.
      - intros p b ps a q ts E Hq _ IH Gp. destruct (G_get p _ Gp E) as [_ C]. apply (read_obj p _ ts E eq_refl). cbn. apply read_around.
        destruct (IH (C q Hq)) as (w & Hw & K). exists w. split; [exists q; auto|exact K].
      - intros p terms main ts E _ IH Gp. destruct (G_get p _ Gp E) as [_ C]. apply (read_obj p _ ts E eq_refl). cbn. apply (IH (fun r Hr => C r (in_rule_terms r terms Hr))).
      - intros p E Gp. apply (read_obj p _ [] E eq_refl). exists []. split; [reflexivity|constructor].
      - intros p key ps ts E F Gp. apply (read_obj p _ ts E eq_refl). destruct (one_by_one_line ps ts F) as (u & Hu & K). exists (SLine key :: u). split; [|exact K]. exists u. auto.
      - intros r _. exists []. split; [reflexivity|]. split; constructor.
      - intros r n us ts _ IH _ IH' Gr. destruct (IH Gr) as (u & Hu & K). destruct (IH' Gr) as (ws & L & F & K'). exists (u :: ws). split; [cbn; congruence|]. split; [constructor; assumption|].
        cbn. apply Forall2_app; assumption.
      - intros _ main i. exists []. split; constructor.
      - intros p terms t ts A _ IH Gt main i. destruct (IH (fun r Hr => Gt r (or_intror Hr)) main (S i)) as (w & Hw & K). eexists. split; [apply sequence_cons; [reflexivity|exact Hw]|].
        rewrite predicates_app. destruct (i =? main); cbn; constructor; assumption.
      - intros r terms us ts _ IH _ IH' Gt main i. destruct (IH (Gt r (or_introl eq_refl))) as (u & Hu & K). destruct (IH' (fun r Hr => Gt r (or_intror Hr)) main (S i)) as (w & Hw & K').
        eexists. split; [apply sequence_cons; [exact Hu|exact Hw]|]. rewrite predicates_app. apply Forall2_app; [|exact K']. destruct (i =? main); rewrite ?predicates_clear; exact K.
    Qed.

    (** Back. *)
    Notation reader := (fun p w => G p -> forall ts, one_by_one (predicates w) ts -> matches h p ts).
    Lemma repeats_pieces r n w ts : G r -> pieces (reader r) n w -> one_by_one (predicates w) ts -> repeats h r n ts.
    Proof.
      intros Gr (ws & <- & F & E) K. rewrite E in K. clear E. revert ts K. induction F as [|u ws Hu F IH]; intros ts K; cbn in K; [inversion K; subst; constructor|].
      apply Forall2_app_inv_l in K as (us & vs & K1 & K2 & ->). constructor; [apply (Hu Gr us K1)|apply IH, K2].
    Qed.
    Lemma line_matches (ps : list pred) : forall main i u ts, sequence main i (map one_predicate ps) u -> one_by_one (predicates u) ts -> one_by_one ps ts.
    Proof.
      induction ps as [|p ps IH]; intros main i u ts H K; inversion H as [|? l ls v w Hv Hw]; subst; [exact K|]. hnf in Hv. subst v. rewrite predicates_app in K.
      assert (K' : one_by_one (p :: predicates w) ts) by (destruct (i =? main); exact K). inversion K'; subst. constructor; [assumption|]. eapply IH; eassumption.
    Qed.
    Lemma words_matches : forall p, included (W p) (reader p).
    Proof.
      apply open_words_least. intros p w (o & E & H) Gp ts K. unfold none in H. rewrite andb_false_r in H. destruct (G_get p o Gp E) as [S C].
      destruct o as [ps|rs|r rev|r rev|r rr ro|r m rev|r m rev|r m n rev|r n|r i|r rel|d| |pl|ps a|b ps a|terms main| |k ps]; cbn in H.
      - destruct H as (i & l & u & Ei & Hu & ->). rewrite nth_error_map in Ei. destruct (nth_error ps i) as [q|] eqn:Eq; [|discriminate]. injection Ei as <-. apply nth_error_In in Eq.
        rewrite predicates_app, predicates_mark in K. apply (match_rule _ _ _ h p ps q ts E Eq), Hu; [apply C, Eq|exact K].
      - destruct H as (i & l & u & Ei & Hu & ->). rewrite nth_error_map in Ei. destruct (nth_error rs i) as [q|] eqn:Eq; [|discriminate]. injection Ei as <-. apply nth_error_In in Eq.
        rewrite predicates_app, predicates_mark in K. apply (match_or _ _ _ h p rs q ts E Eq), Hu; [apply C, Eq|exact K].
      - apply maybe_pieces in H as (n & L & P). apply (match_optional _ _ _ h p r rev n ts E L). apply (repeats_pieces r n w ts); [apply C; left; reflexivity|exact P|exact K].
      - apply many_pieces in H as (n & L & P). apply (match_repeatable _ _ _ h p r rev n ts E L). apply (repeats_pieces r n w ts); [apply C; left; reflexivity|exact P|exact K].
      - apply any_pieces in H as (n & P). apply (match_any _ _ _ h p r rr ro n ts E). apply (repeats_pieces r n w ts); [apply C; left; reflexivity|exact P|exact K].
      - apply (times_pieces _ _ (fun n => 1 <= n)) in H as (n & L & P); [|intros v Hv; apply many_pieces in Hv; exact Hv]. cbn in S.
        apply (match_min _ _ _ h p r m rev (m - 1 + n) ts E); [lia|]. apply (repeats_pieces r _ w ts); [apply C; left; reflexivity|exact P|exact K].
      - apply at_most_pieces in H as (n & L & P). apply (match_max _ _ _ h p r m rev n ts E L). apply (repeats_pieces r n w ts); [apply C; left; reflexivity|exact P|exact K].
      - apply (times_pieces _ _ (fun k => 1 <= k <= n - m + 1)) in H as (k & L & P); [|intros v Hv; apply at_most_pieces in Hv; exact Hv]. cbn in S.
        apply (match_min_max _ _ _ h p r m n rev (m - 1 + k) ts E); [lia|]. apply (repeats_pieces r _ w ts); [apply C; left; reflexivity|exact P|exact K].
      - destruct H as (u & Hu & ->). rewrite predicates_bracket in K. apply (match_named _ _ _ h p r n ts E), Hu; [apply C; left; reflexivity|exact K].
      - destruct H as (u & Hu & ->). rewrite predicates_bracket in K. apply (match_interp _ _ _ h p r i ts E), Hu; [apply C; left; reflexivity|exact K].
      - destruct H as (u & Hu & ->). rewrite predicates_bracket in K. apply (match_relation _ _ _ h p r rel ts E), Hu; [apply C; left; reflexivity|exact K].
      - destruct d as [d|]; [|destruct H]. apply (match_forward _ _ _ h p d ts E), H; [apply C; left; reflexivity|exact K].
      - subst w. inversion K; subst. apply (match_empty _ _ _ h p E).
      - destruct H as (b & key & ps & Eb & Hin & u & Hu & ->). apply (match_pipeline _ _ _ h p pl b key ps ts E Eb Hin). apply (line_matches ps 0 0 u ts Hu K).
      - destruct H as (u0 & (i & l & u & Ei & Hu & ->) & ->). rewrite nth_error_map in Ei. destruct (nth_error ps i) as [q|] eqn:Eq; [|discriminate]. injection Ei as <-. apply nth_error_In in Eq.
        rewrite predicates_bracket, predicates_app, predicates_mark in K. apply (match_bnf _ _ _ h p ps a q ts E Eq), Hu; [apply C, Eq|exact K].
      - destruct H as (u & (q & Hq & Hu) & ->). rewrite predicates_bracket in K. apply (match_pipe_bnf _ _ _ h p b ps a q ts E Hq), Hu; [apply C, Hq|exact K].
      - apply (match_production _ _ _ h p terms main ts E). assert (Gt : forall r, In (TRule r) terms -> G r) by (intros r Hr; apply C, in_rule_terms, Hr). clear E S C.
        revert H K. generalize 0 at 1. intros i H. revert i w ts H. induction terms as [|t terms IH]; intros i w ts H K; inversion H as [|? l ls u v Hu Hv]; subst; [inversion K; constructor|].
        rewrite predicates_app in K. apply Forall2_app_inv_l in K as (us & vs & K1 & K2 & ->). assert (K1' : one_by_one (predicates u) us) by (destruct (i =? main); rewrite ?predicates_clear in K1; exact K1).
        specialize (IH (fun r Hr => Gt r (or_intror Hr)) (Datatypes.S i) v vs Hv K2). destruct t as [r|p']; cbn in Hu.
        + constructor; [apply Hu; [apply Gt; left; reflexivity|exact K1']|exact IH].
        + hnf in Hu. subst u. inversion K1' as [|? t ? ? A B]; subst. inversion B; subst. cbn. constructor; assumption.
      - subst w. inversion K; subst. apply (match_empty_production _ _ _ h p E).
      - destruct H as (u & Hu & ->). apply (match_line _ _ _ h p k ps ts E). apply (line_matches ps 0 0 u ts Hu K).
    Qed.

    Theorem matches_words p ts : G p -> matches h p ts <-> exists w, W p w /\ one_by_one (predicates w) ts.
    Proof.
      intros Gp. split; [intros H; apply (proj1 matches_read p ts H Gp)|]. intros (w & Hw & K). apply (words_matches p w Hw Gp ts K).
    Qed.
  End Matches.
End Agree.
