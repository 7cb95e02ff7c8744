(** The rules that replace quantifiers (ReplaceExtendedTransformator). *)
From Verif Require Import Base EarleyModel RuleModel RuleSpec RuleWords RuleLike RulePass RuleMethods.
Open Scope nat_scope.

Section Meaning.
  Context {pred pipe bnf : Type}.
  Notation obj := (obj pred pipe bnf).
  Notation heap := (heap pred pipe bnf).
  Notation state := (state pred pipe bnf).
  Notation language := (@language pred).
  Variable pipe_bnf : pipe -> res bnf.
  Variable bnf_lines : bnf -> list (str * list pred).
  Notation denotes := (denotes pipe_bnf bnf_lines).
  Notation words_in := (words_in pipe_bnf bnf_lines).
  Notation open_words := (open_words pipe_bnf bnf_lines).

  (** [rule(...)] of several rules. *)
  Lemma sequence_one main (l : language) : main = 0 -> same (sequence main 0 [l]) l.
  Proof.
    intros -> w. split.
    - intros H. inversion H as [|? ? ? u w' Hu Hw]; subst. inversion Hw; subst. rewrite app_nil_r. exact Hu.
    - intros H. rewrite <- (app_nil_r w). apply (sequence_cons 0 0 l [] w []); [exact H|constructor].
  Qed.
  Lemma alternatives_one (l : language) : same (alternatives [l]) l.
  Proof.
    intros w. split.
    - intros (i & l' & u & E & H & ->). destruct i as [|[|]]; try discriminate. injection E as <-. exact H.
    - intros H. exists 0, l, w. auto.
  Qed.
  Lemma sequence_tail (l r : language) k : forall i, same (sequence 0 (S i) (repeat l k ++ [r])) (fun w : @word pred => exists w', times l r k w' /\ w = clear w').
  Proof.
    induction k as [|k IH]; intros i w; cbn [repeat app]; split.
    - intros H. inversion H as [|? ? ? u w' Hu Hw]; subst. inversion Hw; subst. cbn. rewrite app_nil_r. exists u. split; [constructor; exact Hu|reflexivity].
    - intros (w' & H & ->). inversion H; subst. rewrite <- (app_nil_r (clear w')). apply (sequence_cons 0 (S i) r [] w' []); [assumption|constructor].
    - intros H. inversion H as [|? ? ? u w' Hu Hw]; subst. apply IH in Hw as (w2 & Hw & ->). exists (u ++ clear w2). split; [constructor; auto|].
      cbn. rewrite clear_app, clear_clear. reflexivity.
    - intros (w' & H & ->). inversion H as [|? u w2 Hu Hw]; subst. rewrite clear_app, clear_clear.
      apply (sequence_cons 0 (S i) l _ u (clear w2)); [exact Hu|]. apply IH. eauto.
  Qed.
  Lemma sequence_times (l r : language) k : same (sequence 0 0 (repeat l k ++ [r])) (times l r k).
  Proof.
    intros w. destruct k as [|k]; cbn [repeat app].
    - rewrite (sequence_one 0 r eq_refl w). split; intros H; [constructor; exact H|inversion H; assumption].
    - split.
      + intros H. inversion H as [|? ? ? u w' Hu Hw]; subst. apply sequence_tail in Hw as (w2 & Hw & ->). constructor; assumption.
      + intros H. inversion H as [|? u w2 Hu Hw]; subst. apply (sequence_cons 0 0 l _ u (clear w2)); [exact Hu|]. apply sequence_tail. eauto.
  Qed.
  Lemma alternatives_two (a b : language) (rev : bool) :
    same (alternatives (if rev then [b; a] else [a; b]))
         (fun w : @word pred => (exists u, a u /\ w = SAlt (go_on rev) :: u) \/ exists u, b u /\ w = SAlt (stop rev) :: u).
  Proof.
    intros w. split.
    - intros (i & l & u & E & H & ->). destruct rev; destruct i as [|[|i]]; cbn in E; try (destruct i; discriminate); injection E as <-; cbn; eauto.
    - intros [(u & H & ->)|(u & H & ->)]; destruct rev.
      + exists 1, a, u. auto.
      + exists 0, a, u. auto.
      + exists 0, b, u. auto.
      + exists 1, b, u. auto.
  Qed.
  Lemma map_ordered {A} (f : nat -> A) rev a b : map f (ordered rev a b) = if rev then [f b; f a] else [f a; f b].
  Proof. destruct rev; reflexivity. Qed.
  Lemma in_ordered rev a b c : In c (ordered rev a b) <-> c = a \/ c = b.
  Proof. destruct rev; cbn; intuition auto. Qed.

  Section Heap.
    Variable opaque : nat -> bool.
    Variable h : heap.
    Notation W kd := (open_words kd opaque h).
    Notation uses := (uses opaque h).

    Lemma new_rule_words kd a q ts : nth_error h a = Some (ORule [q]) -> nth_error h q = Some (OProd (map TRule ts) 0) ->
      same (W kd a) (sequence 0 0 (map (W kd) ts)).
    Proof.
      intros Ea Eq. eapply same_trans; [apply (open_words_obj pipe_bnf bnf_lines kd opaque h a _ Ea eq_refl)|]. cbn [RuleSpec.denotes map].
      eapply same_trans; [apply alternatives_one|]. eapply same_trans; [apply (open_words_obj pipe_bnf bnf_lines kd opaque h q _ Eq eq_refl)|].
      cbn [RuleSpec.denotes]. rewrite map_map. apply same_refl.
    Qed.
    Lemma new_rule_uses a q ts x : nth_error h a = Some (ORule [q]) -> nth_error h q = Some (OProd (map TRule ts) 0) ->
      (uses a x <-> exists c, In c ts /\ uses c x).
    Proof.
      intros Ea Eq. rewrite (uses_obj opaque h a _ x Ea eq_refl). cbn [children].
      assert (R : rule_terms (pred:=pred) (map TRule ts) = ts) by (unfold rule_terms; rewrite flat_map_concat_map, map_map, <- flat_map_concat_map; clear; induction ts; cbn; congruence).
      split.
      - intros (c & [<-|[]] & U). rewrite (uses_obj opaque h q _ x Eq eq_refl) in U. cbn [children] in U. rewrite R in U. exact U.
      - intros K. exists q. split; [left; reflexivity|]. rewrite (uses_obj opaque h q _ x Eq eq_refl). cbn [children]. rewrite R. exact K.
    Qed.
    Lemma or_words kd o a b rev : nth_error h o = Some (OOr (ordered rev a b)) ->
      same (W kd o) (fun w : @word pred => (exists u, W kd a u /\ w = SAlt (go_on rev) :: u) \/ exists u, W kd b u /\ w = SAlt (stop rev) :: u).
    Proof.
      intros Eo. eapply same_trans; [apply (open_words_obj pipe_bnf bnf_lines kd opaque h o _ Eo eq_refl)|]. cbn [RuleSpec.denotes].
      rewrite map_ordered. apply alternatives_two.
    Qed.
    Lemma or_uses o a b rev x : nth_error h o = Some (OOr (ordered rev a b)) -> (uses o x <-> uses a x \/ uses b x).
    Proof.
      intros Eo. rewrite (uses_obj opaque h o _ x Eo eq_refl). cbn [children]. split.
      - intros (c & Hc & U). apply in_ordered in Hc as [->| ->]; auto.
      - intros [U|U]; [exists a|exists b]; (split; [apply in_ordered; auto|exact U]).
    Qed.

    (** item, item and item, ... through a forward rule *)
    Section Repeatable.
      Variables item temp q a o : nat.
      Variable rev : bool.
      Hypothesis Et : nth_error h temp = Some (OForward (Some o)).
      Hypothesis Tt : opaque temp = false.
      Hypothesis Eq : nth_error h q = Some (OProd [TRule item; TRule temp] 0).
      Hypothesis Ea : nth_error h a = Some (ORule [q]).
      Hypothesis Eo : nth_error h o = Some (OOr (ordered rev a item)).
      Lemma pair_words kd : same (W kd a) (fun w : @word pred => exists u v, W kd item u /\ W kd temp v /\ w = u ++ clear v).
      Proof.
        eapply same_trans; [apply (new_rule_words kd a q [item; temp] Ea Eq)|]. cbn [map]. intros w. split.
        - intros H. inversion H as [|? ? ? u w' Hu Hw]; subst. inversion Hw as [|? ? ? v w'' Hv Hw']; subst. inversion Hw'; subst.
          cbn. rewrite app_nil_r. eauto.
        - intros (u & v & Hu & Hv & ->). apply (sequence_cons 0 0 _ _ u (clear v)); [exact Hu|]. rewrite <- (app_nil_r (clear v)).
          apply (sequence_cons 0 1 _ _ v []); [exact Hv|constructor].
      Qed.
      Lemma repeatable_words kd : same (W kd temp) (many (W kd item) rev).
      Proof.
        intros w. split.
        - intros [n Hn]. revert w Hn. induction n as [n IH] using lt_wf_ind. intros w Hn.
          destruct n as [|n]; [destruct Hn|]. cbn [RuleSpec.words_in] in Hn. rewrite Et in Hn. cbn [is_forward andb] in Hn. rewrite Tt in Hn. cbn [RuleSpec.denotes] in Hn.
          destruct n as [|n]; [destruct Hn|]. cbn [RuleSpec.words_in] in Hn. rewrite Eo in Hn. cbn [is_forward andb RuleSpec.denotes] in Hn. rewrite map_ordered in Hn.
          assert (K : (exists u, words_in kd opaque h n a u /\ w = SAlt (go_on rev) :: u) \/ exists u, words_in kd opaque h n item u /\ w = SAlt (stop rev) :: u).
          { apply (alternatives_two (words_in kd opaque h n a) (words_in kd opaque h n item) rev w). exact Hn. }
          destruct K as [(u & Hu & ->)|(u & Hu & ->)]; [|constructor; exists n; exact Hu].
          destruct n as [|n]; [destruct Hu|]. cbn [RuleSpec.words_in] in Hu. rewrite Ea in Hu. cbn [is_forward andb RuleSpec.denotes map] in Hu. apply (proj1 (alternatives_one _ _)) in Hu.
          destruct n as [|n]; [destruct Hu|]. cbn [RuleSpec.words_in] in Hu. rewrite Eq in Hu. cbn [is_forward andb RuleSpec.denotes map denotes_term] in Hu.
          inversion Hu as [|? ? ? u1 w' Hu1 Hw]; subst. inversion Hw as [|? ? ? v w'' Hv Hw']; subst. inversion Hw'; subst. cbn [Nat.eqb]. rewrite app_nil_r.
          constructor; [exists n; exact Hu1|]. apply (IH n); [lia|exact Hv].
        - intros H. rewrite (open_words_forward pipe_bnf bnf_lines kd opaque h temp o Et Tt w).
          induction H as [u Hu|u w Hu Hw IH]; apply (or_words kd o a item rev Eo); [right; eauto|left].
          eexists. split; [|reflexivity]. apply pair_words. exists u, w. split; [exact Hu|]. split; [|reflexivity].
          apply (open_words_forward pipe_bnf bnf_lines kd opaque h temp o Et Tt w), IH.
      Qed.
      Lemma pair_uses x : uses a x <-> uses item x \/ uses temp x.
      Proof.
        rewrite (new_rule_uses a q [item; temp] x Ea Eq). split.
        - intros (c & [<-|[<-|[]]] & U); auto.
        - intros [U|U]; [exists item|exists temp]; (split; [|exact U]); cbn; auto.
      Qed.
      Lemma repeatable_uses x : uses temp x <-> uses item x.
      Proof.
        split; intros U.
        - remember temp as t eqn:T in U. assert (G : t = temp \/ t = o \/ t = a \/ t = q) by auto. clear T.
          induction U as [p d E Q|p ob c y E F Hc Hy IH].
          + destruct G as [->|[->|[->| ->]]]; congruence.
          + destruct G as [->|[->|[->| ->]]].
            * rewrite Et in E. injection E as <-. destruct Hc as [<-|[]]. apply IH. auto.
            * rewrite Eo in E. injection E as <-. cbn [children] in Hc. apply in_ordered in Hc as [->| ->]; [apply IH; auto|exact Hy].
            * rewrite Ea in E. injection E as <-. destruct Hc as [<-|[]]. apply IH. auto.
            * rewrite Eq in E. injection E as <-. destruct Hc as [<-|[<-|[]]]; [exact Hy|apply IH; auto].
        - rewrite (uses_obj opaque h temp _ x Et Tt). exists o. split; [left; reflexivity|]. apply (or_uses o a item rev x Eo). auto.
      Qed.
    End Repeatable.

    Section RepeatableOptional.
      Variables item temp e q b o : nat.
      Variables rr ro : bool.
      Hypothesis Et : nth_error h temp = Some (OForward (Some o)).
      Hypothesis Tt : opaque temp = false.
      Hypothesis Ee : nth_error h e = Some OEmpty.
      Hypothesis Eq : nth_error h q = Some (OProd [TRule item; TRule temp] 0).
      Hypothesis Eb : nth_error h b = Some (ORule [q]).
      Hypothesis Eo : nth_error h o = Some (OOr (if ro then ordered rr b item ++ [e] else e :: ordered rr b item)).
      Lemma alternatives_three (x y z : language) :
        same (alternatives (if ro then (if rr then [y; x] else [x; y]) ++ [z] else z :: (if rr then [y; x] else [x; y])))
             (fun w : @word pred => (exists u, z u /\ w = SAlt (if ro then 2 else 0) :: u) \/
                       (exists u, y u /\ w = SAlt (shift ro (stop rr)) :: u) \/
                       exists u, x u /\ w = SAlt (shift ro (go_on rr)) :: u).
      Proof.
        intros w. split.
        - intros (i & l & u & E & H & ->). destruct rr, ro; destruct i as [|[|[|i]]]; cbn in E; try (destruct i; discriminate); injection E as <-; cbn; eauto 10.
        - intros [(u & H & ->)|[(u & H & ->)|(u & H & ->)]]; destruct rr, ro.
          + exists 2, z, u; auto.
          + exists 0, z, u; auto.
          + exists 2, z, u; auto.
          + exists 0, z, u; auto.
          + exists 0, y, u; auto.
          + exists 1, y, u; auto.
          + exists 1, y, u; auto.
          + exists 2, y, u; auto.
          + exists 1, x, u; auto.
          + exists 2, x, u; auto.
          + exists 0, x, u; auto.
          + exists 1, x, u; auto.
      Qed.
      Lemma map_three (f : nat -> language) : map f (if ro then ordered rr b item ++ [e] else e :: ordered rr b item) =
        if ro then (if rr then [f item; f b] else [f b; f item]) ++ [f e] else f e :: (if rr then [f item; f b] else [f b; f item]).
      Proof. destruct rr, ro; reflexivity. Qed.
      Lemma repeatable_optional_words kd : same (W kd temp) (any (W kd item) rr ro).
      Proof.
        intros w. split.
        - intros [n Hn]. revert w Hn. induction n as [n IH] using lt_wf_ind. intros w Hn.
          destruct n as [|n]; [destruct Hn|]. cbn [RuleSpec.words_in] in Hn. rewrite Et in Hn. cbn [is_forward andb] in Hn. rewrite Tt in Hn. cbn [RuleSpec.denotes] in Hn.
          destruct n as [|n]; [destruct Hn|]. cbn [RuleSpec.words_in] in Hn. rewrite Eo in Hn. cbn [is_forward andb RuleSpec.denotes] in Hn. rewrite map_three in Hn.
          apply alternatives_three in Hn. destruct Hn as [(u & Hu & ->)|[(u & Hu & ->)|(u & Hu & ->)]].
          + destruct n as [|n]; [destruct Hu|]. cbn [RuleSpec.words_in] in Hu. rewrite Ee in Hu. cbn in Hu. subst u. constructor.
          + constructor. exists n. exact Hu.
          + destruct n as [|n]; [destruct Hu|]. cbn [RuleSpec.words_in] in Hu. rewrite Eb in Hu. cbn [is_forward andb RuleSpec.denotes map] in Hu. apply (proj1 (alternatives_one _ _)) in Hu.
            destruct n as [|n]; [destruct Hu|]. cbn [RuleSpec.words_in] in Hu. rewrite Eq in Hu. cbn [is_forward andb RuleSpec.denotes map denotes_term] in Hu.
            inversion Hu as [|? ? ? u1 w' Hu1 Hw]; subst. inversion Hw as [|? ? ? v w'' Hv Hw']; subst. inversion Hw'; subst. cbn [Nat.eqb]. rewrite app_nil_r.
            apply any_more; [exists n; exact Hu1|]. apply (IH n); [lia|exact Hv].
        - intros H. rewrite (open_words_forward pipe_bnf bnf_lines kd opaque h temp o Et Tt w).
          assert (S := open_words_obj pipe_bnf bnf_lines kd opaque h o _ Eo eq_refl). cbn [RuleSpec.denotes] in S. rewrite map_three in S.
          induction H as [|u Hu|u w Hu Hw IH]; apply S, alternatives_three.
          + left. exists []. split; [|reflexivity]. apply (open_words_obj pipe_bnf bnf_lines kd opaque h e _ Ee eq_refl). reflexivity.
          + right. left. eauto.
          + right. right. eexists. split; [|reflexivity]. apply (pair_words item temp q b Eq Eb kd). exists u, w. split; [exact Hu|]. split; [|reflexivity].
            apply (open_words_forward pipe_bnf bnf_lines kd opaque h temp o Et Tt w), IH.
      Qed.
      Lemma in_three c : In c (if ro then ordered rr b item ++ [e] else e :: ordered rr b item) <-> c = e \/ c = b \/ c = item.
      Proof. clear. destruct rr, ro; cbn; intuition auto. Qed.
      Lemma repeatable_optional_uses x : uses temp x <-> uses item x.
      Proof.
        split; intros U.
        - remember temp as t eqn:T in U. assert (G : t = temp \/ t = o \/ t = b \/ t = q \/ t = e) by auto. clear T.
          induction U as [p d E Q|p ob c y E F Hc Hy IH].
          + destruct G as [->|[->|[->|[->| ->]]]]; congruence.
          + destruct G as [->|[->|[->|[->| ->]]]].
            * rewrite Et in E. injection E as <-. destruct Hc as [<-|[]]. apply IH. auto.
            * rewrite Eo in E. injection E as <-. cbn [children] in Hc. apply in_three in Hc as [->|[->| ->]]; [apply IH; auto|apply IH; auto|exact Hy].
            * rewrite Eb in E. injection E as <-. destruct Hc as [<-|[]]. apply IH. auto.
            * rewrite Eq in E. injection E as <-. destruct Hc as [<-|[<-|[]]]; [exact Hy|apply IH; auto].
            * rewrite Ee in E. injection E as <-. destruct Hc.
        - rewrite (uses_obj opaque h temp _ x Et Tt). exists o. split; [left; reflexivity|].
          rewrite (uses_obj opaque h o _ x Eo eq_refl). exists item. split; [apply in_three; auto|exact U].
      Qed.
    End RepeatableOptional.
  End Heap.
End Meaning.
