(** Theory of the words of rules (RuleSpec.v). *)
From Verif Require Import Base EarleyModel RuleModel RuleSpec.
From Verif Require SpanProofs.
Definition setitem_length := @SpanProofs.setitem_length.
Definition setitem_same := @SpanProofs.setitem_same.
Definition setitem_other := @SpanProofs.setitem_other.
Arguments setitem_same {A}. Arguments setitem_other {A}. Arguments setitem_length {A}.
Open Scope nat_scope.

Section Words.
  Context {pred pipe bnf : Type}.
  Notation obj := (obj pred pipe bnf).
  Notation heap := (heap pred pipe bnf).
  Notation word := (@word pred).
  Notation symbol := (@symbol pred).
  Notation language := (@language pred).
  Variable pipe_bnf : pipe -> res bnf.
  Variable bnf_lines : bnf -> list (str * list pred).
  Variable kd : kind.
  Notation denotes := (denotes pipe_bnf bnf_lines kd).
  Notation words_in := (words_in pipe_bnf bnf_lines kd).
  Notation open_words := (open_words pipe_bnf bnf_lines kd).

  Definition included (l l' : language) : Prop := forall w, l w -> l' w.
  Definition same (l l' : language) : Prop := forall w, l w <-> l' w.
  Lemma same_refl l : same l l. Proof. intros w. reflexivity. Qed.
  Lemma same_sym l l' : same l l' -> same l' l. Proof. intros H w. symmetry. apply H. Qed.
  Lemma same_trans a b c : same a b -> same b c -> same a c.
  Proof. intros H H' w. rewrite (H w). apply H'. Qed.

  (** ** clear *)
  Lemma clear_app (u w : word) : clear (u ++ w) = clear u ++ clear w.
  Proof. apply map_app. Qed.
  Lemma clear_clear (w : word) : clear (clear w) = clear w.
  Proof. unfold clear. rewrite map_map. apply map_ext. intros []; reflexivity. Qed.

  (** ** Monotonicity *)
  Lemma alternatives_mono (ls ls' : list language) :
    Forall2 included ls ls' -> included (alternatives ls) (alternatives ls').
  Proof.
    intros F w (i & l & u & E & H & ->). assert (L : length ls = length ls') by (clear - F; induction F; cbn; auto).
    rewrite L. clear L. revert i E. enough (G : forall i, nth_error ls i = Some l -> exists l', nth_error ls' i = Some l' /\ l' u).
    { intros i E. destruct (G i E) as (l' & E' & H'). exists i, l', u. auto. }
    induction F as [|a b ls ls' I F IH]; intros [|i] E; try discriminate; cbn in E.
    - injection E as ->. exists b. split; [reflexivity|]. apply I, H.
    - apply (IH i E).
  Qed.
  Lemma sequence_mono main ls ls' : Forall2 included ls ls' -> forall i, included (sequence main i ls) (sequence main i ls').
  Proof.
    induction 1 as [|l l' ls ls' I F IH]; intros i w H; inversion H; subst; constructor; auto. apply IH. auto.
  Qed.
  Lemma many_mono l l' rev : included l l' -> included (many l rev) (many l' rev).
  Proof. intros I w H. induction H; constructor; auto. Qed.
  Lemma at_most_mono l l' rev : included l l' -> forall n, included (at_most l rev n) (at_most l' rev n).
  Proof. intros I n w H. induction H; constructor; auto. Qed.
  Lemma times_mono l l' r r' : included l l' -> included r r' -> forall n, included (times l r n) (times l' r' n).
  Proof. intros I I' n w H. induction H; constructor; auto. Qed.
  Lemma maybe_mono l l' rev : included l l' -> included (maybe l rev) (maybe l' rev).
  Proof. intros I w [->|(u & H & ->)]; [left|right]; eauto. Qed.
  Lemma any_mono l l' rr ro : included l l' -> included (any l rr ro) (any l' rr ro).
  Proof. intros I w H. induction H; constructor; auto. Qed.
  Lemma around_mono a (l l' : language) : included l l' -> included (around a l) (around a l').
  Proof. intros I w (u & H & ->). exists u. auto. Qed.

  Lemma forall2_map {A} (f g : A -> language) l : (forall x, In x l -> included (f x) (g x)) -> Forall2 included (map f l) (map g l).
  Proof. induction l as [|x l IH]; intros H; cbn; constructor; [apply H; left; auto|]. apply IH. intros y Hy. apply H. right. auto. Qed.

  Lemma in_rule_terms r (ts : list (term pred)) : In (TRule r) ts -> In r (rule_terms ts).
  Proof. intros H. apply in_flat_map. exists (TRule r). split; [exact H|left; reflexivity]. Qed.

  (** What an object denotes depends on its children only. *)
  Lemma denotes_in (D D' : nat -> language) (o : obj) :
    (forall p, In p (children o) -> included (D p) (D' p)) -> included (denotes D o) (denotes D' o).
  Proof.
    intros H. destruct o as [ps|rs|r rev|r rev|r rr ro|r m rev|r m rev|r m n rev|r n|r i|r rel|[r|]| |pl|ps a|b ps a|ts m| |k ps]; cbn [RuleSpec.denotes children] in *;
      try (assert (I : included (D r) (D' r)) by (apply H; left; reflexivity)).
    - apply alternatives_mono, forall2_map, H.
    - apply alternatives_mono, forall2_map, H.
    - apply maybe_mono, I.
    - apply many_mono, I.
    - apply any_mono, I.
    - apply times_mono; [apply I|apply many_mono, I].
    - apply at_most_mono, I.
    - apply times_mono; [apply I|apply at_most_mono, I].
    - apply around_mono, I.
    - apply around_mono, I.
    - apply around_mono, I.
    - exact I.
    - intros w [].
    - intros w E. exact E.
    - intros w E. exact E.
    - apply around_mono, alternatives_mono, forall2_map, H.
    - apply around_mono. intros w (q & Hq & W). exists q. split; [exact Hq|]. apply H; auto.
    - apply sequence_mono, forall2_map. intros [r|p] Hr; [|intros w E; exact E]. apply H, in_rule_terms, Hr.
    - intros w E. exact E.
    - intros w E. exact E.
  Qed.
  Lemma denotes_mono (D D' : nat -> language) (o : obj) :
    (forall p, included (D p) (D' p)) -> included (denotes D o) (denotes D' o).
  Proof. intros H. apply denotes_in. auto. Qed.
  Lemma denotes_same (D D' : nat -> language) (o : obj) :
    (forall p, In p (children o) -> same (D p) (D' p)) -> same (denotes D o) (denotes D' o).
  Proof. intros H w. split; apply denotes_in; intros p Hp v; apply (H p Hp). Qed.

  (** ** Continuity *)
  Section Continuity.
    Variable W : nat -> nat -> language.
    Hypothesis up : forall n m p, n <= m -> included (W n p) (W m p).
    Definition limit (p : nat) : language := fun w => exists n, W n p w.
    Lemma many_limit p rev w : many (limit p) rev w -> exists n, many (W n p) rev w.
    Proof.
      induction 1 as [u [n H]|u w [n H] _ [m IH]]; [exists n; constructor; auto|].
      exists (Nat.max n m). constructor; [revert H; apply up; lia|]. revert IH. apply many_mono, up. lia.
    Qed.
    Lemma at_most_limit p rev k w : at_most (limit p) rev k w -> exists n, at_most (W n p) rev k w.
    Proof.
      induction 1 as [u [n H]|k u [n H]|k u w [n H] _ [m IH]]; [exists n; constructor; auto|exists n; constructor; auto|].
      exists (Nat.max n m). constructor; [revert H; apply up; lia|]. revert IH. apply at_most_mono, up. lia.
    Qed.
    Lemma times_limit p (R : nat -> language) k w : (forall n m, n <= m -> included (R n) (R m)) ->
      times (limit p) (fun w => exists n, R n w) k w -> exists n, times (W n p) (R n) k w.
    Proof.
      intros RU. induction 1 as [w [n H]|k u w [n H] _ [m IH]]; [exists n; constructor; auto|].
      exists (Nat.max n m). constructor; [revert H; apply up; lia|]. revert IH. apply times_mono; [apply up|apply RU]; lia.
    Qed.
    Lemma any_limit p rr ro w : any (limit p) rr ro w -> exists n, any (W n p) rr ro w.
    Proof.
      induction 1 as [|u [n H]|u w [n H] _ [m IH]]; [exists 0; constructor|exists n; constructor; auto|].
      exists (Nat.max n m). constructor; [revert H; apply up; lia|]. revert IH. apply any_mono, up. lia.
    Qed.
    Lemma alternatives_limit ps w : alternatives (map limit ps) w -> exists n, alternatives (map (W n) ps) w.
    Proof.
      intros (i & l & u & E & H & ->). rewrite map_length. rewrite nth_error_map in E.
      destruct (nth_error ps i) as [p|] eqn:Ep; [|discriminate]. injection E as <-. destruct H as [n H].
      exists n, i, (W n p), u. rewrite nth_error_map, Ep, map_length. auto.
    Qed.
    Lemma sequence_limit main ts : forall i w, sequence main i (map (denotes_term limit) ts) w ->
      exists n, sequence main i (map (denotes_term (W n)) ts) w.
    Proof.
      induction ts as [|t ts IH]; intros i w H; inversion H; subst; [exists 0; constructor|].
      destruct (IH _ _ H5) as [m IH']. destruct t as [r|p].
      2: { exists m. cbn. constructor; auto. }
      - destruct H3 as [n H3]. exists (Nat.max n m). cbn. constructor; [revert H3; apply up; lia|].
        revert IH'. apply sequence_mono, forall2_map. intros [r'|p] _; [|intros v E; exact E]. apply up. lia.
    Qed.
    Lemma denotes_limit (o : obj) w : denotes limit o w -> exists n, denotes (W n) o w.
    Proof.
      destruct o as [ps|rs|r rev|r rev|r rr ro|r m rev|r m rev|r m n rev|r n|r i|r rel|[r|]| |pl|ps a|b ps a|ts m| |k ps]; cbn [RuleSpec.denotes].
      - apply alternatives_limit.
      - apply alternatives_limit.
      - intros [->|(u & [n H] & ->)]; [exists 0; left; auto|exists n; right; eauto].
      - apply many_limit.
      - apply any_limit.
      - intros H. apply times_limit.
        + intros a b L. apply many_mono, up, L.
        + revert H. apply times_mono; [intros v E; exact E|]. intros v. apply many_limit.
      - apply at_most_limit.
      - intros H. apply (times_limit r (fun k => at_most (W k r) rev (n - m + 1))).
        + intros a b L. apply at_most_mono, up, L.
        + revert H. apply times_mono; [intros v E; exact E|]. intros v. apply at_most_limit.
      - intros (u & [k H] & ->). exists k, u. auto.
      - intros (u & [k H] & ->). exists k, u. auto.
      - intros (u & [k H] & ->). exists k, u. auto.
      - intros [k H]. exists k. exact H.
      - intros [].
      - intros E. exists 0. exact E.
      - intros E. exists 0. exact E.
      - intros (u & H & ->). apply alternatives_limit in H as [k H]. exists k, u. auto.
      - intros (u & (q & Hq & [k H]) & ->). exists k, u. split; [|reflexivity]. exists q. auto.
      - apply sequence_limit.
      - intros E. exists 0. exact E.
      - intros E. exists 0. exact E.
    Qed.
  End Continuity.

  (** ** Words as a least fixed point *)
  Section Least.
    Variable opaque : nat -> bool.
    Variable h : heap.
    Lemma words_in_up n : forall m p, n <= m -> included (words_in opaque h n p) (words_in opaque h m p).
    Proof.
      induction n as [|n IH]; intros [|m] p L w H; [destruct H|destruct H|lia|]. cbn [RuleSpec.words_in] in *.
      destruct (nth_error h p) as [o|]; [|destruct H]. destruct (is_forward o && opaque p); [exact H|].
      revert H. apply denotes_mono. intros q. apply IH. lia.
    Qed.

    Definition step (D : nat -> language) (p : nat) : language :=
      fun w => exists o, nth_error h p = Some o /\ (if is_forward o && opaque p then w = [SForward p true] else denotes D o w).
    Lemma open_words_step p : same (open_words opaque h p) (step (open_words opaque h) p).
    Proof.
      intros w. split.
      - intros [[|n] H]; [destruct H|]. cbn [RuleSpec.words_in] in H. destruct (nth_error h p) as [o|] eqn:E; [|destruct H].
        exists o. split; [exact E|]. destruct (is_forward o && opaque p); [exact H|].
        revert H. apply denotes_mono. intros q v Hv. exists n. exact Hv.
      - intros (o & E & H). destruct (is_forward o && opaque p) eqn:F.
        + exists 1. cbn [RuleSpec.words_in]. rewrite E, F. exact H.
        + apply (denotes_limit (words_in opaque h)) in H; [|intros n m q L; apply words_in_up, L]. destruct H as [n H].
          exists (S n). cbn [RuleSpec.words_in]. rewrite E, F. exact H.
    Qed.
    Lemma open_words_least (L : nat -> language) :
      (forall p, included (step L p) (L p)) -> forall p, included (open_words opaque h p) (L p).
    Proof.
      intros H p w [n Hn]. revert p w Hn. induction n as [|n IH]; intros p w Hn; [destruct Hn|]. cbn [RuleSpec.words_in] in Hn.
      apply H. destruct (nth_error h p) as [o|] eqn:E; [|destruct Hn]. exists o. split; [exact E|].
      destruct (is_forward o && opaque p); [exact Hn|]. revert Hn. apply denotes_mono. exact IH.
    Qed.
    (** The words of a plain object, of an opaque and of a transparent forward rule. *)
    Lemma open_words_obj p o : nth_error h p = Some o -> is_forward o = false ->
      same (open_words opaque h p) (denotes (open_words opaque h) o).
    Proof.
      intros E F w. rewrite (open_words_step p w). split.
      - intros (o' & E' & H). rewrite E in E'. injection E' as <-. rewrite F in H. exact H.
      - intros H. exists o. split; [exact E|]. rewrite F. exact H.
    Qed.
    Lemma open_words_opaque p d : nth_error h p = Some (OForward d) -> opaque p = true ->
      same (open_words opaque h p) (fun w => w = [SForward p true]).
    Proof.
      intros E F w. rewrite (open_words_step p w). split.
      - intros (o' & E' & H). rewrite E in E'. injection E' as <-. cbn in H. rewrite F in H. exact H.
      - intros H. eexists. split; [exact E|]. cbn. rewrite F. exact H.
    Qed.
    Lemma open_words_forward p r : nth_error h p = Some (OForward (Some r)) -> opaque p = false ->
      same (open_words opaque h p) (open_words opaque h r).
    Proof.
      intros E F w. rewrite (open_words_step p w). split.
      - intros (o' & E' & H). rewrite E in E'. injection E' as <-. cbn in H. rewrite F in H. exact H.
      - intros H. eexists. split; [exact E|]. cbn. rewrite F. exact H.
    Qed.
  End Least.

  (** Included words from a simulation between two heaps. *)
  Lemma open_words_sim opaque opaque' (h h' : heap) :
    (forall p, included (step opaque h (open_words opaque' h') p) (open_words opaque' h' p)) ->
    forall p, included (open_words opaque h p) (open_words opaque' h' p).
  Proof. apply open_words_least. Qed.

  (** ** Replacing opaque forward rules by words *)
  Section Subst.
    (** [subst S w w']: every forward symbol of [w] is replaced by a word of [S]. *)
    Inductive subst (S : nat -> language) : word -> word -> Prop :=
    | subst_nil : subst S [] []
    | subst_keep s w w' : (forall f b, s <> SForward f b) -> subst S w w' -> subst S (s :: w) (s :: w')
    | subst_forward f b u w w' : S f u -> subst S w w' -> subst S (SForward f b :: w) ((if b then u else clear u) ++ w').

    Lemma subst_mono (S S' : nat -> language) : (forall f, included (S f) (S' f)) -> forall w w', subst S w w' -> subst S' w w'.
    Proof. intros I w w' H. induction H; constructor; auto. apply I. auto. Qed.
    Lemma subst_app S u u' w w' : subst S u u' -> subst S w w' -> subst S (u ++ w) (u' ++ w').
    Proof. induction 1; intros H'; cbn; [exact H'|constructor; auto|]. rewrite <- app_assoc. constructor; auto. Qed.
    Lemma subst_clear S w w' : subst S w w' -> subst S (clear w) (clear w').
    Proof.
      induction 1 as [|s w w' N H IH|f b u w w' Hu H IH]; [constructor| |].
      - cbn [clear map]. apply subst_keep; [|exact IH]. intros f b. destruct s; cbn; try discriminate. exfalso. eapply N. reflexivity.
      - cbn [clear map clear_symbol]. fold (clear w). rewrite clear_app.
        destruct b; [|rewrite clear_clear]; apply (subst_forward S f false u); auto.
    Qed.
    Lemma subst_split S u : forall v w', subst S (u ++ v) w' -> exists u' v', w' = u' ++ v' /\ subst S u u' /\ subst S v v'.
    Proof.
      induction u as [|s u IH]; intros v w' H; [exists [], w'; split; [reflexivity|]; split; [constructor|exact H]|].
      cbn in H. inversion H as [|s0 w0 w1 N H0|f b x w0 w1 Hx H0]; subst.
      - destruct (IH _ _ H0) as (u' & v' & -> & A & B). exists (s :: u'), v'. split; [reflexivity|]. split; [constructor; auto|exact B].
      - destruct (IH _ _ H0) as (u' & v' & -> & A & B). exists ((if b then x else clear x) ++ u'), v'. rewrite app_assoc.
        split; [reflexivity|]. split; [constructor; auto|exact B].
    Qed.
    Lemma subst_clear_inv S w : forall w', subst S (clear w) w' -> exists u, subst S w u /\ w' = clear u.
    Proof.
      induction w as [|s w IH]; intros w' H; [inversion H; subst; exists []; split; [constructor|reflexivity]|].
      cbn [clear map] in H. inversion H as [|s0 w0 w1 N H0|f b x w0 w1 Hx H0]; subst.
      - destruct (IH _ H0) as (u & A & ->). exists (s :: u). split; [|reflexivity].
        apply subst_keep; [|exact A]. intros f b ->. eapply N. reflexivity.
      - destruct (IH _ H0) as (u & A & ->). destruct s as [| f' b'| | | |]; try discriminate. cbn in H1. injection H1 as E1 E2. subst.
        exists ((if b' then x else clear x) ++ u). split; [constructor; auto|]. rewrite clear_app. f_equal.
        destruct b'; [reflexivity|]. symmetry. apply clear_clear.
    Qed.
    Lemma subst_keep_inv S s w w' : (forall f b, s <> SForward f b) -> subst S (s :: w) w' -> exists w'', w' = s :: w'' /\ subst S w w''.
    Proof. intros N H. inversion H; subst; [eauto|]. exfalso. eapply N. reflexivity. Qed.

    Definition image (S D : nat -> language) : nat -> language := fun p w' => exists w, D p w /\ subst S w w'.

    (** Commutation with what objects denote, both ways. *)
    Section Out.
      Variable S D : nat -> language.
      Notation I := (image S D).
      Definition image_of (l : language) : language := fun w' => exists w, l w /\ subst S w w'.

      Lemma out_alternatives ps : included (alternatives (map I ps)) (image_of (alternatives (map D ps))).
      Proof.
        intros w' (i & l & u & E & H & ->). rewrite map_length. rewrite nth_error_map in E.
        destruct (nth_error ps i) as [p|] eqn:Ep; [|discriminate]. injection E as <-. destruct H as (v & Hv & Hs).
        exists (mark (length ps) i ++ v). split.
        - exists i, (D p), v. rewrite nth_error_map, Ep, map_length. auto.
        - apply subst_app; auto. unfold mark. destruct (Nat.leb _ _); [constructor|]. apply subst_keep; [discriminate|constructor].
      Qed.
      Lemma out_one p : included (one_predicate p) (image_of (one_predicate p)).
      Proof. intros w ->. eexists. split; [reflexivity|]. apply subst_keep; [discriminate|constructor]. Qed.
      Lemma out_sequence main ts : forall i, included (sequence main i (map (denotes_term I) ts)) (image_of (sequence main i (map (denotes_term D) ts))).
      Proof.
        induction ts as [|t ts IH]; intros i w' H; inversion H; subst; [exists []; split; constructor|].
        destruct (IH _ _ H5) as (v & Hv & Sv).
        assert (X : exists x, denotes_term D t x /\ subst S x u).
        { destruct t as [r|p]; cbn in *; [exact H3|]. apply out_one in H3. exact H3. }
        destruct X as (x & Hx & Sx). exists ((if i =? main then x else clear x) ++ v). split; [cbn; constructor; auto|].
        apply subst_app; auto. destruct (i =? main); [auto|apply subst_clear; auto].
      Qed.
      Lemma out_alt i l : included (fun w => exists u, image_of l u /\ w = SAlt i :: u) (image_of (fun w => exists u, l u /\ w = SAlt i :: u)).
      Proof. intros w (u & (x & Hx & Sx) & ->). exists (SAlt i :: x). split; [eauto|]. apply subst_keep; [discriminate|auto]. Qed.
      Lemma out_many (l : language) rev : included (many (image_of l) rev) (image_of (many l rev)).
      Proof.
        intros w H. induction H as [u (x & Hx & Sx)|u w (x & Hx & Sx) _ (y & Hy & Sy)].
        - exists (SAlt (stop rev) :: x). split; [constructor; auto|]. apply subst_keep; [discriminate|auto].
        - exists (SAlt (go_on rev) :: x ++ clear y). split; [constructor; auto|]. apply subst_keep; [discriminate|].
          apply subst_app; [auto|apply subst_clear; auto].
      Qed.
      Lemma out_at_most (l : language) rev n : included (at_most (image_of l) rev n) (image_of (at_most l rev n)).
      Proof.
        intros w H. induction H as [u (x & Hx & Sx)|n u (x & Hx & Sx)|n u w (x & Hx & Sx) _ (y & Hy & Sy)].
        - exists x. split; [constructor; auto|auto].
        - exists (SAlt (stop rev) :: x). split; [constructor; auto|]. apply subst_keep; [discriminate|auto].
        - exists (SAlt (go_on rev) :: x ++ clear y). split; [constructor; auto|]. apply subst_keep; [discriminate|].
          apply subst_app; [auto|apply subst_clear; auto].
      Qed.
      Lemma out_times (l r : language) n : included (times (image_of l) (image_of r) n) (image_of (times l r n)).
      Proof.
        intros w H. induction H as [w (x & Hx & Sx)|n u w (x & Hx & Sx) _ (y & Hy & Sy)].
        - exists x. split; [constructor; auto|auto].
        - exists (x ++ clear y). split; [constructor; auto|]. apply subst_app; [auto|apply subst_clear; auto].
      Qed.
      Lemma out_any (l : language) rr ro : included (any (image_of l) rr ro) (image_of (any l rr ro)).
      Proof.
        intros w H. induction H as [|u (x & Hx & Sx)|u w (x & Hx & Sx) _ (y & Hy & Sy)].
        - eexists. split; [apply any_none|]. apply subst_keep; [discriminate|constructor].
        - eexists. split; [apply any_last; eauto|]. apply subst_keep; [discriminate|auto].
        - eexists. split; [apply any_more; eauto|]. apply subst_keep; [discriminate|].
          apply subst_app; [auto|apply subst_clear; auto].
      Qed.
      Lemma subst_bracket a u u' : subst S u u' -> subst S (bracket a u) (bracket a u').
      Proof.
        intros H. destruct a as [a|]; [|exact H]. cbn. apply subst_keep; [discriminate|]. apply subst_app; [exact H|].
        apply subst_keep; [discriminate|constructor].
      Qed.
      Lemma out_around a (l : language) : included (around a (image_of l)) (image_of (around a l)).
      Proof. intros w (u & (x & Hx & Sx) & ->). exists (bracket a x). split; [exists x; auto|apply subst_bracket, Sx]. Qed.
      Lemma out_line key ps : included (line key ps) (image_of (line key ps)).
      Proof.
        intros w (u & Hu & ->). assert (G : forall i u, sequence 0 i (map one_predicate ps) u -> subst S u u).
        { clear. induction ps as [|p ps IH]; intros i u H; inversion H; subst; [constructor|]. apply subst_app; [|eauto].
          unfold one_predicate in H3. subst. destruct (i =? 0); (apply subst_keep; [discriminate|constructor]). }
        exists (SLine key :: u). split; [exists u; auto|]. apply subst_keep; [discriminate|eauto].
      Qed.

      Lemma denotes_out (o : obj) : is_forward o = false -> included (denotes I o) (image_of (denotes D o)).
      Proof.
        intros F. destruct o as [ps|rs|r rev|r rev|r rr ro|r m rev|r m rev|r m n rev|r n|r i|r rel|d| |pl|ps a|b ps a|ts m| |k ps]; cbn [RuleSpec.denotes]; try discriminate.
        - apply out_alternatives.
        - apply out_alternatives.
        - intros w [->|H].
          + exists [SAlt (if rev then 1 else 0)]. split; [left; reflexivity|]. apply subst_keep; [discriminate|constructor].
          + apply out_alt in H as (x & (u & Hu & ->) & Sx). eexists. split; [right; eauto|exact Sx].
        - apply out_many.
        - apply out_any.
        - intros w H. apply out_times. revert H. apply times_mono; [intros v E; exact E|]. apply out_many.
        - apply out_at_most.
        - intros w H. apply out_times. revert H. apply times_mono; [intros v E; exact E|]. apply out_at_most.
        - apply out_around.
        - apply out_around.
        - apply out_around.
        - intros w ->. exists []. split; [reflexivity|constructor].
        - intros w (b & k & ps & E & Hi & H). apply out_line in H as (x & Hx & Sx). exists x. split; [|exact Sx]. exists b, k, ps. auto.
        - intros w (u & H & ->). apply out_around. exists u. split; [apply out_alternatives, H|reflexivity].
        - intros w (u & (q & Hq & (x & Hx & Sx)) & ->). apply out_around. exists u. split; [|reflexivity]. exists x. split; [exists q; auto|exact Sx].
        - apply out_sequence.
        - intros w ->. exists []. split; [reflexivity|constructor].
        - apply out_line.
      Qed.

      (** The other way. *)
      Lemma in_one p : included (image_of (one_predicate p)) (one_predicate p).
      Proof. intros w (x & -> & Sx). inversion Sx; subst. inversion H3; subst. reflexivity. Qed.
      Lemma in_alternatives ps : included (image_of (alternatives (map D ps))) (alternatives (map I ps)).
      Proof.
        intros w' (w & (i & l & u & E & H & ->) & Sx). rewrite map_length in Sx. rewrite nth_error_map in E.
        destruct (nth_error ps i) as [p|] eqn:Ep; [|discriminate]. injection E as <-.
        apply subst_split in Sx as (m' & u' & -> & A & B).
        exists i, (I p), u'. rewrite nth_error_map, Ep, map_length. split; [reflexivity|]. split; [exists u; auto|].
        f_equal. unfold mark in *. destruct (Nat.leb _ _); inversion A; subst; [reflexivity|]. inversion H4; subst; reflexivity.
      Qed.
      Lemma in_sequence main ts : forall i, included (image_of (sequence main i (map (denotes_term D) ts))) (sequence main i (map (denotes_term I) ts)).
      Proof.
        induction ts as [|t ts IH]; intros i w' (w & H & Sx); inversion H; subst; [inversion Sx; subst; constructor|].
        apply subst_split in Sx as (a & b & -> & A & B). specialize (IH (Datatypes.S i) b (ex_intro _ w0 (conj H5 B))).
        assert (X : exists u', a = (if i =? main then u' else clear u') /\ denotes_term I t u').
        { destruct (i =? main).
          - exists a. split; [reflexivity|]. destruct t as [r|p]; cbn in *; [exists u; auto|apply in_one; exists u; auto].
          - apply subst_clear_inv in A as (u' & A & ->). exists u'. split; [reflexivity|].
            destruct t as [r|p]; cbn in *; [exists u; auto|apply in_one; exists u; auto]. }
        destruct X as (u' & -> & X). cbn. constructor; auto.
      Qed.
      Lemma in_many (l : language) rev : included (image_of (many l rev)) (many (image_of l) rev).
      Proof.
        intros w' (w & H & Sx). revert w' Sx. induction H as [u Hu|u w Hu Hw IH]; intros w' Sx;
          apply subst_keep_inv in Sx as (v & -> & Sx); try discriminate.
        - constructor. exists u. auto.
        - apply subst_split in Sx as (a & b & -> & A & B). apply subst_clear_inv in B as (b' & B & ->). constructor; [exists u; auto|]. auto.
      Qed.
      Lemma in_at_most (l : language) rev n : included (image_of (at_most l rev n)) (at_most (image_of l) rev n).
      Proof.
        intros w' (w & H & Sx). revert w' Sx. induction H as [u Hu|n u Hu|n u w Hu Hw IH]; intros w' Sx.
        - constructor. exists u. auto.
        - apply subst_keep_inv in Sx as (v & -> & Sx); try discriminate. constructor. exists u. auto.
        - apply subst_keep_inv in Sx as (v & -> & Sx); try discriminate.
          apply subst_split in Sx as (a & b & -> & A & B). apply subst_clear_inv in B as (b' & B & ->). constructor; [exists u; auto|]. auto.
      Qed.
      Lemma in_times (l r : language) n : included (image_of (times l r n)) (times (image_of l) (image_of r) n).
      Proof.
        intros w' (w & H & Sx). revert w' Sx. induction H as [u Hu|n u w Hu Hw IH]; intros w' Sx.
        - constructor. exists u. auto.
        - apply subst_split in Sx as (a & b & -> & A & B). apply subst_clear_inv in B as (b' & B & ->). constructor; [exists u; auto|]. auto.
      Qed.
      Lemma in_any (l : language) rr ro : included (image_of (any l rr ro)) (any (image_of l) rr ro).
      Proof.
        intros w' (w & H & Sx). revert w' Sx. induction H as [|u Hu|u w Hu Hw IH]; intros w' Sx;
          apply subst_keep_inv in Sx as (v & -> & Sx); try discriminate.
        - inversion Sx; subst. constructor.
        - constructor. exists u. auto.
        - apply subst_split in Sx as (a & b & -> & A & B). apply subst_clear_inv in B as (b' & B & ->). constructor; [exists u; auto|]. auto.
      Qed.
      Lemma bracket_inv a u w' : subst S (bracket a u) w' -> exists u', w' = bracket a u' /\ subst S u u'.
      Proof.
        destruct a as [a|]; cbn; intros H; [|eauto]. apply subst_keep_inv in H as (v & -> & H); [|discriminate].
        apply subst_split in H as (x & y & -> & A & B). exists x. split; [|exact A]. f_equal. f_equal.
        inversion B; subst. inversion H3; subst. reflexivity.
      Qed.
      Lemma in_around a (l : language) : included (image_of (around a l)) (around a (image_of l)).
      Proof. intros w' (w & (u & Hu & ->) & Sx). apply bracket_inv in Sx as (u' & -> & Sx). exists u'. split; [exists u; auto|reflexivity]. Qed.
      Lemma in_line key ps : included (image_of (line key ps)) (line key ps).
      Proof.
        intros w' (w & (u & Hu & ->) & Sx). apply subst_keep_inv in Sx as (v & -> & Sx); [|discriminate].
        assert (G : forall i u v, sequence 0 i (map one_predicate ps) u -> subst S u v -> v = u).
        { clear. induction ps as [|p ps IH]; intros i u v H Sx; inversion H; subst; [inversion Sx; reflexivity|].
          apply subst_split in Sx as (a & b & -> & A & B). rewrite (IH _ _ _ H5 B). f_equal. unfold one_predicate in H3. subst.
          destruct (i =? 0); inversion A as [|? ? ? ? X|]; subst; inversion X; subst; reflexivity. }
        rewrite (G _ _ _ Hu Sx). exists u. auto.
      Qed.

      Lemma denotes_back (o : obj) : is_forward o = false -> included (image_of (denotes D o)) (denotes I o).
      Proof.
        intros F. destruct o as [ps|rs|r rev|r rev|r rr ro|r m rev|r m rev|r m n rev|r n|r i|r rel|d| |pl|ps a|b ps a|ts m| |k ps]; cbn [RuleSpec.denotes]; try discriminate.
        - apply in_alternatives.
        - apply in_alternatives.
        - intros w' (w & [->|(u & Hu & ->)] & Sx); apply subst_keep_inv in Sx as (v & -> & Sx); try discriminate.
          + inversion Sx; subst. left. reflexivity.
          + right. exists v. split; [exists u; auto|reflexivity].
        - apply in_many.
        - apply in_any.
        - intros w H. apply in_times in H. revert H. apply times_mono; [intros v E; exact E|]. apply in_many.
        - apply in_at_most.
        - intros w H. apply in_times in H. revert H. apply times_mono; [intros v E; exact E|]. apply in_at_most.
        - apply in_around.
        - apply in_around.
        - apply in_around.
        - intros w' (w & -> & Sx). inversion Sx. reflexivity.
        - intros w' (w & (b & k & ps & E & Hi & H) & Sx). exists b, k, ps. split; [exact E|]. split; [exact Hi|]. apply in_line. exists w. auto.
        - intros w' H. apply in_around in H as (u & H & ->). exists u. split; [apply in_alternatives, H|reflexivity].
        - intros w' H. apply in_around in H as (u & (x & (q & Hq & Hx) & Sx) & ->). exists u. split; [|reflexivity]. exists q. split; [exact Hq|].
          exists x. auto.
        - apply in_sequence.
        - intros w' (w & -> & Sx). inversion Sx. reflexivity.
        - apply in_line.
      Qed.
    End Out.
  End Subst.

  (** ** Making opaque forward rules transparent *)
  Lemma subst_limit (S : nat -> nat -> language) : (forall n m f, n <= m -> included (S n f) (S m f)) ->
    forall w w', subst (fun f u => exists n, S n f u) w w' -> exists n, subst (S n) w w'.
  Proof.
    intros up w w' H. induction H as [|s w w' N H [n IH]|f b u w w' [m Hu] H [n IH]]; [exists 0; constructor|exists n; constructor; auto|].
    exists (Nat.max m n). constructor; [revert Hu; apply up; lia|]. revert IH. apply subst_mono. intros g. apply up. lia.
  Qed.
  Lemma subst_identity (S : nat -> language) (w : word) : (forall f, S f [SForward f true]) -> subst S w w.
  Proof.
    intros H. induction w as [|s w IH]; [constructor|]. destruct s; try (apply subst_keep; [discriminate|exact IH]).
    destruct head; [apply (subst_forward S f true [SForward f true])|apply (subst_forward S f false [SForward f true])]; auto.
  Qed.

  Section Expand.
    Variables opaque opaque' : nat -> bool.
    Hypothesis fewer : forall p, opaque' p = true -> opaque p = true.
    (** The words that definitions denote. *)
    Variable B : nat -> language.
    Fixpoint expand (n : nat) (f : nat) : language :=
      match n with
      | O => fun _ => False
      | S n' => if opaque' f then fun u => u = [SForward f true]
                else fun u' => exists u, B f u /\ subst (expand n') u u'
      end.
    Lemma expand_up n : forall m f, n <= m -> included (expand n f) (expand m f).
    Proof.
      induction n as [|n IH]; intros [|m] f L w H; [destruct H|destruct H|lia|]. cbn [expand] in *.
      destruct (opaque' f); [exact H|]. destruct H as (u & Hu & Su). exists u. split; [exact Hu|]. revert Su. apply subst_mono.
      intros g. apply IH. lia.
    Qed.
    Definition expanded (f : nat) : language := fun w => exists n, expand n f w.
    Lemma expanded_opaque f : opaque' f = true -> expanded f [SForward f true].
    Proof. intros E. exists 1. cbn. rewrite E. reflexivity. Qed.
    Lemma expanded_def f u u' : opaque' f = false -> B f u -> subst expanded u u' -> expanded f u'.
    Proof.
      intros E H Su. apply (subst_limit expand) in Su; [|intros n m g L; apply expand_up, L]. destruct Su as [n Su].
      exists (S n). cbn. rewrite E. exists u. auto.
    Qed.
  End Expand.
  Definition definitions opaque (h : heap) (f : nat) : language :=
    fun u => exists r, nth_error h f = Some (OForward (Some r)) /\ open_words opaque h r u.
  Lemma expand_B opaque' (B B' : nat -> language) : (forall f, opaque' f = false -> included (B f) (B' f)) ->
    forall n f, included (expand opaque' B n f) (expand opaque' B' n f).
  Proof.
    intros I. induction n as [|n IH]; intros f w H; [exact H|]. cbn [expand] in *. destruct (opaque' f) eqn:E; [exact H|].
    destruct H as (u & Hu & Su). exists u. split; [apply I; auto|]. revert Su. apply subst_mono, IH.
  Qed.
  Theorem open_words_expand opaque opaque' (h : heap) : (forall p, opaque' p = true -> opaque p = true) ->
    forall p, same (open_words opaque' h p)
                   (image (expanded opaque' (definitions opaque h)) (open_words opaque h) p).
  Proof.
    intros fewer p. set (B := definitions opaque h). set (X := expanded opaque' B). intros w. split; revert w.
    - revert p. apply open_words_least. intros p w (o & E & H).
      destruct (is_forward o) eqn:F; cbn [andb] in H.
      + destruct o as [| | | | | | | | | | |d| | | | | | |]; try discriminate. destruct (opaque' p) eqn:Q'.
        * subst w. exists [SForward p true]. split; [apply (open_words_opaque opaque h p d E); auto|].
          apply (subst_forward X p true [SForward p true] [] []); [apply expanded_opaque, Q'|constructor].
        * destruct d as [r|]; [|destruct H]. destruct H as (u & Hu & Su). destruct (opaque p) eqn:Q.
          -- exists [SForward p true]. split; [apply (open_words_opaque opaque h p _ E Q); reflexivity|].
             rewrite <- (app_nil_r w). apply (subst_forward X p true w [] []); [|constructor].
             apply (expanded_def opaque' B p u w Q'); [exists r; auto|exact Su].
          -- exists u. split; [apply (open_words_forward opaque h p r E Q), Hu|exact Su].
      + apply denotes_out in H; [|exact F]. destruct H as (u & Hu & Su). exists u. split; [|exact Su].
        apply (open_words_obj opaque h p o E F), Hu.
    - (* words of opaque, expanded *)
      assert (G : forall S : nat -> language, (forall f d, nth_error h f = Some (OForward d) -> included (S f) (open_words opaque' h f)) ->
                  forall n p w, words_in opaque h n p w -> forall w', subst S w w' -> open_words opaque' h p w').
      { intros S HS. induction n as [|n IH]; intros q w H w' Sw; [destruct H|]. cbn [RuleSpec.words_in] in H.
        destruct (nth_error h q) as [o|] eqn:E; [|destruct H]. destruct (is_forward o && opaque q) eqn:F.
        - subst w. inversion Sw as [|? ? ? N _|f b u ? w0 Hu S0]; subst; [exfalso; eapply N; reflexivity|].
          inversion S0; subst. rewrite app_nil_r. apply andb_true_iff in F as [F _].
          destruct o as [| | | | | | | | | | |d| | | | | | |]; try discriminate. apply (HS _ d E), Hu.
        - destruct (is_forward o) eqn:F'.
          + cbn in F. destruct o as [| | | | | | | | | | |d| | | | | | |]; try discriminate.
            assert (Q' : opaque' q = false) by (destruct (opaque' q) eqn:Q; [rewrite (fewer q Q) in F; discriminate|reflexivity]).
            destruct d as [r|]; [|destruct H]. apply (open_words_forward opaque' h q r E Q'). apply (IH r w H w' Sw).
          + apply (open_words_obj opaque' h q o E F').
            assert (K : denotes (image S (words_in opaque h n)) o w').
            { apply denotes_back; [exact F'|]. exists w. auto. }
            revert K. apply denotes_mono. intros c v (x & Hx & Sx). apply (IH c x Hx v Sx). }
      assert (K : forall n f d, nth_error h f = Some (OForward d) -> included (expand opaque' B n f) (open_words opaque' h f)).
      { induction n as [|n IH]; intros f d E w H; [destruct H|]. cbn [expand] in H.
        destruct (opaque' f) eqn:Q'; [subst w; apply (open_words_opaque opaque' h f d E Q'); reflexivity|].
        destruct H as (u & (r & E' & n' & Hu) & Su). apply (open_words_forward opaque' h f r E' Q').
        apply (G (expand opaque' B n) IH n' r u Hu w Su). }
      intros w' (w & (n & Hw) & Sw). apply (G X) with (n := n) (w := w); [|exact Hw|exact Sw].
      intros f d E v (m & Hm). apply (K m f d E v Hm).
  Qed.

  Lemma image_mono (S S' D D' : nat -> language) p : (forall f, included (S f) (S' f)) -> included (D p) (D' p) ->
    included (image S D p) (image S' D' p).
  Proof. intros I I' w (u & Hu & Su). exists u. split; [apply I', Hu|]. revert Su. apply subst_mono, I. Qed.
  (** Rules with the same words have the same words when less is opaque. *)
  Lemma same_fewer opaque opaque' (h : heap) p r : (forall q, opaque' q = true -> opaque q = true) ->
    same (open_words opaque h p) (open_words opaque h r) -> same (open_words opaque' h p) (open_words opaque' h r).
  Proof.
    intros F H w. rewrite (open_words_expand opaque opaque' h F p w), (open_words_expand opaque opaque' h F r w).
    split; intros (u & Hu & Su); exists u; (split; [apply H, Hu|exact Su]).
  Qed.
  (** Objects look the same except for the definitions of opaque forward rules. *)
  Definition alike (opaque : nat -> bool) (h h' : heap) : Prop :=
    forall p o, nth_error h p = Some o ->
    exists o', nth_error h' p = Some o' /\ (if is_forward o && opaque p then is_forward o' = true else o' = o).
  Lemma alike_included opaque (h h' : heap) : alike opaque h h' -> forall p, included (open_words opaque h p) (open_words opaque h' p).
  Proof.
    intros A. apply open_words_least. intros p w (o & E & H). destruct (A p o E) as (o' & E' & K).
    destruct (is_forward o && opaque p) eqn:F.
    - destruct o' as [| | | | | | | | | | |d| | | | | | |]; try discriminate. apply andb_true_iff in F as [_ F].
      apply (open_words_opaque opaque h' p d E' F), H.
    - subst o'. apply (open_words_step opaque h' p w). exists o. split; [exact E'|]. rewrite F. exact H.
  Qed.
  (** Changing the definition of a forward rule to one with the same words. *)
  Lemma redefine opaque opaque' (h : heap) f r0 r1 :
    (forall q, opaque' q = true -> opaque q = true) -> opaque f = true ->
    nth_error h f = Some (OForward (Some r0)) -> same (open_words opaque h r0) (open_words opaque h r1) ->
    forall p, same (open_words opaque' h p) (open_words opaque' (setitem h f (OForward (Some r1))) p).
  Proof.
    intros F Of E H p. set (h' := setitem h f (OForward (Some r1))).
    assert (Ef : nth_error h' f = Some (OForward (Some r1))).
    { unfold h'. apply setitem_same. apply nth_error_Some. rewrite E. discriminate. }
    assert (Eo : forall q, q <> f -> nth_error h' q = nth_error h q) by (intros q N; apply setitem_other; auto).
    assert (A : alike opaque h h').
    { intros q o Eq. destruct (Nat.eq_dec q f) as [->|N].
      - rewrite E in Eq. injection Eq as <-. eexists. split; [exact Ef|]. cbn. rewrite Of. reflexivity.
      - exists o. rewrite (Eo q N). split; [exact Eq|]. destruct (is_forward o && opaque q) eqn:K; [|reflexivity].
        apply andb_true_iff in K as [K _]. exact K. }
    assert (A' : alike opaque h' h).
    { intros q o Eq. destruct (Nat.eq_dec q f) as [->|N].
      - rewrite Ef in Eq. injection Eq as <-. eexists. split; [exact E|]. cbn. rewrite Of. reflexivity.
      - exists o. rewrite <- (Eo q N). split; [exact Eq|]. destruct (is_forward o && opaque q) eqn:K; [|reflexivity].
        apply andb_true_iff in K as [K _]. exact K. }
    assert (W : forall q, same (open_words opaque h q) (open_words opaque h' q)).
    { intros q w. split; apply alike_included; assumption. }
    intros w. rewrite (open_words_expand opaque opaque' h F p w), (open_words_expand opaque opaque' h' F p w).
    assert (D : forall g, same (definitions opaque h g) (definitions opaque h' g)).
    { intros g u. unfold definitions. destruct (Nat.eq_dec g f) as [->|N].
      - rewrite E, Ef. split; intros (r & Er & Hr); injection Er as <-; eexists; (split; [reflexivity|]).
        + apply W, H, Hr.
        + apply H, W, Hr.
      - rewrite (Eo g N). split; intros (r & Er & Hr); exists r; (split; [exact Er|]); apply W; exact Hr. }
    split; apply image_mono; try (intros v; apply W); intros g v (n & Hn); exists n; revert Hn; apply expand_B; intros k _ x; apply D.
  Qed.

  (** Words of a closed set of objects do not depend on the rest of the heap. *)
  Lemma closed_included opaque (h h' : heap) (G : nat -> Prop) :
    (forall p, G p -> exists o, nth_error h p = Some o /\ nth_error h' p = Some o /\ forall c, In c (children o) -> G c) ->
    forall p, G p -> included (open_words opaque h p) (open_words opaque h' p).
  Proof.
    intros C p Gp w H. revert p w H Gp.
    enough (K : forall p, included (open_words opaque h p) (fun w => G p -> open_words opaque h' p w)) by (intros; apply K; auto).
    apply open_words_least. intros p w (o & E & H) Gp. destruct (C p Gp) as (o' & E1 & E2 & Hc).
    rewrite E in E1. injection E1 as <-. apply (open_words_step opaque h' p w). exists o. split; [exact E2|].
    destruct (is_forward o && opaque p); [exact H|]. revert H. apply denotes_in. intros c Ic v Hv. apply Hv, Hc, Ic.
  Qed.
  Lemma closed_same opaque (h h' : heap) (G : nat -> Prop) :
    (forall p, G p -> exists o, nth_error h p = Some o /\ nth_error h' p = Some o /\ forall c, In c (children o) -> G c) ->
    forall p, G p -> same (open_words opaque h p) (open_words opaque h' p).
  Proof.
    intros C p Gp w. split; apply (closed_included opaque _ _ G); auto.
    intros q Gq. destruct (C q Gq) as (o & A & B & D). exists o. auto.
  Qed.
End Words.
