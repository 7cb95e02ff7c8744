(** Words without the marks of choices and heads, and rules whose forward rules are left open. *)
From Verif Require Import Base EarleyModel RuleModel RuleSpec RuleWords RuleCount.
Open Scope nat_scope.

Section Open.
  Context {pred pipe bnf : Type}.
  Notation obj := (obj pred pipe bnf).
  Notation heap := (heap pred pipe bnf).
  Notation word := (@word pred).
  Notation symbol := (@symbol pred).
  Notation language := (@language pred).
  Variable pipe_bnf : pipe -> res bnf.
  Variable bnf_lines : bnf -> list (str * list pred).
  Variable kd : kind.
  Notation denotes := (denotes pipe_bnf bnf_lines kd).
  Notation rule_words := (rule_words pipe_bnf bnf_lines kd).
  Notation words_in := (words_in pipe_bnf bnf_lines kd).

  (** No choices, no heads. *)
  Definition erase_symbol (s : symbol) : word := match s with SAlt _ => [] | s => [clear_symbol s] end.
  Definition erase (w : word) : word := flat_map erase_symbol w.
  Definition erased (l : language) : language := fun w => exists u, l u /\ w = erase u.

  Lemma erase_app u w : erase (u ++ w) = erase u ++ erase w.
  Proof. apply flat_map_app. Qed.
  Lemma erase_clear w : erase (clear w) = erase w.
  Proof. induction w as [|s w IH]; [reflexivity|]. unfold erase in *. destruct s; cbn; try exact IH; f_equal; exact IH. Qed.
  Lemma erase_bracket a w : erase (bracket a w) = bracket a (erase w).
  Proof. destruct a; cbn; [|reflexivity]. rewrite erase_app. reflexivity. Qed.
  Lemma erase_mark n i w : erase (mark n i ++ w) = erase w.
  Proof. rewrite erase_app. unfold mark. destruct (n <=? 1); reflexivity. Qed.

  (** How many occurrences a quantifier takes. *)
  Definition count (o : obj) (n : nat) : Prop :=
    match o with
    | OOptional _ _ => n <= 1
    | ORepeatable _ _ => 1 <= n
    | ORepOpt _ _ _ => True
    | OMin _ m _ => m - 1 < n
    | OMax _ m _ => 1 <= n <= m
    | OMinMax _ m k _ => m - 1 < n <= (m - 1) + (k - m + 1)
    | _ => False
    end.
  Inductive in_order (D : nat -> language) : list (term pred) -> language :=
  | in_order_nil : in_order D [] []
  | in_order_pred p ts w : in_order D ts w -> in_order D (TPred p :: ts) (SPred p false :: w)
  | in_order_rule r ts u w : D r u -> in_order D ts w -> in_order D (TRule r :: ts) (u ++ w).
  Definition one_of (D : nat -> language) (ps : list nat) : language := fun w => exists q, In q ps /\ D q w.
  Definition said (key : str) (ps : list pred) : word := SLine key :: map (fun p => SPred p false) ps.
  (** What an object that is no forward rule says, given what the objects it refers to say. *)
  Definition says (D : nat -> language) (o : obj) : language :=
    match o with
    | ORule ps | OOr ps => one_of D ps
    | OOptional r _ | ORepeatable r _ | ORepOpt r _ _ | OMin r _ _ | OMax r _ _ | OMinMax r _ _ _ => counts (count o) (D r)
    | ONamed r n => around (shown_name kd n) (D r)
    | OInterp r i => around (shown_interp kd i) (D r)
    | ORelation r rel => around (shown_relation kd rel) (D r)
    | OForward _ => fun _ => False
    | OEmpty | OEmptyProd => fun w => w = []
    | OPipeline p => fun w => exists b key ps, pipe_bnf p = Ok b /\ In (key, ps) (bnf_lines b) /\ w = said key ps
    | OBNF ps a => around (shown kd a) (one_of D ps)
    | OPipeBNF _ ps a => around (shown kd a) (one_of D ps)
    | OProd ts _ => in_order D ts
    | OPipeProd key ps => fun w => w = said key ps
    end.

  Lemma one_of_mono (D D' : nat -> language) ps : (forall p, In p ps -> included (D p) (D' p)) -> included (one_of D ps) (one_of D' ps).
  Proof. intros H w (q & Hq & W). exists q. split; [exact Hq|]. apply (H q Hq w W). Qed.
  Lemma in_order_mono (D D' : nat -> language) ts : (forall p, In p (rule_terms ts) -> included (D p) (D' p)) -> included (in_order D ts) (in_order D' ts).
  Proof.
    intros H w K. induction K as [|p ts w K IH|r ts u w Hu K IH].
    - constructor.
    - constructor. apply IH. intros q Hq. apply H. exact Hq.
    - constructor; [apply (H r (or_introl eq_refl)), Hu|]. apply IH. intros q Hq. apply H. right. exact Hq.
  Qed.
  Lemma says_in (D D' : nat -> language) (o : obj) : (forall p, In p (children o) -> included (D p) (D' p)) -> included (says D o) (says D' o).
  Proof.
    intros H. assert (C : forall Q r, included (D r) (D' r) -> included (counts Q (D r)) (counts Q (D' r))) by (intros Q r Hr; exact (counts_mono Q (D r) (D' r) Hr)).
    destruct o; cbn [says children] in *; try (apply C, (H _ (or_introl eq_refl))); try (apply around_mono, (H _ (or_introl eq_refl))); try (intros w K; exact K).
    - apply one_of_mono, H.
    - apply one_of_mono, H.
    - apply around_mono, one_of_mono, H.
    - apply around_mono, one_of_mono, H.
    - apply in_order_mono, H.
  Qed.

  (** ** Erased words of objects *)
  Lemma erased_mono (l l' : language) : included l l' -> included (erased l) (erased l').
  Proof. intros I w (u & H & ->). exists u. auto. Qed.
  Lemma erased_around a (l : language) : same (erased (around a l)) (around a (erased l)).
  Proof.
    intros w. split.
    - intros (u & (v & H & ->) & ->). exists (erase v). split; [exists v; auto|apply erase_bracket].
    - intros (u & (v & H & ->) & ->). exists (bracket a v). split; [exists v; auto|symmetry; apply erase_bracket].
  Qed.
  Lemma erased_alternatives (D : nat -> language) ps : same (erased (alternatives (map D ps))) (one_of (fun p => erased (D p)) ps).
  Proof.
    intros w. split.
    - intros (u & (i & l & v & E & H & ->) & ->). rewrite erase_mark. apply nth_error_In, in_map_iff in E as (q & <- & Hq). exists q. split; [exact Hq|]. exists v. auto.
    - intros (q & Hq & u & H & ->). apply In_nth_error in Hq as (i & E). exists (mark (length (map D ps)) i ++ u). split; [|symmetry; apply erase_mark].
      exists i, (D q), u. split; [apply map_nth_error, E|]. auto.
  Qed.
  Lemma reps_erased (l : language) rest n w : erased (times l rest n) w <-> exists u v, reps (erased l) n u /\ erased rest v /\ w = u ++ v.
  Proof.
    split.
    - intros (x & K & ->). induction K as [w H|n u w Hu K (a & b & Ra & Rb & E)].
      + exists [], (erase w). split; [constructor|]. split; [exists w; auto|reflexivity].
      + exists (erase u ++ a), b. split; [constructor; [exists u; auto|exact Ra]|]. split; [exact Rb|]. rewrite erase_app, erase_clear, E. apply app_assoc.
    - intros (u & v & R & (x & Hx & ->) & ->). induction R as [|n us ts (y & Hy & ->) R (z & Kz & E)].
      + exists x. split; [constructor; exact Hx|reflexivity].
      + exists (y ++ clear z). split; [constructor; assumption|]. rewrite erase_app, erase_clear, <- E, app_assoc. reflexivity.
  Qed.
  Lemma erased_many (l : language) rev : same (erased (many l rev)) (counts (fun n => 1 <= n) (erased l)).
  Proof.
    intros w. split.
    - intros (x & K & ->). induction K as [u H|u w Hu K (n & L & R)].
      + exists 1. split; [lia|]. cbn. rewrite <- app_nil_r. constructor; [exists u; auto|constructor].
      + exists (S n). split; [lia|]. cbn. rewrite erase_app, erase_clear. constructor; [exists u; auto|exact R].
    - intros (n & L & R). destruct n as [|n]; [lia|]. clear L. revert w R. induction n as [|n IH]; intros w R; inversion R as [|? us ts (u & Hu & ->) R']; subst.
      + inversion R'; subst. exists (SAlt (stop rev) :: u). split; [constructor; exact Hu|]. cbn. apply app_nil_r.
      + destruct (IH ts R') as (x & K & ->). exists (SAlt (go_on rev) :: u ++ clear x). split; [constructor; assumption|]. cbn. rewrite erase_app, erase_clear. reflexivity.
  Qed.
  Lemma erased_at_most (l : language) rev m : same (erased (at_most l rev m)) (counts (fun n => 1 <= n <= m) (erased l)).
  Proof.
    intros w. split.
    - intros (x & K & ->). induction K as [u H|m u H|m u w Hu K (n & L & R)].
      + exists 1. split; [lia|]. rewrite <- app_nil_r. constructor; [exists u; auto|constructor].
      + exists 1. split; [lia|]. cbn. rewrite <- app_nil_r. constructor; [exists u; auto|constructor].
      + exists (S n). split; [lia|]. cbn. rewrite erase_app, erase_clear. constructor; [exists u; auto|exact R].
    - intros (n & L & R). destruct n as [|n]; [lia|]. revert m L w R. induction n as [|n IH]; intros m L w R; inversion R as [|? us ts (u & Hu & ->) R']; subst.
      + inversion R'; subst. destruct m as [|[|m]]; [lia| |].
        * exists u. split; [constructor; exact Hu|apply app_nil_r].
        * exists (SAlt (stop rev) :: u). split; [constructor; exact Hu|]. cbn. apply app_nil_r.
      + destruct m as [|[|m]]; [lia|lia|]. destruct (IH (S m) ltac:(lia) ts R') as (x & K & ->). exists (SAlt (go_on rev) :: u ++ clear x).
        split; [constructor; assumption|]. cbn. rewrite erase_app, erase_clear. reflexivity.
  Qed.
  Lemma erased_maybe (l : language) rev : same (erased (maybe l rev)) (counts (fun n => n <= 1) (erased l)).
  Proof.
    intros w. split.
    - intros (x & [->|(u & H & ->)] & ->); [exists 0; split; [lia|constructor]|]. exists 1. split; [lia|]. cbn. rewrite <- app_nil_r. constructor; [exists u; auto|constructor].
    - intros (n & L & R). destruct n as [|[|n]]; [| |lia]; inversion R as [|? us ts (u & Hu & ->) R']; subst.
      + eexists. split; [left; reflexivity|reflexivity].
      + inversion R'; subst. eexists. split; [right; exists u; split; [exact Hu|reflexivity]|]. cbn. apply app_nil_r.
  Qed.
  Lemma erased_any (l : language) rr ro : same (erased (any l rr ro)) (counts (fun _ => True) (erased l)).
  Proof.
    intros w. split.
    - intros (x & K & ->). induction K as [|u H|u w Hu K (n & _ & R)].
      + exists 0. split; [exact Logic.I|constructor].
      + exists 1. split; [exact Logic.I|]. cbn. rewrite <- app_nil_r. constructor; [exists u; auto|constructor].
      + exists (S n). split; [exact Logic.I|]. cbn. rewrite erase_app, erase_clear. constructor; [exists u; auto|exact R].
    - intros (n & _ & R). revert w R. induction n as [|n IH]; intros w R; inversion R as [|? us ts (u & Hu & ->) R']; subst.
      + eexists. split; [apply any_none|reflexivity].
      + destruct (IH ts R') as (x & K & ->). eexists. split; [apply any_more; eassumption|]. cbn. rewrite erase_app, erase_clear. reflexivity.
  Qed.
  Lemma erased_times (l rest : language) (Q : nat -> Prop) k : same (erased rest) (counts Q (erased l)) ->
    same (erased (times l rest k)) (counts (fun n => exists j, Q j /\ n = k + j) (erased l)).
  Proof.
    intros H w. rewrite reps_erased. split.
    - intros (u & v & R & K & ->). apply H in K as (j & q & R'). exists (k + j). split; [eauto|]. apply reps_app; assumption.
    - intros (n & (j & q & ->) & R). apply reps_split in R as (u & v & -> & R & R'). exists u, v. split; [exact R|]. split; [apply H; exists j; auto|reflexivity].
  Qed.
  Lemma erased_line key ps : same (erased (line key ps)) (fun w => w = said key ps).
  Proof.
    assert (K : forall ps i main u, sequence main i (map one_predicate ps) u -> erase u = map (fun p => SPred p false) ps).
    { clear. induction ps as [|p ps IH]; intros i main u K; inversion K as [|? l ls v w Hv K']; subst; [reflexivity|]. red in Hv. subst v.
      rewrite erase_app, (IH _ _ _ K'). destruct (Nat.eqb i main); reflexivity. }
    assert (X : forall ps i main, exists u, sequence (pred := pred) main i (map one_predicate ps) u).
    { clear. induction ps as [|p ps IH]; intros i main; [eexists; constructor|]. destruct (IH (S i) main) as (u & Hu). eexists. cbn. constructor; [reflexivity|exact Hu]. }
    intros w. split.
    - intros (u & (v & Hv & ->) & ->). cbn. unfold said. f_equal. apply (K ps 0 0 v Hv).
    - intros ->. destruct (X ps 0 0) as (u & Hu). exists (SLine key :: u). split; [exists u; auto|]. cbn. unfold said. f_equal. symmetry. apply (K ps 0 0 u Hu).
  Qed.
  Lemma erased_sequence (D : nat -> language) main ts : forall i, same (erased (sequence main i (map (denotes_term D) ts))) (in_order (fun p => erased (D p)) ts).
  Proof.
    induction ts as [|t ts IH]; intros i w; split.
    - intros (u & K & ->). inversion K; subst. constructor.
    - intros K. inversion K; subst. exists []. split; constructor.
    - intros (x & K & ->). cbn in K. inversion K as [|? l ls u v Hu K']; subst. assert (T := proj1 (IH (S i) (erase v)) (ex_intro _ v (conj K' eq_refl))).
      rewrite erase_app. destruct (Nat.eqb i main); rewrite ?erase_clear; (destruct t as [r|p]; cbn in Hu; [constructor; [exists u; auto|exact T]|red in Hu; subst u; cbn; constructor; exact T]).
    - intros K. inversion K as [|p ts' w' K'|r ts' u w' Hu K']; subst.
      + apply (IH (S i)) in K' as (v & K' & ->). cbn [map denotes_term]. eexists. split; [constructor; [reflexivity|exact K']|]. rewrite erase_app. destruct (Nat.eqb i main); reflexivity.
      + apply (IH (S i)) in K' as (v & K' & ->). destruct Hu as (x & Hx & ->). cbn [map denotes_term]. eexists. split; [constructor; [exact Hx|exact K']|]. rewrite erase_app.
        destruct (Nat.eqb i main); rewrite ?erase_clear; reflexivity.
  Qed.
  Theorem erased_denotes (D : nat -> language) (o : obj) : is_forward o = false -> same (erased (denotes D o)) (says (fun p => erased (D p)) o).
  Proof.
    intros F. destruct o; try discriminate; cbn [RuleSpec.denotes says].
    - apply erased_alternatives.
    - apply erased_alternatives.
    - apply erased_maybe.
    - apply erased_many.
    - apply erased_any.
    - eapply same_trans; [apply (erased_times _ _ (fun n => 1 <= n)), erased_many|]. intros w. apply counts_sets. intros n. cbn [count]. split; [intros (j & L & ->); lia|intros L; exists (n - (min - 1)); lia].
    - apply erased_at_most.
    - eapply same_trans; [apply (erased_times _ _ (fun n => 1 <= n <= max - min + 1)), erased_at_most|]. intros w. apply counts_sets. intros n. cbn [count].
      split; [intros (j & L & ->); lia|intros L; exists (n - (min - 1)); lia].
    - apply erased_around.
    - apply erased_around.
    - apply erased_around.
    - intros w. split; [intros (u & -> & ->); reflexivity|intros ->; exists []; auto].
    - intros w. split.
      + intros (u & (b & key & ps & E & Hin & L) & ->). exists b, key, ps. split; [exact E|]. split; [exact Hin|]. apply erased_line. exists u. auto.
      + intros (b & key & ps & E & Hin & ->). destruct (proj2 (erased_line key ps (said key ps)) eq_refl) as (u & L & ->). exists u. split; [exists b, key, ps; auto|reflexivity].
    - eapply same_trans; [apply erased_around|]. intros w. split; apply around_mono; intros u; apply erased_alternatives.
    - eapply same_trans; [apply erased_around|]. intros w. split; apply around_mono; intros u.
      + intros (v & (q & Hq & Hv) & ->). exists q. split; [exact Hq|]. exists v. auto.
      + intros (q & Hq & v & Hv & ->). exists v. split; [exists q; auto|reflexivity].
    - apply erased_sequence.
    - intros w. split; [intros (u & -> & ->); reflexivity|intros ->; exists []; auto].
    - apply erased_line.
  Qed.

  (** ** Rules with open forward rules *)
  Section Heap.
    Variable E : nat -> language.
    Variable h : heap.
    Fixpoint level (n p : nat) : language :=
      match n with
      | O => fun _ => False
      | S n' => match nth_error h p with Some o => if is_forward o then E p else says (level n') o | None => fun _ => False end
      end.
    Definition open (p : nat) : language := fun w => exists n, level n p w.
    Lemma level_up n : forall m p, n <= m -> included (level n p) (level m p).
    Proof.
      induction n as [|n IH]; intros m p L w H; [destruct H|]. destruct m as [|m]; [lia|]. cbn [level] in *. destruct (nth_error h p) as [o|]; [|exact H].
      destruct (is_forward o); [exact H|]. revert H. apply says_in. intros q _. apply IH. lia.
    Qed.
    Lemma reps_limit (p : nat) k w : reps (open p) k w -> exists n, reps (level n p) k w.
    Proof.
      induction 1 as [|k u w (n & Hu) R (m & IH)]; [exists 0; constructor|]. exists (Nat.max n m). constructor; [revert Hu; apply level_up; lia|].
      revert IH. apply reps_mono. intros v. apply level_up. lia.
    Qed.
    Lemma in_order_limit ts w : in_order open ts w -> exists n, in_order (level n) ts w.
    Proof.
      induction 1 as [|p ts w K (n & IH)|r ts u w (n & Hu) K (m & IH)]; [exists 0; constructor|exists n; constructor; exact IH|].
      exists (Nat.max n m). constructor; [revert Hu; apply level_up; lia|]. revert IH. apply in_order_mono. intros v _. apply level_up. lia.
    Qed.
    Lemma says_limit (o : obj) w : says open o w -> exists n, says (level n) o w.
    Proof.
      assert (O : forall ps v, one_of open ps v -> exists n, one_of (level n) ps v) by (intros ps v (q & Hq & n & H); exists n, q; auto).
      assert (C : forall Q p v, counts Q (open p) v -> exists n, counts Q (level n p) v).
      { intros Q p v (k & q & R). apply reps_limit in R as (n & R). exists n, k. auto. }
      destruct o; cbn [says]; try apply C; try apply O; try (intros (u & (n & H) & ->); exists n, u; auto; fail); try (intros H; exists 0; exact H).
      - intros (u & H & ->). apply O in H as (n & H). exists n, u. auto.
      - intros (u & H & ->). apply O in H as (n & H). exists n, u. auto.
      - apply in_order_limit.
    Qed.
    Theorem open_obj p o : nth_error h p = Some o -> is_forward o = false -> same (open p) (says open o).
    Proof.
      intros Ep F w. split.
      - intros (n & H). destruct n as [|n]; [destruct H|]. cbn [level] in H. rewrite Ep, F in H. revert H. apply says_in. intros q _ v K. exists n. exact K.
      - intros H. apply says_limit in H as (n & H). exists (S n). cbn [level]. rewrite Ep, F. exact H.
    Qed.
    Theorem open_forward p d : nth_error h p = Some (OForward d) -> same (open p) (E p).
    Proof.
      intros Ep w. split.
      - intros (n & H). destruct n as [|n]; [destruct H|]. cbn [level] in H. rewrite Ep in H. exact H.
      - intros H. exists 1. cbn [level]. rewrite Ep. exact H.
    Qed.
  End Heap.

  (** Graphs of the same objects, forward rules aside. *)
  Lemma open_closed E (h h' : heap) (G : nat -> Prop) :
    (forall p, G p -> exists o, nth_error h p = Some o /\ (exists o', nth_error h' p = Some o' /\ (if is_forward o then is_forward o' = true else o' = o)) /\ forall c, In c (children o) -> G c) ->
    forall p, G p -> same (open E h p) (open E h' p).
  Proof.
    intros C. assert (K : forall n p, G p -> same (level E h n p) (level E h' n p)).
    { induction n as [|n IH]; intros p Gp; [intros w; reflexivity|]. cbn [level]. destruct (C p Gp) as (o & Eo & (o' & Eo' & S) & Cl). rewrite Eo, Eo'.
      destruct (is_forward o) eqn:F; [rewrite S; intros w; reflexivity|]. subst o'. rewrite F. intros w. split; apply says_in; intros c Hc v; apply (IH c (Cl c Hc)). }
    intros p Gp w. split; intros (n & H); exists n; apply (K n p Gp), H.
  Qed.

  (** The words of a rule, from outside in. *)
  Definition closed (h : heap) (p : nat) : language := erased (rule_words h p).
  Lemma closed_obj h p o : nth_error h p = Some o -> is_forward o = false -> same (closed h p) (says (closed h) o).
  Proof.
    intros Ep F. eapply same_trans; [|apply erased_denotes, F]. intros w. split; apply erased_mono; intros u; apply (open_words_obj pipe_bnf bnf_lines kd (fun _ => false) h p o Ep F).
  Qed.
  Lemma closed_forward h p r : nth_error h p = Some (OForward (Some r)) -> same (closed h p) (closed h r).
  Proof.
    intros Ep w. split; apply erased_mono; intros u (n & H).
    - destruct n as [|n]; [destruct H|]. cbn in H. rewrite Ep in H. exists n. exact H.
    - exists (S n). cbn. rewrite Ep. exact H.
  Qed.
  (** The words are the least ones that follow from the definitions of the forward rules. *)
  Theorem closed_least (h : heap) (X : nat -> language) : (forall f r, nth_error h f = Some (OForward (Some r)) -> included (open X h r) (X f)) ->
    forall p, included (closed h p) (open X h p).
  Proof.
    intros C p w (u & (n & H) & ->). revert p u H. induction n as [|n IH]; intros p u H; [destruct H|]. cbn [RuleSpec.words_in] in H. destruct (nth_error h p) as [o|] eqn:Ep; [|destruct H].
    rewrite andb_false_r in H. destruct (is_forward o) eqn:F.
    - destruct o as [| | | | | | | | | | |[r|]| | | | | | |]; try discriminate; [|destruct H]. cbn in H. apply (open_forward X h p _ Ep). apply (C p r Ep). apply IH, H.
    - apply (open_obj X h p o Ep F). assert (K : erased (denotes (words_in (fun _ => false) h n) o) (erase u)) by (exists u; auto).
      apply (erased_denotes _ o F) in K. revert K. apply says_in. intros c _ v (x & Hx & ->). apply IH, Hx.
  Qed.
  Theorem closed_open (h : heap) p : same (closed h p) (open (closed h) h p).
  Proof.
    assert (B : forall p, included (open (closed h) h p) (closed h p)).
    { clear p. intros p w (n & H). revert p w H. induction n as [|n IH]; intros p w H; [destruct H|]. cbn [level] in H. destruct (nth_error h p) as [o|] eqn:Ep; [|destruct H].
      destruct (is_forward o) eqn:F; [exact H|]. apply (closed_obj h p o Ep F). revert H. apply says_in. intros c _ v. apply IH. }
    intros w. split; [|apply B]. apply closed_least. intros f r Ef v Hv. apply (closed_forward h f r Ef), B, Hv.
  Qed.
  (** Redefining a forward rule by a rule that says the same. *)
  Theorem closed_redefine (h : heap) f r r' : nth_error h f = Some (OForward (Some r)) -> (forall E, same (open E h r) (open E h r')) ->
    forall p, same (closed h p) (closed (setitem h f (OForward (Some r'))) p).
  Proof.
    intros Ef L. set (h' := setitem h f (OForward (Some r'))).
    assert (Ef' : nth_error h' f = Some (OForward (Some r'))) by (apply setitem_same, nth_error_Some; congruence).
    assert (Eo : forall q, q <> f -> nth_error h' q = nth_error h q) by (intros q N; apply setitem_other; auto).
    assert (Op : forall E p, same (open E h p) (open E h' p)).
    { intros E. assert (K : forall n p, same (level E h n p) (level E h' n p)).
      { induction n as [|n IH]; intros p; [intros w; reflexivity|]. cbn [level]. destruct (Nat.eq_dec p f) as [->|N]; [rewrite Ef, Ef'; intros w; reflexivity|]. rewrite (Eo p N).
        destruct (nth_error h p) as [o|]; [|intros w; reflexivity]. destruct (is_forward o); [intros w; reflexivity|]. intros w. split; apply says_in; intros c _ v; apply IH. }
      intros p w. split; intros (n & H); exists n; apply K, H. }
    assert (Def : forall g q, nth_error h' g = Some (OForward (Some q)) -> g = f /\ q = r' \/ g <> f /\ nth_error h g = Some (OForward (Some q))).
    { intros g q Eg. destruct (Nat.eq_dec g f) as [->|N]; [left; rewrite Ef' in Eg; injection Eg as <-; auto|right; rewrite (Eo g N) in Eg; auto]. }
    intros p w. split.
    - intros H. apply (closed_open h' p), Op. revert w H. apply closed_least. intros g q Eg v Hv. destruct (Nat.eq_dec g f) as [->|N].
      + rewrite Ef in Eg. injection Eg as <-. apply (closed_forward h' f r' Ef'), (closed_open h' r'), Op, L, Hv.
      + rewrite <- (Eo g N) in Eg. apply (closed_forward h' g q Eg), (closed_open h' q), Op, Hv.
    - intros H. apply (closed_open h p), Op. revert w H. apply closed_least. intros g q Eg v Hv. destruct (Def g q Eg) as [[-> ->]|[N Eg']].
      + apply (closed_forward h f r Ef), (closed_open h r), L, Op, Hv.
      + apply (closed_forward h g q Eg'), (closed_open h q), Op, Hv.
  Qed.
End Open.
