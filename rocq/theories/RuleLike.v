(** Rules that are alike: the same words and the same forward rules used. *)
From Verif Require Import Base EarleyModel RuleModel RuleSpec RuleWords.
Open Scope nat_scope.

Section Like.
  Context {pred pipe bnf : Type}.
  Notation obj := (obj pred pipe bnf).
  Notation heap := (heap pred pipe bnf).
  Notation word := (@word pred).
  Notation language := (@language pred).
  Variable pipe_bnf : pipe -> res bnf.
  Variable bnf_lines : bnf -> list (str * list pred).
  Notation denotes := (denotes pipe_bnf bnf_lines).
  Notation open_words := (open_words pipe_bnf bnf_lines).

  (** The opaque forward rules met from an object. *)
  Inductive uses (opaque : nat -> bool) (h : heap) : nat -> nat -> Prop :=
  | uses_here p d : nth_error h p = Some (OForward d) -> opaque p = true -> uses opaque h p p
  | uses_child p o c q : nth_error h p = Some o -> is_forward o && opaque p = false -> In c (children o) ->
      uses opaque h c q -> uses opaque h p q.

  Lemma uses_obj opaque h p o q : nth_error h p = Some o -> is_forward o && opaque p = false ->
    (uses opaque h p q <-> exists c, In c (children o) /\ uses opaque h c q).
  Proof.
    intros E F. split.
    - intros H. inversion H as [? d E' Q|? o' c ? E' F' Hc Hq]; subst.
      + rewrite E in E'. injection E' as ->. cbn in F. congruence.
      + rewrite E in E'. injection E' as <-. eauto.
    - intros (c & Hc & Hq). exact (uses_child opaque h p o c q E F Hc Hq).
  Qed.
  Lemma uses_opaque opaque h p d q : nth_error h p = Some (OForward d) -> opaque p = true -> (uses opaque h p q <-> q = p).
  Proof.
    intros E Q. split; [|intros ->; apply (uses_here opaque h p d E Q)].
    intros H. inversion H as [? d' E' Q'|? o' c ? E' F' Hc Hq]; subst; [reflexivity|].
    rewrite E in E'. injection E' as <-. cbn in F'. congruence.
  Qed.
  Lemma uses_target opaque h p q : uses opaque h p q -> opaque q = true /\ exists d, nth_error h q = Some (OForward d).
  Proof. induction 1; eauto. Qed.

  Section Expand.
    Variables opaque opaque' : nat -> bool.
    Inductive chain (B : nat -> nat -> Prop) : nat -> nat -> Prop :=
    | chain_here f : opaque' f = true -> chain B f f
    | chain_def f g q : opaque' f = false -> B f g -> chain B g q -> chain B f q.
    Definition uses_def (h : heap) (f g : nat) : Prop := exists r, nth_error h f = Some (OForward (Some r)) /\ uses opaque h r g.
    Hypothesis fewer : forall p, opaque' p = true -> opaque p = true.
    Lemma uses_expand h p q : uses opaque' h p q <-> exists f, uses opaque h p f /\ chain (uses_def h) f q.
    Proof.
      split.
      - induction 1 as [p d E Q|p o c q E F Hc Hq (f & Hf & Cf)].
        + exists p. split; [apply (uses_here opaque h p d E), fewer, Q|constructor; exact Q].
        + destruct (is_forward o && opaque p) eqn:K.
          * apply andb_true_iff in K as [K1 K2]. rewrite K1 in F. destruct o as [| | | | | | | | | | |[r|]| | | | | | |]; try discriminate; [|destruct Hc].
            exists p. split; [apply (uses_here opaque h p _ E K2)|]. destruct Hc as [->|[]]. apply (chain_def _ p f q); auto. exists c. auto.
          * exists f. split; [apply (uses_child opaque h p o c f E K Hc Hf)|exact Cf].
      - intros (f & Hf & Cf).
        assert (G : forall p f, uses opaque h p f -> uses opaque' h f q -> uses opaque' h p q).
        { clear - fewer. intros p f H. induction H as [p d E Q|p o c f E F Hc Hf IH]; intros K; [exact K|].
          apply (uses_child opaque' h p o c q E); auto. destruct (is_forward o); [|reflexivity]. cbn in *.
          destruct (opaque' p) eqn:Q; [|reflexivity]. rewrite (fewer p Q) in F. discriminate. }
        apply (G p f Hf). destruct (uses_target _ _ _ _ Hf) as (_ & d & E). clear p Hf. revert d E.
        induction Cf as [f Q|f g q Q (r & Er & Hr) Cf IH]; intros d E; [apply (uses_here opaque' h f d E Q)|].
        apply (uses_child opaque' h f (OForward (Some r)) r q Er); [exact Q|left; reflexivity|].
        apply (G r g Hr). destruct (uses_target _ _ _ _ Hr) as (_ & d' & E'). exact (IH G d' E').
    Qed.
  End Expand.
  Lemma chain_mono opaque' (B B' : nat -> nat -> Prop) : (forall f g, B f g -> B' f g) -> forall f q, chain opaque' B f q -> chain opaque' B' f q.
  Proof. intros I f q H. induction H; [constructor; auto|econstructor; eauto]. Qed.

  Lemma uses_fewer opaque opaque' (h : heap) p r : (forall q, opaque' q = true -> opaque q = true) ->
    (forall q, uses opaque h p q <-> uses opaque h r q) -> forall q, uses opaque' h p q <-> uses opaque' h r q.
  Proof.
    intros F H q. rewrite (uses_expand opaque opaque' F h p q), (uses_expand opaque opaque' F h r q).
    split; intros (f & Hf & C); exists f; (split; [apply H, Hf|exact C]).
  Qed.
  Lemma uses_alike opaque (h h' : heap) : alike opaque h h' -> forall p q, uses opaque h p q -> uses opaque h' p q.
  Proof.
    intros A p q H. induction H as [p d E Q|p o c q E F Hc Hq IH].
    - destruct (A p _ E) as (o' & E' & K). cbn in K. rewrite Q in K. destruct o'; try discriminate. apply (uses_here opaque h' p _ E' Q).
    - destruct (A p _ E) as (o' & E' & K). rewrite F in K. subst o'. apply (uses_child opaque h' p o c q E' F Hc IH).
  Qed.

  Lemma alike_set opaque (h : heap) f d d' : nth_error h f = Some (OForward d) -> opaque f = true ->
    alike opaque h (setitem h f (OForward d')) /\ alike opaque (setitem h f (OForward d')) h.
  Proof.
    intros E Of. set (h' := setitem h f (OForward d')).
    assert (Ef : nth_error h' f = Some (OForward d')).
    { unfold h'. apply setitem_same. apply nth_error_Some. rewrite E. discriminate. }
    assert (Eo : forall q, q <> f -> nth_error h' q = nth_error h q) by (intros q N; apply setitem_other; auto).
    split; intros q o Eq; (destruct (Nat.eq_dec q f) as [->|N]; [|rewrite (Eo q N) in *; exists o; split; [exact Eq|]; destruct (is_forward o && opaque q) eqn:K; [|reflexivity]; apply andb_true_iff in K as [K _]; exact K]).
    - rewrite E in Eq. injection Eq as <-. eexists. split; [exact Ef|]. cbn. rewrite Of. reflexivity.
    - rewrite Ef in Eq. injection Eq as <-. eexists. split; [exact E|]. cbn. rewrite Of. reflexivity.
  Qed.

  (** ** Alike *)
  Definition like2 (opaque : nat -> bool) (h : heap) (p : nat) (opaque' : nat -> bool) (h' : heap) (p' : nat) : Prop :=
    (forall kd, same (open_words kd opaque h p) (open_words kd opaque' h' p')) /\
    (forall q, uses opaque h p q <-> uses opaque' h' p' q).
  Definition like opaque h p p' := like2 opaque h p opaque h p'.
  Lemma like2_refl opaque h p : like2 opaque h p opaque h p.
  Proof. split; [intros kd; apply same_refl|reflexivity]. Qed.
  Lemma like2_sym o h p o' h' p' : like2 o h p o' h' p' -> like2 o' h' p' o h p.
  Proof. intros [A B]. split; [intros kd; apply same_sym, A|intros q; symmetry; apply B]. Qed.
  Lemma like2_trans o h p o' h' p' o'' h'' p'' : like2 o h p o' h' p' -> like2 o' h' p' o'' h'' p'' -> like2 o h p o'' h'' p''.
  Proof. intros [A B] [A' B']. split; [intros kd; eapply same_trans; [apply A|apply A']|intros q; rewrite B; apply B']. Qed.
  Lemma like_refl opaque h p : like opaque h p p. Proof. apply like2_refl. Qed.
  Lemma like_sym opaque h p r : like opaque h p r -> like opaque h r p. Proof. apply like2_sym. Qed.
  Lemma like_trans opaque h p q r : like opaque h p q -> like opaque h q r -> like opaque h p r. Proof. apply like2_trans. Qed.

  Lemma like_fewer opaque opaque' h p r : (forall q, opaque' q = true -> opaque q = true) -> like opaque h p r -> like opaque' h p r.
  Proof.
    intros F [A B]. split.
    - intros kd. apply (same_fewer pipe_bnf bnf_lines kd opaque opaque' h p r F), A.
    - apply (uses_fewer opaque opaque' h p r F B).
  Qed.
  Lemma like_alike opaque h h' : alike opaque h h' -> alike opaque h' h -> forall p, like2 opaque h p opaque h' p.
  Proof.
    intros A A' p. split.
    - intros kd w. split; apply alike_included; assumption.
    - intros q. split; apply uses_alike; assumption.
  Qed.
  (** The definition of an opaque forward rule does not matter. *)
  Lemma redefine_opaque opaque h f d d' : nth_error h f = Some (OForward d) -> opaque f = true ->
    forall p, like2 opaque h p opaque (setitem h f (OForward d')) p.
  Proof. intros E Q. destruct (alike_set opaque h f d d' E Q) as [A A']. apply like_alike; assumption. Qed.
  Lemma redefine_like opaque opaque' h f r0 r1 :
    (forall q, opaque' q = true -> opaque q = true) -> opaque f = true ->
    nth_error h f = Some (OForward (Some r0)) -> like opaque h r0 r1 ->
    forall p, like2 opaque' h p opaque' (setitem h f (OForward (Some r1))) p.
  Proof.
    intros F Of E [H H'] p. split; [intros kd; apply (redefine pipe_bnf bnf_lines kd opaque opaque' h f r0 r1 F Of E (H kd))|].
    set (h' := setitem h f (OForward (Some r1))).
    assert (Ef : nth_error h' f = Some (OForward (Some r1))).
    { unfold h'. apply setitem_same. apply nth_error_Some. rewrite E. discriminate. }
    assert (Eo : forall q, q <> f -> nth_error h' q = nth_error h q) by (intros q N; apply setitem_other; auto).
    destruct (alike_set opaque h f _ (Some r1) E Of) as [A A'].
    intros q. rewrite (uses_expand opaque opaque' F h p q), (uses_expand opaque opaque' F h' p q).
    assert (D : forall g k, uses_def opaque h g k <-> uses_def opaque h' g k).
    { intros g k. unfold uses_def. destruct (Nat.eq_dec g f) as [->|N].
      - rewrite E, Ef. split; intros (r & Er & Hr); injection Er as <-; eexists; (split; [reflexivity|]).
        + apply (uses_alike opaque h h' A), H', Hr.
        + apply H', (uses_alike opaque h' h A'), Hr.
      - rewrite (Eo g N). split; intros (r & Er & Hr); exists r; (split; [exact Er|]); revert Hr; apply uses_alike; assumption. }
    split; intros (g & Hg & C); exists g; (split; [revert Hg; apply uses_alike; assumption|revert C; apply chain_mono; intros; apply D; assumption]).
  Qed.
  Lemma closed_like opaque (h h' : heap) (G : nat -> Prop) :
    (forall p, G p -> exists o, nth_error h p = Some o /\ nth_error h' p = Some o /\ forall c, In c (children o) -> G c) ->
    forall p, G p -> like2 opaque h p opaque h' p.
  Proof.
    intros C p Gp. split; [intros kd; apply (closed_same pipe_bnf bnf_lines kd opaque h h' G C p Gp)|].
    assert (K : forall h h' : heap, (forall p, G p -> exists o, nth_error h p = Some o /\ nth_error h' p = Some o /\ forall c, In c (children o) -> G c) ->
                forall p q, uses opaque h p q -> G p -> uses opaque h' p q).
    { clear. intros h h' C p q H. induction H as [p d E Q|p o c q E F Hc Hq IH]; intros Gp; destruct (C p Gp) as (o' & E1 & E2 & Hcl); rewrite E in E1; injection E1 as <-.
      - apply (uses_here opaque h' p d E2 Q).
      - apply (uses_child opaque h' p o c q E2 F Hc). apply IH, Hcl, Hc. }
    intros q. split; intros H; [apply (K h h'); auto|apply (K h' h); auto].
    intros x Gx. destruct (C x Gx) as (o & A & B & D). eauto.
  Qed.

  (** ** Objects of the same form *)
  Definition like_term (R : nat -> nat -> Prop) (t t' : term pred) : Prop :=
    match t, t' with TRule r, TRule r' => R r r' | TPred p, TPred p' => p = p' | _, _ => False end.
  Inductive copy (R : nat -> nat -> Prop) : obj -> obj -> Prop :=
  | copy_Rule ps ps' : Forall2 R ps ps' -> copy R (ORule ps) (ORule ps')
  | copy_Or ps ps' : Forall2 R ps ps' -> copy R (OOr ps) (OOr ps')
  | copy_Optional r r' rev : R r r' -> copy R (OOptional r rev) (OOptional r' rev)
  | copy_Repeatable r r' rev : R r r' -> copy R (ORepeatable r rev) (ORepeatable r' rev)
  | copy_RepOpt r r' rr ro : R r r' -> copy R (ORepOpt r rr ro) (ORepOpt r' rr ro)
  | copy_Min r r' m rev : R r r' -> copy R (OMin r m rev) (OMin r' m rev)
  | copy_Max r r' m rev : R r r' -> copy R (OMax r m rev) (OMax r' m rev)
  | copy_MinMax r r' m n rev : R r r' -> copy R (OMinMax r m n rev) (OMinMax r' m n rev)
  | copy_Named r r' n : R r r' -> copy R (ONamed r n) (ONamed r' n)
  | copy_Interp r r' i : R r r' -> copy R (OInterp r i) (OInterp r' i)
  | copy_Relation r r' rel : R r r' -> copy R (ORelation r rel) (ORelation r' rel)
  | copy_Prod ts ts' main : Forall2 (like_term R) ts ts' -> copy R (OProd ts main) (OProd ts' main).

  Lemma forall2_included {A B} (R : A -> B -> Prop) (f : A -> language) (g : B -> language) l l' :
    (forall x y, R x y -> included (f x) (g y)) -> Forall2 R l l' -> Forall2 included (map f l) (map g l').
  Proof. intros H F. induction F; cbn; constructor; auto. Qed.
  Lemma forall2_flip {A B} (R : A -> B -> Prop) l l' : Forall2 R l l' -> Forall2 (fun x y => R y x) l' l.
  Proof. induction 1; constructor; auto. Qed.
  Lemma copy_flip R o o' : copy R o o' -> copy (fun x y => R y x) o' o.
  Proof.
    destruct 1; constructor; auto; try (apply forall2_flip; assumption).
    apply forall2_flip in H. clear - H. induction H as [|x y l l' K F IH]; constructor; auto. destruct x, y; cbn in *; auto.
  Qed.
  Lemma copy_included kd (R : nat -> nat -> Prop) (D D' : nat -> language) o o' : (forall p p', R p p' -> included (D p) (D' p')) -> copy R o o' ->
    included (denotes kd D o) (denotes kd D' o').
  Proof.
    intros H C. destruct C; cbn [RuleSpec.denotes].
    - eapply alternatives_mono, forall2_included; eauto.
    - eapply alternatives_mono, forall2_included; eauto.
    - apply maybe_mono; auto.
    - apply many_mono; auto.
    - apply any_mono; auto.
    - apply times_mono; [|apply many_mono]; auto.
    - apply at_most_mono; auto.
    - apply times_mono; [|apply at_most_mono]; auto.
    - apply around_mono; auto.
    - apply around_mono; auto.
    - apply around_mono; auto.
    - eapply sequence_mono, forall2_included; [|eauto]. intros [r|p] [r'|p'] K; cbn in *; try contradiction; [auto|].
      subst. intros w E. exact E.
  Qed.
  Lemma copy_children R o o' c : copy R o o' -> In c (children o) -> exists c', In c' (children o') /\ R c c'.
  Proof.
    intros C. destruct C; cbn [children]; try (intros [<-|[]]; eexists; (split; [left; reflexivity|assumption])).
    - intros Hc. induction H as [|x y l l' K F IH]; [destruct Hc|]. destruct Hc as [->|Hc]; [exists y; split; [left; auto|auto]|].
      destruct (IH Hc) as (c' & A & B). exists c'. split; [right; auto|auto].
    - intros Hc. induction H as [|x y l l' K F IH]; [destruct Hc|]. destruct Hc as [->|Hc]; [exists y; split; [left; auto|auto]|].
      destruct (IH Hc) as (c' & A & B). exists c'. split; [right; auto|auto].
    - intros Hc. unfold rule_terms in *. induction H as [|x y l l' K F IH]; [destruct Hc|]. cbn in Hc. apply in_app_or in Hc as [Hc|Hc].
      + destruct x, y; cbn in *; try contradiction. destruct Hc as [<-|[]]. eexists. split; [left; reflexivity|exact K].
      + destruct (IH Hc) as (c' & A & B). exists c'. split; [cbn; apply in_or_app; right; auto|auto].
  Qed.
  Lemma copy_forward R o o' : copy R o o' -> is_forward o = false /\ is_forward o' = false.
  Proof. destruct 1; auto. Qed.

  Lemma copy_like opaque h p o p' o' : nth_error h p = Some o -> nth_error h p' = Some o' -> copy (like opaque h) o o' -> like opaque h p p'.
  Proof.
    intros E E' C. destruct (copy_forward _ _ _ C) as [F F']. split.
    - intros kd. eapply same_trans; [apply (open_words_obj pipe_bnf bnf_lines kd opaque h p o E F)|].
      eapply same_trans; [|apply same_sym, (open_words_obj pipe_bnf bnf_lines kd opaque h p' o' E' F')].
      intros w. split; [apply (copy_included kd (like opaque h)); [|exact C]|apply (copy_included kd (fun x y => like opaque h y x)); [|apply copy_flip, C]].
      + intros x y [A _] v. apply A.
      + intros x y [A _] v. apply A.
    - intros q. rewrite (uses_obj opaque h p o q E), (uses_obj opaque h p' o' q E') by (rewrite ?F, ?F'; reflexivity).
      split; intros (c & Hc & Hq).
      + destruct (copy_children _ _ _ c C Hc) as (c' & Hc' & [_ L]). exists c'. split; [exact Hc'|apply L, Hq].
      + destruct (copy_children _ _ _ c (copy_flip _ _ _ C) Hc) as (c' & Hc' & [_ L]). exists c'. split; [exact Hc'|apply L, Hq].
  Qed.
End Like.
