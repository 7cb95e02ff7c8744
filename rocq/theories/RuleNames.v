(** generate_names: numbering of unnamed rules. *)
From Coq Require DecimalString DecimalNat.
From Verif Require Import Base EarleyModel RuleModel RuleSpec RuleWords RuleLike RulePass RuleBNF RuleForward.
Open Scope nat_scope.

Lemma generated_name_inj n m : generated_name n = generated_name m -> n = m.
Proof.
  unfold generated_name. intros H. apply app_inv_head in H. apply DecimalNat.Unsigned.to_uint_inj.
  assert (K : forall a b, str_of a = str_of b -> a = b).
  { unfold str_of. intros a b E.
    assert (L : String.list_ascii_of_string a = String.list_ascii_of_string b).
    { revert E. generalize (String.list_ascii_of_string a) (String.list_ascii_of_string b). induction l as [|x l IH]; intros [|y l'] E; try discriminate; [reflexivity|].
      cbn in E. injection E as E1 E2. f_equal; [|apply IH, E2]. rewrite <- (Ascii.ascii_N_embedding x), E1. apply Ascii.ascii_N_embedding. }
    rewrite <- (String.string_of_list_ascii_of_string a), L. apply String.string_of_list_ascii_of_string. }
  apply K in H. assert (E := DecimalString.NilEmpty.usu (Nat.to_uint n)). rewrite H, DecimalString.NilEmpty.usu in E. congruence.
Qed.
Lemma generated_name_nonempty n : exists c s, generated_name n = c :: s.
Proof. unfold generated_name. cbn. eauto. Qed.

Section Names.
  Context {pred pipe bnf : Type}.
  Notation obj := (obj pred pipe bnf).
  Notation heap := (heap pred pipe bnf).

  Definition attributes_of (h : heap) (r : nat) : option attributes := match nth_error h r with Some o => get_attributes o | None => None end.
  Definition unnamed (h : heap) (r : nat) : bool := match attributes_of h r with Some a => negb (has_name a) | None => false end.
  Definition name_of (h : heap) (r : nat) : option str := match attributes_of h r with Some a => a_name a | None => None end.

  (** The same object up to the name. *)
  Definition renamed (o o' : obj) : Prop :=
    exists f, o' = update_attributes f o /\ forall a, a_interp (f a) = a_interp a /\ a_relation (f a) = a_relation a.
  Lemma renamed_refl o : renamed o o.
  Proof. exists (fun a => a). split; [destruct o; reflexivity|auto]. Qed.
  Lemma renamed_trans a b c : renamed a b -> renamed b c -> renamed a c.
  Proof.
    intros (f & -> & F) (g & -> & G). exists (fun x => g (f x)). split; [destruct a; reflexivity|]. intros x. destruct (F x), (G (f x)). split; congruence.
  Qed.
  Definition renamed_heap (h h' : heap) : Prop := length h' = length h /\ forall p o, nth_error h p = Some o -> exists o', nth_error h' p = Some o' /\ renamed o o'.

  Definition named_as (n : str) (o : obj) : obj := update_attributes (fun a => mkAttributes (Some n) (a_interp a) (a_relation a)) o.
  Lemma generate_step r rules count (h : heap) : generate_names (r :: rules) count h =
    if unnamed h r then generate_names rules (S count) (match nth_error h r with Some o => setitem h r (named_as (generated_name count) o) | None => h end)
    else generate_names rules count h.
  Proof. cbn [generate_names]. unfold unnamed, attributes_of. destruct (nth_error h r) as [o|]; [|reflexivity]. destruct (get_attributes o) as [a|]; [|reflexivity]. destruct (has_name a); reflexivity. Qed.

  Lemma generate_other rules : forall count (h : heap) p, ~ In p rules -> nth_error (generate_names rules count h) p = nth_error h p.
  Proof.
    induction rules as [|r rules IH]; intros count h p N; [reflexivity|]. rewrite generate_step. assert (N1 : r <> p) by (intros ->; apply N; left; reflexivity).
    assert (N2 : ~ In p rules) by (intros K; apply N; right; exact K). destruct (unnamed h r); rewrite IH by exact N2; [|reflexivity].
    destruct (nth_error h r); [|reflexivity]. apply setitem_other. auto.
  Qed.
  Lemma generate_renamed rules : forall count (h : heap), renamed_heap h (generate_names rules count h).
  Proof.
    induction rules as [|r rules IH]; intros count h.
    - split; [reflexivity|]. intros p o E. exists o. split; [exact E|apply renamed_refl].
    - rewrite generate_step. destruct (unnamed h r); [|apply IH]. destruct (nth_error h r) as [o|] eqn:E; [|apply IH].
      destruct (IH (S count) (setitem h r (named_as (generated_name count) o))) as [L K]. split; [rewrite L; apply setitem_length|].
      intros p o1 E1. destruct (Nat.eq_dec p r) as [->|N].
      + rewrite E in E1. injection E1 as <-. destruct (K r (named_as (generated_name count) o)) as (o' & E' & R'); [apply setitem_same, nth_error_Some; congruence|].
        exists o'. split; [exact E'|]. eapply renamed_trans; [|exact R']. eexists. split; [reflexivity|]. auto.
      + apply K. rewrite setitem_other by auto. exact E1.
  Qed.
  Lemma filter_other (h h' : heap) rules : (forall r, In r rules -> unnamed h' r = unnamed h r) -> filter (unnamed h') rules = filter (unnamed h) rules.
  Proof. intros K. induction rules as [|r rules IH]; [reflexivity|]. cbn. rewrite (K r (or_introl eq_refl)), IH; [reflexivity|]. intros x Hx. apply K. right. exact Hx. Qed.

  (** The i-th unnamed rule is called R(count+i); named rules keep their names. *)
  Theorem generate_names_ok rules : forall count (h : heap), NoDup rules ->
    (forall i r, nth_error (filter (unnamed h) rules) i = Some r -> name_of (generate_names rules count h) r = Some (generated_name (count + i))) /\
    (forall r, unnamed h r = false -> name_of (generate_names rules count h) r = name_of h r).
  Proof.
    induction rules as [|r rules IH]; intros count h ND.
    { split; [intros i r E; destruct i; discriminate|auto]. }
    inversion ND as [|? ? Nr ND']; subst. rewrite generate_step. cbn [filter]. destruct (unnamed h r) eqn:U; [|split; [apply (proj1 (IH count h ND'))|apply (proj2 (IH count h ND'))]].
    destruct (nth_error h r) as [o|] eqn:E; [|exfalso; unfold unnamed, attributes_of in U; rewrite E in U; discriminate].
    set (h1 := setitem h r (named_as (generated_name count) o)). destruct (IH (S count) h1 ND') as [A B].
    assert (Lr : r < length h) by (apply nth_error_Some; congruence).
    assert (E1 : nth_error h1 r = Some (named_as (generated_name count) o)) by (apply setitem_same, Lr).
    assert (O1 : forall p, p <> r -> nth_error h1 p = nth_error h p) by (intros p Np; apply setitem_other; auto).
    assert (Fr : filter (unnamed h1) rules = filter (unnamed h) rules).
    { apply filter_other. intros x Hx. unfold unnamed, attributes_of. rewrite O1; [reflexivity|]. intros ->. exact (Nr Hx). }
    split.
    - intros [|i] x Ex; cbn in Ex.
      + injection Ex as <-. unfold name_of, attributes_of. rewrite generate_other by exact Nr. rewrite E1. unfold unnamed, attributes_of in U. rewrite E in U.
        destruct o; try discriminate; cbn; rewrite Nat.add_0_r; reflexivity.
      + rewrite <- Nat.add_succ_comm. apply A. rewrite Fr. exact Ex.
    - intros x Ux. assert (Nx : x <> r) by (intros ->; congruence). rewrite B; [unfold name_of, attributes_of; rewrite O1 by exact Nx; reflexivity|].
      unfold unnamed, attributes_of in *. rewrite O1 by exact Nx. exact Ux.
  Qed.

  (** Words of the other kinds do not change. *)
  Variable pipe_bnf : pipe -> res bnf.
  Variable bnf_lines : bnf -> list (str * list pred).
  Notation open_words kd := (open_words pipe_bnf bnf_lines kd).
  Lemma renamed_denotes kd D (o o' : obj) : kd <> KName -> renamed o o' -> denotes pipe_bnf bnf_lines kd D o' = denotes pipe_bnf bnf_lines kd D o.
  Proof.
    intros N (f & -> & K). destruct o; try reflexivity; cbn; unfold shown; destruct kd; try (destruct N; reflexivity); destruct (K a) as [K1 K2]; rewrite ?K1, ?K2; reflexivity.
  Qed.
  Lemma renamed_forward o o' : renamed o o' -> is_forward o' = is_forward o.
  Proof. intros (f & -> & _). destruct o; reflexivity. Qed.
  Lemma renamed_back h h' p o' : renamed_heap h h' -> nth_error h' p = Some o' -> exists o, nth_error h p = Some o /\ renamed o o'.
  Proof.
    intros [L K] E. destruct (nth_error h p) as [o|] eqn:Eo; [|apply nth_error_None in Eo; assert (p < length h') by (apply nth_error_Some; congruence); lia].
    destruct (K p o Eo) as (o2 & E2 & R). rewrite E in E2. injection E2 as <-. eauto.
  Qed.
  Lemma renamed_words h h' kd opaque p : kd <> KName -> renamed_heap h h' -> same (open_words kd opaque h p) (open_words kd opaque h' p).
  Proof.
    intros N R. enough (K : (forall p, included (open_words kd opaque h p) (open_words kd opaque h' p)) /\ (forall p, included (open_words kd opaque h' p) (open_words kd opaque h p))) by (intros w; split; apply K).
    split; apply open_words_least; intros q w (o & E & H); apply open_words_step.
    - destruct (proj2 R q o E) as (o' & E' & Ro). exists o'. split; [exact E'|]. rewrite (renamed_forward o o' Ro), (renamed_denotes kd _ o o' N Ro). exact H.
    - destruct (renamed_back h h' q o R E) as (o0 & E0 & Ro). exists o0. split; [exact E0|]. rewrite <- (renamed_forward o0 o Ro), <- (renamed_denotes kd _ o0 o N Ro). exact H.
  Qed.
  Lemma renamed_children o o' : renamed o o' -> children o' = children o /\ is_bnf o' = is_bnf o.
  Proof. intros (f & -> & _). destruct o; auto. Qed.
  Lemma renamed_reach h h' p q : renamed_heap h h' -> reach h p q <-> reach h' p q.
  Proof.
    intros R. split; intros H; induction H as [p|p q o c H IH E Hc]; try constructor.
    - destruct (proj2 R q o E) as (o' & E' & Ro). apply (reach_step h' p q o' c IH E'). rewrite (proj1 (renamed_children _ _ Ro)). exact Hc.
    - destruct (renamed_back h h' q o R E) as (o0 & E0 & Ro). apply (reach_step h p q o0 c IH E0). rewrite <- (proj1 (renamed_children _ _ Ro)). exact Hc.
  Qed.
  Lemma renamed_graph fw h h' G : renamed_heap h h' -> bnf_graph pipe_bnf bnf_lines fw h G -> bnf_graph pipe_bnf bnf_lines fw h' G.
  Proof.
    intros R B x Gx. destruct (B x Gx) as (o & E & Bo & C). destruct (proj2 R x o E) as (o' & E' & Ro). exists o'. split; [exact E'|].
    destruct (renamed_children _ _ Ro) as [Ch _]. rewrite Ch. split; [|exact C]. destruct Ro as (f & -> & _).
    destruct o; cbn in *; auto.
    - destruct rule as [d|]; [|exact Bo]. destruct Bo as (F & o1 & E1 & B1). split; [exact F|]. destruct (proj2 R d o1 E1) as (o2 & E2 & R2). exists o2. split; [exact E2|]. rewrite (proj2 (renamed_children _ _ R2)). exact B1.
    - intros q Hq. destruct (Bo q Hq) as (oq & Eq & Bq). destruct (proj2 R q oq Eq) as (o2 & E2 & (f2 & -> & _)). eexists. split; [exact E2|]. destruct oq; try contradiction; exact I.
    - split; [apply (proj1 Bo)|]. destruct Bo as [_ Bo]. revert Bo. apply forall2_weaken. intros q l Eq. destruct (proj2 R q _ Eq) as (o2 & E2 & (f2 & -> & _)). exact E2.
    - destruct Bo as [Bm Bt]. split; [exact Bm|]. intros r Hr. destruct (Bt r Hr) as (o1 & E1 & B1). destruct (proj2 R r o1 E1) as (o2 & E2 & R2). exists o2. split; [exact E2|].
      rewrite (proj2 (renamed_children _ _ R2)), (renamed_forward _ _ R2). exact B1.
  Qed.
End Names.
