(** Facts about the relation check (relations/graph.py). *)
From Verif Require Import Base TokenModel EarleyModel TreeModel TreeSpec RelationSpec.

Lemma str_eqb_eq a b : str_eqb a b = true <-> a = b.
Proof. unfold str_eqb. destruct list_eq_dec; split; congruence. Qed.

Lemma str_in_In x l : str_in x l = true <-> In x l.
Proof.
  unfold str_in. rewrite existsb_exists. split.
  - intros (y & H & E). apply str_eqb_eq in E. congruence.
  - intros H. exists x. split; auto. apply str_eqb_eq. auto.
Qed.

Lemma set_eqb_iff a b : set_eqb a b = true <-> forall x, In x a <-> In x b.
Proof.
  unfold set_eqb. rewrite andb_true_iff, !forallb_forall. split.
  - intros [H1 H2] x. split; intros H; apply str_in_In; auto.
  - intros H. split; intros x Hx; apply str_in_In; apply H; auto.
Qed.

Lemma form_eqb_iff a b : form_eqb a b = true <->
  f_normalized a = f_normalized b /\ forall x, In x (f_grams a) <-> In x (f_grams b).
Proof. unfold form_eqb. rewrite andb_true_iff, str_eqb_eq, set_eqb_iff. tauto. Qed.

Lemma form_eqb_refl a : form_eqb a a = true.
Proof. apply form_eqb_iff. split; auto. tauto. Qed.
Lemma form_eqb_sym a b : form_eqb a b = true -> form_eqb b a = true.
Proof. rewrite !form_eqb_iff. intros [A B]. split; auto. intros x. rewrite B. tauto. Qed.
Lemma form_eqb_trans a b c : form_eqb a b = true -> form_eqb b c = true -> form_eqb a c = true.
Proof.
  rewrite !form_eqb_iff. intros [A B] [C D]. split; [congruence|]. intros x. rewrite B. auto.
Qed.

Lemma form_in_iff f l : form_in f l = true <-> exists f', In f' l /\ form_eqb f f' = true.
Proof. unfold form_in. rewrite existsb_exists. tauto. Qed.

Lemma sublist_nil {A} (b : list A) : sublist [] b.
Proof. induction b; constructor; auto. Qed.
Lemma sublist_app {A} (a b c d : list A) : sublist a b -> sublist c d -> sublist (a ++ c) (b ++ d).
Proof. intros H K. induction H; simpl; [auto|apply sub_skip; auto|apply sub_keep; auto]. Qed.
Lemma sublist_refl {A} (a : list A) : sublist a a.
Proof. induction a; [apply sub_nil|apply sub_keep; auto]. Qed.
Lemma sublist_trans {A} (a b c : list A) : sublist a b -> sublist b c -> sublist a c.
Proof.
  intros H1 H2. revert a H1. induction H2; intros a' H1; auto.
  - apply sub_skip. auto.
  - inversion H1; subst; [apply sub_skip|apply sub_keep]; auto.
Qed.
Lemma sublist_in {A} (a b : list A) x : sublist a b -> In x a -> In x b.
Proof. induction 1; simpl; intros; auto. tauto. Qed.


Section Rel.
  Variable rel : nat -> form -> form -> bool.
  Notation respects := (respects_forms rel).

  Notation check_pair := (check_pair rel).
  Notation check_edge := (check_edge rel).
  Notation validate_edge := (validate_edge rel).

  Lemma add_form_in f l x : In x (add_form f l) -> In x l \/ x = f.
  Proof.
    unfold add_form. destruct (form_in f l); auto. intros H.
    apply in_app_or in H as [H|[H|[]]]; auto.
  Qed.
  Lemma add_form_mono f l x : In x l -> In x (add_form f l).
  Proof. unfold add_form. destruct (form_in f l); auto. intros. apply in_or_app. auto. Qed.
  Lemma add_form_has f l : form_in f (add_form f l) = true.
  Proof.
    unfold add_form. destruct (form_in f l) eqn:E; auto.
    apply form_in_iff. exists f. split; [apply in_or_app; right; left; auto|apply form_eqb_refl].
  Qed.
  Lemma form_in_mono f l l' : (forall x, In x l -> In x l') -> form_in f l = true -> form_in f l' = true.
  Proof. rewrite !form_in_iff. intros H (x & A & B). eauto. Qed.

  Lemma add_form_distinct f l : distinct_forms l -> distinct_forms (add_form f l).
  Proof.
    unfold add_form. destruct (form_in f l) eqn:E; auto. intros D p a q b r H.
    destruct r as [|z r' _] using rev_ind.
    - assert (l = p ++ a :: q /\ f = b) as [-> ->].
      { apply app_inj_tail. rewrite H. rewrite <- app_assoc. reflexivity. }
      destruct (form_eqb a b) eqn:F; auto.
      assert (form_in b (p ++ a :: q) = true); [|congruence].
      apply form_in_iff. exists a. split.
      + apply in_or_app. right. left. auto.
      + apply form_eqb_sym. auto.
    - apply (D p a q b r').
      replace (p ++ a :: q ++ b :: r' ++ [z]) with ((p ++ a :: q ++ b :: r') ++ [z]) in H.
      + apply app_inj_tail in H as [H _]. auto.
      + rewrite <- app_assoc. simpl. rewrite <- app_assoc. reflexivity.
  Qed.

  (** *** One edge *)
  Lemma inner_spec r fa fbs : forall acc,
    fold_left (fun acc fb => check_pair r fa fb acc) fbs acc =
    (if existsb (rel r fa) fbs then add_form fa (fst acc) else fst acc,
     fold_left (fun l fb => if rel r fa fb then add_form fb l else l) fbs (snd acc)).
  Proof.
    assert (IDEM : forall f l, add_form f (add_form f l) = add_form f l).
    { intros f l. unfold add_form at 1. rewrite add_form_has. reflexivity. }
    induction fbs as [|fb fbs IH]; intros [A B]; [reflexivity|].
    cbn [fold_left existsb]. rewrite IH. unfold TreeModel.check_pair.
    destruct (rel r fa fb); cbn [fst snd orb]; [|reflexivity].
    f_equal. destruct existsb; auto.
  Qed.

  Definition keep_first r fbs fas l0 :=
    fold_left (fun l fa => if existsb (rel r fa) fbs then add_form fa l else l) fas l0.
  Definition keep_second r fbs fas l0 :=
    fold_left (fun l fa => fold_left (fun l fb => if rel r fa fb then add_form fb l else l) fbs l) fas l0.

  Lemma check_edge_split r fas fbs :
    check_edge r fas fbs = (keep_first r fbs fas [], keep_second r fbs fas []).
  Proof.
    unfold TreeModel.check_edge, keep_first, keep_second.
    generalize (@nil form) at 1 3 as A. generalize (@nil form) as B.
    induction fas as [|fa fas IH]; intros B A; [reflexivity|].
    cbn [fold_left]. rewrite inner_spec. cbn [fst snd]. apply IH.
  Qed.

  Lemma keep_first_sublist r fbs fas : forall l0 base, sublist l0 base ->
    sublist (keep_first r fbs fas l0) (base ++ fas).
  Proof.
    induction fas as [|fa fas IH]; intros l0 base H; cbn [keep_first fold_left].
    - rewrite app_nil_r. auto.
    - replace (base ++ fa :: fas) with ((base ++ [fa]) ++ fas) by (rewrite <- app_assoc; reflexivity).
      apply IH. destruct existsb.
      + unfold add_form. destruct form_in.
        * rewrite <- (app_nil_r l0). apply sublist_app; auto. apply sublist_nil.
        * apply sublist_app; auto. apply sublist_refl.
      + rewrite <- (app_nil_r l0). apply sublist_app; auto. apply sublist_nil.
  Qed.

  Lemma keep_first_in r fbs fas x : forall l0, In x (keep_first r fbs fas l0) ->
    In x l0 \/ In x fas /\ exists y, In y fbs /\ rel r x y = true.
  Proof.
    induction fas as [|fa fas IH]; intros l0 H; cbn [keep_first fold_left] in H; auto.
    apply IH in H as [H|[H1 H2]]; [|right; split; [right|]; auto].
    destruct existsb eqn:E; auto. apply add_form_in in H as [H| ->]; auto.
    right. split; [left; auto|]. apply existsb_exists in E. auto.
  Qed.

  Lemma keep_first_mono r fbs fas x : forall l0, form_in x l0 = true ->
    form_in x (keep_first r fbs fas l0) = true.
  Proof.
    induction fas as [|fa fas IH]; intros l0 H; cbn [keep_first fold_left]; auto.
    apply IH. destruct existsb; auto. eapply form_in_mono; [|exact H]. intros. apply add_form_mono. auto.
  Qed.

  Lemma keep_first_has r fbs fas x y : In x fas -> In y fbs -> rel r x y = true ->
    forall l0, form_in x (keep_first r fbs fas l0) = true.
  Proof.
    induction fas as [|fa fas IH]; intros Hx Hy R l0; [destruct Hx|].
    cbn [keep_first fold_left]. destruct Hx as [->|Hx].
    - apply (keep_first_mono r fbs fas). replace (existsb (rel r x) fbs) with true.
      + apply add_form_has.
      + symmetry. apply existsb_exists. eauto.
    - apply IH; auto.
  Qed.

  Lemma keep_first_distinct r fbs fas : forall l0, distinct_forms l0 ->
    distinct_forms (keep_first r fbs fas l0).
  Proof.
    induction fas as [|fa fas IH]; intros l0 H; cbn [keep_first fold_left]; auto.
    apply IH. destruct existsb; auto. apply add_form_distinct. auto.
  Qed.

  Let step2 r fa := fun l fb => if rel r fa fb then add_form fb l else l.
  Lemma inner2_mono r fa fbs x : forall l, In x l -> In x (fold_left (step2 r fa) fbs l).
  Proof.
    induction fbs as [|fb fbs IH]; intros l H; auto. cbn [fold_left]. apply IH. unfold step2.
    destruct (rel r fa fb); auto. apply add_form_mono. auto.
  Qed.
  Lemma inner2_in r fa fbs x : forall l, In x (fold_left (step2 r fa) fbs l) ->
    In x l \/ In x fbs /\ rel r fa x = true.
  Proof.
    induction fbs as [|fb fbs IH]; intros l H; auto. cbn [fold_left] in H.
    apply IH in H as [H|[H1 H2]]; [|right; split; [right|]; auto].
    unfold step2 in H. destruct (rel r fa fb) eqn:E; auto. apply add_form_in in H as [H| ->]; auto.
    right. split; auto. left. auto.
  Qed.
  Lemma inner2_has r fa fbs x : In x fbs -> rel r fa x = true ->
    forall l, form_in x (fold_left (step2 r fa) fbs l) = true.
  Proof.
    induction fbs as [|fb fbs IH]; intros Hx R l; [destruct Hx|]. cbn [fold_left].
    destruct Hx as [->|Hx]; auto.
    eapply form_in_mono; [intros; apply inner2_mono; eassumption|].
    unfold step2. rewrite R. apply add_form_has.
  Qed.
  Lemma inner2_distinct r fa fbs : forall l, distinct_forms l -> distinct_forms (fold_left (step2 r fa) fbs l).
  Proof.
    induction fbs as [|fb fbs IH]; intros l H; auto. cbn [fold_left]. apply IH. unfold step2.
    destruct (rel r fa fb); auto. apply add_form_distinct. auto.
  Qed.

  Lemma keep_second_mono r fbs fas x : forall l, In x l -> In x (keep_second r fbs fas l).
  Proof.
    induction fas as [|fa fas IH]; intros l H; auto. apply IH. apply (inner2_mono r fa fbs). auto.
  Qed.
  Lemma keep_second_in r fbs fas x : forall l, In x (keep_second r fbs fas l) ->
    In x l \/ In x fbs /\ exists y, In y fas /\ rel r y x = true.
  Proof.
    induction fas as [|fa fas IH]; intros l H; auto. cbn [keep_second fold_left] in H.
    apply IH in H as [H|[H1 (y & H2 & H3)]].
    - apply (inner2_in r fa fbs) in H as [H|[H1 H2]]; auto.
      right. split; auto. exists fa. split; auto. left. auto.
    - right. split; auto. exists y. split; auto. right. auto.
  Qed.
  Lemma keep_second_has r fbs fas x y : In x fas -> In y fbs -> rel r x y = true ->
    forall l, form_in y (keep_second r fbs fas l) = true.
  Proof.
    induction fas as [|fa fas IH]; intros Hx Hy R l; [destruct Hx|]. cbn [keep_second fold_left].
    destruct Hx as [->|Hx]; [|apply IH; auto].
    eapply form_in_mono; [intros z Hz; apply (keep_second_mono r fbs fas); exact Hz|].
    apply (inner2_has r x fbs); auto.
  Qed.
  Lemma keep_second_distinct r fbs fas : forall l, distinct_forms l -> distinct_forms (keep_second r fbs fas l).
  Proof.
    induction fas as [|fa fas IH]; intros l H; auto. apply IH. apply (inner2_distinct r fa fbs). auto.
  Qed.
  Lemma distinct_nil : distinct_forms [].
  Proof. intros [|] ? ? ? ? ?; discriminate. Qed.

  (** *** Dictionaries *)
  Lemma assoc_dict_set {B} k (v : B) l k' :
    assoc k' (dict_set k v l) = if Nat.eqb k' k then Some v else assoc k' l.
  Proof.
    induction l as [|[k1 v1] l IH]; simpl.
    - reflexivity.
    - destruct (Nat.eqb k k1) eqn:E1; simpl.
      + apply Nat.eqb_eq in E1. subst k1. destruct (Nat.eqb k' k); reflexivity.
      + rewrite IH. destruct (Nat.eqb k' k1) eqn:E2, (Nat.eqb k' k) eqn:E3; auto.
        apply Nat.eqb_eq in E2, E3. apply Nat.eqb_neq in E1. lia.
  Qed.

  Notation forms_of := get_token_forms.

  Lemma validate_edge_forms fs r a b x :
    forms_of x (validate_edge fs (r, a, b)) =
    if Nat.eqb x b then keep_second r (forms_of b fs) (forms_of a fs) []
    else if Nat.eqb x a then keep_first r (forms_of b fs) (forms_of a fs) []
    else forms_of x fs.
  Proof.
    unfold TreeModel.validate_edge. rewrite check_edge_split. unfold get_token_forms at 1.
    rewrite !assoc_dict_set. destruct (Nat.eqb x b); auto. destruct (Nat.eqb x a); auto.
  Qed.

  Lemma validate_edge_within fs e x f :
    In f (forms_of x (validate_edge fs e)) -> In f (forms_of x fs).
  Proof.
    destruct e as [[r a] b]. rewrite validate_edge_forms.
    destruct (Nat.eqb x b) eqn:E1; [apply Nat.eqb_eq in E1; subst|].
    { intros H. apply keep_second_in in H as [[]|[H _]]. auto. }
    destruct (Nat.eqb x a) eqn:E2; [apply Nat.eqb_eq in E2; subst|auto].
    intros H. apply keep_first_in in H as [[]|[H _]]. auto.
  Qed.

  Lemma validate_edges_within es x f : forall fs,
    In f (forms_of x (fold_left validate_edge es fs)) -> In f (forms_of x fs).
  Proof.
    induction es as [|e es IH]; intros fs H; auto. cbn [fold_left] in H.
    apply IH in H. eapply validate_edge_within; eauto.
  Qed.

  Lemma validate_edges_other es x : forall fs,
    (forall r a b, In (r, a, b) es -> x <> a /\ x <> b) ->
    forms_of x (fold_left validate_edge es fs) = forms_of x fs.
  Proof.
    induction es as [|[[r a] b] es IH]; intros fs H; auto. cbn [fold_left]. rewrite IH.
    - rewrite validate_edge_forms. destruct (H r a b); [left; auto|].
      rewrite !(proj2 (Nat.eqb_neq _ _)); auto.
    - intros. apply (H r0). right. auto.
  Qed.

  (** An assignment whose forms agree along every edge is never lost. *)
  Lemma validate_edge_keeps fs r a b (w : nat -> form) : respects ->
    (forall x, x = a \/ x = b -> form_in (w x) (forms_of x fs) = true) ->
    rel r (w a) (w b) = true ->
    forall x, form_in (w x) (forms_of x fs) = true ->
    form_in (w x) (forms_of x (validate_edge fs (r, a, b))) = true.
  Proof.
    intros RS H R x Hx. rewrite validate_edge_forms.
    assert (HA : form_in (w a) (forms_of a fs) = true) by auto.
    assert (HB : form_in (w b) (forms_of b fs) = true) by auto.
    apply form_in_iff in HA as (fa & A1 & A2). apply form_in_iff in HB as (fb & B1 & B2).
    assert (R' : rel r fa fb = true) by (rewrite <- (RS r _ _ _ _ A2 B2); auto).
    destruct (Nat.eqb x b) eqn:E1; [apply Nat.eqb_eq in E1; subst|].
    { pose proof (keep_second_has r _ _ _ _ A1 B1 R' []) as K. apply form_in_iff in K as (z & Z1 & Z2).
      apply form_in_iff. exists z. split; auto. eapply form_eqb_trans; eauto. }
    destruct (Nat.eqb x a) eqn:E2; [apply Nat.eqb_eq in E2; subst|auto].
    pose proof (keep_first_has r _ _ _ _ A1 B1 R' []) as K. apply form_in_iff in K as (z & Z1 & Z2).
    apply form_in_iff. exists z. split; auto. eapply form_eqb_trans; eauto.
  Qed.

  Lemma validate_edges_keeps es (w : nat -> form) : respects -> forall fs,
    (forall r a b, In (r, a, b) es ->
       form_in (w a) (forms_of a fs) = true /\ form_in (w b) (forms_of b fs) = true /\
       rel r (w a) (w b) = true) ->
    forall x, form_in (w x) (forms_of x fs) = true ->
    form_in (w x) (forms_of x (fold_left validate_edge es fs)) = true.
  Proof.
    intros RS. induction es as [|[[r a] b] es IH]; intros fs H x Hx; auto. cbn [fold_left].
    destruct (H r a b) as (A & B & R); [left; auto|].
    assert (K : forall x, form_in (w x) (forms_of x fs) = true ->
      form_in (w x) (forms_of x (validate_edge fs (r, a, b))) = true).
    { apply validate_edge_keeps; auto. intros y [->| ->]; auto. }
    apply IH; auto. intros r' a' b' E. destruct (H r' a' b') as (A' & B' & R'); [right; auto|].
    auto.
  Qed.

  (** Every form left after an edge whose ends no later edge touches agrees
      with a form that was possible for the other end. *)
  Lemma validate_last_edge es1 r a b es2 fs : a <> b ->
    (forall r' a' b', In (r', a', b') es2 -> a' <> a /\ a' <> b /\ b' <> a /\ b' <> b) ->
    respects ->
    let fs' := fold_left validate_edge (es1 ++ (r, a, b) :: es2) fs in
    (forall f, In f (forms_of a fs') -> exists f', In f' (forms_of b fs') /\ rel r f f' = true) /\
    (forall f, In f (forms_of b fs') -> exists f', In f' (forms_of a fs') /\ rel r f' f = true).
  Proof.
    intros NE H RS fs'. unfold fs'. rewrite fold_left_app. cbn [fold_left].
    set (m := fold_left validate_edge es1 fs).
    rewrite !(validate_edges_other es2).
    2:{ intros r' a' b' E. destruct (H _ _ _ E) as (? & ? & ? & ?). split; congruence. }
    2:{ intros r' a' b' E. destruct (H _ _ _ E) as (? & ? & ? & ?). split; congruence. }
    rewrite !validate_edge_forms. rewrite !Nat.eqb_refl. rewrite (proj2 (Nat.eqb_neq a b)) by auto.
    split; intros f F.
    - apply keep_first_in in F as [[]|[F (y & Y & R)]].
      pose proof (keep_second_has r _ _ _ _ F Y R []) as K. apply form_in_iff in K as (z & Z1 & Z2).
      exists z. split; auto. rewrite <- (RS r f f y z); auto. apply form_eqb_refl.
    - apply keep_second_in in F as [[]|[F (y & Y & R)]].
      pose proof (keep_first_has r _ _ _ _ Y F R []) as K. apply form_in_iff in K as (z & Z1 & Z2).
      exists z. split; auto. rewrite <- (RS r y z f f); auto. apply form_eqb_refl.
  Qed.
End Rel.
