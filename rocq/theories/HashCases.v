(** A hash function with few values and a chart in which nothing collides. *)
From Verif Require Import Base EarleyModel EarleySpec TokenModel TreeModel ParserModel HashModel HashSpec Cases.
Open Scope nat_scope.

(** A polynomial hash with values below 1000003. *)
Definition small_hash (x : hash_key) : Z :=
  let '(r, p, d, b, e, ids) := x in
  (fold_left (fun h i => (h * 31 + Z.of_nat i) mod 1000003) ([r; p; d; b; e] ++ ids) 7)%Z.

(** A hash with a single value. *)
Definition constant_hash (x : hash_key) : Z := 0%Z.

Lemma small_hash_bounded x : (0 <= small_hash x < 1000003)%Z.
Proof.
  unfold small_hash. destruct x as [[[[[r p] d] b] e] ids].
  generalize ([r; p; d; b; e] ++ ids). intros l.
  assert (K : forall l h, (0 <= h < 1000003)%Z ->
    (0 <= fold_left (fun h i => (h * 31 + Z.of_nat i) mod 1000003) l h < 1000003)%Z).
  { induction l0 as [|i l0 IH]; intros h H; [exact H|]. simpl. apply IH. apply Z.mod_pos_bound. lia. }
  apply K. lia.
Qed.

Definition three := words ["n"; "+"; "n"]%string.

Definition three_chart (all : bool) := chart word_accepts word_constrain sums three 50 all.

(** Decides [no_collisions] for the first columns. *)
Definition key_eqb (a b : hash_key) : bool :=
  let '(r, p, d, b1, e, ids) := a in
  let '(r', p', d', b2, e', ids') := b in
  Nat.eqb r r' && Nat.eqb p p' && Nat.eqb d d' && Nat.eqb b1 b2 && Nat.eqb e e' && nats_eqb ids ids'.

Definition column_clear {token pred} (hash : hash_key -> Z) (l : list (state token pred)) : bool :=
  forallb (fun a => forallb (fun b =>
    negb (Z.eqb (hash (key_of a)) (hash (key_of b))) || key_eqb (key_of a) (key_of b)) l) l.

Lemma nats_eqb_true a : forall b, nats_eqb a b = true -> a = b.
Proof.
  induction a as [|x a IH]; intros [|y b] H; try discriminate; auto.
  simpl in H. apply andb_true_iff in H as (H1 & H2). apply Nat.eqb_eq in H1. f_equal; auto.
Qed.

Lemma key_eqb_true a b : key_eqb a b = true -> a = b.
Proof.
  destruct a as [[[[[r p] d] b1] e] ids], b as [[[[[r' p'] d'] b2] e'] ids']. simpl.
  rewrite !andb_true_iff, !Nat.eqb_eq. intros (((((-> & ->) & ->) & ->) & ->) & H).
  apply nats_eqb_true in H. congruence.
Qed.

Lemma column_clear_true {token pred} hash (l : list (state token pred)) a b :
  column_clear hash l = true -> In a l -> In b l ->
  hash (key_of a) = hash (key_of b) -> key_of a = key_of b.
Proof.
  unfold column_clear. rewrite forallb_forall. intros H Ha Hb E. specialize (H a Ha).
  rewrite forallb_forall in H. specialize (H b Hb). rewrite E, Z.eqb_refl in H. simpl in H.
  apply key_eqb_true. exact H.
Qed.

Lemma three_clear all : exists st, three_chart all = Some st /\ no_collisions small_hash st.
Proof.
  destruct (three_chart all) as [st|] eqn:E; [|destruct all; vm_compute in E; discriminate].
  exists st. split; auto. intros k a b.
  apply column_clear_true.
  destruct all; vm_compute in E; injection E as <-;
    (destruct k as [|[|[|[|k]]]]; vm_compute; reflexivity).
Qed.
