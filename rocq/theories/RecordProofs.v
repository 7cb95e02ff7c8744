(** Equality and hashes of records. *)
From Verif Require Import Base PredicateProofs FactProofs RecordModel.
Open Scope nat_scope.

(** Equal values, independently of who is asked. *)
Inductive same : value -> value -> Prop :=
| same_none : same VNone VNone
| same_int z : same (VInt z) (VInt z)
| same_str s : same (VStr s) (VStr s)
| same_tuple xs ys : all_same xs ys -> same (VTuple xs) (VTuple ys)
| same_list xs ys : all_same xs ys -> same (VList xs) (VList ys)
| same_set f f' xs ys : (forall s, In s xs <-> In s ys) -> same (VSet f xs) (VSet f' ys)
| same_object i : same (VObject i) (VObject i)
| same_record c xs ys : all_same xs ys -> same (VRecord c xs) (VRecord c ys)
| same_span a b a' b' : same a a' -> same b b' -> same (VSpan a b) (VSpan a' b')
| same_span_tuple a b a' b' : same a a' -> same b b' -> same (VSpan a b) (VTuple [a'; b'])
| same_tuple_span a b a' b' : same a a' -> same b b' -> same (VTuple [a; b]) (VSpan a' b')
| same_forward i : same (VForward i) (VForward i)
with all_same : list value -> list value -> Prop :=
| all_same_nil : all_same [] []
| all_same_cons x y xs ys : same x y -> all_same xs ys -> all_same (x :: xs) (y :: ys).

Fixpoint eq_all (xs ys : list value) : bool :=
  match xs, ys with
  | [], [] => true
  | x :: xs', y :: ys' => py_eq x y && eq_all xs' ys'
  | _, _ => false
  end.
Section Ind.
  Variable P : value -> Prop.
  Hypothesis HN : P VNone. Hypothesis HI : forall z, P (VInt z). Hypothesis HS : forall s, P (VStr s).
  Hypothesis HT : forall xs, Forall P xs -> P (VTuple xs). Hypothesis HL : forall xs, Forall P xs -> P (VList xs).
  Hypothesis HF : forall f xs, P (VSet f xs). Hypothesis HO : forall i, P (VObject i).
  Hypothesis HR : forall c xs, Forall P xs -> P (VRecord c xs). Hypothesis HP : forall a b, P a -> P b -> P (VSpan a b).
  Hypothesis HW : forall i, P (VForward i).
  Fixpoint value_ind2 (v : value) : P v :=
    let fix all (xs : list value) : Forall P xs := match xs with [] => Forall_nil P | x :: xs' => Forall_cons (P := P) x (value_ind2 x) (all xs') end in
    match v with
    | VNone => HN | VInt z => HI z | VStr s => HS s | VTuple xs => HT xs (all xs) | VList xs => HL xs (all xs) | VSet f xs => HF f xs
    | VObject i => HO i | VRecord c xs => HR c xs (all xs) | VSpan a b => HP a b (value_ind2 a) (value_ind2 b) | VForward i => HW i
    end.
End Ind.
Lemma subset_ok a b : subset a b = true <-> forall s, In s a -> In s b.
Proof.
  unfold subset. rewrite forallb_forall. split; intros H s K.
  - apply H in K. apply existsb_exists in K as (y & K & E). apply str_eqb_eq in E. subst. exact K.
  - apply existsb_exists. exists s. split; [apply H, K|apply str_eqb_refl].
Qed.
Theorem py_eq_same : forall a b, py_eq a b = true <-> same a b.
Proof.
  assert (L : forall xs, Forall (fun a => forall b, py_eq a b = true <-> same a b) xs -> forall ys, eq_all xs ys = true <-> all_same xs ys).
  { induction xs as [|x xs IH]; intros F [|y ys]; cbn; try (split; [discriminate|intros K; inversion K]); [split; [constructor|reflexivity]|].
    inversion F; subst. rewrite andb_true_iff, H1, IH by assumption. split; [intros [A B]; constructor; assumption|intros K; inversion K; auto]. }
  induction a as [ |z|s|xs F|xs F|f xs|i|c xs F|a1 a2 IH1 IH2|i] using value_ind2; intros b; split; intros H.
  - destruct b; try discriminate. constructor.
  - inversion H. reflexivity.
  - destruct b; try discriminate. cbn in H. apply Z.eqb_eq in H as ->. constructor.
  - inversion H. apply Z.eqb_refl.
  - destruct b; try discriminate. cbn in H. apply str_eqb_eq in H as ->. constructor.
  - inversion H. apply str_eqb_refl.
  - destruct b as [ | | |ys| | | | |s1 s2| ]; try discriminate.
    + constructor. apply L; assumption.
    + change (eq_all xs [s1; s2] = true) in H. apply (L xs F) in H. inversion H as [|x y xs' ys' K1 K2 E1]; subst. inversion K2 as [|x2 y2 xs2 ys2 K3 K4]; subst. inversion K4; subst. constructor; assumption.
  - inversion H as [| | |? ys K| | | | | | |x1 x2 y1 y2 K1 K2|]; subst.
    + change (eq_all xs ys = true). apply L; assumption.
    + change (eq_all [x1; x2] [y1; y2] = true). apply L; [exact F|]. repeat constructor; assumption.
  - destruct b; try discriminate. constructor. apply L; assumption.
  - inversion H as [| | | |? ys K| | | | | | |]; subst. change (eq_all xs ys = true). apply L; assumption.
  - destruct b; try discriminate. cbn in H. apply andb_true_iff in H as [A B]. rewrite subset_ok in A, B. constructor. split; auto.
  - inversion H as [| | | | |? ? ? ys K| | | | | |]; subst. cbn. apply andb_true_iff. rewrite !subset_ok. split; intros s; apply K.
  - destruct b; try discriminate. cbn in H. apply Nat.eqb_eq in H as ->. constructor.
  - inversion H. apply Nat.eqb_refl.
  - destruct b as [ | | | | | | |d ys| | ]; try discriminate. change (Nat.eqb c d && eq_all xs ys = true) in H. apply andb_true_iff in H as [A B]. apply Nat.eqb_eq in A as ->. constructor. apply L; assumption.
  - inversion H as [| | | | | | |? ? ys K| | | |]; subst. change (Nat.eqb c c && eq_all xs ys = true). rewrite Nat.eqb_refl. apply L; assumption.
  - destruct b as [ | | |[|y1 [|y2 [|]]]| | | | |s1 s2| ]; try discriminate; cbn in H; apply andb_true_iff in H as [A B]; apply IH1 in A; apply IH2 in B; constructor; assumption.
  - inversion H as [| | | | | | | |? ? y1 y2 K1 K2|? ? y1 y2 K1 K2| |]; subst; cbn; apply andb_true_iff; split; [apply IH1|apply IH2|apply IH1|apply IH2]; assumption.
  - destruct b; try discriminate. cbn in H. apply Nat.eqb_eq in H as ->. constructor.
  - inversion H. apply Nat.eqb_refl.
Qed.
Theorem eq_reflexive : forall a, py_eq a a = true.
Proof.
  intros a. apply py_eq_same. induction a as [ |z|s|xs F|xs F|f xs|i|c xs F|a1 a2 IH1 IH2|i] using value_ind2; try constructor; auto; try tauto; induction F; constructor; auto.
Qed.
Scheme same_mind := Induction for same Sort Prop with all_same_mind := Induction for all_same Sort Prop.
Lemma same_sym a b (H : same a b) : same b a.
Proof. revert a b H. apply (same_mind (fun a b _ => same b a) (fun xs ys _ => all_same ys xs)); intros; try (constructor; auto; fail). constructor. intros s. symmetry. auto. Qed.
Theorem eq_symmetric : forall a b, py_eq a b = py_eq b a.
Proof.
  intros a b. destruct (py_eq a b) eqn:A, (py_eq b a) eqn:B; try reflexivity.
  - apply py_eq_same, same_sym, py_eq_same in A. congruence.
  - apply py_eq_same, same_sym, py_eq_same in B. congruence.
Qed.
Lemma same_trans a b (H : same a b) : forall c, same b c -> same a c.
Proof.
  revert a b H. apply (same_mind (fun a b _ => forall c, same b c -> same a c) (fun xs ys _ => forall zs, all_same ys zs -> all_same xs zs)); intros;
    match goal with K : same _ _ |- same _ _ => inversion K; subst; clear K | K : all_same _ _ |- all_same _ _ => inversion K; subst; clear K end; try (constructor; auto; fail).
  - inversion a as [|? ? ? ? K1 K2]; subst. inversion K2 as [|? ? ? ? K3 K4]; subst. inversion K4; subst. specialize (H [a'; b'] ltac:(repeat constructor; assumption)). inversion H as [|? ? ? ? J1 J2]; subst. inversion J2; subst. constructor; assumption.
  - constructor. intros s. rewrite i. auto.
  - match goal with K : all_same [_; _] _ |- _ => inversion K as [|? ? ? ? J1 J2]; subst; inversion J2 as [|? ? ? ? J3 J4]; subst; inversion J4; subst end. constructor; auto.
  - constructor. repeat constructor; auto.
Qed.
Theorem eq_transitive : forall a b c, py_eq a b = true -> py_eq b c = true -> py_eq a c = true.
Proof. intros a b c A B. apply py_eq_same in A, B. apply py_eq_same. eapply same_trans; eassumption. Qed.
Theorem py_ne_same : forall a b, py_ne a b = true <-> ~ same a b.
Proof. intros a b. unfold py_ne. rewrite negb_true_iff, <- py_eq_same, not_true_iff_false. tauto. Qed.

Section Hash.
  Variable hash_none : Z.
  Variable hash_int : Z -> Z.
  Variable hash_str : str -> Z.
  Variable hash_tuple : list Z -> Z.
  Variable hash_set : list str -> Z.
  Variable hash_object : nat -> Z.
  Notation hash := (py_hash hash_none hash_int hash_str hash_tuple hash_set hash_object).
  Fixpoint hash_all (xs : list value) : res (list Z) :=
    match xs with
    | [] => Ok []
    | x :: xs' => let! z := hash x in let! zs := hash_all xs' in Ok (z :: zs)
    end.
  (** Sets with the same elements have the same hash (a fact about Python). *)
  Hypothesis sets : forall xs ys, (forall s, In s xs <-> In s ys) -> hash_set xs = hash_set ys.
  Theorem hash_consistent : forall a b x y, py_eq a b = true -> hash a = Ok x -> hash b = Ok y -> x = y.
  Proof.
    intros a b x y H. apply py_eq_same in H. revert x y. revert a b H.
    apply (same_mind (fun a b _ => forall x y, hash a = Ok x -> hash b = Ok y -> x = y) (fun xs ys _ => forall x y, hash_all xs = Ok x -> hash_all ys = Ok y -> x = y)); intros;
      try (cbn in *; congruence).
    - change (hash (VTuple xs)) with (let! zs := hash_all xs in Ok (hash_tuple zs)) in *. change (hash (VTuple ys)) with (let! zs := hash_all ys in Ok (hash_tuple zs)) in *.
      destruct (hash_all xs), (hash_all ys); cbn in *; try discriminate. rewrite (H _ _ eq_refl eq_refl) in *. congruence.
    - cbn in *. destruct f, f'; try discriminate. rewrite (sets _ _ i) in *. congruence.
    - change (hash (VRecord c xs)) with (let! zs := hash_all xs in Ok (hash_tuple zs)) in *. change (hash (VRecord c ys)) with (let! zs := hash_all ys in Ok (hash_tuple zs)) in *.
      destruct (hash_all xs), (hash_all ys); cbn in *; try discriminate. rewrite (H _ _ eq_refl eq_refl) in *. congruence.
    - cbn [hash_all] in *. destruct (hash x), (hash y); cbn in *; try discriminate. destruct (hash_all xs), (hash_all ys); cbn in *; try discriminate. rewrite (H _ _ eq_refl eq_refl), (H0 _ _ eq_refl eq_refl) in *. congruence.
  Qed.
  Theorem token_unhashable text start stop type : hash (token_value text start stop type) = Err TypeError.
  Proof. reflexivity. Qed.
  Theorem rule_unhashable productions : hash (rule_value productions) = Err TypeError.
  Proof. reflexivity. Qed.
  Theorem form_hashable normalized grams : exists z, hash (form_value normalized grams) = Ok z.
  Proof. cbn. eauto. Qed.
End Hash.
Theorem span_hash : exists a b, py_eq a b = true /\
  forall hash_none hash_int hash_str hash_tuple hash_set hash_object,
  let hash := py_hash hash_none hash_int hash_str hash_tuple hash_set hash_object in
  hash a = Err TypeError /\ exists z, hash b = Ok z.
Proof. exists (VSpan (VInt 0) (VInt 1)), (VTuple [VInt 0; VInt 1]). split; [reflexivity|]. intros. split; [reflexivity|]. cbn. eauto. Qed.
Theorem hashable :
  forall hash_none hash_int hash_str hash_tuple hash_set hash_object,
  let hash := py_hash hash_none hash_int hash_str hash_tuple hash_set hash_object in
  (forall text start stop type, hash (token_value text start stop type) = Err TypeError) /\
  (forall productions, hash (rule_value productions) = Err TypeError) /\
  (forall normalized grams, exists z, hash (form_value normalized grams) = Ok z).
Proof. intros. split; [apply token_unhashable|]. split; [apply rule_unhashable|apply form_hashable]. Qed.
