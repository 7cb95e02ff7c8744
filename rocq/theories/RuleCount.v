(** Counting repetitions of repetitions. *)
From Verif Require Import Base.
Open Scope nat_scope.

(** Sums of [k] numbers. *)
Inductive sums (Q : nat -> Prop) : nat -> nat -> Prop :=
| sums_zero : sums Q 0 0
| sums_more k n m : Q n -> sums Q k m -> sums Q (S k) (n + m).

Section Reps.
  Context {token : Type}.
  Notation language := (list token -> Prop).
  Inductive reps (L : language) : nat -> language :=
  | reps_none : reps L 0 []
  | reps_more n us ts : L us -> reps L n ts -> reps L (S n) (us ++ ts).
  Definition counts (Q : nat -> Prop) (L : language) : language := fun ts => exists n, Q n /\ reps L n ts.

  Lemma reps_mono (L L' : language) n : (forall ts, L ts -> L' ts) -> forall ts, reps L n ts -> reps L' n ts.
  Proof. intros H ts R. induction R; constructor; auto. Qed.
  Lemma counts_mono Q (L L' : language) : (forall ts, L ts -> L' ts) -> forall ts, counts Q L ts -> counts Q L' ts.
  Proof. intros H ts (n & q & R). exists n. split; [exact q|]. apply (reps_mono L L' n H ts R). Qed.
  Lemma counts_same Q (L L' : language) : (forall ts, L ts <-> L' ts) -> forall ts, counts Q L ts <-> counts Q L' ts.
  Proof. intros H ts. split; apply counts_mono; intros us; apply H. Qed.
  Lemma counts_sets (Q Q' : nat -> Prop) (L : language) : (forall n, Q n <-> Q' n) -> forall ts, counts Q L ts <-> counts Q' L ts.
  Proof. intros H ts. split; intros (n & q & R); exists n; (split; [apply H, q|exact R]). Qed.
  Lemma reps_app (L : language) n us : reps L n us -> forall m ts, reps L m ts -> reps L (n + m) (us ++ ts).
  Proof. intros R. induction R as [|n vs us l R IH]; intros m ts K; cbn; [exact K|]. rewrite <- app_assoc. constructor; auto. Qed.
  Lemma reps_split (L : language) n m : forall ts, reps L (n + m) ts -> exists us vs, ts = us ++ vs /\ reps L n us /\ reps L m vs.
  Proof.
    induction n as [|n IH]; intros ts R; cbn in R; [exists [], ts; split; [reflexivity|split; [constructor|exact R]]|].
    inversion R as [|k us ts' l R']; subst. destruct (IH ts' R') as (a & b & -> & Ra & Rb). exists (us ++ a), b. rewrite app_assoc. split; [reflexivity|]. split; [constructor; assumption|exact Rb].
  Qed.
  Lemma reps_counts Q (L : language) k : forall ts, reps (counts Q L) k ts <-> exists n, sums Q k n /\ reps L n ts.
  Proof.
    induction k as [|k IH]; intros ts; split.
    - intros R. inversion R; subst. exists 0. split; constructor.
    - intros (n & S & R). inversion S; subst. inversion R; subst. constructor.
    - intros R. inversion R as [|? us ts' (n & q & Rn) R']; subst. apply IH in R' as (m & S & Rm). exists (n + m). split; [constructor; assumption|]. apply reps_app; assumption.
    - intros (x & S & R). inversion S as [|? n m q S']; subst. apply reps_split in R as (us & vs & -> & Ru & Rv). constructor; [exists n; auto|]. apply IH. eauto.
  Qed.
  (** A quantifier put on a quantifier. *)
  Lemma counts_counts Q Q' (L : language) ts : counts Q (counts Q' L) ts <-> counts (fun n => exists k, Q k /\ sums Q' k n) L ts.
  Proof.
    split.
    - intros (k & q & R). apply reps_counts in R as (n & S & R). exists n. eauto.
    - intros (n & (k & q & S) & R). exists k. split; [exact q|]. apply reps_counts. eauto.
  Qed.
End Reps.

Section Sums.
  Variable Q : nat -> Prop.
  Lemma sums_ones k : Q 1 -> sums Q k k.
  Proof. intros q. induction k as [|k IH]; [constructor|]. apply (sums_more Q k 1 k q IH). Qed.
  Lemma sums_one n : sums Q 1 n <-> Q n.
  Proof.
    split; [|intros q; rewrite <- (Nat.add_0_r n); apply (sums_more Q 0 n 0 q), sums_zero].
    intros S. inversion S as [|k x m q S']; subst. inversion S'; subst. rewrite Nat.add_0_r. exact q.
  Qed.
  Lemma sums_low k n : (forall x, Q x -> 1 <= x) -> sums Q k n -> k <= n.
  Proof. intros L S. induction S as [|k x m q S IH]; [lia|]. specialize (L x q). lia. Qed.
  Lemma sums_maybe k n : sums (fun x => x <= 1) k n <-> n <= k.
  Proof.
    split; [intros S; induction S; lia|]. revert n. induction k as [|k IH]; intros n L; [replace n with 0 by lia; constructor|].
    destruct n as [|n]; [apply (sums_more _ k 0 0); [lia|apply IH; lia]|apply (sums_more _ k 1 n); [lia|apply IH; lia]].
  Qed.
End Sums.
