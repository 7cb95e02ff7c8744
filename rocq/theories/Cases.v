(** Concrete grammars and texts used by the examples beside the theorems.  Not
    part of the model. *)
From Coq Require String.
From Verif Require Import Base EarleyModel EarleySpec TokenModel TreeModel ParserModel ParserSpec TreeSpec.

Definition RULE (r : nat) : term str := TRule r.
Definition WORD (s : String.string) : term str := TPred (str_of s).

Arguments WORD s%string.

(** Predicates are words; they accept the token with that value. *)
Definition word_accepts (p : str) (t : token) : bool := str_eqb p (t_value t).
Definition word_constrain (p : str) (t : token) : token := t.

(** Tokens separated by single spaces. *)
Fixpoint words_from (at_ : Z) (ws : list String.string) : list token :=
  match ws with
  | [] => []
  | w :: ws' =>
      let v := str_of w in
      let stop := (at_ + Z.of_nat (length v))%Z in
      mkToken v at_ stop [] None None :: words_from (stop + 1) ws'
  end.
Definition words (ws : list String.string) : list token := words_from 0 ws.

Arguments words ws%string.

(** A grammar given by the productions of each rule and the terms of each
    production, with every production predicted (rule/bnf.py 58-59). *)
Definition list_grammar {pred} (rules : list (list nat)) (prods : list (list (term pred)))
    (main : nat -> nat) (relation : nat -> option nat) : grammar token pred :=
  mkGrammar (fun r => nth r rules []) (fun r _ => nth r rules []) (fun q => nth q prods [])
    main (fun _ => None) relation (fun _ => None) 0.
Definition plain_grammar rules prods : grammar token str :=
  list_grammar rules prods (fun _ => 0) (fun _ => None).

Section Lists.
  Context {pred : Type}.
  Variable rules : list (list nat).
  Variable prods : list (list (term pred)).
  Variable main : nat -> nat.
  Variable relation : nat -> option nat.
  Notation G := (list_grammar rules prods main relation).

  Lemma list_sound : predict_sound G.
  Proof. intros r t q H. exact H. Qed.
  Lemma list_complete accepts : predict_complete accepts G.
  Proof. intros r t q H _. exact H. Qed.
  Lemma list_filters : predict_filters G.
  Proof.
    intros r t. exists (fun _ => true). cbn. induction (nth r rules []) as [|a l IH]; [reflexivity|].
    cbn. congruence.
  Qed.

  Definition all_rules := seq 0 (length rules).
  Definition refers_ok : bool :=
    Nat.ltb 0 (length rules) &&
    forallb (fun ts => forallb (fun t => match t with TRule r => Nat.ltb r (length rules) | _ => true end) ts) prods.
  Lemma nth_ok {A} (f : A -> bool) d l n : forallb f l = true -> f d = true -> f (nth n l d) = true.
  Proof.
    intros H Hd. destruct (nth_in_or_default n l d) as [X|X]; [|rewrite X; auto].
    rewrite forallb_forall in H. auto.
  Qed.
  Lemma list_finite : refers_ok = true -> finite_grammar G all_rules.
  Proof.
    unfold refers_ok. rewrite andb_true_iff. intros [A B]. apply Nat.ltb_lt in A. split.
    - apply in_seq. cbn. lia.
    - intros r q r' _ _ H. cbn in H.
      apply (nth_ok _ [] _ q) in B; [|reflexivity]. rewrite forallb_forall in B.
      specialize (B _ H). cbn in B. apply Nat.ltb_lt in B. apply in_seq. lia.
  Qed.

  Definition no_empty_prods : bool := forallb (fun qs => forallb (fun q => negb (Nat.eqb (length (nth q prods [])) 0)) qs) rules.
  Lemma list_no_nullable : no_empty_prods = true -> no_nullable G.
  Proof.
    intros H r N. remember (TRule r) as t eqn:E. revert r E. induction N as [r q HI HN IH]. intros r' [= <-].
    unfold no_empty_prods in H. apply (nth_ok _ [] _ r) in H; [|reflexivity].
    rewrite forallb_forall in H. cbn in HI. specialize (H q HI). cbn in IH, HN.
    destruct (nth q prods []) as [|t ts]; [discriminate|].
    destruct t as [r1|p].
    - eapply IH; [left; reflexivity|reflexivity].
    - specialize (HN (TPred p) (or_introl eq_refl)). inversion HN.
  Qed.

  (** Every recursive step consumes a token or goes down in [level]. *)
  Definition has_pred (ts : list (term pred)) : bool := existsb (fun t => match t with TPred _ => true | _ => false end) ts.
  Definition level_ok (level : nat -> nat) : bool :=
    forallb (fun r => forallb (fun q =>
      let ts := nth q prods [] in
      has_pred ts || forallb (fun t => match t with TRule r' => Nat.ltb (level r') (level r) | _ => true end) ts)
      (nth r rules [])) all_rules.
  Lemma list_acyclic level : level_ok level = true -> acyclic G.
  Proof.
    intros H. exists level. intros r q pre r' post HI HT HN. cbn in HI, HT.
    unfold level_ok in H. rewrite forallb_forall in H.
    destruct (Nat.lt_ge_cases r (length rules)) as [L|L].
    2:{ rewrite nth_overflow in HI by auto. destruct HI. }
    specialize (H r ltac:(apply in_seq; lia)). rewrite forallb_forall in H.
    specialize (H q HI). cbn zeta in H. rewrite HT in H. apply orb_true_iff in H as [H|H].
    - exfalso. unfold has_pred in H. apply existsb_exists in H as (t & Ht & Hp).
      destruct t as [|p]; [discriminate|]. specialize (HN (TPred p)).
      assert (In (TPred p) (pre ++ post)).
      { apply in_app_or in Ht as [Ht|[Ht|Ht]]; [|discriminate|]; apply in_or_app; auto. }
      specialize (HN H). inversion HN.
    - rewrite forallb_forall in H. specialize (H (TRule r')). cbn in H. apply Nat.ltb_lt. apply H.
      apply in_or_app. right. left. reflexivity.
  Qed.

  Definition start_fresh : bool := forallb (fun ts => forallb (fun t => match t with TRule 0 => false | _ => true end) ts) prods.
  Lemma list_start_not_used : start_fresh = true -> start_not_used G.
  Proof.
    intros H q HI. cbn in HI. apply (nth_ok _ [] _ q) in H; [|reflexivity].
    rewrite forallb_forall in H. specialize (H _ HI). discriminate.
  Qed.
End Lists.

(** What the parser returns, without object identities: ranges and
    derivations. *)
Definition shown {pred} (m : @amatch pred) : (nat * nat) * dtree pred := (m_range m, erase (m_root m)).
Definition show_trees {pred} (r : option (list (@tree pred))) : option (list ((nat * nat) * dtree pred)) :=
  option_map (map (fun t => (snd t, erase (fst t)))) r.
Definition show_matches {pred} (r : option (res (store * list (@amatch pred)))) : option (res (list ((nat * nat) * dtree pred))) :=
  option_map (fun r => let! (s, ms) := r in Ok (map shown ms)) r.
Definition show_match {pred} (r : option (res (store * option (@amatch pred)))) : option (res (option ((nat * nat) * dtree pred))) :=
  option_map (fun r => let! (s, m) := r in Ok (option_map shown m)) r.

(** Sums: S -> E;  E -> E '+' E | 'n'. *)
Definition sums : grammar token str :=
  plain_grammar [[0]; [1; 2]] [[RULE 1]; [RULE 1; WORD "+"; RULE 1]; [WORD "n"]].
