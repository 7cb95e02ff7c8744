(** Texts with e-mail addresses and numbers. *)
From Coq Require String.
From Verif Require Import Base TokenModel TokenizerModel TokenizerSpec TokenizerTheorems EmailSpec EmailProofs.
Import String.StringSyntax.
Open Scope nat_scope.

Lemma basic_marks : marks_apart basic_chars.
Proof.
  split; intros c A (x & X & H); unfold at_char, dot_char in A; apply basic_folds in A; apply basic_folds in X; cbn [In] in H; lia.
Qed.
Lemma basic_digits_apart : digits_apart basic_chars.
Proof.
  intros c D. apply basic_digit in D. split.
  - intros [(x & X & H)|H]; [apply basic_folds in X; cbn [In] in H; lia|apply basic_space in H; lia].
  - intros H. unfold plus_char in H. apply basic_folds in H. lia.
Qed.
(** The default rules after those for addresses and numbers. *)
Definition mail_tokenizer : tokenizer :=
  match default_tokenizer basic_chars with Ok t => fst (add_rules t [Some (EMAIL_RULE basic_chars)]) | Err _ => mkTokenizer [] [] [] end.
Definition phone_tokenizer : tokenizer :=
  match default_tokenizer basic_chars with Ok t => fst (add_rules t [Some (EMAIL_RULE basic_chars); Some (PHONE_RULE basic_chars)]) | Err _ => mkTokenizer [] [] [] end.
Lemma mail_made : exists t, default_tokenizer basic_chars = Ok t /\ add_rules t [Some (EMAIL_RULE basic_chars)] = (mail_tokenizer, Ok tt).
Proof. eexists. split; [reflexivity|]. reflexivity. Qed.
Lemma phone_made : exists t, default_tokenizer basic_chars = Ok t /\ add_rules t [Some (EMAIL_RULE basic_chars); Some (PHONE_RULE basic_chars)] = (phone_tokenizer, Ok tt).
Proof. eexists. split; [reflexivity|]. reflexivity. Qed.

Ltac destruct_all H := repeat (destruct H as [<-|H]; [lia|]); destruct H.
Lemma swallowed_dot : exists t t' v text ts tk, default_tokenizer basic_chars = Ok t /\ add_rules t [Some (EMAIL_RULE basic_chars)] = (t', Ok tt) /\
  address basic_chars v /\ text = str_of "to " ++ v ++ str_of "." /\ tokenize 99 t' text = Some (Ok ts) /\ In tk ts /\ t_type tk = str_of "EMAIL" /\ t_value tk = v ++ str_of ".".
Proof.
  destruct mail_made as (t & D & A). exists t, mail_tokenizer, (str_of "a@b.ru"), (str_of "to a@b.ru."). eexists. eexists. split; [exact D|]. split; [exact A|]. split.
  - exists (str_of "a"), 64%N, (str_of "b"), 46%N, (str_of "ru").
    assert (L : forall others c, (97 <= c <= 122)%N -> plain_char basic_chars others c) by (intros others c H; exists c; split; [left; reflexivity|auto]).
    split; [reflexivity|]. split; [discriminate|]. split; [apply Forall_forall; intros c H; apply L; vm_compute in H; destruct_all H|]. split; [left; reflexivity|]. split; [discriminate|]. split; [apply Forall_forall; intros c H; apply L; vm_compute in H; destruct_all H|]. split; [left; reflexivity|]. split; [discriminate|].
    apply Forall_forall; intros c H; apply L; vm_compute in H; destruct_all H.
  - split; [reflexivity|]. split; [vm_compute; reflexivity|]. split; [right; left; reflexivity|]. split; reflexivity.
Qed.
Lemma years_are_a_phone : exists t t' text, default_tokenizer basic_chars = Ok t /\ add_rules t [Some (EMAIL_RULE basic_chars); Some (PHONE_RULE basic_chars)] = (t', Ok tt) /\
  text = str_of "in 2010 2011 2012" /\
  tokenize 99 t' text = Some (Ok [mkToken (str_of "in") 0 2 LATIN None None; mkToken (str_of " 2010 2011 2012") 2 17 (str_of "PHONE") None None]).
Proof.
  destruct phone_made as (t & D & A). exists t, phone_tokenizer. eexists. split; [exact D|]. split; [exact A|]. split; [reflexivity|]. vm_compute. reflexivity.
Qed.
Lemma long_number_cut : exists t t' text, default_tokenizer basic_chars = Ok t /\ add_rules t [Some (EMAIL_RULE basic_chars); Some (PHONE_RULE basic_chars)] = (t', Ok tt) /\
  text = str_of "123456789012345" /\
  tokenize 99 t text = Some (Ok [mkToken text 0 15 INT None None]) /\
  tokenize 99 t' text = Some (Ok [mkToken (str_of "12345678901234") 0 14 (str_of "PHONE") None None; mkToken (str_of "5") 14 15 INT None None]).
Proof.
  destruct phone_made as (t & D & A). pose proof D as D'. injection D' as <-. eexists. exists phone_tokenizer. eexists. split; [exact D|]. split; [exact A|]. split; [reflexivity|]. split; vm_compute; reflexivity.
Qed.
