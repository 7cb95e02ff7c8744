(** Vocabulary for e-mail addresses and phone numbers. *)
From Verif Require Import Base TokenModel TokenizerModel TokenizerSpec.
Open Scope nat_scope.

Section Chars.
  Variable C : chars.
  (** A letter A-Z or a-z, a digit 0-9, or one of the others, in either case. *)
  Definition plain_char (others : list N) (c : N) : Prop :=
    exists x, In x (c_folds C c) /\ ((97 <= x <= 122)%N \/ (65 <= x <= 90)%N \/ (48 <= x <= 57)%N \/ In x others).
  (** "@", "." and "+". *)
  Definition at_char (c : N) : Prop := In 64%N (c_folds C c).
  Definition dot_char (c : N) : Prop := In 46%N (c_folds C c).
  Definition plus_char (c : N) : Prop := In 43%N (c_folds C c).
  (** Before the "@": also "_", ".", "+", "-"; then also "-"; behind the first "." also "-", ".". *)
  Definition name_char : N -> Prop := plain_char [95; 46; 43; 45]%N.
  Definition host_char : N -> Prop := plain_char [45]%N.
  Definition tail_char : N -> Prop := plain_char [45; 46]%N.
  (** name@host.tail *)
  Definition address (v : str) : Prop :=
    exists name a host d tail, v = name ++ a :: host ++ d :: tail /\
      name <> [] /\ Forall name_char name /\ at_char a /\ host <> [] /\ Forall host_char host /\ dot_char d /\ tail <> [] /\ Forall tail_char tail.
  Definition in_address (c : N) : Prop := name_char c \/ at_char c \/ host_char c \/ dot_char c \/ tail_char c.
  (** "@" and "." are no letters. *)
  Definition marks_apart : Prop := (forall c, at_char c -> ~ name_char c) /\ (forall c, dot_char c -> ~ host_char c).

  (** "-", "_", "(", ")" or white space. *)
  Definition gap_char (c : N) : Prop := (exists x, In x (c_folds C c) /\ In x [45; 95; 40; 41]%N) \/ ~ visible C c.
  (** A digit with at most one such character on each side. *)
  Definition phone_piece (v : str) : Prop :=
    exists a d b, v = a ++ d :: b /\ digit_char C d /\ length a <= 1 /\ length b <= 1 /\ Forall gap_char (a ++ b).
  Definition phone (v : str) : Prop :=
    exists sign pieces, v = sign ++ concat pieces /\ (sign = [] \/ exists p, sign = [p] /\ plus_char p) /\
      10 <= length pieces <= 14 /\ Forall phone_piece pieces.
  Definition digits_apart : Prop := forall c, digit_char C c -> ~ gap_char c /\ ~ plus_char c.
End Chars.

(** No rule matches the empty string. *)
Definition never_empty (t : tokenizer) : Prop := forall text r i, i <= length text -> In r (tk_rules t) -> ~ matches_at text r i i.
(** The rule comes first among those that match at the beginning of the text. *)
Definition first_at (t : tokenizer) (text : str) (r : token_rule) : Prop :=
  exists before after, tk_rules t = before ++ r :: after /\ forall r' j, In r' before -> ~ matches_at text r' 0 j.
