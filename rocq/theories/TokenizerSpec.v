(** Vocabulary of the tokenizer properties. *)
From Verif Require Import Base TokenModel TokenizerModel.
Open Scope nat_scope.

(** The token's value is the piece of the text between its start and stop. *)
Definition faithful (text : str) (t : token) : Prop :=
  exists before after, text = before ++ t_value t ++ after /\
    t_start t = Z.of_nat (length before) /\ t_stop t = Z.of_nat (length before + length (t_value t)).

(** Each token stops before or where the following ones start. *)
Definition in_order (ts : list token) : Prop :=
  forall l1 a l2 b l3, ts = l1 ++ a :: l2 ++ b :: l3 -> (t_stop a <= t_start b)%Z.

(** The character at position [k] belongs to the token. *)
Definition covers (t : token) (k : nat) : Prop := (t_start t <= Z.of_nat k < t_stop t)%Z.
Definition covered (ts : list token) (k : nat) : bool :=
  existsb (fun t => (t_start t <=? Z.of_nat k)%Z && (Z.of_nat k <? t_stop t)%Z) ts.

(** The text with the characters outside tokens replaced by one space between
    tokens and dropped at both ends. *)
Fixpoint squeeze (keep : nat -> bool) (k : nat) (started gap : bool) (text : str) : str :=
  match text with
  | [] => []
  | c :: rest =>
      if keep k then (if started && gap then [32%N] else []) ++ c :: squeeze keep (S k) true false rest
      else squeeze keep (S k) started true rest
  end.

(** ** Character classes of the default rules *)
Section Classes.
  Variable C : chars.
  Definition ru_char (c : N) : Prop := exists x, In x (c_folds C c) /\ (1072 <= x <= 1103 \/ x = 1105)%N.
  Definition latin_char (c : N) : Prop := exists x, In x (c_folds C c) /\ (97 <= x <= 122)%N.
  Definition digit_char (c : N) : Prop := c_digit C c = true.
  Definition punct_char (c : N) : Prop := exists x, In x (c_folds C c) /\
    In x [45; 92; 47; 33; 35; 36; 37; 38; 40; 41; 91; 93; 42; 43; 44; 46; 58; 59; 60; 61; 62; 63; 64; 94;
          95; 96; 123; 124; 125; 126; 8470; 8230; 34; 39; 171; 187; 8222; 8220; 700; 699; 8221]%N.
  Definition eol_char (c : N) : Prop := exists x, In x (c_folds C c) /\ (x = 10 \/ x = 13)%N.
  Definition visible (c : N) : Prop := c_space C c = false.

  (** The classes of tokens made of several characters. *)
  Definition word_classes : list (str * (N -> Prop)) :=
    [(RU, ru_char); (LATIN, latin_char); (INT, digit_char); (EOL, eol_char)].
  (** All classes, in the order of the rules. *)
  Definition classes : list (str * (N -> Prop)) :=
    [(RU, ru_char); (LATIN, latin_char); (INT, digit_char); (PUNCT, punct_char); (EOL, eol_char); (OTHER, visible)].

  (** What is assumed about the character tables. *)
  Record sane : Prop := {
    ru_not_latin : forall c, ru_char c -> ~ latin_char c;
    ru_not_digit : forall c, ru_char c -> ~ digit_char c;
    latin_not_digit : forall c, latin_char c -> ~ digit_char c;
    ru_visible : forall c, ru_char c -> visible c;
    latin_visible : forall c, latin_char c -> visible c;
    digit_visible : forall c, digit_char c -> visible c;
    punct_visible : forall c, punct_char c -> visible c;
    eol_space : forall c, eol_char c -> ~ visible c;
    space_space : ~ visible 32%N }.

  (** [ty] is the first class of the list that has [c]. *)
  Definition first_class (c : N) (ty : str) : Prop :=
    exists before P after, classes = before ++ (ty, P) :: after /\ P c /\
      forall ty' P', In (ty', P') before -> ~ P' c.
End Classes.

(** ** Configurations *)

(** The compiled expression belongs to the rules. *)
Definition compiled (t : tokenizer) : Prop :=
  tk_types t = map r_type (tk_rules t) /\
  Forall2 (fun r p => fst p = r_type r /\ r_pattern r = Some (snd p)) (tk_rules t) (tk_regexp t).

(** ** Priorities *)

Definition matches_at (text : str) (r : token_rule) (i j : nat) : Prop :=
  exists p, r_pattern r = Some p /\ In j (ends text p i).

(** The token at [s, e) after position [i]. *)
Definition chosen (rules : list token_rule) (text : str) (i s e : nat) (ty : str) : Prop :=
  (exists before r after, rules = before ++ r :: after /\ ty = r_type r /\ matches_at text r s e /\
     forall r' j, In r' before -> s < j -> ~ matches_at text r' s j) /\
  (forall r k j, In r rules -> i <= k < s -> k < j -> ~ matches_at text r k j).

(** The list of tokens with the position from which each was searched. *)
Fixpoint all_chosen (rules : list token_rule) (text : str) (i : nat) (ts : list token) : Prop :=
  match ts with
  | [] => forall r k j, In r rules -> i <= k <= length text -> k < j -> ~ matches_at text r k j
  | t :: ts' => exists s e, t_start t = Z.of_nat s /\ t_stop t = Z.of_nat e /\ chosen rules text i s e (t_type t) /\
      all_chosen rules text e ts'
  end.
(** ** The morphology cache *)
Section Lookups.
  Variable size : nat.
  Variable raw_parse : nat -> str -> list (str * list str * nat).
  (** A history of lookups from an empty cache. *)
  Fixpoint lookups (h : list (nat * str)) (c : cache) : cache * list (list form) :=
    match h with
    | [] => (c, [])
    | (self, w) :: h' =>
        let (c1, v) := cached_analyze size raw_parse self w c in
        let (c2, vs) := lookups h' c1 in (c2, v :: vs)
    end.
End Lookups.
