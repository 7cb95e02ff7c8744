(** Model of yargy/tokenizer.py, of the parts of Python's [re] it relies on, and
    of MorphAnalyzer/CachedMorphAnalyzer of yargy/morph.py.

    Patterns are given as syntax trees here; PatternModel.v has the strings and their
    joining.  A pattern that [re.compile] rejects is [None]. *)
From Verif Require Import Base TokenModel.

(** Regular expressions; [RSet] is a one-character item under the flags UNICODE
    and IGNORECASE, [RStar] is greedy or not, [RAssert] is any zero-width assertion
    (anchors, lookarounds). *)
Inductive regex :=
| REmpty
| RSet (c : N -> bool)
| RSeq (a b : regex)
| RAlt (a b : regex)
| RStar (greedy : bool) (a : regex)
| RAssert (holds : str -> nat -> bool).

(** [a+], [a?], [a{m,n}]. *)
Definition rplus (a : regex) : regex := RSeq a (RStar true a).
Definition ropt (a : regex) : regex := RAlt a REmpty.
Fixpoint rupto (n : nat) (a : regex) : regex :=
  match n with O => REmpty | S n' => ropt (RSeq a (rupto n' a)) end.
Fixpoint rtimes (m : nat) (a b : regex) : regex :=
  match m with O => b | S m' => RSeq a (rtimes m' a b) end.
Definition rbetween (m n : nat) (a : regex) : regex := rtimes m a (rupto (n - m) a).

(** The greedy loop: try the body, then stop; the other one the other way round.  An
    iteration that consumed nothing is not repeated.  [fuel] bounds the number of
    iterations that consume a character. *)
Fixpoint star_ends (greedy : bool) (body : nat -> list nat) (fuel i : nat) : list nat :=
  match fuel with
  | O => [i]
  | S fuel' =>
      let more := flat_map (fun j => if i <? j then star_ends greedy body fuel' j else [j]) (body i) in
      if greedy then more ++ [i] else i :: more
  end.

(** The stop positions of the matches of [r] at position [i] of [text] in the
    order in which the backtracking matcher tries them. *)
Fixpoint ends (text : str) (r : regex) (i : nat) : list nat :=
  match r with
  | REmpty => [i]
  | RSet c => match nth_error text i with Some x => if c x then [S i] else [] | None => [] end
  | RSeq a b => flat_map (ends text b) (ends text a i)
  | RAlt a b => ends text a i ++ ends text b i
  | RStar greedy a => star_ends greedy (ends text a) (S (length text)) i
  | RAssert holds => if holds text i then [i] else []
  end.

(** tokenizer.py 10-15.  [r_id]: the identity of the TokenRule object. *)
Record token_rule := mkRule {
  r_id : nat;
  r_type : str;
  r_pattern : option regex }.

(** tokenizer.py 53-61: the attributes [rules], [regexp] and [types] ([mapping]
    gives the type of each group of [regexp]).  The compiled regexp is kept as the
    list of its alternatives. *)
Record tokenizer := mkTokenizer {
  tk_rules : list token_rule;
  tk_regexp : list (str * regex);
  tk_types : list str }.

(** [re.compile] of the joined pattern: fails when a pattern is invalid or a group
    name (made from the identity of the rule) is used twice. *)
Fixpoint compile_patterns (seen : list nat) (rules : list token_rule) : res (list (str * regex)) :=
  match rules with
  | [] => Ok []
  | r :: rules' =>
      match r_pattern r with
      | None => Err ReError
      | Some p =>
          if existsb (Nat.eqb (r_id r)) seen then Err ReError
          else let! ps := compile_patterns (r_id r :: seen) rules' in Ok ((r_type r, p) :: ps)
      end
  end.

(** tokenizer.py 80-96. *)
Definition compile (rules : list token_rule) : res (list (str * regex) * list str) :=
  let! ps := compile_patterns [] rules in Ok (ps, map r_type rules).

(** An argument given to [add_rules] or [reset]: a TokenRule or something else
    (check.py 3-10). *)
Definition rule_arg := option token_rule.
Fixpoint assert_rules (args : list rule_arg) : res (list token_rule) :=
  match args with
  | [] => Ok []
  | None :: _ => Err TypeError
  | Some r :: args' => let! rs := assert_rules args' in Ok (r :: rs)
  end.

(** tokenizer.py 57-61: the tokenizer after the call (also when it raises:
    [self.rules] is assigned before [compile]) and the outcome. *)
Definition reset (t : tokenizer) (args : list rule_arg) : tokenizer * res unit :=
  match assert_rules args with
  | Err e => (t, Err e)
  | Ok rules =>
      match compile rules with
      | Err e => (mkTokenizer rules (tk_regexp t) (tk_types t), Err e)
      | Ok (regexp, types) => (mkTokenizer rules regexp types, Ok tt)
      end
  end.

(** tokenizer.py 54-55: the constructor; the attributes do not exist before. *)
Definition new_tokenizer (args : list rule_arg) : res tokenizer :=
  let (t, r) := reset (mkTokenizer [] [] []) args in
  let! _ := r in Ok t.

(** tokenizer.py 63-65. *)
Definition add_rules (t : tokenizer) (args : list rule_arg) : tokenizer * res unit :=
  reset t (args ++ map Some (tk_rules t)).

(** tokenizer.py 76-78. *)
Definition check_type (t : tokenizer) (type : str) : res unit :=
  if str_in type (tk_types t) then Ok tt else Err ValueError.

Fixpoint check_types (t : tokenizer) (types : list str) : res unit :=
  match types with
  | [] => Ok tt
  | ty :: types' => let! _ := check_type t ty in check_types t types'
  end.

(** tokenizer.py 67-74. *)
Definition remove_types (t : tokenizer) (types : list str) : tokenizer * res unit :=
  match check_types t types with
  | Err e => (t, Err e)
  | Ok _ => reset t (map Some (filter (fun r => negb (str_in (r_type r) types)) (tk_rules t)))
  end.

(** The matches of the compiled regexp at position [i], in order: (stop, type of
    the group).  Without rules the pattern is empty: it matches the empty string
    and no group ([match.lastgroup] is None). *)
Definition alternatives (t : tokenizer) (text : str) (i : nat) : list (nat * option str) :=
  match tk_regexp t with
  | [] => [(i, None)]
  | ps => flat_map (fun '(ty, p) => map (fun j => (j, Some ty)) (ends text p i)) ps
  end.

(** [finditer] does not accept an empty match at the place where the previous
    match was empty. *)
Definition candidates (t : tokenizer) (text : str) (must_advance : bool) (i : nat) :=
  filter (fun c => negb (must_advance && Nat.eqb (fst c) i)) (alternatives t text i).

(** The leftmost match at a position [>= i]; [n] positions follow [i]. *)
Fixpoint search (t : tokenizer) (text : str) (must_advance : bool) (n i : nat) :
    option (nat * nat * option str) :=
  match candidates t text must_advance i with
  | (j, ty) :: _ => Some (i, j, ty)
  | [] => match n with O => None | S n' => search t text false n' (S i) end
  end.

(** [re.finditer] (Python 3.7 and later). [None]: out of fuel. *)
Fixpoint finditer (fuel : nat) (t : tokenizer) (text : str) (must_advance : bool) (i : nat) :
    option (list (nat * nat * option str)) :=
  match search t text must_advance (length text - i) i with
  | None => Some []
  | Some (s, e, ty) =>
      match fuel with
      | O => None
      | S fuel' =>
          match finditer fuel' t text (Nat.eqb s e) e with
          | Some l => Some ((s, e, ty) :: l)
          | None => None
          end
      end
  end.

(** [text[start:stop]]. *)
Definition slice (text : str) (start stop : nat) : str :=
  firstn (stop - start) (skipn start text).

(** tokenizer.py 98-105: [self.mapping[None]] raises KeyError. *)
Definition make_token (text : str) (m : nat * nat * option str) : res token :=
  let '(s, e, ty) := m in
  match ty with
  | None => Err KeyError
  | Some ty => Ok (mkToken (slice text s e) (Z.of_nat s) (Z.of_nat e) ty None None)
  end.
Definition tokenize (fuel : nat) (t : tokenizer) (text : str) : option (res (list token)) :=
  match finditer fuel t text false 0 with
  | Some l => Some (mapM (make_token text) l)
  | None => None
  end.

(** tokenizer.py 107-108. *)
Definition split (fuel : nat) (t : tokenizer) (text : str) : option (res (list str)) :=
  match tokenize fuel t text with
  | Some r => Some (let! l := r in Ok (map t_value l))
  | None => None
  end.

(** ** The default rules.  Characters: [c_folds c] are the characters that [c]
    equals under IGNORECASE, [c_digit] is \d and [c_space] is \s under UNICODE:
    external. *)
Record chars := mkChars {
  c_folds : N -> list N;
  c_digit : N -> bool;
  c_space : N -> bool }.

(** A set of ranges under IGNORECASE. *)
Definition in_ranges (ranges : list (N * N)) (c : N) : bool :=
  existsb (fun '(a, b) => (a <=? c)%N && (c <=? b)%N) ranges.
Definition in_set (C : chars) (ranges : list (N * N)) (c : N) : bool :=
  existsb (in_ranges ranges) (c_folds C c).

Definition char (c : N) : N * N := (c, c).
Definition chars_of (s : String.string) : list (N * N) := map char (str_of s).
Arguments chars_of s%string.

(** tokenizer.py 41: [а-яё]. *)
Definition ru_ranges : list (N * N) := [(1072, 1103); char 1105]%N.
(** tokenizer.py 42. *)
Definition latin_ranges : list (N * N) := [(97, 122)]%N.
(** tokenizer.py 46. *)
Definition punct_ranges : list (N * N) :=
  chars_of "-\/!#$%&()[]*+,.:;<=>?@^_`{|}~" ++
  map char [8470; 8230; 34; 39; 171; 187; 8222; 8220; 700; 699; 8221]%N.
(** tokenizer.py 48. *)
Definition eol_ranges : list (N * N) := [char 10; char 13]%N.

Section Default.
  Variable C : chars.
  Definition is_ru := in_set C ru_ranges.
  Definition is_latin := in_set C latin_ranges.
  Definition is_punct := in_set C punct_ranges.
  Definition is_eol := in_set C eol_ranges.
  Definition is_other (c : N) : bool := negb (c_space C c).

  (** tokenizer.py 18-23, 40-50. *)
  Definition RU := str_of "RU".
  Definition LATIN := str_of "LATIN".
  Definition INT := str_of "INT".
  Definition PUNCT := str_of "PUNCT".
  Definition EOL := str_of "EOL".
  Definition OTHER := str_of "OTHER".
  Definition RULES : list token_rule :=
    [mkRule 0 RU (Some (rplus (RSet is_ru)));
     mkRule 1 LATIN (Some (rplus (RSet is_latin)));
     mkRule 2 INT (Some (rplus (RSet (c_digit C))));
     mkRule 3 PUNCT (Some (RSet is_punct));
     mkRule 4 EOL (Some (rplus (RSet is_eol)));
     mkRule 5 OTHER (Some (RSet is_other))].
  Definition default_tokenizer : res tokenizer := new_tokenizer (map Some RULES).

  (** tokenizer.py 25-28. *)
  Definition email_name := [(97, 122); (65, 90); (48, 57); char 95; char 46; char 43; char 45]%N.
  Definition email_host := [(97, 122); (65, 90); (48, 57); char 45]%N.
  Definition email_tail := [(97, 122); (65, 90); (48, 57); char 45; char 46]%N.
  Definition EMAIL_RULE : token_rule :=
    mkRule 6 (str_of "EMAIL") (Some
      (RSeq (rplus (RSet (in_set C email_name)))
      (RSeq (RSet (in_set C (chars_of "@")))
      (RSeq (rplus (RSet (in_set C email_host)))
      (RSeq (RSet (in_set C (chars_of ".")))
            (rplus (RSet (in_set C email_tail)))))))).

  (** tokenizer.py 30-33. *)
  Definition phone_gap := RSet (fun c => in_set C (chars_of "-_()") c || c_space C c).
  Definition PHONE_RULE : token_rule :=
    mkRule 7 (str_of "PHONE") (Some
      (RSeq (ropt (RSet (in_set C (chars_of "+"))))
            (rbetween 10 14 (RSeq (ropt phone_gap) (RSeq (RSet (c_digit C)) (ropt phone_gap)))))).
End Default.

(** ** morph.py *)

(** morph.py 112-115, 128-130: the records of the external analyzer
    ([raw.parse(word)]), each with its normal form, grammemes and handle. *)
Definition analyze (raw_parse : str -> list (str * list str * nat)) (word : str) : list form :=
  map (fun '(normal, grams, raw) => mkForm normal grams raw) (raw_parse word).

(** morph.py 132-133: a set of normal forms (kept as a list). *)
Definition analyze_normalized (raw_parse : str -> list (str * list str * nat)) (word : str) : list str :=
  map f_normalized (analyze raw_parse word).

(** tokenizer.py 119-126. *)
Definition morph_token (morph : str -> list form) (t : token) : token :=
  if str_eqb (t_type t) RU then morphed t (morph (t_value t)) else t.
Definition morph_tokenize (morph : str -> list form) (fuel : nat) (t : tokenizer) (text : str) :
    option (res (list token)) :=
  match tokenize fuel t text with
  | Some r => Some (let! l := r in Ok (map (morph_token morph) l))
  | None => None
  end.

(** morph.py 136-143, [functools.lru_cache(CACHE_SIZE)]: the most recently used
    entry first.  The key is the pair (self, word) with [self] compared by
    identity. *)
Definition CACHE_SIZE : N := 10000.
Definition cache := list ((nat * str) * list form).
Definition key_eqb (a b : nat * str) : bool := Nat.eqb (fst a) (fst b) && str_eqb (snd a) (snd b).
Fixpoint cache_get (k : nat * str) (c : cache) : option (list form) :=
  match c with
  | [] => None
  | (k', v) :: c' => if key_eqb k k' then Some v else cache_get k c'
  end.
Definition cache_remove (k : nat * str) (c : cache) : cache :=
  filter (fun e => negb (key_eqb k (fst e))) c.
Definition cached_analyze (size : nat) (raw_parse : nat -> str -> list (str * list str * nat))
    (self : nat) (word : str) (c : cache) : cache * list form :=
  let k := (self, word) in
  match cache_get k c with
  | Some v => ((k, v) :: cache_remove k c, v)
  | None =>
      let v := analyze (raw_parse self) word in
      (firstn size ((k, v) :: c), v)
  end.
