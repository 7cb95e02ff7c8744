(** Pattern strings of token rules: how Tokenizer.compile joins them (yargy/tokenizer.py 80-96) and
    the part of Python's [re] (external) that reads and runs the joined pattern.

    Results: [None] means syntax that is not modelled (lookbehind, conditional groups, comments, inline
    flags, octal and named escapes, two-digit references, possessive quantifiers, names that are not ASCII);
    [Some (Err ReError)] a pattern that re.compile rejects. *)
From Verif Require Import Base TokenModel RuleModel TokenizerModel DotTextModel.
Open Scope nat_scope.

(** ** Syntax *)
(** Categories of characters: \d, \s, \w and their negations. *)
Inductive category := Digit | Space | Word.
Inductive code :=
| CRange (lo hi : N)
| CCategory (negated : bool) (k : category).
(** What stands for one character: the dot, or a set. *)
Inductive one := OAny | OSet (negated : bool) (codes : list code).
Definition literal (c : N) : one := OSet false [CRange c c].
Inductive anchor := AStart | AEnd | ALineEnd | ABoundary (negated : bool).
Inductive re :=
| Empty
| One (o : one)
| Anchor (a : anchor)
| Ref (k : nat)
| Look (negated : bool) (r : re)
| Seq (a b : re)
| Alt (a b : re)
| Rep (min : nat) (max : option nat) (greedy : bool) (r : re)
| Group (k : nat) (r : re).

(** ** Reading, first step: the symbols of a pattern *)
Inductive opening := Capture (name : option str) | NoCapture | LookAhead (negated : bool).
Inductive symbol :=
| SOne (o : one)
| SAnchor (a : anchor)
| SRef (k : nat)
| SNameRef (name : str)
| SOpen (o : opening)
| SClose
| SBar
| SQuant (min : nat) (max : option nat) (greedy : bool).

Definition code_of (s : String.string) : N := hd 0%N (str_of s).
Arguments code_of s%string.
Definition is_char (s : String.string) (c : N) : bool := N.eqb c (code_of s).
Arguments is_char s%string c.
Definition between (a b c : N) : bool := ((a <=? c) && (c <=? b))%N%bool.
Definition is_digit (c : N) : bool := between 48 57 c.
Definition is_ascii_letter (c : N) : bool := between 65 90 c || between 97 122 c.

Definition rejected {A} : option (res A) := Some (Err ReError).
Definition read {A} (x : A) : option (res A) := Some (Ok x).

(** The value of hexadecimal digits. *)
Definition hex (c : N) : option N :=
  if is_digit c then Some (c - 48)%N else if between 65 70 c then Some (c - 55)%N else if between 97 102 c then Some (c - 87)%N else None.
Fixpoint hex_number (n : nat) (acc : N) (s : str) : option (res (N * str)) :=
  match n, s with
  | O, _ => read (acc, s)
  | S n', c :: s' => match hex c with Some d => hex_number n' (acc * 16 + d)%N s' | None => rejected end
  | S _, [] => rejected
  end.
(** \d and so on, \n and so on. *)
Definition category_of (c : N) : option code :=
  if is_char "d" c then Some (CCategory false Digit) else if is_char "D" c then Some (CCategory true Digit)
  else if is_char "s" c then Some (CCategory false Space) else if is_char "S" c then Some (CCategory true Space)
  else if is_char "w" c then Some (CCategory false Word) else if is_char "W" c then Some (CCategory true Word) else None.
Definition control_of (c : N) : option N :=
  if is_char "a" c then Some 7%N else if is_char "f" c then Some 12%N else if is_char "n" c then Some 10%N
  else if is_char "r" c then Some 13%N else if is_char "t" c then Some 9%N else if is_char "v" c then Some 11%N else None.
(** After a backslash, in a set and outside: a character by its number. *)
Definition numbered (c : N) (s : str) : option (res (N * str)) :=
  if is_char "x" c then hex_number 2 0 s
  else if is_char "u" c then hex_number 4 0 s
  else if is_char "U" c || is_char "N" c then None
  else if is_ascii_letter c then rejected
  else read (c, s).
Definition set_escape (s : str) : option (res (code * str)) :=
  match s with
  | [] => rejected
  | c :: s' =>
      match category_of c with
      | Some k => read (k, s')
      | None =>
          match control_of c with
          | Some d => read (CRange d d, s')
          | None =>
              if is_char "b" c then read (CRange 8 8, s')
              else if between 48 55 c then None
              else if is_digit c then rejected
              else then_ (numbered c s') (fun '(d, s'') => read (CRange d d, s''))
          end
      end
  end.
(** One element of a set, not yet a range. *)
Definition set_code (c : N) (s : str) : option (res (code * str)) :=
  if is_char "\" c then set_escape s else read (CRange c c, s).
(** After the opening bracket and the circumflex; [first]: nothing has been read. *)
Fixpoint set_codes (fuel : nat) (first : bool) (acc : list code) (s : str) : option (res (list code * str)) :=
  match fuel, s with
  | O, _ => None
  | _, [] => rejected
  | S fuel', c :: s' =>
      if is_char "]" c && negb first then read (rev acc, s')
      else
        then_ (set_code c s') (fun '(k, s1) =>
        match s1 with
        | d :: s2 =>
            if is_char "-" d then
              match s2 with
              | [] => rejected
              | e :: s3 =>
                  if is_char "]" e then read (rev (CRange d d :: k :: acc), s3)
                  else then_ (set_code e s3) (fun '(k2, s4) =>
                       match k, k2 with
                       | CRange lo _, CRange hi _ => if (hi <? lo)%N then rejected else set_codes fuel' false (CRange lo hi :: acc) s4
                       | _, _ => rejected
                       end)
              end
            else set_codes fuel' false (k :: acc) s1
        | [] => rejected
        end)
  end.
Definition set_symbol (s : str) : option (res (symbol * str)) :=
  match s with
  | [] => rejected
  | c :: s' =>
      let negated := is_char "^" c in
      then_ (set_codes (S (length s)) true [] (if negated then s' else s)) (fun '(codes, rest) => read (SOne (OSet negated codes), rest))
  end.
(** After a backslash outside of sets. *)
Definition escape_symbol (s : str) : option (res (symbol * str)) :=
  match s with
  | [] => rejected
  | c :: s' =>
      match category_of c with
      | Some k => read (SOne (OSet false [k]), s')
      | None =>
          match control_of c with
          | Some d => read (SOne (literal d), s')
          | None =>
              if is_char "A" c then read (SAnchor AStart, s') else if is_char "Z" c then read (SAnchor AEnd, s')
              else if is_char "b" c then read (SAnchor (ABoundary false), s') else if is_char "B" c then read (SAnchor (ABoundary true), s')
              else if is_char "0" c then None
              else if is_digit c then
                match s' with
                | d :: _ => if is_digit d then None else read (SRef (N.to_nat (c - 48)), s')
                | [] => read (SRef (N.to_nat (c - 48)), s')
                end
              else then_ (numbered c s') (fun '(d, s'') => read (SOne (literal d), s''))
          end
      end
  end.
(** The characters before [stop]; [None] when it does not follow. *)
Fixpoint until (stop : N) (s : str) : option (str * str) :=
  match s with
  | [] => None
  | c :: s' => if N.eqb c stop then Some ([], s') else match until stop s' with Some (a, b) => Some (c :: a, b) | None => None end
  end.
Definition name_start (c : N) : bool := is_ascii_letter c || is_char "_" c.
(** The name of a group. *)
Definition group_name (s : str) : option (res str) :=
  if negb (forallb (fun c => (c <? 128)%N) s) then None
  else match s with
       | c :: s' => if name_start c && forallb (fun c => name_start c || is_digit c) s' then read s else rejected
       | [] => rejected
       end.
(** After an opening parenthesis. *)
Definition group_symbol (s : str) : option (res (symbol * str)) :=
  match s with
  | q :: s1 =>
      if is_char "?" q then
        match s1 with
        | [] => rejected
        | c :: s2 =>
            if is_char ":" c then read (SOpen NoCapture, s2)
            else if is_char "=" c then read (SOpen (LookAhead false), s2)
            else if is_char "!" c then read (SOpen (LookAhead true), s2)
            else if is_char "P" c then
              match s2 with
              | d :: s3 =>
                  if is_char "<" d then
                    match until (code_of ">") s3 with
                    | Some (name, rest) => then_ (group_name name) (fun name => read (SOpen (Capture (Some name)), rest))
                    | None => rejected
                    end
                  else if is_char "=" d then
                    match until (code_of ")") s3 with
                    | Some (name, rest) => then_ (group_name name) (fun name => read (SNameRef name, rest))
                    | None => rejected
                    end
                  else rejected
              | [] => rejected
              end
            else None
        end
      else read (SOpen (Capture None), s)
  | [] => read (SOpen (Capture None), s)
  end.
(** Decimal digits. *)
Fixpoint number (acc : N) (s : str) : N * str :=
  match s with
  | c :: s' => if is_digit c then number (acc * 10 + (c - 48))%N s' else (acc, s)
  | [] => (acc, s)
  end.
Definition starts_digit (s : str) : bool := match s with c :: _ => is_digit c | [] => false end.
Definition after (x : String.string) (s : str) : option str := match s with c :: s' => if is_char x c then Some s' else None | [] => None end.
Arguments after x%string s.
(** Numbers too large for [re]. *)
Definition too_large (n : N) : bool := (4294967295 <=? n)%N.
(** {m}, {m,}, {,n}, {m,n} after the brace; [None]: the brace is an ordinary character. *)
Definition bounds (s : str) : option (N * option N * str) :=
  match after "}" s with
  | Some _ => None
  | None =>
      let (lo, s1) := number 0 s in
      match after "," s1 with
      | Some s2 => let (hi, s3) := number 0 s2 in match after "}" s3 with Some s4 => Some (lo, if starts_digit s2 then Some hi else None, s4) | None => None end
      | None => match after "}" s1 with Some s4 => Some (lo, Some lo, s4) | None => None end
      end
  end.
(** The question mark of a quantifier that is not greedy. *)
Definition quantifier_symbol (min : nat) (max : option nat) (s : str) : option (res (symbol * str)) :=
  match s with
  | c :: s' => if is_char "?" c then read (SQuant min max false, s') else if is_char "+" c then None else read (SQuant min max true, s)
  | [] => read (SQuant min max true, s)
  end.
Definition brace_symbol (s : str) : option (res (symbol * str)) :=
  match bounds s with
  | None => read (SOne (literal (code_of "{")), s)
  | Some (lo, hi, rest) =>
      if too_large lo || match hi with Some h => too_large h | None => false end then None
      else if match hi with Some h => (h <? lo)%N | None => false end then rejected
      else quantifier_symbol (N.to_nat lo) (option_map N.to_nat hi) rest
  end.
Definition next_symbol (c : N) (s : str) : option (res (symbol * str)) :=
  if is_char "\" c then escape_symbol s
  else if is_char "[" c then set_symbol s
  else if is_char "(" c then group_symbol s
  else if is_char ")" c then read (SClose, s)
  else if is_char "|" c then read (SBar, s)
  else if is_char "*" c then quantifier_symbol 0 None s
  else if is_char "+" c then quantifier_symbol 1 None s
  else if is_char "?" c then quantifier_symbol 0 (Some 1) s
  else if is_char "{" c then brace_symbol s
  else if is_char "." c then read (SOne OAny, s)
  else if is_char "^" c then read (SAnchor AStart, s)
  else if is_char "$" c then read (SAnchor ALineEnd, s)
  else read (SOne (literal c), s).
Fixpoint symbols (fuel : nat) (s : str) : option (res (list symbol)) :=
  match fuel, s with
  | _, [] => read []
  | O, _ => None
  | S fuel', c :: s' => then_ (next_symbol c s') (fun '(x, rest) => then_ (symbols fuel' rest) (fun l => read (x :: l)))
  end.

(** ** Reading, second step: groups, alternatives, quantifiers *)
(** What a quantifier may follow. *)
Inductive piece := PItem | PAnchor | PRepeat.
Inductive opened := OTop | ONoCapture | OLook (negated : bool) | OCapture (k : nat).
(** An open group: the alternatives before the last bar and what follows it, the last first. *)
Record frame := mkFrame { f_opened : opened; f_before : list re; f_last : list (piece * re) }.
(** The open groups, the last first; the number of the next group; the names. *)
Record reading := mkReading { rd_frames : list frame; rd_next : nat; rd_names : list (str * nat) }.

Definition sequence (l : list (piece * re)) : re := fold_left (fun r p => Seq (snd p) r) l Empty.
Definition alternation (last : re) (before : list re) : re := fold_left (fun r p => Alt p r) before last.
Definition contents (f : frame) : re := alternation (sequence (f_last f)) (f_before f).
Definition wrap (o : opened) (r : re) : re :=
  match o with OTop | ONoCapture => r | OLook negated => Look negated r | OCapture k => Group k r end.
Fixpoint name_number (name : str) (l : list (str * nat)) : option nat :=
  match l with
  | [] => None
  | (n, k) :: l' => if str_eqb name n then Some k else name_number name l'
  end.
Definition push (p : piece) (r : re) (f : frame) : frame := mkFrame (f_opened f) (f_before f) ((p, r) :: f_last f).
Definition is_open (k : nat) (fs : list frame) : bool := existsb (fun f => match f_opened f with OCapture k' => Nat.eqb k k' | _ => false end) fs.
Definition put (p : piece) (r : re) (m : reading) : res reading :=
  match rd_frames m with
  | f :: fs => Ok (mkReading (push p r f :: fs) (rd_next m) (rd_names m))
  | [] => Err ReError
  end.
Definition refer (k : nat) (m : reading) : res reading :=
  if (0 <? k) && (k <? rd_next m) && negb (is_open k (rd_frames m)) then put PItem (Ref k) m else Err ReError.
Definition step (m : reading) (x : symbol) : res reading :=
  match x with
  | SOne o => put PItem (One o) m
  | SAnchor a => put PAnchor (Anchor a) m
  | SRef k => refer k m
  | SNameRef name => match name_number name (rd_names m) with Some k => refer k m | None => Err ReError end
  | SOpen NoCapture => Ok (mkReading (mkFrame ONoCapture [] [] :: rd_frames m) (rd_next m) (rd_names m))
  | SOpen (LookAhead negated) => Ok (mkReading (mkFrame (OLook negated) [] [] :: rd_frames m) (rd_next m) (rd_names m))
  | SOpen (Capture None) => Ok (mkReading (mkFrame (OCapture (rd_next m)) [] [] :: rd_frames m) (S (rd_next m)) (rd_names m))
  | SOpen (Capture (Some name)) =>
      match name_number name (rd_names m) with
      | Some _ => Err ReError
      | None => Ok (mkReading (mkFrame (OCapture (rd_next m)) [] [] :: rd_frames m) (S (rd_next m)) ((name, rd_next m) :: rd_names m))
      end
  | SClose =>
      match rd_frames m with
      | f :: g :: fs => Ok (mkReading (push PItem (wrap (f_opened f) (contents f)) g :: fs) (rd_next m) (rd_names m))
      | _ => Err ReError
      end
  | SBar =>
      match rd_frames m with
      | f :: fs => Ok (mkReading (mkFrame (f_opened f) (sequence (f_last f) :: f_before f) [] :: fs) (rd_next m) (rd_names m))
      | [] => Err ReError
      end
  | SQuant min max greedy =>
      match rd_frames m with
      | mkFrame o before ((PItem, r) :: l) :: fs => Ok (mkReading (mkFrame o before ((PRepeat, Rep min max greedy r) :: l) :: fs) (rd_next m) (rd_names m))
      | _ => Err ReError
      end
  end.
Fixpoint steps (m : reading) (l : list symbol) : res reading :=
  match l with
  | [] => Ok m
  | x :: l' => let! m' := step m x in steps m' l'
  end.
Definition start : reading := mkReading [mkFrame OTop [] []] 1 [].
(** A compiled expression: the expression and the numbers of its names. *)
Definition expression : Type := re * list (str * nat).
Definition finish (m : reading) : res expression :=
  match rd_frames m with
  | [f] => Ok (contents f, rd_names m)
  | _ => Err ReError
  end.
(** re.compile. *)
Definition re_compile (pattern : str) : option (res expression) :=
  then_ (symbols (length pattern) pattern) (fun l => Some (let! m := steps start l in finish m)).

(** ** Running *)
Record alphabet := mkAlphabet { al_chars : chars; al_word : N -> bool }.
Section Run.
  Variable C : alphabet.
  Variable text : str.
  Definition in_category (k : category) (c : N) : bool :=
    match k with Digit => c_digit (al_chars C) c | Space => c_space (al_chars C) c | Word => al_word C c end.
  Definition in_code (c : N) (k : code) : bool :=
    match k with
    | CRange lo hi => in_set (al_chars C) [(lo, hi)] c
    | CCategory negated k => xorb negated (in_category k c)
    end.
  Definition in_one (o : one) (c : N) : bool :=
    match o with OAny => negb (N.eqb c 10) | OSet negated codes => xorb negated (existsb (in_code c) codes) end.
  Definition word_at (text : str) (i : nat) : bool := match nth_error text i with Some c => al_word C c | None => false end.
  Definition anchored (a : anchor) (text : str) (i : nat) : bool :=
    match a with
    | AStart => Nat.eqb i 0
    | AEnd => Nat.eqb i (length text)
    | ALineEnd => Nat.eqb i (length text) || Nat.eqb (S i) (length text) && match nth_error text i with Some c => N.eqb c 10 | None => false end
    | ABoundary negated => xorb negated (xorb (match i with O => false | S j => word_at text j end) (word_at text i))
    end.
  (** A place in the text, the groups closed so far (the last first) with their ranges. *)
  Definition place : Type := nat * list (nat * (nat * nat)).
  Definition same_char (a b : N) : bool := existsb (N.eqb b) (a :: c_folds (al_chars C) a).
  Fixpoint same_text_at (a : str) (b : str) : bool :=
    match a, b with
    | [], _ => true
    | x :: a', y :: b' => same_char x y && same_text_at a' b'
    | _, [] => false
    end.
  Fixpoint star_places (greedy : bool) (body : place -> list place) (fuel : nat) (p : place) : list place :=
    match fuel with
    | O => [p]
    | S fuel' =>
        let more := flat_map (fun q => if fst p <? fst q then star_places greedy body fuel' q else [q]) (body p) in
        if greedy then more ++ [p] else p :: more
    end.
  Fixpoint upto_places (greedy : bool) (body : place -> list place) (n : nat) (p : place) : list place :=
    match n with
    | O => [p]
    | S n' => let more := flat_map (upto_places greedy body n') (body p) in if greedy then more ++ [p] else p :: more
    end.
  Fixpoint times_places (body next : place -> list place) (n : nat) (p : place) : list place :=
    match n with O => next p | S n' => flat_map (times_places body next n') (body p) end.
  (** The places after the matches, in the order in which they are tried. *)
  Fixpoint places (r : re) (p : place) : list place :=
    match r with
    | Empty => [p]
    | One o => match nth_error text (fst p) with Some c => if in_one o c then [(S (fst p), snd p)] else [] | None => [] end
    | Anchor a => if anchored a text (fst p) then [p] else []
    | Ref k =>
        match assoc k (snd p) with
        | Some (i, j) => if same_text_at (slice text i j) (skipn (fst p) text) then [(fst p + (j - i), snd p)] else []
        | None => []
        end
    | Look false r => match places r p with [] => [] | q :: _ => [(fst p, snd q)] end
    | Look true r => match places r p with [] => [p] | _ => [] end
    | Seq a b => flat_map (places b) (places a p)
    | Alt a b => places a p ++ places b p
    | Rep min max greedy r =>
        times_places (places r) (match max with None => star_places greedy (places r) (S (length text)) | Some n => upto_places greedy (places r) (n - min) end) min p
    | Group k r => map (fun q => (fst q, (k, (fst p, fst q)) :: snd q)) (places r p)
    end.
End Run.

(** ** tokenizer.py *)
(** tokenizer.py 10-15: a TokenRule with its pattern as a string. *)
Record string_rule := mkStringRule { sr_id : nat; sr_type : str; sr_pattern : str }.
(** tokenizer.py 86. *)
Definition rule_name (r : string_rule) : str := str_of "rule_" ++ digits (sr_id r).
(** tokenizer.py 87-90. *)
Definition named_pattern (r : string_rule) : str := str_of "(?P<" ++ rule_name r ++ str_of ">" ++ sr_pattern r ++ str_of ")".
(** tokenizer.py 94. *)
Fixpoint join_patterns (l : list str) : str :=
  match l with
  | [] => []
  | [p] => p
  | p :: l' => p ++ str_of "|" ++ join_patterns l'
  end.
Definition joined (rules : list string_rule) : str := join_patterns (map named_pattern rules).
(** tokenizer.py 91: a later rule with the same name replaces the type. *)
Definition mapping (rules : list string_rule) : list (str * str) := map (fun r => (rule_name r, sr_type r)) (rev rules).
Fixpoint lookup_name (name : str) (l : list (str * str)) : option str :=
  match l with
  | [] => None
  | (n, ty) :: l' => if str_eqb name n then Some ty else lookup_name name l'
  end.
(** tokenizer.py 80-96. *)
Definition compile_strings (rules : list string_rule) : option (res (expression * list (str * str))) :=
  then_ (re_compile (joined rules)) (fun e => read (e, mapping rules)).

Section Tokenize.
  Variable C : alphabet.
  Variable compiled : expression * list (str * str).
  (** [match.lastgroup]: the name of the group closed last, if it has one. *)
  Fixpoint number_name (k : nat) (l : list (str * nat)) : option str :=
    match l with
    | [] => None
    | (n, k') :: l' => if Nat.eqb k k' then Some n else number_name k l'
    end.
  Definition lastgroup (p : place) : option str :=
    match snd p with [] => None | (k, _) :: _ => number_name k (snd (fst compiled)) end.
  (** tokenizer.py 99-103; [None]: KeyError. *)
  Definition place_type (p : place) : option str :=
    match lastgroup p with Some name => lookup_name name (snd compiled) | None => None end.
  Definition string_alternatives (text : str) (i : nat) : list (nat * option str) :=
    map (fun p => (fst p, place_type p)) (places C text (fst (fst compiled)) (i, [])).
End Tokenize.

(** Searching as in TokenizerModel.v, with any way to match at a place. *)
Section Search.
  Variable matches : nat -> list (nat * option str).
  Fixpoint search_with (must_advance : bool) (n i : nat) : option (nat * nat * option str) :=
    match filter (fun c => negb (must_advance && Nat.eqb (fst c) i)) (matches i) with
    | (j, ty) :: _ => Some (i, j, ty)
    | [] => match n with O => None | S n' => search_with false n' (S i) end
    end.
  Fixpoint finditer_with (fuel len : nat) (must_advance : bool) (i : nat) : option (list (nat * nat * option str)) :=
    match search_with must_advance (len - i) i with
    | None => Some []
    | Some (s, e, ty) =>
        match fuel with
        | O => None
        | S fuel' => match finditer_with fuel' len (Nat.eqb s e) e with Some l => Some ((s, e, ty) :: l) | None => None end
        end
    end.
End Search.
(** tokenizer.py 98-105. *)
Definition tokenize_strings (C : alphabet) (fuel : nat) (compiled : expression * list (str * str)) (text : str) : option (res (list token)) :=
  match finditer_with (string_alternatives C compiled text) fuel (length text) false 0 with
  | Some l => Some (mapM (make_token text) l)
  | None => None
  end.

(** tokenizer.py 41-49, 27, 32: the types and the pattern strings in the order of RULES (TokenizerModel.v), EMAIL_RULE, PHONE_RULE. *)
Definition PATTERNS : list (str * str) :=
  [(RU, str_of "[" ++ [1072; 45; 1103; 1105]%N ++ str_of "]+");
   (LATIN, str_of "[a-z]+");
   (INT, str_of "\d+");
   (PUNCT, str_of "[-\\/!#$%&()\[\]\*\+,\.:;<=>?@^_`{|}~" ++ [8470; 8230; 34; 92; 39; 171; 187; 8222; 8220; 700; 699; 8221]%N ++ str_of "]");
   (EOL, str_of "[\n\r]+");
   (OTHER, str_of "\S");
   (str_of "EMAIL", str_of "[a-zA-Z0-9_.+-]+@[a-zA-Z0-9-]+\.[a-zA-Z0-9-.]+");
   (str_of "PHONE", str_of "(\+)?([-\s_()]?\d[-\s_()]?){10,14}")].
