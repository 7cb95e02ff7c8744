(** The tests of the project (/repo/tests), one file per file of tests: what they assert is computed
    in the model.  Here: Russian text, rules as lists of calls, runs of parsers. *)
From Coq Require String.
From Verif Require Import Base TokenModel TokenizerModel EarleyModel PredicateModel PipelineModel RuleModel RuleBuild GrammarModel ParserModel TextModel LabelModel.
Import String.StringSyntax.
Open Scope nat_scope.

(** ** Text: the source files are encoded in UTF-8 *)
Fixpoint decode (bytes : list N) : str :=
  match bytes with
  | [] => []
  | b :: r =>
      if (b <? 128)%N then b :: decode r
      else match r with
           | c :: r' =>
               if (b <? 224)%N then ((b - 192) * 64 + (c - 128))%N :: decode r'
               else match r' with d :: r'' => ((b - 224) * 4096 + (c - 128) * 64 + (d - 128))%N :: decode r'' | [] => [] end
           | [] => []
           end
  end.
Definition text (s : String.string) : str := decode (str_of s).
Arguments text s%string.
(** Latin and Russian letters, in lower case 32 code points later (Ё and ё aside). *)
Definition capital (c : N) : bool := ((65 <=? c) && (c <=? 90) || (1040 <=? c) && (c <=? 1071) || (c =? 1025))%N%bool.
Definition small (c : N) : bool := ((97 <=? c) && (c <=? 122) || (1072 <=? c) && (c <=? 1103) || (c =? 1105))%N%bool.
Definition letter (c : N) : bool := capital c || small c.
Definition lower (c : N) : N := if (c =? 1025)%N then 1105%N else if capital c then (c + 32)%N else c.
Definition decimal (s : str) : option Z :=
  match s with
  | [] => None
  | _ => if forallb (fun c => (48 <=? c) && (c <=? 57))%N%bool s then Some (fold_left (fun z c => (10 * z + (Z.of_N c - 48))%Z) s 0%Z) else None
  end.
Definition python : unicode := mkUnicode (map lower)
  (fun s => existsb letter s && forallb (fun c => negb (capital c)) s)
  (fun s => existsb letter s && forallb (fun c => negb (small c)) s)
  (fun s => match s with c :: s' => capital c && forallb (fun c => negb (capital c)) s' | [] => false end)
  decimal.
Definition upper (c : N) : N := if (c =? 1105)%N then 1025%N else if small c then (c - 32)%N else c.
Definition russian_chars : chars := mkChars (fun c => [c; lower c; upper c]) (fun c => (48 <=? c) && (c <=? 57))%N%bool (fun c => (9 <=? c) && (c <=? 13) || (c =? 32))%N%bool.
Definition tokenizer0 : tokenizer := match default_tokenizer russian_chars with Ok t => t | Err _ => mkTokenizer [] [] [] end.
(** Sets of words in the order in which they are seen first. *)
Definition seen (l : list str) : list str := rev (nodup (list_eq_dec N.eq_dec) (rev l)).

(** ** Rules: calls one after another *)
Notation rule_call := (call (pred := predicate) (pipe := pipeline)).
Definition making (A : Type) := rule_heap -> res (A * rule_heap).
Definition run (c : rule_call) : making nat := fun h => run_call c h.
Notation "'let^' x := a 'in' b" := (fun h => let! (x, h') := a h in b h') (at level 200, x name, right associativity, only parsing).
Definition eq (s : String.string) : predicate := PEq (text s).
Arguments eq s%string.
(** Items of rule(...): a str (api.py 27-37 makes [eq] of it), a predicate, a rule. *)
Definition W (s : String.string) : item (pred := predicate) := Plain (TPred (eq s)).
Arguments W s%string.
Definition P (p : predicate) : item (pred := predicate) := Plain (TPred p).
Definition R (r : nat) : item (pred := predicate) := Plain (TRule r).
Definition rule (l : list (item (pred := predicate))) : making nat := run (CRule l).
Definition or_ (l : list nat) : making nat := run (COr l).
Definition optional (r : nat) : making nat := run (COptional r false).
Definition repeatable (r : nat) : making nat := run (CRepeatable r None None false).
Definition reverse_repeatable (r : nat) : making nat := run (CRepeatable r None None true).
Definition repeatable_min (r : nat) (n : Z) : making nat := run (CRepeatable r (Some n) None false).
Definition repeatable_max (r : nat) (n : Z) : making nat := run (CRepeatable r None (Some n) false).
Definition repeatable_min_max (r : nat) (m n : Z) : making nat := run (CRepeatable r (Some m) (Some n) false).
Definition named (r : nat) (s : String.string) : making nat := run (CNamed r (text s)).
Arguments named r s%string.
Definition interpretation (r i : nat) : making nat := run (CInterpretation r i).
Definition matching (r i : nat) : making nat := run (CMatch r i).
Definition forward : making nat := run CForward.
Definition define (f r : nat) : making nat := run (CDefine f r).
Definition pipeline_of (p : pipeline) : making nat := run (CPipeline p).

Definition fuel : nat := 1000.

(** ** Morphology: pymorphy2 is represented by the answers it gives for the words of the tests *)
Fixpoint split_at (c : N) (acc : str) (s : str) : list str :=
  match s with
  | [] => [rev acc]
  | d :: s' => if N.eqb c d then rev acc :: split_at c [] s' else split_at c (d :: acc) s'
  end.
Definition grams (s : String.string) : list str := split_at 44 [] (str_of s).
Arguments grams s%string.
(** A word, its normal form, its grams and the record of pymorphy2. *)
Definition entry : Type := String.string * String.string * String.string * nat.
Definition raw_parse (entries : list entry) (word : str) : list (str * list str * nat) :=
  flat_map (fun '(w, normal, gs, raw) => if str_eqb (text w) (u_lower python word) then [(text normal, grams gs, raw)] else []) entries.
(** record.inflect(grams) *)
Definition inflections (l : list (nat * String.string * String.string)) (raw : nat) (gs : list str) : option str :=
  match List.find (fun '(r, g, _) => Nat.eqb r raw && set_eqb (grams g) gs) l with Some (_, _, w) => Some (text w) | None => None end.
Definition known_grams : list str := grams "NOUN,VERB,ADJF,INFN,PRTF,Name,Surn,Abbr,masc,femn,neut,ms-f,Ms-f,GNdr,sing,plur,nomn,gent,datv,accs,ablt,loct,voct,anim,inan,Fixd,Sgtm,Pltm".
Definition analyzer (entries : list entry) : morph := mkMorph (analyze (raw_parse entries)) (fun g => str_in g known_grams).
Definition context_with (entries : list entry) : context := mkContext tokenizer0 (Some (analyzer entries)) None.

(** ** Parsers *)
Section Parsers.
  Variable c : context.
  Variable rel : nat -> form -> form -> bool.
  Variable m : making nat.
  Definition words_of (x : amatch (pred := predicate)) : list str := map t_value (m_tokens x).
  (** Parser(rule).match(text): the words of the match. *)
  Definition matched (s : String.string) : option (res (option (list str))) :=
    then_ (Some (m [])) (fun '(r, h) =>
    then_ (parser_match python seen c rel fuel h r (text s)) (fun '(_, x) => Some (Ok (option_map words_of x)))).
  (** Parser(rule).findall(text): the words and the spans of the matches. *)
  Definition all_found (s : String.string) : option (res (list (list str * (Z * Z)))) :=
    then_ (Some (m [])) (fun '(r, h) =>
    then_ (parser_findall python seen c rel fuel h r (text s)) (fun '(_, l) => Some (Ok (map (fun x => (words_of x, m_span x)) l)))).
End Parsers.
Arguments matched c rel m s%string.
Arguments all_found c rel m s%string.
Definition no_relation : nat -> form -> form -> bool := fun _ _ _ => true.
Definition these (l : list String.string) : option (res (option (list str))) := Some (Ok (Some (map text l))).
Definition nothing : option (res (option (list str))) := Some (Ok None).
