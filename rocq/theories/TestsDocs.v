(** Outputs recorded in /repo/docs (index.ipynb, ref.ipynb, cookbook.ipynb; the numbers are those of
    the cells) and the examples in the docstrings of predicates/bank.py. *)
From Coq Require String.
From Verif Require Import Base LabelModel TokenModel TokenizerModel TaggerModel RelationModel EarleyModel PredicateModel PipelineModel TreeModel ParserModel InterpModel RuleModel RuleBuild GrammarModel TextModel
  TestsBase TestsRule TestsTokenizer TestsParser TestsInterp.
Import String.StringSyntax.
Open Scope nat_scope.

(** ** Drawings: labels of nodes from the root to the leaves *)
Inductive drawing := D (label : str) (below : list drawing).
Section Draw.
  Variable c : context.
  Variable rel : nat -> form -> form -> bool.
  Variable interps : list interpretator_syntax.
  Variable relations : nat -> str.
  Variable m : making nat.
  Definition interp_text (i : nat) : res str := match nth_error interps i with Some x => interpretator_text x | None => Err IndexError end.
  Fixpoint draw (h : rule_heap) (n : node token predicate) : drawing :=
    match n with
    | Leaf _ _ _ t => D (t_value t) []
    | Node _ r _ _ ch => D (match rule_label interp_text relations h r with Ok (Some l) => l | _ => [] end) (map (draw h) ch)
    end.
  (** parser.match(text).tree *)
  Definition tree_of (s : String.string) : option (res (option drawing)) :=
    then_ (Some (m [])) (fun '(r, h) =>
    then_ (parser_rules python seen c fuel h r) (fun '(_, h') =>
    then_ (parser_match python seen c rel fuel h r (text s)) (fun '(_, x) => Some (Ok (option_map (fun x => draw h' (m_root x)) x))))).
  (** parser.extract(text): the trees with the number of tokens they cover. *)
  Definition trees_of (s : String.string) : option (res (list (nat * drawing))) :=
    then_ (Some (m [])) (fun '(r, h) =>
    then_ (parser_rules python seen c fuel h r) (fun '(_, h') =>
    then_ (parser_extract python seen c rel fuel h r (text s) true) (fun '(l, _, _) => Some (Ok (map (fun x => (length (m_tokens x), draw h' (m_root x))) l))))).
  Definition bnf_of : option (res (list str)) :=
    then_ (Some (m [])) (fun '(r, h) =>
    then_ (normalized fuel h r) (fun '(r, h) =>
    then_ (as_bnf (pipeline_as_bnf python seen) b_productions fuel h r) (fun '(r, h) =>
    match bfs fuel h r with Some objects => Some (source label interp_text relations h (bnf_rules h objects)) | None => None end))).
End Draw.
Definition T (s : String.string) (l : list drawing) : drawing := D (text s) l.
Arguments T s%string l.
Definition draws (d : drawing) : option (res (option drawing)) := Some (Ok (Some d)).
Definition no_label (_ : nat) : str := [].
Notation drawn c interps m s := (tree_of c no_relation interps no_label m s%string).
Definition ranges (x : option (res (list (list str * (Z * Z))))) : option (res (list (list str))) := option_map (fun r => let! l := r in Ok (map fst l)) x.
Definition finds (l : list (list String.string)) : option (res (list (list str))) := Some (Ok (map (map text) l)).
(** findall and the facts of the matches. *)
Section Facts.
  Variable schemes : nat -> InterpModel.scheme.
  Variable c : context.
  Variable inflect : nat -> list str -> option str.
  Variable rel : nat -> form -> form -> bool.
  Variable interps : list (res InterpModel.interpretator).
  Variable m : making nat.
  Definition facts_of (s : String.string) : option (res (list (res pyval))) :=
    if all_made interps then
      then_ (Some (m [])) (fun '(r, h) =>
      then_ (parser_grammar python seen c fuel h r) (fun g =>
      then_ (parser_findall python seen c rel fuel h r (text s)) (fun '(st, l) =>
      Some (Ok (map (fun x => let! v := match_fact schemes Nat.eqb python inflect g (interp_at interps) st x in Ok (bare v)) l)))))
    else None.
End Facts.
Definition facts (l : list pyval) : option (res (list (res pyval))) := Some (Ok (map Ok l)).


(** ** Docstrings of predicates/bank.py *)
Definition steels : list entry :=
  [("стали", "стать", "VERB,indc,intr,past,perf,plur", 1); ("стали", "сталь", "NOUN,femn,gent,inan,sing", 2); ("сталь", "сталь", "NOUN,femn,inan,nomn,sing", 3); ("стать", "стать", "INFN,perf,intr", 4); ("стать", "стать", "NOUN,femn,inan,nomn,sing", 5);
   ("учитель", "учитель", "NOUN,anim,masc,sing,nomn", 6); ("учителя", "учитель", "NOUN,anim,masc,sing,gent", 7); ("врач", "врач", "NOUN,anim,masc,sing,nomn", 8); ("врачи", "врач", "NOUN,anim,masc,plur,nomn", 9);
   ("раза", "раз", "NOUN,inan,masc,sing,gent", 10); ("слово", "слово", "NOUN,inan,neut,sing,nomn", 11); ("рано", "рано", "ADVB", 12)]%string.
Definition says (p : predicate) (s : String.string) : option (res (list bool)) :=
  then_ (Some (activate (context_with steels) p)) (fun p => then_ (text_tokens (context_with steels) (text s)) (fun l => Some (mapM (PredicateModel.call python p) l))).
Arguments says p s%string.
Definition hundreds (s : str) : res bool := match decimal s with Some z => Ok ((100 <=? z) && (z <? 1000))%Z | None => Err ValueError end.
Example doc_is_lower : says (PIsLower) "xxx Xxx" = Some (Ok [true; false]).
Proof. vm_compute. reflexivity. Qed.
Example doc_is_upper : says (PIsUpper) "XXX xxx" = Some (Ok [true; false]).
Proof. vm_compute. reflexivity. Qed.
Example doc_is_title : says (PIsTitle) "XXX Xxx" = Some (Ok [false; true]).
Proof. vm_compute. reflexivity. Qed.
Example doc_is_capitalized : says (PIsCapitalized) "Xxx XXX xxX" = Some (Ok [true; true; false]).
Proof. vm_compute. reflexivity. Qed.
Example doc_eq : says (eq "1") "1" = Some (Ok [true]).
Proof. vm_compute. reflexivity. Qed.
Example doc_length_eq : says (PLengthEq 3) "XXX 123" = Some (Ok [true; true]).
Proof. vm_compute. reflexivity. Qed.
Example doc_gte : says (PGte 4) "3 5 C" = Some (Ok [false; true; false]).
Proof. vm_compute. reflexivity. Qed.
Example doc_lte : says (PLte 4) "3 5 C" = Some (Ok [true; false; false]).
Proof. vm_compute. reflexivity. Qed.
Example doc_caseless : says (caseless python (text "Рано")) "РАНО" = Some (Ok [true]).
Proof. vm_compute. reflexivity. Qed.
Example doc_in : says (PIn (map text ["S"; "M"; "L"]%string)) "S 1" = Some (Ok [true; false]).
Proof. vm_compute. reflexivity. Qed.
Example doc_in_caseless : says (in_caseless python (map text ["S"; "M"; "L"]%string)) "S m" = Some (Ok [true; true]).
Proof. vm_compute. reflexivity. Qed.
Example doc_normalized_1 : says (SNormalized (text "сталь")) "стали" = Some (Ok [true]).
Proof. vm_compute. reflexivity. Qed.
Example doc_normalized_2 : says (SNormalized (text "стать")) "стали" = Some (Ok [true]).
Proof. vm_compute. reflexivity. Qed.
Example doc_dictionary : says (SDictionary (map text ["учитель"; "врач"]%string)) "учителя врачи" = Some (Ok [true; true]).
Proof. vm_compute. reflexivity. Qed.
Example doc_gram_1 : says (SGram (str_of "NOUN")) "стали" = Some (Ok [true]).
Proof. vm_compute. reflexivity. Qed.
Example doc_gram_2 : says (SGram (str_of "VERB")) "стали" = Some (Ok [true]).
Proof. vm_compute. reflexivity. Qed.
Example doc_type : says (SType INT) "3 раза" = Some (Ok [true; false]).
Proof. vm_compute. reflexivity. Qed.
Example doc_is_single : says (PIsSingle) "слово" = Some (Ok [true]).
Proof. vm_compute. reflexivity. Qed.
Example doc_custom : says (SCustom hundreds (Some [INT])) "12 123" = Some (Ok [false; true]).
Proof. vm_compute. reflexivity. Qed.

(** ** index.ipynb *)
Definition republics : list entry :=
  [("в", "в", "PREP", 1); ("чеченской", "чеченский", "ADJF,femn,sing,loct", 2); ("республике", "республика", "NOUN,inan,femn,sing,loct", 3); ("республика", "республика", "NOUN,inan,femn,sing,nomn", 4); ("федерация", "федерация", "NOUN,inan,femn,sing,nomn", 5);
   ("донецкая", "донецкий", "ADJF,femn,sing,nomn", 6); ("народная", "народный", "ADJF,femn,sing,nomn", 7); ("башня", "башня", "NOUN,inan,femn,sing,nomn", 8); ("одна", "один", "ADJF,Apro,femn,sing,nomn", 9); ("высоких", "высокий", "ADJF,Qual,plur,gent", 10)]%string.
Definition geo : making nat :=
  let^ a := rule [P (SGram (str_of "ADJF"))] in let^ a := optional a in let^ a := repeatable a in
  rule [P (PAnd [SGram (str_of "ADJF"); PIsCapitalized]); R a; P (SDictionary [text "федерация"; text "республика"])].
(** Cell 6. *)
Example index_6 : ranges (all_found (context_with republics) no_relation geo "
В Чеченской республике на день рождения ...
Донецкая народная республика провозгласила ...
Башня Федерация — одна из самых высоких ...
") = finds [["Чеченской"; "республике"]; ["Донецкая"; "народная"; "республика"]]%string.
Proof. vm_compute. reflexivity. Qed.
(** Classes 0: Name, 1: Person. *)
Definition putin : list entry :=
  [("марта", "март", "NOUN,inan,masc,sing,gent", 1); ("приказу", "приказ", "NOUN,inan,masc,sing,datv", 2); ("президента", "президент", "NOUN,anim,masc,sing,gent", 3); ("президент", "президент", "NOUN,anim,masc,sing,nomn", 4);
   ("премьер", "премьер", "NOUN,anim,masc,sing,nomn", 5); ("министр", "министр", "NOUN,anim,masc,sing,nomn", 6); ("владимира", "владимир", "NOUN,anim,masc,Name,sing,gent", 7); ("владимир", "владимир", "NOUN,anim,masc,Name,sing,nomn", 8);
   ("путина", "путин", "NOUN,anim,masc,Sgtm,Surn,sing,gent", 9); ("путин", "путин", "NOUN,anim,masc,Sgtm,Surn,sing,nomn", 10); ("путиным", "путин", "NOUN,anim,masc,Sgtm,Surn,sing,ablt", 11)]%string.
Definition inflected_putin := inflections [(3, "nomn,sing", "президент"); (7, "nomn,sing", "владимир"); (9, "nomn,sing", "путин")]%string.
Definition inflected_of (x : attribute) : res InterpModel.interpretator := let! x := attribute_morph (MInflected (grams "nomn,sing")) x in token_interpretator (GAttribute x).
Definition putin_interps : list (res InterpModel.interpretator) :=
  [inflected_of (attribute_of "first"); inflected_of (attribute_of "last"); by_rule (GFact 0);
   let! x := attribute_morph (MInflected (grams "nomn,sing")) (of_person "position") in by_rule (GAttribute x); by_rule (GAttribute (of_person "name")); by_rule (GFact 1)].
Definition person : making nat :=
  let^ p := pipeline_of (MorphPipelineScheme [text "премьер министр"; text "президент"]) in
  let^ f := rule [P (SGram (str_of "Name"))] in let^ f := interpretation f 0 in let^ l := rule [P (SGram (str_of "Surn"))] in let^ l := interpretation l 1 in
  let^ n := rule [R f; R l] in let^ n := interpretation n 2 in
  let^ p := interpretation p 3 in let^ n := interpretation n 4 in let^ r := rule [R p; R n] in interpretation r 5.
(** Cell 9. *)
Example index_9 : facts_of person_schemes (context_with putin) inflected_putin no_relation putin_interps person "
12 марта по приказу президента Владимира Путина ...
" =
  facts [Fact 1 [("position", S_ "президент"); ("name", Fact 0 [("first", S_ "владимир"); ("last", S_ "путин")])]]%string.
Proof. vm_compute. reflexivity. Qed.
(** Cell 13. *)
Example index_13_1 : parts tokenizer0 "Ростов-на-Дону" = Some (Ok (map text ["Ростов"; "-"; "на"; "-"; "Дону"]%string)).
Proof. vm_compute. reflexivity. Qed.
Example index_13_2 : parts tokenizer0 "Длительностью 18ч. 10мин." = Some (Ok (map text ["Длительностью"; "18"; "ч"; "."; "10"; "мин"; "."]%string)).
Proof. vm_compute. reflexivity. Qed.
Example index_13_3 : parts tokenizer0 "Яндекс.Такси" = Some (Ok (map text ["Яндекс"; "."; "Такси"]%string)).
Proof. vm_compute. reflexivity. Qed.
Example index_13_4 : parts tokenizer0 "π ≈ 3.1415" = Some (Ok (map text ["π"; "≈"; "3"; "."; "1415"]%string)).
Proof. vm_compute. reflexivity. Qed.
Example index_13_5 : parts tokenizer0 "1 500 000$" = Some (Ok (map text ["1"; "500"; "000"; "$"]%string)).
Proof. vm_compute. reflexivity. Qed.
Example index_13_6 : parts tokenizer0 "http://vk.com" = Some (Ok (map text ["http"; ":"; "/"; "/"; "vk"; "."; "com"]%string)).
Proof. vm_compute. reflexivity. Qed.
(** Cell 26. *)
Definition video : list entry :=
  [("видео", "видео", "NOUN,inan,neut,Fixd,sing,nomn", 1); ("файл", "файл", "NOUN,inan,masc,sing,nomn", 2); ("диск", "диск", "NOUN,inan,masc,sing,nomn", 3); ("диске", "диск", "NOUN,inan,masc,sing,loct", 4); ("dvd", "dvd", "LATN", 5); ("-", "-", "PNCT", 6);
   ("видеофильм", "видеофильм", "NOUN,inan,masc,sing,nomn", 7); ("газета", "газета", "NOUN,inan,femn,sing,nomn", 8); ("электронный", "электронный", "ADJF,masc,sing,nomn", 9); ("дневник", "дневник", "NOUN,inan,masc,sing,nomn", 10);
   ("эссе", "эссе", "NOUN,inan,neut,Fixd,sing,nomn", 11); ("на", "на", "PREP", 12); ("электронным", "электронный", "ADJF,masc,sing,ablt", 13); ("дневником", "дневник", "NOUN,inan,masc,sing,ablt", 14);
   ("электронные", "электронный", "ADJF,plur,nomn", 15); ("дневники", "дневник", "NOUN,inan,masc,plur,nomn", 16); ("электронное", "электронный", "ADJF,neut,sing,nomn", 17); ("дневнику", "дневник", "NOUN,inan,masc,sing,datv", 18)]%string.
Example index_26 : ranges (all_found (context_with video) no_relation (pipeline_of (MorphPipelineScheme (map text ["dvd-диск"; "видео файл"; "видеофильм"; "газета"; "электронный дневник"; "эссе"]%string))) "Видео файл на dvd-диске") = finds [["Видео"; "файл"]; ["dvd"; "-"; "диске"]]%string.
Proof. vm_compute. reflexivity. Qed.
(** Cells 30 to 38: SIZE, EXPR, TITLE. *)
Definition key : making nat := let^ a := rule [W "р"; W "."] in let^ b := rule [W "размер"] in let^ r := or_ [a; b] in named r "KEY".
Definition size : making nat :=
  let^ k := key in let^ a := rule [W "S"] in let^ b := rule [W "M"] in let^ c := rule [W "L"] in let^ v := or_ [a; b; c] in let^ v := named v "VALUE" in let^ r := rule [R k; R v] in named r "SIZE".
Definition size_in : making nat :=
  let^ k := key in let^ v := rule [P (PIn (map text ["S"; "M"; "L"]%string))] in let^ v := named v "VALUE" in let^ r := rule [R k; R v] in named r "SIZE".
Definition expr : making nat :=
  let^ e := forward in let^ a := rule [W "a"] in let^ b := rule [W "("; R e; W "+"; R e; W ")"] in let^ d := or_ [a; b] in let^ d := named d "EXPR" in let^ x := define e d in fun h => Ok (e, h).
Definition title_forward : making nat :=
  let^ t := forward in let^ a := rule [P (PNot (eq "»"))] in let^ b := rule [P (PNot (eq "»")); R t] in let^ d := or_ [a; b] in let^ x := define t d in let^ r := rule [W "«"; R t; W "»"] in named r "TITLE".
Definition title : making nat :=
  let^ a := rule [P (PNot (eq "»"))] in let^ a := repeatable a in let^ r := rule [W "«"; R a; W "»"] in named r "TITLE".
Notation bnf0 m := (bnf_of [] no_label m).
Example index_30 : bnf0 size = prints ["SIZE -> KEY VALUE"; "KEY -> 'р' '.' | 'размер'"; "VALUE -> 'S' | 'M' | 'L'"]%string.
Proof. vm_compute. reflexivity. Qed.
Example index_32 : bnf0 size_in = prints ["SIZE -> KEY VALUE"; "KEY -> 'р' '.' | 'размер'"; "VALUE -> in_(...)"]%string.
Proof. vm_compute. reflexivity. Qed.
Example index_34 : bnf0 expr = prints ["EXPR -> 'a' | '(' EXPR '+' EXPR ')'"]%string.
Proof. vm_compute. reflexivity. Qed.
Example index_36 : bnf0 title_forward = prints ["TITLE -> '«' R0 '»'"; "R0 -> not_('»') | not_('»') R0"]%string.
Proof. vm_compute. reflexivity. Qed.
Example index_38 : bnf0 title = prints ["TITLE -> '«' R0 '»'"; "R0 -> not_('»') R0 | not_('»')"]%string.
Proof. vm_compute. reflexivity. Qed.
(** Cells 41 and 43. *)
Definition person_or_title : making nat := let^ p := person in let^ t := title in or_ [p; t].
Example index_41 : ranges (all_found (context_with putin) no_relation person_or_title "Президент Владимир Путин в фильме «Интервью с Путиным» ..") = finds [["Президент"; "Владимир"; "Путин"]; ["«"; "Интервью"; "с"; "Путиным"; "»"]]%string.
Proof. vm_compute. reflexivity. Qed.
Example index_43_1 : matched (context_with putin) no_relation person_or_title "Президент Владимир Путин" = these ["Президент"; "Владимир"; "Путин"]%string.
Proof. vm_compute. reflexivity. Qed.
Example index_43_2 : matched (context_with putin) no_relation person_or_title "Президент Владимир Путин 25 мая" = nothing.
Proof. vm_compute. reflexivity. Qed.
(** Cells 46 to 54: dates. *)
Definition month_words : list String.string := ["январь"; "февраль"; "март"; "апрель"; "мая"; "июнь"; "июль"; "август"; "сентябрь"; "октябрь"; "ноябрь"; "декабрь"]%string.
Definition calendar : list entry :=
  map (fun w => (w, w, "NOUN,inan,masc,sing,nomn"%string, 0)) ["январь"; "февраль"; "март"; "апрель"; "июнь"; "июль"; "август"; "сентябрь"; "октябрь"; "ноябрь"; "декабрь"]%string ++
  [("мая", "май", "NOUN,inan,masc,sing,gent", 1); ("июля", "июль", "NOUN,inan,masc,sing,gent", 2); ("июня", "июнь", "NOUN,inan,masc,sing,gent", 3); ("марта", "март", "NOUN,inan,masc,sing,gent", 4); ("г", "год", "NOUN,inan,masc,Fixd,Abbr,sing,nomn", 5)]%string.
Definition month_name : predicate := SDictionary (map text month_words).
Definition month : predicate := PAnd [PGte 1; PLte 12].
Definition day : predicate := PAnd [PGte 1; PLte 31].
Definition year : predicate := PAnd [PGte 1900; PLte 2100].
Definition date : making nat :=
  let^ a := rule [P day; P month_name; P year] in let^ b := rule [P year; W "-"; P month; W "-"; P day] in let^ c := rule [P year; W "г"; W "."] in let^ r := or_ [a; b; c] in named r "DATE".
(** Date, class 0; interpretators 0: Date.year, 1: Date.month, 2: Date.day, 3: Date. *)
Definition date_labels : list interpretator_syntax := [LAttribute (str_of "Date") (str_of "year"); LAttribute (str_of "Date") (str_of "month"); LAttribute (str_of "Date") (str_of "day"); LFact (str_of "Date")].
Definition date_interps : list (res InterpModel.interpretator) := [by_token (GAttribute (attribute_of "year")); by_token (GAttribute (attribute_of "month")); by_token (GAttribute (attribute_of "day")); by_rule (GFact 0)].
Definition date_scheme (_ : nat) : InterpModel.scheme := [(str_of "year", InterpModel.Plain VNone); (str_of "month", InterpModel.Plain VNone); (str_of "day", InterpModel.Plain VNone)].
Definition read_as (p : predicate) (i : nat) : making nat := let^ r := rule [P p] in interpretation r i.
Definition date_read : making nat :=
  let^ d := read_as day 2 in let^ m := read_as month_name 1 in let^ y := read_as year 0 in let^ a := rule [R d; R m; R y] in
  let^ y := read_as year 0 in let^ m := read_as month 1 in let^ d := read_as day 2 in let^ b := rule [R y; W "-"; R m; W "-"; R d] in
  let^ y := read_as year 0 in let^ c := rule [R y; W "г"; W "."] in let^ r := or_ [a; b; c] in let^ r := interpretation r 3 in named r "DATE".
Notation date_fact s := (fact_of date_scheme (context_with calendar) (fun _ _ => None) no_relation date_interps date_read s%string).
Example index_46_1 : drawn (context_with calendar) [] date "2015г." =
  draws (T "DATE" [T "2015" []; T "г" []; T "." []]).
Proof. vm_compute. reflexivity. Qed.
Example index_46_2 : drawn (context_with calendar) [] date "18 июля 2016" =
  draws (T "DATE" [T "18" []; T "июля" []; T "2016" []]).
Proof. vm_compute. reflexivity. Qed.
Example index_46_3 : drawn (context_with calendar) [] date "2016-01-02" =
  draws (T "DATE" [T "2016" []; T "-" []; T "01" []; T "-" []; T "02" []]).
Proof. vm_compute. reflexivity. Qed.
Example index_48_1 : drawn (context_with calendar) date_labels date_read "2015г." =
  draws (T "Date" [T "Date.year" [T "2015" []]; T "г" []; T "." []]).
Proof. vm_compute. reflexivity. Qed.
Example index_48_2 : drawn (context_with calendar) date_labels date_read "18 июля 2016" =
  draws (T "Date" [T "Date.day" [T "18" []]; T "Date.month" [T "июля" []]; T "Date.year" [T "2016" []]]).
Proof. vm_compute. reflexivity. Qed.
Example index_48_3 : drawn (context_with calendar) date_labels date_read "2016-01-02" =
  draws (T "Date" [T "Date.year" [T "2016" []]; T "-" []; T "Date.month" [T "01" []]; T "-" []; T "Date.day" [T "02" []]]).
Proof. vm_compute. reflexivity. Qed.
Example index_50_1 : date_fact "2015г." = is (Fact 0 [("year", S_ "2015"); ("month", VNone); ("day", VNone)]%string).
Proof. vm_compute. reflexivity. Qed.
Example index_50_2 : date_fact "18 июля 2016" = is (Fact 0 [("year", S_ "2016"); ("month", S_ "июля"); ("day", S_ "18")]%string).
Proof. vm_compute. reflexivity. Qed.
Example index_50_3 : date_fact "2016-01-02" = is (Fact 0 [("year", S_ "2016"); ("month", S_ "01"); ("day", S_ "02")]%string).
Proof. vm_compute. reflexivity. Qed.
(** MONTHS.get *)
Definition month_number (v : pyval) : res pyval :=
  match v with VStr s => Ok (match List.find (fun p => str_eqb (text (fst p)) s) (combine month_words (seq 1 12)) with Some (_, k) => VInt (Z.of_nat k) | None => VNone end) | _ => Ok VNone end.
Definition custom_interps : list (res InterpModel.interpretator) :=
  [let! x := attribute_custom int_ (attribute_of "year") in by_token (GAttribute x); let! x := attribute_morph MNormalized (attribute_of "month") in let! x := attribute_custom month_number x in by_token (GAttribute x);
   let! x := attribute_custom int_ (attribute_of "day") in by_token (GAttribute x); by_rule (GFact 0)].
Definition date_plain : making nat := let^ d := read_as day 2 in let^ m := read_as month_name 1 in let^ y := read_as year 0 in let^ a := rule [R d; R m; R y] in interpretation a 3.
Example index_54 : fact_of date_scheme (context_with calendar) (fun _ _ => None) no_relation custom_interps date_plain "18 июня 2016" = is (Fact 0 [("year", VInt 2016); ("month", VInt 6); ("day", VInt 18)]%string).
Proof. vm_compute. reflexivity. Qed.
(** Cells 58 to 66: names without and with a relation. *)
Definition names : list entry :=
  [("илье", "илья", "NOUN,anim,masc,Name,sing,datv", 1); ("ивановым", "иванов", "NOUN,anim,masc,Sgtm,Surn,sing,ablt", 2); ("павлом", "павел", "NOUN,anim,masc,Name,sing,ablt", 3); ("семенов", "семенов", "NOUN,anim,masc,Sgtm,Surn,sing,nomn", 4);
   ("сашу", "саша", "NOUN,anim,ms-f,Name,sing,accs", 5); ("саше", "саша", "NOUN,anim,ms-f,Name,sing,datv", 6); ("саша", "саша", "NOUN,anim,ms-f,Name,sing,nomn", 7); ("быков", "быков", "NOUN,anim,masc,Sgtm,Surn,sing,nomn", 8);
   ("иванову", "иванов", "NOUN,anim,masc,Sgtm,Surn,sing,datv", 9); ("иванову", "иванова", "NOUN,anim,femn,Sgtm,Surn,sing,accs", 10)]%string.
Definition inflected_names := inflections [(5, "nomn,sing", "саша"); (6, "nomn,sing", "саша"); (9, "nomn,sing", "иванов"); (10, "nomn,sing", "иванова")]%string.
Definition name_free : making nat :=
  let^ f := rule [P (SGram (str_of "Name"))] in let^ f := interpretation f 0 in let^ l := rule [P (SGram (str_of "Surn"))] in let^ l := interpretation l 1 in let^ r := rule [R f; R l] in interpretation r 2.
Notation names_found rel m s := (ranges (all_found (context_with names) rel m s%string)).
Notation names_read rel m s := (facts_of first_last (context_with names) inflected_names rel name_interps m s%string).
Example index_60 : names_found no_relation name_free "Илье Ивановым, Павлом Семенов" = finds [["Илье"; "Ивановым"]; ["Павлом"; "Семенов"]]%string.
Proof. vm_compute. reflexivity. Qed.
Example index_62 : names_read no_relation name_free "Сашу Иванову, Саше Иванову" = facts [Fact 0 [("first", S_ "саша"); ("last", S_ "иванов")]; Fact 0 [("first", S_ "саша"); ("last", S_ "иванов")]]%string.
Proof. vm_compute. reflexivity. Qed.
Example index_65 : names_found gnc name_rule "Илье Ивановым, Павлом Семенов, Саша Быков" = finds [["Саша"; "Быков"]]%string.
Proof. vm_compute. reflexivity. Qed.
Example index_66 : names_read gnc name_rule "Сашу Иванову, Саше Иванову" = facts [Fact 0 [("first", S_ "саша"); ("last", S_ "иванова")]; Fact 0 [("first", S_ "саша"); ("last", S_ "иванов")]]%string.
Proof. vm_compute. reflexivity. Qed.

(** ** ref.ipynb *)
(** Cells 5 to 13. *)
Example ref_5 : tokens tokenizer0 "a@mail.ru" = TestsTokenizer.is [Token "a" 0 1 LATIN; Token "@" 1 2 PUNCT; Token "mail" 2 6 LATIN; Token "." 6 7 PUNCT; Token "ru" 7 9 LATIN].
Proof. vm_compute. reflexivity. Qed.
Example ref_7 : tokens tokenizer0 "
abc
123
" = TestsTokenizer.is [Token "
" 0 1 EOL; Token "abc" 1 4 LATIN; Token "
" 4 5 EOL; Token "123" 5 8 INT; Token "
" 8 9 EOL].
Proof. vm_compute. reflexivity. Qed.
Example ref_9 : let '(t, _) := remove_types tokenizer0 [EOL] in tokens t "
abc
123
" = TestsTokenizer.is [Token "abc" 1 4 LATIN; Token "123" 5 8 INT].
Proof. vm_compute. reflexivity. Qed.
Example ref_11 : let '(t, _) := add_rules tokenizer0 [Some (EMAIL_RULE russian_chars); Some (PHONE_RULE russian_chars)] in tokens t "email: ab@mail.ru call: 8 915 132 54 76" =
  TestsTokenizer.is [Token "email" 0 5 LATIN; Token ":" 5 6 PUNCT; Token "ab@mail.ru" 7 17 (str_of "EMAIL"); Token "call" 18 22 LATIN; Token ":" 22 23 PUNCT; Token " 8 915 132 54 76" 23 39 (str_of "PHONE")].
Proof. vm_compute. reflexivity. Qed.
(** [a-zA-Z0-9-]+\.[a-zA-Z0-9-.]+ *)
Definition DOMAIN_RULE : token_rule :=
  mkRule 8 (str_of "DOMAIN") (Some (RSeq (rplus (RSet (in_set russian_chars email_host))) (RSeq (RSet (in_set russian_chars (chars_of "."))) (rplus (RSet (in_set russian_chars email_tail)))))).
Example ref_13 : let '(t, _) := add_rules tokenizer0 [Some DOMAIN_RULE] in tokens t "на сайте www.VKontakte.ru" = TestsTokenizer.is [Token "на" 0 2 RU; Token "сайте" 3 8 RU; Token "www.VKontakte.ru" 9 25 (str_of "DOMAIN")].
Proof. vm_compute. reflexivity. Qed.
(** Cells 20 and 22. *)
Example ref_20 : ranges (all_found (context_with video) no_relation (pipeline_of (MorphPipelineScheme [text "электронный дневник"])) "электронным дневником, электронные дневники, электронное дневнику") =
  finds [["электронным"; "дневником"]; ["электронные"; "дневники"]; ["электронное"; "дневнику"]]%string.
Proof. vm_compute. reflexivity. Qed.
Example ref_22 : ranges (all_found plain no_relation (pipeline_of (CaselessPipelineScheme [text "Абд Аль-Азиз Бин Мухаммад"; text "Абд ар-Рахман Наср ас-Са ди"])) "Абд Аль-Азиз Бин Мухаммад, АБД АР-РАХМАН НАСР АС-СА ДИ") =
  finds [["Абд"; "Аль"; "-"; "Азиз"; "Бин"; "Мухаммад"]; ["АБД"; "АР"; "-"; "РАХМАН"; "НАСР"; "АС"; "-"; "СА"; "ДИ"]]%string.
Proof. vm_compute. reflexivity. Qed.
(** Cells 27 and 29: the year is 2017 unless given. *)
Definition date_2017 (_ : nat) : InterpModel.scheme := [(str_of "year", InterpModel.Plain (VInt 2017)); (str_of "month", InterpModel.Plain VNone); (str_of "day", InterpModel.Plain VNone)].
Definition date_optional : making nat :=
  let^ d := read_as day 2 in let^ m := read_as month_name 1 in let^ y := read_as year 0 in let^ y := optional y in let^ a := rule [R d; R m; R y] in interpretation a 3.
Notation date_2017_fact s := (fact_of date_2017 (context_with calendar) (fun _ _ => None) no_relation date_interps date_optional s%string).
Example ref_27_1 : date_2017_fact "18 июля 2016" = is (Fact 0 [("year", S_ "2016"); ("month", S_ "июля"); ("day", S_ "18")]%string).
Proof. vm_compute. reflexivity. Qed.
Example ref_27_2 : date_2017_fact "15 марта" = is (Fact 0 [("year", VInt 2017); ("month", S_ "марта"); ("day", S_ "15")]%string).
Proof. vm_compute. reflexivity. Qed.
Example ref_29_1 : drawn (context_with calendar) date_labels date_optional "18 июля 2016" =
  draws (T "Date" [T "Date.day" [T "18" []]; T "Date.month" [T "июля" []]; T "R3" [T "Date.year" [T "2016" []]]]).
Proof. vm_compute. reflexivity. Qed.
Example ref_29_2 : drawn (context_with calendar) date_labels date_optional "15 марта" =
  draws (T "Date" [T "Date.day" [T "15" []]; T "Date.month" [T "марта" []]]).
Proof. vm_compute. reflexivity. Qed.
(** Cells 31 and 33. *)
Definition thousands : list entry := [("тысяч", "тысяча", "NOUN,inan,femn,plur,gent", 1); ("тысяча", "тысяча", "NOUN,inan,femn,sing,nomn", 2); ("миллион", "миллион", "NOUN,inan,masc,sing,nomn", 3)]%string.
Definition money_labels : list interpretator_syntax := [LAttribute (str_of "Money") (str_of "value"); LAttribute (str_of "Money") (str_of "currency"); LFact (str_of "Money")].
Definition money_interps : list (res InterpModel.interpretator) := [by_rule (GAttribute (attribute_of "value")); by_token (GAttribute (attribute_of "currency")); by_rule (GFact 0)].
Definition money : making nat :=
  let^ v := rule [P (SType INT); P (SDictionary [text "тысяча"; text "миллион"])] in let^ v := interpretation v 0 in let^ c := read_as (eq "$") 1 in let^ r := rule [R v; R c] in interpretation r 2.
Example ref_31 : drawn (context_with thousands) money_labels money "5 тысяч$" =
  draws (T "Money" [T "Money.value" [T "5" []; T "тысяч" []]; T "Money.currency" [T "$" []]]).
Proof. vm_compute. reflexivity. Qed.
Example ref_33 : fact_of (fun _ => [(str_of "value", InterpModel.Plain VNone); (str_of "currency", InterpModel.Plain VNone)]) (context_with thousands) (fun _ _ => None) no_relation money_interps money "5 тысяч$" = is (Fact 0 [("value", S_ "5 тысяч"); ("currency", S_ "$")]%string).
Proof. vm_compute. reflexivity. Qed.
(** Cells 35 and 36: TypeError.  Classes 0: A, 1: B. *)
Definition ab_labels : list interpretator_syntax := [LAttribute (str_of "A") (str_of "x"); LFact (str_of "A"); LAttribute (str_of "B") (str_of "y"); LFact (str_of "B")].
Definition ab_interps : list (res InterpModel.interpretator) := [by_rule (GAttribute (attribute_of "x")); by_rule (GFact 0); by_token (GAttribute (AAttribute (mkAttr 1 (str_of "y")))); by_rule (GFact 1)].
Definition ab : making nat := let^ y := read_as PTrue 2 in let^ y := interpretation y 3 in let^ r := rule [P PTrue; R y] in let^ r := interpretation r 0 in interpretation r 1.
Definition ab_schemes (sc : nat) : InterpModel.scheme := if sc =? 0 then [(str_of "x", InterpModel.Plain VNone)] else [(str_of "y", InterpModel.Plain VNone)].
Example ref_35 : drawn plain ab_labels ab "X Y" =
  draws (T "A" [T "A.x" [T "X" []; T "B" [T "B.y" [T "Y" []]]]]).
Proof. vm_compute. reflexivity. Qed.
Example ref_36 : fact_of ab_schemes plain (fun _ _ => None) no_relation ab_interps ab "X Y" = Some (Ok (Some (Err TypeError))).
Proof. vm_compute. reflexivity. Qed.
(** Cells 38 and 40. *)
Definition xy_labels : list interpretator_syntax := [LAttribute (str_of "A") (str_of "x"); LAttribute (str_of "A") (str_of "y"); LFact (str_of "A")].
Definition xy_interps : list (res InterpModel.interpretator) := [by_token (GAttribute (attribute_of "x")); by_rule (GAttribute (attribute_of "y")); by_rule (GFact 0)].
Definition xy : making nat := let^ r := read_as PTrue 0 in let^ r := interpretation r 1 in interpretation r 2.
Example ref_38 : drawn plain xy_labels xy "X" =
  draws (T "A" [T "A.y" [T "A.x" [T "X" []]]]).
Proof. vm_compute. reflexivity. Qed.
Example ref_40 : fact_of (fun _ => [(str_of "x", InterpModel.Plain VNone); (str_of "y", InterpModel.Plain VNone)]) plain (fun _ _ => None) no_relation xy_interps xy "X" = is (Fact 0 [("x", VNone); ("y", S_ "X")]%string).
Proof. vm_compute. reflexivity. Qed.
(** Cells 42 and 44. *)
Definition xs : making nat := let^ r := read_as PTrue 0 in let^ r := repeatable r in interpretation r 2.
Example ref_42 : drawn plain xy_labels xs "1 2 3" =
  draws (T "A" [T "R1" [T "A.x" [T "1" []]; T "R1" [T "A.x" [T "2" []]; T "R1" [T "A.x" [T "3" []]]]]]).
Proof. vm_compute. reflexivity. Qed.
Example ref_44 : fact_of (fun _ => [(str_of "x", InterpModel.Plain VNone)]) plain (fun _ _ => None) no_relation xy_interps xs "1 2 3" = is (Fact 0 [("x", S_ "3")]%string).
Proof. vm_compute. reflexivity. Qed.
(** Cells 46 and 48. *)
Definition item_labels : list interpretator_syntax := [LAttribute (str_of "Item") (str_of "titles"); LFact (str_of "Item")].
Definition quoted : making nat := let^ a := rule [P (PNot (eq "»"))] in let^ a := repeatable a in rule [W "«"; R a; W "»"].
Definition items : making nat := let^ t := quoted in let^ t := interpretation t 0 in let^ c := rule [W ","] in let^ c := optional c in let^ r := rule [R t; R c] in let^ r := repeatable r in interpretation r 1.
Example ref_46 : drawn plain item_labels items "«Каштанка», «Дядя Ваня»" =
  draws (T "Item" [T "R1" [T "R2" [T "Item.titles" [T "«" []; T "R5" [T "Каштанка" []]; T "»" []]; T "R4" [T "," []]]; T "R1" [T "Item.titles" [T "«" []; T "R5" [T "Дядя" []; T "R5" [T "Ваня" []]]; T "»" []]]]]).
Proof. vm_compute. reflexivity. Qed.
Example ref_48 : fact_of (fun _ => [(str_of "titles", Repeatable)]) plain (fun _ _ => None) no_relation [by_rule (GAttribute (ARepeatable (mkAttr 0 (str_of "titles")))); by_rule (GFact 0)] items "«Каштанка», «Дядя Ваня»" =
  is (Fact 0 [("titles", VList [S_ "«Каштанка»"; S_ "«Дядя Ваня»"])]%string).
Proof. vm_compute. reflexivity. Qed.
(** Cells 50 and 52: a rule that contains itself.  Classes 0: Date, 1: Item. *)
Definition film_labels : list interpretator_syntax := date_labels ++ [LAttribute (str_of "Item") (str_of "title"); LAttribute (str_of "Item") (str_of "date"); LFact (str_of "Item")].
Definition of_item (s : String.string) : attribute := AAttribute (mkAttr 1 (str_of s)).
Arguments of_item s%string.
Definition film_interps : list (res InterpModel.interpretator) := date_interps ++ [by_rule (GAttribute (of_item "title")); by_rule (GAttribute (of_item "date")); by_rule (GFact 1)].
Definition film_schemes (sc : nat) : InterpModel.scheme := if sc =? 0 then date_2017 0 else [(str_of "title", InterpModel.Plain VNone); (str_of "date", InterpModel.Plain VNone)].
Definition film : making nat :=
  let^ i := forward in let^ i := interpretation i 6 in let^ q := quoted in let^ t := interpretation q 4 in let^ b := rule [R i; R q] in let^ d := date_optional in let^ d := interpretation d 5 in let^ e := rule [R i; R d] in
  let^ r := or_ [t; b; e] in let^ x := define i r in fun h => Ok (i, h).
Example ref_50 : drawn (context_with calendar) film_labels film "«Каштанка» 18 июня" =
  draws (T "Item" [T "R1" [T "Item" [T "R1" [T "Item.title" [T "R3" [T "«" []; T "R5" [T "Каштанка" []]; T "»" []]]]]; T "Item.date" [T "Date" [T "Date.day" [T "18" []]; T "Date.month" [T "июня" []]]]]]).
Proof. vm_compute. reflexivity. Qed.
Example ref_52 : fact_of film_schemes (context_with calendar) (fun _ _ => None) no_relation film_interps film "«Каштанка» 18 июня" =
  is (Fact 1 [("title", S_ "«Каштанка»"); ("date", Fact 0 [("year", VInt 2017); ("month", S_ "июня"); ("day", S_ "18")])]%string).
Proof. vm_compute. reflexivity. Qed.
(** Cells 55 and 57. *)
Example ref_55 : fact_of date_scheme (context_with calendar) (fun _ _ => None) no_relation date_interps date_plain "8 июня 2015" = is (Fact 0 [("year", S_ "2015"); ("month", S_ "июня"); ("day", S_ "8")]%string).
Proof. vm_compute. reflexivity. Qed.
Example ref_57 : fact_of date_scheme (context_with calendar) (fun _ _ => None) no_relation [by_token (GAttribute (attribute_of "year")); let! x := attribute_morph MNormalized (attribute_of "month") in by_token (GAttribute x); by_token (GAttribute (attribute_of "day")); by_rule (GFact 0)] date_plain "8 июня 2015" =
  is (Fact 0 [("year", S_ "2015"); ("month", S_ "июнь"); ("day", S_ "8")]%string).
Proof. vm_compute. reflexivity. Qed.
(** Cells 59 and 61. *)
Definition squares : list entry :=
  [("на", "на", "PREP", 1); ("красная", "красный", "ADJF,femn,sing,nomn", 2); ("красной", "красный", "ADJF,femn,sing,gent", 3); ("площадь", "площадь", "NOUN,inan,femn,sing,nomn", 4); ("площади", "площадь", "NOUN,inan,femn,sing,gent", 5);
   ("первомайская", "первомайский", "ADJF,femn,sing,nomn", 6); ("первомайскую", "первомайский", "ADJF,femn,sing,accs", 7); ("улица", "улица", "NOUN,inan,femn,sing,nomn", 8); ("улицу", "улица", "NOUN,inan,femn,sing,accs", 9)]%string.
Definition geo_interps : list (res InterpModel.interpretator) := [let! x := attribute_morph MNormalized (attribute_of "name") in by_rule (GAttribute x); by_rule (GFact 0)].
Notation geo_read m s := (facts_of (fun _ => [(str_of "name", InterpModel.Plain VNone)]) (context_with squares) (fun _ _ => None) no_relation geo_interps m s%string).
Example ref_59 : geo_read (let^ r := rule [P (SNormalized (text "Красная")); P (SNormalized (text "площадь"))] in let^ r := interpretation r 0 in interpretation r 1) "на Красной площади" = facts [Fact 0 [("name", S_ "красный площадь")]]%string.
Proof. vm_compute. reflexivity. Qed.
Example ref_61 : geo_read (let^ r := pipeline_of (MorphPipelineScheme [text "красная площадь"; text "первомайская улица"]) in let^ r := interpretation r 0 in interpretation r 1) "c Красной площади на Первомайскую улицу" =
  facts [Fact 0 [("name", S_ "красная площадь")]; Fact 0 [("name", S_ "первомайская улица")]]%string.
Proof. vm_compute. reflexivity. Qed.
(** Cells 63 and 65. *)
Definition three_names : list entry :=
  [("саше", "саша", "NOUN,anim,ms-f,Name,sing,datv", 1); ("маше", "маша", "NOUN,anim,femn,Name,sing,datv", 2); ("вадиму", "вадим", "NOUN,anim,masc,Name,sing,datv", 3); ("саша", "саша", "NOUN,anim,ms-f,Name,sing,nomn", 4); ("маша", "маша", "NOUN,anim,femn,Name,sing,nomn", 5); ("вадим", "вадим", "NOUN,anim,masc,Name,sing,nomn", 6)]%string.
Definition inflected_three := inflections [(1, "nomn,sing", "саша"); (2, "nomn,sing", "маша"); (3, "nomn,sing", "вадим"); (4, "accs,plur", "саш"); (5, "accs,plur", "маш"); (6, "accs,plur", "вадимов")]%string.
Notation first_read i s := (facts_of (fun _ => [(str_of "first", InterpModel.Plain VNone)]) (context_with three_names) inflected_three no_relation [i; by_rule (GFact 0)] (let^ r := read_as (SGram (str_of "Name")) 0 in interpretation r 1) s%string).
Example ref_63 : first_read (inflected_of (attribute_of "first")) "Саше, Маше, Вадиму" = facts [Fact 0 [("first", S_ "саша")]; Fact 0 [("first", S_ "маша")]; Fact 0 [("first", S_ "вадим")]]%string.
Proof. vm_compute. reflexivity. Qed.
Example ref_65 : first_read (let! x := attribute_morph (MInflected (grams "accs,plur")) (attribute_of "first") in by_token (GAttribute x)) "Саша, Маша, Вадим" = facts [Fact 0 [("first", S_ "саш")]; Fact 0 [("first", S_ "маш")]; Fact 0 [("first", S_ "вадимов")]]%string.
Proof. vm_compute. reflexivity. Qed.
(** Cell 69. *)
Example ref_69 : fact_of date_scheme (context_with calendar) (fun _ _ => None) no_relation custom_interps date_plain "8 июня 2015" = is (Fact 0 [("year", VInt 2015); ("month", VInt 6); ("day", VInt 8)]%string).
Proof. vm_compute. reflexivity. Qed.
(** Cell 71. *)
Definition eras : list entry :=
  [("до", "до", "PREP", 1); ("нашей", "наш", "ADJF,Apro,femn,sing,gent", 2); ("наша", "наш", "ADJF,Apro,femn,sing,nomn", 3); ("эра", "эра", "NOUN,inan,femn,sing,nomn", 4); ("эры", "эра", "NOUN,inan,femn,sing,gent", 5); ("н", "н", "NOUN,inan,masc,Fixd,Abbr", 6); ("э", "э", "INTJ", 7); (".", ".", "PNCT", 8)]%string.
Definition era : making nat :=
  let^ b := pipeline_of (MorphPipelineScheme [text "до нашей эры"; text "до н.э."]) in let^ b := interpretation b 0 in let^ a := pipeline_of (MorphPipelineScheme [text "наша эра"; text "н.э."]) in let^ a := interpretation a 1 in
  let^ r := or_ [b; a] in interpretation r 2.
Definition era_interps : list (res InterpModel.interpretator) :=
  [let! x := attribute_const (S_ "BC") (attribute_of "value") in by_rule (GAttribute x); let! x := attribute_const (S_ "AD") (attribute_of "value") in by_rule (GAttribute x); by_rule (GFact 0)].
Example ref_71 : facts_of (fun _ => [(str_of "value", InterpModel.Plain VNone)]) (context_with eras) (fun _ _ => None) no_relation era_interps era "наша эра, до н.э." = facts [Fact 0 [("value", S_ "AD")]; Fact 0 [("value", S_ "BC")]]%string.
Proof. vm_compute. reflexivity. Qed.
(** Cells 74 and 77. *)
Definition name_labels : list interpretator_syntax :=
  [LAttributeNormalizer (str_of "Name") (str_of "first") (LMorph (LInflected (Some (grams "nomn,sing")))); LAttributeNormalizer (str_of "Name") (str_of "last") (LMorph (LInflected (Some (grams "nomn,sing")))); LFact (str_of "Name")].
Definition gnc_case (i : nat) : str := relation_text (if i =? 0 then Gnc else Case).
Definition chief : list entry :=
  [("главный", "главный", "ADJF,masc,sing,nomn", 1); ("главного", "главный", "ADJF,masc,sing,accs", 2); ("бухгалтер", "бухгалтер", "NOUN,anim,masc,sing,nomn", 3); ("бухгалтера", "бухгалтер", "NOUN,anim,masc,sing,accs", 4);
   ("марину", "марина", "NOUN,anim,femn,Name,sing,accs", 5); ("игореву", "игорева", "NOUN,anim,femn,Sgtm,Surn,sing,accs", 6)]%string.
Definition gnc_or_case (i : nat) : form -> form -> bool := relation_call (if i =? 0 then RGnc else RCase).
Definition chief_person : making nat :=
  let^ p := rule [P (SNormalized (text "главный")); Main (TPred (SNormalized (text "бухгалтер")))] in let^ p := matching p 1 in let^ n := name_rule in let^ n := matching n 1 in rule [R p; R n].
Example ref_74 : tree_of (context_with names) gnc_or_case name_labels gnc_case name_rule "Сашу Иванову" = draws (T "Name" [T "Name.first.inflected(nomn, sing)^gnc" [T "Сашу" []]; T "Name.last.inflected(nomn, sing)^gnc" [T "Иванову" []]]).
Proof. vm_compute. reflexivity. Qed.
Example ref_77_1 : tree_of (context_with chief) gnc_or_case name_labels gnc_case chief_person "главного бухгалтер марину игореву" = Some (Ok None).
Proof. vm_compute. reflexivity. Qed.
Example ref_77_2 : tree_of (context_with chief) gnc_or_case name_labels gnc_case chief_person "главного бухгалтера марину игореву" =
  draws (T "R0" [T "R1^case" [T "главного" []; T "бухгалтера" []]; T "Name^case" [T "Name.first.inflected(nomn, sing)^gnc" [T "марину" []]; T "Name.last.inflected(nomn, sing)^gnc" [T "игореву" []]]]).
Proof. vm_compute. reflexivity. Qed.

(** ** cookbook.ipynb *)
(** Cell 3: three complete readings, in this order, and seven others. *)
Definition one_two : making nat := let^ a := rule [W "a"] in let^ b := rule [W "a"; W "a"] in let^ r := or_ [a; b] in repeatable r.
Definition two_one : making nat := let^ b := rule [W "a"; W "a"] in let^ a := rule [W "a"] in let^ r := or_ [b; a] in repeatable r.
Definition complete (n : nat) (x : option (res (list (nat * drawing)))) : option (res (nat * list drawing)) :=
  option_map (fun r => let! l := r in Ok (length l, map snd (filter (fun p => fst p =? n) l))) x.
Example cookbook_3_bnf : bnf0 one_two = prints ["R0 -> R1 R0 | R1"; "R1 -> 'a' | 'a' 'a'"]%string.
Proof. vm_compute. reflexivity. Qed.
Example cookbook_3 : complete 3 (trees_of plain no_relation [] no_label one_two "a a a") = Some (Ok (10, [T "R0" [T "R1" [T "a" []]; T "R0" [T "R1" [T "a" []; T "a" []]]]; T "R0" [T "R1" [T "a" []; T "a" []]; T "R0" [T "R1" [T "a" []]]]; T "R0" [T "R1" [T "a" []]; T "R0" [T "R1" [T "a" []]; T "R0" [T "R1" [T "a" []]]]]])).
Proof. vm_compute. reflexivity. Qed.
(** Cell 7: the states a capped parser would count; 100 are exceeded from six letters on. *)
Definition total (c : context) (m : making nat) (s : String.string) : option (res nat) :=
  then_ (Some (m [])) (fun '(r, h) =>
  then_ (parser_grammar python seen c fuel h r) (fun g =>
  then_ (text_tokens c (text s)) (fun toks =>
  match chart (accepts python) narrow g toks fuel false with Some st => Some (Ok (list_sum (map (fun k => length (cols st k)) (seq 0 (S (length toks)))))) | None => None end))).
Definition within_cap (s : String.string) : option bool := match total plain one_two s with Some (Ok n) => Some (n <=? 100) | _ => None end.
Arguments within_cap s%string.
Example cookbook_7 : map within_cap ["a a a "; "a a a a "; "a a a a a "; "a a a a a a "; "a a a a a a a "; "a a a a a a a a "; "a a a a a a a a a "]%string = map Some [true; true; true; false; false; false; false].
Proof. vm_compute. reflexivity. Qed.
(** Cells 10 and 12: the order of the alternatives decides. *)
Example cookbook_10 : drawn plain [] one_two "a a a" =
  draws (T "R0" [T "R1" [T "a" []]; T "R0" [T "R1" [T "a" []]; T "R0" [T "R1" [T "a" []]]]]).
Proof. vm_compute. reflexivity. Qed.
Example cookbook_12 : drawn plain [] two_one "a a a" =
  draws (T "R0" [T "R1" [T "a" []; T "a" []]; T "R0" [T "R1" [T "a" []]]]).
Proof. vm_compute. reflexivity. Qed.
(** Cells 19 to 23: classes 0: F, 1: G, 2: Proxy. *)
Definition either_interps : list (res InterpModel.interpretator) :=
  [by_rule (GAttribute (attribute_of "a")); by_rule (GFact 0); by_rule (GAttribute (AAttribute (mkAttr 1 (str_of "b")))); by_rule (GFact 1); by_rule (GAttribute (AAttribute (mkAttr 2 (str_of "value")))); by_rule (GFact 2)].
Definition either : making nat :=
  let^ x := rule [W "a"] in let^ x := interpretation x 0 in let^ x := interpretation x 1 in let^ y := rule [W "b"] in let^ y := interpretation y 2 in let^ y := interpretation y 3 in or_ [x; y].
Definition either_schemes (sc : nat) : InterpModel.scheme := match sc with 0 => [(str_of "a", InterpModel.Plain VNone)] | 1 => [(str_of "b", InterpModel.Plain VNone)] | _ => [(str_of "value", InterpModel.Plain VNone)] end.
Notation either_fact m s := (fact_of either_schemes plain (fun _ _ => None) no_relation either_interps m s%string).
Example cookbook_19 : either_fact either "a" = Some (Ok (Some (Err ValueError))).
Proof. vm_compute. reflexivity. Qed.
Example cookbook_23 : either_fact (let^ c := either in let^ c := interpretation c 4 in interpretation c 5) "a" = is (Fact 2 [("value", Fact 0 [("a", S_ "a")])]%string).
Proof. vm_compute. reflexivity. Qed.
(** Cells 33 and 43: tags. *)
Fixpoint zip_tags (tags : list str) (l : list token) : list token := match l, tags with t :: l', g :: tags' => tagged t g :: zip_tags tags' l' | _, _ => [] end.
Definition bio_context (tags : list String.string) : context := mkContext tokenizer0 (Some (analyzer [])) (Some (UserTagger (zip_tags (map text tags)) [])).
Definition bio (b i : String.string) : making nat := let^ x := rule [P (STag (text i))] in let^ x := repeatable x in let^ x := optional x in rule [P (STag (text b)); R x].
Arguments bio (b i)%string.
Example cookbook_33 : ranges (all_found (bio_context ["B"; "I"; "O"; "B"; "B"; "I"; "O"]%string) no_relation (bio "B" "I") "15 апреля в Симферополе Леонид Рожков ...") = finds [["15"; "апреля"]; ["Симферополе"]; ["Леонид"; "Рожков"]]%string.
Proof. vm_compute. reflexivity. Qed.
Example cookbook_43 : ranges (all_found (bio_context ["B-DATE"; "I-DATE"; "O"; "B-LOC"; "B-PER"; "I-PER"; "O"]%string) no_relation (let^ p := bio "B-PER" "I-PER" in let^ l := bio "B-LOC" "I-LOC" in or_ [p; l]) "15 апреля в Симферополе Леонид Рожков ...") = finds [["Симферополе"]; ["Леонид"; "Рожков"]]%string.
Proof. vm_compute. reflexivity. Qed.
(** Cell 36: the spans of the matches. *)
Definition fines : list entry :=
  [("взыскать", "взыскать", "INFN", 1); ("5", "5", "NUMB", 2); ("тыс", "тысяча", "NOUN,Abbr", 3); (".", ".", "PNCT", 4); ("р", "рубль", "NOUN,Abbr", 5); ("штраф", "штраф", "NOUN,inan,masc,sing,nomn", 6); ("штрафа", "штраф", "NOUN,inan,masc,sing,gent", 7);
   ("пени", "пеня", "NOUN,inan,femn,sing,gent", 8); ("пени", "пени", "NOUN,inan,neut,Fixd", 9); ("неустойка", "неустойка", "NOUN,inan,femn,sing,nomn", 10); ("неустойку", "неустойка", "NOUN,inan,femn,sing,accs", 11)]%string.
Definition payment : making nat := pipeline_of (MorphPipelineScheme [text "5 тыс. р. штраф"; text "пени"; text "неустойка"]).
Example cookbook_36 : option_map (fun r => let! l := r in Ok (map snd l)) (all_found (context_with fines) no_relation payment "взыскать 5 тыс. р. штрафа, а также пени и неустойку") = Some (Ok [(9, 25); (35, 39); (42, 51)]%Z).
Proof. vm_compute. reflexivity. Qed.
Example cookbook_36_match : exists ws, matched (context_with fines) no_relation (let^ p := payment in repeatable p) "5 тыс . р . штрафа пени неустойку" = Some (Ok (Some ws)) /\ length ws = 8.
Proof. eexists. vm_compute. split; reflexivity. Qed.
(** Cells 39 and 41. *)
Definition bounded (a b : String.string) : making nat := let^ x := rule [P (PNot (eq b))] in let^ x := repeatable x in rule [W a; R x; W b].
Arguments bounded (a b)%string.
Definition two_bounds : making nat := let^ x := bounded "[" "]" in let^ y := bounded "«" "»" in or_ [x; y].
Definition joined : making nat := let^ i := two_bounds in let^ s := rule [P (PIn [str_of ","; str_of ";"]); R i] in let^ s := repeatable s in let^ s := optional s in rule [R i; R s].
Example cookbook_39 : ranges (all_found plain no_relation two_bounds "[a b] {c d} «e f»") = finds [["["; "a"; "b"; "]"]; ["«"; "e"; "f"; "»"]]%string.
Proof. vm_compute. reflexivity. Qed.
Example cookbook_41 : exists ws, matched plain no_relation joined "[a b], [c d], [e f g]" = Some (Ok (Some ws)) /\ length ws = 15.
Proof. eexists. vm_compute. split; reflexivity. Qed.
(** Cell 46. *)
Definition firms_words : list entry :=
  [("общество", "общество", "NOUN,inan,neut,sing,nomn", 1); ("обществе", "общество", "NOUN,inan,neut,sing,loct", 2); ("с", "с", "PREP", 3); ("ограниченной", "ограничить", "PRTF,femn,sing,ablt", 4); ("ответственностью", "ответственность", "NOUN,inan,femn,sing,ablt", 5);
   ("акционерное", "акционерный", "ADJF,neut,sing,nomn", 6); ("акционерном", "акционерный", "ADJF,neut,sing,loct", 7); ("страховая", "страховой", "ADJF,femn,sing,nomn", 8); ("строительная", "строительный", "ADJF,femn,sing,nomn", 9); ("компания", "компания", "NOUN,inan,femn,sing,nomn", 10);
   ("в", "в", "PREP", 11); ("ао", "ао", "UNKN", 12); ("ск", "ск", "NOUN", 13)]%string.
Definition firm_types : making nat :=
  let^ m := pipeline_of (MorphPipelineScheme (map text ["Общество с ограниченной ответственностью"; "Акционерное общество"; "Страховая компания"; "Строительная компания"]%string)) in
  let^ p := pipeline_of (PipelineScheme (map text ["ООО"; "АО"; "СК"; "СК"]%string)) in let^ r := or_ [m; p] in repeatable r.
Example cookbook_46 : ranges (all_found (context_with firms_words) no_relation firm_types "Акционерное общество, в Акционерном обществе; АО, СК") = finds [["Акционерное"; "общество"]; ["Акционерном"; "обществе"]; ["АО"]; ["СК"]]%string.
Proof. vm_compute. reflexivity. Qed.
(** Cell 49: classes 0: Art, 1: Punkt, 2: Ref. *)
Definition at_class (sc : nat) (s : String.string) : attribute := AAttribute (mkAttr sc (str_of s)).
Arguments at_class sc s%string.
Definition as_int (x : attribute) : res InterpModel.interpretator := let! x := attribute_custom int_ x in by_token (GAttribute x).
Definition ref_interps : list (res InterpModel.interpretator) :=
  [as_int (at_class 0 "start"); as_int (at_class 0 "stop"); by_rule (GFact 0); as_int (at_class 1 "number"); by_rule (GFact 1); by_rule (GAttribute (at_class 2 "art")); by_rule (GAttribute (at_class 2 "punkt")); by_rule (GFact 2)].
Definition ref : making nat :=
  let^ a := read_as (SType INT) 0 in let^ b := read_as (SType INT) 1 in let^ b := rule [W "-"; R b] in let^ b := optional b in let^ art := rule [W "ст"; W "."; R a; R b] in let^ art := interpretation art 2 in
  let^ n := read_as (SType INT) 3 in let^ p := rule [W "п"; W "."; R n] in let^ p := interpretation p 4 in
  let^ art := interpretation art 5 in let^ p := optional p in let^ p := interpretation p 6 in let^ r := rule [R art; R p] in interpretation r 7.
Definition ref_schemes (sc : nat) : InterpModel.scheme :=
  match sc with 0 => [(str_of "start", InterpModel.Plain VNone); (str_of "stop", InterpModel.Plain VNone)] | 1 => [(str_of "number", InterpModel.Plain VNone)] | _ => [(str_of "art", InterpModel.Plain VNone); (str_of "punkt", InterpModel.Plain VNone)] end.
Notation ref_fact s := (fact_of ref_schemes plain (fun _ _ => None) no_relation ref_interps ref s%string).
Example cookbook_49_1 : ref_fact "ст. 15-17 п.1" = is (Fact 2 [("art", Fact 0 [("start", VInt 15); ("stop", VInt 17)]); ("punkt", Fact 1 [("number", VInt 1)])]%string).
Proof. vm_compute. reflexivity. Qed.
Example cookbook_49_2 : ref_fact "ст. 15 п.2" = is (Fact 2 [("art", Fact 0 [("start", VInt 15); ("stop", VNone)]); ("punkt", Fact 1 [("number", VInt 2)])]%string).
Proof. vm_compute. reflexivity. Qed.
Example cookbook_49_3 : ref_fact "ст. 16" = is (Fact 2 [("art", Fact 0 [("start", VInt 16); ("stop", VNone)]); ("punkt", VNone)]%string).
Proof. vm_compute. reflexivity. Qed.
(** Cell 51: classes 0: Year, 1: YearRange, 2: Century, 3: Period. *)
Definition period_interps : list (res InterpModel.interpretator) :=
  [as_int (at_class 0 "value"); by_rule (GFact 0); as_int (at_class 1 "start"); as_int (at_class 1 "stop"); by_rule (GFact 1); as_int (at_class 2 "value"); by_rule (GFact 2); by_rule (GAttribute (at_class 3 "value")); by_rule (GFact 3)].
Definition period : making nat :=
  let^ y := read_as (SType INT) 0 in let^ y := rule [R y; W "г"; W "."] in let^ y := interpretation y 1 in
  let^ a := read_as (SType INT) 2 in let^ b := read_as (SType INT) 3 in let^ r := rule [R a; W "-"; R b; W "г"; W "."] in let^ r := interpretation r 4 in
  let^ c := read_as (SType INT) 5 in let^ c := rule [R c; W "век"] in let^ c := interpretation c 6 in
  let^ p := or_ [y; r; c] in let^ p := interpretation p 7 in interpretation p 8.
Definition period_schemes (sc : nat) : InterpModel.scheme := if sc =? 1 then [(str_of "start", InterpModel.Plain VNone); (str_of "stop", InterpModel.Plain VNone)] else [(str_of "value", InterpModel.Plain VNone)].
Notation period_fact s := (fact_of period_schemes plain (fun _ _ => None) no_relation period_interps period s%string).
Example cookbook_51_1 : period_fact "1917-1918г." = is (Fact 3 [("value", Fact 1 [("start", VInt 1917); ("stop", VInt 1918)])]%string).
Proof. vm_compute. reflexivity. Qed.
Example cookbook_51_2 : period_fact "21 век" = is (Fact 3 [("value", Fact 2 [("value", VInt 21)])]%string).
Proof. vm_compute. reflexivity. Qed.
Example cookbook_51_3 : period_fact "1990г." = is (Fact 3 [("value", Fact 0 [("value", VInt 1990)])]%string).
Proof. vm_compute. reflexivity. Qed.
