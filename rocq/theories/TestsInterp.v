(** /repo/tests/test_interpretation.py, /repo/tests/test_person.py and test_name of /repo/tests/test_relations.py *)
From Coq Require String.
From Verif Require Import Base TokenModel TokenizerModel RelationModel EarleyModel PredicateModel PipelineModel TreeModel ParserModel InterpModel RuleModel RuleBuild GrammarModel TextModel TestsBase.
Import String.StringSyntax.
Open Scope nat_scope.

(** ** Values: two facts are equal when class and attributes are *)
Fixpoint bare (v : pyval) : pyval :=
  match v with
  | VList l => VList (map bare l)
  | VDict d => VDict (map (fun '(k, x) => (k, bare x)) d)
  | VFact sc attrs _ => VFact sc (map (fun '(k, x) => (k, bare x)) attrs) (mkFact sc [] [] [])
  | _ => v
  end.
Definition Fact (sc : nat) (attrs : list (String.string * pyval)) : pyval := VFact sc (map (fun '(k, v) => (text k, v)) attrs) (mkFact sc [] [] []).
Definition S_ (s : String.string) : pyval := VStr (text s).
Arguments S_ s%string.
Definition Dict (l : list (String.string * pyval)) : pyval := VDict (map (fun '(k, v) => (text k, v)) l).

(** ** Functions given to custom *)
Definition int_ (v : pyval) : res pyval := match v with VStr s => match decimal s with Some z => Ok (VInt z) | None => Err ValueError end | VInt z => Ok (VInt z) | _ => Err TypeError end.
(** float on the text 3.14; [VOther 314] is the number. *)
Definition float_ (v : pyval) : res pyval := match v with VStr s => if str_eqb s (str_of "3.14") then Ok (VOther 314) else Err ValueError | _ => Err TypeError end.
Definition str_ (v : pyval) : res pyval := match v with VStr s => Ok (VStr s) | _ => Ok (VOther 0) end.
Definition lower_ (v : pyval) : res pyval := match v with VStr s => Ok (VStr (u_lower python s)) | _ => Err TypeError end.
(** {key: number}.get *)
Definition get_ (key : String.string) (z : Z) (v : pyval) : res pyval := match v with VStr s => Ok (if str_eqb s (text key) then VInt z else VNone) | _ => Ok VNone end.

(** ** Words *)
Definition months : list entry :=
  [("московским", "московский", "ADJF,masc,sing,ablt", 1); ("московским", "московский", "ADJF,plur,datv", 2); ("январе", "январь", "NOUN,inan,masc,sing,loct", 3); ("январь", "январь", "NOUN,inan,masc,sing,nomn", 4);
   ("закрытое", "закрытый", "ADJF,neut,sing,nomn", 5); ("закрытом", "закрытый", "ADJF,neut,sing,loct", 6); ("общество", "общество", "NOUN,inan,neut,sing,nomn", 7); ("обществе", "общество", "NOUN,inan,neut,sing,loct", 8);
   ("завод", "завод", "NOUN,inan,masc,sing,nomn", 9); ("заводе", "завод", "NOUN,inan,masc,sing,loct", 10)]%string.
Definition inflected_months := inflections [(1, "nomn,femn", "московская"); (3, "nomn,sing", "январь"); (3, "nomn,plur", "январи")]%string.

(** ** Facts *)
Section Run.
  Variable schemes : nat -> scheme.
  Variable c : context.
  Variable inflect : nat -> list str -> option str.
  Variable rel : nat -> form -> form -> bool.
  (** The interpretators put on rules, by number. *)
  Variable interps : list (res interpretator).
  Variable m : making nat.
  Definition interp_at (i : nat) : interpretator := match nth_error interps i with Some (Ok x) => x | _ => IFact 0 end.
  Definition all_made : bool := forallb (fun x => match x with Ok _ => true | Err _ => false end) interps.
  (** match = parser.match(text); [None] when there is none, then match.fact. *)
  Definition value_of (s : String.string) : option (res (option (res pyval))) :=
    then_ (Some (m [])) (fun '(r, h) =>
    then_ (parser_grammar python seen c fuel h r) (fun g =>
    then_ (parser_match python seen c rel fuel h r (text s)) (fun '(st, x) =>
    Some (Ok (option_map (fun x => match_fact schemes Nat.eqb python inflect g interp_at st x) x))))).
  (** match.fact, with spans and as_json. *)
  Definition fact_of (s : String.string) : option (res (option (res pyval))) :=
    if all_made then option_map (fun r => let! o := r in Ok (option_map (fun v => let! v := v in Ok (bare v)) o)) (value_of s) else None.
  Definition record_of (s : String.string) : option (res (option (res (pyval * list (Z * Z) * pyval)))) :=
    if all_made then option_map (fun r => let! o := r in Ok (option_map (fun v => let! v := v in let! sp := value_spans v in let! js := value_json schemes v in Ok (bare v, sp, js)) o)) (value_of s) else None.
End Run.
Definition is {A} (v : A) : option (res (option (res A))) := Some (Ok (Some (Ok v))).
(** Class 0: F with the attribute a. *)
Definition F_a (_ : nat) : scheme := [(str_of "a", InterpModel.Plain VNone)].
Definition F_ab (_ : nat) : scheme := [(str_of "a", InterpModel.Plain VNone); (str_of "b", InterpModel.Plain VNone)].
Definition aF : attribute := AAttribute (mkAttr 0 (str_of "a")).
Definition bF : attribute := AAttribute (mkAttr 0 (str_of "b")).
(** predicate.interpretation(x) is rule(predicate) with the interpretator of a token. *)
Definition by_token (x : given) := token_interpretator x.
Definition by_rule (x : given) := rule_interpretator x.
Definition custom f := GNormalizer (NFunction f).
Definition words : context := context_with months.
Notation fact_case interps m s := (fact_of F_a words inflected_months no_relation interps m s%string).
Notation record_case schemes interps m s := (record_of schemes words inflected_months no_relation interps m s%string).
(** rule(word) with the interpretators 0 to n-1 on it. *)
Definition above (w : String.string) (n : nat) : making nat :=
  let^ r := rule [W w] in (fix go (n : nat) (k : nat) (r : nat) {struct n} : making nat := match n with 0 => fun h => Ok (r, h) | S n' => let^ r := interpretation r k in go n' (S k) r end) n 0 r.
Arguments above w%string n.
(** test_interpretation.py 19-29. *)
Example predicate_attribute : record_case F_a [by_token (GAttribute aF); by_rule (GFact 0)] (let^ r := rule [P (eq "a")] in let^ r := interpretation r 0 in let^ r := rule [R r] in interpretation r 1) "a" =
  is (Fact 0 [("a", S_ "a")]%string, [(0, 1)]%Z, Dict [("a", S_ "a")]%string).
Proof. vm_compute. reflexivity. Qed.
(** test_interpretation.py 32-47. *)
Example merge_facts : record_case F_ab [by_token (GAttribute aF); by_token (GAttribute bF); by_rule (GFact 0)]
    (let^ a := rule [P (eq "a")] in let^ a := interpretation a 0 in let^ a := rule [R a] in let^ a := interpretation a 2 in
     let^ b := rule [P (eq "b")] in let^ b := interpretation b 1 in let^ b := rule [R b] in let^ b := interpretation b 2 in let^ r := rule [R a; R b] in interpretation r 2) "a b" =
  is (Fact 0 [("a", S_ "a"); ("b", S_ "b")]%string, [(0, 1); (2, 3)]%Z, Dict [("a", S_ "a"); ("b", S_ "b")]%string).
Proof. vm_compute. reflexivity. Qed.
(** test_interpretation.py 50-62. *)
Example rule_attribute : record_case F_a [by_rule (GAttribute aF); by_rule (GFact 0)] (let^ r := rule [W "a"; W "A"] in let^ r := interpretation r 0 in interpretation r 1) "a   A" =
  is (Fact 0 [("a", S_ "a A")]%string, [(0, 5)]%Z, Dict [("a", S_ "a A")]%string).
Proof. vm_compute. reflexivity. Qed.
(** test_interpretation.py 65-77. *)
Example instead_attributes : record_case F_ab [by_token (GAttribute aF); by_rule (GAttribute bF); by_rule (GFact 0)]
    (let^ r := rule [P (eq "a")] in let^ r := interpretation r 0 in let^ r := rule [R r] in let^ r := interpretation r 1 in interpretation r 2) "a" =
  is (Fact 0 [("a", VNone); ("b", S_ "a")]%string, [(0, 1)]%Z, Dict [("b", S_ "a")]%string).
Proof. vm_compute. reflexivity. Qed.
(** test_interpretation.py 80-98. *)
Example nested_facts : record_case (fun sc => if sc =? 0 then [(str_of "a", InterpModel.Plain VNone)] else [(str_of "b", InterpModel.Plain VNone)]) [by_token (GAttribute aF); by_rule (GFact 0); by_rule (GAttribute (AAttribute (mkAttr 1 (str_of "b")))); by_rule (GFact 1)]
    (let^ r := rule [P (eq "a")] in let^ r := interpretation r 0 in let^ r := rule [R r] in let^ r := interpretation r 1 in let^ r := interpretation r 2 in interpretation r 3) "a" =
  is (Fact 1 [("b", Fact 0 [("a", S_ "a")])]%string, [(0, 1)]%Z, Dict [("b", Dict [("a", S_ "a")])]%string).
Proof. vm_compute. reflexivity. Qed.
(** test_interpretation.py 101-117. *)
Example rule_custom_attribute : record_case F_a [by_rule (custom int_); by_rule (GAttribute aF); by_rule (GFact 0)] (above "1" 3) "1" =
  is (Fact 0 [("a", VInt 1)]%string, [(0, 1)]%Z, Dict [("a", VInt 1)]%string).
Proof. vm_compute. reflexivity. Qed.
(** test_interpretation.py 120-131. *)
Example rule_attribute_custom : fact_case [by_rule (GAttribute aF); by_rule (custom int_)] (above "1" 2) "1" = is (VInt 1).
Proof. vm_compute. reflexivity. Qed.
(** test_interpretation.py 134-142. *)
Example rule_custom : fact_case [by_rule (custom float_)] (let^ r := rule [W "3"; W "."; W "14"] in interpretation r 0) "3.14" = is (VOther 314).
Proof. vm_compute. reflexivity. Qed.
(** test_interpretation.py 145-154. *)
Example rule_custom_custom : fact_case [let! n := normalizer_custom (NFunction lower_) (get_ "a" 1) in by_rule (GNormalizer n)] (above "A" 1) "A" = is (VInt 1).
Proof. vm_compute. reflexivity. Qed.
(** test_interpretation.py 157-165. *)
Example normalized_case : fact_case [by_rule (GNormalizer (NMorph MNormalized))] (above "московским" 1) "московским" = is (S_ "московский").
Proof. vm_compute. reflexivity. Qed.
(** test_interpretation.py 168-176. *)
Example inflected_case : fact_case [by_rule (GNormalizer (NMorph (MInflected (grams "nomn,femn"))))] (above "московским" 1) "московским" = is (S_ "московская").
Proof. vm_compute. reflexivity. Qed.
(** test_interpretation.py 179-187. *)
Example const_case : fact_case [by_rule (GNormalizer (NConst (VInt 1)))] (above "a" 1) "a" = is (VInt 1).
Proof. vm_compute. reflexivity. Qed.
(** test_interpretation.py 190-199. *)
Example attribute_case : fact_case [by_rule (GAttribute aF)] (above "a" 1) "a" = is (S_ "a").
Proof. vm_compute. reflexivity. Qed.
(** test_interpretation.py 202-213. *)
Example normalized_custom : fact_case [let! n := normalizer_custom (NMorph MNormalized) (get_ "январь" 1) in by_rule (GNormalizer n)] (above "январе" 1) "январе" = is (VInt 1).
Proof. vm_compute. reflexivity. Qed.
(** test_interpretation.py 216-230. *)
Example inflected_custom_attribute : fact_case [let! x := attribute_morph (MInflected (grams "nomn,sing")) aF in let! x := attribute_custom (get_ "январь" 1) x in by_rule (GAttribute x); by_rule (GFact 0)] (above "январе" 2) "январе" = is (Fact 0 [("a", VInt 1)]%string).
Proof. vm_compute. reflexivity. Qed.
(** test_interpretation.py 233-247. *)
Example normalized_custom_attribute : fact_case [let! x := attribute_morph MNormalized aF in let! x := attribute_custom (get_ "январь" 1) x in by_rule (GAttribute x); by_rule (GFact 0)] (above "январе" 2) "январе" = is (Fact 0 [("a", VInt 1)]%string).
Proof. vm_compute. reflexivity. Qed.
(** test_interpretation.py 250-261. *)
Example inflected_custom : fact_case [let! n := normalizer_custom (NMorph (MInflected (grams "nomn,sing"))) (get_ "январь" 1) in by_rule (GNormalizer n)] (above "январе" 1) "январе" = is (VInt 1).
Proof. vm_compute. reflexivity. Qed.
(** test_interpretation.py 264-278. *)
Example attribute_custom_case : record_case F_a [let! x := attribute_custom int_ aF in by_rule (GAttribute x); by_rule (GFact 0)] (above "1" 2) "1" =
  is (Fact 0 [("a", VInt 1)]%string, [(0, 1)]%Z, Dict [("a", VInt 1)]%string).
Proof. vm_compute. reflexivity. Qed.
(** test_interpretation.py 281-294. *)
Example attribute_custom_custom : fact_case [let! x := attribute_custom lower_ aF in let! x := attribute_custom (get_ "a" 1) x in by_rule (GAttribute x); by_rule (GFact 0)] (above "A" 2) "A" = is (Fact 0 [("a", VInt 1)]%string).
Proof. vm_compute. reflexivity. Qed.
(** test_interpretation.py 297-311. *)
Example attribute_normalized : record_case F_a [let! x := attribute_morph MNormalized aF in by_rule (GAttribute x); by_rule (GFact 0)] (above "январе" 2) "январе" =
  is (Fact 0 [("a", S_ "январь")]%string, [(0, 6)]%Z, Dict [("a", S_ "январь")]%string).
Proof. vm_compute. reflexivity. Qed.
(** test_interpretation.py 314-323. *)
Example attribute_const_case : fact_case [let! x := attribute_const (VInt 1) aF in by_rule (GAttribute x)] (above "январь" 1) "январь" = is (VInt 1).
Proof. vm_compute. reflexivity. Qed.
(** test_interpretation.py 326-340. *)
Example attribute_inflected : record_case F_a [let! x := attribute_morph (MInflected (grams "nomn,plur")) aF in by_rule (GAttribute x); by_rule (GFact 0)] (above "январе" 2) "январе" =
  is (Fact 0 [("a", S_ "январи")]%string, [(0, 6)]%Z, Dict [("a", S_ "январи")]%string).
Proof. vm_compute. reflexivity. Qed.
(** test_interpretation.py 343-356. *)
Example repeatable_case : record_case (fun _ => [(str_of "a", Repeatable)]) [by_token (GAttribute (ARepeatable (mkAttr 0 (str_of "a")))); by_rule (GFact 0)]
    (let^ a := rule [P (eq "a")] in let^ a := interpretation a 0 in let^ b := rule [P (eq "b")] in let^ b := interpretation b 0 in let^ r := rule [R a; R b] in interpretation r 1) "a b" =
  is (Fact 0 [("a", VList [S_ "a"; S_ "b"])]%string, [(0, 1); (2, 3)]%Z, Dict [("a", VList [S_ "a"; S_ "b"])]%string).
Proof. vm_compute. reflexivity. Qed.
(** test_interpretation.py 359-388. *)
Example type_error_1 : fact_case [by_token (custom int_); by_rule (GAttribute aF)] (let^ b := rule [P (eq "1")] in let^ b := interpretation b 0 in let^ r := rule [W "a"; R b] in interpretation r 1) "a 1" = Some (Ok (Some (Err TypeError))).
Proof. vm_compute. reflexivity. Qed.
Example type_error_2 : fact_case [by_token (custom int_); by_rule (custom str_)] (let^ b := rule [P (eq "1")] in let^ b := interpretation b 0 in let^ r := rule [W "a"; R b] in interpretation r 1) "a 1" = Some (Ok (Some (Err TypeError))).
Proof. vm_compute. reflexivity. Qed.
(** test_interpretation.py 391-415. *)
Definition firms : making nat := pipeline_of (MorphPipelineScheme [text "закрытое общество"; text "завод"]).
Example pipeline_key_1 : fact_case [let! x := attribute_morph MNormalized aF in by_rule (GAttribute x); by_rule (GFact 0)] (let^ r := firms in let^ r := interpretation r 0 in interpretation r 1) "закрытом обществе" = is (Fact 0 [("a", S_ "закрытое общество")]%string).
Proof. vm_compute. reflexivity. Qed.
Example pipeline_key_2 : fact_case [by_rule (GNormalizer (NMorph MNormalized))] (let^ r := firms in interpretation r 0) "заводе" = is (S_ "завод").
Proof. vm_compute. reflexivity. Qed.

(** test_relations.py 16-46.  Name: class 0. *)
Definition sasha : list entry :=
  [("саше", "саша", "NOUN,anim,ms-f,Name,sing,datv", 1); ("сашу", "саша", "NOUN,anim,ms-f,Name,sing,accs", 2); ("иванову", "иванов", "NOUN,anim,masc,Sgtm,Surn,sing,datv", 3);
   ("иванову", "иванова", "NOUN,anim,femn,Sgtm,Surn,sing,accs", 4); ("ивановой", "иванова", "NOUN,anim,femn,Sgtm,Surn,sing,gent", 5); ("ивановой", "иванова", "NOUN,anim,femn,Sgtm,Surn,sing,datv", 6)]%string.
Definition inflected_sasha := inflections [(1, "nomn,sing", "саша"); (2, "nomn,sing", "саша"); (3, "nomn,sing", "иванов"); (4, "nomn,sing", "иванова")]%string.
Definition first_last (_ : nat) : scheme := [(str_of "first", InterpModel.Plain VNone); (str_of "last", InterpModel.Plain VNone)].
Definition attribute_of (s : String.string) : attribute := AAttribute (mkAttr 0 (str_of s)).
Arguments attribute_of s%string.
(** inflected() asks for nomn and sing. *)
Definition name_interps : list (res interpretator) :=
  [let! x := attribute_morph (MInflected (grams "nomn,sing")) (attribute_of "first") in by_token (GAttribute x);
   let! x := attribute_morph (MInflected (grams "nomn,sing")) (attribute_of "last") in by_token (GAttribute x); by_rule (GFact 0)].
Definition gnc (_ : nat) : form -> form -> bool := relation_call RGnc.
Definition name_rule : making nat :=
  let^ f := rule [P (SGram (str_of "Name"))] in let^ f := interpretation f 0 in let^ f := matching f 0 in
  let^ l := rule [P (SGram (str_of "Surn"))] in let^ l := interpretation l 1 in let^ l := matching l 0 in
  let^ r := rule [R f; R l] in interpretation r 2.
Notation name_case s := (fact_of first_last (context_with sasha) inflected_sasha gnc name_interps name_rule s%string).
Example name_1 : name_case "саше иванову" = is (Fact 0 [("first", S_ "саша"); ("last", S_ "иванов")]%string).
Proof. vm_compute. reflexivity. Qed.
Example name_2 : name_case "сашу иванову" = is (Fact 0 [("first", S_ "саша"); ("last", S_ "иванова")]%string).
Proof. vm_compute. reflexivity. Qed.
Example name_3 : name_case "сашу ивановой" = Some (Ok None).
Proof. vm_compute. reflexivity. Qed.

(** test_person.py 8-67.  Name: class 0, Person: class 1. *)
Definition people : list entry :=
  [("управляющий", "управляющий", "ADJF,Subx,masc,sing,nomn", 1); ("управляющий", "управляющий", "NOUN,anim,masc,sing,nomn", 2); ("директор", "директор", "NOUN,anim,masc,sing,nomn", 3);
   ("вице", "вице", "NOUN,Abbr", 4); ("мэр", "мэр", "NOUN,anim,masc,sing,nomn", 5);
   ("иван", "иван", "NOUN,anim,masc,Name,sing,nomn", 6); ("ульянов", "ульянов", "NOUN,anim,masc,Sgtm,Surn,sing,nomn", 7); ("ульянов", "ульян", "NOUN,anim,masc,Name,plur,gent", 8)]%string.
Definition person_schemes (sc : nat) : scheme := if sc =? 0 then first_last 0 else [(str_of "position", InterpModel.Plain VNone); (str_of "name", InterpModel.Plain VNone)].
Definition of_person (s : String.string) : attribute := AAttribute (mkAttr 1 (str_of s)).
Arguments of_person s%string.
Definition person_interps : list (res interpretator) :=
  [by_token (GAttribute (attribute_of "first")); by_token (GAttribute (attribute_of "last")); by_rule (GFact 0); by_rule (GAttribute (of_person "position")); by_rule (GAttribute (of_person "name")); by_rule (GFact 1)].
Definition person_rule : making nat :=
  let^ f := rule [P (PAnd [SGram (str_of "Name"); PNot (SGram (str_of "Abbr"))])] in let^ f := interpretation f 0 in let^ f := matching f 0 in
  let^ l := rule [P (PAnd [SGram (str_of "Surn"); PNot (SGram (str_of "Abbr"))])] in let^ l := interpretation l 1 in let^ l := matching l 0 in
  let^ n := rule [R f; R l] in let^ n := interpretation n 2 in
  let^ p := pipeline_of (MorphPipelineScheme [text "управляющий директор"; text "вице-мэр"]) in let^ p := interpretation p 3 in let^ p := matching p 0 in
  let^ n := interpretation n 4 in let^ r := rule [R p; R n] in interpretation r 5.
Example person_case : fact_of person_schemes (context_with people) (fun _ _ => None) gnc person_interps person_rule "управляющий директор Иван Ульянов" =
  is (Fact 1 [("position", S_ "управляющий директор"); ("name", Fact 0 [("first", S_ "Иван"); ("last", S_ "Ульянов")])]%string).
Proof. vm_compute. reflexivity. Qed.
