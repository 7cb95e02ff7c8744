(** /repo/tests/test_pipeline.py, /repo/tests/test_predicate.py, /repo/tests/test_tagger.py and test_main of
    /repo/tests/test_relations.py *)
From Coq Require String.
From Verif Require Import Base TokenModel TokenizerModel TaggerModel RelationModel EarleyModel PredicateModel PipelineModel RuleModel RuleBuild GrammarModel ParserModel TextModel TestsBase.
Import String.StringSyntax.
Open Scope nat_scope.

(** test_pipeline.py 13-35. *)
Definition plain : context := context_with [].
Definition two_lines : making nat := let^ p := pipeline_of (PipelineScheme [text "a b c"; text "b c"]) in rule [R p; W "d"].
Example pipeline_1 : matched plain no_relation two_lines "b c d" = these ["b"; "c"; "d"]%string.
Proof. vm_compute. reflexivity. Qed.
Example pipeline_2 : matched plain no_relation two_lines "a b c d" = these ["a"; "b"; "c"; "d"]%string.
Proof. vm_compute. reflexivity. Qed.
Example pipeline_3 : matched plain no_relation (let^ p := pipeline_of (PipelineScheme [text "a b"]) in let^ q := repeatable p in rule [R q; W "c"]) "a b a b c" = these ["a"; "b"; "a"; "b"; "c"]%string.
Proof. vm_compute. reflexivity. Qed.
Example pipeline_4 : matched plain no_relation (let^ p := pipeline_of (CaselessPipelineScheme [text "A B"]) in rule [R p; W "c"]) "A b c" = these ["A"; "b"; "c"]%string.
Proof. vm_compute. reflexivity. Qed.
(** test_pipeline.py 37-52. *)
Definition songs : list entry :=
  [("текст", "текст", "NOUN,inan,masc,sing,nomn", 1); ("текст", "текст", "NOUN,inan,masc,sing,accs", 2); ("текстом", "текст", "NOUN,inan,masc,sing,ablt", 3);
   ("песни", "песня", "NOUN,inan,femn,sing,gent", 4); ("песни", "песня", "NOUN,inan,femn,plur,nomn", 5);
   ("материал", "материал", "NOUN,inan,masc,sing,nomn", 6); ("материала", "материал", "NOUN,inan,masc,sing,gent", 7);
   ("информационный", "информационный", "ADJF,masc,sing,nomn", 8); ("информационного", "информационный", "ADJF,masc,sing,gent", 9);
   ("музыкальной", "музыкальный", "ADJF,femn,sing,gent", 10); ("группы", "группа", "NOUN,inan,femn,sing,gent", 11);
   ("под", "под", "PREP", 12); ("названием", "название", "NOUN,inan,neut,sing,ablt", 13)]%string.
Definition four_lines : making nat := pipeline_of (MorphPipelineScheme (map text ["текст"; "текст песни"; "материал"; "информационный материал"]%string)).
Example pipeline_5 : all_found (context_with songs) no_relation four_lines "текстом песни музыкальной группы" = Some (Ok [([text "текстом"; text "песни"], (0, 13)%Z)]).
Proof. vm_compute. reflexivity. Qed.
Example pipeline_6 : all_found (context_with songs) no_relation four_lines "информационного материала под названием" = Some (Ok [([text "информационного"; text "материала"], (0, 25)%Z)]).
Proof. vm_compute. reflexivity. Qed.
(** test_pipeline.py 54-56: pymorphy2 gives latin words and numbers back. *)
Definition latin : list entry := [("1", "1", "NUMB,intg", 1); ("b", "b", "LATN", 2); (".", ".", "PNCT", 3)]%string.
Example pipeline_7 : matched (context_with latin) no_relation (pipeline_of (MorphPipelineScheme [text "1 B."])) "1 b ." = these ["1"; "b"; "."]%string.
Proof. vm_compute. reflexivity. Qed.

(** test_predicate.py 14-33. *)
Definition moscow : list entry :=
  [("московским", "московский", "ADJF,masc,sing,ablt", 1); ("московский", "московский", "ADJF,masc,sing,nomn", 2); ("московская", "московский", "ADJF,femn,sing,nomn", 3);
   ("зоопарк", "зоопарк", "NOUN,inan,masc,sing,nomn", 4); ("погода", "погода", "NOUN,inan,femn,sing,nomn", 5)]%string.
Definition scheme : predicate := POr [SNormalized (text "московским"); PAnd [SGram (str_of "NOUN"); PNot (SGram (str_of "femn"))]].
Definition judged (s : String.string) : option (res (list bool)) :=
  then_ (Some (activate (context_with moscow) scheme)) (fun p =>
  then_ (text_tokens (context_with moscow) (text s)) (fun l => Some (mapM (PredicateModel.call python p) l))).
Arguments judged s%string.
Example predicate_1 : judged "московский зоопарк" = Some (Ok [true; true]).
Proof. vm_compute. reflexivity. Qed.
Example predicate_2 : judged "московская погода" = Some (Ok [true; false]).
Proof. vm_compute. reflexivity. Qed.
(** test_predicate.py 36-42: one type is taken as a list (predicates/bank.py 478-482). *)
Example checks_1 : activate plain (SGram (str_of "UNK")) = Err ValueError.
Proof. vm_compute. reflexivity. Qed.
Example checks_2 : activate plain (SCustom (fun _ => Ok true) (Some [str_of "UNK"])) = Err ValueError.
Proof. vm_compute. reflexivity. Qed.

(** test_tagger.py 12-34. *)
Fixpoint by_three (i : nat) (l : list token) : list token :=
  match l with [] => [] | t :: l' => tagged t (if Nat.modulo i 3 =? 0 then str_of "O" else str_of "I") :: by_three (S i) l' end.
Definition tagging : context := mkContext tokenizer0 (Some (analyzer [])) (Some (UserTagger (by_three 0) [str_of "I"; str_of "O"])).
Example tagger_case : all_found tagging no_relation (let^ r := rule [P (STag (str_of "I"))] in repeatable r) "a b c d e f g" =
  Some (Ok [([text "b"; text "c"], (2, 5)%Z); ([text "e"; text "f"], (8, 11)%Z)]).
Proof. vm_compute. reflexivity. Qed.

(** test_relations.py 49-72. *)
Definition ivanov : list entry :=
  [("иванов", "иванов", "NOUN,anim,masc,Sgtm,Surn,sing,nomn", 1); ("иванов", "иван", "NOUN,anim,masc,Name,plur,gent", 2);
   ("ивановы", "иванов", "NOUN,anim,GNdr,Surn,plur,nomn", 3); ("иван", "иван", "NOUN,anim,masc,Name,sing,nomn", 4);
   ("стал", "стать", "VERB,perf,intr,masc,sing,past,indc", 5); ("стали", "стать", "VERB,perf,intr,plur,past,indc", 6); ("стали", "сталь", "NOUN,inan,femn,sing,gent", 7)]%string.
Definition agree (_ : nat) : form -> form -> bool := relation_call (RAnd [RNumber; RGender]).
Definition name_verb : making nat :=
  let^ a := rule [P (SGram (str_of "Surn")); Main (TPred (SGram (str_of "Name")))] in let^ a := matching a 0 in
  let^ b := rule [P (SGram (str_of "VERB"))] in let^ b := matching b 0 in rule [R a; R b].
Example main_1 : matched (context_with ivanov) agree name_verb "иванов иван стал" = these ["иванов"; "иван"; "стал"]%string.
Proof. vm_compute. reflexivity. Qed.
Example main_2 : matched (context_with ivanov) agree name_verb "иванов иван стали" = nothing.
Proof. vm_compute. reflexivity. Qed.
Example main_3 : matched (context_with ivanov) agree name_verb "ивановы иван стал" = these ["ивановы"; "иван"; "стал"]%string.
Proof. vm_compute. reflexivity. Qed.
