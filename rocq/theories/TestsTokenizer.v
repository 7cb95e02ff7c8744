(** /repo/tests/test_tokenizer.py and /repo/tests/test_morph.py *)
From Coq Require String.
From Verif Require Import Base TokenModel TokenizerModel RelationModel EarleyModel PredicateModel RuleModel RuleBuild TextModel TestsBase.
Import String.StringSyntax.
Open Scope nat_scope.

(** A token without tag and forms. *)
Definition Token (value : String.string) (start stop : Z) (type : str) : token := mkToken (text value) start stop type None None.
Arguments Token value%string (start stop)%Z type.
(** list(tokenizer(text)), tokenizer.split(text) *)
Definition tokens (t : tokenizer) (s : String.string) : option (res (list token)) := tokenize fuel t (text s).
Arguments tokens t s%string.
Definition parts (t : tokenizer) (s : String.string) : option (res (list str)) := split fuel t (text s).
Arguments parts t s%string.
Definition is (l : list token) : option (res (list token)) := Some (Ok l).

(** test_tokenizer.py 29-57. *)
Example default_rules : default_tokenizer russian_chars = Ok tokenizer0.
Proof. reflexivity. Qed.
Example types_1 : tokens tokenizer0 "Ростов-на-Дону" = is [Token "Ростов" 0 6 RU; Token "-" 6 7 PUNCT; Token "на" 7 9 RU; Token "-" 9 10 PUNCT; Token "Дону" 10 14 RU].
Proof. vm_compute. reflexivity. Qed.
Example types_2 : tokens tokenizer0 "vk.com" = is [Token "vk" 0 2 LATIN; Token "." 2 3 PUNCT; Token "com" 3 6 LATIN].
Proof. vm_compute. reflexivity. Qed.
Example types_3 : tokens tokenizer0 "1 500 000$" = is [Token "1" 0 1 INT; Token "500" 2 5 INT; Token "000" 6 9 INT; Token "$" 9 10 PUNCT].
Proof. vm_compute. reflexivity. Qed.
Example types_4 : tokens tokenizer0 "π" = is [Token "π" 0 1 OTHER].
Proof. vm_compute. reflexivity. Qed.
(** test_tokenizer.py 60-67. *)
Example check_type_1 : check_type tokenizer0 (str_of "UNK") = Err ValueError.
Proof. vm_compute. reflexivity. Qed.
Example check_type_2 : let '(t, r) := remove_types tokenizer0 [EOL] in r = Ok tt /\ check_type t EOL = Err ValueError /\ check_type tokenizer0 EOL = Ok tt.
Proof. vm_compute. auto. Qed.
(** test_tokenizer.py 70-82. *)
Example change_rules_1 : let '(t, r) := add_rules tokenizer0 [Some (EMAIL_RULE russian_chars)] in r = Ok tt /\ parts t "mailto:me@host.ru" = Some (Ok [text "mailto"; text ":"; text "me@host.ru"]).
Proof. vm_compute. auto. Qed.
Example change_rules_2 : let '(t, r) := remove_types tokenizer0 [EOL] in r = Ok tt /\ parts t "
hi,

the
" = Some (Ok [text "hi"; text ","; text "the"]).
Proof. vm_compute. auto. Qed.
(** test_tokenizer.py 85-95. *)
Definition disks : list entry := [("диски", "диск", "NOUN,inan,masc,plur,nomn", 1); ("диски", "диск", "NOUN,inan,masc,plur,accs", 2)]%string.
Definition same_forms (a b : option (list form)) : bool :=
  match a, b with
  | None, None => true
  | Some l, Some m => (length l =? length m) && forallb (fun x => existsb (form_eqb x) m) l
  | _, _ => false
  end.
Example morph_case : exists d v p, morph_tokenize (analyze (raw_parse disks)) fuel tokenizer0 (text "dvd-диски") = is [v; p; d] /\
  v = Token "dvd" 0 3 LATIN /\ p = Token "-" 3 4 PUNCT /\
  (t_value d, t_start d, t_stop d, t_type d, t_tag d) = (text "диски", 4%Z, 9%Z, RU, None) /\
  same_forms (t_forms d) (Some [mkForm (text "диск") (grams "NOUN,accs,inan,masc,plur") 0; mkForm (text "диск") (grams "NOUN,inan,masc,nomn,plur") 0]) = true.
Proof. vm_compute. eexists. eexists. eexists. repeat split. Qed.
(** test_tokenizer.py 98-101. *)
Example join_tokens_case : option_map (fun r => let! l := r in Ok (join_tokens l)) (tokens tokenizer0 "pi =        3.14") = Some (Ok (text "pi = 3.14")).
Proof. vm_compute. reflexivity. Qed.

(** test_morph.py 17-33. *)
Definition people : list entry :=
  [("сирота", "сирота", "NOUN,anim,ms-f,sing,nomn", 1); ("стали", "сталь", "NOUN,inan,femn,sing,gent", 2); ("стали", "стать", "VERB,plur", 3);
   ("александру", "александр", "NOUN,anim,masc,Name,sing,datv", 4); ("александру", "александра", "NOUN,anim,femn,Name,sing,accs", 5)]%string.
Definition inflected_people := inflections [(4, "nomn,sing", "александр"); (4, "nomn,plur", "александры")]%string.
Example forms_case : analyze (raw_parse people) (text "сирота") = [mkForm (text "сирота") (grams "NOUN,anim,ms-f,sing,nomn") 1].
Proof. vm_compute. reflexivity. Qed.
Example grams_case : forall f, In f (analyze (raw_parse people) (text "сирота")) -> bi (form_gender f) = true /\ single (form_number f) = true /\ case_fixed f = false.
Proof. intros f H. vm_compute in H. destruct H as [<-|[]]. vm_compute. auto. Qed.
Example normalized_case : set_eqb (analyze_normalized (raw_parse people) (text "стали")) [text "сталь"; text "стать"] = true.
Proof. vm_compute. reflexivity. Qed.
(** test_morph.py 36-42; [inflect] without arguments asks for nomn and sing. *)
Example inflect_case : exists f l, analyze (raw_parse people) (text "Александру") = f :: l /\ In (str_of "Name") (f_grams f) /\
  form_inflect inflected_people f (grams "nomn,sing") = text "александр" /\ form_inflect inflected_people f (grams "nomn,plur") = text "александры".
Proof. vm_compute. eexists. eexists. repeat split. tauto. Qed.
(** test_morph.py 45-47. *)
Example check_gram_case : check_gram (analyzer people) (str_of "verb") = Err ValueError /\ check_gram (analyzer people) (str_of "VERB") = Ok tt.
Proof. vm_compute. auto. Qed.
