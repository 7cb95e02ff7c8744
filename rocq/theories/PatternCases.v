(** Cases for pattern strings, on ASCII. *)
From Verif Require Import Base TokenModel RuleModel TokenizerModel DotTextModel DotTextProofs PatternModel PatternSpec PatternProofs PatternTheorems.
From Coq Require Import Lia.
Open Scope nat_scope.

Definition ascii_letter (c : N) : bool := is_ascii_letter c.
Definition ascii : alphabet :=
  mkAlphabet (mkChars (fun c => c :: (if between 65 90 c then [(c + 32)%N] else if between 97 122 c then [(c - 32)%N] else []))
                      is_digit (fun c => N.eqb c 32 || between 9 13 c))
             (fun c => is_ascii_letter c || is_digit c || N.eqb c 95).
Definition rules_of (l : list (String.string * String.string)) : list string_rule :=
  map (fun '(id, (ty, p)) => mkStringRule id (str_of ty) (str_of p)) (combine (seq 7 (length l)) l).
(** What a text is cut into. *)
Definition cut (rules : list string_rule) (text : str) : option (res (list (str * str))) :=
  then_ (compile_strings rules) (fun c => then_ (tokenize_strings ascii (S (length text)) c text) (fun l => read (map (fun t => (t_type t, t_value t)) l))).
Definition expressions (rules : list string_rule) : list expression :=
  map (fun r => match re_compile (sr_pattern r) with Some (Ok e) => e | _ => (Empty, []) end) rules.
Definition typed (l : list (String.string * String.string)) : option (res (list (str * str))) := read (map (fun '(a, b) => (str_of a, str_of b)) l).
Import String.StringSyntax.
Local Open Scope string_scope.

(** Groups, names, lookahead, lazy quantifiers, a reference by name. *)
Definition good_rules := rules_of [("QUOTED", "(?P<q>['`]).*?(?P=q)"); ("DATE", "(\d{1,2})[./](?:\d\d){1,2}(?!\d)"); ("WORD", "[a-z]\w*"); ("OTHER", "\S")].
Lemma good_alone : each_alone good_rules (expressions good_rules).
Proof. repeat constructor. Qed.
Lemma good_unnumbered : Forall (fun r => unnumbered (sr_pattern r)) good_rules.
Proof.
  repeat constructor; intros l k; vm_compute; intro H; inversion H; subst; clear H; intro I; repeat (destruct I as [I|I]; [discriminate I|]); destruct I.
Qed.
Lemma good_distinct : distinct_names good_rules (expressions good_rules).
Proof. vm_compute. repeat constructor; cbn; intro H; repeat (destruct H as [H|H]; [discriminate H|]); destruct H. Qed.
Example good_cut : cut good_rules (str_of "Ab_1 'x y' 1.02.1999 12/1999") =
  typed [("WORD", "Ab_1"); ("QUOTED", "'x y'"); ("DATE", "1.02"); ("OTHER", "."); ("OTHER", "1"); ("OTHER", "9"); ("OTHER", "9"); ("OTHER", "9"); ("DATE", "12/1999")].
Proof. vm_compute. reflexivity. Qed.

(** Brackets. *)
Definition bracket_rules := rules_of [("OPEN", "["); ("CLOSE", "]")].
(** A reference by number. *)
Definition doubled_rules := rules_of [("DOUBLED", "([a-z])\1"); ("WORD", "[a-z]+")].
Definition doubled_later_rules := rules_of [("INT", "\d+"); ("DOUBLED", "([a-z])\1")].
(** The same name twice. *)
Definition names_rules := rules_of [("DATE", "(?P<year>\d{4})-\d\d"); ("YEAR", "in (?P<year>\d{4})")].
(** A bracket too early. *)
Definition early_rules := rules_of [("A", "a)|(b")].
Example bracket_cut : cut bracket_rules (str_of "[x]") = typed [] /\ cut bracket_rules (str_of "(rule)") =
  typed [("OPEN", "("); ("OPEN", "r"); ("OPEN", "u"); ("OPEN", "l"); ("OPEN", "e"); ("OPEN", ")")].
Proof. split; vm_compute; reflexivity. Qed.
Example doubled_cut : compile_strings doubled_rules = rejected /\ cut doubled_later_rules (str_of "aa 1") = typed [("INT", "1")].
Proof. split; vm_compute; reflexivity. Qed.
Example names_cut : compile_strings names_rules = rejected.
Proof. vm_compute. reflexivity. Qed.
Example early_cut : cut early_rules (str_of "a") = typed [("A", "a")] /\ cut early_rules (str_of "b") = Some (Err KeyError).
Proof. split; vm_compute; reflexivity. Qed.
Lemma bracket_alone : re_compile (str_of "[") = rejected /\ re_compile (str_of "a)|(b") = rejected.
Proof. split; vm_compute; reflexivity. Qed.
Lemma doubled_alone : each_alone doubled_rules (expressions doubled_rules) /\ each_alone doubled_later_rules (expressions doubled_later_rules) /\ each_alone names_rules (expressions names_rules).
Proof. repeat split; repeat constructor. Qed.
Lemma doubled_own : own_matches ascii (str_of "aa 1") (nth 1 (expressions doubled_later_rules) (Empty, [])) 0 = [2].
Proof. vm_compute. reflexivity. Qed.
Lemma distinct_by_count l : length (nodup (list_eq_dec N.eq_dec) l) = length l -> NoDup (A := str) l.
Proof.
  induction l as [|x l IH]; intro H; [constructor|]. cbn [nodup] in H. destruct (in_dec (list_eq_dec N.eq_dec) x l) as [I|I].
  - exfalso. assert (L : forall m : list str, length (nodup (list_eq_dec N.eq_dec) m) <= length m).
    { induction m as [|y m IHm]; [apply le_n|]. cbn [nodup]. destruct (in_dec (list_eq_dec N.eq_dec) y m); cbn [length]; lia. }
    specialize (L l). cbn [length] in H. unfold str in *. lia.
  - constructor; [exact I|apply IH]. cbn [length] in H. lia.
Qed.
Lemma valid_rejected : exists rules es, each_alone rules es /\ distinct_names rules es /\ compile_strings rules = Some (Err ReError).
Proof.
  exists doubled_rules, (expressions doubled_rules). split; [apply doubled_alone|]. split; [apply distinct_by_count; vm_compute; reflexivity|apply doubled_cut].
Qed.
Lemma doubled_missed : exists rules es compiled text i, each_alone rules es /\ distinct_names rules es /\ compile_strings rules = Some (Ok compiled) /\
  own_alternatives ascii rules es text i <> [] /\ string_alternatives ascii compiled text i = [].
Proof.
  exists doubled_later_rules, (expressions doubled_later_rules). eexists. exists (str_of "aa 1"), 0.
  split; [apply doubled_alone|]. split; [apply distinct_by_count; vm_compute; reflexivity|]. split; [vm_compute; reflexivity|].
  split; [vm_compute; discriminate|vm_compute; reflexivity].
Qed.
Lemma names_rejected : exists rules es, each_alone rules es /\ Forall (fun r => unnumbered (sr_pattern r)) rules /\ NoDup (map sr_id rules) /\ compile_strings rules = Some (Err ReError).
Proof.
  exists names_rules, (expressions names_rules). split; [apply doubled_alone|]. split; [|split; [repeat constructor; cbn; intuition discriminate|apply names_cut]].
  repeat constructor; intros l k; vm_compute; intro H; inversion H; subst; clear H; intro I; repeat (destruct I as [I|I]; [discriminate I|]); destruct I.
Qed.
Lemma brackets_accepted : exists rules compiled, (exists r, In r rules /\ re_compile (sr_pattern r) = Some (Err ReError)) /\ compile_strings rules = Some (Ok compiled) /\
  tokenize_strings ascii 9 compiled (str_of "[x]") = Some (Ok []) /\
  exists t, tokenize_strings ascii 9 compiled (str_of "u") = Some (Ok [t]) /\ t_type t = str_of "OPEN".
Proof.
  exists bracket_rules. eexists. split; [exists (mkStringRule 7 (str_of "OPEN") (str_of "[")); split; [left; reflexivity|apply bracket_alone]|].
  split; [vm_compute; reflexivity|]. split; [vm_compute; reflexivity|]. eexists. split; [vm_compute; reflexivity|reflexivity].
Qed.
Lemma early_key_error : exists rules compiled text, rules <> [] /\ compile_strings rules = Some (Ok compiled) /\ tokenize_strings ascii 9 compiled text = Some (Err KeyError).
Proof.
  exists early_rules. eexists. exists (str_of "b"). split; [discriminate|]. split; [vm_compute; reflexivity|vm_compute; reflexivity].
Qed.
