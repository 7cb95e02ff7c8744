(** Properties of the arguments of predicates (C90). *)
From Coq Require String.
From Verif Require Import Base TokenModel TokenizerModel TaggerModel PredicateModel PredicateCases GivenModel GivenSpec GivenProofs GivenCases.
Import String.StringSyntax.
Open Scope nat_scope.

(** ** C90 *)
(** eq(12): made, activated, and refuses every token. *)
Theorem wrong_arguments_are_rejected_refuted : exists m v o, ~ (exists p, documented ASCII m v p) /\ make ASCII m v = Ok o /\
  forall c, exists o', activated any_wrong c o = (Ok o', o) /\ forall t, judged ASCII o' t = (Ok false, o').
Proof. exact silently_refuses. Qed.
Print Assumptions wrong_arguments_are_rejected_refuted.
(** gte('5'): the error comes with the first number in a text. *)
Theorem wrong_arguments_are_rejected_early_refuted : exists m v o t t', ~ (exists p, documented ASCII m v p) /\ make ASCII m v = Ok o /\ (forall c, activated any_wrong c o = (Ok o, o)) /\
  judged ASCII o t = (Ok false, o) /\ judged ASCII o t' = (Err TypeError, o).
Proof. exact raises_late. Qed.
Print Assumptions wrong_arguments_are_rejected_early_refuted.
(** in_('dollars') accepts 'doll'. *)
Theorem string_is_one_word_refuted : exists m v o t, ~ (exists p, documented ASCII m v p) /\ make ASCII m v = Ok o /\ (forall c, activated any_wrong c o = (Ok o, o)) /\
  v = text "dollars" /\ t_value t = str_of "doll" /\ judged ASCII o t = (Ok true, o).
Proof. exact accepts_pieces. Qed.
Print Assumptions string_is_one_word_refuted.
(** dictionary('cat') refuses 'cat' and accepts 'a'. *)
Theorem string_is_one_entry_refuted : exists v o o' t, make ASCII MDictionary v = Ok o /\ activated any_wrong same_context o = (Ok o', o) /\
  v = text "cat" /\ t_value t = str_of "cat" /\ judged ASCII o' t = (Ok false, o') /\ judged ASCII o' (word_token "a") = (Ok true, o').
Proof. exact reads_letters. Qed.
Print Assumptions string_is_one_entry_refuted.
(** in_ of an iterator: the same token is accepted, then refused. *)
Theorem answers_do_not_change_refuted : exists v o t, make ASCII MIn v = Ok o /\ judge_all ASCII o [t; t] = [Ok true; Ok false].
Proof. exact judges_twice. Qed.
Print Assumptions answers_do_not_change_refuted.
(** dictionary of an iterator: the second parser made of the rule accepts other words. *)
Theorem parsers_of_a_predicate_agree_refuted : exists v o o1 o2 t, make ASCII MDictionary v = Ok o /\ fst (activated any_wrong same_context o) = Ok o1 /\
  fst (activated any_wrong same_context (snd (activated any_wrong same_context o))) = Ok o2 /\
  fst (judged ASCII o1 t) = Ok true /\ fst (judged ASCII o2 t) = Ok false.
Proof. exact activates_twice. Qed.
Print Assumptions parsers_of_a_predicate_agree_refuted.

(** Documented arguments: the object is that of PredicateModel.v, whatever happened before. *)
Theorem documented_arguments_work :
  forall U wrong m v p, documented U m v p -> exists o, make U m v = Ok o /\ forall c,
  match activate c p with
  | Ok q => exists o', activated wrong c o = (Ok o', o) /\ forall t, judged U o' t = (call U q t, o')
  | Err e => activated wrong c o = (Err e, o)
  end.
Proof. exact documented_ok. Qed.
Print Assumptions documented_arguments_work.
Example documented_case : documented ASCII MInCaseless (ASet (strings [str_of "S"; str_of "m"])) (in_caseless ASCII [str_of "S"; str_of "m"]) /\
  forall o, make ASCII MInCaseless (ASet (strings [str_of "S"; str_of "m"])) = Ok o -> judge_all ASCII o [plain "s"; plain "M"; plain "L"] = [Ok true; Ok true; Ok false].
Proof. split; [constructor|]. intros o H. vm_compute in H. injection H as <-. vm_compute. reflexivity. Qed.

(** Without iterators, nothing changes: tokens are judged one by one, parsers made one by one. *)
Theorem answers_do_not_change_partial :
  forall U o ts, holds_iterator o = false -> judge_all U o ts = map (fun t => fst (judged U o t)) ts.
Proof. exact judge_all_each. Qed.
Print Assumptions answers_do_not_change_partial.
Theorem parsers_of_a_predicate_agree_partial :
  forall wrong c o, holds_iterator o = false -> snd (activated wrong c o) = o.
Proof. exact activated_same. Qed.
Print Assumptions parsers_of_a_predicate_agree_partial.
Example without_iterators_case : holds_iterator (OIn (text "dollars")) = false /\ holds_iterator (ODictionary (ASet [text "cat"])) = false /\
  judge_all ASCII (OIn (text "dollars")) [plain "doll"; plain "x"; plain "doll"] = [Ok true; Ok false; Ok true].
Proof. repeat split; vm_compute; reflexivity. Qed.

(** An iterator goes forward: the accepted values come in its order, so each of its elements is accepted at most once. *)
Theorem iterator_is_used_once :
  forall U ts l, in_order (accepted_values ts (judge_all U (OIn (AIter l)) ts)) l.
Proof. exact iterator_forward. Qed.
Print Assumptions iterator_is_used_once.
Example iterator_case : accepted_values [plain "b"; plain "a"; plain "b"] (judge_all ASCII (OIn (AIter [text "a"; text "b"; text "b"])) [plain "b"; plain "a"; plain "b"]) = [str_of "b"].
Proof. vm_compute. reflexivity. Qed.
(** dictionary reads an iterator once: the second parser gets nothing, after an error what follows the word that failed. *)
Theorem iterator_is_read_once :
  forall wrong c l, exists l', snd (activated wrong c (ODictionary (AIter l))) = ODictionary (AIter l') /\
  match fst (activated wrong c (ODictionary (AIter l))) with
  | Ok _ => l' = []
  | Err _ => exists x z, l = x ++ z :: l'
  end.
Proof. exact dictionary_again. Qed.
Print Assumptions iterator_is_read_once.
Example read_once_case : activated any_wrong same_context (ODictionary (AIter [text "cat"; text "dog"])) = (Ok (OTyped (PDictionary [str_of "cat"; str_of "dog"])), ODictionary (AIter [])) /\
  activated any_wrong same_context (ODictionary (AIter [text "cat"; ANone; text "dog"])) = (Err TypeError, ODictionary (AIter [text "dog"])).
Proof. split; vm_compute; reflexivity. Qed.

(** A string given to in_: exactly its substrings. *)
Theorem string_gives_substrings :
  forall U b t, fst (judged U (OIn (AStr b)) t) = Ok true <-> exists x y, b = x ++ t_value t ++ y.
Proof. exact in_string. Qed.
Print Assumptions string_gives_substrings.
Example substring_case : fst (judged ASCII (OIn (text "dollars")) (plain "lla")) = Ok true /\ fst (judged ASCII (OIn (text "dollars")) (plain "das")) = Ok false.
Proof. split; vm_compute; reflexivity. Qed.
(** A string given to dictionary: the normal forms of its letters. *)
Theorem string_gives_letters :
  forall wrong c m s, c_morph c = Some m ->
  activated wrong c (ODictionary (AStr s)) = (Ok (OTyped (PDictionary (flat_map (fun x => mo_normalized m [x]) s))), ODictionary (AStr s)).
Proof. exact dictionary_letters. Qed.
Print Assumptions string_gives_letters.
Example letters_case : fst (activated any_wrong same_context (ODictionary (text "cat"))) = Ok (OTyped (PDictionary [str_of "c"; str_of "a"; str_of "t"])).
Proof. vm_compute. reflexivity. Qed.

(** in_caseless too. *)
Theorem in_caseless_string_gives_letters :
  forall U (s : str), make U MInCaseless (AStr s) = Ok (OTyped (PInCaseless (map (fun x => u_lower U [x]) s))).
Proof. exact in_caseless_letters. Qed.
Print Assumptions in_caseless_string_gives_letters.
Example in_caseless_letters_case : forall o, make ASCII MInCaseless (text "SML") = Ok o -> judge_all ASCII o [plain "s"; plain "L"; plain "sm"; plain "SML"] = [Ok true; Ok true; Ok false; Ok false].
Proof. intros o H. vm_compute in H. injection H as <-. vm_compute. reflexivity. Qed.

(** eq and tag with no string, length_eq with no number: no error, and no token is ever accepted. *)
Theorem wrong_arguments_accept_nothing :
  forall U wrong m v o, (m = MEq \/ m = MTag) /\ is_string v = false \/ m = MLengthEq /\ is_number v = false -> make U m v = Ok o ->
  forall c, (m = MTag -> c_tagger c <> None) -> exists o', activated wrong c o = (Ok o', o) /\ forall t, judged U o' t = (Ok false, o').
Proof. exact silent_wrong. Qed.
Print Assumptions wrong_arguments_accept_nothing.
Example nothing_case : judge_all ASCII (OEq (AInt 12)) [twelve; steel] = [Ok false; Ok false] /\ judge_all ASCII (OLengthEq (text "2")) [twelve; steel] = [Ok false; Ok false] /\
  judge_all ASCII (OLengthEq (AInt 2)) [twelve; steel] = [Ok true; Ok false].
Proof. repeat split; vm_compute; reflexivity. Qed.
(** gte and lte with no number: an error at every number of the text, and nothing else accepted. *)
Theorem wrong_bounds_fail_at_numbers :
  forall U v t o, In o [OGte v; OLte v] -> is_number v = false ->
  fst (judged U o t) = if str_eqb (t_type t) INT then match u_int U (t_value t) with Some _ => Err TypeError | None => Err ValueError end else Ok false.
Proof. exact compares_wrong. Qed.
Print Assumptions wrong_bounds_fail_at_numbers.
(** True and False are the numbers 1 and 0. *)
Theorem booleans_are_numbers :
  forall U (b : bool) t, let n := AInt (if b then 1%Z else 0%Z) in
  fst (judged U (OLengthEq (ABool b)) t) = fst (judged U (OLengthEq n) t) /\ fst (judged U (OGte (ABool b)) t) = fst (judged U (OGte n) t) /\ fst (judged U (OLte (ABool b)) t) = fst (judged U (OLte n) t).
Proof. exact booleans_count. Qed.
Print Assumptions booleans_are_numbers.
Example boolean_case : judge_all ASCII (OGte (ABool true)) [twelve; steel] = [Ok true; Ok false].
Proof. vm_compute. reflexivity. Qed.
(** in_ with no container: an error at every token. *)
Theorem wrong_collections_fail_at_tokens : forall U v t, is_container v = false -> fst (judged U (OIn v) t) = Err TypeError.
Proof. exact in_wrong. Qed.
Print Assumptions wrong_collections_fail_at_tokens.
Example fail_case : judge_all ASCII (OLte (text "5")) [steel; twelve] = [Ok false; Err TypeError] /\ judge_all ASCII (OIn (AInt 5)) [steel; twelve] = [Err TypeError; Err TypeError].
Proof. split; vm_compute; reflexivity. Qed.

(** caseless and in_caseless are checked when they are made. *)
Theorem caseless_is_checked : forall U v, is_string v = false -> make U MCaseless v = Err AttributeError.
Proof. exact caseless_wrong. Qed.
Print Assumptions caseless_is_checked.
Theorem in_caseless_is_checked :
  forall U v, (is_container v = false -> make U MInCaseless v = Err TypeError) /\
  (forall l, iterate v = Ok l -> existsb (fun x => negb (is_string x)) l = true -> make U MInCaseless v = Err AttributeError).
Proof. exact in_caseless_wrong. Qed.
Print Assumptions in_caseless_is_checked.
Example caseless_case : make ASCII MCaseless (AInt 5) = Err AttributeError /\ make ASCII MInCaseless (AInt 5) = Err TypeError /\ make ASCII MInCaseless (AIter [text "a"; ANone]) = Err AttributeError.
Proof. repeat split; vm_compute; reflexivity. Qed.
(** gram, type, normalized, dictionary, custom are checked when a parser is made. *)
Theorem schemes_are_checked :
  forall wrong c m v o, c_morph c = Some m -> is_string v = false -> In o [OGram v; OType v; ONormalized v] ->
  exists e, fst (activated wrong c o) = Err e /\ (o <> ONormalized v -> e = match v with ASeq _ => TypeError | _ => ValueError end).
Proof. exact schemes_wrong. Qed.
Print Assumptions schemes_are_checked.
Theorem dictionary_is_checked :
  forall wrong c m v, c_morph c = Some m ->
  (is_container v = false -> fst (activated wrong c (ODictionary v)) = Err TypeError) /\
  (forall x z w, iterate v = Ok (strings x ++ z :: w) -> is_string z = false -> fst (activated wrong c (ODictionary v)) = Err (wrong z)).
Proof. exact dictionary_wrong. Qed.
Print Assumptions dictionary_is_checked.
Theorem custom_types_are_checked :
  forall U wrong f v o c, make U (MCustom f) v = Ok o -> match v with ANone | AStr _ => False | ASeq l => existsb (fun x => negb (is_string x)) l = true | _ => True end ->
  fst (activated wrong c o) = Err ValueError \/ fst (activated wrong c o) = Err TypeError.
Proof. exact custom_wrong. Qed.
Print Assumptions custom_types_are_checked.
Example schemes_case : fst (activated any_wrong small_context (OGram (ASeq [text "NOUN"]))) = Err TypeError /\ fst (activated any_wrong small_context (OType (AInt 5))) = Err ValueError /\
  fst (activated any_wrong small_context (ODictionary (ASeq [text "steel"; ANone]))) = Err TypeError /\
  match make ASCII (MCustom (fun _ => Ok true)) (ASet [AStr INT]) with Ok o => fst (activated any_wrong small_context o) | Err e => Err e end = Err ValueError.
Proof. repeat split; vm_compute; reflexivity. Qed.
