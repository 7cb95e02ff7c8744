(** Cases for arguments of predicates. *)
From Coq Require String.
From Verif Require Import Base TokenModel TokenizerModel TaggerModel PredicateModel PredicateProofs PredicateCases GivenModel GivenSpec GivenProofs.
Import String.StringSyntax.
Open Scope nat_scope.

Definition text (s : String.string) : arg := AStr (str_of s).
Arguments text s%string.
Definition plain (s : String.string) : token := mkToken (str_of s) 0 (Z.of_nat (length (str_of s))) (str_of "RU") None None.
Arguments plain s%string.
Definition any_wrong (v : arg) : exn := TypeError.
(** An analyzer for which every word is its own normal form. *)
Definition same_morph : morph := mkMorph (fun w => [mkForm w [] 0]) (fun _ => true).
Definition same_context : context := mkContext small_tokenizer (Some same_morph) (Some PassTagger).
Definition word_token (s : String.string) : token := mkToken (str_of s) 0 (Z.of_nat (length (str_of s))) (str_of "RU") None (Some [mkForm (str_of s) [] 0]).
Arguments word_token s%string.

Lemma silently_refuses : exists m v o, ~ (exists p, documented ASCII m v p) /\ make ASCII m v = Ok o /\
  forall c, exists o', activated any_wrong c o = (Ok o', o) /\ forall t, judged ASCII o' t = (Ok false, o').
Proof.
  exists MEq, (AInt 12), (OEq (AInt 12)). split; [intros [p D]; inversion D|]. split; [reflexivity|].
  intro c. eexists. split; [reflexivity|]. intro t. reflexivity.
Qed.
Lemma raises_late : exists m v o t t', ~ (exists p, documented ASCII m v p) /\ make ASCII m v = Ok o /\ (forall c, activated any_wrong c o = (Ok o, o)) /\
  judged ASCII o t = (Ok false, o) /\ judged ASCII o t' = (Err TypeError, o).
Proof.
  exists MGte, (text "5"), (OGte (text "5")), steel, twelve. split; [intros [p D]; inversion D|]. repeat split; vm_compute; reflexivity.
Qed.
Lemma accepts_pieces : exists m v o t, ~ (exists p, documented ASCII m v p) /\ make ASCII m v = Ok o /\ (forall c, activated any_wrong c o = (Ok o, o)) /\
  v = text "dollars" /\ t_value t = str_of "doll" /\ judged ASCII o t = (Ok true, o).
Proof.
  exists MIn, (text "dollars"), (OIn (text "dollars")), (plain "doll"). split; [intros [p D]; inversion D|]. repeat split; vm_compute; reflexivity.
Qed.
Lemma reads_letters : exists v o o' t, make ASCII MDictionary v = Ok o /\ activated any_wrong same_context o = (Ok o', o) /\
  v = text "cat" /\ t_value t = str_of "cat" /\ judged ASCII o' t = (Ok false, o') /\ judged ASCII o' (word_token "a") = (Ok true, o').
Proof.
  exists (text "cat"), (ODictionary (text "cat")). eexists. exists (word_token "cat"). split; [reflexivity|]. split; [vm_compute; reflexivity|]. repeat split; vm_compute; reflexivity.
Qed.
Lemma judges_twice : exists v o t, make ASCII MIn v = Ok o /\ judge_all ASCII o [t; t] = [Ok true; Ok false].
Proof. exists (AIter [text "a"; text "b"]), (OIn (AIter [text "a"; text "b"])), (plain "b"). split; [reflexivity|]. vm_compute. reflexivity. Qed.
Lemma activates_twice : exists v o o1 o2 t, make ASCII MDictionary v = Ok o /\ fst (activated any_wrong same_context o) = Ok o1 /\
  fst (activated any_wrong same_context (snd (activated any_wrong same_context o))) = Ok o2 /\
  fst (judged ASCII o1 t) = Ok true /\ fst (judged ASCII o2 t) = Ok false.
Proof.
  exists (AIter [text "cat"; text "dog"]), (ODictionary (AIter [text "cat"; text "dog"])). eexists. eexists. exists (word_token "dog").
  split; [reflexivity|]. split; [vm_compute; reflexivity|]. split; [vm_compute; reflexivity|]. split; vm_compute; reflexivity.
Qed.
