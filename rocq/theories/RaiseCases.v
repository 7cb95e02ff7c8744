(** A function that raises on some tokens: the example of the documentation of [custom]. *)
From Coq Require Import String.
From Verif Require Import Base TokenModel EarleyModel EarleySpec PredicateModel PredicateSpec PredicateCases TokenizerModel
  PipelineSpec PipelineTheorems TreeModel ParserModel RuleModel RuleSpec RuleBuild RuleNestSpec GrammarModel GrammarSpec RuleTheorems RuleCases TextModel TextTheorems
  RaiseModel RaiseSpec.
Open Scope nat_scope.

(** bank.py 465-467: [lambda x: int(log(int(x), 10)) == 2]; [int] and [log] raise
    ValueError, the second one on 0. *)
Definition three_digits (v : str) : res bool :=
  match u_int ASCII v with
  | Some z => if (z <=? 0)%Z then Err ValueError else Ok ((100 <=? z) && (z <? 1000))%Z%bool
  | None => Err ValueError
  end.
(** rule('n', custom(three_digits, types=INT)). *)
Definition digits_program : list rule_call := [CRule [W "n"; Plain (TPred (SCustom three_digits (Some [INT])))]].
Definition digits_heap : rule_heap := program digits_program.
Lemma digits_built : built digits_heap /\ harmless digits_heap 1 /\ is_rule_at digits_heap 1.
Proof.
  assert (B : built digits_heap) by (apply program_built; reflexivity).
  assert (R : is_rule_at digits_heap 1) by (apply is_rule_atb_true; reflexivity).
  split; [exact B|]. split; [apply harmlessb_true; [exact B|exact R|reflexivity]|exact R].
Qed.
Definition digits_raising (text : String.string) := ranges_of (raising_findall ASCII first_seen small_context (fun _ _ _ => true) 100 digits_heap 1 (str_of text)).
Definition digits_found (text : String.string) := ranges_of (parser_findall ASCII first_seen small_context (fun _ _ _ => true) 100 digits_heap 1 (str_of text)).
Definition usualb (t : token) : bool :=
  match t_value t with [] => false | _ => true end && (negb (str_eqb (t_type t) INT) || match u_int ASCII (t_value t) with Some _ => true | None => false end)%bool.
Lemma usualb_true toks : forallb usualb toks = true -> Forall (usual_token ASCII) toks.
Proof.
  intros H. apply Forall_forall. intros t Ht. rewrite forallb_forall in H. specialize (H t Ht). unfold usualb in H. apply andb_prop in H as [V I]. split.
  - intros E. rewrite E in V. discriminate.
  - intros T. rewrite T in I. destruct (u_int ASCII (t_value t)) as [z|]; [eauto|discriminate I].
Qed.

(** A grammar with one production of two predicates: 'n', then three digits. *)
Inductive step := Letter | Digits.
Definition step_call (p : step) (t : token) : res bool :=
  match p with Letter => Ok (str_eqb (t_value t) (str_of "n")) | Digits => three_digits (t_value t) end.
Definition step_narrow (p : step) (t : token) : res token := Ok t.
Definition steps : grammar token step :=
  mkGrammar (fun r => match r with 0 => [0] | _ => [] end) (fun r _ => match r with 0 => [0] | _ => [] end)
    (fun q => match q with 0 => [TPred Letter; TPred Digits] | _ => [] end) (fun _ => 0) (fun _ => None) (fun _ => None) (fun _ => None) 0.
Definition letter : token := mkToken (str_of "n") 0 1 (str_of "LATIN") None None.
Definition number (s : String.string) : token := mkToken (str_of s) 2 (2 + Z.of_nat (String.length s)) INT None None.
Lemma steps_predict : predict_sound steps /\ predict_complete (says step_call) steps.
Proof.
  split.
  - intros r t q. destruct r; cbn; auto.
  - intros r t q. destruct r; cbn; auto.
Qed.
Lemma digits_must n all : must_answer step_call steps [letter; n] all 1 n Digits.
Proof.
  exists 0, 0, [TPred Letter], [], 0, [DLeaf 0 Letter]. split; [constructor; left; reflexivity|]. split; [left; reflexivity|]. split; [reflexivity|].
  split; [|split; [repeat constructor|left; discriminate]].
  econstructor; [econstructor; [reflexivity|reflexivity]|constructor].
Qed.
Lemma digits_asked n : asked step_call steps [letter; n] 1 Digits.
Proof.
  exists 0, 0, [TPred Letter], [], 0, [DLeaf 0 Letter]. split; [left; reflexivity|]. split; [reflexivity|].
  econstructor; [econstructor; [reflexivity|reflexivity]|constructor].
Qed.
