(** /repo/tests/test_rule.py *)
From Coq Require String.
From Verif Require Import Base TokenModel TokenizerModel EarleyModel PredicateModel PipelineModel RuleModel RuleBuild GrammarModel DotTextModel LabelModel TestsBase.
Import String.StringSyntax.
Open Scope nat_scope.

(** Interpretators 0: F, 1: F.a; the relation gnc. *)
Definition interpretator (i : nat) : interpretator_syntax := match i with 0 => LFact (str_of "F") | _ => LAttribute (str_of "F") (str_of "a") end.
Definition label (p : predicate) : res str := pred_label (fun s => str_of "'" ++ s ++ str_of "'") (fun z => digits (Z.to_nat z)) (fun _ => None) (fun _ => []) p.
Definition gnc (i : nat) : str := relation_text Gnc.
Definition context0 : context := mkContext tokenizer0 (Some (mkMorph (fun _ => []) (fun g => str_in g [str_of "NOUN"; str_of "femn"]))) None.
(** list(R.normalized.as_bnf.source) *)
Definition lines (r : nat) (h : rule_heap) : option (res (list str)) :=
  then_ (normalized fuel h r) (fun '(r, h) =>
  then_ (as_bnf (pipeline_as_bnf python seen) b_productions fuel h r) (fun '(r, h) =>
  match bfs fuel h r with
  | Some objects => Some (source label (fun i => interpretator_text (interpretator i)) gnc h (bnf_rules h objects))
  | None => None
  end)).
Definition bnf (m : making nat) : option (res (list str)) := then_ (Some (m [])) (fun '(r, h) => lines r h).
(** The same after activate. *)
Definition activated_bnf (m : making nat) : option (res (list str)) :=
  then_ (Some (m [])) (fun '(r, h) => then_ (activate_rule context0 fuel h r) (fun '(r, h) => lines r h)).
Definition prints (l : list String.string) : option (res (list str)) := Some (Ok (map text l)).
Definition raises_value_error (m : making nat) : Prop := m [] = Err ValueError.

(** test_rule.py 14-68. *)
Definition a : making nat := rule [W "a"].
Example repeatable_optional_1 : bnf (let^ r := a in let^ r := optional r in repeatable r) = prints ["R0 -> e | 'a' R0 | 'a'"]%string.
Proof. vm_compute. reflexivity. Qed.
Example repeatable_optional_2 : bnf (let^ r := a in let^ r := repeatable r in optional r) = prints ["R0 -> e | 'a' R0 | 'a'"]%string.
Proof. vm_compute. reflexivity. Qed.
Example repeatable_optional_3 : bnf (let^ r := a in let^ r := repeatable r in let^ r := optional r in repeatable r) = prints ["R0 -> e | 'a' R0 | 'a'"]%string.
Proof. vm_compute. reflexivity. Qed.
Example repeatable_optional_4 : bnf (let^ r := a in let^ r := repeatable r in repeatable r) = prints ["R0 -> 'a' R0 | 'a'"]%string.
Proof. vm_compute. reflexivity. Qed.
Example repeatable_optional_5 : bnf (let^ r := a in let^ r := optional r in optional r) = prints ["R0 -> e | 'a'"]%string.
Proof. vm_compute. reflexivity. Qed.
Example repeatable_optional_6 : bnf (let^ r := a in let^ r := repeatable_max r 2 in repeatable r) = prints ["R0 -> 'a' R0 | 'a'"]%string.
Proof. vm_compute. reflexivity. Qed.
Example repeatable_optional_7 : bnf (let^ r := a in let^ r := repeatable r in repeatable_min_max r 1 2) = prints ["R0 -> 'a' R0 | 'a'"]%string.
Proof. vm_compute. reflexivity. Qed.
Example repeatable_optional_8 : bnf (let^ r := a in let^ r := optional r in repeatable_max r 2) = prints ["R0 -> e | R1"; "R1 -> 'a' 'a' | 'a'"]%string.
Proof. vm_compute. reflexivity. Qed.
Example repeatable_optional_9 : bnf (let^ r := a in let^ r := reverse_repeatable r in optional r) = prints ["R0 -> e | 'a' | 'a' R0"]%string.
Proof. vm_compute. reflexivity. Qed.
Example repeatable_optional_10 : bnf (let^ r := a in let^ r := repeatable r in reverse_repeatable r) = prints ["R0 -> 'a' | 'a' R0"]%string.
Proof. vm_compute. reflexivity. Qed.
Example repeatable_optional_11 : bnf (let^ r := a in let^ r := reverse_repeatable r in repeatable_min_max r 1 2) = prints ["R0 -> 'a' | 'a' R0"]%string.
Proof. vm_compute. reflexivity. Qed.
Example repeatable_optional_12 : bnf (let^ r := a in let^ r := repeatable r in run (CRepeatable r (Some 2%Z) None true)) = prints ["R0 -> 'a' R0 | 'a'"]%string.
Proof. vm_compute. reflexivity. Qed.
Example repeatable_optional_13 : bnf (let^ r := a in run (CRepeatable r None (Some 2%Z) true)) = prints ["R0 -> 'a' | 'a' 'a'"]%string.
Proof. vm_compute. reflexivity. Qed.
(** test_rule.py 71-82. *)
Example or_case : bnf (let^ x := a in let^ y := rule [W "b"] in let^ r := or_ [x; y] in named r "A") = prints ["A -> 'a' | 'b'"]%string.
Proof. vm_compute. reflexivity. Qed.
Example flatten_case : bnf (let^ r := a in rule [R r]) = prints ["R0 -> 'a'"]%string.
Proof. vm_compute. reflexivity. Qed.
(** test_rule.py 85-106. *)
Example activate_1 : activated_bnf (let^ r := pipeline_of (PipelineScheme [text "a"]) in named r "A") = prints ["A -> pipeline"]%string.
Proof. vm_compute. reflexivity. Qed.
Example activate_2 : activated_bnf (let^ r := rule [P (SGram (text "NOUN"))] in named r "A") = prints ["A -> gram('NOUN')"]%string.
Proof. vm_compute. reflexivity. Qed.
(** test_rule.py 109-150. *)
Example bnf_1 : bnf (let^ r := a in let^ r := named r "A" in interpretation r 0) = prints ["F -> 'a'"]%string.
Proof. vm_compute. reflexivity. Qed.
Example bnf_2 : bnf (let^ r := a in let^ r := interpretation r 1 in interpretation r 0) = prints ["F -> F.a"; "F.a -> 'a'"]%string.
Proof. vm_compute. reflexivity. Qed.
Example bnf_3 : bnf (let^ r := a in let^ r := matching r 0 in interpretation r 1) = prints ["F.a^gnc -> 'a'"]%string.
Proof. vm_compute. reflexivity. Qed.
Example bnf_4 : bnf (let^ r := a in let^ r := interpretation r 1 in repeatable r) = prints ["R0 -> F.a R0 | F.a"; "F.a -> 'a'"]%string.
Proof. vm_compute. reflexivity. Qed.
Example bnf_5 : bnf (let^ r := a in let^ r := repeatable r in interpretation r 1) = prints ["F.a -> R1"; "R1 -> 'a' R1 | 'a'"]%string.
Proof. vm_compute. reflexivity. Qed.
Example bnf_6 : bnf (let^ x := a in let^ y := named x "B" in let^ z := named x "C" in let^ d := rule [R y; R z] in named d "D") = prints ["D -> B C"; "B -> R0"; "C -> R0"; "R0 -> 'a'"]%string.
Proof. vm_compute. reflexivity. Qed.
(** test_rule.py 153-161. *)
Example loop_case : bnf (let^ x := forward in let^ y := named x "A" in let^ z := define x y in fun h => Ok (x, h)) = prints ["A -> A"]%string.
Proof. vm_compute. reflexivity. Qed.
(** test_rule.py 164-188. *)
Example bounded_error_1 : raises_value_error (let^ r := a in repeatable_min r (-1)).
Proof. vm_compute. reflexivity. Qed.
Example bounded_error_2 : raises_value_error (let^ r := a in repeatable_min_max r 2 1).
Proof. vm_compute. reflexivity. Qed.
Example bounded_1 : bnf (let^ r := a in repeatable_max r 3) = prints ["R0 -> 'a' R1 | 'a'"; "R1 -> 'a' 'a' | 'a'"]%string.
Proof. vm_compute. reflexivity. Qed.
Example bounded_2 : bnf (let^ r := a in repeatable_min r 2) = prints ["R0 -> 'a' R1"; "R1 -> 'a' R1 | 'a'"]%string.
Proof. vm_compute. reflexivity. Qed.
Example bounded_3 : bnf (let^ r := a in repeatable_min_max r 2 3) = prints ["R0 -> 'a' R1"; "R1 -> 'a' 'a' | 'a'"]%string.
Proof. vm_compute. reflexivity. Qed.
