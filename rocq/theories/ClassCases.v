(** Cases for fact classes. *)
From Coq Require String.
From Verif Require Import Base TokenModel InterpModel InterpSpec PredicateProofs FactProofs FactTheorems ClassModel ClassSpec ClassProofs.
Import String.StringSyntax.
Open Scope nat_scope.

Definition name (s : String.string) : key := KStr (str_of s).
Arguments name s%string.
Definition shown (n : nat) : str := str_of "1".
Definition own (r : res members) : members := match r with Ok d => d | Err _ => [] end.
Definition token_of (s : String.string) : token := mkToken (str_of s) 0 (Z.of_nat (length (str_of s))) (str_of "RU") None None.
Arguments token_of s%string.
(** The attribute [s] of class [sc] with the word [w]. *)
Definition sets (sc : nat) (s w : String.string) : item := IResult (RAttr (RChain [token_of w] None) (mkAttr sc (str_of s))).
Arguments sets sc (s w)%string.

(** Person = fact('Person', ['name', attribute('age', 'adult'), attribute('tags').repeatable()]);
    class Known(Person): def show(self): ...;
    Money = fact('Money', ['amount']). *)
Definition person : list declared := [DName (name "name"); DScheme (name "age") (Plain (VStr (str_of "adult"))); DScheme (name "tags") Repeatable].
Definition family : program := mkProgram
  (fun sc => match sc with
             | 0 => own (fact shown (GList person))
             | 1 => [(str_of "show", MFunction)]
             | _ => own (fact shown (GList [DName (name "amount")]))
             end)
  (fun sc => match sc with 1 => [1; 0] | _ => [sc] end).
Definition known_items : list item := [sets 0 "name" "Ivan"; sets 0 "tags" "x"; sets 1 "tags" "y"; sets 2 "amount" "5"].
Lemma family_regular : single_inheritance family /\ made_by_fact family /\ below_facts family /\ attributes_kept family.
Proof.
  repeat split.
  - destruct sc as [|[|sc]]; cbn; repeat constructor; cbn; intuition discriminate.
  - intros sc' J. destruct sc as [|[|sc]]; cbn in J |- *.
    + destruct J as [<-|[]]. exists []. reflexivity.
    + destruct J as [<-|[<-|[]]]; [exists []|exists [1]]; reflexivity.
    + destruct J as [<-|[]]. exists []. reflexivity.
  - intros sc D. destruct sc as [|[|sc]]; try reflexivity. exfalso. apply D. reflexivity.
  - intros [|[|sc]]; [exists 0|exists 0|exists (S (S sc))]; (split; [discriminate|]); cbn; try reflexivity. rewrite Nat.eqb_refl. reflexivity.
  - intro D. destruct sc as [|[|sc]].
    + intros k J. vm_compute in J. destruct J as [<-|[<-|[<-|[]]]]; eexists; eexists; (split; [reflexivity|]); vm_compute; reflexivity.
    + exfalso. apply D. reflexivity.
    + intros k J. vm_compute in J. destruct J as [<-|[]]; eexists; eexists; (split; [reflexivity|]); vm_compute; reflexivity.
  - intros D s N. destruct sc as [|[|sc]]; [exfalso; apply D; discriminate| |exfalso; apply D; discriminate].
    vm_compute in N. destruct N as [E|[E|[E|[]]]]; injection E as <-; vm_compute; reflexivity.
Qed.
(** class Both(Person, Money). *)
Definition mixed : program := mkProgram
  (fun sc => match sc with
             | 0 => own (fact shown (GList person))
             | 1 => []
             | _ => own (fact shown (GList [DName (name "amount")]))
             end)
  (fun sc => match sc with 1 => [1; 0; 2] | _ => [sc] end).

Definition called (P : program) (sc : nat) (items : list item) : res result := call_fact (schemes_of P) (is_subclass P) sc items.
(** A program with one class. *)
Definition alone (K : klass) : program := mkProgram (fun sc => nth sc K []) (fun sc => seq sc (length K - sc)).
(** What is read under names of the fact made of [items] of class 0. *)
Definition shows (P : program) (sc : nat) (items : list item) (ss : list str) : res (list (res found)) :=
  match called P sc items with
  | Ok (RFact f) => let! o := instance_of (schemes_of P) (class_of P sc) f in Ok (map (read_name (schemes_of P) (class_of P sc) o) ss)
  | _ => Err NotImplementedError
  end.

Lemma self_raises : exists K items f, fact shown (GList [DName (name "self"); DName (name "name")]) = Ok K /\ proper [K] /\
  called (alone [K]) 0 items = Ok (RFact f) /\ instance_of (schemes_of (alone [K])) [K] f = Err TypeError.
Proof.
  eexists. exists [sets 0 "name" "Ivan"]. eexists. split; [reflexivity|]. split; [|split; [vm_compute; reflexivity|vm_compute; reflexivity]].
  intros k J. vm_compute in J. destruct J as [<-|[<-|[]]]; eexists; eexists; (split; [reflexivity|]); vm_compute; reflexivity.
Qed.
Lemma json_hidden : exists K items v, fact shown (GList [DName (name "as_json"); DName (name "spans")]) = Ok K /\ proper [K] /\
  shows (alone [K]) 0 items [AS_JSON; SPANS] = Ok [Ok (FValue (VStr (str_of "x"))); Ok (FValue VNone)] /\
  (exists f, called (alone [K]) 0 items = Ok (RFact f) /\ normalized_fact (schemes_of (alone [K])) f = Ok v) /\
  value_json (schemes_of (alone [K])) v = Ok (VDict [(AS_JSON, VStr (str_of "x"))]) /\ value_spans v = Ok [(0, 1)%Z].
Proof.
  eexists. exists [sets 0 "as_json" "x"]. eexists. split; [reflexivity|]. split.
  { intros k J. vm_compute in J. destruct J as [<-|[<-|[]]]; eexists; eexists; (split; [reflexivity|]); vm_compute; reflexivity. }
  split; [vm_compute; reflexivity|]. split; [eexists; split; vm_compute; reflexivity|]. split; vm_compute; reflexivity.
Qed.
Lemma raw_hidden : exists K items f v, fact shown (GList [DName (name "_raw")]) = Ok K /\ proper [K] /\
  called (alone [K]) 0 items = Ok (RFact f) /\ normalized_fact (schemes_of (alone [K])) f = Ok v /\ value_attr RAW v = Some (VStr (str_of "x")) /\
  shows (alone [K]) 0 items [RAW] = Ok [Ok (FRaw f)].
Proof.
  eexists. exists [sets 0 "_raw" "x"]. eexists. eexists. split; [reflexivity|]. split.
  { intros k J. vm_compute in J. destruct J as [<-|[]]; eexists; eexists; (split; [reflexivity|]); vm_compute; reflexivity. }
  repeat split; vm_compute; reflexivity.
Qed.
Lemma name_taken : exists K u, fact shown (GList person) = Ok K /\ u = [(str_of "age", MProperty)] /\ forall sc, start_fact [u; K] sc = Err AttributeError.
Proof. eexists. eexists. split; [reflexivity|]. split; [reflexivity|]. intro sc. vm_compute. reflexivity. Qed.
Lemma number_name : exists K, fact shown (GList [DName (KOther 1)]) = Ok K /\ forall sc, start_fact [K] sc = Err TypeError.
Proof. eexists. split; [reflexivity|]. intro sc. vm_compute. reflexivity. Qed.
Lemma both_raises : exists items f, items_declared (schemes_of mixed) items /\ (forall sc, proper (class_of mixed sc)) /\ called mixed 1 items = Ok (RFact f) /\
  values_normalize (schemes_of mixed) f /\ instance_of (schemes_of mixed) (class_of mixed 1) f = Err KeyError.
Proof.
  exists [sets 2 "amount" "5"]. eexists. split; [|split; [|split; [vm_compute; reflexivity|split]]].
  - intros r [E|[]]. injection E as <-. vm_compute. discriminate.
  - intros [|[|sc]] k J; vm_compute in J; [destruct J as [<-|[<-|[<-|[]]]]|destruct J as [<-|[<-|[<-|[]]]]|destruct J as [<-|[]]];
      eexists; eexists; (split; [reflexivity|]); vm_compute; reflexivity.
  - intros k s J. cbn in J. repeat (destruct J as [J|J]; [injection J as <- <-; eexists; vm_compute; reflexivity|]). contradiction.
  - vm_compute. reflexivity.
Qed.
Lemma hand_without_json : exists K o, fact shown (GList person) = Ok K /\ construct [K] [(str_of "name", VStr (str_of "Ivan"))] = Ok o /\
  map (read_name (fun _ => []) [K] o) [str_of "name"; str_of "age"; str_of "tags"; AS_JSON; SPANS] =
  [Ok (FValue (VStr (str_of "Ivan"))); Ok (FValue (VStr (str_of "adult"))); Ok (FValue (VList [])); Err AttributeError; Err AttributeError].
Proof. eexists. eexists. split; [reflexivity|]. split; vm_compute; reflexivity. Qed.
Lemma name_twice : exists K items f, fact shown (GList [DName (name "a"); DName (name "a")]) = Ok K /\ construct [K] [] = Err AttributeError /\
  called (alone [K]) 0 items = Ok (RFact f) /\ shows (alone [K]) 0 items [str_of "a"] = Ok [Ok (FValue (VStr (str_of "x")))].
Proof. eexists. exists [sets 0 "a" "x"]. eexists. split; [reflexivity|]. repeat split; vm_compute; reflexivity. Qed.
