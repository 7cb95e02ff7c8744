(** Equality and hashes of records (C61). *)
From Coq Require String.
From Verif Require Import Base RecordModel RecordProofs.

Import String.StringSyntax.
Open Scope nat_scope.

(** ** C61.  [==] is an equivalence, and holds of values that are the same item by item, a
    span being the same as the pair of its ends. *)
Theorem equality_is_reflexive : forall a, py_eq a a = true.
Proof. exact eq_reflexive. Qed.
Print Assumptions equality_is_reflexive.
Theorem equality_is_symmetric : forall a b, py_eq a b = py_eq b a.
Proof. exact eq_symmetric. Qed.
Print Assumptions equality_is_symmetric.
Theorem equality_is_transitive : forall a b c, py_eq a b = true -> py_eq b c = true -> py_eq a c = true.
Proof. exact eq_transitive. Qed.
Print Assumptions equality_is_transitive.
Theorem equality_is_by_value : forall a b, py_eq a b = true <-> same a b.
Proof. exact py_eq_same. Qed.
Print Assumptions equality_is_by_value.
Theorem inequality_is_by_value : forall a b, py_ne a b = true <-> ~ same a b.
Proof. exact py_ne_same. Qed.
Print Assumptions inequality_is_by_value.
(** Equal values that can be hashed have the same hash. *)
Theorem equal_hashes_partial :
  forall hash_none hash_int hash_str hash_tuple hash_set hash_object,
  (forall xs ys, (forall s, In s xs <-> In s ys) -> hash_set xs = hash_set ys) ->
  let hash := py_hash hash_none hash_int hash_str hash_tuple hash_set hash_object in
  forall a b x y, py_eq a b = true -> hash a = Ok x -> hash b = Ok y -> x = y.
Proof. exact hash_consistent. Qed.
Print Assumptions equal_hashes_partial.
(** False of the code: a span equals the tuple of its ends, which has a hash, and has no
    hash itself. *)
Theorem equal_hashes_refuted :
  exists a b, py_eq a b = true /\
  forall hash_none hash_int hash_str hash_tuple hash_set hash_object,
  let hash := py_hash hash_none hash_int hash_str hash_tuple hash_set hash_object in
  hash a = Err TypeError /\ exists z, hash b = Ok z.
Proof. exact span_hash. Qed.
Print Assumptions equal_hashes_refuted.
(** Tokens and rules never have a hash; forms always do. *)
Theorem what_can_be_hashed :
  forall hash_none hash_int hash_str hash_tuple hash_set hash_object,
  let hash := py_hash hash_none hash_int hash_str hash_tuple hash_set hash_object in
  (forall text start stop type, hash (token_value text start stop type) = Err TypeError) /\
  (forall productions, hash (rule_value productions) = Err TypeError) /\
  (forall normalized grams, exists z, hash (form_value normalized grams) = Ok z).
Proof. exact hashable. Qed.
Print Assumptions what_can_be_hashed.

Example records_case :
  py_eq (token_value (str_of "a"%string) 0 1 (str_of "LATIN"%string)) (token_value (str_of "a"%string) 0 1 (str_of "LATIN"%string)) = true /\
  py_eq (token_value (str_of "a"%string) 0 1 (str_of "LATIN"%string)) (token_value (str_of "a"%string) 1 2 (str_of "LATIN"%string)) = false /\
  py_eq (form_value (str_of "a"%string) [str_of "NOUN"%string; str_of "sing"%string]) (form_value (str_of "a"%string) [str_of "sing"%string; str_of "NOUN"%string; str_of "sing"%string]) = true /\
  py_eq (VTuple [VInt 0; VInt 1]) (VSpan (VInt 0) (VInt 1)) = true /\
  py_eq (rule_value [[VForward 0]]) (rule_value [[VForward 1]]) = false /\
  py_ne (rule_value [[VForward 0]]) (rule_value [[VForward 1]]) = true /\
  py_eq (rule_value [[rule_value [[VForward 0]]]]) (rule_value [[rule_value [[VForward 0]]]]) = true.
Proof. repeat split; vm_compute; reflexivity. Qed.
Example hash_case :
  py_hash 0%Z (fun z => z) (fun s => Z.of_nat (List.length s)) (fun zs => fold_left (fun a b => 10 * a + b) zs 0)%Z (fun _ => 7)%Z Z.of_nat (VTuple [VInt 4; VStr (str_of "ab"%string); form_value (str_of "a"%string) []]) = Ok 437%Z.
Proof. vm_compute. reflexivity. Qed.
