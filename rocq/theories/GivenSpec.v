(** What the arguments of predicates should be. *)
From Verif Require Import Base TokenModel TokenizerModel TaggerModel PredicateModel GivenModel.
Open Scope nat_scope.

Definition strings (l : list str) : list arg := map AStr l.
(** The documented arguments and the predicate of PredicateModel.v. *)
Inductive documented (U : unicode) : maker -> arg -> predicate -> Prop :=
| doc_eq s : documented U MEq (AStr s) (PEq s)
| doc_length n : documented U MLengthEq (AInt n) (PLengthEq n)
| doc_gte n : documented U MGte (AInt n) (PGte n)
| doc_lte n : documented U MLte (AInt n) (PLte n)
| doc_caseless s : documented U MCaseless (AStr s) (caseless U s)
| doc_in_list l : documented U MIn (ASeq (strings l)) (PIn l)
| doc_in_set l : documented U MIn (ASet (strings l)) (PIn l)
| doc_in_caseless_list l : documented U MInCaseless (ASeq (strings l)) (in_caseless U l)
| doc_in_caseless_set l : documented U MInCaseless (ASet (strings l)) (in_caseless U l)
| doc_normalized s : documented U MNormalized (AStr s) (SNormalized s)
| doc_dictionary_list l : documented U MDictionary (ASeq (strings l)) (SDictionary l)
| doc_dictionary_set l : documented U MDictionary (ASet (strings l)) (SDictionary l)
| doc_gram s : documented U MGram (AStr s) (SGram s)
| doc_type s : documented U MType (AStr s) (SType s)
| doc_tag s : documented U MTag (AStr s) (STag s)
| doc_custom f : documented U (MCustom f) ANone (SCustom f None)
| doc_custom_type f s : documented U (MCustom f) (AStr s) (SCustom f (Some [s]))
| doc_custom_types f l : documented U (MCustom f) (ASeq (strings l)) (SCustom f (Some l)).
(** An iterator was given. *)
Definition is_iterator (v : arg) : bool := match v with AIter _ => true | _ => false end.
Definition holds_iterator (o : object) : bool :=
  match o with OIn v | ODictionary v => is_iterator v | _ => false end.
Definition is_string (v : arg) : bool := match v with AStr _ => true | _ => false end.
Definition is_container (v : arg) : bool := match v with AStr _ | ASeq _ | ASet _ | AIter _ => true | _ => false end.
Definition is_number (v : arg) : bool := match v with AInt _ | ABool _ => true | _ => false end.
(** Chosen from a list in its order. *)
Inductive in_order : list str -> list arg -> Prop :=
| order_nil l : in_order [] l
| order_take s ss l : in_order ss l -> in_order (s :: ss) (AStr s :: l)
| order_skip v ss l : in_order ss l -> in_order ss (v :: l).
(** The values of the tokens that were accepted. *)
Definition accepted_values (ts : list token) (rs : list (res bool)) : list str :=
  map (fun p => t_value (fst p)) (filter (fun p => match snd p with Ok b => b | Err _ => false end) (combine ts rs)).
