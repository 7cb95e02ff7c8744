(** Model of yargy/record.py, of the equality of Span (span.py 12-15) and of ForwardRule
    (rule/constructors.py 299-300), and of the Python values records are made of.
    True and 1 are taken as different values; comparison of records raises nothing (every
    object of a class has the attributes of its class). *)
From Verif Require Import Base.
Open Scope nat_scope.

Inductive value :=
| VNone
| VInt (z : Z)
| VStr (s : str)
| VTuple (items : list value)
| VList (items : list value)
| VSet (frozen : bool) (items : list str)          (* set and frozenset of strings *)
| VObject (id : nat)                               (* compared and hashed by identity *)
| VRecord (class : nat) (attributes : list value)  (* classes that override nothing *)
| VSpan (start stop : value)
| VForward (id : nat).

Definition subset (a b : list str) : bool := forallb (fun x => existsb (str_eqb x) b) a.
(** [a == b].
    - record.py 6-13: the same type and all attributes equal;
    - span.py 12-15: a Span also equals a tuple; [tuple == Span] is answered by the Span;
    - rule/constructors.py 299-300: [id(self) == id(other)];
    - values of Python: sequences item by item, set and frozenset by their elements. *)
Fixpoint py_eq (a b : value) {struct a} : bool :=
  let fix all_eq (xs ys : list value) {struct xs} : bool :=
    match xs, ys with
    | [], [] => true
    | x :: xs', y :: ys' => py_eq x y && all_eq xs' ys'
    | _, _ => false
    end in
  match a, b with
  | VNone, VNone => true
  | VInt x, VInt y => Z.eqb x y
  | VStr x, VStr y => str_eqb x y
  | VTuple xs, VTuple ys => all_eq xs ys
  | VTuple xs, VSpan start stop => all_eq xs [start; stop]
  | VSpan start stop, VTuple [x; y] => py_eq start x && py_eq stop y
  | VSpan start stop, VSpan start' stop' => py_eq start start' && py_eq stop stop'
  | VList xs, VList ys => all_eq xs ys
  | VSet _ xs, VSet _ ys => subset xs ys && subset ys xs
  | VObject i, VObject j => Nat.eqb i j
  | VRecord c xs, VRecord d ys => Nat.eqb c d && all_eq xs ys
  | VForward i, VForward j => Nat.eqb i j
  | _, _ => false
  end.
(** record.py 15-16. *)
Definition py_ne (a b : value) : bool := negb (py_eq a b).

Section Hash.
  (** The hash functions of Python. *)
  Variable hash_none : Z.
  Variable hash_int : Z -> Z.
  Variable hash_str : str -> Z.
  Variable hash_tuple : list Z -> Z.
  Variable hash_set : list str -> Z.
  Variable hash_object : nat -> Z.
  (** [hash(a)].  record.py 18-22: the hash of the tuple of attributes.  Span and ForwardRule
      define [__eq__] and no [__hash__]: Python 3 makes them unhashable. *)
  Fixpoint py_hash (a : value) : res Z :=
    let fix all_hash (xs : list value) : res (list Z) :=
      match xs with
      | [] => Ok []
      | x :: xs' => let! z := py_hash x in let! zs := all_hash xs' in Ok (z :: zs)
      end in
    match a with
    | VNone => Ok hash_none
    | VInt z => Ok (hash_int z)
    | VStr s => Ok (hash_str s)
    | VTuple xs => let! zs := all_hash xs in Ok (hash_tuple zs)
    | VList _ => Err TypeError
    | VSet frozen xs => if frozen then Ok (hash_set xs) else Err TypeError
    | VObject i => Ok (hash_object i)
    | VRecord _ xs => let! zs := all_hash xs in Ok (hash_tuple zs)
    | VSpan _ _ => Err TypeError
    | VForward _ => Err TypeError
    end.
End Hash.

(** Classes used below: token.py 6-7 (attributes value, span, type), morph.py 60-61, 91-92,
    rule/constructors.py 28-29 (terms, main) and 58-59 (productions). *)
Definition TOKEN := 0. Definition GRAMS := 1. Definition FORM := 2. Definition PRODUCTION := 3. Definition RULE := 4.
Definition token_value (text : str) (start stop : Z) (type : str) : value :=
  VRecord TOKEN [VStr text; VSpan (VInt start) (VInt stop); VStr type].
Definition form_value (normalized : str) (grams : list str) : value :=
  VRecord FORM [VStr normalized; VRecord GRAMS [VSet true grams]].
Definition rule_value (productions : list (list value)) : value :=
  VRecord RULE [VList (map (fun terms => VRecord PRODUCTION [VList terms; VInt 0]) productions)].
