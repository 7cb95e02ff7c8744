(** Common vocabulary of the model: strings, exceptions as values, lookups. *)
From Coq Require Export List Arith ZArith NArith Bool Lia.
From Coq Require String Ascii.
Export ListNotations.
Export String.StringSyntax.
Delimit Scope string_scope with string.
Bind Scope string_scope with String.string.

(** Python [str] as the list of its code points. *)
Definition str := list N.

(** ASCII literals of the source. *)
Definition str_of (s : String.string) : str := map Ascii.N_of_ascii (String.list_ascii_of_string s).
Arguments str_of s%string.

Definition str_eqb (a b : str) : bool :=
  if list_eq_dec N.eq_dec a b then true else false.

(** The exceptions the modelled code can raise (only the class is kept). *)
Inductive exn :=
| TypeError | ValueError | KeyError | IndexError | AttributeError
| NotImplementedError | ReError.

(** A Python call either returns or raises. *)
Inductive res (A : Type) :=
| Ok (a : A)
| Err (e : exn).
Arguments Ok {A} a.
Arguments Err {A} e.

Definition bind {A B} (x : res A) (f : A -> res B) : res B :=
  match x with Ok a => f a | Err e => Err e end.

Notation "'let!' x ':=' a 'in' b" := (bind a (fun x => b))
  (at level 200, x pattern, a at level 100, b at level 200).

Section MapM.
  Context {A B : Type} (f : A -> res B).
  Fixpoint mapM (l : list A) : res (list B) :=
    match l with
    | [] => Ok []
    | x :: l' => let! y := f x in let! ys := mapM l' in Ok (y :: ys)
    end.
End MapM.

(** [l[i]] of a Python list with a non-negative index. *)
Definition getitem {A} (l : list A) (i : nat) : res A :=
  match nth_error l i with Some x => Ok x | None => Err IndexError end.

(** [l[i] = x]; the list is unchanged when [i] is out of range (never the
    case in the modelled code). *)
Fixpoint setitem {A} (l : list A) (i : nat) (x : A) : list A :=
  match l, i with
  | [], _ => []
  | _ :: l', O => x :: l'
  | y :: l', S i' => y :: setitem l' i' x
  end.

(** Association lists standing for Python dictionaries with [nat] keys. *)
Fixpoint assoc {B} (k : nat) (l : list (nat * B)) : option B :=
  match l with
  | [] => None
  | (k', v) :: l' => if Nat.eqb k k' then Some v else assoc k l'
  end.

(** Insertion sort, standing for Python's [sorted] with comparison [lt]:
    an element is moved left past the elements it is smaller than. *)
Section Sorted.
  Context {A : Type} (lt : A -> A -> bool).
  Fixpoint insert (x : A) (l : list A) : list A :=
    match l with
    | [] => [x]
    | y :: l' => if lt x y then x :: l else y :: insert x l'
    end.
  Definition isort (l : list A) : list A :=
    fold_left (fun acc x => insert x acc) l [].
End Sorted.
