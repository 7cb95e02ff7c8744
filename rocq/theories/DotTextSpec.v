(** The language DOT (graphviz.org/doc/info/lang.html, lib/cgraph/scan.l), as far as it is
    needed to read drawings; independent of the model. *)
From Coq Require String.
From Verif Require Import Base TokenModel EarleyModel.
Open Scope nat_scope.

(** ** Words.  A quoted string ends at the first quote that is not escaped; a backslash and
    a quote stand for the quote, two backslashes for themselves, a backslash before the end
    of the line for nothing, other characters for themselves. *)
Inductive word := Bare (s : str) | Quoted (s : str) | Mark (c : N) | Arrow.
Inductive mode := Between (pending : str) | Dash | Inside (value : str) | Escaped (value : str).
Definition id_char (c : N) : bool :=
  ((48 <=? c) && (c <=? 57) || (65 <=? c) && (c <=? 90) || (97 <=? c) && (c <=? 122) || (c =? 95) || (128 <=? c))%N%bool.
Definition flush (pending : str) (ws : option (list word)) : option (list word) :=
  match pending with [] => ws | _ => option_map (cons (Bare pending)) ws end.
Fixpoint words_from (m : mode) (text : str) : option (list word) :=
  match m, text with
  | Between p, [] => flush p (Some [])
  | Between p, c :: text' =>
      if id_char c then words_from (Between (p ++ [c])) text'
      else flush p
        (if ((c =? 32) || (c =? 10) || (c =? 13) || (c =? 9))%N%bool then words_from (Between []) text'
         else if (c =? 34)%N then words_from (Inside []) text'
         else if (c =? 45)%N then words_from Dash text'
         else if existsb (N.eqb c) (str_of "{}[];,=") then option_map (cons (Mark c)) (words_from (Between []) text')
         else None)
  | Dash, c :: text' => if (c =? 62)%N then option_map (cons Arrow) (words_from (Between []) text') else None
  | Inside v, c :: text' =>
      if (c =? 34)%N then option_map (cons (Quoted v)) (words_from (Between []) text')
      else if (c =? 92)%N then words_from (Escaped v) text'
      else words_from (Inside (v ++ [c])) text'
  | Escaped v, c :: text' =>
      if (c =? 34)%N then words_from (Inside (v ++ [34%N])) text'
      else if (c =? 10)%N then words_from (Inside v) text'
      else words_from (Inside (v ++ [92%N; c])) text'
  | _, [] => None
  end.
Definition dot_words : str -> option (list word) := words_from (Between []).

(** ** Statements: attributes for all nodes and edges, nodes, edges. *)
Inductive statement :=
| Defaults (kind : str) (attributes : list (str * str))
| ANode (name : str) (attributes : list (str * str))
| AnEdge (from to : str) (attributes : list (str * str)).
Definition name_of (w : word) : option str := match w with Bare s | Quoted s => Some s | _ => None end.
Definition is_mark (c : N) (w : word) : bool := match w with Mark d => N.eqb d c | _ => false end.
(** [name = value, ...], up to the closing bracket. *)
Fixpoint attribute_list (ws : list word) : option (list (str * str) * list word) :=
  match ws with
  | Mark 93 :: rest => Some ([], rest)
  | k :: Mark 61 :: v :: rest =>
      match name_of k, name_of v with
      | Some k, Some v =>
          let rest' := match rest with Mark 44 :: r | Mark 59 :: r => attribute_list r | r => attribute_list r end in
          option_map (fun x => ((k, v) :: fst x, snd x)) rest'
      | _, _ => None
      end
  | _ => None
  end.
Definition attributes_of (ws : list word) : option (list (str * str) * list word) :=
  match ws with Mark 91 :: rest => attribute_list rest | _ => Some ([], ws) end.
Definition keyword (s : str) : bool := existsb (str_eqb s) [str_of "graph"; str_of "node"; str_of "edge"].
Definition statement_of (ws : list word) : option (statement * list word) :=
  match ws with
  | Bare k :: rest =>
      if keyword k then option_map (fun x => (Defaults k (fst x), snd x)) (attributes_of rest)
      else match rest with
           | Arrow :: w :: rest' =>
               match name_of w with
               | Some to => option_map (fun x => (AnEdge k to (fst x), snd x)) (attributes_of rest')
               | None => None
               end
           | _ => option_map (fun x => (ANode k (fst x), snd x)) (attributes_of rest)
           end
  | _ => None
  end.
Fixpoint statements (fuel : nat) (ws : list word) : option (list statement) :=
  match fuel with
  | 0 => None
  | S fuel =>
      match ws with
      | [Mark 125] => Some []
      | _ =>
          match statement_of ws with
          | Some (s, rest) =>
              option_map (cons s) (statements fuel (match rest with Mark 59 :: r => r | r => r end))
          | None => None
          end
      end
  end.
(** The statements of a text, [None] when it is not a drawing. *)
Definition read_dot (text : str) : option (list statement) :=
  match dot_words text with
  | Some (Bare d :: Bare _ :: Mark 123 :: ws) => if str_eqb d (str_of "digraph") then statements (S (length ws)) ws else None
  | _ => None
  end.

(** ** Labels.  How a label is shown: a line end as backslash and n (which graphviz draws
    as a line end). *)
Definition shown (v : str) : str :=
  flat_map (fun c => if N.eqb c 10 then [92%N; 110%N] else if N.eqb c 13 then [92%N; 114%N] else [c]) v.
(** Every run of backslashes before a quote and at the end has even length. *)
Definition even_backslashes (v : str) : Prop :=
  forall a n b, v = a ++ repeat 92%N n ++ b -> (forall a', a <> a' ++ [92%N]) -> (b = [] \/ exists b', b = 34%N :: b') -> Nat.Even n.

(** ** Drawings that can be read: attribute names are identifiers, values have no odd runs
    of backslashes; what is read of an attribute list. *)
Definition identifier (k : str) : Prop := k <> [] /\ forallb id_char k = true.
Definition safe_attributes (s : list (str * str)) : Prop := forall k v, In (k, v) s -> identifier k /\ even_backslashes v.
Definition read_attributes (s : option (list (str * str))) : list (str * str) :=
  match s with Some s => map (fun x => (fst x, shown (snd x))) s | None => [] end.
(** The label of a node of a tree: the word of a leaf, the label of the rule otherwise. *)
Definition label_of {pred} (rule_label : nat -> str) (n : node token pred) : str :=
  match n with Leaf _ _ _ t => t_value t | Node _ r _ _ _ => rule_label r end.
