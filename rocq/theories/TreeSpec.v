(** Specification vocabulary for parse trees, independent of the traversals. *)
From Verif Require Import Base TokenModel EarleyModel.

Section TreeSpec.
  Context {pred : Type}.
  Notation node := (node token pred).

  (** A leaf: identity, position, predicate, token. *)
  Definition leaf := (nat * nat * pred * token)%type.
  Definition leaf_id (l : leaf) : nat := let '(id, _, _, _) := l in id.
  Definition leaf_pos (l : leaf) : nat := let '(_, pos, _, _) := l in pos.

  (** The leaves, left to right. *)
  Fixpoint tree_leaves (n : node) : list leaf :=
    match n with
    | Leaf id pos p tk => [(id, pos, p, tk)]
    | Node _ _ _ _ ch => flat_map tree_leaves ch
    end.

  (** Paths address the nodes of a tree: the root is [[]], child number [i] of
      the node at [p] is at [p ++ [i]]. *)
  Fixpoint subtree (n : node) (p : list nat) : option node :=
    match p with
    | [] => Some n
    | i :: p' =>
        match n with
        | Leaf _ _ _ _ => None
        | Node _ _ _ _ ch =>
            match nth_error ch i with Some c => subtree c p' | None => None end
        end
    end.

  (** Reading order of paths: a node before its descendants, descendants of an
      earlier child before those of a later one. *)
  Inductive before : list nat -> list nat -> Prop :=
  | before_parent i p : before [] (i :: p)
  | before_sibling i j p q : i < j -> before (i :: p) (j :: q)
  | before_child i p q : before p q -> before (i :: p) (i :: q).

  (** Level order: shorter paths first, then reading order. *)
  Definition level_before (p q : list nat) : Prop :=
    length p < length q \/ (length p = length q /\ before p q).

  (** Every node has children. *)
  Fixpoint no_empty_node (n : node) : Prop :=
    match n with
    | Leaf _ _ _ _ => True
    | Node _ _ _ _ ch =>
        ch <> [] /\
        (fix all (ch : list node) : Prop :=
           match ch with [] => True | c :: ch' => no_empty_node c /\ all ch' end) ch
    end.

  (** Same token up to morphological forms. *)
  Definition same_text (a b : token) : Prop :=
    t_value a = t_value b /\ t_start a = t_start b /\ t_stop a = t_stop b /\
    t_type a = t_type b /\ t_tag a = t_tag b.

  (** [a] has the forms of [b] or fewer. *)
  Definition forms_within (a b : token) : Prop :=
    match t_forms a, t_forms b with
    | None, None => True
    | Some fa, Some fb => forall f, In f fa -> In f fb
    | _, _ => False
    end.
End TreeSpec.

(** The main leaf of a node, all parts before the main term being non-empty. *)
Inductive solid_main {pred} (g : grammar token pred) : node token pred -> @leaf pred -> Prop :=
| solid_here id pos p tk : solid_main g (Leaf id pos p tk) (id, pos, p, tk)
| solid_child id r q rank ch c l : nth_error ch (g_main g q) = Some c ->
    (forall i c', i < g_main g q -> nth_error ch i = Some c' -> tree_leaves c' <> []) ->
    solid_main g c l -> solid_main g (Node id r q rank ch) l.
