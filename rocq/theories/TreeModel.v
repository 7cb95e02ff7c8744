(** Model of the tree walks and of the transformations applied to every parse
    tree: yargy/tree/constructors.py (dfs_tree, bfs_tree, Node.main) and
    yargy/tree/transformators.py (PropogateEmpty, Relations, ApplyRelations),
    yargy/relations/graph.py.

    A leaf object is mutable: its [token] attribute is overwritten by
    ApplyRelationsTransformator.  [store] records the overwritten tokens by leaf
    identity. *)
From Verif Require Import Base TokenModel EarleyModel.

Section Tree.
  Context {pred : Type}.
  Notation node := (node token pred).

  (** The [children] attribute; [Leaf.children = []]
      (tree/constructors.py 140). *)
  Definition children (n : node) : list node :=
    match n with Leaf _ _ _ _ => [] | Node _ _ _ _ ch => ch end.

  (** tree/constructors.py 73-78.  The Python list is kept with its last element
      first: [pop()] takes the head, [extend(reversed(children))] puts the
      children in front.  [None]: fuel exhausted. *)
  Fixpoint dfs_loop (fuel : nat) (queue : list node) : option (list node) :=
    match queue with
    | [] => Some []
    | item :: queue' =>
        match fuel with
        | O => None
        | S fuel' =>
            match dfs_loop fuel' (children item ++ queue') with
            | Some l => Some (item :: l)
            | None => None
            end
        end
    end.

  (** tree/constructors.py 65-70: [pop(0)], [extend(children)]. *)
  Fixpoint bfs_loop (fuel : nat) (queue : list node) : option (list node) :=
    match queue with
    | [] => Some []
    | item :: queue' =>
        match fuel with
        | O => None
        | S fuel' =>
            match bfs_loop fuel' (queue' ++ children item) with
            | Some l => Some (item :: l)
            | None => None
            end
        end
    end.

  (** The walk used below, written directly: parents before children, children
      left to right.  [dfs_loop] computes this list (TreeProofs.v,
      [dfs_loop_walk]). *)
  Fixpoint walk (n : node) : list node :=
    n :: match n with
         | Leaf _ _ _ _ => []
         | Node _ _ _ _ ch => flat_map walk ch
         end.

  (** tree/transformators.py 47-62 (and 39-40 for leaves): nodes left without
      children disappear.  The new Node objects are not compared by identity
      afterwards; they keep the number of the original. *)
  Fixpoint propagate (n : node) : option node :=
    match n with
    | Leaf _ _ _ _ => Some n
    | Node id r q rank ch =>
        let ch' := flat_map (fun c => match propagate c with Some c' => [c'] | None => [] end) ch in
        match ch' with
        | [] => None
        | _ => Some (Node id r q rank ch')
        end
    end.

  (** Overwritten tokens of leaves, most recent first. *)
  Definition store := list (nat * token).
  Definition leaf_token (s : store) (id : nat) (tk : token) : token :=
    match assoc id s with Some t => t | None => tk end.

  (** tree/constructors.py 99-100, 149-150: the main leaf.  Returns the position
      identifying the Token object and the token.  [children[main]] raises
      IndexError when out of range. *)
  Section Main.
    Variable g_main : nat -> nat.
    Variable s : store.
    Fixpoint node_main (n : node) : res (nat * token) :=
      match n with
      | Leaf id pos _ tk => Ok (pos, leaf_token s id tk)
      | Node _ _ q _ ch =>
          (fix nth_main (i : nat) (ch : list node) {struct ch} : res (nat * token) :=
             match ch with
             | [] => Err IndexError
             | c :: ch' => match i with O => node_main c | S i' => nth_main i' ch' end
             end) (g_main q) ch
      end.
  End Main.

  (** ** relations/graph.py *)

  (** relations/graph.py 18-39.  Relations are identified by [id(relation)].
      Tokens are identified by their position in the text: a tree has one leaf
      per position, and Token objects of different positions are different
      objects.  Dictionaries are association lists in insertion order. *)
  Record graph := mkGraph {
    relation_items : list (nat * list nat);
    graph_tokens : list (nat * token);
    token_forms : list (nat * list form) }.
  Definition empty_graph := mkGraph [] [] [].

  (** [self.relation_items[relation_id].append(item)]. *)
  Fixpoint add_item (r item : nat) (l : list (nat * list nat)) : list (nat * list nat) :=
    match l with
    | [] => [(r, [item])]
    | (r', items) :: l' =>
        if Nat.eqb r r' then (r', items ++ [item]) :: l' else (r', items) :: add_item r item l'
    end.

  (** [d[k] = v] on an insertion-ordered dictionary. *)
  Fixpoint dict_set {B} (k : nat) (v : B) (l : list (nat * B)) : list (nat * B) :=
    match l with
    | [] => [(k, v)]
    | (k', v') :: l' => if Nat.eqb k k' then (k', v) :: l' else (k', v') :: dict_set k v l'
    end.

  (** [self.token_forms[id]] of a defaultdict(list). *)
  Definition get_token_forms (k : nat) (l : list (nat * list form)) : list form :=
    match assoc k l with Some fs => fs | None => [] end.

  (** relations/graph.py 41-47.  The loop over [token.forms] leaves no entry
      when the list is empty. *)
  Definition graph_add (r pos : nat) (t : token) (gr : graph) : res graph :=
    let items := add_item r pos (relation_items gr) in
    let tokens := dict_set pos t (graph_tokens gr) in
    match assoc pos (token_forms gr) with
    | Some _ => Ok (mkGraph items tokens (token_forms gr))
    | None =>
        let! fs := get_forms t in
        Ok (mkGraph items tokens
              (match fs with [] => token_forms gr | _ => token_forms gr ++ [(pos, fs)] end))
    end.

  (** [itertools.combinations(items, 2)]. *)
  Fixpoint combinations2 (l : list nat) : list (nat * nat) :=
    match l with
    | [] => []
    | x :: l' => map (pair x) l' ++ combinations2 l'
    end.

  (** relations/graph.py 27-33. *)
  Definition edges (gr : graph) : list (nat * nat * nat) :=
    flat_map (fun '(r, items) => map (fun '(a, b) => (r, a, b)) (combinations2 items))
             (relation_items gr).

  Section Relations.
    (** The call [relation(form, other)] of the relation object [r]. *)
    Variable rel : nat -> form -> form -> bool.

    Definition form_in (f : form) (l : list form) : bool := existsb (form_eqb f) l.
    Definition add_form (f : form) (l : list form) : list form :=
      if form_in f l then l else l ++ [f].

    (** relations/graph.py 50-63: the two nested loops over forms. *)
    Definition check_pair (r : nat) (fa fb : form) (acc : list form * list form) :=
      if rel r fa fb then (add_form fa (fst acc), add_form fb (snd acc)) else acc.
    Definition check_edge (r : nat) (fas fbs : list form) : list form * list form :=
      fold_left (fun acc fa => fold_left (fun acc fb => check_pair r fa fb acc) fbs acc)
                fas ([], []).

    (** relations/graph.py 49-65: one edge. *)
    Definition validate_edge (fs : list (nat * list form)) (e : nat * nat * nat) :=
      let '(r, a, b) := e in
      let '(ca, cb) := check_edge r (get_token_forms a fs) (get_token_forms b fs) in
      dict_set b cb (dict_set a ca fs).

    (** relations/graph.py 49-70: returns the graph with the narrowed forms and
        the verdict. *)
    Definition validate (gr : graph) : graph * bool :=
      let fs := fold_left validate_edge (edges gr) (token_forms gr) in
      (mkGraph (relation_items gr) (graph_tokens gr) fs,
       forallb (fun '(pos, _) => match get_token_forms pos fs with [] => false | _ => true end)
               (graph_tokens gr)).

    (** relations/graph.py 72-78. *)
    Definition graph_constrain (gr : graph) (pos : nat) (t : token) : res token :=
      match assoc pos (graph_tokens gr) with
      | Some t' => constrained t' (get_token_forms pos (token_forms gr))
      | None => Ok t
      end.

    Variable g : grammar token pred.

    (** tree/transformators.py 106-118: [visit_Node] also serves leaves, whose
        [relation] is None. *)
    Definition visit_relation (s : store) (gr : res graph) (n : node) : res graph :=
      let! gr := gr in
      match n with
      | Leaf _ _ _ _ => Ok gr
      | Node _ r _ _ _ =>
          match g_relation g r with
          | None => Ok gr
          | Some ro =>
              let! (pos, t) := node_main (g_main g) s n in
              graph_add ro pos t gr
          end
      end.
    Definition tree_relations (s : store) (root : node) : res graph :=
      fold_left (visit_relation s) (walk root) (Ok empty_graph).

    (** tree/transformators.py 121-126. *)
    Definition visit_apply (gr : graph) (s : res store) (n : node) : res store :=
      let! s := s in
      match n with
      | Leaf id pos _ tk =>
          let! t := graph_constrain gr pos (leaf_token s id tk) in
          Ok ((id, t) :: s)
      | Node _ _ _ _ _ => Ok s
      end.
    Definition apply_relations (gr : graph) (s : store) (root : node) : res store :=
      fold_left (visit_apply gr) (walk root) (Ok s).

    (** The tokens currently held by the leaves. *)
    Definition tree_tokens (s : store) (root : node) : list token :=
      flat_map (fun n => match n with
                         | Leaf id _ _ tk => [leaf_token s id tk]
                         | Node _ _ _ _ _ => []
                         end) (walk root).
  End Relations.
End Tree.
