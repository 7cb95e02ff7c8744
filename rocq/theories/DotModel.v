(** Model of yargy/dot.py (Graph, DotTransformator) and of the dot transformators of rules
    and trees.  Objects are numbers standing for [id(object)]; a drawing keeps its objects
    alive, so ids are not reused.  Labels and styles are not modelled. *)
From Verif Require Import Base TokenModel EarleyModel TreeModel RuleModel.
Open Scope nat_scope.

(** dot.py 74, 100-111: Graph.nodes and Graph.edges, in the order they were added. *)
Record drawing := mkDrawing { d_nodes : list nat; d_edges : list (nat * nat) }.
(** dot.py 158-170: [style] adds a node and its edges to children, for each object of the
    walk (also visit_Production, rule/transformators.py 420-434); [extra] are the edges of
    relations. *)
Definition draw (walked : list (nat * list nat)) (extra : list (nat * nat)) : drawing :=
  mkDrawing (map fst walked) (flat_map (fun x => map (pair (fst x)) (snd x)) walked ++ extra).

(** dot.py 113-117: [Graph.id]; the dictionary as the list of objects in the order of
    their numbers. *)
Fixpoint position (x : nat) (ids : list nat) : option nat :=
  match ids with
  | [] => None
  | y :: ids' => if Nat.eqb x y then Some 0 else option_map S (position x ids')
  end.
Definition graph_id (ids : list nat) (x : nat) : nat * list nat :=
  match position x ids with
  | Some i => (i, ids)
  | None => (length ids, ids ++ [x])
  end.
(** dot.py 119-146: the numbers in the lines of nodes, then in the lines of edges. *)
Fixpoint node_lines (ids nodes : list nat) : list nat * list nat :=
  match nodes with
  | [] => ([], ids)
  | x :: nodes' =>
      let (i, ids1) := graph_id ids x in
      let (lines, ids2) := node_lines ids1 nodes' in
      (i :: lines, ids2)
  end.
Fixpoint edge_lines (ids : list nat) (edges : list (nat * nat)) : list (nat * nat) * list nat :=
  match edges with
  | [] => ([], ids)
  | (x, y) :: edges' =>
      let (i, ids1) := graph_id ids x in
      let (j, ids2) := graph_id ids1 y in
      let (lines, ids3) := edge_lines ids2 edges' in
      ((i, j) :: lines, ids3)
  end.
Definition source (d : drawing) : list nat * list (nat * nat) :=
  let (nodes, ids) := node_lines [] (d_nodes d) in
  (nodes, fst (edge_lines ids (d_edges d))).

(** DotRuleTransformator (dot.py 167-170): the objects reachable from a rule, predicates
    included; [graph] gives the children of each object. *)
Definition rule_drawing (fuel : nat) (graph : list (list nat)) (root : nat) : option drawing :=
  match bfs fuel (map (fun cs => ORule (pred := unit) (pipe := unit) (bnf := unit) cs) graph) root with
  | Some items => Some (draw (map (fun x => (x, nth x graph [])) items) [])
  | None => None
  end.
(** tree/transformators.py 137-162: nodes with a relation are grouped by it (relations/graph.py
    18-33) and joined. *)
Definition relation_of {pred} (g : grammar token pred) (n : node token pred) : option nat :=
  match n with Leaf _ _ _ _ => None | Node _ r _ _ _ => g_relation g r end.
Definition relation_lines {pred} (g : grammar token pred) (items : list (node token pred)) : list (nat * nat) :=
  flat_map (fun x => combinations2 (snd x))
    (fold_left (fun groups n => match relation_of g n with Some ro => add_item ro (node_id n) groups | None => groups end) items []).
(** DotTreeTransformator (tree/transformators.py 129-168): the nodes of a tree in the order
    of its walk, then the relations. *)
Definition tree_drawing {pred} (g : grammar token pred) (fuel : nat) (root : node token pred) : option drawing :=
  match dfs_loop fuel [root] with
  | Some items => Some (draw (map (fun n => (node_id n, map node_id (TreeModel.children n))) items) (relation_lines g items))
  | None => None
  end.
