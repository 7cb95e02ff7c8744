(** Dot output (C58). *)
From Coq Require String.
From Verif Require Import Base TokenModel EarleyModel TreeModel TreeSpec DotModel DotProofs.
Open Scope nat_scope.

(** ** C58.  Every drawn object has one number, different objects have different numbers,
    and the lines are those of the drawing. *)
Theorem dot_numbers_are_consistent :
  forall d, exists num : nat -> nat,
  (forall x y, drawn d x -> drawn d y -> num x = num y -> x = y) /\
  source d = (map num (d_nodes d), map (fun e => (num (fst e), num (snd e))) (d_edges d)).
Proof. exact source_numbers. Qed.
Print Assumptions dot_numbers_are_consistent.
(** A drawing of a rule shows every part of the rule once, and each link from a part to its
    child as often as it occurs. *)
Theorem dot_of_a_rule :
  forall fuel graph root d, rule_drawing fuel graph root = Some d ->
  NoDup (d_nodes d) /\ (forall x, In x (d_nodes d) <-> part_of graph root x) /\
  (forall x y, In (x, y) (d_edges d) -> part_of graph root x) /\
  (forall x y, part_of graph root x -> count_occ edge_eq_dec (d_edges d) (x, y) = count_occ Nat.eq_dec (nth x graph []) y).
Proof. exact rule_drawing_ok. Qed.
Print Assumptions dot_of_a_rule.
(** A drawing of a tree shows its nodes in reading order, the links from each node to its
    children, and a line between any two nodes with the same relation. *)
Theorem dot_of_a_tree :
  forall pred (g : grammar token pred) fuel (root : node token pred) d, tree_drawing g fuel root = Some d ->
  exists items ps related, map Some items = map (subtree root) ps /\ (forall p, In p ps <-> exists m, subtree root p = Some m) /\
    (forall a p b q c, ps = a ++ p :: b ++ q :: c -> before p q) /\
    d_nodes d = map node_id items /\ d_edges d = flat_map (fun n => map (fun c => (node_id n, node_id c)) (TreeModel.children n)) items ++ related /\
    (forall x y, In (x, y) related <-> exists a r q k ch b r' q' k' ch' c ro, items = a ++ Node x r q k ch :: b ++ Node y r' q' k' ch' :: c /\ g_relation g r = Some ro /\ g_relation g r' = Some ro).
Proof. exact @tree_drawing_ok. Qed.
Print Assumptions dot_of_a_tree.

(** Drawing ends. *)
Theorem drawing_a_rule_ends :
  forall graph root, (forall x y, In y (nth x graph []) -> y < length graph) -> root < length graph ->
  exists d, rule_drawing (length graph) graph root = Some d.
Proof. exact rule_drawing_ends. Qed.
Print Assumptions drawing_a_rule_ends.
Theorem drawing_a_tree_ends :
  forall pred (g : grammar token pred) (root : node token pred), exists fuel d, tree_drawing g fuel root = Some d.
Proof. exact @tree_drawing_ends. Qed.
Print Assumptions drawing_a_tree_ends.

(** A recursive rule with a shared part: 0 is the root, 1 a forward rule defined by 0, 2 a
    predicate used twice. *)
Example dot_rule_case :
  rule_drawing 10 [[3]; [0]; []; [2; 1; 2]; [2]] 0 = Some (mkDrawing [0; 3; 2; 1] [(0, 3); (3, 2); (3, 1); (3, 2); (1, 0)]) /\
  option_map source (rule_drawing 10 [[3]; [0]; []; [2; 1; 2]; [2]] 0) = Some ([0; 1; 2; 3], [(0, 1); (1, 2); (1, 3); (1, 2); (3, 0)]).
Proof. split; vm_compute; reflexivity. Qed.
Example dot_tree_case :
  let t := mkToken [] 0 0 [] None None in
  let leaf := fun id pos => Leaf id pos tt t in
  let g := mkGrammar (token := token) (pred := unit) (fun _ => []) (fun _ _ => []) (fun _ => []) (fun _ => 0) (fun _ => None) (fun r => match r with 1 => Some 7 | _ => None end) (fun _ => None) 0 in
  tree_drawing g 20 (Node 9 0 0 0 [Node 3 1 1 0 [leaf 0 0]; leaf 5 1; Node 8 1 1 0 [leaf 4 2]]) =
  Some (mkDrawing [9; 3; 0; 5; 8; 4] [(9, 3); (9, 5); (9, 8); (3, 0); (8, 4); (3, 8)]).
Proof. vm_compute. reflexivity. Qed.
