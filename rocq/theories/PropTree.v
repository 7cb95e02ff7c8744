(** Properties of tree walks and of tree normalisation (C30, C60). *)
From Verif Require Import Base EarleyModel EarleySpec TokenModel TreeModel ParserModel TreeSpec TreeProofs
  TreeTheorems TreeLevels Cases ParserRefuted PropParser.
Open Scope nat_scope.

(** ** C30 *)
Theorem normalized_keeps_leaves :
  forall pred (n n' : node token pred), propagate n = Some n' ->
  tree_leaves n' = tree_leaves n /\ no_empty_node n' /\ propagate n' = Some n'.
Proof. exact @normalized_spec. Qed.
Print Assumptions normalized_keeps_leaves.
Theorem normalized_changes_nothing_without_empty_nodes :
  forall pred (n : node token pred), no_empty_node n -> propagate n = Some n.
Proof. exact @propagate_id. Qed.
Print Assumptions normalized_changes_nothing_without_empty_nodes.
Theorem normalized_root_missing_iff_no_leaf :
  forall pred (n : node token pred), propagate n = None <-> tree_leaves n = [].
Proof. exact @propagate_none. Qed.
Print Assumptions normalized_root_missing_iff_no_leaf.

(** A tree of S -> X O; O -> | 'b' with an empty part. *)
Example normalized_case :
  option_map (map (fun t => (erase (fst t), option_map erase (propagate (fst t)))))
    (word_parse (plain_grammar [[0]; [1; 2]] [[RULE 1; WORD "a"; RULE 1]; []; [WORD "b"]]) 50 (words ["a"]%string) false) =
  Some [(DNode 0 0 [DNode 1 1 []; DLeaf 0 (str_of "a"); DNode 1 1 []], Some (DNode 0 0 [DLeaf 0 (str_of "a")]))].
Proof. vm_compute. reflexivity. Qed.

(** ** C60.  [subtree n p]: the node at path [p]; [before]: reading order of
    paths. *)
Theorem walk_visits_each_node_once_in_order :
  forall pred fuel (n : node token pred) l, dfs_loop fuel [n] = Some l ->
  exists ps, map Some l = map (subtree n) ps /\ (forall p, In p ps <-> exists m, subtree n p = Some m) /\
    (forall a p b q c, ps = a ++ p :: b ++ q :: c -> before p q).
Proof. exact @walk_preorder. Qed.
Print Assumptions walk_visits_each_node_once_in_order.
Theorem walk_terminates :
  forall pred (n : node token pred), exists fuel l, dfs_loop fuel [n] = Some l.
Proof. exact @dfs_terminates. Qed.
Print Assumptions walk_terminates.
Theorem walk_leaves_in_text_order :
  forall pred (accepts : pred -> token -> bool) constrain g fuel toks all trees n i j fuel' l,
  parse accepts constrain g fuel toks all = Some trees -> In (n, (i, j)) trees ->
  dfs_loop fuel' [n] = Some l ->
  flat_map (fun x => match x with Leaf _ pos _ _ => [pos] | _ => [] end) l = seq i (j - i).
Proof. exact @walk_text_order. Qed.
Print Assumptions walk_leaves_in_text_order.

(** bfs_tree, the other walk of the module: each node once, level by level. *)
Theorem breadth_first_walk_visits_level_by_level :
  forall pred (n : node token pred) fuel l, bfs_loop fuel [n] = Some l ->
  exists ps, map Some l = map (subtree n) ps /\ (forall p, In p ps <-> exists m, subtree n p = Some m) /\
    (forall a p b q c, ps = a ++ p :: b ++ q :: c -> level_before p q).
Proof. exact @bfs_levels. Qed.
Print Assumptions breadth_first_walk_visits_level_by_level.
Theorem breadth_first_walk_terminates :
  forall pred (n : node token pred), exists fuel l, bfs_loop fuel [n] = Some l.
Proof. exact @bfs_terminates. Qed.
Print Assumptions breadth_first_walk_terminates.

Example breadth_first_walk_case :
  option_map (map (fun t => option_map (map erase) (bfs_loop 50 [fst t])))
    (word_parse sums 100 (words ["n"; "+"; "n"]%string) false) =
  Some [Some [DNode 0 0 [DNode 1 1 [n_ 0; plus_ 1; n_ 2]]; DNode 1 1 [n_ 0; plus_ 1; n_ 2];
              n_ 0; plus_ 1; n_ 2; DLeaf 0 (str_of "n"); DLeaf 2 (str_of "n")]].
Proof. vm_compute. reflexivity. Qed.

Example walk_case :
  option_map (map (fun t => option_map (map erase) (dfs_loop 50 [fst t])))
    (word_parse sums 100 (words ["n"; "+"; "n"]%string) false) =
  Some [Some [DNode 0 0 [DNode 1 1 [n_ 0; plus_ 1; n_ 2]]; DNode 1 1 [n_ 0; plus_ 1; n_ 2];
              n_ 0; DLeaf 0 (str_of "n"); plus_ 1; n_ 2; DLeaf 2 (str_of "n")]].
Proof. vm_compute. reflexivity. Qed.
