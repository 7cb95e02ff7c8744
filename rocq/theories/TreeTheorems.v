(** Walks and removal of empty nodes, as stated in PropTree.v. *)
From Coq Require Import Sorted.
From Verif Require Import Base EarleyModel EarleySpec TokenModel TreeModel ParserModel TreeSpec TreeProofs
  RelationSpec ParserProofs ResultProofs.
Open Scope nat_scope.

Lemma dfs_mono {pred} : forall fuel fuel' (queue l : list (node token pred)),
  fuel <= fuel' -> dfs_loop fuel queue = Some l -> dfs_loop fuel' queue = Some l.
Proof.
  induction fuel as [|fuel IH]; intros fuel' [|n queue] l L H; cbn [dfs_loop] in H; try discriminate;
    try (destruct fuel'; exact H).
  destruct fuel' as [|fuel']; [lia|]. cbn [dfs_loop].
  destruct (dfs_loop fuel (children n ++ queue)) as [r|] eqn:E; [|discriminate].
  rewrite (IH fuel' _ _ ltac:(lia) E). auto.
Qed.

Lemma dfs_walk {pred} fuel (n : node token pred) l : dfs_loop fuel [n] = Some l -> l = walk n.
Proof.
  intros H. pose proof (dfs_loop_walk (Nat.max fuel (size n)) [n]) as W.
  cbn [map list_sum fold_right flat_map] in W. rewrite app_nil_r in W.
  rewrite (dfs_mono fuel (Nat.max fuel (size n)) _ _ ltac:(lia) H) in W. 
  assert (E : Some l = Some (walk n)) by (apply W; unfold list_sum; cbn; lia). congruence.
Qed.

Lemma dfs_terminates : forall pred (n : node token pred), exists fuel l, dfs_loop fuel [n] = Some l.
Proof.
  intros. exists (size n), (walk n). rewrite dfs_loop_walk; cbn; [rewrite app_nil_r; auto|lia].
Qed.

Lemma walk_preorder : forall pred fuel (n : node token pred) l, dfs_loop fuel [n] = Some l ->
  exists ps, map Some l = map (subtree n) ps /\ (forall p, In p ps <-> exists m, subtree n p = Some m) /\
    (forall a p b q c, ps = a ++ p :: b ++ q :: c -> before p q).
Proof.
  intros pred fuel n l H. apply dfs_walk in H. subst l. exists (paths n).
  split; [apply walk_paths|]. split; [apply paths_in|]. apply paths_order.
Qed.

Lemma walk_text_order : forall pred (accepts : pred -> token -> bool) constrain g fuel toks all trees n i j fuel' l,
  parse accepts constrain g fuel toks all = Some trees -> In (n, (i, j)) trees ->
  dfs_loop fuel' [n] = Some l ->
  flat_map (fun x => match x with Leaf _ pos _ _ => [pos] | _ => [] end) l = seq i (j - i).
Proof.
  intros pred accepts constrain g fuel toks all trees n i j fuel' l P HT H. apply dfs_walk in H. subst l.
  rewrite <- (proj2 (tree_pos accepts constrain g toks all fuel trees P n i j HT)), <- walk_leaves.
  induction (walk n) as [|[id pos p tk|] w IH]; cbn [flat_map as_leaf map app]; [reflexivity| |auto].
  cbn. f_equal. exact IH.
Qed.

Lemma normalized_spec : forall pred (n n' : node token pred), propagate n = Some n' ->
  tree_leaves n' = tree_leaves n /\ no_empty_node n' /\ propagate n' = Some n'.
Proof.
  intros pred n n' P. pose proof (propagate_leaves n) as E. rewrite P in E. split; auto.
  pose proof (propagate_no_empty _ _ P) as K. split; auto. apply propagate_id. auto.
Qed.
