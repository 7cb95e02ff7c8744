(** Facts about tree walks and the removal of empty nodes. *)
From Coq Require Import Sorted.
From Verif Require Import Base TokenModel EarleyModel TreeModel TreeSpec.

Section TreeProofs.
  Context {pred : Type}.
  Notation node := (node token pred).

  Lemma node_ind2 (P : node -> Prop) :
    (forall id pos p tk, P (Leaf id pos p tk)) ->
    (forall id r q rank ch, Forall P ch -> P (Node id r q rank ch)) ->
    forall n, P n.
  Proof.
    intros HL HN. fix IH 1. intros [id pos p tk|id r q rank ch].
    - apply HL.
    - apply HN. induction ch as [|c ch IHch]; constructor; auto.
  Qed.

  Lemma flat_map_ext_Forall {A B} (f h : A -> list B) l :
    Forall (fun x => f x = h x) l -> flat_map f l = flat_map h l.
  Proof. induction 1; simpl; congruence. Qed.

  (** ** dfs *)
  Fixpoint size (n : node) : nat :=
    match n with
    | Leaf _ _ _ _ => 1
    | Node _ _ _ _ ch => S (list_sum (map size ch))
    end.

  Lemma size_children n : size n = S (list_sum (map size (children n))).
  Proof. destruct n; reflexivity. Qed.

  Lemma walk_children (n : node) : walk n = n :: flat_map walk (children n).
  Proof. destruct n; reflexivity. Qed.

  Lemma dfs_loop_walk : forall fuel (queue : list node),
    list_sum (map size queue) <= fuel -> dfs_loop fuel queue = Some (flat_map walk queue).
  Proof.
    induction fuel as [|fuel IH]; intros [|n queue] H; try reflexivity.
    - cbn [map list_sum] in H. rewrite size_children in H. simpl in H. lia.
    - cbn [dfs_loop]. rewrite IH.
      + cbn [flat_map]. rewrite walk_children, flat_map_app. reflexivity.
      + cbn [map list_sum fold_right] in H. rewrite size_children in H.
        rewrite map_app, list_sum_app. unfold list_sum in *. lia.
  Qed.

  (** The walk lists every node once, in reading order. *)
  Fixpoint paths (n : node) : list (list nat) :=
    [] :: match n with
          | Leaf _ _ _ _ => []
          | Node _ _ _ _ ch =>
              (fix go (i : nat) (ch : list node) : list (list nat) :=
                 match ch with
                 | [] => []
                 | c :: ch' => map (cons i) (paths c) ++ go (S i) ch'
                 end) 0 ch
          end.
  Fixpoint paths_from (i : nat) (ch : list node) : list (list nat) :=
    match ch with
    | [] => []
    | c :: ch' => map (cons i) (paths c) ++ paths_from (S i) ch'
    end.
  Lemma paths_eq n : paths n = [] :: paths_from 0 (children n).
  Proof.
    destruct n as [|id r q rank ch]; [reflexivity|]. cbn [paths children]. f_equal.
  Qed.

  Lemma paths_from_in ch : forall i p,
    In p (paths_from i ch) <-> exists j c p', nth_error ch j = Some c /\ In p' (paths c) /\ p = (i + j) :: p'.
  Proof.
    induction ch as [|c ch IH]; intros i p; simpl.
    - split; [tauto|]. intros ([|j] & c & p' & H & _); discriminate.
    - rewrite in_app_iff, in_map_iff, IH. split.
      + intros [(p' & <- & H)|(j & c' & p' & H1 & H2 & ->)].
        * exists 0, c, p'. rewrite Nat.add_0_r. auto.
        * exists (S j), c', p'. split; auto. split; auto. f_equal. lia.
      + intros ([|j] & c' & p' & H1 & H2 & ->).
        * left. injection H1 as ->. rewrite Nat.add_0_r. eauto.
        * right. exists j, c', p'. split; auto. split; auto. f_equal. lia.
  Qed.

  Lemma paths_in n : forall p, In p (paths n) <-> exists m, subtree n p = Some m.
  Proof.
    induction n as [id pos p tk|id r q rank ch IH] using node_ind2; intros path.
    - simpl. split.
      + intros [<-|[]]. eexists. reflexivity.
      + intros [m H]. destruct path; [auto|discriminate].
    - rewrite paths_eq. cbn [children In]. rewrite paths_from_in. split.
      + intros [<-|(j & c & p' & H1 & H2 & ->)]; [eexists; reflexivity|].
        cbn [Nat.add subtree]. rewrite H1. rewrite Forall_forall in IH.
        apply IH; auto. eapply nth_error_In; eauto.
      + intros [m H]. destruct path as [|j path]; [auto|]. right.
        cbn [subtree] in H. destruct (nth_error ch j) as [c|] eqn:E; [|discriminate].
        exists j, c, path. split; auto. split; auto. rewrite Forall_forall in IH.
        apply IH; eauto. eapply nth_error_In; eauto.
  Qed.

  Lemma walk_paths n : map Some (walk n) = map (subtree n) (paths n).
  Proof.
    induction n as [id pos p tk|id r q rank ch IH] using node_ind2; [reflexivity|].
    rewrite paths_eq. rewrite walk_children. cbn [children map]. f_equal.
    assert (G : forall i pre, length pre = i ->
      map Some (flat_map walk ch) =
      map (subtree (Node id r q rank (pre ++ ch))) (paths_from i ch)).
    { induction ch as [|c ch IHch]; intros i pre Hi; [reflexivity|].
      inversion IH as [|? ? IHc IHch' EQ]; subst. cbn [flat_map paths_from].
      rewrite !map_app, map_map. f_equal.
      - rewrite IHc. apply map_ext. intros p. cbn [subtree].
        rewrite nth_error_app2, Nat.sub_diag by lia. reflexivity.
      - rewrite (IHch IHch' (S (length pre)) (pre ++ [c])).
        + rewrite <- app_assoc. reflexivity.
        + rewrite app_length. simpl. lia. }
    apply (G 0 [] eq_refl).
  Qed.

  Lemma paths_order n : forall a p b q c, paths n = a ++ p :: b ++ q :: c -> before p q.
  Proof.
    (* stated through StronglySorted *)
    assert (S : forall n, StronglySorted before (paths n)).
    { clear n. intros n. induction n as [id pos p tk|id r q rank ch IH] using node_ind2.
      - constructor; constructor.
      - rewrite paths_eq. cbn [children]. constructor.
        + assert (G : forall i, StronglySorted before (paths_from i ch)).
          { induction IH as [|c ch Hc IH IHch]; intros i; [constructor|].
            cbn [paths_from].
            assert (M : StronglySorted before (map (cons i) (paths c))).
            { clear - Hc. induction Hc as [|x l Hl IHl Hx]; cbn [map]; constructor; auto.
              rewrite Forall_map. eapply Forall_impl; [|exact Hx].
              intros y Hy. apply before_child. auto. }
            specialize (IHch (S i)).
            assert (C : Forall (fun x => Forall (before x) (paths_from (S i) ch))
                               (map (cons i) (paths c))).
            { rewrite Forall_map. apply Forall_forall. intros x _.
              apply Forall_forall. intros y Hy. apply paths_from_in in Hy as (j & c' & p' & _ & _ & ->).
              constructor. lia. }
            revert M C. generalize (map (cons i) (paths c)). intros l M C.
            induction M as [|x l Hl IHl Hx]; simpl; auto. inversion C; subst.
            constructor; auto. apply Forall_app. auto. }
          apply G.
        + apply Forall_forall. intros x Hx. apply paths_from_in in Hx as (j & c' & p' & _ & _ & ->).
          constructor. }
    intros a p b q c H. specialize (S n). rewrite H in S. clear H.
    induction a as [|x a IH]; simpl in S.
    - inversion S as [|? ? _ F]; subst. rewrite Forall_forall in F. apply F.
      apply in_or_app. right. left. auto.
    - inversion S; subst; auto.
  Qed.

  (** ** leaves *)
  Definition as_leaf (n : node) : list (@leaf pred) :=
    match n with Leaf id pos p tk => [(id, pos, p, tk)] | Node _ _ _ _ _ => [] end.

  Lemma walk_leaves (n : node) : flat_map as_leaf (walk n) = tree_leaves n.
  Proof.
    induction n as [id pos p tk|id r q rank ch IH] using node_ind2; [reflexivity|].
    cbn [walk tree_leaves]. cbn [flat_map as_leaf app].
    induction IH as [|c ch Hc IH IHch]; [reflexivity|].
    cbn [flat_map]. rewrite flat_map_app, Hc, IHch. reflexivity.
  Qed.

  Definition token_at (s : store) (l : @leaf pred) : token :=
    let '(id, _, _, tk) := l in leaf_token s id tk.

  Lemma tree_tokens_leaves s (n : node) : tree_tokens s n = map (token_at s) (tree_leaves n).
  Proof.
    unfold tree_tokens. rewrite <- walk_leaves. generalize (walk n). intros l.
    induction l as [|x l IH]; [reflexivity|]. cbn [flat_map]. rewrite IH, map_app.
    destruct x; reflexivity.
  Qed.

  (** ** removal of empty nodes *)
  Definition keep (c : node) : list node :=
    match propagate c with Some c' => [c'] | None => [] end.

  Lemma propagate_eq id r q rank ch :
    propagate (Node id r q rank ch) =
    match flat_map keep ch with [] => None | _ => Some (Node id r q rank (flat_map keep ch)) end.
  Proof. reflexivity. Qed.

  Lemma propagate_leaves (n : node) :
    tree_leaves n = match propagate n with Some n' => tree_leaves n' | None => [] end.
  Proof.
    induction n as [id pos p tk|id r q rank ch IH] using node_ind2; [reflexivity|].
    rewrite propagate_eq. cbn [tree_leaves].
    assert (E : flat_map tree_leaves ch = flat_map tree_leaves (flat_map keep ch)).
    { induction IH as [|c ch Hc IH IHch]; [reflexivity|]. cbn [flat_map].
      rewrite flat_map_app, <- IHch, Hc. f_equal. unfold keep.
      destruct (propagate c); simpl; rewrite ?app_nil_r; reflexivity. }
    rewrite E. destruct (flat_map keep ch); reflexivity.
  Qed.

  Fixpoint all_no_empty (ch : list node) : Prop :=
    match ch with [] => True | c :: ch' => no_empty_node c /\ all_no_empty ch' end.
  Lemma no_empty_node_eq id r q rank ch :
    no_empty_node (Node id r q rank ch) <-> ch <> [] /\ all_no_empty ch.
  Proof. reflexivity. Qed.
  Lemma all_no_empty_Forall ch : all_no_empty ch <-> Forall no_empty_node ch.
  Proof.
    induction ch; simpl; split; intros H; auto.
    - constructor; tauto.
    - inversion H; subst. tauto.
  Qed.

  Lemma propagate_no_empty (n n' : node) : propagate n = Some n' -> no_empty_node n'.
  Proof.
    revert n'. induction n as [id pos p tk|id r q rank ch IH] using node_ind2; intros n' H.
    - injection H as <-. exact I.
    - rewrite propagate_eq in H.
      assert (F : Forall no_empty_node (flat_map keep ch)).
      { clear H. induction IH as [|c ch Hc IH IHch]; [constructor|]. cbn [flat_map].
        apply Forall_app. split; [|exact IHch].
        unfold keep. destruct (propagate c); auto. }
      destruct (flat_map keep ch) as [|x l] eqn:E; [discriminate|].
      injection H as <-. apply no_empty_node_eq. split; [discriminate|].
      apply all_no_empty_Forall. auto.
  Qed.

  Lemma propagate_id (n : node) : no_empty_node n -> propagate n = Some n.
  Proof.
    induction n as [id pos p tk|id r q rank ch IH] using node_ind2; intros H; [reflexivity|].
    apply no_empty_node_eq in H as [N A]. rewrite propagate_eq.
    assert (E : flat_map keep ch = ch).
    { clear N. induction IH as [|c ch Hc IH IHch]; [reflexivity|].
      destruct A as [A1 A2]. cbn [flat_map]. unfold keep at 1. rewrite (Hc A1), IHch; auto. }
    rewrite E. destruct ch; congruence.
  Qed.

  Lemma no_empty_leaves (n : node) : no_empty_node n -> tree_leaves n <> [].
  Proof.
    induction n as [id pos p tk|id r q rank ch IH] using node_ind2; intros H; [discriminate|].
    apply no_empty_node_eq in H as [N A]. destruct ch as [|c ch]; [congruence|].
    inversion IH; subst. destruct A as [A _]. cbn [tree_leaves flat_map].
    intros E. apply app_eq_nil in E as [E _]. revert E. match goal with HH : _ -> tree_leaves c <> [] |- _ => exact (HH A) end.
  Qed.

  Lemma propagate_none (n : node) : propagate n = None <-> tree_leaves n = [].
  Proof.
    pose proof (propagate_leaves n) as L. destruct (propagate n) as [n'|] eqn:E.
    - split; [discriminate|]. intros H. rewrite H in L.
      exfalso. eapply no_empty_leaves; [eapply propagate_no_empty; eauto|]. auto.
    - tauto.
  Qed.
End TreeProofs.
