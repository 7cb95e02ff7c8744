(** The breadth-first walk of trees (TreeModel.v, [bfs_loop]) visits level by level. *)
From Verif Require Import Base EarleyModel TokenModel TreeModel TreeSpec TreeProofs.
Open Scope nat_scope.

Section Levels.
  Context {pred : Type}.
  Notation node := (node token pred).
  Variable root : node.

  Lemma subtree_app p : forall (n : node) q, subtree n (p ++ q) = match subtree n p with Some m => subtree m q | None => None end.
  Proof.
    induction p as [|i p IH]; intros n q; cbn [app subtree]; [reflexivity|]. destruct n as [|id r pr rank ch]; cbn [subtree]; [reflexivity|].
    destruct (nth_error ch i); [apply IH|reflexivity].
  Qed.
  Lemma subtree_child p m i : subtree root p = Some m -> subtree root (p ++ [i]) = nth_error (children m) i.
  Proof.
    intros E. rewrite subtree_app, E. destruct m as [|id r pr rank ch]; cbn [subtree children]; [destruct i; reflexivity|]. destruct (nth_error ch i); reflexivity.
  Qed.
  Definition sorted (ps : list (list nat)) : Prop := forall a p b q c, ps = a ++ p :: b ++ q :: c -> level_before p q.
  Lemma sorted_app (a b : list (list nat)) : sorted a -> sorted b -> (forall x y, In x a -> In y b -> level_before x y) -> sorted (a ++ b).
  Proof.
    intros A B C l p m q r E. revert a A C E. induction l as [|x l IH]; intros [|y a] A C E; cbn [app] in E.
    - apply (B [] p m q r E).
    - injection E as -> E. destruct (in_app_or a b q) as [I|I]; [rewrite E; apply in_or_app; right; left; reflexivity| |].
      + apply in_split in I as (a1 & a2 & ->). apply (A [] p a1 q a2). reflexivity.
      + apply C; [left; reflexivity|exact I].
    - apply (B (x :: l) p m q r). exact E.
    - injection E as -> E. apply (IH a); [|intros u v Iu Iv; apply C; [right; exact Iu|exact Iv]|exact E].
      intros u p' v q' w ->. apply (A (x :: u) p' v q' w). reflexivity.
  Qed.
  Lemma before_longer p : forall q i j, length p = length q -> before p q -> before (p ++ [i]) (q ++ [j]).
  Proof.
    induction p as [|x p IH]; intros q i j L H; inversion H; subst; cbn [length app] in *; [discriminate|constructor; assumption|].
    apply before_child. apply IH; [lia|assumption].
  Qed.
  Lemma level_longer p q i j : level_before p q -> level_before (p ++ [i]) (q ++ [j]).
  Proof. unfold level_before. rewrite !app_length. cbn [length]. intros [H|[E H]]; [left; lia|right; split; [lia|apply before_longer; assumption]]. Qed.
  Lemma siblings_sorted (p : list nat) n : forall k, sorted (map (fun i => p ++ [i]) (seq k n)).
  Proof.
    induction n as [|n IH]; intros k; [intros [|x a] u b v c E; discriminate|]. change (seq k (S n)) with ([k] ++ seq (S k) n). rewrite map_app. apply sorted_app; [|apply IH|].
    - intros [|x [|y a]] u [|w b] v c E; discriminate.
    - intros x y [<-|[]] I. apply in_map_iff in I as (i & <- & I). apply in_seq in I. right. split; [rewrite !app_length; reflexivity|].
      clear - I. induction p as [|z p IHp]; cbn [app]; [apply before_sibling; lia|apply before_child; exact IHp].
  Qed.

  (** What is true of the paths visited and queued. *)
  Record going (visited queued : list (list nat)) : Prop := {
    go_valid : forall p, In p (visited ++ queued) -> exists m, subtree root p = Some m;
    go_sorted : sorted (visited ++ queued);
    go_parent : forall p, In p (visited ++ queued) -> p = [] \/ exists q i, p = q ++ [i] /\ In q visited;
    go_closed : forall p i m, In p visited -> subtree root (p ++ [i]) = Some m -> In (p ++ [i]) (visited ++ queued);
    go_root : In [] (visited ++ queued) }.

  Lemma go_start : going [] [[]].
  Proof.
    constructor; cbn [app].
    - intros p [<-|[]]. exists root. reflexivity.
    - intros [|x [|y a]] p [|z b] q c E; discriminate.
    - intros p [<-|[]]. auto.
    - intros p i m [].
    - left. reflexivity.
  Qed.
  Lemma go_step visited p queued m : subtree root p = Some m -> going visited (p :: queued) ->
    going (visited ++ [p]) (queued ++ map (fun i => p ++ [i]) (seq 0 (length (children m)))).
  Proof.
    intros E [V S P C R].
    assert (A : (visited ++ [p]) ++ queued ++ map (fun i => p ++ [i]) (seq 0 (length (children m))) = (visited ++ p :: queued) ++ map (fun i => p ++ [i]) (seq 0 (length (children m))))
      by (rewrite <- !app_assoc; reflexivity).
    constructor; try rewrite A.
    - intros x I. apply in_app_or in I as [I|I]; [apply V, I|]. apply in_map_iff in I as (i & <- & I). apply in_seq in I. rewrite (subtree_child p m i E).
      destruct (nth_error (children m) i) eqn:N; [eauto|]. apply nth_error_None in N. lia.
    - apply sorted_app; [exact S|apply siblings_sorted|]. intros x y I J. apply in_map_iff in J as (i & <- & J).
      destruct (P x I) as [->|(x' & j & -> & I')]; [left; rewrite app_length; cbn; lia|]. apply level_longer.
      apply in_split in I' as (v1 & v2 & ->). apply (S v1 x' v2 p queued). rewrite <- app_assoc. reflexivity.
    - intros x I. apply in_app_or in I as [I|I].
      + destruct (P x I) as [->|(q & i & -> & I')]; [auto|]. right. exists q, i. split; [reflexivity|]. apply in_or_app. auto.
      + apply in_map_iff in I as (i & <- & _). right. exists p, i. split; [reflexivity|]. apply in_or_app. right. left. reflexivity.
    - intros x i n I Ex. apply in_app_or in I as [I|[<-|[]]].
      + apply in_or_app. left. eapply C; eassumption.
      + apply in_or_app. right. apply in_map_iff. exists i. split; [reflexivity|]. apply in_seq. rewrite (subtree_child p m i E) in Ex.
        assert (i < length (children m)) by (apply nth_error_Some; congruence). lia.
    - apply in_or_app. left. exact R.
  Qed.
  Lemma go_loop fuel : forall visited queued (queue l : list node), going visited queued -> map Some queue = map (subtree root) queued -> bfs_loop fuel queue = Some l ->
    exists ps, going (visited ++ ps) [] /\ map Some l = map (subtree root) ps.
  Proof.
    assert (Done : forall visited (l : list node), going visited [] -> Some [] = Some l -> exists ps, going (visited ++ ps) [] /\ map Some l = map (subtree root) ps).
    { intros visited l G H. injection H as <-. exists []. rewrite app_nil_r. split; [exact G|reflexivity]. }
    induction fuel as [|fuel IH]; intros visited queued [|n queue] l G Q H; destruct queued as [|p queued]; cbn [map] in Q; try discriminate; cbn [bfs_loop] in H;
      try (apply Done; [exact G|exact H]).
    injection Q as E Q. destruct (bfs_loop fuel (queue ++ children n)) as [l'|] eqn:B; [|discriminate]. injection H as <-.
    destruct (IH (visited ++ [p]) (queued ++ map (fun i => p ++ [i]) (seq 0 (length (children n)))) (queue ++ children n) l' (go_step visited p queued n (eq_sym E) G)) as (ps & G' & M).
    - rewrite !map_app, Q. f_equal. rewrite map_map. rewrite (map_ext _ (fun i => nth_error (children n) i)) by (intros i; apply subtree_child; symmetry; exact E).
      clear. induction (children n) as [|c l IH]; [reflexivity|]. cbn [length seq map nth_error]. f_equal. rewrite <- seq_shift, map_map. exact IH.
    - exact B.
    - exists (p :: ps). rewrite <- app_assoc in G'. split; [exact G'|]. cbn [map]. rewrite E, M. reflexivity.
  Qed.
  Theorem bfs_levels fuel (l : list node) : bfs_loop fuel [root] = Some l ->
    exists ps, map Some l = map (subtree root) ps /\ (forall p, In p ps <-> exists m, subtree root p = Some m) /\
      (forall a p b q c, ps = a ++ p :: b ++ q :: c -> level_before p q).
  Proof.
    intros H. destruct (go_loop fuel [] [[]] [root] l go_start eq_refl H) as (ps & G & M). exists ps. cbn [app] in G. destruct G as [V S P C R].
    rewrite !app_nil_r in *. split; [exact M|]. split; [|exact S]. intros p. split; [apply V|].
    induction p as [|i p IH] using rev_ind; [intros _; exact R|]. intros (m & E). assert (Ip : In p ps).
    { apply IH. rewrite subtree_app in E. destruct (subtree root p) as [m'|]; [eauto|discriminate]. }
    specialize (C p i m Ip E). exact C.
  Qed.
End Levels.

Lemma bfs_loop_some {pred} fuel : forall queue : list (node token pred), list_sum (map size queue) <= fuel -> exists l, bfs_loop fuel queue = Some l.
Proof.
  induction fuel as [|fuel IH]; intros [|n queue] L; cbn [bfs_loop]; eauto.
  - exfalso. cbn [map] in L. change (size n + list_sum (map size queue) <= 0) in L. destruct n; cbn [size] in L; lia.
  - destruct (IH (queue ++ children n)) as (l & ->); [|eauto]. rewrite map_app, list_sum_app. cbn [map] in L. change (size n + list_sum (map size queue) <= S fuel) in L.
    destruct n as [|id r q rank ch]; cbn [children size map] in *; [change (list_sum []) with 0; lia|]. lia.
Qed.
Lemma bfs_terminates : forall pred (n : node token pred), exists fuel l, bfs_loop fuel [n] = Some l.
Proof. intros. exists (list_sum (map size [n])). apply bfs_loop_some. reflexivity. Qed.
