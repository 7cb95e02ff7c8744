(** Numbers in dot output. *)
From Verif Require Import Base TokenModel EarleyModel TreeModel TreeSpec TreeProofs TreeTheorems MatchProofs RuleModel RuleSpec RuleBfs DotModel.
Open Scope nat_scope.

Lemma position_ok x : forall ids i, position x ids = Some i -> nth_error ids i = Some x.
Proof.
  induction ids as [|y ids IH]; intros i H; [discriminate|]. cbn in H. destruct (Nat.eqb_spec x y) as [->|N]; [injection H as <-; reflexivity|].
  destruct (position x ids) as [j|]; [|discriminate]. injection H as <-. cbn. auto.
Qed.
Lemma position_none x : forall ids, position x ids = None -> ~ In x ids.
Proof.
  induction ids as [|y ids IH]; intros H; [intros []|]. cbn in H. destruct (Nat.eqb_spec x y) as [->|N]; [discriminate|]. destruct (position x ids); [discriminate|]. intros [->|K]; [apply N; reflexivity|apply IH; auto].
Qed.
Lemma position_in x ids : In x ids -> exists i, position x ids = Some i.
Proof. intros H. destruct (position x ids) eqn:E; [eauto|]. apply position_none in E. contradiction. Qed.
Lemma position_app x ids more i : position x ids = Some i -> position x (ids ++ more) = Some i.
Proof.
  revert i. induction ids as [|y ids IH]; intros i H; [discriminate|]. cbn in *. destruct (Nat.eqb x y); [exact H|]. destruct (position x ids) as [j|]; [|discriminate]. injection H as <-. rewrite (IH j eq_refl). reflexivity.
Qed.
Lemma position_last x ids : position x ids = None -> position x (ids ++ [x]) = Some (length ids).
Proof.
  induction ids as [|y ids IH]; cbn; [rewrite Nat.eqb_refl; reflexivity|]. destruct (Nat.eqb x y); [discriminate|]. destruct (position x ids); [discriminate|]. intros _. rewrite (IH eq_refl). reflexivity.
Qed.
(** The number of an object in the final dictionary. *)
Definition number (ids : list nat) (x : nat) : nat := match position x ids with Some i => i | None => 0 end.
Lemma graph_id_ok ids x i ids' : graph_id ids x = (i, ids') -> (exists more, ids' = ids ++ more) /\ position x ids' = Some i.
Proof.
  unfold graph_id. destruct (position x ids) as [j|] eqn:E; intros H; injection H as <- <-.
  - split; [exists []; rewrite app_nil_r; reflexivity|exact E].
  - split; [exists [x]; reflexivity|apply position_last, E].
Qed.
Lemma node_lines_ok : forall nodes ids lines ids', node_lines ids nodes = (lines, ids') ->
  (exists more, ids' = ids ++ more) /\ Forall2 (fun x i => position x ids' = Some i) nodes lines.
Proof.
  induction nodes as [|x nodes IH]; intros ids lines ids' H; cbn in H.
  - injection H as <- <-. split; [exists []; rewrite app_nil_r; reflexivity|constructor].
  - destruct (graph_id ids x) as [i ids1] eqn:G. destruct (node_lines ids1 nodes) as [l ids2] eqn:N. injection H as <- <-. apply graph_id_ok in G as [[m1 ->] G]. apply IH in N as [[m2 ->] N].
    split; [exists (m1 ++ m2); rewrite app_assoc; reflexivity|]. constructor; [apply position_app, G|exact N].
Qed.
Lemma edge_lines_ok : forall edges ids lines ids', edge_lines ids edges = (lines, ids') ->
  (exists more, ids' = ids ++ more) /\ Forall2 (fun e l => position (fst e) ids' = Some (fst l) /\ position (snd e) ids' = Some (snd l)) edges lines.
Proof.
  induction edges as [|[x y] edges IH]; intros ids lines ids' H; cbn in H.
  - injection H as <- <-. split; [exists []; rewrite app_nil_r; reflexivity|constructor].
  - destruct (graph_id ids x) as [i ids1] eqn:G1. destruct (graph_id ids1 y) as [j ids2] eqn:G2. destruct (edge_lines ids2 edges) as [l ids3] eqn:N. injection H as <- <-.
    apply graph_id_ok in G1 as [[m1 ->] G1]. apply graph_id_ok in G2 as [[m2 ->] G2]. apply IH in N as [[m3 ->] N].
    split; [exists (m1 ++ m2 ++ m3); rewrite !app_assoc; reflexivity|]. constructor; [split; apply position_app; [apply position_app, G1|exact G2]|exact N].
Qed.
(** What is drawn. *)
Definition drawn (d : drawing) (x : nat) : Prop := In x (d_nodes d) \/ exists y, In (x, y) (d_edges d) \/ In (y, x) (d_edges d).
Theorem source_numbers d : exists num : nat -> nat,
  (forall x y, drawn d x -> drawn d y -> num x = num y -> x = y) /\
  source d = (map num (d_nodes d), map (fun e => (num (fst e), num (snd e))) (d_edges d)).
Proof.
  unfold source. destruct (node_lines [] (d_nodes d)) as [nl ids] eqn:N. destruct (edge_lines ids (d_edges d)) as [el ids'] eqn:E. apply node_lines_ok in N as [_ N]. apply edge_lines_ok in E as [[more ->] E].
  exists (number (ids ++ more)).
  assert (N' : Forall2 (fun x i => position x (ids ++ more) = Some i) (d_nodes d) nl) by (clear E; induction N as [|x i nodes nl H N IHN]; constructor; [apply position_app, H|exact IHN]).
  assert (K : forall x, drawn d x -> exists i, position x (ids ++ more) = Some i).
  { intros x [H|(y & [H|H])].
    - clear - H N'. induction N' as [|a b la lb Hab F IH]; [destruct H|]. destruct H as [->|H]; eauto.
    - clear - H E. induction E as [|[a a'] b la lb Hab F IH]; [destruct H|]. destruct H as [H|H]; [injection H as -> ->; destruct Hab as [H1 _]; eauto|auto].
    - clear - H E. induction E as [|[a a'] b la lb Hab F IH]; [destruct H|]. destruct H as [H|H]; [injection H as -> ->; destruct Hab as [_ H1]; eauto|auto]. }
  split.
  - intros x y Dx Dy. destruct (K x Dx) as [i Hi]. destruct (K y Dy) as [j Hj]. unfold number. rewrite Hi, Hj. intros ->. apply position_ok in Hi. apply position_ok in Hj. congruence.
  - cbn. f_equal.
    + clear - N'. induction N' as [|a b la lb Hab F IH]; [reflexivity|]. cbn. unfold number at 1. rewrite Hab, IH. reflexivity.
    + clear - E. induction E as [|[a a'] [b b'] la lb [H1 H2] F IH]; [reflexivity|]. cbn. cbn in H1, H2. unfold number at 1 2. rewrite H1, H2, IH. reflexivity.
Qed.

Lemma edge_eq_dec : forall a b : nat * nat, {a = b} + {a <> b}.
Proof. decide equality; apply Nat.eq_dec. Qed.
(** Which objects and edges a drawing of a rule shows. *)
Inductive part_of (graph : list (list nat)) (root : nat) : nat -> Prop :=
| part_root : part_of graph root root
| part_child x y : part_of graph root x -> In y (nth x graph []) -> part_of graph root y.
Lemma part_reach graph root x : part_of graph root x <-> reach (map (fun cs => ORule (pred := unit) (pipe := unit) (bnf := unit) cs) graph) root x.
Proof.
  split; intros H.
  - induction H as [|x y H IH K]; [constructor|]. destruct (nth_error graph x) as [cs|] eqn:E.
    + rewrite (nth_error_nth _ _ _ E) in K. eapply reach_step; [exact IH|rewrite nth_error_map, E; reflexivity|exact K].
    + apply nth_error_None in E. rewrite nth_overflow in K by exact E. destruct K.
  - remember (map _ graph) as h eqn:Eh. induction H as [|p q o c H IH E K]; [constructor|]. subst h. rewrite nth_error_map in E. destruct (nth_error graph q) as [cs|] eqn:G; [|discriminate]. injection E as <-.
    eapply part_child; [apply IH; reflexivity|]. rewrite (nth_error_nth _ _ _ G). exact K.
Qed.
Lemma count_map_pair x y : forall cs, count_occ edge_eq_dec (map (pair x) cs) (x, y) = count_occ Nat.eq_dec cs y.
Proof. induction cs as [|c cs IH]; [reflexivity|]. cbn. destruct (edge_eq_dec (x, c) (x, y)), (Nat.eq_dec c y); try congruence; rewrite IH; reflexivity. Qed.
Lemma count_other x z y : x <> z -> forall cs, count_occ edge_eq_dec (map (pair z) cs) (x, y) = 0.
Proof. intros N cs. induction cs as [|c cs IH]; [reflexivity|]. cbn. destruct (edge_eq_dec (z, c) (x, y)); [congruence|exact IH]. Qed.
Theorem rule_drawing_ok fuel graph root d : rule_drawing fuel graph root = Some d ->
  NoDup (d_nodes d) /\ (forall x, In x (d_nodes d) <-> part_of graph root x) /\
  (forall x y, In (x, y) (d_edges d) -> part_of graph root x) /\
  (forall x y, part_of graph root x -> count_occ edge_eq_dec (d_edges d) (x, y) = count_occ Nat.eq_dec (nth x graph []) y).
Proof.
  unfold rule_drawing. destruct (bfs fuel _ root) as [items|] eqn:B; [|discriminate]. intros H. injection H as <-. destruct (bfs_ok _ _ _ _ B) as (ND & R0 & _).
  assert (R : forall x, In x items <-> part_of graph root x) by (intros x; rewrite part_reach; apply R0). cbn. rewrite map_map, map_id, app_nil_r.
  split; [exact ND|]. split; [exact R|]. split.
  - intros x y H. apply in_flat_map in H as ([z cs] & Hz & H). apply in_map_iff in Hz as (w & E & Hw). injection E as <- <-. cbn in H. apply in_map_iff in H as (c & E & _). injection E as <- <-. apply R, Hw.
  - intros x y P. apply R in P. clear - P ND. induction items as [|z items IH]; [destruct P|]. cbn. rewrite count_occ_app. inversion ND as [|? ? N ND']; subst. destruct P as [->|P].
    + rewrite count_map_pair. assert (count_occ edge_eq_dec (flat_map (fun x0 => map (pair (fst x0)) (snd x0)) (map (fun x0 => (x0, nth x0 graph [])) items)) (x, y) = 0) as ->; [|lia].
      clear - N. induction items as [|z items IH]; [reflexivity|]. cbn. rewrite count_occ_app, count_other by (intros ->; apply N; left; reflexivity). apply IH. intros H. apply N. right. exact H.
    + rewrite count_other by (intros ->; contradiction). cbn. apply IH; assumption.
Qed.
(** And a drawing of a tree. *)
Definition grouped {pred} (g : grammar token pred) (ro : nat) (items : list (node token pred)) : list nat :=
  flat_map (fun n => if match relation_of g n with Some r => Nat.eqb ro r | None => false end then [node_id n] else []) items.
Lemma grouped_app {pred} (g : grammar token pred) ro a b : grouped g ro (a ++ b) = grouped g ro a ++ grouped g ro b.
Proof. apply flat_map_app. Qed.
Lemma add_item_kept ro x its r l : In (r, l) its -> r <> ro -> In (r, l) (add_item ro x its).
Proof.
  induction its as [|[r' l'] its IH]; intros H N; [destruct H|]. cbn. destruct (Nat.eqb_spec ro r') as [->|N'].
  - destruct H as [H|H]; [injection H as -> ->; contradiction|right; exact H].
  - destruct H as [H|H]; [left; exact H|right; apply IH; assumption].
Qed.
Lemma add_item_added ro x its l : NoDup (map fst its) -> In (ro, l) its -> In (ro, l ++ [x]) (add_item ro x its).
Proof.
  induction its as [|[r' l'] its IH]; intros N H; [destruct H|]. cbn. cbn in N. inversion N as [|? ? N1 N2]; subst. destruct (Nat.eqb_spec ro r') as [->|N'].
  - destruct H as [H|H]; [injection H as ->; left; reflexivity|]. exfalso. apply N1. apply in_map_iff. exists (r', l). auto.
  - destruct H as [H|H]; [injection H as -> ->; contradiction|right; apply IH; assumption].
Qed.
Lemma add_item_fresh ro x its : ~ In ro (map fst its) -> In (ro, [x]) (add_item ro x its).
Proof.
  induction its as [|[r' l'] its IH]; intros N; [left; reflexivity|]. cbn in *. destruct (Nat.eqb_spec ro r') as [->|N']; [exfalso; apply N; auto|]. right. apply IH. tauto.
Qed.
Lemma groups_ok {pred} (g : grammar token pred) : forall items groups, fold_left (fun groups n => match relation_of g n with Some ro => add_item ro (node_id n) groups | None => groups end) items [] = groups ->
  NoDup (map fst groups) /\ forall ro l, In (ro, l) groups <-> l = grouped g ro items /\ l <> [].
Proof.
  induction items as [|n items IH] using rev_ind; intros groups H.
  - cbn in H. subst groups. split; [constructor|]. intros ro l. split; [intros []|]. intros [-> N]. apply N. reflexivity.
  - rewrite fold_left_app in H. cbn in H. destruct (IH _ eq_refl) as [ND G]. remember (fold_left _ items []) as old eqn:Eo. clear Eo IH.
    destruct (relation_of g n) as [r|] eqn:R; subst groups.
    + split; [apply (add_item_nodup (fun _ _ _ => true)), ND|]. intros ro l. rewrite grouped_app. unfold grouped at 2. cbn. rewrite R. split.
      * intros K. apply add_item_in in K as [(-> & [[F ->]|(l0 & K & ->)])|[[N K]|(-> & K & N)]]; [| | |contradiction].
        -- rewrite Nat.eqb_refl. cbn. split; [|discriminate]. destruct (grouped g r items) as [|y ys] eqn:Y; [reflexivity|]. exfalso. apply F. apply in_map_iff. exists (r, y :: ys). split; [reflexivity|]. apply G. rewrite Y. split; [reflexivity|discriminate].
        -- rewrite Nat.eqb_refl. cbn. apply G in K as [-> _]. split; [reflexivity|]. intros E. apply app_eq_nil in E as [_ E]. discriminate.
        -- apply G in K as [-> K]. rewrite (proj2 (Nat.eqb_neq _ _) N). cbn. rewrite app_nil_r. auto.
      * intros [-> N]. destruct (Nat.eqb_spec ro r) as [EQ|NE]; [subst ro|]; cbn in *.
        -- destruct (grouped g r items) as [|y ys] eqn:Y.
           ++ cbn. apply add_item_fresh. intros K. apply in_map_iff in K as ([r' l] & E & K). cbn in E. subst r'. apply G in K as [-> K]. apply K, Y.
           ++ rewrite <- Y. apply add_item_added; [exact ND|]. apply G. rewrite Y. split; [reflexivity|discriminate].
        -- rewrite app_nil_r in *. apply add_item_kept; [|exact NE]. apply G. auto.
    + split; [exact ND|]. intros ro l. rewrite grouped_app. unfold grouped at 2. cbn. rewrite R. cbn. rewrite app_nil_r. apply G.
Qed.
Lemma grouped_split {pred} (g : grammar token pred) ro items : forall p y r, grouped g ro items = p ++ y :: r ->
  exists a n b, items = a ++ n :: b /\ relation_of g n = Some ro /\ node_id n = y /\ grouped g ro a = p /\ grouped g ro b = r.
Proof.
  induction items as [|n items IH]; intros p y r H; [destruct p; discriminate|]. cbn in H. destruct (relation_of g n) as [r'|] eqn:R; [destruct (Nat.eqb_spec ro r') as [->|N]|]; cbn in H.
  - destruct p as [|z p]; injection H as H1 H2.
    + exists [], n, items. auto.
    + destruct (IH _ _ _ H2) as (a & m & b & -> & K1 & K2 & K3 & K4). exists (n :: a), m, b. repeat split; auto. cbn. rewrite R, Nat.eqb_refl. cbn. rewrite H1. f_equal. exact K3.
  - destruct (IH _ _ _ H) as (a & m & b & -> & K1 & K2 & K3 & K4). exists (n :: a), m, b. repeat split; auto. cbn. rewrite R, (proj2 (Nat.eqb_neq _ _) N). exact K3.
  - destruct (IH _ _ _ H) as (a & m & b & -> & K1 & K2 & K3 & K4). exists (n :: a), m, b. repeat split; auto. cbn. rewrite R. exact K3.
Qed.
Lemma relation_lines_ok {pred} (g : grammar token pred) items x y : In (x, y) (relation_lines g items) <->
  exists a n b m c ro, items = a ++ n :: b ++ m :: c /\ relation_of g n = Some ro /\ relation_of g m = Some ro /\ node_id n = x /\ node_id m = y.
Proof.
  unfold relation_lines. remember (fold_left _ items []) as groups eqn:E. symmetry in E. apply groups_ok in E as [_ G]. rewrite in_flat_map. split.
  - intros ([ro l] & H & K). apply G in H as [-> _]. cbn in K. apply combinations2_in in K as (p & q & r & K).
    apply grouped_split in K as (a & n & b & -> & R1 & I1 & _ & K). apply grouped_split in K as (b1 & m & c & -> & R2 & I2 & _). exists a, n, b1, m, c, ro. auto.
  - intros (a & n & b & m & c & ro & -> & R1 & R2 & I1 & I2).
    assert (K : grouped g ro (a ++ n :: b ++ m :: c) = grouped g ro a ++ x :: grouped g ro b ++ y :: grouped g ro c).
    { rewrite grouped_app. f_equal. change (n :: b ++ m :: c) with ([n] ++ b ++ [m] ++ c). rewrite !grouped_app. unfold grouped at 1 3. cbn. rewrite R1, R2, Nat.eqb_refl, I1, I2. reflexivity. }
    exists (ro, grouped g ro (a ++ n :: b ++ m :: c)). split.
    + apply G. split; [reflexivity|]. rewrite K. destruct (grouped g ro a); discriminate.
    + cbn [snd]. rewrite K. apply combinations2_in. eauto.
Qed.
Theorem tree_drawing_ok {pred} (g : grammar token pred) fuel (root : node token pred) d : tree_drawing g fuel root = Some d ->
  exists items ps related, map Some items = map (subtree root) ps /\ (forall p, In p ps <-> exists m, subtree root p = Some m) /\
    (forall a p b q c, ps = a ++ p :: b ++ q :: c -> before p q) /\
    d_nodes d = map node_id items /\ d_edges d = flat_map (fun n => map (fun c => (node_id n, node_id c)) (TreeModel.children n)) items ++ related /\
    (forall x y, In (x, y) related <-> exists a r q k ch b r' q' k' ch' c ro, items = a ++ Node x r q k ch :: b ++ Node y r' q' k' ch' :: c /\ g_relation g r = Some ro /\ g_relation g r' = Some ro).
Proof.
  unfold tree_drawing. destruct (dfs_loop fuel [root]) as [items|] eqn:B; [|discriminate]. intros H. injection H as <-. destruct (walk_preorder _ _ _ _ B) as (ps & P1 & P2 & P3).
  exists items, ps, (relation_lines g items). split; [exact P1|]. split; [exact P2|]. split; [exact P3|]. cbn. rewrite map_map. split; [reflexivity|]. split; [|intros x y; rewrite relation_lines_ok; split].
  2: { intros (a & n & b & m & c & ro & -> & R1 & R2 & <- & <-). destruct n as [|? r q k ch]; [discriminate|]. destruct m as [|? r' q' k' ch']; [discriminate|]. exists a, r, q, k, ch, b, r', q', k', ch', c, ro. auto. }
  2: { intros (a & r & q & k & ch & b & r' & q' & k' & ch' & c & ro & -> & R1 & R2). exists a, (Node x r q k ch), b, (Node y r' q' k' ch'), c, ro. auto. }
  f_equal. clear. induction items as [|n l IH]; [reflexivity|]. cbn. rewrite IH. f_equal. rewrite map_map. reflexivity.
Qed.
Theorem rule_drawing_ends graph root : (forall x y, In y (nth x graph []) -> y < length graph) -> root < length graph ->
  exists d, rule_drawing (length graph) graph root = Some d.
Proof.
  intros W R. unfold rule_drawing. destruct (bfs_total (map (fun cs => ORule (pred := unit) (pipe := unit) (bnf := unit) cs) graph) (length graph) root) as (l & ->); [| | |eauto].
  - intros p o c E K. rewrite nth_error_map in E. destruct (nth_error graph p) as [cs|] eqn:G; [|discriminate]. injection E as <-. rewrite map_length. apply (W p). rewrite (nth_error_nth _ _ _ G). exact K.
  - rewrite map_length. exact R.
  - rewrite map_length. lia.
Qed.
Theorem tree_drawing_ends {pred} (g : grammar token pred) (root : node token pred) : exists fuel d, tree_drawing g fuel root = Some d.
Proof. destruct (dfs_terminates _ root) as (fuel & l & E). exists fuel. unfold tree_drawing. rewrite E. eauto. Qed.
