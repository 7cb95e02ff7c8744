(** One candidate tree: relations, narrowing of forms, the Match object. *)
From Verif Require Import Base EarleyModel TokenModel TreeModel ParserModel TreeSpec TreeProofs
  RelationSpec RelationProofs.
Open Scope nat_scope.

Section Match.
  Context {pred : Type}.
  Variable rel : nat -> form -> form -> bool.
  Variable g : grammar token pred.
  Notation node := (node token pred).
  Notation leaf := (@leaf pred).
  Notation main_leaf := (main_leaf g).
  Notation related := (related g).
  Notation prepare_match := (prepare_match rel g).

  (** ** The main leaf *)
  Lemma node_main_eq s id r q rank (ch : list node) :
    node_main (g_main g) s (Node id r q rank ch) =
    match nth_error ch (g_main g q) with Some c => node_main (g_main g) s c | None => Err IndexError end.
  Proof.
    cbn [node_main]. generalize (g_main g q). induction ch as [|c ch IH]; intros [|i]; auto.
    cbn [nth_error]. rewrite <- IH. reflexivity.
  Qed.

  Lemma node_main_leaf s (n : node) :
    (forall l, main_leaf n l -> node_main (g_main g) s n = Ok (leaf_pos l, token_at s l)) /\
    (forall x, node_main (g_main g) s n = Ok x -> exists l, main_leaf n l).
  Proof.
    induction n as [id pos p tk|id r q rank ch IH] using node_ind2.
    - split.
      + intros l H. inversion H; subst. reflexivity.
      + intros x H. eexists. constructor.
    - rewrite Forall_forall in IH. split.
      + intros l H. inversion H; subst. rewrite node_main_eq.
        match goal with E : nth_error ch _ = Some c |- _ => rewrite E; apply nth_error_In in E end.
        apply IH; auto.
      + intros x H. rewrite node_main_eq in H.
        destruct (nth_error ch (g_main g q)) as [c|] eqn:E; [|discriminate].
        destruct (proj2 (IH c (nth_error_In _ _ E)) x H) as (l & HL). exists l.
        econstructor; eauto.
  Qed.

  Lemma main_leaf_in n l : main_leaf n l -> In l (tree_leaves n).
  Proof.
    induction 1 as [|id r q rank ch c l H1 H2 IH]; [left; auto|].
    cbn [tree_leaves]. apply in_flat_map. exists c. split; auto. eapply nth_error_In; eauto.
  Qed.

  Lemma main_leaf_det n l l' : main_leaf n l -> main_leaf n l' -> l = l'.
  Proof.
    intros H. revert l'. induction H as [|id r q rank ch c l H1 H2 IH]; intros l' H'; inversion H'; subst; auto.
    apply IH. congruence.
  Qed.

  Lemma walk_sub (root n : node) : In n (walk root) -> incl (tree_leaves n) (tree_leaves root).
  Proof.
    induction root as [id pos p tk|id r q rank ch IH] using node_ind2.
    - intros [<-|[]]. apply incl_refl.
    - intros [<-|H]; [apply incl_refl|]. rewrite Forall_forall in IH.
      apply in_flat_map in H as (c & H1 & H2). intros l Hl. cbn [tree_leaves].
      apply in_flat_map. exists c. split; auto. eapply IH; eauto.
  Qed.

  Lemma related_in root rl ro l : related root rl -> In (ro, l) rl -> In l (tree_leaves root).
  Proof.
    unfold RelationSpec.related. intros H HI.
    assert (exists n, In (ro, n) (relation_nodes g root) /\ main_leaf n l) as (n & H1 & H2).
    { revert HI. induction H as [|[a n] [b l'] A B [H1 H2] F IH]; intros []; simpl in *.
      - injection H as -> ->. subst. exists n. auto.
      - destruct IH as (m & X & Y); auto. exists m. auto. }
    apply main_leaf_in in H2. unfold relation_nodes in H1. apply in_flat_map in H1 as (m & A & B).
    assert (m = n) as ->.
    { destruct m as [|id r q rank ch]; [destruct B|]. destruct (g_relation g r); [|destruct B].
      destruct B as [B|[]]. congruence. }
    eapply walk_sub; eauto.
  Qed.

  (** ** The graph *)
  Fixpoint graph_of (s : store) (rl : list (nat * leaf)) (gr : res graph) : res graph :=
    match rl with
    | [] => gr
    | (ro, l) :: rl' =>
        graph_of s rl' (let! gr := gr in graph_add ro (leaf_pos l) (token_at s l) gr)
    end.

  Lemma graph_of_err s rl e : graph_of s rl (Err e) = Err e.
  Proof. induction rl as [|[ro l] rl IH]; auto. Qed.

  Lemma visit_err s ns e : fold_left (visit_relation g s) ns (Err e) = Err e.
  Proof. induction ns as [|n ns IH]; auto. Qed.

  Definition rnode (n : node) : list (nat * node) :=
    match n with
    | Leaf _ _ _ _ => []
    | Node _ r _ _ _ => match g_relation g r with Some ro => [(ro, n)] | None => [] end
    end.

  Lemma tree_relations_gen s ns : forall gr rl,
    Forall2 (fun a b => fst a = fst b /\ main_leaf (snd a) (snd b)) (flat_map rnode ns) rl ->
    fold_left (visit_relation g s) ns (Ok gr) = graph_of s rl (Ok gr).
  Proof.
    induction ns as [|n ns IH]; intros gr rl H; cbn [flat_map fold_left] in *.
    - inversion H; subst. reflexivity.
    - apply Forall2_app_inv_l in H as (r1 & r2 & H1 & H2 & ->).
      unfold rnode in H1. destruct n as [id pos p tk|id r q rank ch].
      + inversion H1; subst. cbn [visit_relation bind app]. apply IH. auto.
      + unfold visit_relation at 2. cbn [bind]. destruct (g_relation g r) as [ro|].
        * inversion H1 as [|? [ro' l] ? ? [E M] H1']; subst. inversion H1'; subst. simpl in E, M. subst ro'.
          cbn [app graph_of bind].
          rewrite (proj1 (node_main_leaf s _) l M). cbn [bind].
          destruct (graph_add ro (leaf_pos l) (token_at s l) gr) as [gr'|e].
          -- apply IH. auto.
          -- rewrite visit_err, graph_of_err. reflexivity.
        * inversion H1; subst. apply IH. auto.
  Qed.

  Lemma tree_relations_related s root rl : related root rl ->
    tree_relations g s root = graph_of s rl (Ok empty_graph).
  Proof. apply tree_relations_gen. Qed.

  Lemma related_exists_gen s ns : forall gr gr',
    fold_left (visit_relation g s) ns (Ok gr) = Ok gr' ->
    exists rl, Forall2 (fun a b => fst a = fst b /\ main_leaf (snd a) (snd b)) (flat_map rnode ns) rl.
  Proof.
    induction ns as [|n ns IH]; intros gr gr' H; cbn [flat_map fold_left] in *.
    - exists []. constructor.
    - destruct (visit_relation g s (Ok gr) n) as [gr1|e] eqn:E; [|rewrite visit_err in H; discriminate].
      destruct (IH _ _ H) as (rl & F).
      unfold visit_relation in E. cbn [bind] in E. unfold rnode at 1.
      destruct n as [|id r q rank ch]; [exists rl; auto|].
      destruct (g_relation g r) as [ro|]; [|exists rl; auto].
      destruct (node_main (g_main g) s (Node id r q rank ch)) as [x|] eqn:M; [|discriminate].
      destruct (proj2 (node_main_leaf s _) x M) as (l & HL). exists ((ro, l) :: rl).
      constructor; auto.
  Qed.

  Lemma related_exists s root gr : tree_relations g s root = Ok gr -> exists rl, related root rl.
  Proof. apply related_exists_gen. Qed.

  Lemma combinations2_in l a b : In (a, b) (combinations2 l) <-> exists p q r, l = p ++ a :: q ++ b :: r.
  Proof.
    induction l as [|x l IH]; cbn [combinations2].
    - split; [intros []|]. intros ([|] & q & r & E); discriminate.
    - rewrite in_app_iff, in_map_iff, IH. split.
      + intros [(y & E & H)|(p & q & r & ->)].
        * injection E as <- <-. apply in_split in H as (q & r & ->). exists [], q, r. reflexivity.
        * exists (x :: p), q, r. reflexivity.
      + intros ([|y p] & q & r & E); injection E as -> E.
        * left. exists b. split; auto. rewrite E. apply in_or_app. right. left. auto.
        * right. exists p, q, r. auto.
  Qed.

  (** The items of a relation are the positions listed under it, in order. *)
  Definition items_of (ro : nat) (rl : list (nat * leaf)) : list nat :=
    flat_map (fun e => if Nat.eqb ro (fst e) then [leaf_pos (snd e)] else []) rl.
  Definition items_ok (rl : list (nat * leaf)) (its : list (nat * list nat)) : Prop :=
    NoDup (map fst its) /\ forall ro items, In (ro, items) its -> items = items_of ro rl.

  Lemma items_of_app ro rl e : items_of ro (rl ++ [e]) =
    items_of ro rl ++ (if Nat.eqb ro (fst e) then [leaf_pos (snd e)] else []).
  Proof. unfold items_of. rewrite flat_map_app. cbn [flat_map]. rewrite app_nil_r. auto. Qed.

  Lemma add_item_in ro x its : forall r items, In (r, items) (add_item ro x its) ->
    (r = ro /\ ((~ In ro (map fst its) /\ items = [x]) \/ exists i0, In (ro, i0) its /\ items = i0 ++ [x])) \/
    (r <> ro /\ In (r, items) its) \/ (r = ro /\ In (r, items) its /\ ~ NoDup (map fst its)).
  Proof.
    induction its as [|[r' i'] its IH]; intros r items H; cbn [add_item] in H.
    - destruct H as [H|[]]. injection H as -> ->. left. split; auto.
    - destruct (Nat.eqb ro r') eqn:E.
      + apply Nat.eqb_eq in E. subst r'. destruct H as [H|H].
        * injection H as <- <-. left. split; auto. right. exists i'. split; auto. left. auto.
        * destruct (Nat.eq_dec r ro) as [->|NE].
          -- right. right. split; auto. split; [right; auto|]. cbn [map fst]. intros ND. inversion ND; subst.
             match goal with N : ~ In _ _ |- _ => apply N end. apply in_map_iff. exists (ro, items). auto.
          -- right. left. split; auto. right. auto.
      + apply Nat.eqb_neq in E. destruct H as [H|H].
        * injection H as <- <-. right. left. split; auto. left. auto.
        * apply IH in H as [(-> & [[N ->]|(i0 & H & ->)])|[[NE H]|(-> & H & ND)]].
          -- left. split; auto. left. split; auto. simpl. intros [|]; auto.
          -- left. split; auto. right. exists i0. split; auto. right. auto.
          -- right. left. split; auto. right. auto.
          -- right. right. split; auto. split; [right; auto|]. intros X. inversion X; auto.
  Qed.

  Lemma add_item_keys ro x its : forall r, In r (map fst (add_item ro x its)) <-> r = ro \/ In r (map fst its).
  Proof.
    induction its as [|[r' i'] its IH]; intros r; cbn [add_item].
    - simpl. split; intros [|[]]; auto.
    - destruct (Nat.eqb ro r') eqn:E; cbn [map fst In].
      + apply Nat.eqb_eq in E. subst. split; intros; intuition.
      + rewrite IH. intuition.
  Qed.

  Lemma add_item_nodup ro x its : NoDup (map fst its) -> NoDup (map fst (add_item ro x its)).
  Proof.
    induction its as [|[r' i'] its IH]; intros H; cbn [add_item].
    - repeat constructor; auto.
    - inversion H; subst. destruct (Nat.eqb ro r') eqn:E; cbn [map fst]; constructor; auto.
      rewrite add_item_keys. intros [->|]; auto. rewrite Nat.eqb_refl in E. discriminate.
  Qed.

  Lemma items_ok_add rl its ro l : items_ok rl its -> (forall r, In r (map fst rl) -> In r (map fst its)) ->
    items_ok (rl ++ [(ro, l)]) (add_item ro (leaf_pos l) its).
  Proof.
    intros [ND H] CL. split; [apply add_item_nodup; auto|]. intros r items HI.
    rewrite items_of_app. cbn [fst snd].
    apply add_item_in in HI as [(-> & [[N ->]|(i0 & HI & ->)])|[[NE HI]|(-> & HI & X)]].
    - rewrite Nat.eqb_refl. assert (E : items_of ro rl = []); [|rewrite E; auto].
      assert (N' : ~ In ro (map fst rl)) by auto.
      clear - N'. induction rl as [|[r x] rl IH]; auto. simpl in *.
      destruct (Nat.eqb ro r) eqn:E; [apply Nat.eqb_eq in E; subst; tauto|]. apply IH. tauto.
    - rewrite Nat.eqb_refl. rewrite (H _ _ HI). reflexivity.
    - rewrite (proj2 (Nat.eqb_neq r ro)) by auto. rewrite app_nil_r. auto.
    - contradiction.
  Qed.

  Lemma items_of_split ro : forall rl p (a b : nat) q r, items_of ro rl = p ++ a :: q ++ b :: r ->
    exists la lb, joined rl ro la lb /\ leaf_pos la = a /\ leaf_pos lb = b.
  Proof.
    assert (ONE : forall rl b q r, items_of ro rl = q ++ b :: r ->
      exists l s t, rl = s ++ (ro, l) :: t /\ leaf_pos l = b).
    { induction rl as [|[r0 l] rl IH]; intros b q r E; [destruct q; discriminate|].
      cbn [items_of flat_map fst snd] in E. destruct (Nat.eqb ro r0) eqn:E0; cbn [app] in E.
      - apply Nat.eqb_eq in E0. subst r0. destruct q as [|y q]; injection E as E1 E2.
        + exists l, [], rl. auto.
        + destruct (IH _ _ _ E2) as (l' & s & t & -> & X). exists l', ((ro, l) :: s), t. auto.
      - destruct (IH _ _ _ E) as (l' & s & t & -> & X). exists l', ((r0, l) :: s), t. auto. }
    induction rl as [|[r0 l] rl IH]; intros p a b q r E; [destruct p; discriminate|].
    cbn [items_of flat_map fst snd] in E. destruct (Nat.eqb ro r0) eqn:E0; cbn [app] in E.
    - apply Nat.eqb_eq in E0. subst r0. destruct p as [|y p]; injection E as E1 E2.
      + destruct (ONE _ _ _ _ E2) as (l' & s & t & -> & X). exists l, l'. split; auto.
        exists [], s, t. reflexivity.
      + destruct (IH _ _ _ _ _ E2) as (la & lb & (s & t & u & ->) & X). exists la, lb. split; auto.
        exists ((ro, l) :: s), t, u. reflexivity.
    - destruct (IH _ _ _ _ _ E) as (la & lb & (s & t & u & ->) & X). exists la, lb. split; auto.
      exists ((r0, l) :: s), t, u. reflexivity.
  Qed.

  Lemma items_edges rl gr : items_ok rl (relation_items gr) ->
    forall ro a b, In (ro, a, b) (edges gr) -> exists la lb,
       joined rl ro la lb /\ leaf_pos la = a /\ leaf_pos lb = b.
  Proof.
    intros [_ H] ro a b HE. unfold edges in HE. apply in_flat_map in HE as ([r items] & H1 & H2).
    apply in_map_iff in H2 as ([x y] & E & H2). injection E as -> -> ->.
    apply combinations2_in in H2 as (p & q & r & E). rewrite (H _ _ H1) in E.
    eapply items_of_split; eauto.
  Qed.

  Lemma dict_set_keys {B} k (v : B) l x : In x (map fst (dict_set k v l)) <-> x = k \/ In x (map fst l).
  Proof.
    induction l as [|[k' v'] l IH]; cbn [dict_set].
    - simpl. split; intros [|[]]; auto.
    - destruct (Nat.eqb k k') eqn:E; cbn [map fst In].
      + apply Nat.eqb_eq in E. subst. split; intros; intuition.
      + rewrite IH. intuition.
  Qed.
  Lemma dict_set_in {B} k (v : B) l x y : In (x, y) (dict_set k v l) -> (x = k /\ y = v) \/ In (x, y) l.
  Proof.
    induction l as [|[k' v'] l IH]; cbn [dict_set].
    - intros [E|[]]. injection E as -> ->. auto.
    - destruct (Nat.eqb k k') eqn:E.
      + apply Nat.eqb_eq in E. subst. intros [H|H]; [injection H as -> ->; auto|right; right; auto].
      + intros [H|H]; [right; left; auto|]. apply IH in H as [H|H]; auto. right. right. auto.
  Qed.
  Lemma assoc_app {B} k (l m : list (nat * B)) :
    assoc k (l ++ m) = match assoc k l with Some v => Some v | None => assoc k m end.
  Proof. induction l as [|[k' v] l IH]; simpl; auto. destruct (Nat.eqb k k'); auto. Qed.

  (** Invariant of the graph of a list of related leaves. *)
  Record graph_inv (s : store) (rl : list (nat * leaf)) (gr : graph) : Prop := {
    gi_items : items_ok rl (relation_items gr);
    gi_keys : forall r, In r (map fst rl) -> In r (map fst (relation_items gr));
    gi_tokens : forall pos t, In (pos, t) (graph_tokens gr) ->
       exists ro l, In (ro, l) rl /\ leaf_pos l = pos /\ t = token_at s l;
    gi_all : forall ro l, In (ro, l) rl -> In (leaf_pos l) (map fst (graph_tokens gr));
    gi_forms : forall pos fs, assoc pos (token_forms gr) = Some fs ->
       exists ro l, In (ro, l) rl /\ leaf_pos l = pos /\ t_forms (token_at s l) = Some fs;
    gi_some : forall ro l, In (ro, l) rl ->
       t_forms (token_at s l) <> None /\
       (assoc (leaf_pos l) (token_forms gr) = None -> t_forms (token_at s l) = Some []) }.

  (** Leaves are determined by their position. *)
  Definition pos_inj (ls : list leaf) : Prop :=
    forall a b, In a ls -> In b ls -> leaf_pos a = leaf_pos b -> a = b.

  Lemma graph_of_inv s all rest : forall rl gr gr', pos_inj (map snd all) -> incl (rl ++ rest) all ->
    graph_inv s rl gr -> graph_of s rest (Ok gr) = Ok gr' -> graph_inv s (rl ++ rest) gr'.
  Proof.
    induction rest as [|[ro l] rest IH]; intros rl gr gr' PI INC V H.
    - cbn [graph_of] in H. injection H as <-. rewrite app_nil_r. auto.
    - cbn [graph_of bind] in H.
      replace (rl ++ (ro, l) :: rest) with ((rl ++ [(ro, l)]) ++ rest) in * by (rewrite <- app_assoc; reflexivity).
      destruct (graph_add ro (leaf_pos l) (token_at s l) gr) as [gr1|] eqn:E; [|rewrite graph_of_err in H; discriminate].
      eapply IH; eauto. clear IH H.
      assert (INC' : incl (rl ++ [(ro, l)]) all).
      { intros x Hx. apply INC. apply in_or_app. auto. }
      assert (EQ : forall ro' l', In (ro', l') rl -> leaf_pos l' = leaf_pos l -> l' = l).
      { intros ro' l' H1 H2. apply PI; auto.
        - apply in_map_iff. exists (ro', l'). split; auto. apply INC'. apply in_or_app. auto.
        - apply in_map_iff. exists (ro, l). split; auto. apply INC'. apply in_or_app. right. left. auto. }
      destruct V as [V1 V2 V3 V4 V5 V6].
      assert (A1 : forall k, In k (map fst (rl ++ [(ro, l)])) <-> k = ro \/ In k (map fst rl)).
      { intros k. rewrite map_app, in_app_iff. simpl. intuition. }
      unfold graph_add in E. destruct (assoc (leaf_pos l) (token_forms gr)) as [fs0|] eqn:EF.
      + injection E as <-. split; cbn [relation_items graph_tokens token_forms].
        * apply items_ok_add; auto.
        * intros r Hr. apply A1 in Hr. apply add_item_keys. intuition.
        * intros pos t Ht. apply dict_set_in in Ht as [[-> ->]|Ht].
          -- exists ro, l. split; auto. apply in_or_app. right. left. auto.
          -- destruct (V3 _ _ Ht) as (ro' & l' & X & Y). exists ro', l'. split; auto. apply in_or_app. auto.
        * intros ro' l' Hl. apply dict_set_keys. apply in_app_or in Hl as [Hl|[Hl|[]]].
          -- right. eapply V4; eauto.
          -- injection Hl as -> ->. auto.
        * intros pos fs Hf. destruct (V5 _ _ Hf) as (ro' & l' & X & Y). exists ro', l'. split; auto.
          apply in_or_app. auto.
        * intros ro' l' Hl. apply in_app_or in Hl as [Hl|[Hl|[]]]; eauto.
          injection Hl as -> ->. destruct (V5 _ _ EF) as (ro0 & l0 & X & Y & Z).
          rewrite (EQ _ _ X Y) in Z. rewrite Z. split; congruence.
      + unfold get_forms in E. destruct (t_forms (token_at s l)) as [fs|] eqn:TF; [|discriminate].
        cbn [bind] in E. injection E as <-. split; cbn [relation_items graph_tokens token_forms].
        * apply items_ok_add; auto.
        * intros r Hr. apply A1 in Hr. apply add_item_keys. intuition.
        * intros pos t Ht. apply dict_set_in in Ht as [[-> ->]|Ht].
          -- exists ro, l. split; auto. apply in_or_app. right. left. auto.
          -- destruct (V3 _ _ Ht) as (ro' & l' & X & Y). exists ro', l'. split; auto. apply in_or_app. auto.
        * intros ro' l' Hl. apply dict_set_keys. apply in_app_or in Hl as [Hl|[Hl|[]]].
          -- right. eapply V4; eauto.
          -- injection Hl as -> ->. auto.
        * intros pos fs' Hf.
          assert (Hf' : assoc pos (token_forms gr) = Some fs' \/ (pos = leaf_pos l /\ fs' = fs)).
          { destruct fs; auto. rewrite assoc_app in Hf. destruct (assoc pos (token_forms gr)); auto.
            cbn [assoc] in Hf. destruct (Nat.eqb pos (leaf_pos l)) eqn:X; [|discriminate].
            apply Nat.eqb_eq in X. injection Hf as <-. auto. }
          destruct Hf' as [Hf'|[-> ->]].
          -- destruct (V5 _ _ Hf') as (ro' & l' & X & Y). exists ro', l'. split; auto. apply in_or_app. auto.
          -- exists ro, l. split; auto. apply in_or_app. right. left. auto.
        * intros ro' l' Hl. apply in_app_or in Hl as [Hl|[Hl|[]]].
          -- destruct (V6 _ _ Hl) as [X Y]. split; auto. intros Z. apply Y.
             destruct fs; auto. rewrite assoc_app in Z. destruct (assoc (leaf_pos l') (token_forms gr)); auto; discriminate.
          -- injection Hl as -> ->. rewrite TF. split; [congruence|].
             destruct fs; auto. intros Z. rewrite assoc_app, EF in Z. cbn [assoc] in Z.
             rewrite Nat.eqb_refl in Z. discriminate.
  Qed.

  Lemma graph_inv_empty s : graph_inv s [] empty_graph.
  Proof.
    split; try (intros; contradiction).
    - split; [constructor|intros ? ? []].
    - intros pos fs H. discriminate.
  Qed.

  Lemma tree_relations_inv s root rl gr : related root rl -> pos_inj (map snd rl) ->
    tree_relations g s root = Ok gr -> graph_inv s rl gr.
  Proof.
    intros R PI H. rewrite (tree_relations_related s root rl R) in H.
    apply (graph_of_inv s rl rl [] empty_graph gr PI); auto. intros x Hx; auto. apply graph_inv_empty.
  Qed.

  (** When every related token has forms, the graph can be built. *)
  Lemma graph_of_ok s rl : (forall ro l, In (ro, l) rl -> t_forms (token_at s l) <> None) ->
    forall gr, exists gr', graph_of s rl (Ok gr) = Ok gr'.
  Proof.
    induction rl as [|[ro l] rl IH]; intros H gr; [exists gr; auto|].
    cbn [graph_of bind]. unfold graph_add.
    assert (N : t_forms (token_at s l) <> None) by (eapply H; left; eauto).
    assert (H' : forall ro l, In (ro, l) rl -> t_forms (token_at s l) <> None)
      by (intros; eapply H; right; eauto).
    destruct (assoc (leaf_pos l) (token_forms gr)); [apply IH; auto|].
    unfold get_forms. destruct (t_forms (token_at s l)); [|congruence]. cbn [bind]. apply IH; auto.
  Qed.

  (** ** Applying the relations *)
  Lemma graph_constrain_ok s rl gr gr' pos t l :
    graph_inv s rl gr -> graph_tokens gr' = graph_tokens gr ->
    t = token_at s l -> pos = leaf_pos l ->
    (forall ro l', In (ro, l') rl -> leaf_pos l' = leaf_pos l -> l' = l) ->
    exists t', graph_constrain gr' pos t = Ok t' /\
      (assoc pos (graph_tokens gr) = None -> t' = t) /\
      (assoc pos (graph_tokens gr) <> None ->
       t' = mkToken (t_value t) (t_start t) (t_stop t) (t_type t) (t_tag t)
              (Some (get_token_forms pos (token_forms gr'))) /\ t_forms t <> None).
  Proof.
    intros V ET -> -> PI. unfold graph_constrain. rewrite ET.
    destruct (assoc (leaf_pos l) (graph_tokens gr)) as [t0|] eqn:E.
    - assert (IN : In (leaf_pos l, t0) (graph_tokens gr)).
      { clear - E. induction (graph_tokens gr) as [|[k v] m IH]; [discriminate|]. simpl in E.
        destruct (Nat.eqb (leaf_pos l) k) eqn:X; [apply Nat.eqb_eq in X; injection E as ->; subst; left; auto|].
        right. auto. }
      destruct (gi_tokens _ _ _ V _ _ IN) as (ro & l' & H1 & H2 & ->).
      assert (l' = l) as -> by eauto. destruct (gi_some _ _ _ V _ _ H1) as [N _].
      unfold constrained. destruct (t_forms (token_at s l)) as [fs|] eqn:F; [|congruence].
      eexists. split; [reflexivity|]. split; [discriminate|]. intros _. split; [reflexivity|congruence].
    - exists (token_at s l). split; auto. split; auto. intros X. congruence.
  Qed.

  Definition visit_leaf (gr : graph) (s : res store) (l : leaf) : res store :=
    let! s := s in
    let! t := graph_constrain gr (leaf_pos l) (token_at s l) in
    Ok ((leaf_id l, t) :: s).

  Lemma apply_leaves gr ns : forall s,
    fold_left (visit_apply gr) ns s = fold_left (visit_leaf gr) (flat_map as_leaf ns) s.
  Proof.
    induction ns as [|n ns IH]; intros s; [reflexivity|]. cbn [fold_left flat_map].
    rewrite fold_left_app, IH. f_equal. destruct n as [id pos p tk|]; cbn [as_leaf fold_left].
    - unfold visit_apply, visit_leaf. destruct s; reflexivity.
    - destruct s; reflexivity.
  Qed.

  Lemma apply_gen gr s ls : NoDup (map leaf_id ls) ->
    (forall l, In l ls -> exists t, graph_constrain gr (leaf_pos l) (token_at s l) = Ok t) ->
    forall s0, (forall l, In l ls -> token_at s0 l = token_at s l) ->
    exists s1, fold_left (visit_leaf gr) ls (Ok s0) = Ok s1 /\
      (forall l, In l ls -> graph_constrain gr (leaf_pos l) (token_at s l) = Ok (token_at s1 l)) /\
      (forall id, ~ In id (map leaf_id ls) -> assoc id s1 = assoc id s0).
  Proof.
    induction ls as [|l ls IH]; intros ND H s0 E.
    - exists s0. split; [reflexivity|]. split; [intros ? []|auto].
    - inversion ND as [|? ? N1 N2]; subst. cbn [fold_left]. unfold visit_leaf at 2. cbn [bind].
      rewrite (E l) by (left; auto). destruct (H l) as (t & Ht); [left; auto|]. rewrite Ht. cbn [bind].
      assert (NEQ : forall l', In l' ls -> leaf_id l' <> leaf_id l).
      { intros l' Hl X. apply N1. apply in_map_iff. exists l'. auto. }
      destruct (IH N2) with (s0 := (leaf_id l, t) :: s0) as (s1 & A & B & C).
      + intros l' Hl. apply H. right. auto.
      + intros l' Hl. rewrite <- (E l') by (right; auto). pose proof (NEQ _ Hl).
        destruct l' as [[[id pos] p] tk]. cbn [token_at leaf_id] in *. unfold leaf_token. cbn [assoc].
        rewrite (proj2 (Nat.eqb_neq _ _)); auto.
      + exists s1. split; auto. split.
        * intros l' [<-|Hl]; auto. rewrite Ht. f_equal.
          destruct l as [[[id pos] p] tk]. cbn [token_at leaf_id] in *. unfold leaf_token.
          rewrite C by auto. cbn [assoc]. rewrite Nat.eqb_refl. reflexivity.
        * intros id Hid. rewrite C by (intros X; apply Hid; right; auto). cbn [assoc].
          rewrite (proj2 (Nat.eqb_neq _ _)); auto. intros ->. apply Hid. left. auto.
  Qed.

  Lemma apply_relations_spec gr s (root : node) : NoDup (map leaf_id (tree_leaves root)) ->
    (forall l, In l (tree_leaves root) -> exists t, graph_constrain gr (leaf_pos l) (token_at s l) = Ok t) ->
    exists s1, apply_relations gr s root = Ok s1 /\
      (forall l, In l (tree_leaves root) ->
         graph_constrain gr (leaf_pos l) (token_at s l) = Ok (token_at s1 l)) /\
      (forall id, ~ In id (map leaf_id (tree_leaves root)) -> assoc id s1 = assoc id s).
  Proof.
    intros H1 H2. unfold apply_relations. rewrite apply_leaves, walk_leaves.
    apply apply_gen; auto.
  Qed.

  Lemma get_tokens_span_some ts : ts <> [] -> exists sp, get_tokens_span ts = Ok sp.
  Proof. destruct ts; [congruence|]. intros _. eexists. reflexivity. Qed.

  Lemma NoDup_pos_inj (ls : list leaf) : NoDup (map leaf_pos ls) -> pos_inj ls.
  Proof.
    induction ls as [|x ls IH]; intros H a b Ha Hb E; [destruct Ha|].
    inversion H as [|? ? N1 N2]; subst. destruct Ha as [->|Ha], Hb as [->|Hb]; auto.
    - exfalso. apply N1. apply in_map_iff. exists b. auto.
    - exfalso. apply N1. apply in_map_iff. exists a. auto.
    - apply IH; auto.
  Qed.

  (** ** The whole of prepare_match *)
  (** The forms a related token is left with. *)
  Definition final_forms (gr : graph) (pos : nat) : list form :=
    get_token_forms pos (fold_left (validate_edge rel) (edges gr) (token_forms gr)).

  Section PM.
    Variable s : store.
    Variables root root' : node.
    Variable range : nat * nat.
    Hypothesis PROP : propagate root = Some root'.
    Hypothesis IDS : NoDup (map leaf_id (tree_leaves root')).
    Hypothesis POS : NoDup (map leaf_pos (tree_leaves root')).
    Variable rl : list (nat * leaf).
    Hypothesis RL : related root' rl.

    Lemma rl_pos_inj : pos_inj (map snd rl).
    Proof.
      intros a b Ha Hb E. apply in_map_iff in Ha as ([ra a'] & <- & Ha). apply in_map_iff in Hb as ([rb b'] & <- & Hb).
      cbn [snd] in *. apply (NoDup_pos_inj _ POS); auto; eapply related_in; eauto.
    Qed.

    Lemma rl_pos_eq l ro l' : In l (tree_leaves root') -> In (ro, l') rl -> leaf_pos l' = leaf_pos l -> l' = l.
    Proof. intros. apply (NoDup_pos_inj _ POS); auto. eapply related_in; eauto. Qed.

    Section Graph.
      Variable gr : graph.
      Hypothesis GR : tree_relations g s root' = Ok gr.
      Let V : graph_inv s rl gr := tree_relations_inv s root' rl gr RL rl_pos_inj GR.

      Lemma initial_forms ro l : In (ro, l) rl ->
        t_forms (token_at s l) = Some (get_token_forms (leaf_pos l) (token_forms gr)).
      Proof.
        intros H. unfold get_token_forms. destruct (assoc (leaf_pos l) (token_forms gr)) as [fs|] eqn:E.
        - destruct (gi_forms _ _ _ V _ _ E) as (ro' & l' & H1 & H2 & H3).
          assert (l' = l) as ->; auto. eapply rl_pos_eq; eauto. eapply related_in; eauto.
        - apply (gi_some _ _ _ V _ _ H). auto.
      Qed.

      Lemma in_graph l : In l (tree_leaves root') ->
        (assoc (leaf_pos l) (graph_tokens gr) <> None <-> exists ro, In (ro, l) rl).
      Proof.
        intros HL. split.
        - intros H. destruct (assoc (leaf_pos l) (graph_tokens gr)) as [t|] eqn:E; [|congruence].
          assert (IN : In (leaf_pos l, t) (graph_tokens gr)).
          { clear - E. induction (graph_tokens gr) as [|[k v] m IH]; [discriminate|]. simpl in E.
            destruct (Nat.eqb (leaf_pos l) k) eqn:X; [apply Nat.eqb_eq in X; injection E as ->; subst; left; auto|].
            right. auto. }
          destruct (gi_tokens _ _ _ V _ _ IN) as (ro & l' & H1 & H2 & _).
          exists ro. assert (l' = l) as <-; auto. eapply rl_pos_eq; eauto.
        - intros (ro & H). apply (gi_all _ _ _ V) in H. intros E. clear - H E.
          induction (graph_tokens gr) as [|[k v] m IH]; [destruct H|]. cbn [assoc] in E.
          destruct (Nat.eqb (leaf_pos l) k) eqn:X; [discriminate|]. apply Nat.eqb_neq in X.
          destruct H as [H|H]; auto.
      Qed.

      Lemma valid_iff : snd (validate rel gr) = true <->
        forall ro l, In (ro, l) rl -> final_forms gr (leaf_pos l) <> [].
      Proof.
        unfold validate. cbn [snd]. rewrite forallb_forall. split.
        - intros H ro l HI. apply (gi_all _ _ _ V) in HI. apply in_map_iff in HI as ([pos t] & E & HI).
          specialize (H _ HI). cbn [fst] in E. subst pos. unfold final_forms. cbn in H.
          destruct (get_token_forms _ _); congruence.
        - intros H [pos t] HI. destruct (gi_tokens _ _ _ V _ _ HI) as (ro & l & H1 & <- & _).
          specialize (H _ _ H1). unfold final_forms in H. destruct (get_token_forms _ _); congruence.
      Qed.

      (** What the leaves hold afterwards. *)
      Definition narrowed (l : leaf) : token :=
        let t := token_at s l in
        if existsb (fun e => Nat.eqb (leaf_pos (snd e)) (leaf_pos l)) rl
        then mkToken (t_value t) (t_start t) (t_stop t) (t_type t) (t_tag t) (Some (final_forms gr (leaf_pos l)))
        else t.

      Lemma apply_narrowed : exists s1,
        apply_relations (fst (validate rel gr)) s root' = Ok s1 /\
        (forall l, In l (tree_leaves root') -> token_at s1 l = narrowed l) /\
        (forall id, ~ In id (map leaf_id (tree_leaves root')) -> assoc id s1 = assoc id s).
      Proof.
        assert (GC : forall l, In l (tree_leaves root') ->
          graph_constrain (fst (validate rel gr)) (leaf_pos l) (token_at s l) = Ok (narrowed l)).
        { intros l HL.
          destruct (graph_constrain_ok s rl gr (fst (validate rel gr)) (leaf_pos l) (token_at s l) l V eq_refl eq_refl eq_refl)
            as (t' & A & B & C).
          { intros. eapply rl_pos_eq; eauto. }
          rewrite A. f_equal. unfold narrowed.
          destruct (existsb (fun e => Nat.eqb (leaf_pos (snd e)) (leaf_pos l)) rl) eqn:E.
          - apply existsb_exists in E as ([ro l'] & H1 & H2). apply Nat.eqb_eq in H2. cbn [snd] in H2.
            assert (l' = l) as -> by (eapply rl_pos_eq; eauto).
            destruct C as [C _]; auto. apply in_graph; auto. exists ro. auto.
          - apply B. destruct (assoc (leaf_pos l) (graph_tokens gr)) eqn:F; auto. exfalso.
            assert (X : assoc (leaf_pos l) (graph_tokens gr) <> None) by congruence.
            apply in_graph in X as (ro & X); auto.
            assert (Y : existsb (fun e => Nat.eqb (leaf_pos (snd e)) (leaf_pos l)) rl = true).
            { apply existsb_exists. exists (ro, l). split; auto. apply Nat.eqb_refl. }
            congruence. }
        destruct (apply_relations_spec (fst (validate rel gr)) s root' IDS) as (s1 & A & B & C).
        { intros l HL. exists (narrowed l). auto. }
        exists s1. split; auto. split; auto. intros l HL. specialize (B _ HL). rewrite GC in B by auto. congruence.
      Qed.

      Lemma prepare_match_valid : snd (validate rel gr) = true ->
        exists s1 m, prepare_match (root, range) s = Ok (s1, Some m) /\
          m_root m = root' /\ m_range m = range /\ m_tokens m = map narrowed (tree_leaves root') /\
          get_tokens_span (m_tokens m) = Ok (m_span m) /\
          (forall l, In l (tree_leaves root') -> token_at s1 l = narrowed l) /\
          (forall id, ~ In id (map leaf_id (tree_leaves root')) -> assoc id s1 = assoc id s).
      Proof.
        intros HV. destruct apply_narrowed as (s1 & A & B & C).
        unfold ParserModel.prepare_match. rewrite PROP, GR. cbn [bind].
        destruct (validate rel gr) as [gr' v] eqn:E. cbn [fst snd] in *. subst v. rewrite A. cbn [bind].
        rewrite tree_tokens_leaves.
        assert (EM : map (token_at s1) (tree_leaves root') = map narrowed (tree_leaves root')).
        { apply map_ext_in. auto. }
        rewrite EM. destruct (get_tokens_span_some (map narrowed (tree_leaves root'))) as (sp & HS).
        { intros X. apply map_eq_nil in X. revert X. apply no_empty_leaves. eapply propagate_no_empty; eauto. }
        rewrite HS. cbn [bind]. eexists. eexists. split; [reflexivity|]. cbn. auto 10.
      Qed.

      Lemma prepare_match_invalid : snd (validate rel gr) = false ->
        prepare_match (root, range) s = Ok (s, None).
      Proof.
        intros HV. unfold ParserModel.prepare_match. rewrite PROP, GR. cbn [bind].
        destruct (validate rel gr) as [gr' v] eqn:E. cbn [snd] in HV. subst v. reflexivity.
      Qed.

      (** A choice of forms satisfying every relation survives. *)
      Lemma choice_survives (w : nat -> form) : respects_forms rel ->
        (forall ro l, In (ro, l) rl -> has_form (token_at s l) (w (leaf_pos l))) ->
        (forall ro a b, joined rl ro a b -> rel ro (w (leaf_pos a)) (w (leaf_pos b)) = true) ->
        forall ro l, In (ro, l) rl -> form_in (w (leaf_pos l)) (final_forms gr (leaf_pos l)) = true.
      Proof.
        intros RS H1 H2 ro l HI.
        assert (INI : forall ro l, In (ro, l) rl ->
          form_in (w (leaf_pos l)) (get_token_forms (leaf_pos l) (token_forms gr)) = true).
        { intros ro' l' H. destruct (H1 _ _ H) as (fs & f & A & B & C).
          rewrite (initial_forms _ _ H) in A. injection A as ->. apply form_in_iff. eauto. }
        apply validate_edges_keeps; eauto.
        intros r a b HE. destruct (items_edges _ _ (gi_items _ _ _ V) _ _ _ HE) as (la & lb & J & <- & <-).
        pose proof J as (p & q & z & EQ).
        split; [|split; auto].
        - eapply INI. rewrite EQ. apply in_or_app. right. left. eauto.
        - eapply INI. rewrite EQ. apply in_or_app. right. right. apply in_or_app. right. left. eauto.
      Qed.

      Lemma final_forms_within l f ro : In (ro, l) rl ->
        In f (final_forms gr (leaf_pos l)) -> exists fs, t_forms (token_at s l) = Some fs /\ In f fs.
      Proof.
        intros H HF. rewrite (initial_forms _ _ H). eexists. split; [reflexivity|].
        unfold final_forms in HF. eapply validate_edges_within; eauto.
      Qed.
    End Graph.

    Lemma narrowed_same_text gr l : same_text (narrowed gr l) (token_at s l).
    Proof. unfold narrowed. destruct existsb; repeat split. Qed.

    Lemma narrowed_other gr l : (forall ro l', In (ro, l') rl -> leaf_pos l' <> leaf_pos l) ->
      narrowed gr l = token_at s l.
    Proof.
      intros H. unfold narrowed. destruct existsb eqn:E; auto.
      apply existsb_exists in E as ([ro l'] & H1 & H2). apply Nat.eqb_eq in H2. exfalso. eapply H; eauto.
    Qed.

    Lemma narrowed_related gr ro l : In (ro, l) rl ->
      narrowed gr l = mkToken (t_value (token_at s l)) (t_start (token_at s l)) (t_stop (token_at s l))
        (t_type (token_at s l)) (t_tag (token_at s l)) (Some (final_forms gr (leaf_pos l))).
    Proof.
      intros H. unfold narrowed. destruct existsb eqn:E; auto.
      assert (X : existsb (fun e => Nat.eqb (leaf_pos (snd e)) (leaf_pos l)) rl = true).
      { apply existsb_exists. exists (ro, l). split; auto. apply Nat.eqb_refl. }
      congruence.
    Qed.

    Lemma narrowed_within gr l : tree_relations g s root' = Ok gr -> In l (tree_leaves root') ->
      forms_within (narrowed gr l) (token_at s l).
    Proof.
      intros GR HL. unfold forms_within, narrowed.
      destruct existsb eqn:E; [|destruct (t_forms (token_at s l)); auto].
      apply existsb_exists in E as ([ro l'] & H1 & H2). apply Nat.eqb_eq in H2.
      assert (l' = l) as -> by (eapply rl_pos_eq; eauto).
      cbn [t_forms]. rewrite (initial_forms gr GR _ _ H1). intros f Hf.
      eapply validate_edges_within; eauto.
    Qed.
  End PM.

  Lemma prepare_match_none s t s' : prepare_match t s = Ok (s', None) -> s' = s.
  Proof.
    unfold ParserModel.prepare_match. destruct t as [root range]. destruct (propagate root) as [root'|]; [|discriminate].
    destruct (tree_relations g s root') as [gr|]; [|discriminate]. cbn [bind].
    destruct (validate rel gr) as [gr' []]; [|congruence].
    destruct (apply_relations gr' s root') as [s1|]; [|discriminate]. cbn [bind].
    destruct (get_tokens_span (tree_tokens s1 root')); discriminate.
  Qed.

  (** Inversion of a successful call. *)
  Lemma prepare_match_inv s root range s1 m :
    prepare_match (root, range) s = Ok (s1, Some m) ->
    NoDup (map leaf_id (tree_leaves root)) -> NoDup (map leaf_pos (tree_leaves root)) ->
    exists rl gr, propagate root = Some (m_root m) /\ related (m_root m) rl /\
      tree_relations g s (m_root m) = Ok gr /\ snd (validate rel gr) = true /\
      tree_leaves (m_root m) = tree_leaves root /\
      m_range m = range /\ m_tokens m = map (narrowed s rl gr) (tree_leaves root) /\
      get_tokens_span (m_tokens m) = Ok (m_span m) /\
      (forall l, In l (tree_leaves root) -> token_at s1 l = narrowed s rl gr l) /\
      (forall id, ~ In id (map leaf_id (tree_leaves root)) -> assoc id s1 = assoc id s).
  Proof.
    intros H IDS POS. pose proof H as H0. unfold ParserModel.prepare_match in H0.
    destruct (propagate root) as [root'|] eqn:P; [|discriminate].
    destruct (tree_relations g s root') as [gr|] eqn:GR; [|discriminate]. cbn [bind] in H0.
    destruct (related_exists _ _ _ GR) as (rl & RL).
    pose proof (propagate_leaves root) as EL. rewrite P in EL.
    rewrite EL in IDS, POS.
    destruct (snd (validate rel gr)) eqn:HV.
    - destruct (prepare_match_valid s root root' range P IDS POS rl RL gr GR HV) as (s2 & m2 & A & B & C & D & E & F & G).
      rewrite A in H. injection H as -> ->. exists rl, gr. rewrite B, EL. auto 12.
    - rewrite (prepare_match_invalid s root root' range P gr GR HV) in H. discriminate.
  Qed.
End Match.
