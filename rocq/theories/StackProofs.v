(** The results with a limited stack. *)
From Verif Require Import Base TokenModel EarleyModel EarleySpec EarleyInv EarleyProofs TreeModel TreeProofs SpanModel ParserModel ParserTheorems StackModel StackSpec.
Open Scope nat_scope.

(** The run returns [r], or it does not fit and [P] does not hold. *)
Definition same_unless {A} (P : Prop) (x : run A) (r : res A) : Prop := x = Returns r \/ x = TooDeep /\ ~ P.
Lemma same_bind {A B} P (x : run A) r (f : A -> run B) k : same_unless P x r -> (forall a, r = Ok a -> same_unless P (f a) (k a)) -> same_unless P (run_bind x f) (bind r k).
Proof. intros [-> |[-> N]] H; [|right; split; [reflexivity|exact N]]. destruct r as [a|e]; cbn; [apply H; reflexivity|left; reflexivity]. Qed.
Lemma same_returns {A} P (r : res A) : same_unless P (Returns r) r.
Proof. left. reflexivity. Qed.
Lemma same_weaken {A} (P Q : Prop) (x : run A) r : (Q -> P) -> same_unless P x r -> same_unless Q x r.
Proof. intros I [E|[E N]]; [left|right]; auto. Qed.
Lemma list_max_in l x : In x l -> x <= list_max l.
Proof. intros H. assert (K := proj1 (list_max_le l (list_max l)) (le_n _)). rewrite Forall_forall in K. apply K, H. Qed.
Lemma list_max_bound l k : (forall x, In x l -> x <= k) -> list_max l <= k.
Proof. intros H. apply list_max_le. apply Forall_forall. exact H. Qed.
Lemma list_max_cons x l : list_max (x :: l) = Nat.max x (list_max l).
Proof. reflexivity. Qed.

Lemma insert_in {pred} (x : @tree pred) : forall l r, insert_tree x l = Ok r -> forall t, In t r <-> In t (x :: l).
Proof.
  induction l as [|y l IH]; intros r E t; cbn in E; [injection E as <-; reflexivity|]. destruct (tree_lt x y) as [b|]; [|discriminate]. cbn in E. destruct b; [injection E as <-; reflexivity|].
  destruct (insert_tree x l) as [r'|]; [|discriminate]. injection E as <-. specialize (IH r' eq_refl t). cbn in IH |- *. tauto.
Qed.
Lemma sort_in {pred} (l : list (@tree pred)) : forall acc r, sort_trees l acc = Ok r -> forall t, In t r <-> In t l \/ In t acc.
Proof.
  induction l as [|x l IH]; intros acc r E t; cbn in E; [injection E as <-; cbn; tauto|]. destruct (insert_tree x acc) as [acc'|] eqn:EI; [|discriminate]. cbn in E. rewrite (IH _ _ E t), (insert_in x acc acc' EI t). cbn. tauto.
Qed.

Section Stack.
  Context {pred : Type}.
  Notation node := (node token pred).
  Variable comp : nat.

  (** The frames needed by PropogateEmptyTransformator. *)
  Fixpoint need (n : node) : nat := match n with Leaf _ _ _ _ => 2 | Node _ _ _ _ ch => 3 + comp + list_max (map need ch) end.
  Lemma need_levels (n : node) : (3 + comp) * levels n <= need n <= (3 + comp) * levels n + 2.
  Proof.
    induction n as [|id r q rank ch IH] using node_ind2; [cbn; lia|]. cbn [need levels]. rewrite Nat.mul_succ_r.
    assert (K : (3 + comp) * list_max (map levels ch) <= list_max (map need ch) <= (3 + comp) * list_max (map levels ch) + 2); [|lia].
    induction ch as [|c ch IHc]; [cbn; lia|]. cbn [map]. rewrite !list_max_cons. inversion IH as [|? ? H1 H2]; subst. specialize (IHc H2). nia.
  Qed.
  Lemma propagate_exact (n : node) : forall limit, propagate_within comp limit n = if need n <=? limit then Some (propagate n) else None.
  Proof.
    induction n as [id pos p tk|id r q rank ch IH] using node_ind2; intros limit.
    - destruct limit as [|[|l]]; reflexivity.
    - cbn [propagate_within need]. destruct limit as [|[|l]]; [reflexivity|reflexivity|]. destruct l as [|l]; [reflexivity|].
      destruct (Nat.ltb_spec l comp) as [Hl|Hl].
      { destruct (Nat.leb_spec (3 + comp + list_max (map need ch)) (S (S (S l)))); [lia|reflexivity]. }
      assert (E : (fix each (cs : list node) : option (list node) := match cs with [] => Some [] | c :: cs' => match propagate_within comp (l - comp) c with None => None | Some x =>
          match each cs' with None => None | Some ys => Some (match x with Some y => y :: ys | None => ys end) end end end) ch =
        if list_max (map need ch) <=? l - comp then Some (flat_map (fun c => match propagate c with Some c' => [c'] | None => [] end) ch) else None).
      { induction ch as [|c ch IHc]; [reflexivity|]. inversion IH as [|? ? H1 H2]; subst. rewrite (H1 (l - comp)), (IHc H2). cbn [map flat_map]. rewrite list_max_cons.
        destruct (Nat.leb_spec (need c) (l - comp)), (Nat.leb_spec (list_max (map need ch)) (l - comp)), (Nat.leb_spec (Nat.max (need c) (list_max (map need ch))) (l - comp)); try lia; try reflexivity.
        destruct (propagate c); reflexivity. }
      rewrite E. cbn [propagate]. destruct (Nat.leb_spec (list_max (map need ch)) (l - comp)), (Nat.leb_spec (3 + comp + list_max (map need ch)) (S (S (S l)))); try lia; try reflexivity.
      destruct (flat_map _ ch); reflexivity.
  Qed.
  Lemma propagate_levels (n n' : node) : propagate n = Some n' -> levels n' <= levels n.
  Proof.
    revert n'. induction n as [id pos p tk|id r q rank ch IH] using node_ind2; intros n' E; [injection E as <-; reflexivity|]. cbn [propagate] in E.
    assert (K : list_max (map levels (flat_map (fun c => match propagate c with Some c' => [c'] | None => [] end) ch)) <= list_max (map levels ch)).
    { clear E. induction ch as [|c ch IHc]; [cbn; lia|]. inversion IH as [|? ? H1 H2]; subst. specialize (IHc H2). cbn [flat_map map]. rewrite list_max_cons. destruct (propagate c) as [c'|]; cbn [app map]; [rewrite list_max_cons; specialize (H1 c' eq_refl); lia|lia]. }
    destruct (flat_map _ ch) as [|c0 l]; [discriminate|]. injection E as <-. cbn [levels]. lia.
  Qed.

  Variable g : grammar token pred.
  Lemma main_same s (n : node) : forall limit, same_unless (levels n < limit) (main_within (g_main g) s limit n) (node_main (g_main g) s n).
  Proof.
    induction n as [id pos p tk|id r q rank ch IH] using node_ind2; intros [|l]; try (right; split; [reflexivity|lia]); [left; reflexivity|].
    cbn [main_within node_main levels]. generalize (g_main g q) as i. induction ch as [|c ch IHc]; intros i; [left; reflexivity|]. inversion IH as [|? ? H1 H2]; subst. cbn [map]. rewrite list_max_cons. destruct i as [|i].
    - eapply same_weaken; [|apply H1]. lia.
    - eapply same_weaken; [|apply (IHc H2)]. lia.
  Qed.
  Lemma lt_same (a : node) : forall b limit, same_unless (S (levels a) < limit) (node_lt_within limit a b) (node_lt a b).
  Proof.
    induction a as [id pos p tk|ia ra qa ka ca IH] using node_ind2; intros b [|l]; try (right; split; [reflexivity|lia]); [left; reflexivity|].
    destruct b as [|ib rb qb kb cb]; [left; reflexivity|]. cbn [node_lt_within node_lt levels]. destruct (negb (ra =? rb)); [left; reflexivity|]. destruct (ia =? ib); [left; reflexivity|]. destruct (ka =? kb); [|left; reflexivity].
    revert cb. induction ca as [|x ca IHc]; intros cb; [left; destruct cb; reflexivity|]. destruct cb as [|y cb]; [left; reflexivity|]. inversion IH as [|? ? H1 H2]; subst. cbn [map]. rewrite list_max_cons. cbn [children_lt_within children_lt].
    destruct (Nat.ltb_spec 0 l) as [Hl|Hl]; cbn [negb]; [|right; split; [reflexivity|lia]].
    assert (IHc' : same_unless (S (S (Nat.max (levels x) (list_max (map levels ca)))) < S l) (children_lt_within true (node_lt_within l) ca cb) (children_lt node_lt ca cb)).
    { eapply same_weaken; [|apply (IHc H2)]. lia. }
    destruct x as [|ix rx qx kx cx]; [exact IHc'|]. destruct (ix =? node_id y); [exact IHc'|]. destruct y as [|iy ry qy ky cy]; [left; reflexivity|]. destruct (kx <? ky); [left; reflexivity|]. destruct (ky <? kx); [left; reflexivity|].
    eapply same_weaken; [|apply H1]. lia.
  Qed.
  Variable rel : nat -> form -> form -> bool.
  Variable limit : nat.
  Notation tree := (@tree pred).
  (** Enough frames for a tree. *)
  Definition fits (t : tree) : Prop := (3 + comp) * levels (fst t) + 2 <= limit.

  Lemma tree_lt_same (a b : tree) : same_unless (fits a) (tree_lt_within limit a b) (tree_lt a b).
  Proof.
    destruct a as [ra [sa ea]], b as [rb [sb eb]]. unfold tree_lt_within, tree_lt. destruct (_ && _); [|destruct (sa =? sb); left; reflexivity]. eapply same_weaken; [|apply lt_same]. unfold fits. cbn [fst]. nia.
  Qed.
  Lemma walk_levels (n m : node) : In m (walk n) -> levels m <= levels n.
  Proof.
    induction n as [id pos p tk|id r q rank ch IH] using node_ind2; intros H; [destruct H as [<-|[]]; reflexivity|]. destruct H as [<-|H]; [reflexivity|]. cbn [levels]. apply in_flat_map in H as (c & Hc & Hm). rewrite Forall_forall in IH. specialize (IH c Hc Hm).
    assert (K := list_max_in (map levels ch) (levels c) (in_map levels _ _ Hc)). lia.
  Qed.
  Lemma relations_same s (root : node) : same_unless (levels root < limit) (tree_relations_within g limit s root) (tree_relations g s root).
  Proof.
    assert (G : forall l x y, same_unless (levels root < limit) x y -> (forall m, In m l -> levels m <= levels root) ->
      same_unless (levels root < limit) (fold_left (visit_relation_within g limit s) l x) (fold_left (visit_relation g s) l y)); [|apply G; [left; reflexivity|apply walk_levels]].
    induction l as [|m l IH]; intros x y K W; [exact K|]. cbn [fold_left]. apply IH; [|intros m' Hm; apply W; right; exact Hm].
    unfold visit_relation_within, visit_relation. apply same_bind; [exact K|]. intros gr _. destruct m as [|id r q rank ch]; [left; reflexivity|]. destruct (g_relation g r) as [ro|]; [|left; reflexivity].
    apply same_bind; [eapply same_weaken; [|apply main_same]; specialize (W _ (or_introl eq_refl)); lia|]. intros [pos t] _. left. reflexivity.
  Qed.
  Lemma prepare_same (t : tree) s : same_unless (fits t) (prepare_match_within comp rel g limit t s) (prepare_match rel g t s).
  Proof.
    destruct t as [root range]. unfold prepare_match_within, prepare_match, fits. cbn [fst]. rewrite propagate_exact. assert (N := need_levels root). destruct (Nat.leb_spec (need root) limit); [|right; split; [reflexivity|lia]].
    destruct (propagate root) as [root'|] eqn:E; [|left; reflexivity]. apply propagate_levels in E. apply same_bind; [eapply same_weaken; [|apply relations_same]; nia|]. intros gr _. left. destruct (validate rel gr) as [gr' valid]. destruct valid; reflexivity.
  Qed.
  (** A tree that does not fit is noticed. *)
  Lemma prepare_deep (t : tree) s : limit < (3 + comp) * levels (fst t) -> prepare_match_within comp rel g limit t s = TooDeep.
  Proof. destruct t as [root range]. unfold prepare_match_within. cbn [fst]. rewrite propagate_exact. assert (N := need_levels root). destruct (Nat.leb_spec (need root) limit); [lia|reflexivity]. Qed.

  Definition all_fit (trees : list tree) : Prop := forall t, In t trees -> fits t.
  Lemma insert_same x : forall l, same_unless (fits x) (insert_within limit x l) (insert_tree x l).
  Proof.
    induction l as [|y l IH]; [left; reflexivity|]. cbn [insert_within insert_tree]. apply same_bind; [apply tree_lt_same|]. intros [] _; [left; reflexivity|]. apply same_bind; [exact IH|]. intros r _. left. reflexivity.
  Qed.
  Lemma sort_same l : forall acc, same_unless (all_fit l) (sort_within limit l acc) (sort_trees l acc).
  Proof.
    induction l as [|x l IH]; intros acc; [left; reflexivity|]. cbn [sort_within sort_trees]. apply same_bind.
    - eapply same_weaken; [|apply insert_same]. intros H. apply H. left. reflexivity.
    - intros acc' _. eapply same_weaken; [|apply IH]. intros H t Ht. apply H. right. exact Ht.
  Qed.
  Lemma collect_same trees : forall acc s, same_unless (all_fit trees) (collect_within comp rel g limit trees acc s) (collect rel g trees acc s).
  Proof.
    induction trees as [|t trees IH]; intros acc s; [left; reflexivity|]. assert (IH' : forall acc s, same_unless (all_fit (t :: trees)) (collect_within comp rel g limit trees acc s) (collect rel g trees acc s)).
    { intros a s'. eapply same_weaken; [|apply IH]. intros H x Hx. apply H. right. exact Hx. }
    cbn [collect_within collect]. destruct (lookup_range (snd t) acc); [apply IH'|]. apply same_bind; [eapply same_weaken; [|apply prepare_same]; intros H; apply H; left; reflexivity|]. intros [s' m] _. destruct m; apply IH'.
  Qed.
  Lemma first_same trees : forall s, same_unless (all_fit trees) (first_match_within comp rel g limit trees s) (first_match rel g trees s).
  Proof.
    induction trees as [|t trees IH]; intros s; [left; reflexivity|]. cbn [first_match_within first_match]. apply same_bind; [eapply same_weaken; [|apply prepare_same]; intros H; apply H; left; reflexivity|].
    intros [s' m] _. destruct m; [left; reflexivity|]. eapply same_weaken; [|apply IH]. intros H x Hx. apply H. right. exact Hx.
  Qed.
  (** What extract yields: the same up to a tree that does not fit. *)
  Definition same_matches (P : Prop) (x : list (@amatch pred) * store * ending) (y : list (@amatch pred) * store * option exn) : Prop :=
    (fst x = fst y /\ snd x = match snd y with None => Exhausted | Some e => Raised e end) \/
    (snd x = OutOfStack /\ ~ P /\ exists rest, fst (fst y) = fst (fst x) ++ rest).
  Lemma matches_same trees : forall s, same_matches (all_fit trees) (prepare_matches_within comp rel g limit trees s) (prepare_matches rel g trees s).
  Proof.
    induction trees as [|t trees IH]; intros s; [left; split; reflexivity|]. cbn [prepare_matches_within prepare_matches].
    assert (IH' : forall s, same_matches (all_fit (t :: trees)) (prepare_matches_within comp rel g limit trees s) (prepare_matches rel g trees s)).
    { intros s'. destruct (IH s') as [K|(K1 & K2 & K3)]; [left; exact K|]. right. split; [exact K1|]. split; [|exact K3]. intros H. apply K2. intros x Hx. apply H. right. exact Hx. }
    destruct (prepare_same t s) as [E|[E N]]; rewrite E.
    - destruct (prepare_match rel g t s) as [[s' [m|]]|e]; [|apply IH'|left; split; reflexivity]. specialize (IH' s').
      destruct (prepare_matches_within comp rel g limit trees s') as [[ms s1] e1], (prepare_matches rel g trees s') as [[ms' s1'] e1']. unfold same_matches in *. cbn in *.
      destruct IH' as [[K1 K2]|(K1 & K2 & rest & K3)]; [left; split; congruence|]. right. split; [exact K1|]. split; [exact K2|]. exists rest. rewrite K3. reflexivity.
    - right. split; [reflexivity|]. split; [intros H; apply N, H; left; reflexivity|]. eexists. reflexivity.
  Qed.

  Variable accepts : pred -> token -> bool.
  Variable constrain : pred -> token -> token.
  (** The results, for the trees the chart gives. *)
  Theorem findall_same fuel toks trees : parse accepts constrain g fuel toks true = Some trees ->
    exists x r, findall_within comp rel g limit accepts constrain fuel toks = Some x /\ findall accepts constrain rel g fuel toks = Some r /\ same_unless (all_fit trees) x r.
  Proof.
    intros E. unfold findall_within, findall. rewrite E. cbn [option_map]. do 2 eexists. split; [reflexivity|]. split; [reflexivity|]. apply same_bind; [apply sort_same|]. intros sorted Hs.
    assert (HI := sort_in trees [] sorted Hs). unfold prepare_resolved_within, prepare_resolved_matches. apply same_bind; [|intros [s' found] _; left; reflexivity].
    eapply same_weaken; [|apply collect_same]. intros H t Ht. apply H. apply HI in Ht as [Ht|[]]. exact Ht.
  Qed.
  Theorem match_same fuel toks trees : parse accepts constrain g fuel toks false = Some trees ->
    exists x r, match_within comp rel g limit accepts constrain fuel toks = Some x /\ match_ accepts constrain rel g fuel toks = Some r /\ same_unless (all_fit trees) x r.
  Proof.
    intros E. unfold match_within, match_. rewrite E. cbn [option_map]. do 2 eexists. split; [reflexivity|]. split; [reflexivity|]. apply same_bind; [apply sort_same|]. intros sorted Hs.
    assert (HI := sort_in trees [] sorted Hs). eapply same_weaken; [|apply first_same]. intros H t Ht. apply H. apply HI in Ht as [Ht|[]]. exact Ht.
  Qed.
  Theorem extract_same fuel toks all trees : parse accepts constrain g fuel toks all = Some trees ->
    exists x r, extract_within comp rel g limit accepts constrain fuel toks all = Some x /\ extract accepts constrain rel g fuel toks all = Some r /\ same_matches (all_fit trees) x r.
  Proof. intros E. unfold extract_within, extract. rewrite E. cbn [option_map]. do 2 eexists. split; [reflexivity|]. split; [reflexivity|]. apply matches_same. Qed.
End Stack.
