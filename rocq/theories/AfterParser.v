(** What extract and findall report of a text that is continued. *)
From Verif Require Import Base TokenModel EarleyModel EarleySpec EarleyInv TreeModel TreeSpec TreeProofs SpanModel ParserModel ParserSpec ParserProofs ResultProofs ParserTheorems TextEqual IndexSim PieceSpec PieceProofs AfterSpec AfterProofs.
Open Scope nat_scope.

Section Twins.
  Context {pred : Type}.
  Notation node := (node token pred).
  Variable rel : nat -> form -> form -> bool.
  Variable g : grammar token pred.
  Variable m : nat -> nat -> Prop.
  Hypothesis OO : one_to_one m.
  Notation twin := (@twin token pred m).
  Notation twins := (@twins token pred m).
  Lemma ids_eqb i j i' j' : m i j -> m i' j' -> Nat.eqb i i' = Nat.eqb j j'.
  Proof. intros A B. destruct (Nat.eqb_spec i i') as [<-|N], (Nat.eqb_spec j j') as [<-|N']; try reflexivity; exfalso; [apply N', (o_fun m OO i); assumption|apply N, (o_inj m OO i i' j); assumption]. Qed.
  Lemma twin_erase : (forall x y, twin x y -> erase x = erase y) /\ (forall x y, twins x y -> map erase x = map erase y).
  Proof. apply (twin_mutind m (fun x y _ => erase x = erase y) (fun x y _ => map erase x = map erase y)); intros; cbn; congruence. Qed.
  Lemma twin_lt : (forall x x', twin x x' -> forall y y', twin y y' -> node_lt x y = node_lt x' y') /\
    (forall l l', twins l l' -> forall r r', twins r r' -> children_lt node_lt l r = children_lt node_lt l' r').
  Proof.
    apply (twin_mutind m (fun x x' _ => forall y y', twin y y' -> node_lt x y = node_lt x' y') (fun l l' _ => forall r r', twins r r' -> children_lt node_lt l r = children_lt node_lt l' r')).
    - intros id pos p tk H y y' [] ; reflexivity.
    - intros i j r q rank l l' H T IH y y' [|i' j' r2 q2 rank2 l2 l2' H2 T2]; [reflexivity|]. cbn [node_lt]. rewrite (ids_eqb i j i' j' H H2), (IH _ _ T2). reflexivity.
    - intros r r' []; reflexivity.
    - intros x y l l' H IH T IHl r r' []; [destruct H; reflexivity|]. cbn [children_lt].
      destruct H as [id pos p tk M|i j r1 q1 k1 c1 c1' M T1]; [apply IHl; assumption|].
      assert (X := IH _ _ ltac:(eassumption)). match goal with K : twin ?u ?v |- _ => rename K into Tw end. rewrite (ids_eqb _ _ _ _ M (twin_id m _ _ Tw)). rewrite X.
      destruct Tw; [destruct (Nat.eqb j _); [apply IHl; assumption|reflexivity]|]. cbn [node_id]. destruct (Nat.eqb j _); [apply IHl; assumption|reflexivity].
  Qed.
  Lemma twin_walk : (forall x y, twin x y -> twins (walk x) (walk y)) /\ (forall l l', twins l l' -> twins (flat_map walk l) (flat_map walk l')).
  Proof.
    assert (APP : forall a a' b b', twins a a' -> twins b b' -> twins (a ++ b) (a' ++ b')) by (induction 1; cbn; intros; [assumption|constructor; auto]).
    apply (twin_mutind m (fun x y _ => twins (walk x) (walk y)) (fun l l' _ => twins (flat_map walk l) (flat_map walk l'))); intros; cbn.
    - constructor; [constructor; assumption|constructor].
    - constructor; [constructor; assumption|assumption].
    - constructor.
    - apply APP; assumption.
  Qed.
  Lemma twin_propagate : (forall x y, twin x y -> match propagate x, propagate y with Some u, Some v => twin u v | None, None => True | _, _ => False end) /\
    (forall l l', twins l l' -> twins (flat_map (fun c : node => match propagate c with Some c' => [c'] | None => [] end) l) (flat_map (fun c : node => match propagate c with Some c' => [c'] | None => [] end) l')).
  Proof.
    apply (twin_mutind m (fun x y _ => match propagate x, propagate y with Some u, Some v => twin u v | None, None => True | _, _ => False end)
      (fun l l' _ => twins (flat_map (fun c : node => match propagate c with Some c' => [c'] | None => [] end) l) (flat_map (fun c : node => match propagate c with Some c' => [c'] | None => [] end) l'))).
    - intros. cbn. constructor. assumption.
    - intros i j r q rank l l' H T IH. cbn [propagate]. inversion IH; [exact Logic.I|]. constructor; [assumption|]. constructor; assumption.
    - constructor.
    - intros x y l l' H IH T IHl. cbn. destruct (propagate x), (propagate y); try contradiction; [constructor; assumption|exact IHl].
  Qed.
  Lemma twin_main s : (forall x y, twin x y -> node_main (g_main g) s x = node_main (g_main g) s y) /\
    (forall l l', twins l l' -> forall i, (fix nth_main (i : nat) (ch : list node) {struct ch} : res (nat * token) := match ch with [] => Err IndexError | c :: ch' => match i with O => node_main (g_main g) s c | S i' => nth_main i' ch' end end) i l =
      (fix nth_main (i : nat) (ch : list node) {struct ch} : res (nat * token) := match ch with [] => Err IndexError | c :: ch' => match i with O => node_main (g_main g) s c | S i' => nth_main i' ch' end end) i l').
  Proof.
    apply (twin_mutind m (fun x y _ => node_main (g_main g) s x = node_main (g_main g) s y) (fun l l' _ => forall i, (fix nth_main (i : nat) (ch : list node) {struct ch} : res (nat * token) := match ch with [] => Err IndexError | c :: ch' => match i with O => node_main (g_main g) s c | S i' => nth_main i' ch' end end) i l =
      (fix nth_main (i : nat) (ch : list node) {struct ch} : res (nat * token) := match ch with [] => Err IndexError | c :: ch' => match i with O => node_main (g_main g) s c | S i' => nth_main i' ch' end end) i l')).
    - reflexivity.
    - intros i j r q rank l l' H T IH. cbn [node_main]. apply IH.
    - reflexivity.
    - intros x y l l' H IH T IHl [|i]; [exact IH|apply IHl].
  Qed.
  Lemma twin_relations s x y : twin x y -> tree_relations g s x = tree_relations g s y.
  Proof.
    intros H. unfold tree_relations. generalize (Ok empty_graph). assert (W := proj1 twin_walk x y H). induction W as [|u v l l' T W IH]; intros gr; [reflexivity|]. cbn [fold_left]. rewrite IH. f_equal.
    unfold visit_relation. destruct gr as [gr|e]; [|reflexivity]. cbn [bind]. assert (M := proj1 (twin_main s) u v T). destruct T; [reflexivity|]. rewrite M. reflexivity.
  Qed.
  Lemma twin_apply gr s x y : twin x y -> apply_relations gr s x = apply_relations gr s y.
  Proof.
    intros H. unfold apply_relations. generalize (Ok s). assert (W := proj1 twin_walk x y H). induction W as [|u v l l' T W IH]; intros s0; [reflexivity|]. cbn [fold_left]. rewrite IH. f_equal. destruct T; reflexivity.
  Qed.
  Lemma twin_tokens s x y : twin x y -> tree_tokens s x = tree_tokens s y.
  Proof. intros H. unfold tree_tokens. assert (W := proj1 twin_walk x y H). induction W as [|u v l l' T W IH]; [reflexivity|]. cbn [flat_map]. rewrite IH. destruct T; reflexivity. Qed.

  Notation tree := (@tree pred).
  Definition twin_tree (x y : tree) : Prop := twin (fst x) (fst y) /\ snd x = snd y.
  Definition look (x : amatch (pred := pred)) := shown x.
  Definition twin_found (x y : res (store * option (amatch (pred := pred)))) : Prop :=
    match x, y with
    | Ok (s, a), Ok (s', b) => s = s' /\ option_map look a = option_map look b
    | Err e, Err e' => e = e'
    | _, _ => False
    end.
  Lemma twin_prepare s x y : twin_tree x y -> twin_found (prepare_match rel g x s) (prepare_match rel g y s).
  Proof.
    destruct x as [x rx], y as [y ry]. intros [H E]. cbn [fst snd] in H, E. subst ry. unfold prepare_match. assert (P := proj1 twin_propagate x y H).
    destruct (propagate x) as [u|], (propagate y) as [v|]; try contradiction; [|reflexivity]. rewrite (twin_relations s u v P). destruct (tree_relations g s v) as [gr|e]; [|reflexivity]. cbn [bind].
    destruct (validate rel gr) as [gr' []]; [|split; reflexivity]. rewrite (twin_apply gr' s u v P). destruct (apply_relations gr' s v) as [s'|e]; [|reflexivity]. cbn [bind]. rewrite (twin_tokens s' u v P).
    destruct (get_tokens_span (tree_tokens s' v)) as [sp|e]; [|reflexivity]. cbn. split; [reflexivity|]. unfold look, shown. cbn. rewrite (proj1 twin_erase u v P). reflexivity.
  Qed.
  Lemma twin_matches : forall l l', Forall2 twin_tree l l' -> forall s, let '(ms, s1, e) := prepare_matches rel g l s in let '(ms', s1', e') := prepare_matches rel g l' s in map look ms = map look ms' /\ s1 = s1' /\ e = e'.
  Proof.
    induction 1 as [|x y l l' H F IH]; intros s; [cbn; auto|]. cbn [prepare_matches]. assert (P := twin_prepare s x y H). destruct (prepare_match rel g x s) as [[s1 [a|]]|e], (prepare_match rel g y s) as [[s1' [b|]]|e']; cbn in P; try contradiction; try (destruct P; discriminate).
    - destruct P as [<- P]. specialize (IH s1). destruct (prepare_matches rel g l s1) as [[ms s2] e], (prepare_matches rel g l' s1) as [[ms' s2'] e']. destruct IH as (A & B & C). split; [|auto]. cbn. congruence.
    - destruct P as [<- P]. apply IH.
    - subst. auto.
  Qed.
  Lemma matches_app : forall l l' s, prepare_matches rel g (l ++ l') s =
    let '(ms, s1, e) := prepare_matches rel g l s in match e with Some x => (ms, s1, Some x) | None => let '(ms', s2, e') := prepare_matches rel g l' s1 in (ms ++ ms', s2, e') end.
  Proof.
    induction l as [|x l IH]; intros l' s; cbn [app prepare_matches]; [destruct (prepare_matches rel g l' s) as [[? ?] ?]; reflexivity|]. destruct (prepare_match rel g x s) as [[s1 [a|]]|e]; [|apply IH|reflexivity].
    rewrite IH. destruct (prepare_matches rel g l s1) as [[ms s2] [e|]]; [reflexivity|]. destruct (prepare_matches rel g l' s2) as [[? ?] ?]. reflexivity.
  Qed.

  (** ** Sorting *)
  Definition twin_list (x y : res (list tree)) : Prop := match x, y with Ok l, Ok l' => Forall2 twin_tree l l' | Err e, Err e' => e = e' | _, _ => False end.
  Lemma twin_tree_lt x x' y y' : twin_tree x x' -> twin_tree y y' -> tree_lt x y = tree_lt x' y'.
  Proof. destruct x as [x [a b]], y as [y [c d]], x' as [x' r], y' as [y' r']. intros [H E] [H' E']. cbn [fst snd] in *. subst r r'. unfold tree_lt. rewrite (proj1 twin_lt x x' H y y' H'). reflexivity. Qed.
  Lemma twin_insert x x' : twin_tree x x' -> forall l l', Forall2 twin_tree l l' -> twin_list (insert_tree x l) (insert_tree x' l').
  Proof.
    intros H. induction 1 as [|y y' l l' T F IH]; cbn [insert_tree]; [cbn; auto|]. rewrite (twin_tree_lt x x' y y' H T). destruct (tree_lt x' y') as [[]|e]; cbn [bind]; [cbn; auto| |reflexivity].
    unfold twin_list in IH. destruct (insert_tree x l), (insert_tree x' l'); try contradiction; cbn; auto.
  Qed.
  Lemma twin_sort : forall l l', Forall2 twin_tree l l' -> forall acc acc', Forall2 twin_tree acc acc' -> twin_list (sort_trees l acc) (sort_trees l' acc').
  Proof.
    induction 1 as [|x x' l l' H F IH]; intros acc acc' A; cbn [sort_trees]; [exact A|]. assert (I := twin_insert x x' H acc acc' A). unfold twin_list in I. destruct (insert_tree x acc), (insert_tree x' acc'); try contradiction; cbn [bind]; [apply IH, I|cbn; exact I].
  Qed.
  Lemma sort_app : forall (l l' acc : list tree), sort_trees (l ++ l') acc = let! r := sort_trees l acc in sort_trees l' r.
  Proof. induction l as [|x l IH]; intros l' acc; [reflexivity|]. cbn [app sort_trees]. destruct (insert_tree x acc); [apply IH|reflexivity]. Qed.
  Variable n : nat.
  Lemma insert_behind (x : tree) : n <= fst (snd x) -> forall l r, (forall y, In y l -> fst (snd y) < n) -> insert_tree x (l ++ r) = let! r' := insert_tree x r in Ok (l ++ r').
  Proof.
    intros N. induction l as [|y l IH]; intros r L; cbn [app]; [destruct (insert_tree x r); reflexivity|]. cbn [insert_tree]. specialize (L y (or_introl eq_refl)) as Ly.
    assert (E : tree_lt x y = Ok false). { destruct x as [x [a b]], y as [y [c d]]. cbn in *. unfold tree_lt. destruct (Nat.eqb_spec a c); [lia|]. cbn. f_equal. apply Nat.ltb_ge. lia. }
    rewrite E. cbn [bind]. rewrite IH by (intros z I; apply L; right; exact I). destruct (insert_tree x r); reflexivity.
  Qed.
  Lemma sort_behind : forall l', (forall x : tree, In x l' -> n <= fst (snd x)) -> forall l r, (forall y : tree, In y l -> fst (snd y) < n) -> sort_trees l' (l ++ r) = let! r' := sort_trees l' r in Ok (l ++ r').
  Proof.
    induction l' as [|x l' IH]; intros N l r L; [reflexivity|]. cbn [sort_trees]. assert (E := insert_behind x (N x (or_introl eq_refl)) l r L). unfold ParserModel.tree in *. rewrite E. destruct (insert_tree x r) as [r'|e]; [|reflexivity]. cbn [bind]. apply IH; [intros y I; apply N; right; exact I|exact L].
  Qed.

  Lemma insert_in (x : tree) : forall l r, insert_tree x l = Ok r -> forall t, In t r -> t = x \/ In t l.
  Proof.
    induction l as [|y l IH]; intros r E t I; cbn [insert_tree] in E; [injection E as <-; destruct I as [<-|[]]; auto|]. destruct (tree_lt x y) as [[]|e]; cbn [bind] in E; [|destruct (insert_tree x l) as [r'|e]|discriminate].
    - injection E as <-. destruct I as [<-|I]; auto.
    - injection E as <-. destruct I as [<-|I]; [right; left; reflexivity|]. destruct (IH r' eq_refl t I) as [->|J]; [auto|right; right; exact J].
    - discriminate.
  Qed.
  Lemma sort_in : forall (l acc r : list tree), sort_trees l acc = Ok r -> forall t, In t r -> In t l \/ In t acc.
  Proof.
    induction l as [|x l IH]; intros acc r E t I; cbn [sort_trees] in E; [injection E as <-; auto|]. destruct (insert_tree x acc) as [acc'|e] eqn:X; [|discriminate]. cbn [bind] in E. destruct (IH _ _ E t I) as [J|J]; [left; right; exact J|].
    destruct (insert_in x acc acc' X t J) as [->|K]; [left; left; reflexivity|auto].
  Qed.

  (** ** Candidates *)
  Notation entries := (list ((nat * nat) * amatch (pred := pred))).
  Definition twin_entry (x y : (nat * nat) * amatch (pred := pred)) : Prop := fst x = fst y /\ look (snd x) = look (snd y).
  Definition twin_entries (x y : res (store * entries)) : Prop := match x, y with Ok (s, l), Ok (s', l') => s = s' /\ Forall2 twin_entry l l' | Err e, Err e' => e = e' | _, _ => False end.
  Lemma lookup_twin r : forall l l', Forall2 twin_entry l l' -> match lookup_range r l, lookup_range r l' with Some a, Some b => look a = look b | None, None => True | _, _ => False end.
  Proof. induction 1 as [|[r1 a] [r2 b] l l' [E E'] F IH]; cbn in *; [exact Logic.I|]. subst r2. destruct (range_eqb r r1); [exact E'|exact IH]. Qed.
  Lemma collect_twin : forall l l', Forall2 twin_tree l l' -> forall acc acc' s, Forall2 twin_entry acc acc' -> twin_entries (collect rel g l acc s) (collect rel g l' acc' s).
  Proof.
    induction 1 as [|x y l l' H F IH]; intros acc acc' s A; cbn [collect]; [split; auto|]. rewrite <- (proj2 H). assert (K := lookup_twin (snd x) acc acc' A). destruct (lookup_range (snd x) acc), (lookup_range (snd x) acc'); try contradiction; [apply IH, A|].
    assert (P := twin_prepare s x y H). destruct (prepare_match rel g x s) as [[s1 [a|]]|e], (prepare_match rel g y s) as [[s1' [b|]]|e']; cbn in P; try contradiction; try (destruct P; discriminate); cbn [bind].
    - destruct P as [<- P]. apply IH. apply Forall2_app; [exact A|]. constructor; [|constructor]. split; [reflexivity|]. cbn. congruence.
    - destruct P as [<- _]. apply IH, A.
    - exact P.
  Qed.
  Lemma collect_app : forall l l' (acc : entries) s, collect rel g (l ++ l') acc s = let! (s1, acc1) := collect rel g l acc s in collect rel g l' acc1 s1.
  Proof.
    induction l as [|x l IH]; intros l' acc s; [reflexivity|]. cbn [app collect]. destruct (lookup_range (snd x) acc); [apply IH|]. destruct (prepare_match rel g x s) as [[s1 [a|]]|e]; cbn [bind]; [apply IH|apply IH|reflexivity].
  Qed.
  Lemma collect_keys : forall l (acc : entries) s s' acc', collect rel g l acc s = Ok (s', acc') -> exists new, acc' = acc ++ new /\ forall r a, In (r, a) new -> exists t, In t l /\ snd t = r.
  Proof.
    induction l as [|x l IH]; intros acc s s' acc' C; cbn [collect] in C; [injection C as <- <-; exists []; rewrite app_nil_r; split; [reflexivity|intros r a []]|].
    assert (UP : forall new, (forall r a, In (r, a) new -> exists t, In t l /\ snd t = r) -> forall r (a : amatch (pred := pred)), In (r, a) new -> exists t, In t (x :: l) /\ snd t = r) by (intros new H r a I; destruct (H r a I) as (t & J & E); exists t; split; [right; exact J|exact E]).
    destruct (lookup_range (snd x) acc); [destruct (IH _ _ _ _ C) as (new & -> & N); exists new; split; [reflexivity|apply UP, N]|]. destruct (prepare_match rel g x s) as [[s1 [a|]]|e]; cbn [bind] in C; [| |discriminate].
    - destruct (IH _ _ _ _ C) as (new & -> & N). exists ((snd x, a) :: new). rewrite <- app_assoc. split; [reflexivity|]. intros r b [E|I]; [injection E as <- <-; exists x; split; [left; reflexivity|reflexivity]|apply (UP new N r b I)].
    - destruct (IH _ _ _ _ C) as (new & -> & N). exists new. split; [reflexivity|apply UP, N].
  Qed.
End Twins.

Lemma best_prefix (P P1 : nat * nat -> Prop) n a l : (forall r, P r -> snd r <= n \/ n <= fst r) -> (forall r, P1 r -> snd r <= n) -> (forall r, snd r <= n -> fst r < n -> (P r <-> P1 r)) ->
  best_ranges P1 a -> best_ranges P l -> exists b, l = a ++ b /\ forall r, In r b -> n <= fst r.
Proof.
  intros NC B1 E1 (A1 & A2 & A3 & A4) (L1 & L2 & L3 & L4).
  destruct (split_at n l 0 L1 (fun r I => NC r (L2 r I))) as (a' & b & -> & Q1 & Q2 & Q3). exists (map (later_range n) b).
  assert (LT : forall r, In r a' -> fst r < n) by (intros r I; specialize (Q1 r I); destruct (left_to_right_in _ _ _ Q2 I); lia).
  assert (PA : forall r, In r a' -> P1 r) by (intros r I; apply E1; [apply Q1, I|apply LT, I|apply L2, in_or_app; left; exact I]).
  assert (G : left_to_right 0 (a ++ map (later_range n) b)).
  { apply left_to_right_app. split; [exact A1|]. exists n. split; [assert (X := proj2 (left_to_right_later n b 0) Q3); rewrite Nat.add_0_r in X; exact X|]. split; [|lia]. intros r I. apply B1, A2, I. }
  assert (PG : forall r, In r (a ++ map (later_range n) b) -> P r).
  { intros r I. apply in_app_or in I as [I|I]; [|apply L2, in_or_app; right; exact I]. assert (X := A2 r I). apply E1; [apply B1, X|destruct (left_to_right_in _ _ _ A1 I); specialize (B1 r X); lia|exact X]. }
  assert (X := L3 _ G PG). assert (Y := A3 _ Q2 PA). rewrite !covered_app in X. assert (E : covered a' = covered a) by lia. destruct (A4 _ Q2 PA E) as [->|R].
  - split; [reflexivity|]. intros r I. apply in_map_iff in I as (r' & <- & _). cbn. lia.
  - exfalso. destruct (L4 _ G PG) as [F|F]; [rewrite !covered_app; lia| |].
    + apply app_inv_tail in F. subst a'. apply (ranges_before_asym _ _ R R).
    + apply (ranges_before_asym _ _ F). apply ranges_before_app_l, R.
Qed.

Section Parser.
  Context {pred : Type}.
  Variable accepts : pred -> token -> bool.
  Variable constrain : pred -> token -> token.
  Variable rel : nat -> form -> form -> bool.
  Variable g : grammar token pred.
  Variables a more : list token.
  Notation n := (length a).
  Notation long := (a ++ more).
  Hypothesis ends : last_column_ready g.
  Notation parse := (parse accepts constrain g).
  Lemma parse_after fuel l l' : parse fuel a true = Some l -> parse fuel long true = Some l' ->
    exists m l1 l2, one_to_one m /\ l' = l1 ++ l2 /\ Forall2 (twin_tree m) l l1 /\ forall t, In t l2 -> n < snd (snd t).
  Proof.
    intros P P'. destruct (parse_chart accepts constrain g a true fuel l P) as (x & Cx & -> & _). destruct (parse_chart accepts constrain g long true fuel l' P') as (y & Cy & -> & V).
    destruct (columns_after accepts constrain g a more ends fuel true x y Cx Cy) as (m & OO & C).
    exists m, (prepare_trees (flat_map (fun k => column_matches g k y) (seq 0 (S n)))), (prepare_trees (flat_map (fun k => column_matches g k y) (seq (S n) (length more)))).
    split; [exact OO|]. split; [|split].
    - unfold matches, prepare_trees. rewrite <- map_app, <- flat_map_app. f_equal. f_equal. rewrite app_length. change (S n) with (0 + S n) at 2. rewrite <- seq_app. reflexivity.
    - unfold matches, prepare_trees. assert (K : forall k, In k (seq 0 (S n)) -> k <= n) by (intros k I; apply in_seq in I; lia). induction (seq 0 (S n)) as [|k ks IH]; [constructor|]. cbn [flat_map]. rewrite !map_app. apply Forall2_app.
      + specialize (C k (K k (or_introl eq_refl))). induction C as [|s s' u u' H F IHc]; [constructor|]. cbn [map]. constructor; [|exact IHc]. split; [apply (twin_state_node a m), H|]. cbn. destruct H. congruence.
      + apply IH. intros i I. apply K. right. exact I.
    - intros t I. apply in_map_iff in I as (s & <- & I). apply in_flat_map in I as (k & K & I). apply in_seq in K. cbn. unfold column_matches in I. apply filter_In in I as [I _].
      destruct (inv_ok _ _ _ _ _ _ _ V _ _ I) as (-> & _). lia.
  Qed.
  (** extract yields first what it yields for the shorter text. *)
  Theorem extract_after fuel ms s e ms' s' e' : extract accepts constrain rel g fuel a true = Some (ms, s, e) -> extract accepts constrain rel g fuel long true = Some (ms', s', e') ->
    match e with Some x => map shown ms' = map shown ms /\ s' = s /\ e' = Some x | None => exists rest, map shown ms' = map shown ms ++ rest end.
  Proof.
    unfold extract. intros E E'. destruct (parse fuel a true) as [l|] eqn:P; [|discriminate]. destruct (parse fuel long true) as [l'|] eqn:P'; [|discriminate]. injection E as E. injection E' as E'.
    destruct (parse_after fuel l l' P P') as (m & l1 & l2 & OO & -> & F & _). rewrite matches_app in E'. assert (T := twin_matches rel g m l l1 F []). rewrite E in T. destruct (prepare_matches rel g l1 []) as [[ms1 s1] e1]. destruct T as (T1 & <- & <-).
    destruct e as [x|]; [injection E' as <- <- <-; auto|]. destruct (prepare_matches rel g l2 s) as [[ms2 s2] e2]. injection E' as <- _ _. exists (map shown ms2). rewrite map_app. f_equal. symmetry. exact T1.
  Qed.

  Lemma map_split {A B} (f : A -> B) : forall l u v, map f l = u ++ v -> exists x y, l = x ++ y /\ map f x = u /\ map f y = v.
  Proof. induction l as [|z l IH]; intros u v E; [symmetry in E; apply app_eq_nil in E as [-> ->]; exists [], []; auto|]. destruct u as [|w u]; [exists [], (z :: l); auto|]. cbn in E. injection E as <- E. destruct (IH u v E) as (x & y & -> & <- & <-). exists (z :: x), y. auto. Qed.
  (** findall, when no parse lies on both sides of the border. *)
  Theorem findall_after fuel s ms s' ms' : predict_sound g -> (forall i j d, derives accepts g long (TRule (g_start g)) i j d -> j <= n \/ n <= i) ->
    findall accepts constrain rel g fuel a = Some (Ok (s, ms)) -> findall accepts constrain rel g fuel long = Some (Ok (s', ms')) ->
    exists first rest, ms' = first ++ rest /\ map shown first = map shown ms /\ forall x, In x rest -> n <= fst (m_range x).
  Proof.
    intros PS apart Fa Fl. destruct (parse fuel a true) as [l|] eqn:P; [|unfold findall in Fa; rewrite P in Fa; discriminate]. destruct (parse fuel long true) as [l'|] eqn:P'; [|unfold findall in Fl; rewrite P' in Fl; discriminate].
    destruct (parse_after fuel l l' P P') as (m & l1 & l2 & OO & -> & F & B2).
    (* the trees of the shorter text *)
    assert (NE : forall t, In t l -> fst (snd t) < snd (snd t)).
    { intros t I. destruct (findall_spec accepts constrain rel g fuel a s ms (fun _ => True) l Fa P Logic.I) as (found & F1 & F2 & F3 & _); [auto|].
      destruct (in_dec (fun x y : nat * nat => ltac:(decide equality; apply Nat.eq_dec)) (snd t) (map fst found)) as [K|K].
      - apply in_map_iff in K as ([r x] & E & K). destruct (F2 r x K) as (u & s1 & s2 & I' & E' & _ & PM & _). cbn in E. assert (X := accepted_nonempty accepts constrain rel g a true fuel l P u s1 s2 x I' PM). congruence.
      - destruct (F3 t I K) as (s3 & _ & PM). destruct t as [root [i j]]. assert (OKn := tree_ok accepts constrain g a true fuel l P root i j I). cbn.
        destruct (Nat.eq_dec i j) as [->|]; [exfalso|destruct (tree_pos accepts constrain g a true fuel l P root i j I); lia].
        unfold prepare_match in PM. destruct (propagate root) as [v|] eqn:PR; [|discriminate]. assert (EL := propagate_leaves root). rewrite PR in EL. destruct (tree_pos accepts constrain g a true fuel l P root j j I) as [_ B]. rewrite Nat.sub_diag in B. apply map_eq_nil in B. rewrite B in EL. eapply no_empty_leaves; [eapply propagate_no_empty; eauto|]. auto. }
    assert (L1 : forall t, In t l1 -> fst (snd t) < n /\ snd (snd t) <= n).
    { intros t I. assert (X : exists u, In u l /\ snd u = snd t) by (clear - F I; induction F as [|u v x y H F IH]; [destruct I|]; destruct I as [<-|I]; [exists u; split; [left; reflexivity|apply H]|destruct (IH I) as (w & J & E); exists w; split; [right; exact J|exact E]]).
      destruct X as (u & J & <-). specialize (NE u J). destruct u as [root [i j]]. destruct (tree_stop accepts constrain g a true fuel l P root i j J) as [S1 _]. cbn in *. lia. }
    assert (L2 : forall t, In t l2 -> n <= fst (snd t)).
    { intros [root [i j]] I. specialize (B2 _ I). cbn in *. destruct (apart i j (erase root)) as [X|X]; [|lia|exact X].
      apply (parse_sound accepts constrain g fuel long true (l1 ++ l2) root i j PS P'). apply in_or_app. right. exact I. }
    unfold findall in Fa, Fl. rewrite P in Fa. rewrite P' in Fl. injection Fa as Fa. injection Fl as Fl.
    destruct (sort_trees_ok accepts constrain g a true fuel l P) as (so & S1 & S2 & S3). destruct (sort_trees_ok accepts constrain g long true fuel (l1 ++ l2) P') as (so' & S1' & S2' & S3').
    rewrite S1 in Fa. rewrite S1' in Fl. cbn [bind] in Fa, Fl.
    assert (SP : exists so1 so2, so' = so1 ++ so2 /\ Forall2 (twin_tree m) so so1 /\ forall t, In t so2 -> n <= fst (snd t)).
    { rewrite sort_app in S1'. assert (T := twin_sort m OO l l1 F [] [] (Forall2_nil _)). rewrite S1 in T. unfold twin_list in T. destruct (sort_trees l1 []) as [so1|] eqn:So1; [|contradiction]. cbn [bind] in S1'.
      assert (LE : forall y, In y so1 -> fst (snd y) < n).
      { intros y I. assert (X : exists u, In u so /\ snd u = snd y) by (clear - T I; induction T as [|u v x z H T IH]; [destruct I|]; destruct I as [<-|I]; [exists u; split; [left; reflexivity|apply H]|destruct (IH I) as (w & J & E); exists w; split; [right; exact J|exact E]]).
        destruct X as (u & J & <-). apply (Permutation.Permutation_in _ (Permutation.Permutation_sym S2)) in J. specialize (NE u J). destruct u as [root [i j]]. destruct (tree_stop accepts constrain g a true fuel l P root i j J) as [S0 _]. cbn in *. lia. }
      assert (S1'' := S1'). rewrite <- (app_nil_r so1) in S1'. rewrite (sort_behind n l2 L2 so1 [] LE) in S1'. destruct (sort_trees l2 []) as [so2|] eqn:So2; [|discriminate]. cbn [bind] in S1'. injection S1' as <-.
      exists so1, so2. split; [reflexivity|]. split; [exact T|]. intros t I.
      destruct (sort_in l2 [] so2 So2 t I) as [J|[]]. apply L2, J. }
    destruct SP as (so1 & so2 & -> & T & Bo).
    destruct (resolved_gathered accepts constrain rel g a true fuel l P (fun _ => True) so ms s S2 S3) as (found & _ & C & In1 & Best1); [|exact Fa|].
    { intros s1 found C. destruct (collect_spec rel g fuel l (fun _ => True) (fun _ _ _ _ _ _ _ => Logic.I) so [] [] s1 found) as (new & E & _ & G); [intros x I; apply (Permutation.Permutation_in _ (Permutation.Permutation_sym S2)), I|exact Logic.I|exact C|]. cbn in E. subst new. exact G. }
    destruct (resolved_gathered accepts constrain rel g long true fuel (l1 ++ l2) P' (fun _ => True) (so1 ++ so2) ms' s' S2' S3') as (found' & G' & C' & In2 & Best2); [|exact Fl|].
    { intros s1 found' C'. destruct (collect_spec rel g fuel (l1 ++ l2) (fun _ => True) (fun _ _ _ _ _ _ _ => Logic.I) (so1 ++ so2) [] [] s1 found') as (new & E & _ & G); [intros x I; apply (Permutation.Permutation_in _ (Permutation.Permutation_sym S2')), I|exact Logic.I|exact C'|]. cbn in E. subst new. exact G. }
    rewrite collect_app in C'. assert (TW := collect_twin rel g m so so1 T [] [] [] (Forall2_nil _)). rewrite C in TW. unfold twin_entries in TW. destruct (collect rel g so1 [] []) as [[s1 found1]|] eqn:C1; [|contradiction]. destruct TW as [<- TW]. cbn [bind] in C'.
    destruct (collect_keys rel g so2 found1 s s' found' C') as (new & -> & NK).
    destruct (collect_keys rel g so [] [] s found C) as (old & Eo & OK1). cbn in Eo. subst old.
    assert (KEYS : map fst found1 = map fst found) by (clear - TW; induction TW as [|x y l l' [E _] F IH]; [reflexivity|]; cbn; congruence).
    assert (LO : forall r, In r (map fst found) -> fst r < snd r /\ snd r <= n).
    { intros r I. apply in_map_iff in I as ([r' x] & E & I). cbn in E. subst r'. destruct (OK1 r x I) as (t & J & <-). apply (Permutation.Permutation_in _ (Permutation.Permutation_sym S2)) in J. specialize (NE t J). destruct t as [root [i j]]. destruct (tree_stop accepts constrain g a true fuel l P root i j J) as [S0 _]. cbn in *. lia. }
    assert (HI : forall r, In r (map fst new) -> n <= fst r).
    { intros r I. apply in_map_iff in I as ([r' x] & E & I). cbn in E. subst r'. destruct (NK r x I) as (t & J & <-). apply Bo, J. }
    assert (B1 : best_ranges (fun r => In r (map fst found)) (map m_range ms)) by exact Best1.
    assert (B2' : best_ranges (fun r => In r (map fst (found1 ++ new))) (map m_range ms')) by exact Best2.
    destruct (best_prefix (fun r => In r (map fst (found1 ++ new))) (fun r => In r (map fst found)) n (map m_range ms) (map m_range ms')) as (b & E & Hb).
    - intros r I. rewrite map_app, KEYS in I. apply in_app_or in I as [I|I]; [left; apply LO, I|right; apply HI, I].
    - intros r I. apply LO, I.
    - intros r X Y. rewrite map_app, KEYS. split; intros I; [|apply in_or_app; left; exact I]. apply in_app_or in I as [I|I]; [exact I|]. specialize (HI r I). lia.
    - exact B1.
    - exact B2'.
    - destruct (map_split m_range ms' (map m_range ms) b E) as (first & rest & -> & E1 & E2). exists first, rest. split; [reflexivity|]. split.
      + assert (ND : NoDup (map fst found)) by (destruct G' as [G1 _ _ _ _]; rewrite map_app, KEYS in G1; clear - G1; induction (map fst found) as [|z q IH]; [constructor|]; cbn in G1; inversion G1; subst; constructor; [intros I; apply H1, in_or_app; left; exact I|apply IH; assumption]).
        assert (X : forall x y, In x first -> In y ms -> m_range x = m_range y -> shown x = shown y).
        { intros x y Ix Iy Exy. assert (J : In (m_range x, x) (found1 ++ new)) by (apply In2, in_or_app; left; exact Ix). assert (J' := In1 y Iy).
          apply in_app_or in J as [J|J]; [|exfalso; assert (K := HI _ (in_map fst _ _ J)); assert (K' := LO _ (in_map fst _ _ J')); cbn in K, K'; rewrite Exy in K; lia].
          rewrite Exy in J. clear - TW J J' ND. induction TW as [|[r u] [r' v] l l' [H1 H2] F IH]; [destruct J|]. cbn in H1, H2. subst r'. cbn in ND. inversion ND as [|? ? N1 N2]; subst.
          destruct J as [J|J], J' as [J'|J'].
          - injection J' as -> ->. injection J as ->. symmetry. exact H2.
          - exfalso. injection J as -> _. apply N1. apply (in_map fst) in J'. exact J'.
          - exfalso. injection J' as -> _. apply N1. assert (Q : map fst l = map fst l') by (clear - F; induction F as [|p q l l' [E _] F IH]; [reflexivity|]; cbn; congruence). rewrite Q. apply (in_map fst) in J. exact J.
          - apply IH; assumption. }
        clear - X E1. revert first X E1. induction ms as [|y ms IH]; intros [|x first] X E1; try discriminate; [reflexivity|]. cbn [map] in *. injection E1 as Ex E1. f_equal; [apply X; [left; reflexivity|left; reflexivity|exact Ex]|]. apply IH; [intros u v I J; apply X; right; assumption|exact E1].
      + intros x I. apply Hb. rewrite <- E2. apply in_map, I.
  Qed.
End Parser.
