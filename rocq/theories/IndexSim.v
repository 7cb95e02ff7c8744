(** Productions that cannot start with the token do not influence the chart: two grammars
    whose predictions differ in such productions only find the same parses. *)
From Verif Require Import Base TokenModel EarleyModel EarleySpec ParserModel ParserSpec PipelineSpec.
Open Scope nat_scope.

Section Lists.
  Context {A B : Type}.
  Variable R : A -> B -> Prop.
  Lemma Forall2_nth_both l l' i : Forall2 R l l' ->
    match nth_error l i, nth_error l' i with Some x, Some y => R x y | None, None => True | _, _ => False end.
  Proof. intros F. revert i. induction F as [|x y l l' H F IH]; intros [|i]; cbn; auto. apply IH. Qed.
  Lemma Forall2_filter (f : A -> bool) (f' : B -> bool) l l' : (forall x y, R x y -> f x = f' y) -> Forall2 R l l' -> Forall2 R (filter f l) (filter f' l').
  Proof. intros E F. induction F as [|x y l l' H F IH]; cbn; [constructor|]. rewrite (E x y H). destruct (f' y); [constructor|]; auto. Qed.
  Lemma Forall2_existsb (f : A -> bool) (f' : B -> bool) l l' : (forall x y, R x y -> f x = f' y) -> Forall2 R l l' -> existsb f l = existsb f' l'.
  Proof. intros E F. induction F as [|x y l l' H F IH]; cbn; [reflexivity|]. rewrite (E x y H), IH. reflexivity. Qed.
End Lists.
Lemma Forall2_more {A B} (R R' : A -> B -> Prop) l l' : (forall x y, R x y -> R' x y) -> Forall2 R l l' -> Forall2 R' l l'.
Proof. intros E F. induction F; constructor; auto. Qed.
Lemma filter_filter {A} (f f' : A -> bool) l : filter f (filter f' l) = filter (fun x => f x && f' x) l.
Proof. induction l as [|x l IH]; cbn; [reflexivity|]. destruct (f' x); cbn; rewrite IH; destruct (f x); reflexivity. Qed.
Lemma filter_same {A} (f f' : A -> bool) l : (forall x, In x l -> f x = f' x) -> filter f l = filter f' l.
Proof. induction l as [|x l IH]; intros E; cbn; [reflexivity|]. rewrite (E x (or_introl eq_refl)), IH by (intros y Hy; apply E; right; exact Hy). reflexivity. Qed.
Lemma existsb_filter {A} (f f' : A -> bool) l : (forall x, f x = true -> f' x = true) -> existsb f (filter f' l) = existsb f l.
Proof.
  intros E. induction l as [|x l IH]; cbn; [reflexivity|]. destruct (f' x) eqn:F; cbn; rewrite IH; [reflexivity|].
  destruct (f x) eqn:G; [rewrite (E x G) in F; discriminate|reflexivity].
Qed.

Section Sim.
  Context {token pred : Type}.
  Variable accepts : pred -> token -> bool.
  Variable constrain : pred -> token -> token.
  Variables g g' : grammar token pred.
  Variable toks : list token.
  Hypothesis same_prods : forall r, g_prods g' r = g_prods g r.
  Hypothesis same_terms : forall q, g_terms g' q = g_terms g q.
  Hypothesis same_start : g_start g' = g_start g.
  (** The production may start with the token. *)
  Definition starts (t : token) (q : nat) : bool := match g_terms g q with TPred p :: _ => accepts p t | _ => true end.
  Hypothesis same_predict : forall r t, filter (starts t) (g_predict g r t) = filter (starts t) (g_predict g' r t).
  Notation state := (state token pred).
  Notation node := (node token pred).
  Notation cst := (cst token pred).

  Lemma next_same (s : state) : next_term g' s = next_term g s.
  Proof. unfold next_term. rewrite same_terms. reflexivity. Qed.

  (** The state waits for a token that it refuses: nothing happens to it. *)
  Definition alive (k : nat) (s : state) : bool :=
    match next_term g s with
    | Some (TPred p) => match nth_error toks k with Some t => accepts p t | None => true end
    | _ => true
    end.
  Section Rel.
    Variable m : nat -> nat -> Prop.
    Definition node_rel (n n' : node) : Prop := m (node_id n) (node_id n') /\ erase n = erase n'.
    Record state_rel (s s' : state) : Prop := {
      r_rule : s_rule s = s_rule s'; r_prod : s_prod s = s_prod s'; r_dot : s_dot s = s_dot s';
      r_start : s_start s = s_start s'; r_stop : s_stop s = s_stop s'; r_id : m (s_id s) (s_id s');
      r_children : Forall2 node_rel (s_children s) (s_children s') }.
  End Rel.
  Lemma node_rel_more (m m' : nat -> nat -> Prop) n n' : (forall a b, m a b -> m' a b) -> node_rel m n n' -> node_rel m' n n'.
  Proof. intros E [H1 H2]. split; auto. Qed.
  Lemma state_rel_more (m m' : nat -> nat -> Prop) s s' : (forall a b, m a b -> m' a b) -> state_rel m s s' -> state_rel m' s s'.
  Proof. intros E []. split; auto. eapply Forall2_more; [|eassumption]. intros x y. apply node_rel_more, E. Qed.
  Lemma rel_next m s s' : state_rel m s s' -> next_term g s = next_term g s'.
  Proof. intros []. unfold next_term. congruence. Qed.
  Lemma rel_alive m k s s' : state_rel m s s' -> alive k s = alive k s'.
  Proof. intros H. unfold alive. rewrite (rel_next m s s' H). reflexivity. Qed.
  Lemma rel_node m s s' : state_rel m s s' -> node_rel m (state_node s) (state_node s').
  Proof.
    intros []. split; [exact r_id0|]. unfold state_node. cbn [erase]. rewrite r_rule0, r_prod0. f_equal.
    clear - r_children0. induction r_children0 as [|x y l l' H F IH]; cbn; [reflexivity|]. destruct H as [_ ->]. rewrite IH. reflexivity.
  Qed.
  Lemma key_alive k (s x : state) : same_key s x = true -> alive k s = alive k x.
  Proof.
    unfold same_key. rewrite !Bool.andb_true_iff, !Nat.eqb_eq. intros (((((_ & P) & D) & _) & _) & _). unfold alive, next_term. rewrite P, D. reflexivity.
  Qed.

  (** The states that matter correspond; [m] pairs the identities of their nodes. *)
  Record sim (m : nat -> nat -> Prop) (a b : cst) : Prop := {
    sim_cols : forall k, Forall2 (state_rel m) (filter (alive k) (cols a k)) (filter (alive k) (cols b k));
    sim_low : forall i j, m i j -> i < fresh a /\ j < fresh b;
    sim_fun : forall i j j', m i j -> m i j' -> j = j';
    sim_inj : forall i i' j, m i j -> m i' j -> i = i' }.
  Lemma ids_same m a b l l' : sim m a b -> forall r r', Forall2 (node_rel m) l l' -> Forall2 (node_rel m) r r' -> nats_eqb (map node_id l) (map node_id r) = nats_eqb (map node_id l') (map node_id r').
  Proof.
    intros S r r' F. revert r r'. induction F as [|x y l l' H F IH]; intros r r' F'; inversion F'; subst; try reflexivity.
    cbn. destruct H as [H _]. match goal with K : node_rel m _ _ |- _ => destruct K as [K _] end. f_equal; [|apply IH; assumption].
    destruct (Nat.eqb_spec (node_id x) (node_id x0)) as [E|E], (Nat.eqb_spec (node_id y) (node_id y0)) as [E'|E']; try reflexivity; exfalso.
    - apply E'. rewrite E in H. eapply (sim_fun m a b S); eassumption.
    - apply E. rewrite E' in H. eapply (sim_inj m a b S); eassumption.
  Qed.
  Lemma key_same m a b s s' x x' : sim m a b -> Forall2 (node_rel m) (s_children s) (s_children s') ->
    s_rule s = s_rule s' -> s_prod s = s_prod s' -> s_dot s = s_dot s' -> s_start s = s_start s' -> s_stop s = s_stop s' ->
    state_rel m x x' -> same_key s x = same_key s' x'.
  Proof.
    unfold same_key. intros S F -> -> -> -> -> []. rewrite r_rule0, r_prod0, r_dot0, r_start0, r_stop0, (ids_same m a b _ _ S _ _ F r_children0). reflexivity.
  Qed.
  (** One identity is given out on each side. *)
  Definition extend (m : nat -> nat -> Prop) (x y : nat) (i j : nat) : Prop := m i j \/ i = x /\ j = y.
  Lemma sim_extend m a b : sim m a b -> sim (extend m (fresh a) (fresh b)) (alloc a) (alloc b).
  Proof.
    intros []. split.
    - intros k. eapply Forall2_more; [|apply sim_cols0]. intros x y. apply state_rel_more. intros i j H. left. exact H.
    - intros i j [H|[-> ->]]; cbn; [apply sim_low0 in H|]; lia.
    - intros i j j' [H|[-> ->]] [H'|[E ->]]; [eauto|subst; apply sim_low0 in H; lia|apply sim_low0 in H'; lia|reflexivity].
    - intros i i' j [H|[-> ->]] [H'|[-> E]]; [eauto|subst; apply sim_low0 in H; lia|apply sim_low0 in H'; lia|reflexivity].
  Qed.
  Lemma sim_alloc_left m a b : sim m a b -> sim m (alloc a) b.
  Proof. intros []. split; auto. intros i j H. apply sim_low0 in H. cbn. lia. Qed.
  Lemma sim_alloc_right m a b : sim m a b -> sim m a (alloc b).
  Proof. intros []. split; auto. intros i j H. apply sim_low0 in H. cbn. lia. Qed.
  (** Appending states that correspond. *)
  Lemma sim_append m a b k s s' : sim m a b -> state_rel m s s' -> sim m (append k s a) (append k s' b).
  Proof.
    intros S R. assert (Al := rel_alive m k s s' R).
    assert (Ex : alive k s = true -> existsb (same_key s) (cols a k) = existsb (same_key s') (cols b k)).
    { intros Hs. rewrite <- (existsb_filter (same_key s) (alive k) (cols a k)), <- (existsb_filter (same_key s') (alive k) (cols b k)).
      - apply (Forall2_existsb (state_rel m)); [|apply (sim_cols m a b S)]. intros x x' Hx. destruct R. apply (key_same m a b); auto.
      - intros x Hx. rewrite <- (key_alive k s' x Hx). congruence.
      - intros x Hx. rewrite <- (key_alive k s x Hx). exact Hs. }
    assert (Skip : forall (c : cst) s k', alive k s = false -> filter (alive k') (cols (append k s c) k') = filter (alive k') (cols c k')).
    { intros c x k' N. unfold append. destruct (existsb (same_key x) (cols c k)); [reflexivity|]. cbn. destruct (Nat.eqb_spec k' k) as [->|]; [|reflexivity]. rewrite filter_app. cbn. rewrite N. apply app_nil_r. }
    assert (Fr : forall (c : cst) s, fresh (append k s c) = fresh c) by (intros c x; unfold append; destruct (existsb (same_key x) (cols c k)); reflexivity).
    destruct S. split; auto.
    - intros k'. destruct (alive k s) eqn:As.
      + unfold append. rewrite <- (Ex eq_refl). destruct (existsb (same_key s) (cols a k)); [apply sim_cols0|]. cbn. destruct (Nat.eqb_spec k' k) as [->|]; [|apply sim_cols0].
        rewrite !filter_app. apply Forall2_app; [apply sim_cols0|]. cbn. rewrite As, <- Al. constructor; [exact R|constructor].
      + rewrite !Skip by congruence. apply sim_cols0.
    - intros i j H. rewrite !Fr. auto.
  Qed.
  Lemma sim_append_left m a b k s : sim m a b -> alive k s = false -> sim m (append k s a) b.
  Proof.
    intros [] N. unfold append. destruct (existsb (same_key s) (cols a k)); split; auto. intros k'. cbn. destruct (Nat.eqb_spec k' k) as [->|]; [|apply sim_cols0]. rewrite filter_app. cbn. rewrite N, app_nil_r. apply sim_cols0.
  Qed.
  Lemma sim_append_right m a b k s : sim m a b -> alive k s = false -> sim m a (append k s b).
  Proof.
    intros [] N. unfold append. destruct (existsb (same_key s) (cols b k)); split; auto. intros k'. cbn. destruct (Nat.eqb_spec k' k) as [->|]; [|apply sim_cols0]. rewrite filter_app. cbn. rewrite N, app_nil_r. apply sim_cols0.
  Qed.

  Definition related (a b : cst) : Prop := exists m, sim m a b.
  (** The production may start in column [k]. *)
  Definition starts_at (k q : nat) : bool := match nth_error toks k with Some t => starts t q | None => true end.
  Lemma starts_alive k r q id rank : alive k (mkState r q 0 k k id rank []) = starts_at k q.
  Proof. unfold alive, starts_at, starts, next_term. cbn. destruct (g_terms g q) as [|[r'|p] ts]; cbn; destruct (nth_error toks k); reflexivity. Qed.
  Lemma predict_skips_left k r ps : forall rank a b, related a b -> (forall q, In q ps -> starts_at k q = false) -> related (predict_loop k r rank ps a) b.
  Proof.
    induction ps as [|q ps IH]; intros rank a b (m & S) N; [exists m; exact S|]. cbn. apply IH; [|intros x Hx; apply N; right; exact Hx].
    exists m. apply sim_append_left; [apply sim_alloc_left, S|]. rewrite starts_alive. apply N. left. reflexivity.
  Qed.
  Lemma predict_skips_right k r ps : forall rank a b, related a b -> (forall q, In q ps -> starts_at k q = false) -> related a (predict_loop k r rank ps b).
  Proof.
    induction ps as [|q ps IH]; intros rank a b (m & S) N; [exists m; exact S|]. cbn. apply IH; [|intros x Hx; apply N; right; exact Hx].
    exists m. apply sim_append_right; [apply sim_alloc_right, S|]. rewrite starts_alive. apply N. left. reflexivity.
  Qed.
  Lemma filter_nil {A} (f : A -> bool) l : filter f l = [] -> forall x, In x l -> f x = false.
  Proof. induction l as [|y l IH]; intros E x []; cbn in E; destruct (f y) eqn:F; try discriminate; [congruence|auto]. Qed.
  Lemma sim_predict_loop k r : forall ps ps' rank rank' a b, related a b -> filter (starts_at k) ps = filter (starts_at k) ps' ->
    related (predict_loop k r rank ps a) (predict_loop k r rank' ps' b).
  Proof.
    induction ps as [|q ps IH]; intros ps' rank rank' a b S E.
    - cbn in *. apply predict_skips_right; [exact S|]. apply filter_nil. congruence.
    - cbn [filter] in E. destruct (starts_at k q) eqn:Q.
      + revert rank' b S E. induction ps' as [|q' ps' IH']; intros rank' b S E; [discriminate|]. cbn [filter] in E. destruct (starts_at k q') eqn:Q'.
        * injection E as <- E. cbn. apply IH; [|exact E]. destruct S as (m & S). eexists. apply sim_append; [apply sim_extend, S|]. split; cbn; auto. right. auto.
        * change (predict_loop k r rank' (q' :: ps') b) with (predict_loop k r (Datatypes.S rank') ps' (append k (mkState r q' 0 k k (fresh b) rank' []) (alloc b))). apply IH'; [|exact E].
          destruct S as (m & S). exists m. apply sim_append_right; [apply sim_alloc_right, S|]. rewrite starts_alive. exact Q'.
      + cbn. apply IH; [|exact E]. destruct S as (m & S). exists m. apply sim_append_left; [apply sim_alloc_left, S|]. rewrite starts_alive. exact Q.
  Qed.
  Lemma sim_predict k r a b : related a b -> related (predict g toks k r a) (predict g' toks k r b).
  Proof.
    intros S. apply sim_predict_loop; [exact S|]. unfold predicted, starts_at. destruct (nth_error toks k) as [t|]; [apply same_predict|rewrite same_prods; reflexivity].
  Qed.
  Lemma sim_scan k p t a b m s s' : sim m a b -> state_rel m s s' -> related (scan accepts constrain k p t s a) (scan accepts constrain k p t s' b).
  Proof.
    intros S R. unfold scan. destruct (accepts p t); [|exists m; exact S].
    assert (S1 := sim_extend m a b S). assert (S2 := sim_extend _ _ _ S1). eexists. apply sim_append; [exact S2|].
    destruct R. split; cbn; try congruence.
    - right. auto.
    - apply Forall2_app.
      + eapply Forall2_more; [|exact r_children0]. intros x y. apply node_rel_more. intros i j H. left. left. exact H.
      + constructor; [|constructor]. split; [|reflexivity]. cbn. left. right. auto.
  Qed.
  Lemma expecting_alive k r (c : cst) : filter (expects g r) (filter (alive k) (cols c k)) = expecting g k r c.
  Proof.
    unfold expecting. rewrite filter_filter. apply filter_same. intros s _. unfold expects, alive. destruct (next_term g s) as [[r'|p]|]; [apply Bool.andb_true_r|reflexivity|reflexivity].
  Qed.
  Lemma expecting_same k r (c : cst) : expecting g' k r c = expecting g k r c.
  Proof. unfold expecting. apply filter_same. intros s _. unfold expects. rewrite next_same. reflexivity. Qed.
  Lemma sim_complete k : forall fuel fuel' j m a b s s' a' b', sim m a b -> state_rel m s s' ->
    complete_loop g fuel k s j a = Some a' -> complete_loop g' fuel' k s' j b = Some b' -> related a' b'.
  Proof.
    induction fuel as [|fuel IH]; intros fuel' j m a b s s' a' b' S R Ha Hb;
      assert (N : match nth_error (expecting g (s_start s) (s_rule s) a) j, nth_error (expecting g' (s_start s') (s_rule s') b) j with Some x, Some y => state_rel m x y | None, None => True | _, _ => False end)
        by (destruct R as [Er _ _ Es _ _ _]; rewrite <- Er, <- Es, expecting_same, <- !expecting_alive; apply (Forall2_nth_both (state_rel m)), Forall2_filter; [intros x y H; unfold expects; rewrite (rel_next m x y H); reflexivity|apply (sim_cols m a b S)]).
    - cbn in Ha. destruct (nth_error (expecting g (s_start s) (s_rule s) a) j) eqn:E; [discriminate|]. injection Ha as <-.
      destruct fuel'; cbn in Hb; destruct (nth_error (expecting g' (s_start s') (s_rule s') b) j); try contradiction; injection Hb as <-; exists m; exact S.
    - cbn in Ha. destruct (nth_error (expecting g (s_start s) (s_rule s) a) j) as [x|] eqn:E.
      + destruct fuel' as [|fuel']; cbn in Hb; (destruct (nth_error (expecting g' (s_start s') (s_rule s') b) j) as [y|]; [|contradiction]); [discriminate|].
        assert (R' : state_rel (extend m (fresh a) (fresh b)) s s') by (eapply state_rel_more; [|exact R]; intros i i' H; left; exact H).
        eapply (IH fuel' (Datatypes.S j)); [|exact R'|exact Ha|exact Hb]. apply sim_append; [apply sim_extend, S|].
        destruct N. split; cbn; try congruence; [right; auto|]. apply Forall2_app.
        * eapply Forall2_more; [|exact r_children0]. intros u v. apply node_rel_more. intros i i' H. left. exact H.
        * constructor; [|constructor]. apply rel_node. exact R'.
      + injection Ha as <-. destruct fuel'; cbn in Hb; destruct (nth_error (expecting g' (s_start s') (s_rule s') b) j); try contradiction; injection Hb as <-; exists m; exact S.
  Qed.
  Lemma sim_process k fuel fuel' m a b s s' a' b' : sim m a b -> state_rel m s s' ->
    process accepts constrain g toks fuel k s a = Some a' -> process accepts constrain g' toks fuel' k s' b = Some b' -> related a' b'.
  Proof.
    intros S R. unfold process. rewrite next_same, (rel_next m s s' R). destruct (next_term g s') as [[r|p]|].
    - intros Ha Hb. injection Ha as <-. injection Hb as <-. apply sim_predict. exists m. exact S.
    - destruct (nth_error toks k) as [t|]; intros Ha Hb; injection Ha as <-; injection Hb as <-; [apply (sim_scan k p t a b m); auto|exists m; exact S].
    - intros Ha Hb. apply (sim_complete k fuel fuel' 0 m a b s s' a' b' S R Ha Hb).
  Qed.
  Lemma dead_process k fuel s a a' : alive k s = false -> process accepts constrain g toks fuel k s a = Some a' -> a' = a.
  Proof.
    unfold alive, process. destruct (next_term g s) as [[r|p]|]; try discriminate. destruct (nth_error toks k) as [t|]; [|discriminate]. intros E H. injection H as <-. unfold scan. rewrite E. reflexivity.
  Qed.
  Lemma dead_process' k fuel s a a' : alive k s = false -> process accepts constrain g' toks fuel k s a = Some a' -> a' = a.
  Proof.
    unfold alive, process. rewrite next_same. destruct (next_term g s) as [[r|p]|]; try discriminate. destruct (nth_error toks k) as [t|]; [|discriminate]. intros E H. injection H as <-. unfold scan. rewrite E. reflexivity.
  Qed.

  (** Columns only grow at the end. *)
  Definition grows (a b : cst) : Prop := forall k, exists l, cols b k = cols a k ++ l.
  Lemma grows_refl a : grows a a.
  Proof. intros k. exists []. symmetry. apply app_nil_r. Qed.
  Lemma grows_trans a b c : grows a b -> grows b c -> grows a c.
  Proof. intros H1 H2 k. destruct (H1 k) as (l1 & E1), (H2 k) as (l2 & E2). exists (l1 ++ l2). rewrite E2, E1, app_assoc. reflexivity. Qed.
  Lemma grows_append k (s : state) a : grows a (append k s (alloc a)).
  Proof.
    intros k'. unfold append. cbn. destruct (existsb (same_key s) (cols a k)); [exists []; symmetry; apply app_nil_r|]. cbn. destruct (Nat.eqb_spec k' k) as [->|]; [eauto|exists []; symmetry; apply app_nil_r].
  Qed.
  Lemma grows_predict k r ps : forall rank a, grows a (predict_loop k r rank ps a).
  Proof. induction ps as [|q ps IH]; intros rank a; [apply grows_refl|]. cbn. eapply grows_trans; [apply grows_append|apply IH]. Qed.
  Lemma grows_complete (gr : grammar token pred) k s : forall fuel j a a', complete_loop gr fuel k s j a = Some a' -> grows a a'.
  Proof.
    induction fuel as [|fuel IH]; intros j a a' H; cbn in H; destruct (nth_error (expecting gr (s_start s) (s_rule s) a) j); try discriminate; try (injection H as <-; apply grows_refl).
    eapply grows_trans; [apply grows_append|apply (IH _ _ _ H)].
  Qed.
  Lemma grows_process (gr : grammar token pred) fuel k s a a' : process accepts constrain gr toks fuel k s a = Some a' -> grows a a'.
  Proof.
    unfold process. destruct (next_term gr s) as [[r|p]|].
    - intros H. injection H as <-. apply grows_predict.
    - destruct (nth_error toks k) as [t|]; intros H; injection H as <-; [|apply grows_refl]. unfold scan. destruct (accepts p t); [|apply grows_refl].
      intros k'. apply (grows_append (S k) _ (alloc a) k').
    - apply grows_complete.
  Qed.

  (** How many of the first [i] states of column [k] matter. *)
  Definition count (k i : nat) (a : cst) : nat := length (filter (alive k) (firstn i (cols a k))).
  Lemma count_grows k i a a' : i <= length (cols a k) -> grows a a' -> count k i a' = count k i a.
  Proof. intros L G. unfold count. destruct (G k) as (l & ->). rewrite firstn_app. replace (i - length (cols a k)) with 0 by lia. cbn. rewrite app_nil_r. reflexivity. Qed.
  Lemma firstn_next {A} (l : list A) : forall i x, nth_error l i = Some x -> firstn (S i) l = firstn i l ++ [x].
  Proof. induction l as [|y l IH]; intros [|i] x E; try discriminate; cbn in *; [congruence|]. rewrite <- (IH i x E). reflexivity. Qed.
  Lemma count_next k i a s : nth_error (cols a k) i = Some s -> count k (S i) a = count k i a + (if alive k s then 1 else 0).
  Proof. intros E. unfold count. rewrite (firstn_next _ _ _ E), filter_app, app_length. cbn. destruct (alive k s); reflexivity. Qed.
  Lemma count_nth k i a s : nth_error (cols a k) i = Some s -> alive k s = true -> nth_error (filter (alive k) (cols a k)) (count k i a) = Some s.
  Proof.
    intros E A. unfold count. destruct (nth_error_split _ _ E) as (pre & post & -> & <-). rewrite firstn_app, firstn_all, Nat.sub_diag. cbn. rewrite app_nil_r, filter_app. cbn. rewrite A.
    rewrite nth_error_app2, Nat.sub_diag by lia. reflexivity.
  Qed.
  Lemma count_end k i a : nth_error (cols a k) i = None -> nth_error (filter (alive k) (cols a k)) (count k i a) = None.
  Proof. intros E. unfold count. apply nth_error_None in E. rewrite firstn_all2 by exact E. apply nth_error_None. lia. Qed.

  Lemma sim_drain k : forall n fuel fuel' i i' a b a' b', fuel + fuel' <= n -> related a b -> count k i a = count k i' b ->
    drain accepts constrain g toks fuel k i a = Some a' -> drain accepts constrain g' toks fuel' k i' b = Some b' -> related a' b'.
  Proof.
    induction n as [|n IH]; intros fuel fuel' i i' a b a' b' L S C Ha Hb.
    - assert (fuel = 0) by lia. assert (fuel' = 0) by lia. subst. cbn in Ha, Hb. destruct (nth_error (cols a k) i); [discriminate|]. destruct (nth_error (cols b k) i'); [discriminate|]. congruence.
    - destruct (nth_error (cols a k) i) as [s|] eqn:Es.
      + assert (Li : i < length (cols a k)) by (apply nth_error_Some; congruence).
        destruct fuel as [|fuel]; cbn [drain] in Ha; rewrite Es in Ha; [discriminate|].
        destruct (process accepts constrain g toks (Datatypes.S fuel) k s a) as [a1|] eqn:Pa; [|discriminate].
        assert (Ga := grows_process g _ _ _ _ _ Pa). assert (Ca := count_grows k (Datatypes.S i) a a1 Li Ga). rewrite (count_next k i a s Es) in Ca.
        destruct (alive k s) eqn:As.
        * destruct (nth_error (cols b k) i') as [s'|] eqn:Es'.
          -- assert (Li' : i' < length (cols b k)) by (apply nth_error_Some; congruence).
             destruct fuel' as [|fuel']; cbn [drain] in Hb; rewrite Es' in Hb; [discriminate|].
             destruct (process accepts constrain g' toks (Datatypes.S fuel') k s' b) as [b1|] eqn:Pb; [|discriminate].
             assert (Gb := grows_process g' _ _ _ _ _ Pb). assert (Cb := count_grows k (Datatypes.S i') b b1 Li' Gb). rewrite (count_next k i' b s' Es') in Cb.
             destruct (alive k s') eqn:As'.
             ++ destruct S as (m & S). assert (N := Forall2_nth_both _ _ _ (count k i a) (sim_cols m a b S k)).
                rewrite (count_nth k i a s Es As), C, (count_nth k i' b s' Es' As') in N.
                apply (IH fuel fuel' (Datatypes.S i) (Datatypes.S i') a1 b1 a' b'); [lia| |congruence|exact Ha|exact Hb]. apply (sim_process k (Datatypes.S fuel) (Datatypes.S fuel') m a b s s' a1 b1 S N Pa Pb).
             ++ apply (dead_process' k _ s' b b1 As') in Pb as ->.
                apply (IH (Datatypes.S fuel) fuel' i (Datatypes.S i') a b a' b'); [lia|exact S|lia| |exact Hb]. cbn [drain]. rewrite Es, Pa. exact Ha.
          -- exfalso. destruct S as (m & S). assert (N := Forall2_nth_both _ _ _ (count k i a) (sim_cols m a b S k)). rewrite (count_nth k i a s Es As), C, (count_end k i' b Es') in N. exact N.
        * apply (dead_process k _ s a a1 As) in Pa as ->. apply (IH fuel fuel' (Datatypes.S i) i' a b a' b'); [lia|exact S|lia|exact Ha|exact Hb].
      + assert (Ea : a' = a) by (destruct fuel; cbn [drain] in Ha; rewrite Es in Ha; congruence). subst a'.
        destruct (nth_error (cols b k) i') as [s'|] eqn:Es'.
        * assert (Li' : i' < length (cols b k)) by (apply nth_error_Some; congruence).
          destruct fuel' as [|fuel']; cbn [drain] in Hb; rewrite Es' in Hb; [discriminate|].
          destruct (process accepts constrain g' toks (Datatypes.S fuel') k s' b) as [b1|] eqn:Pb; [|discriminate].
          destruct (alive k s') eqn:As'.
          -- exfalso. destruct S as (m & S). assert (N := Forall2_nth_both _ _ _ (count k i a) (sim_cols m a b S k)). rewrite (count_end k i a Es), C, (count_nth k i' b s' Es' As') in N. exact N.
          -- apply (dead_process' k _ s' b b1 As') in Pb as ->. assert (Cb := count_next k i' b s' Es'). rewrite As' in Cb.
             apply (IH fuel fuel' i (Datatypes.S i') a b a b'); [lia|exact S|lia|exact Ha|exact Hb].
        * destruct fuel'; cbn [drain] in Hb; rewrite Es' in Hb; injection Hb as <-; exact S.
  Qed.
  Lemma sim_chart fuel fuel' all : forall n k a b a' b', related a b ->
    chart_from accepts constrain g toks fuel all k n a = Some a' -> chart_from accepts constrain g' toks fuel' all k n b = Some b' -> related a' b'.
  Proof.
    induction n as [|n IH]; intros k a b a' b' S Ha Hb; cbn in Ha, Hb; [congruence|].
    destruct (drain accepts constrain g toks fuel k 0 (start_column g toks all k a)) as [a1|] eqn:Da; [|discriminate].
    destruct (drain accepts constrain g' toks fuel' k 0 (start_column g' toks all k b)) as [b1|] eqn:Db; [|discriminate].
    apply (IH (Datatypes.S k) a1 b1 a' b'); [|exact Ha|exact Hb].
    apply (sim_drain k (fuel + fuel') fuel fuel' 0 0 (start_column g toks all k a) (start_column g' toks all k b)); [lia| |reflexivity|exact Da|exact Db].
    unfold start_column. destruct (Nat.eqb k 0 || all)%bool; [rewrite same_start; apply sim_predict, S|exact S].
  Qed.
  Lemma column_alive k (c : cst) : filter (fun s => completed g s && Nat.eqb (s_rule s) (g_start g)) (filter (alive k) (cols c k)) = column_matches g k c.
  Proof.
    unfold column_matches. rewrite filter_filter. apply filter_same. intros s _. unfold completed, alive. destruct (next_term g s) as [[|]|]; [reflexivity|reflexivity|apply Bool.andb_true_r].
  Qed.
  Lemma column_same k (c : cst) : column_matches g' k c = column_matches g k c.
  Proof. unfold column_matches, completed. rewrite same_start. apply filter_same. intros s _. rewrite next_same. reflexivity. Qed.
  Theorem sim_matches fuel fuel' all a b : chart accepts constrain g toks fuel all = Some a -> chart accepts constrain g' toks fuel' all = Some b ->
    Forall2 (fun x y => (s_start x, s_stop x) = (s_start y, s_stop y) /\ erase (state_node x) = erase (state_node y)) (matches g toks all a) (matches g' toks all b).
  Proof.
    intros Ca Cb. destruct (sim_chart fuel fuel' all (S (length toks)) 0 init_cst init_cst a b) as (m & S); [|exact Ca|exact Cb|].
    { exists (fun _ _ => False). split; cbn; [constructor|contradiction|contradiction|contradiction]. }
    assert (Col : forall k, Forall2 (state_rel m) (column_matches g k a) (column_matches g' k b)).
    { intros k. rewrite column_same, <- !column_alive. apply Forall2_filter; [|apply (sim_cols m a b S)]. intros x y R. unfold completed. rewrite (rel_next m x y R), (r_rule m x y R). reflexivity. }
    assert (All : Forall2 (state_rel m) (matches g toks all a) (matches g' toks all b)).
    { unfold matches. destruct all; [|apply Col]. generalize (seq 0 (Datatypes.S (length toks))). intros l. induction l as [|k l IH]; cbn; [constructor|]. apply Forall2_app; [apply Col|exact IH]. }
    eapply Forall2_more; [|exact All]. cbv beta. intros x y R. split; [rewrite (r_start m x y R), (r_stop m x y R); reflexivity|]. apply (rel_node m x y R).
  Qed.
End Sim.

(** A lookup that keeps the order of productions does not change the parses. *)
Theorem index_keeps_parses {pred} (accepts : pred -> token -> bool) constrain (g : grammar token pred) fuel fuel' toks all trees trees' :
  predict_filters g -> predict_complete accepts g ->
  parse accepts constrain g fuel toks all = Some trees -> parse accepts constrain (without_index g) fuel' toks all = Some trees' ->
  Forall2 (fun x y => snd x = snd y /\ erase (fst x) = erase (fst y)) trees trees'.
Proof.
  intros PF PC. unfold parse.
  destruct (chart accepts constrain g toks fuel all) as [a|] eqn:Ca; [|discriminate]. destruct (chart accepts constrain (without_index g) toks fuel' all) as [b|] eqn:Cb; [|discriminate].
  intros Ha Hb. injection Ha as <-. injection Hb as <-.
  assert (M := sim_matches accepts constrain g (without_index g) toks (fun _ => eq_refl) (fun _ => eq_refl) eq_refl).
  specialize (M ltac:(
    intros r t; cbn; destruct (PF r t) as (keep & E); rewrite E, filter_filter; apply filter_same; intros q Hq;
    unfold starts; destruct (match g_terms g q with TPred p :: _ => accepts p t | _ => true end) eqn:St; [|reflexivity]; cbn;
    assert (K : In q (g_predict g r t)) by (apply PC; [exact Hq|]; destruct (g_terms g q) as [|[|] ts]; auto);
    rewrite E in K; apply filter_In in K as [_ K]; exact K) fuel fuel' all a b Ca Cb).
  unfold prepare_trees. clear - M. induction M as [|x y l l' R F IH]; cbn; constructor; [exact R|exact IH].
Qed.
