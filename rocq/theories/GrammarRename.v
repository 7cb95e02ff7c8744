(** Parsing with a grammar whose rules and productions have other numbers. *)
From Verif Require Import Base TokenModel EarleyModel EarleySpec TreeModel TreeProofs SpanModel ParserModel RuleCopySpec RuleRename.
Open Scope nat_scope.

Section Rename.
  Context {pred : Type}.
  Variable accepts : pred -> token -> bool.
  Variable constrain : pred -> token -> token.
  Variable rel : nat -> form -> form -> bool.
  Variable f : nat -> nat.
  Variable D : nat -> Prop.
  Hypothesis inj : forall p q, D p -> D q -> f p = f q -> p = q.
  Notation grammar := (grammar token pred).
  Notation node := (node token pred).
  Notation state := (state token pred).
  Notation cst := (cst token pred).
  Notation amatch := (amatch (pred := pred)).
  Notation tree := (tree (pred := pred)).
  Notation ren_term := (moved_term (pred := pred) f).
  Notation term_in := (term_in (pred := pred) D).

  Record renumbered (g g' : grammar) : Prop := {
    n_start : g_start g' = f (g_start g) /\ D (g_start g);
    n_prods : forall r, D r -> g_prods g' (f r) = map f (g_prods g r) /\ Forall D (g_prods g r);
    n_predict : forall r t, D r -> g_predict g' (f r) t = map f (g_predict g r t) /\ Forall D (g_predict g r t);
    n_terms : forall q, D q -> g_terms g' (f q) = map ren_term (g_terms g q) /\ Forall term_in (g_terms g q);
    n_main : forall q, D q -> g_main g' (f q) = g_main g q;
    n_key : forall q, D q -> g_key g' (f q) = g_key g q;
    n_relation : forall r, D r -> g_relation g' (f r) = g_relation g r;
    n_interp : forall r, D r -> g_interp g' (f r) = g_interp g r }.
  Variables g g' : grammar.
  Hypothesis same : renumbered g g'.

  Fixpoint ren_node (n : node) : node :=
    match n with Leaf id pos p t => Leaf id pos p t | Node id r q rank ch => Node id (f r) (f q) rank (map ren_node ch) end.
  Inductive node_in : node -> Prop :=
  | in_leaf id pos p t : node_in (Leaf id pos p t)
  | in_node id r q rank ch : D r -> D q -> Forall node_in ch -> node_in (Node id r q rank ch).
  Definition ren_state (s : state) : state := mkState (f (s_rule s)) (f (s_prod s)) (s_dot s) (s_start s) (s_stop s) (s_id s) (s_rank s) (map ren_node (s_children s)).
  Definition state_in (s : state) : Prop := D (s_rule s) /\ D (s_prod s) /\ Forall node_in (s_children s).
  Definition cst_rel (st st' : cst) : Prop := fresh st' = fresh st /\ forall k, cols st' k = map ren_state (cols st k) /\ Forall state_in (cols st k).

  Lemma ren_id n : node_id (ren_node n) = node_id n.
  Proof. destruct n; reflexivity. Qed.
  Lemma eqb_f p q : D p -> D q -> Nat.eqb (f p) (f q) = Nat.eqb p q.
  Proof. intros Dp Dq. destruct (Nat.eqb_spec p q) as [->|N]; [apply Nat.eqb_refl|]. apply Nat.eqb_neq. intros E. apply N, (inj p q Dp Dq E). Qed.
  Lemma key_ren s x : state_in s -> state_in x -> same_key (ren_state s) (ren_state x) = same_key s x.
  Proof. intros (R1 & P1 & _) (R2 & P2 & _). unfold same_key. cbn. rewrite !eqb_f by assumption. rewrite !map_map. f_equal. f_equal; apply map_ext; intros n; apply ren_id. Qed.
  Lemma append_rel k s st st' : state_in s -> cst_rel st st' -> cst_rel (append k s st) (append k (ren_state s) st').
  Proof.
    intros Ss [F C]. unfold append. destruct (C k) as [Ck Fk]. rewrite Ck.
    assert (E : existsb (same_key (ren_state s)) (map ren_state (cols st k)) = existsb (same_key s) (cols st k)).
    { clear Ck. induction Fk as [|x l Sx Fk IH]; cbn; [reflexivity|]. rewrite IH, key_ren by assumption. reflexivity. }
    rewrite E. destruct (existsb (same_key s) (cols st k)); [split; assumption|]. split; [exact F|]. intros i. cbn. destruct (Nat.eqb i k); [|apply C]. rewrite map_app. split; [reflexivity|]. apply Forall_app. auto.
  Qed.
  Lemma alloc_rel st st' : cst_rel st st' -> cst_rel (alloc st) (alloc st').
  Proof. intros [F C]. split; [cbn; congruence|exact C]. Qed.
  Lemma next_ren s : state_in s -> next_term g' (ren_state s) = option_map ren_term (next_term g s) /\ forall t, next_term g s = Some t -> term_in t.
  Proof.
    intros (_ & P & _). unfold next_term. cbn. destruct (n_terms g g' same (s_prod s) P) as [-> F]. split; [apply nth_error_map|]. intros t E. rewrite Forall_forall in F. apply F. eapply nth_error_In, E.
  Qed.
  Lemma predict_loop_rel k r : D r -> forall qs, Forall D qs -> forall rank st st', cst_rel st st' -> cst_rel (predict_loop k r rank qs st) (predict_loop k (f r) rank (map f qs) st').
  Proof.
    intros Dr. induction 1 as [|q qs Dq F IH]; intros rank st st' R; cbn [predict_loop map]; [exact R|]. apply IH.
    replace (mkState (f r) (f q) 0 k k (fresh st') rank []) with (ren_state (mkState (token := token) (pred := pred) r q 0 k k (fresh st) rank [])) by (unfold ren_state; cbn; rewrite (proj1 R); reflexivity).
    apply append_rel; [|apply alloc_rel, R]. split; [exact Dr|]. split; [exact Dq|constructor].
  Qed.
  Variable toks : list token.
  Lemma predict_rel k r st st' : D r -> cst_rel st st' -> cst_rel (predict g toks k r st) (predict g' toks k (f r) st').
  Proof.
    intros Dr R. unfold predict, predicted. destruct (nth_error toks k) as [t|].
    - destruct (n_predict g g' same r t Dr) as [-> F]. apply predict_loop_rel; assumption.
    - destruct (n_prods g g' same r Dr) as [-> F]. apply predict_loop_rel; assumption.
  Qed.
  Definition opt_rel (x x' : option cst) : Prop := match x, x' with Some st, Some st' => cst_rel st st' | None, None => True | _, _ => False end.
  Lemma expecting_ren k r st st' : D r -> cst_rel st st' -> expecting g' k (f r) st' = map ren_state (expecting g k r st) /\ Forall state_in (expecting g k r st).
  Proof.
    intros Dr [_ C]. unfold expecting. destruct (C k) as [-> F]. induction F as [|s l Ss F [IH FD]]; cbn; [split; [reflexivity|constructor]|].
    assert (E : expects g' (f r) (ren_state s) = expects g r s). { unfold expects. destruct (next_ren s Ss) as [-> K]. destruct (next_term g s) as [[r'|p]|]; cbn; try reflexivity. apply eqb_f; [exact Dr|apply (K _ eq_refl)]. }
    rewrite E. destruct (expects g r s); cbn; [rewrite IH|]; auto.
  Qed.
  Lemma state_node_ren s : state_node (ren_state s) = ren_node (state_node s).
  Proof. reflexivity. Qed.
  Lemma complete_rel fuel : forall k s j st st', state_in s -> cst_rel st st' -> opt_rel (complete_loop g fuel k s j st) (complete_loop g' fuel k (ren_state s) j st').
  Proof.
    induction fuel as [|fuel IH]; intros k s j st st' Ss R; cbn [complete_loop]; change (s_start (ren_state s)) with (s_start s); change (s_rule (ren_state s)) with (f (s_rule s));
      destruct (expecting_ren (s_start s) (s_rule s) st st' (proj1 Ss) R) as [-> F]; rewrite nth_error_map; destruct (nth_error (expecting g (s_start s) (s_rule s) st) j) as [parent|] eqn:E; cbn [option_map]; try exact R; try exact I.
    assert (Sp : state_in parent) by (rewrite Forall_forall in F; apply F; eapply nth_error_In, E).
    apply IH; [exact Ss|]. replace (advance k (ren_state parent) (ren_state s) (fresh st')) with (ren_state (advance k parent s (fresh st))) by (unfold advance, ren_state; cbn; rewrite map_app, (proj1 R); reflexivity).
    apply append_rel; [|apply alloc_rel, R]. destruct Sp as (A & B & C). split; [exact A|]. split; [exact B|]. cbn. apply Forall_app. split; [exact C|]. constructor; [|constructor]. destruct Ss as (A' & B' & C'). constructor; assumption.
  Qed.
  Lemma scan_rel k p t s st st' : state_in s -> cst_rel st st' -> cst_rel (scan accepts constrain k p t s st) (scan accepts constrain k p t (ren_state s) st').
  Proof.
    intros (A & B & C) R. unfold scan. destruct (accepts p t); [|exact R].
    match goal with |- cst_rel (append _ ?x _) (append _ ?y _) => replace y with (ren_state x) by (unfold ren_state; cbn; rewrite map_app, (proj1 R); reflexivity) end.
    apply append_rel; [|apply alloc_rel, alloc_rel, R]. split; [exact A|]. split; [exact B|]. cbn. apply Forall_app. split; [exact C|]. repeat constructor.
  Qed.
  Lemma process_rel fuel k s st st' : state_in s -> cst_rel st st' -> opt_rel (process accepts constrain g toks fuel k s st) (process accepts constrain g' toks fuel k (ren_state s) st').
  Proof.
    intros Ss R. unfold process. destruct (next_ren s Ss) as [-> K]. destruct (next_term g s) as [[r|p]|]; cbn [option_map].
    - apply predict_rel; [apply (K _ eq_refl)|exact R].
    - cbn. destruct (nth_error toks k) as [t|]; [apply scan_rel; assumption|exact R].
    - apply complete_rel; assumption.
  Qed.
  Lemma drain_rel fuel : forall k i st st', cst_rel st st' -> opt_rel (drain accepts constrain g toks fuel k i st) (drain accepts constrain g' toks fuel k i st').
  Proof.
    induction fuel as [|fuel IH]; intros k i st st' R; cbn [drain]; destruct (proj2 R k) as [-> F]; rewrite nth_error_map; destruct (nth_error (cols st k) i) as [s|] eqn:E; cbn [option_map]; try exact R; try exact I.
    assert (Ss : state_in s) by (rewrite Forall_forall in F; apply F; eapply nth_error_In, E). assert (P := process_rel (S fuel) k s st st' Ss R).
    destruct (process accepts constrain g toks (S fuel) k s st) as [st1|], (process accepts constrain g' toks (S fuel) k (ren_state s) st') as [st1'|]; try contradiction; auto.
  Qed.
  Lemma chart_from_rel fuel all : forall n k st st', cst_rel st st' -> opt_rel (chart_from accepts constrain g toks fuel all k n st) (chart_from accepts constrain g' toks fuel all k n st').
  Proof.
    induction n as [|n IH]; intros k st st' R; cbn [chart_from]; [exact R|].
    assert (R1 : cst_rel (start_column g toks all k st) (start_column g' toks all k st')). { unfold start_column. destruct (_ || _); [|exact R]. destruct (n_start g g' same) as [-> Ds]. apply predict_rel; assumption. }
    assert (P := drain_rel fuel k 0 _ _ R1). destruct (drain accepts constrain g toks fuel k 0 _) as [st1|], (drain accepts constrain g' toks fuel k 0 _) as [st1'|]; try contradiction; auto.
  Qed.
  Definition ren_tree (t : tree) : tree := (ren_node (fst t), snd t).
  Definition tree_in (t : tree) : Prop := node_in (fst t).
  Lemma parse_ren fuel all : parse accepts constrain g' fuel toks all = option_map (map ren_tree) (parse accepts constrain g fuel toks all) /\ forall l, parse accepts constrain g fuel toks all = Some l -> Forall tree_in l.
  Proof.
    unfold parse, chart. assert (R : opt_rel (chart_from accepts constrain g toks fuel all 0 (S (length toks)) init_cst) (chart_from accepts constrain g' toks fuel all 0 (S (length toks)) init_cst)).
    { apply chart_from_rel. split; [reflexivity|]. intros k. split; [reflexivity|constructor]. }
    destruct (chart_from accepts constrain g toks fuel all 0 (S (length toks)) init_cst) as [st|], (chart_from accepts constrain g' toks fuel all 0 (S (length toks)) init_cst) as [st'|]; try contradiction; [|split; [reflexivity|discriminate]].
    assert (K : forall k, column_matches g' k st' = map ren_state (column_matches g k st) /\ Forall state_in (column_matches g k st)).
    { intros k. unfold column_matches. destruct (proj2 R k) as [-> F]. induction F as [|s l Ss F [IH FD]]; cbn; [split; [reflexivity|constructor]|].
      assert (E : completed g' (ren_state s) && Nat.eqb (f (s_rule s)) (g_start g') = completed g s && Nat.eqb (s_rule s) (g_start g)).
      { unfold completed. destruct (next_ren s Ss) as [-> _]. destruct (n_start g g' same) as [-> Ds]. rewrite eqb_f by (first [exact Ds|apply Ss]). destruct (next_term g s); reflexivity. }
      cbn in E. rewrite E. destruct (completed g s && (s_rule s =? g_start g)); cbn; [rewrite IH|]; auto. }
    assert (Km : matches g' toks all st' = map ren_state (matches g toks all st) /\ Forall state_in (matches g toks all st)).
    { unfold matches. destruct all; [|apply K]. induction (seq 0 (S (length toks))) as [|k ks [IH FD]]; cbn; [split; [reflexivity|constructor]|]. destruct (K k) as [-> Fk]. rewrite IH, map_app. split; [reflexivity|apply Forall_app; auto]. }
    destruct Km as [-> F]. cbn. split.
    - f_equal. unfold prepare_trees. rewrite !map_map. apply map_ext. intros s. reflexivity.
    - intros l E. injection E as <-. unfold prepare_trees. apply Forall_map. eapply Forall_impl; [|exact F]. intros s (A & B & C). constructor; assumption.
  Qed.

  (** ** Trees *)
  Lemma node_lt_ren a : forall b, node_in a -> node_in b -> node_lt (ren_node a) (ren_node b) = node_lt a b.
  Proof.
    induction a as [ia pa qa ta|ia ra qa ka ca IH] using node_ind2; intros [ib pb qb tb|ib rb qb kb cb] Ha Hb; try reflexivity. cbn [ren_node node_lt].
    inversion Ha as [|? ? ? ? ? Ra Qa Fa]; subst. inversion Hb as [|? ? ? ? ? Rb Qb Fb]; subst. rewrite eqb_f by assumption.
    destruct (negb (Nat.eqb ra rb)); [reflexivity|]. destruct (Nat.eqb ia ib); [reflexivity|]. destruct (Nat.eqb ka kb); [|reflexivity].
    clear Ha Hb. revert cb Fb. induction IH as [|x ca Hx IH IHc]; intros [|y cb] Fb; try reflexivity.
    inversion Fa; subst. inversion Fb; subst. cbn [map].
    assert (R : children_lt node_lt (map ren_node ca) (map ren_node cb) = children_lt node_lt ca cb) by (apply IHc; assumption).
    specialize (Hx y). destruct x as [ix px qx tx|ix rx qx kx cx]; [exact R|]. change (ren_node (Node ix rx qx kx cx)) with (Node ix (f rx) (f qx) kx (map ren_node cx)) in Hx |- *. cbn [children_lt]. fold (children_lt (node_lt (token := token) (pred := pred))). rewrite ren_id. destruct (Nat.eqb ix (node_id y)); [exact R|].
    destruct y as [iy py qy ty|iy ry qy ky cy]; [reflexivity|]. change (ren_node (Node iy ry qy ky cy)) with (Node iy (f ry) (f qy) ky (map ren_node cy)) in Hx |- *. cbv iota beta.
    destruct (Nat.ltb kx ky); [reflexivity|]. destruct (Nat.ltb ky kx); [reflexivity|]. apply Hx; assumption.
  Qed.
  Lemma tree_lt_ren a b : tree_in a -> tree_in b -> tree_lt (ren_tree a) (ren_tree b) = tree_lt a b.
  Proof. destruct a as [ra [sa ea]], b as [rb [sb eb]]. intros Ha Hb. cbn. destruct (_ && _); [apply node_lt_ren; assumption|reflexivity]. Qed.
  Definition map_res {A B} (h : A -> B) (r : res A) : res B := match r with Ok a => Ok (h a) | Err e => Err e end.
  Lemma insert_ren x l : tree_in x -> Forall tree_in l -> insert_tree (ren_tree x) (map ren_tree l) = map_res (map ren_tree) (insert_tree x l) /\ forall l', insert_tree x l = Ok l' -> Forall tree_in l'.
  Proof.
    intros Hx. induction 1 as [|y l Hy F [IH FI]]; cbn [map insert_tree]; [split; [reflexivity|intros l' E; injection E as <-; auto]|].
    rewrite tree_lt_ren by assumption. destruct (tree_lt x y) as [[|]|e]; cbn; [split; [reflexivity|intros l' E; injection E as <-; auto]| |split; [reflexivity|discriminate]].
    rewrite IH. destruct (insert_tree x l) as [l1|e]; cbn; [split; [reflexivity|intros l' E; injection E as <-; auto]|split; [reflexivity|discriminate]].
  Qed.
  Lemma sort_ren l : Forall tree_in l -> forall acc, Forall tree_in acc -> sort_trees (map ren_tree l) (map ren_tree acc) = map_res (map ren_tree) (sort_trees l acc) /\ forall l', sort_trees l acc = Ok l' -> Forall tree_in l'.
  Proof.
    induction 1 as [|x l Hx F IH]; intros acc Fa; cbn [map sort_trees]; [split; [reflexivity|intros l' E; injection E as <-; auto]|].
    destruct (insert_ren x acc Hx Fa) as [-> FI]. destruct (insert_tree x acc) as [acc'|e]; cbn; [apply IH, FI, eq_refl|split; [reflexivity|discriminate]].
  Qed.

  (** ** Matches *)
  Lemma propagate_ren n : node_in n -> propagate (ren_node n) = option_map ren_node (propagate n) /\ forall n', propagate n = Some n' -> node_in n'.
  Proof.
    induction n as [id pos p tk|id r q rank ch IH] using node_ind2; intros H; [split; [reflexivity|intros n' E; injection E as <-; exact H]|].
    inversion H as [|? ? ? ? ? Dr Dq F]; subst. cbn [ren_node propagate].
    assert (K : flat_map (fun c => match propagate c with Some c' => [c'] | None => [] end) (map ren_node ch) = map ren_node (flat_map (fun c => match propagate c with Some c' => [c'] | None => [] end) ch)
      /\ Forall node_in (flat_map (fun c => match propagate c with Some c' => [c'] | None => [] end) ch)).
    { clear H. induction IH as [|c ch Hc IH IHc]; cbn; [split; [reflexivity|constructor]|]. inversion F; subst. destruct (IHc H2) as [-> Fr]. destruct (Hc H1) as [-> Fc]. rewrite map_app. destruct (propagate c) as [c'|]; cbn; split; auto. }
    destruct K as [-> Fk]. destruct (flat_map _ ch) as [|c l]; cbn [map]; [split; [reflexivity|discriminate]|]. split; [reflexivity|]. intros n' E. injection E as <-. constructor; assumption.
  Qed.
  Lemma walk_ren n : node_in n -> walk (ren_node n) = map ren_node (walk n) /\ Forall node_in (walk n).
  Proof.
    induction n as [id pos p tk|id r q rank ch IH] using node_ind2; intros H; [split; [reflexivity|constructor; [exact H|constructor]]|].
    cbn [ren_node walk map]. assert (K : flat_map walk (map ren_node ch) = map ren_node (flat_map walk ch) /\ Forall node_in (flat_map walk ch)).
    { inversion H as [|? ? ? ? ? Dr Dq F]; subst. clear H. induction IH as [|c ch Hc IH IHc]; cbn; [split; [reflexivity|constructor]|]. inversion F; subst. destruct (IHc H2) as [-> Fr]. destruct (Hc H1) as [-> Fc]. rewrite map_app. split; [reflexivity|apply Forall_app; auto]. }
    destruct K as [-> F]. split; [reflexivity|constructor; assumption].
  Qed.
  Lemma main_ren s n : node_in n -> node_main (g_main g') s (ren_node n) = node_main (g_main g) s n.
  Proof.
    induction n as [id pos p tk|id r q rank ch IH] using node_ind2; intros H; [reflexivity|]. inversion H as [|? ? ? ? ? Dr Dq F]; subst. cbn [ren_node node_main]. rewrite (n_main g g' same q Dq).
    generalize (g_main g q). clear H. induction IH as [|c ch Hc IH IHc]; intros i; [reflexivity|]. inversion F; subst. destruct i; cbn [map]; [apply Hc; assumption|apply IHc; assumption].
  Qed.
  Lemma relations_ren s n : node_in n -> tree_relations g' s (ren_node n) = tree_relations g s n.
  Proof.
    intros H. unfold tree_relations. destruct (walk_ren n H) as [-> F]. generalize (Ok empty_graph). induction F as [|x l Hx F IH]; intros gr; cbn; [reflexivity|]. rewrite IH. f_equal.
    unfold visit_relation. destruct gr as [gr|e]; [|reflexivity]. destruct x as [id pos p tk|id r q rank ch]; [reflexivity|]. inversion Hx as [|? ? ? ? ? Dr Dq Fc]; subst. cbn [ren_node].
    rewrite (n_relation g g' same r Dr). destruct (g_relation g r) as [ro|]; [|reflexivity]. change (Node id (f r) (f q) rank (map ren_node ch)) with (ren_node (Node id r q rank ch)). rewrite main_ren by exact Hx. reflexivity.
  Qed.
  Lemma apply_ren gr s n : node_in n -> apply_relations gr s (ren_node n) = apply_relations gr s n.
  Proof. intros H. unfold apply_relations. destruct (walk_ren n H) as [-> F]. generalize (Ok s). clear F. induction (walk n) as [|x l IH]; intros s0; cbn; [reflexivity|]. rewrite IH. f_equal. destruct x; reflexivity. Qed.
  Lemma tokens_ren s n : node_in n -> tree_tokens s (ren_node n) = tree_tokens s n.
  Proof. intros H. unfold tree_tokens. destruct (walk_ren n H) as [-> F]. clear F. induction (walk n) as [|x l IH]; cbn; [reflexivity|]. rewrite IH. destruct x; reflexivity. Qed.

  Definition ren_match (m : amatch) : amatch := mkMatch (ren_node (m_root m)) (m_range m) (m_tokens m) (m_span m).
  Definition match_in (m : amatch) : Prop := node_in (m_root m).
  Definition ren_found (x : store * option amatch) : store * option amatch := (fst x, option_map ren_match (snd x)).
  Lemma prepare_ren t s : tree_in t -> prepare_match rel g' (ren_tree t) s = map_res ren_found (prepare_match rel g t s) /\ forall s' m, prepare_match rel g t s = Ok (s', Some m) -> match_in m.
  Proof.
    destruct t as [root range]. intros H. unfold prepare_match, ren_tree. cbn [fst snd]. destruct (propagate_ren root H) as [-> K]. destruct (propagate root) as [n|]; cbn [option_map]; [|split; [reflexivity|discriminate]].
    assert (Hn := K n eq_refl). rewrite relations_ren by exact Hn. destruct (tree_relations g s n) as [gr|e]; [|split; [reflexivity|discriminate]].
    cbn [bind]; destruct (validate rel gr) as [gr' []]; [|split; [reflexivity|discriminate]]. rewrite apply_ren by exact Hn. destruct (apply_relations gr' s n) as [s1|e]; cbn; [|split; [reflexivity|discriminate]].
    rewrite tokens_ren by exact Hn. destruct (get_tokens_span (tree_tokens s1 n)) as [sp|e]; cbn; [|split; [reflexivity|discriminate]]. split; [reflexivity|]. intros s' m E. injection E as _ <-. exact Hn.
  Qed.
  Definition ren_extracted (x : list amatch * store * option exn) := let '(ms, s, e) := x in (map ren_match ms, s, e).
  Lemma matches_ren l : Forall tree_in l -> forall s, prepare_matches rel g' (map ren_tree l) s = ren_extracted (prepare_matches rel g l s) /\ Forall match_in (fst (fst (prepare_matches rel g l s))).
  Proof.
    induction 1 as [|t l Ht F IH]; intros s; cbn [map prepare_matches]; [split; [reflexivity|constructor]|]. destruct (prepare_ren t s Ht) as [-> K].
    destruct (prepare_match rel g t s) as [[s' [m|]]|e] eqn:E; cbn [map_res ren_found option_map fst snd]; [| |split; [reflexivity|constructor]].
    - destruct (IH s') as [-> FI]. destruct (prepare_matches rel g l s') as [[ms s''] e]. cbn in *. split; [reflexivity|]. constructor; [|exact FI]. eapply K; reflexivity.
    - apply IH.
  Qed.
  Lemma first_ren l : Forall tree_in l -> forall s, first_match rel g' (map ren_tree l) s = map_res ren_found (first_match rel g l s) /\ forall s' m, first_match rel g l s = Ok (s', Some m) -> match_in m.
  Proof.
    induction 1 as [|t l Ht F IH]; intros s; cbn [map first_match]; [split; [reflexivity|discriminate]|]. destruct (prepare_ren t s Ht) as [-> K].
    destruct (prepare_match rel g t s) as [[s' [m|]]|e] eqn:E; cbn; [split; [reflexivity|]|apply IH|split; [reflexivity|discriminate]]. intros s'' m' E'. injection E' as <- <-. eapply K; reflexivity.
  Qed.
  Definition ren_entry (x : (nat * nat) * amatch) := (fst x, ren_match (snd x)).
  Lemma lookup_ren r l : lookup_range r (map ren_entry l) = option_map ren_match (lookup_range r l).
  Proof. induction l as [|[r' m] l IH]; cbn; [reflexivity|]. destruct (range_eqb r r'); [reflexivity|exact IH]. Qed.
  Lemma lookup_in r l m : Forall (fun e => match_in (snd e)) l -> lookup_range r l = Some m -> match_in m.
  Proof. induction 1 as [|[r' m'] l H F IH]; cbn; [discriminate|]. destruct (range_eqb r r'); [intros E; injection E as <-; exact H|exact IH]. Qed.
  Lemma collect_ren l : Forall tree_in l -> forall acc s, Forall (fun e => match_in (snd e)) acc ->
    collect rel g' (map ren_tree l) (map ren_entry acc) s = map_res (fun x => (fst x, map ren_entry (snd x))) (collect rel g l acc s) /\ forall s' r, collect rel g l acc s = Ok (s', r) -> Forall (fun e => match_in (snd e)) r.
  Proof.
    induction 1 as [|t l Ht F IH]; intros acc s Fa; cbn [map collect]; [split; [reflexivity|intros s' r E; injection E as <- <-; exact Fa]|].
    change (snd (ren_tree t)) with (snd t). rewrite lookup_ren. destruct (lookup_range (snd t) acc) as [m|]; cbn [option_map]; [apply IH, Fa|].
    destruct (prepare_ren t s Ht) as [-> K]. destruct (prepare_match rel g t s) as [[s' [m|]]|e] eqn:E; cbn; [|apply IH, Fa|split; [reflexivity|discriminate]].
    change [(snd t, ren_match m)] with (map ren_entry [(snd t, m)]). rewrite <- map_app. apply IH. apply Forall_app. split; [exact Fa|]. constructor; [|constructor]. eapply K; reflexivity.
  Qed.
  Definition pick (found : list ((nat * nat) * amatch)) (sp : Z * Z) : res amatch :=
    match lookup_range (Z.to_nat (fst sp), Z.to_nat (snd sp)) found with Some m => Ok m | None => Err KeyError end.
  Lemma pick_ren found spans : Forall (fun e => match_in (snd e)) found ->
    mapM (pick (map ren_entry found)) spans = map_res (map ren_match) (mapM (pick found) spans) /\ forall ms, mapM (pick found) spans = Ok ms -> Forall match_in ms.
  Proof.
    intros Ff. induction spans as [|sp spans [IH FI]]; cbn [mapM]; [split; [reflexivity|intros ms E; injection E as <-; constructor]|].
    assert (P : pick (map ren_entry found) sp = map_res ren_match (pick found sp)) by (unfold pick; rewrite lookup_ren; destruct (lookup_range _ found); reflexivity). rewrite P, IH.
    destruct (pick found sp) as [m|e] eqn:L; cbn; [|split; [reflexivity|discriminate]]. destruct (mapM (pick found) spans) as [ms|e]; cbn; [|split; [reflexivity|discriminate]].
    split; [reflexivity|]. intros ms' E. injection E as <-. constructor; [|apply FI, eq_refl]. unfold pick in L. destruct (lookup_range _ found) as [m'|] eqn:L'; [|discriminate]. injection L as <-. eapply lookup_in; eassumption.
  Qed.
  Lemma resolved_eq (x : grammar) l s : prepare_resolved_matches rel x l s =
    let! (s', found) := collect rel x l [] s in let! spans := resolve_spans (map (fun p => zrange (fst p)) found) in let! ms := mapM (pick found) spans in Ok (s', ms).
  Proof. reflexivity. Qed.
  Definition ren_all (x : store * list amatch) := (fst x, map ren_match (snd x)).
  Lemma resolved_ren l s : Forall tree_in l -> prepare_resolved_matches rel g' (map ren_tree l) s = map_res ren_all (prepare_resolved_matches rel g l s) /\ forall s' ms, prepare_resolved_matches rel g l s = Ok (s', ms) -> Forall match_in ms.
  Proof.
    intros F. rewrite !resolved_eq. destruct (collect_ren l F [] s (Forall_nil _)) as [E K]. cbn [map] in E. rewrite E. destruct (collect rel g l [] s) as [[s1 found]|e]; cbn [map_res bind fst snd]; [|split; [reflexivity|discriminate]].
    assert (Ff := K s1 found eq_refl). assert (Em : map (fun p => zrange (fst p)) (map ren_entry found) = map (fun p => zrange (fst p)) found) by (rewrite map_map; reflexivity). rewrite Em.
    destruct (resolve_spans _) as [spans|e]; cbn [map_res bind]; [|split; [reflexivity|discriminate]].
    destruct (pick_ren found spans Ff) as [R FR]. rewrite R.
    destruct (mapM (pick found) spans) as [ms|e]; cbn; [|split; [reflexivity|discriminate]]. split; [reflexivity|]. intros s' ms' E'. injection E' as <- <-. apply FR, eq_refl.
  Qed.

  (** ** Results *)
  Lemma extract_ren fuel all : extract accepts constrain rel g' fuel toks all = option_map ren_extracted (extract accepts constrain rel g fuel toks all) /\
    forall ms s e, extract accepts constrain rel g fuel toks all = Some (ms, s, e) -> Forall match_in ms.
  Proof.
    unfold extract. destruct (parse_ren fuel all) as [-> F]. destruct (parse accepts constrain g fuel toks all) as [l|]; cbn; [|split; [reflexivity|discriminate]]. destruct (matches_ren l (F l eq_refl) []) as [-> K]. split; [reflexivity|].
    intros ms s e E. injection E as E. rewrite E in K. exact K.
  Qed.
  Lemma findall_ren fuel : findall accepts constrain rel g' fuel toks = option_map (map_res ren_all) (findall accepts constrain rel g fuel toks) /\
    forall s ms, findall accepts constrain rel g fuel toks = Some (Ok (s, ms)) -> Forall match_in ms.
  Proof.
    unfold findall. destruct (parse_ren fuel true) as [-> F]. destruct (parse accepts constrain g fuel toks true) as [l|]; cbn; [|split; [reflexivity|discriminate]].
    destruct (sort_ren l (F l eq_refl) [] (Forall_nil _)) as [E K]. cbn [map] in E. rewrite E. destruct (sort_trees l []) as [l'|e]; cbn; [|split; [reflexivity|discriminate]].
    destruct (resolved_ren l' [] (K l' eq_refl)) as [-> KR]. split; [reflexivity|]. intros s ms E'. injection E' as E'. eapply KR, E'.
  Qed.
  Lemma match_ren fuel : match_ accepts constrain rel g' fuel toks = option_map (map_res ren_found) (match_ accepts constrain rel g fuel toks) /\
    forall s m, match_ accepts constrain rel g fuel toks = Some (Ok (s, Some m)) -> match_in m.
  Proof.
    unfold match_. destruct (parse_ren fuel false) as [-> F]. destruct (parse accepts constrain g fuel toks false) as [l|]; cbn; [|split; [reflexivity|discriminate]].
    destruct (sort_ren l (F l eq_refl) [] (Forall_nil _)) as [E K]. cbn [map] in E. rewrite E. destruct (sort_trees l []) as [l'|e]; cbn; [|split; [reflexivity|discriminate]].
    destruct (first_ren l' (K l' eq_refl) []) as [-> KR]. split; [reflexivity|]. intros s m E'. injection E' as E'. eapply KR, E'.
  Qed.
  Lemma find_ren fuel : find accepts constrain rel g' fuel toks = option_map (map_res ren_found) (find accepts constrain rel g fuel toks) /\
    forall s m, find accepts constrain rel g fuel toks = Some (Ok (s, Some m)) -> match_in m.
  Proof.
    unfold find. destruct (findall_ren fuel) as [-> K]. destruct (findall accepts constrain rel g fuel toks) as [[[s ms]|e]|]; cbn; [|split; [reflexivity|discriminate]|split; [reflexivity|discriminate]].
    specialize (K s ms eq_refl). destruct ms as [|m ms]; cbn; [split; [reflexivity|discriminate]|]. split; [reflexivity|]. intros s' m' E. injection E as <- <-. inversion K; assumption.
  Qed.
End Rename.
