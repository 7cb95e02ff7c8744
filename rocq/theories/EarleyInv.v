(** Invariants of chart construction. *)
From Verif Require Import Base EarleyModel EarleySpec.

Lemma nats_eqb_eq a b : nats_eqb a b = true <-> a = b.
Proof.
  revert b; induction a as [|x a IH]; intros [|y b]; simpl; split; intros H;
    try congruence; try reflexivity.
  - apply andb_true_iff in H as [H1 H2].
    apply Nat.eqb_eq in H1. apply IH in H2. congruence.
  - injection H as -> ->. rewrite Nat.eqb_refl. apply IH. reflexivity.
Qed.

Section Inv.
  Context {token pred : Type}.
  Variable accepts : pred -> token -> bool.
  Variable constrain : pred -> token -> token.
  Variable g : grammar token pred.
  Variable toks : list token.

  Notation state := (state token pred).
  Notation cst := (cst token pred).
  Notation node := (node token pred).
  Notation predicted := (predicted g toks).
  Notation next_term := (next_term g).
  Notation completed := (completed g).
  Notation expects := (expects g).

  Lemma same_key_iff (a b : state) : same_key a b = true <->
    s_rule a = s_rule b /\ s_prod a = s_prod b /\ s_dot a = s_dot b /\
    s_start a = s_start b /\ s_stop a = s_stop b /\
    map node_id (s_children a) = map node_id (s_children b).
  Proof.
    unfold same_key.
    rewrite !andb_true_iff, !Nat.eqb_eq, nats_eqb_eq. tauto.
  Qed.

  (** Trees built by the chart, with their spans and ranks. *)
  Inductive node_ok : term pred -> node -> nat -> nat -> Prop :=
  | ok_leaf id p i t : nth_error toks i = Some t -> accepts p t = true ->
      node_ok (TPred p) (Leaf id i p (constrain p t)) i (S i)
  | ok_node id r q rank ch i j :
      nth_error (predicted i r) rank = Some q ->
      (forall m, nth_error (predicted i r) m = Some q -> rank <= m) ->
      nodes_ok (g_terms g q) ch i j ->
      node_ok (TRule r) (Node id r q rank ch) i j
  with nodes_ok : list (term pred) -> list node -> nat -> nat -> Prop :=
  | nodes_nil i : nodes_ok [] [] i i
  | nodes_cons t ts n ns i k j :
      node_ok t n i k -> nodes_ok ts ns k j -> nodes_ok (t :: ts) (n :: ns) i j.

  Scheme node_ok_ind' := Induction for node_ok Sort Prop
    with nodes_ok_ind' := Induction for nodes_ok Sort Prop.
  Combined Scheme node_ok_mutind from node_ok_ind', nodes_ok_ind'.

  Lemma nodes_ok_app ts1 ts2 ns1 ns2 i k j :
    nodes_ok ts1 ns1 i k -> nodes_ok ts2 ns2 k j ->
    nodes_ok (ts1 ++ ts2) (ns1 ++ ns2) i j.
  Proof.
    intros H; revert ts2 ns2 j; induction H; intros ts2 ns2 j' H2; simpl; auto.
    econstructor; eauto.
  Qed.

  Lemma nodes_ok_length ts ns i j : nodes_ok ts ns i j -> length ts = length ns.
  Proof. induction 1; simpl; congruence. Qed.

  Lemma node_ok_le :
    (forall t n i j, node_ok t n i j -> i <= j) /\
    (forall ts ns i j, nodes_ok ts ns i j -> i <= j).
  Proof. apply node_ok_mutind; intros; lia. Qed.

  (** The span and the term of a tree are determined by the derivation. *)
  Lemma node_ok_det :
    (forall t n i j, node_ok t n i j -> forall t' n' j',
       node_ok t' n' i j' -> erase n = erase n' -> j = j' /\ t = t') /\
    (forall ts ns i j, nodes_ok ts ns i j -> forall ts' ns' j',
       nodes_ok ts' ns' i j' -> map erase ns = map erase ns' -> j = j' /\ ts = ts').
  Proof.
    apply node_ok_mutind.
    - intros id p i t H1 H2 t' n' j' H E. inversion H; subst; simpl in E; try discriminate.
      injection E as E. subst. auto.
    - intros id r q rank ch i j H1 H2 H3 IH t' n' j' H E.
      inversion H; subst; simpl in E; try discriminate.
      injection E as E1 E2 E3. subst.
      match goal with HN : nodes_ok _ _ i j' |- _ => destruct (IH _ _ _ HN E3) end. auto.
    - intros i ts' ns' j' H E. inversion H; subst; simpl in E; try discriminate. auto.
    - intros t ts n ns i k j H1 IH1 H2 IH2 ts' ns' j' H E.
      inversion H; subst; simpl in E; try discriminate.
      injection E as E1 E2.
      match goal with HN : node_ok _ _ i _ |- _ => destruct (IH1 _ _ _ HN E1) end. subst.
      match goal with HN : nodes_ok _ _ _ j' |- _ => destruct (IH2 _ _ _ HN E2) end. subst. auto.
  Qed.

  (** A state with object identities forgotten. *)
  Definition serase (s : state) : nat * nat * nat * nat * list (dtree pred) :=
    (s_rule s, s_prod s, s_dot s, s_start s, map erase (s_children s)).

  Definition has (st : cst) (k : nat) (e : nat * nat * nat * nat * list (dtree pred)) : Prop :=
    In e (map serase (cols st k)).

  Lemma has_iff st k e : has st k e <-> exists s, In s (cols st k) /\ serase s = e.
  Proof.
    unfold has. rewrite in_map_iff. split; intros (s & A & B); eauto.
  Qed.

  (** [st'] extends [st] by appending to columns, columns below [K] unchanged. *)
  Definition ext (K : nat) (st st' : cst) : Prop :=
    (forall k, exists l, cols st' k = cols st k ++ l) /\
    (forall k, k < K -> cols st' k = cols st k).

  Lemma ext_refl K st : ext K st st.
  Proof. split; intros k; [exists []; rewrite app_nil_r; auto|auto]. Qed.

  Lemma ext_trans K a b c : ext K a b -> ext K b c -> ext K a c.
  Proof.
    intros [A1 A2] [B1 B2]; split; intros k.
    - destruct (A1 k) as [l1 E1], (B1 k) as [l2 E2]. exists (l1 ++ l2).
      rewrite E2, E1, app_assoc. auto.
    - intros H. rewrite B2, A2; auto.
  Qed.

  Lemma ext_weaken K K' a b : K' <= K -> ext K a b -> ext K' a b.
  Proof. intros H [A B]; split; auto. intros k Hk. apply B. lia. Qed.

  Lemma ext_in K a b k s : ext K a b -> In s (cols a k) -> In s (cols b k).
  Proof. intros [A _] H. destruct (A k) as [l ->]. apply in_or_app; auto. Qed.

  Lemma ext_nth K a b k i s :
    ext K a b -> nth_error (cols a k) i = Some s -> nth_error (cols b k) i = Some s.
  Proof.
    intros [A _] H. destruct (A k) as [l ->]. rewrite nth_error_app1; auto.
    apply nth_error_Some. congruence.
  Qed.

  Lemma ext_has K a b k e : ext K a b -> has a k e -> has b k e.
  Proof.
    intros X. rewrite !has_iff. intros (s & A & B). exists s; split; auto.
    eapply ext_in; eauto.
  Qed.

  (** ** append *)
  Lemma append_cases k (s : state) st :
    (append k s st = st /\ exists y, In y (cols st k) /\ same_key s y = true) \/
    ((forall y, In y (cols st k) -> same_key s y = false) /\
     fresh (append k s st) = fresh st /\
     cols (append k s st) k = cols st k ++ [s] /\
     forall i, i <> k -> cols (append k s st) i = cols st i).
  Proof.
    unfold append. destruct (existsb (same_key s) (cols st k)) eqn:E.
    - left. split; auto. apply existsb_exists in E. exact E.
    - right. split; [|simpl; split; [|split]].
      + intros y Hy. destruct (same_key s y) eqn:F; auto.
        enough (existsb (same_key s) (cols st k) = true) by congruence.
        apply existsb_exists; eauto.
      + reflexivity.
      + rewrite Nat.eqb_refl; auto.
      + intros i Hi. apply Nat.eqb_neq in Hi. rewrite Hi. auto.
  Qed.

  Lemma append_ext K k (s : state) st : K <= k -> ext K st (append k s st).
  Proof.
    intros HK. destruct (append_cases k s st) as [[-> _]|(_ & _ & A & B)].
    - apply ext_refl.
    - split; intros i.
      + destruct (Nat.eq_dec i k) as [->|N].
        * exists [s]; auto.
        * exists []. rewrite app_nil_r. auto.
      + intros Hi. apply B. lia.
  Qed.

  Lemma append_fresh k (s : state) st : fresh (append k s st) = fresh st.
  Proof. unfold append. destruct existsb; auto. Qed.

  Lemma append_in k (s : state) st i y :
    In y (cols (append k s st) i) -> In y (cols st i) \/ (i = k /\ y = s).
  Proof.
    destruct (append_cases k s st) as [[-> _]|(_ & _ & A & B)]; auto.
    destruct (Nat.eq_dec i k) as [->|N].
    - rewrite A. intros H. apply in_app_or in H as [H|[<-|[]]]; auto.
    - rewrite B; auto.
  Qed.

  (** ** Atomic steps *)
  Variable all : bool.

  Inductive op (K : nat) (st : cst) : cst -> Prop :=
  | op_predict r rank q :
      ((r = g_start g /\ (K = 0 \/ all = true)) \/
       exists s, In s (cols st K) /\ expects r s = true) ->
      nth_error (predicted K r) rank = Some q ->
      (forall m q', m < rank -> nth_error (predicted K r) m = Some q' ->
         has st K (r, q', 0, K, [])) ->
      op K st (append K (mkState r q 0 K K (fresh st) rank []) (alloc st))
  | op_complete s parent :
      In s (cols st K) -> completed s = true ->
      In parent (cols st (s_start s)) -> expects (s_rule s) parent = true ->
      op K st (append K (advance K parent s (fresh st)) (alloc st))
  .

  Inductive scan_op (K I : nat) (st : cst) : cst -> Prop :=
  | scan_op_intro s p t :
      nth_error (cols st K) I = Some s -> next_term s = Some (TPred p) ->
      nth_error toks K = Some t -> accepts p t = true ->
      scan_op K I st (append (S K)
        (mkState (s_rule s) (s_prod s) (S (s_dot s)) (s_start s) (S K)
                 (S (fresh st)) (s_rank s)
                 (s_children s ++ [Leaf (fresh st) K p (constrain p t)]))
        (alloc (alloc st))).

  Inductive ops (K : nat) : cst -> cst -> Prop :=
  | ops_refl st : ops K st st
  | ops_step a b c : op K a b -> ops K b c -> ops K a c.

  Lemma alloc_ext K st : ext K st (alloc st).
  Proof. split; intros k; simpl; auto. exists []. rewrite app_nil_r. auto. Qed.

  Lemma op_ext K a b : op K a b -> ext K a b.
  Proof.
    intros H. destruct H.
    - eapply ext_trans; [apply alloc_ext|]. apply append_ext. lia.
    - eapply ext_trans; [apply alloc_ext|]. apply append_ext. lia.
  Qed.

  Lemma scan_op_ext K I a b : scan_op K I a b -> ext K a b.
  Proof.
    intros H. destruct H.
    eapply ext_trans; [apply alloc_ext|].
    eapply ext_trans; [apply alloc_ext|]. apply append_ext. lia.
  Qed.

  Lemma ops_ext K a b : ops K a b -> ext K a b.
  Proof.
    induction 1. apply ext_refl. eapply ext_trans; eauto. eapply op_ext; eauto.
  Qed.

  Lemma ops_trans K a b c : ops K a b -> ops K b c -> ops K a c.
  Proof. induction 1; auto. intros. econstructor; eauto. Qed.

  Lemma ops_one K a b : op K a b -> ops K a b.
  Proof. intros. econstructor; eauto. constructor. Qed.

  Lemma append_predict_has K r q rank id st :
    has (append K (mkState r q 0 K K id rank []) st) K (r, q, 0, K, []).
  Proof.
    apply has_iff.
    destruct (append_cases K (mkState r q 0 K K id rank []) st)
      as [[-> (y & Hy & E)]|(_ & _ & A & _)].
    - exists y. split; auto. apply same_key_iff in E. simpl in E.
      destruct E as (E1 & E2 & E3 & E4 & E5 & E6). unfold serase.
      destruct (s_children y); [|discriminate]. simpl. congruence.
    - rewrite A. eexists. split. apply in_or_app. right. left. reflexivity.
      reflexivity.
  Qed.

  Definition may_predict (K r : nat) (st : cst) : Prop :=
    (r = g_start g /\ (K = 0 \/ all = true)) \/
    exists s, In s (cols st K) /\ expects r s = true.

  Lemma predict_loop_ops K r prods : forall pre rank st,
    may_predict K r st ->
    predicted K r = pre ++ prods -> rank = length pre ->
    (forall q, In q pre -> has st K (r, q, 0, K, [])) ->
    ops K st (predict_loop K r rank prods st) /\
    (forall q, In q (predicted K r) -> has (predict_loop K r rank prods st) K (r, q, 0, K, [])).
  Proof.
    induction prods as [|q prods IH]; intros pre rank st MP E R H; simpl.
    - rewrite app_nil_r in E. split. constructor. rewrite E. auto.
    - set (st' := append K _ _).
      assert (O : op K st st').
      { apply op_predict; auto.
        - rewrite E, nth_error_app2 by lia. rewrite R, Nat.sub_diag. auto.
        - intros m q' Hm Hq. apply H. rewrite E, nth_error_app1 in Hq by lia.
          eapply nth_error_In; eauto. }
      destruct (IH (pre ++ [q]) (S rank) st') as [IH1 IH2].
      + destruct MP as [MP|(s & Hs & Hx)]; [left; auto|right].
        exists s; split; auto. eapply ext_in; [eapply op_ext; eauto|]; auto.
      + rewrite <- app_assoc. auto.
      + rewrite app_length. simpl. lia.
      + intros q' Hq. apply in_app_or in Hq as [Hq|[<-|[]]].
        * eapply ext_has; [eapply op_ext; eauto|]. auto.
        * apply append_predict_has.
      + split; auto. econstructor; eauto.
  Qed.

  Lemma predict_ops K r st : may_predict K r st ->
    ops K st (predict g toks K r st) /\
    (forall q, In q (predicted K r) -> has (predict g toks K r st) K (r, q, 0, K, [])).
  Proof.
    intros MP. unfold predict. apply predict_loop_ops with (pre := []); auto.
    intros q [].
  Qed.

  Lemma expecting_in k r (st : cst) j s :
    nth_error (expecting g k r st) j = Some s -> In s (cols st k) /\ expects r s = true.
  Proof. intros H. apply nth_error_In in H. unfold expecting in H. apply filter_In in H. auto. Qed.

  Lemma complete_loop_ops K s : completed s = true -> forall fuel j st st',
    In s (cols st K) ->
    complete_loop g fuel K s j st = Some st' -> ops K st st'.
  Proof.
    intros C. induction fuel as [|fuel IH]; intros j st st' Hs H; simpl in H.
    - destruct nth_error; [discriminate|]. injection H as <-. constructor.
    - destruct nth_error as [parent|] eqn:E.
      + apply expecting_in in E as [E1 E2].
        set (st1 := append _ _ _) in H.
        assert (O : op K st st1) by (apply op_complete; auto).
        econstructor; [exact O|]. eapply IH; [|exact H].
        eapply ext_in; [eapply op_ext; eauto|]; auto.
      + injection H as <-. constructor.
  Qed.

  Lemma process_ops fuel K I s st st' :
    nth_error (cols st K) I = Some s ->
    process accepts constrain g toks fuel K s st = Some st' ->
    ops K st st' \/ scan_op K I st st'.
  Proof.
    intros Hn H. unfold process in H.
    destruct (next_term s) as [[r|p]|] eqn:E.
    - injection H as <-. left. apply predict_ops. right. exists s. split.
      eapply nth_error_In; eauto. unfold EarleyModel.expects. rewrite E. apply Nat.eqb_refl.
    - destruct (nth_error toks K) as [t|] eqn:Et.
      + injection H as <-. unfold scan. destruct (accepts p t) eqn:A.
        * right. eapply scan_op_intro; eauto.
        * left. constructor.
      + injection H as <-. left. constructor.
    - left. eapply complete_loop_ops; eauto.
      + unfold EarleyModel.completed. rewrite E. auto.
      + eapply nth_error_In; eauto.
  Qed.

  (** ** The invariant *)
  Definition sok (k : nat) (s : state) : Prop :=
    s_stop s = k /\ s_dot s = length (s_children s) /\
    s_dot s <= length (g_terms g (s_prod s)) /\
    nth_error (predicted (s_start s) (s_rule s)) (s_rank s) = Some (s_prod s) /\
    (forall m, nth_error (predicted (s_start s) (s_rule s)) m = Some (s_prod s) ->
       s_rank s <= m) /\
    nodes_ok (firstn (s_dot s) (g_terms g (s_prod s))) (s_children s) (s_start s) k.

  Definition processed (K I m i : nat) : Prop := m < K \/ (m = K /\ i < I).

  Definition prov (K I : nat) (st : cst) (k : nat) (s : state) : Prop :=
    s_children s = [] \/
    exists cs c p m i,
      s_children s = cs ++ [c] /\ nth_error (cols st m) i = Some p /\
      s_rule p = s_rule s /\ s_prod p = s_prod s /\ s_start p = s_start s /\
      s_dot s = S (s_dot p) /\ s_children p = cs /\
      ((exists id pr tk, c = Leaf id m pr tk /\ k = S m /\ processed K I m i) \/
       (exists q, In q (cols st k) /\ completed q = true /\ s_start q = m /\
          expects (s_rule q) p = true /\ c = state_node q)).

  Definition logged (log : list node) (s : state) : Prop :=
    nth_error log (s_id s) = Some (state_node s) /\
    forall c, In c (s_children s) -> nth_error log (node_id c) = Some c.

  Record Inv (K I : nat) (st : cst) : Prop := {
    inv_ok : forall k s, In s (cols st k) -> sok k s;
    inv_prov : forall k s, In s (cols st k) -> prov K I st k s;
    inv_nodup : forall k, NoDup (map serase (cols st k));
    inv_future : forall k, S K < k -> cols st k = [];
    inv_log : exists log, length log = fresh st /\
        forall k s, In s (cols st k) -> logged log s }.

  Lemma prov_ext K I K' st st' k s :
    ext K' st st' -> prov K I st k s -> prov K I st' k s.
  Proof.
    intros X [H|(cs & c & p & m & i & A1 & A2 & A3 & A4 & A5 & A6 & A7 & A8)].
    - left; auto.
    - right. exists cs, c, p, m, i. repeat (split; [solve [auto | eapply ext_nth; eauto]|]).
      destruct A8 as [A8|(q & B1 & B2)]; [left; auto|right].
      exists q. split; auto. eapply ext_in; eauto.
  Qed.

  Lemma prov_mono K I K' I' st k s :
    (forall m i, processed K I m i -> processed K' I' m i) ->
    prov K I st k s -> prov K' I' st k s.
  Proof.
    intros X [H|(cs & c & p & m & i & A1 & A2 & A3 & A4 & A5 & A6 & A7 & A8)].
    - left; auto.
    - right. exists cs, c, p, m, i. repeat (split; [solve [auto]|]).
      destruct A8 as [(id & pr & tk & B1 & B2 & B3)|A8]; [left|right; auto].
      exists id, pr, tk. auto.
  Qed.

  Lemma serase_inj K I st k a b : Inv K I st ->
    In a (cols st k) -> In b (cols st k) -> serase a = serase b -> a = b.
  Proof.
    intros V Ha Hb E. pose proof (inv_nodup _ _ _ V k) as ND.
    revert ND Ha Hb E. generalize (cols st k). intros l.
    induction l as [|x l IH]; simpl; intros ND Ha Hb E; [tauto|].
    inversion ND as [|? ? N1 N2]; subst.
    destruct Ha as [->|Ha], Hb as [->|Hb]; auto.
    - exfalso; apply N1. rewrite E. apply in_map. auto.
    - exfalso; apply N1. rewrite <- E. apply in_map. auto.
  Qed.

  Lemma serase_inj_nth K I st k a b i j : Inv K I st ->
    nth_error (cols st k) i = Some a -> nth_error (cols st k) j = Some b ->
    serase a = serase b -> i = j.
  Proof.
    intros V Ha Hb E. pose proof (inv_nodup _ _ _ V k) as ND.
    rewrite NoDup_nth_error in ND. apply ND.
    - rewrite map_length. apply nth_error_Some. congruence.
    - rewrite !nth_error_map, Ha, Hb. simpl. congruence.
  Qed.

  Lemma firstn_snoc {A} (l : list A) n x :
    nth_error l n = Some x -> firstn (S n) l = firstn n l ++ [x].
  Proof.
    revert n; induction l as [|y l IH]; intros [|n] H; simpl in *; try discriminate.
    - congruence.
    - f_equal. apply IH. auto.
  Qed.

  Lemma completed_iff s :
    completed s = true <-> length (g_terms g (s_prod s)) <= s_dot s.
  Proof.
    unfold EarleyModel.completed, EarleyModel.next_term.
    destruct (nth_error (g_terms g (s_prod s)) (s_dot s)) eqn:E.
    - assert (s_dot s < length (g_terms g (s_prod s))) by (apply nth_error_Some; congruence).
      split; [discriminate|lia].
    - apply nth_error_None in E. tauto.
  Qed.

  Lemma completed_node_ok k s :
    sok k s -> completed s = true -> node_ok (TRule (s_rule s)) (state_node s) (s_start s) k.
  Proof.
    intros (A1 & A2 & A3 & A4 & A5 & A6) C. unfold state_node. constructor; auto.
    apply completed_iff in C.
    rewrite firstn_all2 in A6 by lia. auto.
  Qed.

  Lemma completed_dot k s :
    sok k s -> completed s = true -> s_dot s = length (g_terms g (s_prod s)).
  Proof.
    intros (A1 & A2 & A3 & A4 & A5 & A6) C.
    apply completed_iff in C. lia.
  Qed.

  Lemma expects_term r s : expects r s = true -> next_term s = Some (TRule r).
  Proof.
    unfold EarleyModel.expects. destruct (next_term s) as [[r'|]|]; try discriminate.
    intros H. apply Nat.eqb_eq in H. congruence.
  Qed.

  (** The general step: appending a state that is well-formed, has a provenance,
      is logged, and is a duplicate by key whenever it is a duplicate up to
      identities. *)
  Lemma append_inv K I I' k s st n :
    Inv K I st ->
    (forall m i, processed K I m i -> processed K I' m i) ->
    k <= S K -> sok k s -> prov K I' st k s ->
    (exists log log', length log = fresh st /\
       length (log ++ log') = n /\
       (forall k s, In s (cols st k) -> logged log s) /\
       logged (log ++ log') s) ->
    (forall y, In y (cols st k) -> serase s = serase y -> same_key s y = true) ->
    Inv K I' (append k s (mkCst (cols st) n)).
  Proof.
    intros V M Hk OK PV (log & log' & L1 & L2 & L3 & L4) DUP.
    assert (X : ext 0 st (append k s (mkCst (cols st) n))).
    { eapply ext_trans with (b := mkCst (cols st) n).
      - split; intros i; simpl; auto. exists []; rewrite app_nil_r; auto.
      - apply append_ext. lia. }
    assert (LG : forall k s, In s (cols st k) -> logged (log ++ log') s).
    { intros k' y Hy. destruct (L3 _ _ Hy) as [Y1 Y2]. split.
      - rewrite nth_error_app1; auto. apply nth_error_Some. congruence.
      - intros c Hc. rewrite nth_error_app1; auto. apply nth_error_Some.
        rewrite Y2; congruence. }
    constructor.
    - intros k' y Hy. apply append_in in Hy as [Hy|[-> ->]]; auto.
      eapply inv_ok; eauto.
    - intros k' y Hy. eapply prov_ext; [exact X|].
      apply append_in in Hy as [Hy|[-> ->]]; auto.
      eapply prov_mono; eauto. eapply inv_prov; eauto.
    - intros k'. destruct (append_cases k s (mkCst (cols st) n)) as [[-> _]|(N & _ & A & B)].
      + simpl. eapply inv_nodup; eauto.
      + destruct (Nat.eq_dec k' k) as [->|NE].
        * rewrite A, map_app. simpl.
          apply (NoDup_Add (a := serase s) (l := map serase (cols st k))).
          { replace (map serase (cols st k)) with (map serase (cols st k) ++ []) at 1
              by apply app_nil_r. apply Add_app. }
          split. eapply inv_nodup; eauto.
          intros H. apply in_map_iff in H as (y & E & Hy).
          specialize (N y Hy). rewrite DUP in N; auto. discriminate.
        * rewrite B by auto. simpl. eapply inv_nodup; eauto.
    - intros k' Hk'. destruct (append_cases k s (mkCst (cols st) n)) as [[-> _]|(N & _ & A & B)].
      + simpl. eapply inv_future; eauto.
      + rewrite B by lia. simpl. eapply inv_future; eauto.
    - exists (log ++ log'). split.
      + rewrite append_fresh. auto.
      + intros k' y Hy. apply append_in in Hy as [Hy|[-> ->]]; eauto.
  Qed.

  Lemma Inv_mono K I I' st : I <= I' -> Inv K I st -> Inv K I' st.
  Proof.
    intros H V. destruct V. constructor; auto.
    intros k s Hs. eapply prov_mono; [|eauto]. unfold processed. intros; lia.
  Qed.

  Lemma map_snoc_inv {A B} (f : A -> B) l l' x x' :
    map f (l ++ [x]) = map f (l' ++ [x']) -> map f l = map f l' /\ f x = f x'.
  Proof.
    rewrite !map_app. simpl. intros H. apply app_inj_tail in H. auto.
  Qed.

  Lemma map_snoc_nil {A B} (f : A -> B) l l' x :
    map f (l ++ [x]) = map f l' -> l' = [] -> False.
  Proof. intros H ->. rewrite map_app in H. simpl in H. destruct (map f l); discriminate. Qed.

  Lemma Inv_alloc K I st n : fresh st <= n -> Inv K I st -> Inv K I (mkCst (cols st) n).
  Proof.
    intros Hn V. destruct V as [A B C D (log & L1 & L2)]. constructor; auto.
    destruct (nth_error log 0) as [x|] eqn:E0.
    - exists (log ++ repeat x (n - fresh st)). split.
      + rewrite app_length, repeat_length. simpl. lia.
      + intros k s Hs. simpl in Hs. destruct (L2 _ _ Hs) as [Y1 Y2]. split.
        * rewrite nth_error_app1; auto. apply nth_error_Some. congruence.
        * intros c Hc. rewrite nth_error_app1; auto. apply nth_error_Some.
          rewrite Y2; congruence.
    - destruct log as [|x log]; [|discriminate].
      exists (repeat (Node 0 0 0 0 []) n). split.
      + rewrite repeat_length. auto.
      + intros k s Hs. simpl in Hs. destruct (L2 _ _ Hs) as [Y1 Y2].
        destruct (s_id s); discriminate.
  Qed.

  (** Steps preserve the invariant; scanning state [I] moves to [S I]. *)
  Lemma op_inv K I a b : Inv K I a -> op K a b -> Inv K I b.
  Proof.
    intros V O.
    destruct (inv_log _ _ _ V) as (log & L1 & L2).
    destruct O as [r rank q MP HN HP|s parent Hs C Hp X].
    - (* predict *)
      destruct (append_cases K (mkState r q 0 K K (fresh a) rank []) (alloc a))
        as [[-> _]|(NK & _)].
      { apply Inv_alloc; auto. }
      apply (append_inv K I I K _ a (S (fresh a))); auto.
      + repeat split; simpl; auto; try lia.
        * intros m Hm. destruct (Nat.le_gt_cases rank m) as [|Hlt]; auto. exfalso.
          specialize (HP _ _ Hlt Hm). apply has_iff in HP as (y & Hy & E).
          unfold serase in E. injection E as E1 E2 E3 E4 E5.
          assert (F : same_key (mkState r q 0 K K (fresh a) rank []) y = true).
          { apply same_key_iff. simpl. destruct (inv_ok _ _ _ V _ _ Hy) as [-> _].
            destruct (s_children y); [|discriminate]. auto 10. }
          rewrite NK in F; [discriminate|]. exact Hy.
        * constructor.
      + left; auto.
      + exists log, [state_node (mkState r q 0 K K (fresh a) rank [])].
        split; [auto|]. split; [rewrite app_length; simpl; lia|]. split; [auto|].
        split.
        * simpl. rewrite nth_error_app2, L1, Nat.sub_diag by lia. auto.
        * intros c [].
      + intros y Hy E. apply same_key_iff. unfold serase in E. simpl in *.
        injection E as E1 E2 E3 E4 E5. destruct (inv_ok _ _ _ V _ _ Hy) as [-> _].
        destruct (s_children y); [|discriminate]. repeat split; auto.
    - (* complete *)
      pose proof (inv_ok _ _ _ V _ _ Hs) as OKs.
      pose proof (inv_ok _ _ _ V _ _ Hp) as OKp.
      pose proof (completed_node_ok _ _ OKs C) as NOs.
      pose proof (expects_term _ _ X) as NT.
      apply (append_inv K I I K _ a (S (fresh a))); auto.
      + destruct OKp as (P1 & P2 & P3 & P4 & P5 & P6).
        unfold sok, advance; cbn [s_rule s_prod s_dot s_start s_stop s_id s_rank s_children]. split; [auto|].
        split; [rewrite app_length; simpl; lia|].
        split; [apply nth_error_Some; unfold EarleyModel.next_term in NT; congruence|].
        split; [auto|]. split; [auto|].
        rewrite (firstn_snoc _ _ _ NT).
        eapply nodes_ok_app; [exact P6|]. econstructor; [exact NOs|constructor].
      + right. apply In_nth_error in Hp as [i Hi].
        exists (s_children parent), (state_node s), parent, (s_start s), i.
        unfold advance; simpl. repeat (split; [solve [auto]|]).
        right. exists s. auto.
      + exists log, [state_node (advance K parent s (fresh a))].
        split; [auto|]. split; [rewrite app_length; simpl; lia|]. split; [auto|].
        split.
        * simpl. rewrite nth_error_app2, L1, Nat.sub_diag by lia. auto.
        * intros c Hc. unfold advance in Hc. simpl in Hc.
          assert (E : nth_error log (node_id c) = Some c).
          { apply in_app_or in Hc as [Hc|[<-|[]]].
            - exact (proj2 (L2 _ _ Hp) _ Hc).
            - exact (proj1 (L2 _ _ Hs)). }
          rewrite nth_error_app1; auto. apply nth_error_Some. congruence.
      + (* duplicates up to identities are duplicates *)
        intros y Hy E. unfold serase, advance in E. simpl in E.
        injection E as E1 E2 E3 E4 E5.
        destruct (inv_prov _ _ _ V _ _ Hy) as
          [N|(cs & c & p' & m & i & A1 & A2 & A3 & A4 & A5 & A6 & A7 & A8)].
        { exfalso. eapply map_snoc_nil; eauto. }
        rewrite A1 in E5. apply map_snoc_inv in E5 as [E5 E6].
        destruct A8 as [(id & pr & tk & -> & _)|(q & B1 & B2 & B3 & B4 & ->)];
          [discriminate|].
        pose proof (nth_error_In _ _ A2) as Hp'.
        pose proof (inv_ok _ _ _ V _ _ Hp') as OKp'.
        assert (EM : s_start s = m).
        { destruct OKp as (_ & _ & _ & _ & _ & P6), OKp' as (_ & _ & _ & _ & _ & P6').
          assert (ES : s_start parent = s_start p') by congruence.
          rewrite <- ES in P6'.
          destruct (proj2 node_ok_det _ _ _ _ P6 _ _ _ P6') as [E _]; congruence. }
        subst m.
        assert (EP : parent = p').
        { eapply (serase_inj _ _ _ (s_start s)); eauto.
          - rewrite EM. auto.
          - unfold serase. assert (s_dot parent = s_dot p') by lia. congruence. }
        assert (EQ : s = q).
        { eapply (serase_inj _ _ _ K); eauto.
          unfold state_node in E6. simpl in E6. injection E6 as F1 F2 F3.
          pose proof (inv_ok _ _ _ V _ _ B1) as OKq.
          pose proof (completed_dot _ _ OKs C). pose proof (completed_dot _ _ OKq B2).
          unfold serase. rewrite F2 in H. congruence. }
        subst p' q. apply same_key_iff. unfold advance. simpl.
        destruct (inv_ok _ _ _ V _ _ Hy) as [-> _].
        rewrite A1, A7. repeat split; auto.
  Qed.

  Lemma scan_op_inv K I a b : Inv K I a -> scan_op K I a b -> Inv K (S I) b.
  Proof.
    intros V O.
    assert (MM : forall m i, processed K I m i -> processed K (S I) m i)
    by (unfold processed; intros; lia).
    destruct (inv_log _ _ _ V) as (log & L1 & L2).
    destruct O as [s p t Hn HT Ht HA].
    pose proof (nth_error_In _ _ Hn) as Hs.
    pose proof (inv_ok _ _ _ V _ _ Hs) as OKs.
    apply (append_inv K I (S I) (S K) _ a (S (S (fresh a)))); auto.
    + destruct OKs as (P1 & P2 & P3 & P4 & P5 & P6).
      unfold sok; cbn [s_rule s_prod s_dot s_start s_stop s_id s_rank s_children]. split; [auto|].
      split; [rewrite app_length; simpl; lia|].
      split; [apply nth_error_Some; unfold EarleyModel.next_term in HT; congruence|].
      split; [auto|]. split; [auto|].
      rewrite (firstn_snoc _ _ _ HT).
      eapply nodes_ok_app; [exact P6|].
      econstructor; [constructor; eauto|constructor].
    + right.
      exists (s_children s), (Leaf (fresh a) K p (constrain p t)), s, K, I.
      simpl. repeat (split; [solve [auto]|]).
      left. do 3 eexists. split; [reflexivity|]. split; auto. right. lia.
    + eexists log, [Leaf (fresh a) K p (constrain p t); _].
      split; [auto|]. split; [rewrite app_length; simpl; lia|]. split; [auto|].
      split.
      * cbn [s_id]. rewrite nth_error_app2 by lia.
        replace (S (fresh a) - length log) with 1 by lia. simpl. reflexivity.
      * intros c Hc. simpl in Hc. apply in_app_or in Hc as [Hc|[<-|[]]].
        -- assert (E : nth_error log (node_id c) = Some c) by exact (proj2 (L2 _ _ Hs) _ Hc).
           rewrite nth_error_app1; auto. apply nth_error_Some. congruence.
        -- simpl. rewrite nth_error_app2, L1, Nat.sub_diag by lia. auto.
    + intros y Hy E. exfalso. unfold serase in E. simpl in E.
      injection E as E1 E2 E3 E4 E5.
      destruct (inv_prov _ _ _ V _ _ Hy) as
        [N|(cs & c & p' & m & i & A1 & A2 & A3 & A4 & A5 & A6 & A7 & A8)].
      { eapply map_snoc_nil; eauto. }
      rewrite A1 in E5. apply map_snoc_inv in E5 as [E5 E6].
      destruct A8 as [(id & pr & tk & -> & F & PR)|(q & B1 & B2 & B3 & B4 & ->)];
        [|discriminate].
      injection F as <-.
      assert (I = i).
      { eapply (serase_inj_nth _ _ _ K); eauto.
        unfold serase. assert (s_dot s = s_dot p') by lia. congruence. }
      unfold processed in PR. lia.
  Qed.


  Lemma ops_inv K I a b : ops K a b -> Inv K I a -> Inv K I b.
  Proof. induction 1; auto. intros. apply IHops. eapply op_inv; eauto. Qed.

  Lemma process_inv fuel K I s st st' :
    Inv K I st -> nth_error (cols st K) I = Some s ->
    process accepts constrain g toks fuel K s st = Some st' ->
    Inv K (S I) st' /\ ext K st st'.
  Proof.
    intros V Hn H. eapply process_ops in H as [H|H]; [| |exact Hn].
    - split. eapply Inv_mono; [|eapply ops_inv; eauto]; lia. apply ops_ext. auto.
    - split. eapply scan_op_inv; eauto. eapply scan_op_ext; eauto.
  Qed.

  Lemma Inv_next K I st : Inv K I st -> Inv (S K) 0 st.
  Proof.
    intros V. destruct V. constructor; auto.
    - intros k s Hs. eapply prov_mono; [|eauto]. unfold processed. intros; lia.
    - intros k Hk. apply inv_future0. lia.
  Qed.

  Lemma Inv_init : Inv 0 0 init_cst.
  Proof.
    constructor; simpl; auto; try tauto.
    - intros. constructor.
    - exists []. split; auto. intros k s [].
  Qed.

  Lemma start_column_ops k st : ops k st (start_column g toks all k st).
  Proof.
    unfold start_column. destruct (Nat.eqb k 0 || all) eqn:E; [|constructor].
    apply predict_ops. left. split; auto.
    apply orb_true_iff in E as [E|E]; [apply Nat.eqb_eq in E|]; auto.
  Qed.
End Inv.
