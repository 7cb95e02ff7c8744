(** Relations at the level of matches: what is accepted, which forms remain. *)
From Verif Require Import Base EarleyModel EarleySpec TokenModel TreeModel ParserModel TreeSpec TreeProofs
  RelationSpec RelationProofs ParserSpec FindallProofs ParserProofs MatchProofs ResultProofs ParserTheorems.

Section Edges.
  Variable rel : nat -> form -> form -> bool.
  Notation validate_edge := (validate_edge rel).
  Notation forms_of := get_token_forms.

  Lemma validate_edge_distinct fs r a b x :
    distinct_forms (forms_of x fs) \/ x = a \/ x = b -> distinct_forms (forms_of x (validate_edge fs (r, a, b))).
  Proof.
    rewrite validate_edge_forms. intros H.
    destruct (Nat.eqb x b) eqn:E1; [apply keep_second_distinct; apply distinct_nil|].
    destruct (Nat.eqb x a) eqn:E2; [apply keep_first_distinct; apply distinct_nil|].
    apply Nat.eqb_neq in E1, E2. destruct H as [H|[|]]; [exact H|congruence|congruence].
  Qed.
  Lemma validate_edges_distinct es x : forall fs,
    distinct_forms (forms_of x fs) \/ (exists r a b, In (r, a, b) es /\ (x = a \/ x = b)) ->
    distinct_forms (forms_of x (fold_left validate_edge es fs)).
  Proof.
    induction es as [|[[r a] b] es IH]; intros fs H; cbn [fold_left].
    - destruct H as [H|(? & ? & ? & [] & _)]; auto.
    - apply IH. destruct H as [H|(r' & a' & b' & [E|E] & X)].
      + left. apply validate_edge_distinct. auto.
      + injection E as -> -> ->. left. apply validate_edge_distinct. auto.
      + right. exists r', a', b'. auto.
  Qed.

  Lemma validate_edges_first es x : forall fs, (forall r a b, In (r, a, b) es -> b <> x) ->
    sublist (forms_of x (fold_left validate_edge es fs)) (forms_of x fs).
  Proof.
    induction es as [|[[r a] b] es IH]; intros fs H; cbn [fold_left]; [apply sublist_refl|].
    eapply sublist_trans; [apply IH; intros; eapply H; right; eauto|].
    rewrite validate_edge_forms. rewrite (proj2 (Nat.eqb_neq x b)).
    2:{ intros ->. apply (H r a b); auto. left. auto. }
    destruct (Nat.eqb x a) eqn:E; [|apply sublist_refl]. apply Nat.eqb_eq in E. subst.
    pose proof (keep_first_sublist rel r (forms_of b fs) (forms_of a fs) [] [] (sublist_nil _)) as K.
    exact K.
  Qed.

  (** ** A relation that is symmetric and transitive on the forms at hand *)
  Section Equivalence.
    Variable r : nat.
    Variable D : form -> Prop.
    Hypothesis RS : respects_forms rel.
    Hypothesis SYM : forall a b, D a -> D b -> rel r a b = true -> rel r b a = true.
    Hypothesis TRANS : forall a b c, D a -> D b -> D c -> rel r a b = true -> rel r b c = true -> rel r a c = true.

    Definition dom (fs : list (nat * list form)) (l : list nat) : Prop :=
      forall x f, In x l -> In f (forms_of x fs) -> D f.
    Definition class (fs : list (nat * list form)) (x : nat) (f : form) : Prop :=
      exists f', In f' (forms_of x fs) /\ rel r f f' = true.

    Lemma dom_step fs e l : dom fs l -> dom (validate_edge fs e) l.
    Proof. intros H x f Hx Hf. eapply H; eauto. eapply validate_edge_within; eauto. Qed.
    Lemma dom_incl fs l l' : dom fs l -> incl l' l -> dom fs l'.
    Proof. intros H I x f Hx Hf. eapply H; eauto. Qed.

    Lemma class_edge fs a b f : a <> b -> dom fs [a; b] -> D f ->
      (class (validate_edge fs (r, a, b)) a f <-> class fs a f /\ class fs b f) /\
      (class (validate_edge fs (r, a, b)) b f <-> class fs a f /\ class fs b f).
    Proof.
      intros NE DD Df. unfold class. rewrite !validate_edge_forms, !Nat.eqb_refl, (proj2 (Nat.eqb_neq a b)) by auto.
      assert (DA : forall x, In x (forms_of a fs) -> D x) by (intros; eapply DD; [left; reflexivity|auto]).
      assert (DB : forall x, In x (forms_of b fs) -> D x) by (intros; eapply DD; [right; left; reflexivity|auto]).
      assert (K : forall x y, In x (forms_of a fs) -> In y (forms_of b fs) -> rel r f x = true -> rel r f y = true ->
        rel r x y = true).
      { intros x y X Y R1 R2. apply (TRANS x f y); auto. }
      split; split.
      - intros (x & X & R). apply keep_first_in in X as [[]|[X (y & Y & R')]]. split; [eauto|].
        exists y. split; auto. apply (TRANS f x y); auto.
      - intros ((x & X & RX) & (y & Y & RY)). pose proof (keep_first_has rel r _ _ _ _ X Y (K _ _ X Y RX RY) []) as Z.
        apply form_in_iff in Z as (z & Z1 & Z2). exists z. split; auto.
        rewrite <- (RS r f f x z); auto. apply form_eqb_refl.
      - intros (y & Y & R). apply keep_second_in in Y as [[]|[Y (x & X & R')]]. split; [|eauto].
        exists x. split; auto. apply (TRANS f y x); auto.
      - intros ((x & X & RX) & (y & Y & RY)). pose proof (keep_second_has rel r _ _ _ _ X Y (K _ _ X Y RX RY) []) as Z.
        apply form_in_iff in Z as (z & Z1 & Z2). exists z. split; auto.
        rewrite <- (RS r f f y z); auto. apply form_eqb_refl.
    Qed.

    Lemma class_other fs a b x f : x <> a -> x <> b ->
      (class (validate_edge fs (r, a, b)) x f <-> class fs x f).
    Proof.
      intros. unfold class. rewrite validate_edge_forms, !(proj2 (Nat.eqb_neq _ _)) by auto. tauto.
    Qed.

    Definition row (x : nat) (l : list nat) := map (fun y => (r, x, y)) l.
    Definition every (fs : list (nat * list form)) (l : list nat) (f : form) : Prop := forall y, In y l -> class fs y f.

    Lemma class_edges_other es fs x f : (forall e, In e es -> exists a b, e = (r, a, b) /\ x <> a /\ x <> b) ->
      (class (fold_left validate_edge es fs) x f <-> class fs x f).
    Proof.
      revert fs. induction es as [|e es IH]; intros fs H; cbn [fold_left]; [tauto|].
      rewrite IH by (intros; apply H; right; auto). destruct (H e) as (a & b & -> & A & B); [left; auto|].
      apply class_other; auto.
    Qed.

    Lemma dom_edges es l : forall fs, dom fs l -> dom (fold_left validate_edge es fs) l.
    Proof. induction es; intros; cbn [fold_left]; auto using dom_step. Qed.

    Lemma class_row x f : D f -> forall l fs, ~ In x l -> NoDup l -> dom fs (x :: l) ->
      (class (fold_left validate_edge (row x l) fs) x f <-> class fs x f /\ every fs l f) /\
      (l <> [] -> (every (fold_left validate_edge (row x l) fs) l f <-> class fs x f /\ every fs l f)).
    Proof.
      intros Df. induction l as [|y l IH]; intros fs NI ND DD; cbn [row map fold_left].
      - split; [|congruence]. unfold every. cbn. tauto.
      - inversion ND as [|? ? N1 N2]; subst. set (fs1 := validate_edge fs (r, x, y)).
        destruct (class_edge fs x y f) as [EX EY]; auto.
        { intros ->. apply NI. left. auto. }
        { eapply dom_incl; eauto. intros z [<-|[<-|[]]]; [left|right; left]; auto. }
        fold fs1 in EX, EY.
        assert (OT : forall z, In z l -> (class fs1 z f <-> class fs z f)).
        { intros z Hz. apply class_other; intros ->; [apply NI; right; auto|auto]. }
        destruct (IH fs1) as [IX IL]; auto.
        { intros H. apply NI. right. auto. }
        { apply dom_step. eapply dom_incl; eauto. intros z [<-|]; [left|right; right]; auto. }
        fold (row x l) in *.
        assert (LY : class (fold_left validate_edge (row x l) fs1) y f <-> class fs1 y f).
        { apply class_edges_other. intros e He. apply in_map_iff in He as (z & <- & Hz). exists x, z. split; auto.
          split; intros ->; auto. apply NI. left. auto. }
        assert (EV : forall fs', every fs' (y :: l) f <-> class fs' y f /\ every fs' l f).
        { intros fs'. unfold every. cbn. split; [auto|]. intros [A B] z [<-|]; auto. }
        assert (E1 : every fs1 l f <-> every fs l f).
        { unfold every. split; intros H z Hz; apply OT; auto. }
        split.
        + rewrite IX, EX, E1, EV. tauto.
        + intros _. rewrite (EV (fold_left _ _ _)), (EV fs), LY, EY. destruct l as [|z l'].
          * unfold every. cbn. tauto.
          * rewrite IL by congruence. rewrite EX, E1. tauto.
    Qed.

    Lemma class_all f : D f -> forall l fs, NoDup l -> dom fs l -> forall x, In x l ->
      (class (fold_left validate_edge (map (fun '(a, b) => (r, a, b)) (combinations2 l)) fs) x f <-> every fs l f).
    Proof.
      intros Df. induction l as [|y l IH]; intros fs ND DD x Hx; [destruct Hx|].
      inversion ND as [|? ? N1 N2]; subst. cbn [combinations2]. rewrite map_app, map_map, fold_left_app.
      fold (row y l). destruct (class_row y f Df l fs) as [RX RL]; auto.
      set (fs1 := fold_left validate_edge (row y l) fs) in *.
      assert (D1 : dom fs1 l). { apply dom_edges. eapply dom_incl; eauto. intros z; right; auto. }
      assert (EV : every fs (y :: l) f <-> class fs y f /\ every fs l f).
      { unfold every. cbn. split; [auto|]. intros [A B] z [<-|]; auto. }
      destruct Hx as [<-|Hx].
      - rewrite class_edges_other; [rewrite RX, EV; tauto|].
        intros e He. apply in_map_iff in He as ([a b] & <- & He). exists a, b. split; auto.
        apply combinations2_in in He as (p & q & s & ->).
        split; intros ->; apply N1; apply in_or_app; right; [left; auto|right; apply in_or_app; right; left; auto].
      - rewrite (IH fs1 N2 D1 x Hx). rewrite EV. apply RL. destruct l; [destruct Hx|congruence].
    Qed.
  End Equivalence.
End Edges.

Section Agreement.
  Context {pred : Type}.
  Variable accepts : pred -> token -> bool.
  Variable constrain : pred -> token -> token.
  Variable rel : nat -> form -> form -> bool.
  Variable g : grammar token pred.
  Variable toks : list token.
  Notation node := (node token pred).
  Notation leaf := (@leaf pred).
  Notation parse := (parse accepts constrain g).

  Lemma items_of_in ro (rl : list (nat * leaf)) pos :
    In pos (items_of ro rl) <-> exists l, In (ro, l) rl /\ leaf_pos l = pos.
  Proof.
    unfold items_of. rewrite in_flat_map. split.
    - intros ([r l] & H & X). cbn [fst snd] in X. destruct (Nat.eqb ro r) eqn:E; [|destruct X].
      apply Nat.eqb_eq in E. subst. destruct X as [<-|[]]. eauto.
    - intros (l & H & <-). exists (ro, l). split; auto. cbn [fst snd]. rewrite Nat.eqb_refl. left. auto.
  Qed.

  Lemma items_of_joined ro (rl : list (nat * leaf)) a b : joined rl ro a b ->
    exists p q r, items_of ro rl = p ++ leaf_pos a :: q ++ leaf_pos b :: r.
  Proof.
    intros (p & q & r & ->). exists (items_of ro p), (items_of ro q), (items_of ro r).
    unfold items_of. rewrite flat_map_app. cbn [flat_map fst snd]. rewrite flat_map_app. cbn [flat_map fst snd].
    rewrite Nat.eqb_refl. reflexivity.
  Qed.

  Lemma joined_edge s (rl : list (nat * leaf)) gr ro a b : graph_inv s rl gr -> joined rl ro a b ->
    exists its1 its2, relation_items gr = its1 ++ (ro, items_of ro rl) :: its2.
  Proof.
    intros V J. assert (K : In ro (map fst (relation_items gr))).
    { apply (gi_keys _ _ _ V). destruct J as (p & q & r & ->). rewrite map_app. apply in_or_app. right. left. auto. }
    apply in_map_iff in K as ([r items] & E & K). cbn [fst] in E. subst r.
    destruct (gi_items _ _ _ V) as [_ I]. rewrite (I _ _ K) in K. apply in_split in K as (x & y & K). eauto.
  Qed.

  Lemma joined_in_edges s (rl : list (nat * leaf)) gr ro a b : graph_inv s rl gr -> joined rl ro a b ->
    In (ro, leaf_pos a, leaf_pos b) (edges gr).
  Proof.
    intros V J. destruct (joined_edge _ _ _ _ _ _ V J) as (i1 & i2 & E). unfold edges. apply in_flat_map.
    exists (ro, items_of ro rl). split; [rewrite E; apply in_or_app; right; left; auto|].
    apply in_map_iff. exists (leaf_pos a, leaf_pos b). split; auto. apply combinations2_in.
    apply items_of_joined. auto.
  Qed.

  Lemma in_split_last {A} (dec : forall a b : A, {a = b} + {a <> b}) x (l : list A) : In x l ->
    exists p q, l = p ++ x :: q /\ ~ In x q.
  Proof.
    induction l as [|y l IH]; intros H; [destruct H|]. destruct (in_dec dec x l) as [I|N].
    - destruct (IH I) as (p & q & -> & X). exists (y :: p), q. auto.
    - destruct H as [->|H]; [|contradiction]. exists [], l. auto.
  Qed.
  Lemma edge_dec : forall a b : nat * nat * nat, {a = b} + {a <> b}.
  Proof. decide equality; [apply Nat.eq_dec|decide equality; apply Nat.eq_dec]. Qed.

  Section One.
    Variables (fuel : nat) (all : bool) (trees : list (@tree pred)).
    Hypothesis PARSE : parse fuel toks all = Some trees.

    Lemma tree_ids t : In t trees -> NoDup (map leaf_id (tree_leaves (fst t))) /\ NoDup (map leaf_pos (tree_leaves (fst t))).
    Proof.
      intros H. split.
      - eapply (tree_nodup_id accepts constrain g toks); eauto.
      - eapply (tree_nodup_pos accepts constrain g toks); eauto.
    Qed.

    Lemma propagated_leaves (n n' : node) : propagate n = Some n' -> tree_leaves n' = tree_leaves n.
    Proof. intros P. pose proof (propagate_leaves n) as E. rewrite P in E. auto. Qed.

    (** C33 *)
    Lemma consistent_accepted n range s n' rl w : In (n, range) trees -> respects_forms rel ->
      propagate n = Some n' -> related g n' rl -> consistent rel rl (token_at s) w ->
      exists s1 m, prepare_match rel g (n, range) s = Ok (s1, Some m) /\ m_root m = n' /\ m_range m = range /\
        forall ro l t, In (ro, l) rl -> token_of (tree_leaves n') (m_tokens m) l t -> has_form t (w (leaf_pos l)).
    Proof.
      intros HT RS P RL [C1 C2]. destruct (tree_ids _ HT) as [IDS POS]. cbn [fst] in *.
      rewrite <- (propagated_leaves _ _ P) in IDS, POS.
      destruct (graph_of_ok s rl) with (gr := empty_graph) as (gr & GR).
      { intros ro l H. destruct (C1 _ _ H) as (fs & f & E & _). congruence. }
      rewrite <- (tree_relations_related g s n' rl RL) in GR.
      pose proof (choice_survives rel g s n' POS rl RL gr GR w RS C1 C2) as K.
      assert (VA : snd (validate rel gr) = true).
      { apply (valid_iff rel g s n' POS rl RL gr GR). intros ro l H E. specialize (K _ _ H). rewrite E in K. discriminate. }
      destruct (prepare_match_valid rel g s n n' range P IDS POS rl RL gr GR VA) as (s1 & m & A & B & C & D & _).
      exists s1, m. repeat (split; auto). intros ro l t H (k & E1 & E2). rewrite D in E2.
      rewrite nth_error_map, E1 in E2. cbn in E2. injection E2 as <-.
      rewrite (narrowed_related rel s rl gr ro l H). specialize (K _ _ H). apply form_in_iff in K as (f & F1 & F2).
      exists (final_forms rel gr (leaf_pos l)), f. auto.
    Qed.

    (** What acceptance means. *)
    Lemma accepted_facts n range s s1 m : In (n, range) trees -> prepare_match rel g (n, range) s = Ok (s1, Some m) ->
      exists rl gr, propagate n = Some (m_root m) /\ related g (m_root m) rl /\
        tree_relations g s (m_root m) = Ok gr /\ graph_inv s rl gr /\
        pos_inj (tree_leaves (m_root m)) /\
        (forall ro l, In (ro, l) rl -> In l (tree_leaves (m_root m))) /\
        (forall ro l, In (ro, l) rl -> t_forms (token_at s l) = Some (get_token_forms (leaf_pos l) (token_forms gr))) /\
        (forall ro l, In (ro, l) rl -> final_forms rel gr (leaf_pos l) <> []) /\
        m_tokens m = map (narrowed rel s rl gr) (tree_leaves (m_root m)).
    Proof.
      intros HT H. destruct (tree_ids _ HT) as [IDS POS]. cbn [fst] in *.
      destruct (prepare_match_inv rel g s n range s1 m H IDS POS) as (rl & gr & A & B & C & D & E & _ & F & _).
      rewrite <- E in POS, IDS, F. exists rl, gr. split; auto. split; auto. split; auto.
      split. { eapply tree_relations_inv; eauto. eapply rl_pos_inj; eauto. }
      split. { apply NoDup_pos_inj; auto. }
      split. { intros; eapply related_in; eauto. }
      split. { intros ro l HI. eapply initial_forms; eauto. }
      split; auto. apply (valid_iff rel g s (m_root m) POS rl B gr C). auto.
    Qed.

    Lemma token_of_related gr s rl (root : node) (m : @amatch pred) l t : m_tokens m = map (narrowed rel s rl gr) (tree_leaves root) ->
      token_of (tree_leaves root) (m_tokens m) l t -> t = narrowed rel s rl gr l.
    Proof.
      intros E (k & A & B). rewrite E, nth_error_map, A in B. cbn in B. congruence.
    Qed.
    Lemma token_of_forms gr s rl (root : node) (m : @amatch pred) ro l t : m_tokens m = map (narrowed rel s rl gr) (tree_leaves root) ->
      In (ro, l) rl -> token_of (tree_leaves root) (m_tokens m) l t -> t_forms t = Some (final_forms rel gr (leaf_pos l)).
    Proof.
      intros E HI H. rewrite (token_of_related _ _ _ _ _ _ _ E H). erewrite narrowed_related; eauto.
    Qed.

    Lemma joined_both (rl : list (nat * leaf)) ro a b : joined rl ro a b -> In (ro, a) rl /\ In (ro, b) rl.
    Proof.
      intros (p & q & r & ->). split; apply in_or_app; right; [left; auto|right; apply in_or_app; right; left; auto].
    Qed.

    (** C35 *)
    Lemma filtering n range s s1 m rl : In (n, range) trees -> prepare_match rel g (n, range) s = Ok (s1, Some m) ->
      related g (m_root m) rl ->
      length (m_tokens m) = length (tree_leaves (m_root m)) /\
      forall l t, token_of (tree_leaves (m_root m)) (m_tokens m) l t ->
        same_text t (token_at s l) /\
        ((forall ro, ~ In (ro, l) rl) -> t = token_at s l) /\
        ((exists ro, In (ro, l) rl) -> exists before after, t_forms (token_at s l) = Some before /\ t_forms t = Some after /\
           after <> [] /\ (forall f, In f after -> In f before) /\
           ((exists ro l', joined rl ro l l' \/ joined rl ro l' l) -> distinct_forms after) /\
           ((forall ro l', ~ joined rl ro l' l) -> sublist after before)).
    Proof.
      intros HT H RL. destruct (accepted_facts _ _ _ _ _ HT H) as (rl' & gr & P & RL' & GR & V & PI & IN & INI & FIN & MT).
      assert (rl' = rl) as ->.
      { clear - RL RL'. unfold related in *. revert rl RL. induction RL' as [|x y l1 l2 [A1 A2] _ IH]; intros rl RL; inversion RL; subst; auto.
        f_equal; auto. destruct y as [y1 y2], y0 as [z1 z2]. cbn [fst snd] in *. destruct H1 as [B1 B2].
        rewrite (main_leaf_det g _ _ _ A2 B2). congruence. }
      split. { rewrite MT, map_length. auto. }
      intros l t HTK. assert (HL : In l (tree_leaves (m_root m))).
      { destruct HTK as (k & E & _). eapply nth_error_In; eauto. }
      pose proof (token_of_related _ _ _ _ _ _ _ MT HTK) as ET.
      split; [rewrite ET; eapply narrowed_same_text|]. split.
      - intros N. rewrite ET. apply narrowed_other. intros ro l' HI E. apply (N ro).
        replace l with l'; auto. apply PI; eauto.
      - intros (ro & HI). exists (get_token_forms (leaf_pos l) (token_forms gr)), (final_forms rel gr (leaf_pos l)).
        split; [eauto|]. split; [eapply token_of_forms; eauto|]. split; [eauto|].
        split. { intros f F. eapply validate_edges_within; eauto. }
        split.
        + intros (ro' & l' & J). apply validate_edges_distinct. right.
          destruct J as [J|J]; apply (joined_in_edges _ _ _ _ _ _ V) in J; eauto 8.
        + intros N. apply validate_edges_first. intros r a b HE E.
          destruct (items_edges _ _ (gi_items _ _ _ V) _ _ _ HE) as (la & lb & J & <- & E2).
          apply (N r la). replace l with lb; auto. apply PI; [|auto|congruence].
          apply joined_both in J as [_ J]. eauto.
    Qed.

    (** C34, two tokens joined by nothing else. *)
    Lemma pair_agrees n range s s1 m rl ro a b ta tb : In (n, range) trees ->
      prepare_match rel g (n, range) s = Ok (s1, Some m) -> related g (m_root m) rl -> respects_forms rel ->
      joined rl ro a b -> a <> b ->
      (forall ro' x y, joined rl ro' x y -> x = a \/ x = b \/ y = a \/ y = b -> ro' = ro /\ x = a /\ y = b) ->
      token_of (tree_leaves (m_root m)) (m_tokens m) a ta -> token_of (tree_leaves (m_root m)) (m_tokens m) b tb ->
      exists fa fb, t_forms ta = Some fa /\ t_forms tb = Some fb /\ fa <> [] /\ fb <> [] /\
        (forall f, In f fa -> exists f', In f' fb /\ rel ro f f' = true) /\
        (forall f, In f fb -> exists f', In f' fa /\ rel ro f' f = true).
    Proof.
      intros HT H RL RS J NE ONLY TA TB.
      destruct (accepted_facts _ _ _ _ _ HT H) as (rl' & gr & P & RL' & GR & V & PI & IN & INI & FIN & MT).
      assert (rl' = rl) as ->.
      { clear - RL RL'. unfold related in *. revert rl RL. induction RL' as [|x y l1 l2 [A1 A2] _ IH]; intros rl RL; inversion RL; subst; auto.
        f_equal; auto. destruct y as [y1 y2], y0 as [z1 z2]. cbn [fst snd] in *. destruct H1 as [B1 B2].
        rewrite (main_leaf_det g _ _ _ A2 B2). congruence. }
      destruct (joined_both _ _ _ _ J) as [IA IB].
      exists (final_forms rel gr (leaf_pos a)), (final_forms rel gr (leaf_pos b)).
      split; [eapply token_of_forms; eauto|]. split; [eapply token_of_forms; eauto|].
      split; [eauto|]. split; [eauto|].
      pose proof (joined_in_edges _ _ _ _ _ _ V J) as HE.
      apply (in_split_last edge_dec) in HE as (p & q & EQ & NI). unfold final_forms. rewrite EQ.
      assert (POSNE : leaf_pos a <> leaf_pos b) by (intros E; apply NE; apply PI; eauto).
      apply (validate_last_edge rel p ro (leaf_pos a) (leaf_pos b) q (token_forms gr)); auto.
      intros r' a' b' HQ. assert (HQ' : In (r', a', b') (edges gr)).
      { rewrite EQ. apply in_or_app. right. right. auto. }
      destruct (items_edges _ _ (gi_items _ _ _ V) _ _ _ HQ') as (x & y & JX & <- & <-).
      destruct (joined_both _ _ _ _ JX) as [IX IY].
      assert (K : ~ (x = a \/ x = b \/ y = a \/ y = b)).
      { intros X. destruct (ONLY _ _ _ JX X) as (-> & -> & ->). contradiction. }
      repeat split; intros E; apply K; apply PI in E; eauto.
    Qed.

    (** C34, any number of tokens in one relation that behaves as an
        equivalence. *)
    Lemma equivalence_agrees n range s s1 m rl ro (D : form -> Prop) a b ta tb : In (n, range) trees ->
      prepare_match rel g (n, range) s = Ok (s1, Some m) -> related g (m_root m) rl -> respects_forms rel ->
      NoDup (map snd rl) ->
      (forall l fs f, In (ro, l) rl -> t_forms (token_at s l) = Some fs -> In f fs -> D f) ->
      (forall x y, D x -> D y -> rel ro x y = true -> rel ro y x = true) ->
      (forall x y z, D x -> D y -> D z -> rel ro x y = true -> rel ro y z = true -> rel ro x z = true) ->
      joined rl ro a b ->
      token_of (tree_leaves (m_root m)) (m_tokens m) a ta -> token_of (tree_leaves (m_root m)) (m_tokens m) b tb ->
      exists fa fb, t_forms ta = Some fa /\ t_forms tb = Some fb /\ fa <> [] /\ fb <> [] /\
        (forall f, In f fa -> exists f', In f' fb /\ rel ro f f' = true) /\
        (forall f, In f fb -> exists f', In f' fa /\ rel ro f' f = true).
    Proof.
      intros HT H RL RS ND DOM SYM TRANS J TA TB.
      destruct (accepted_facts _ _ _ _ _ HT H) as (rl' & gr & P & RL' & GR & V & PI & IN & INI & FIN & MT).
      assert (rl' = rl) as ->.
      { clear - RL RL'. unfold related in *. revert rl RL. induction RL' as [|x y l1 l2 [A1 A2] _ IH]; intros rl RL; inversion RL; subst; auto.
        f_equal; auto. destruct y as [y1 y2], y0 as [z1 z2]. cbn [fst snd] in *. destruct H1 as [B1 B2].
        rewrite (main_leaf_det g _ _ _ A2 B2). congruence. }
      destruct (joined_both _ _ _ _ J) as [IA IB].
      destruct (joined_edge _ _ _ _ _ _ V J) as (its1 & its2 & EI).
      set (items := items_of ro rl) in *.
      set (fs0 := token_forms gr).
      (* positions of related leaves are pairwise different *)
      assert (NDP : NoDup (map (fun e => leaf_pos (snd e)) rl)).
      { rewrite <- map_map. revert ND. assert (INC : forall l, In l (map snd rl) -> In l (tree_leaves (m_root m))).
        { intros l Hl. apply in_map_iff in Hl as ([r x] & <- & Hx). eauto. }
        revert INC. generalize (map snd rl). induction l as [|x l IH]; intros INC ND; [constructor|].
        inversion ND; subst. cbn [map]. constructor.
        - intros X. apply in_map_iff in X as (y & E & Y). apply PI in E; [subst; contradiction|apply INC; right; auto|apply INC; left; auto].
        - apply IH; auto. intros; apply INC; right; auto. }
      assert (UNIQ : forall r l r' l', In (r, l) rl -> In (r', l') rl -> leaf_pos l = leaf_pos l' -> r = r').
      { intros r l r' l' H1 H2 E. clear - NDP H1 H2 E. induction rl as [|[r0 l0] rl0 IH]; [destruct H1|].
        cbn [map snd] in NDP. inversion NDP as [|? ? N1 N2]; subst.
        destruct H1 as [H1|H1], H2 as [H2|H2].
        - congruence.
        - injection H1 as -> ->. exfalso. apply N1. apply in_map_iff. exists (r', l'). auto.
        - injection H2 as -> ->. exfalso. apply N1. apply in_map_iff. exists (r, l). auto.
        - auto. }
      assert (NDI : NoDup items).
      { unfold items. clear - NDP. induction rl as [|[r0 l0] rl0 IH]; [constructor|]. cbn [map snd] in NDP.
        inversion NDP as [|? ? N1 N2]; subst. unfold items_of. cbn [flat_map fst snd]. fold (items_of ro rl0).
        destruct (Nat.eqb ro r0); cbn [app]; auto. constructor; auto.
        rewrite items_of_in. intros (l & X & Y). apply N1. apply in_map_iff. exists (ro, l). auto. }
      set (blk := map (fun '(a, b) => (ro, a, b)) (combinations2 items)).
      set (ed := fun its : list (nat * list nat) => flat_map (fun '(r, items) => map (fun '(a, b) => (r, a, b)) (combinations2 items)) its).
      assert (EE : edges gr = ed its1 ++ blk ++ ed its2).
      { unfold edges. rewrite EI, flat_map_app. reflexivity. }
      destruct (gi_items _ _ _ V) as [NDK IOK]. rewrite EI in NDK. rewrite map_app in NDK. cbn [map fst] in NDK.
      (* the other blocks do not touch our tokens *)
      assert (OTHER : forall its x, (forall r i, In (r, i) its -> In (r, i) (relation_items gr) /\ r <> ro) -> In x items ->
        forall r c d, In (r, c, d) (ed its) -> x <> c /\ x <> d).
      { intros its x HS HX r c d HE. unfold ed in HE. apply in_flat_map in HE as ([r1 i1] & HI & HE).
        apply in_map_iff in HE as ([c1 d1] & E & HE). injection E as -> -> ->.
        destruct (HS _ _ HI) as [HI' NE]. rewrite (IOK _ _ HI') in HE.
        apply combinations2_in in HE as (p & q & z & HE).
        unfold items in HX. apply items_of_in in HX as (lx & X1 & <-).
        assert (C : In c (items_of r rl)) by (rewrite HE; apply in_or_app; right; left; auto).
        assert (Dd : In d (items_of r rl)) by (rewrite HE; apply in_or_app; right; right; apply in_or_app; right; left; auto).
        apply items_of_in in C as (lc & C1 & <-). apply items_of_in in Dd as (ld & D1 & <-).
        split; intros E; apply NE; [apply (UNIQ r lc ro lx)|apply (UNIQ r ld ro lx)]; auto. }
      assert (S1 : forall r i, In (r, i) its1 -> In (r, i) (relation_items gr) /\ r <> ro).
      { intros r i HI. split; [rewrite EI; apply in_or_app; auto|]. intros ->. apply NoDup_remove_2 in NDK. apply NDK.
        apply in_or_app. left. apply in_map_iff. exists (ro, i). auto. }
      assert (S2 : forall r i, In (r, i) its2 -> In (r, i) (relation_items gr) /\ r <> ro).
      { intros r i HI. split; [rewrite EI; apply in_or_app; right; right; auto|]. intros ->. apply NoDup_remove_2 in NDK. apply NDK.
        apply in_or_app. right. apply in_map_iff. exists (ro, i). auto. }
      set (fs1 := fold_left (validate_edge rel) (ed its1) fs0).
      assert (F1 : forall x, In x items -> get_token_forms x fs1 = get_token_forms x fs0).
      { intros x Hx. apply validate_edges_other. exact (OTHER its1 x S1 Hx). }
      assert (FF : forall x, In x items -> final_forms rel gr x = get_token_forms x (fold_left (validate_edge rel) blk fs1)).
      { intros x Hx. unfold final_forms. rewrite EE, !fold_left_app. apply validate_edges_other. exact (OTHER its2 x S2 Hx). }
      assert (DM : dom D fs1 items).
      { intros x f Hx Hf. rewrite (F1 _ Hx) in Hf. unfold items in Hx. apply items_of_in in Hx as (l & Hl & <-).
        eapply DOM; eauto. }
      assert (XA : In (leaf_pos a) items) by (apply items_of_in; eauto).
      assert (XB : In (leaf_pos b) items) by (apply items_of_in; eauto).
      assert (SELF : forall x y f, In x items -> In y items -> x <> y -> In f (final_forms rel gr x) ->
        exists f', In f' (final_forms rel gr y) /\ rel ro f f' = true).
      { intros x y f Hx Hy NE Hf. rewrite (FF _ Hx) in Hf. rewrite (FF _ Hy).
        assert (Df : D f) by (exact (dom_edges rel D blk items fs1 DM x f Hx Hf)).
        assert (CX : class rel ro (fold_left (validate_edge rel) blk fs1) x f).
        { exists f. split; auto.
          (* f survived an edge, so it agrees with something and hence with itself *)
          assert (HB : exists f', D f' /\ rel ro f f' = true).
          { assert (TOUCH : exists c d, In (ro, c, d) blk /\ (x = c \/ x = d)).
            { apply in_split in Hx as (p & q & EX). destruct (in_app_or p (x :: q) y) as [Y|Y]; [rewrite <- EX; auto| |].
              - apply in_split in Y as (p1 & p2 & ->). exists y, x. split; auto. unfold blk. apply in_map_iff.
                exists (y, x). split; auto. apply combinations2_in. exists p1, p2, q. rewrite EX, <- app_assoc. reflexivity.
              - destruct Y as [Y|Y]; [congruence|]. apply in_split in Y as (q1 & q2 & ->). exists x, y. split; auto.
                unfold blk. apply in_map_iff. exists (x, y). split; auto. apply combinations2_in. exists p, q1, q2. auto. }
            destruct TOUCH as (c & d & HC & TC). apply in_split in HC as (e1 & e2 & EB).
            assert (NCD : c <> d /\ In c items /\ In d items).
            { assert (HC : In (ro, c, d) blk) by (rewrite EB; apply in_or_app; right; left; auto).
              unfold blk in HC. apply in_map_iff in HC as ([c1 d1] & E & HC). injection E as -> ->.
              apply combinations2_in in HC as (p & q & z & E). split; [|split].
              - intros ->. rewrite E in NDI. apply NoDup_remove_2 in NDI. apply NDI. apply in_or_app. right.
                apply in_or_app. right. left. auto.
              - rewrite E. apply in_or_app. right. left. auto.
              - rewrite E. apply in_or_app. right. right. apply in_or_app. right. left. auto. }
            destruct NCD as (NCD & IC & ID).
            rewrite EB, fold_left_app in Hf. cbn [fold_left] in Hf. apply validate_edges_within in Hf.
            set (fm := fold_left (validate_edge rel) e1 fs1) in *.
            assert (DM' : dom D fm items) by (apply dom_edges; auto).
            rewrite validate_edge_forms in Hf. destruct TC as [->| ->].
            - rewrite (proj2 (Nat.eqb_neq c d)), Nat.eqb_refl in Hf by auto.
              apply keep_first_in in Hf as [[]|[Hf (f' & Y & R)]]. exists f'. split; auto. eapply DM'; [exact ID|eauto].
            - rewrite Nat.eqb_refl in Hf. apply keep_second_in in Hf as [[]|[Hf (f' & Y & R)]]. exists f'.
              assert (Df' : D f') by (eapply DM'; [exact IC|eauto]). split; auto. }
          destruct HB as (f' & Df' & R). apply (TRANS f f' f); auto. }
        apply (class_all rel ro D RS SYM TRANS f Df items fs1 NDI DM x Hx) in CX.
        apply (class_all rel ro D RS SYM TRANS f Df items fs1 NDI DM y Hy) in CX. exact CX. }
      assert (PNE : leaf_pos a <> leaf_pos b).
      { intros E. destruct J as (p & q & r & ->). rewrite map_app in NDP. cbn [map snd] in NDP.
        apply NoDup_remove_2 in NDP. apply NDP. apply in_or_app. right. rewrite map_app. apply in_or_app. right.
        left. cbn. auto. }
      exists (final_forms rel gr (leaf_pos a)), (final_forms rel gr (leaf_pos b)).
      split; [eapply token_of_forms; eauto|]. split; [eapply token_of_forms; eauto|].
      split; [eauto|]. split; [eauto|]. split.
      - intros f F. exact (SELF (leaf_pos a) (leaf_pos b) f XA XB PNE F).
      - intros f F. destruct (SELF (leaf_pos b) (leaf_pos a) f) as (f' & X & R); auto. exists f'. split; auto.
        assert (DX : forall x z, In x items -> In z (final_forms rel gr x) -> D z).
        { intros x z Hx Hz. rewrite (FF _ Hx) in Hz. exact (dom_edges rel D blk items fs1 DM x z Hx Hz). }
        apply SYM; eauto.
    Qed.
  End One.

  (** C33 for match. *)
  Lemma match_rejects_only_inconsistent fuel trees s n range n' rl w :
    match_ accepts constrain rel g fuel toks = Some (Ok (s, None)) ->
    parse fuel toks false = Some trees -> In (n, range) trees -> respects_forms rel ->
    propagate n = Some n' -> related g n' rl -> ~ consistent rel rl leaf_tk w.
  Proof.
    intros HM HP HT RS P RL C.
    destruct (match_spec accepts constrain rel g fuel toks _ HM) as (trees' & HP' & K).
    rewrite HP in HP'. injection HP' as <-.
    assert (C' : consistent rel rl (token_at []) w).
    { destruct C as [C1 C2]. split; auto. }
    destruct (consistent_accepted fuel false trees HP n range [] n' rl w HT RS P RL C') as (s1 & m & E & _).
    destruct K as [(t & s2 & m2 & X & _)|[(t & e & X & _)|(X & Y)]]; [discriminate|discriminate|].
    rewrite (Y _ HT) in E. discriminate.
  Qed.
End Agreement.
