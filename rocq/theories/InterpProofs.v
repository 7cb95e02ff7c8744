(** Facts about interpretation: condensed trees, facts, spans, JSON, text. *)
From Coq Require Import Sorted.
From Verif Require Import Base TokenModel EarleyModel TreeModel TreeSpec TreeProofs PredicateModel PredicateProofs
  ParserModel InterpModel InterpSpec.

(** ** Condensed trees *)
Section Condense.
  Context {pred : Type}.
  Notation node := (node token pred).
  Variable g : grammar token pred.
  Notation kept := (kept g).
  Notation flatten := (flatten g).
  Notation has_interp := (has_interp g).

  Lemma has_interp_spec n : has_interp n = true <-> interpreted g n.
  Proof.
    unfold interpreted. destruct n as [id pos p tk|id r q rank ch]; cbn.
    - split; [discriminate|]. intros (? & ? & ? & ? & ? & ? & E & _). discriminate.
    - destruct (g_interp g r) as [i|] eqn:E; split; try discriminate.
      + intros _. repeat eexists. exact E.
      + reflexivity.
      + intros (? & ? & ? & ? & ? & ? & [= <- <- <- <- <-] & H). congruence.
  Qed.

  Definition stop (n : node) : bool := is_leaf n || has_interp n.
  Lemma stop_spec n : stop n = true <-> a_leaf n \/ interpreted g n.
  Proof.
    unfold stop. rewrite orb_true_iff, has_interp_spec.
    enough (is_leaf n = true <-> a_leaf n) by tauto. unfold a_leaf.
    destruct n; cbn; split; try discriminate; [repeat eexists|reflexivity|].
    intros (? & ? & ? & ? & E). discriminate.
  Qed.

  (** [flatten] and [keep_visit] against [kept]. *)
  Lemma flatten_eq id r q rank ch : flatten (Node id r q rank ch) =
    flat_map (fun c => if stop c then [c] else flatten c) ch.
  Proof. reflexivity. Qed.
  Lemma kept_eq id r q rank ch : kept (Node id r q rank ch) =
    if has_interp (Node id r q rank ch) then [Node id r q rank (flat_map kept ch)] else flat_map kept ch.
  Proof. reflexivity. Qed.

  Lemma kept_flatten n : flat_map kept (flatten n) = flat_map kept (children n).
  Proof.
    induction n as [|id r q rank ch IH] using node_ind2; [reflexivity|].
    rewrite flatten_eq. cbn [children].
    induction IH as [|c ch Hc IH IHch]; [reflexivity|]. cbn [flat_map].
    rewrite <- IHch. rewrite flat_map_app. f_equal. unfold stop. destruct c as [id' pos p tk|id' r' q' rank' ch']; [cbn; reflexivity|].
    cbn [is_leaf orb]. destruct (has_interp (Node id' r' q' rank' ch')) eqn:E.
    - cbn [flat_map]. apply app_nil_r.
    - rewrite kept_eq, E. exact Hc.
  Qed.

  Lemma size_flatten n c : In c (flatten n) -> size c < size n.
  Proof.
    revert c. induction n as [|id r q rank ch IH] using node_ind2; intros c H; [destruct H|].
    rewrite flatten_eq in H. apply in_flat_map in H as (d & Hd & H).
    rewrite Forall_forall in IH. specialize (IH d Hd c).
    assert (D : size d < size (Node id r q rank ch)).
    { cbn [size]. clear - Hd. induction ch as [|x ch IHc]; [destruct Hd|]. cbn [map list_sum fold_right].
      destruct Hd as [->|Hd]; [unfold list_sum; lia|]. specialize (IHc Hd). unfold list_sum in *. lia. }
    destruct (stop d); [destruct H as [->|[]]; auto|]. specialize (IH H). lia.
  Qed.
  Lemma flatten_stop n c : In c (flatten n) -> stop c = true.
  Proof.
    revert c. induction n as [|id r q rank ch IH] using node_ind2; intros c H; [destruct H|].
    rewrite flatten_eq in H. apply in_flat_map in H as (d & Hd & H).
    rewrite Forall_forall in IH. destruct (stop d) eqn:E; [destruct H as [->|[]]; auto|].
    eapply IH; eauto.
  Qed.

  Lemma keep_visit_kept : forall fuel n, size n <= fuel -> stop n = true ->
    exists n', keep_visit g fuel n = Some (Ok n') /\ kept n = [n'].
  Proof.
    induction fuel as [|fuel IH]; intros n L S; [destruct n; cbn in L; lia|].
    destruct n as [id pos p tk|id r q rank ch]; [cbn; eauto|].
    unfold stop in S. cbn [is_leaf orb] in S. cbn [keep_visit]. rewrite S, kept_eq, S.
    set (n := Node id r q rank ch) in *.
    assert (F : forall l, (forall c, In c l -> size c <= fuel /\ stop c = true) ->
      fold_right (fun c acc => match keep_visit g fuel c, acc with
                        | Some x, Some xs => Some (let! y := x in let! ys := xs in Ok (y :: ys))
                        | _, _ => None
                        end) (Some (Ok [])) l = Some (Ok (flat_map kept l))).
    { induction l as [|c l IHl]; intros H; [reflexivity|]. cbn [fold_right flat_map].
      destruct (H c (or_introl eq_refl)) as [Hs Hp]. destruct (IH c Hs Hp) as (c' & -> & ->).
      rewrite IHl by (intros; apply H; right; auto). reflexivity. }
    rewrite F.
    - rewrite kept_flatten. cbn [bind children n]. eexists. split; reflexivity.
    - intros c Hc. split; [|eapply flatten_stop; eauto]. apply size_flatten in Hc. lia.
  Qed.

  (** Frontier: the paths to what a node contributes. *)
  Fixpoint front (n : node) : list (list nat) :=
    if stop n then [[]] else
    match n with
    | Leaf _ _ _ _ => []
    | Node _ _ _ _ ch =>
        (fix go (i : nat) (ch : list node) : list (list nat) :=
           match ch with
           | [] => []
           | c :: ch' => map (cons i) (front c) ++ go (S i) ch'
           end) 0 ch
    end.
  Fixpoint front_from (i : nat) (ch : list node) : list (list nat) :=
    match ch with
    | [] => []
    | c :: ch' => map (cons i) (front c) ++ front_from (S i) ch'
    end.
  Lemma front_eq n : front n = if stop n then [[]] else front_from 0 (children n).
  Proof.
    destruct n as [|id r q rank ch]; [reflexivity|]. cbn [front children].
    destruct (stop (Node id r q rank ch)); reflexivity.
  Qed.

  Lemma front_from_in ch : forall i p,
    In p (front_from i ch) <-> exists j c p', nth_error ch j = Some c /\ In p' (front c) /\ p = (i + j) :: p'.
  Proof.
    induction ch as [|c ch IH]; intros i p; cbn [front_from].
    - split; [intros []|]. intros ([|j] & c & p' & H & _); discriminate.
    - rewrite in_app_iff, in_map_iff, IH. split.
      + intros [(p' & <- & H)|(j & c' & p' & H1 & H2 & ->)].
        * exists 0, c, p'. rewrite Nat.add_0_r. auto.
        * exists (S j), c', p'. split; auto. split; auto. f_equal. lia.
      + intros ([|j] & c' & p' & H1 & H2 & ->).
        * left. injection H1 as ->. rewrite Nat.add_0_r. eauto.
        * right. exists j, c', p'. split; auto. split; auto. f_equal. lia.
  Qed.

  Definition near (n : node) (p : list nat) : Prop :=
    (exists m, subtree n p = Some m /\ stop m = true) /\
    (forall p1 p2 m, p = p1 ++ p2 -> p2 <> [] -> subtree n p1 = Some m -> has_interp m = false).

  Lemma front_in n : forall p, In p (front n) <-> near n p.
  Proof.
    induction n as [id pos p0 tk|id r q rank ch IH] using node_ind2; intros p.
    - cbn. unfold near. split.
      + intros [<-|[]]. split; [eexists; split; reflexivity|].
        intros p1 p2 m E N. symmetry in E. apply app_eq_nil in E as [-> ->]. congruence.
      + intros [(m & E & _) _]. destruct p; [auto|discriminate].
    - rewrite front_eq. destruct (stop (Node id r q rank ch)) eqn:S.
      + unfold near. cbn [In]. split.
        * intros [<-|[]]. split; [eexists; split; [reflexivity|auto]|].
          intros p1 p2 m E N. symmetry in E. apply app_eq_nil in E as [-> ->]. congruence.
        * intros [_ H]. destruct p as [|j p]; [auto|]. exfalso.
          specialize (H [] (j :: p) _ eq_refl ltac:(discriminate) eq_refl).
          unfold stop in S. cbn [is_leaf orb] in S. congruence.
      + cbn [children]. rewrite front_from_in. rewrite Forall_forall in IH. cbn [Nat.add]. unfold near. split.
        * intros (j & c & p' & E & H & ->). apply IH in H; [|eapply nth_error_In; eauto].
          destruct H as [(m & Em & Sm) Hp]. split.
          -- exists m. cbn [subtree]. rewrite E. auto.
          -- intros p1 p2 m' Ep N Es. destruct p1 as [|j1 p1].
             ++ cbn [subtree] in Es. injection Es as <-. unfold stop in S. cbn [is_leaf orb] in S. exact S.
             ++ cbn [app] in Ep. injection Ep as <- ->. cbn [subtree] in Es. rewrite E in Es. eauto.
        * intros [(m & Em & Sm) Hp]. destruct p as [|j p].
          -- cbn [subtree] in Em. injection Em as <-. congruence.
          -- cbn [subtree] in Em. destruct (nth_error ch j) as [c|] eqn:E; [|discriminate].
             exists j, c, p. split; auto. split; auto. apply IH; [eapply nth_error_In; eauto|].
             split; [eauto|]. intros p1 p2 m' -> N Es. apply (Hp (j :: p1) p2 m'); auto.
             cbn [subtree]. rewrite E. auto.
  Qed.

  Lemma front_sorted n : StronglySorted before (front n).
  Proof.
    induction n as [id pos p tk|id r q rank ch IH] using node_ind2.
    - repeat constructor.
    - rewrite front_eq. destruct (stop _); [repeat constructor|]. cbn [children]. generalize 0.
      induction IH as [|c ch Hc IH IHch]; intros i; [constructor|]. cbn [front_from].
      assert (M : StronglySorted before (map (cons i) (front c))).
      { clear - Hc. induction Hc as [|x l Hl IHl Hx]; cbn [map]; constructor; auto.
        rewrite Forall_map. eapply Forall_impl; [|exact Hx]. intros y Hy. apply before_child. auto. }
      specialize (IHch (S i)).
      assert (C : Forall (fun x => Forall (before x) (front_from (S i) ch)) (map (cons i) (front c))).
      { rewrite Forall_map. apply Forall_forall. intros x _. apply Forall_forall. intros y Hy.
        apply front_from_in in Hy as (j & c' & p' & _ & _ & ->). constructor. lia. }
      revert M C. generalize (map (cons i) (front c)). intros l M C.
      induction M as [|x l Hl IHl Hx]; cbn [app]; auto. inversion C; subst. constructor; auto. apply Forall_app. auto.
  Qed.

  Lemma sorted_split {A} (R : A -> A -> Prop) l : StronglySorted R l ->
    forall a p b q c, l = a ++ p :: b ++ q :: c -> R p q.
  Proof.
    intros S a p b q c ->. induction a as [|x a IH]; cbn [app] in S.
    - inversion S as [|? ? _ F]; subst. rewrite Forall_forall in F. apply F. apply in_or_app. right. left. auto.
    - inversion S; subst; auto.
  Qed.

  Definition at_path (n : node) (p : list nat) (c' : node) : Prop :=
    exists c, subtree n p = Some c /\ condensed g c c'.

  Lemma front_from_at id r q rank ch : forall pre i,
    length pre = i ->
    Forall (fun c => Forall2 (at_path c) (front c) (kept c)) ch ->
    Forall2 (at_path (Node id r q rank (pre ++ ch))) (front_from i ch) (flat_map kept ch).
  Proof.
    induction ch as [|c ch IH]; intros pre i Hi H; [constructor|]. inversion H as [|? ? Hc Hch]; subst.
    cbn [front_from flat_map]. apply Forall2_app.
    - clear - Hc. induction Hc as [|p c' l l' (d & Hd & Hc') Hl IHl]; cbn [map]; constructor; auto.
      exists d. split; auto. cbn [subtree]. rewrite nth_error_app2, Nat.sub_diag by lia. exact Hd.
    - specialize (IH (pre ++ [c]) (S (length pre))). rewrite <- app_assoc in IH. cbn [app] in IH. apply IH; auto.
      rewrite app_length. cbn. lia.
  Qed.

  Lemma kept_at n : Forall2 (at_path n) (front n) (kept n).
  Proof.
    induction n as [id pos p tk|id r q rank ch IH] using node_ind2.
    - cbn. constructor; [|constructor]. eexists. split; [reflexivity|]. constructor.
    - rewrite front_eq, kept_eq. unfold stop. cbn [is_leaf orb children].
      pose proof (front_from_at id r q rank ch [] 0 eq_refl IH) as F. cbn [app] in F.
      destruct (has_interp (Node id r q rank ch)) eqn:E; [|exact F].
      constructor; [|constructor]. eexists. split; [reflexivity|].
      apply has_interp_spec in E as (? & ? & ? & ? & ? & i & [= <- <- <- <- <-] & Hi).
      eapply condensed_node with (ps := front_from 0 ch); eauto.
      + intros p. rewrite front_from_in. cbn [Nat.add]. unfold nearest. split.
        * intros (j & c & p' & Ec & Hp & ->). split; [discriminate|]. apply front_in in Hp as [(m & Em & Sm) Hp]. split.
          -- exists m. cbn [subtree]. rewrite Ec. split; auto. apply stop_spec. auto.
          -- intros p1 p2 m' Ep N1 N2 Es I. destruct p1 as [|j1 p1]; [congruence|]. cbn [app] in Ep. injection Ep as <- ->.
             cbn [subtree] in Es. rewrite Ec in Es. apply has_interp_spec in I.
             specialize (Hp p1 p2 m' eq_refl N2 Es). congruence.
        * intros (N & (m & Em & Sm) & Hp). destruct p as [|j p]; [congruence|].
          cbn [subtree] in Em. destruct (nth_error ch j) as [c|] eqn:Ec; [|discriminate].
          exists j, c, p. split; auto. split; auto. apply front_in. split.
          -- exists m. split; auto. apply stop_spec. auto.
          -- intros p1 p2 m' -> N2 Es. destruct (has_interp m') eqn:I; [|reflexivity]. exfalso.
             apply (Hp (j :: p1) p2 m' eq_refl ltac:(discriminate) N2); [cbn [subtree]; rewrite Ec; auto|].
             apply has_interp_spec. auto.
      + apply sorted_split.
        assert (G : forall i, StronglySorted before (front_from i ch)).
        { clear. induction ch as [|c ch IHch]; intros i; [constructor|]. cbn [front_from].
          pose proof (front_sorted c) as Hc.
          assert (M : StronglySorted before (map (cons i) (front c))).
          { clear - Hc. induction Hc as [|x l Hl IHl Hx]; cbn [map]; constructor; auto.
            rewrite Forall_map. eapply Forall_impl; [|exact Hx]. intros y Hy. apply before_child. auto. }
          specialize (IHch (S i)).
          assert (C : Forall (fun x => Forall (before x) (front_from (S i) ch)) (map (cons i) (front c))).
          { rewrite Forall_map. apply Forall_forall. intros x _. apply Forall_forall. intros y Hy.
            apply front_from_in in Hy as (j & c' & p' & _ & _ & ->). constructor. lia. }
          revert M C. generalize (map (cons i) (front c)). intros l M C.
          induction M as [|x l Hl IHl Hx]; cbn [app]; auto. inversion C; subst. constructor; auto. apply Forall_app. auto. }
        apply G.
  Qed.

  Lemma kept_leaves n : flat_map tree_leaves (kept n) = tree_leaves n.
  Proof.
    induction n as [id pos p tk|id r q rank ch IH] using node_ind2; [reflexivity|].
    assert (E : flat_map tree_leaves (flat_map kept ch) = flat_map tree_leaves ch).
    { induction IH as [|c ch Hc IH IHch]; [reflexivity|]. cbn [flat_map]. rewrite flat_map_app. congruence. }
    rewrite kept_eq. destruct (has_interp _).
    - cbn [flat_map tree_leaves]. rewrite app_nil_r. exact E.
    - exact E.
  Qed.

  Lemma keep_condensed n n' : keep g n = Ok n' -> condensed g n n'.
  Proof.
    unfold keep. destruct (has_interp n) eqn:E; [|discriminate].
    pose proof (kept_at n) as K. rewrite front_eq in K. unfold stop in K. rewrite E, orb_true_r in K.
    inversion K as [|p c' l l' (c & Hc & H) Hl Ep Ek]; subst. inversion Hl; subst. intros [= <-].
    cbn in Hc. destruct n; injection Hc as <-; exact H.
  Qed.
  Lemma keep_leaves n n' : keep g n = Ok n' -> tree_leaves n' = tree_leaves n.
  Proof.
    unfold keep. destruct (has_interp n) eqn:E; [|discriminate].
    pose proof (kept_leaves n) as K. destruct (kept n) as [|m [|]]; try discriminate. intros [= ->].
    cbn [flat_map] in K. rewrite app_nil_r in K. auto.
  Qed.
  Lemma keep_ok n : (exists n', keep g n = Ok n') <-> interpreted g n.
  Proof.
    rewrite <- has_interp_spec. unfold keep. destruct (has_interp n) eqn:E; split; try (intros [? H]; discriminate); try reflexivity; try discriminate.
    intros _. destruct n as [|id r q rank ch]; [discriminate|]. rewrite kept_eq, E. eauto.
  Qed.
  Lemma keep_error n e : keep g n = Err e -> e = ValueError /\ ~ interpreted g n.
  Proof.
    intros H. assert (~ interpreted g n). { intros I. apply keep_ok in I as [n' E]. congruence. }
    split; auto. unfold keep in H. destruct (has_interp n) eqn:E; [|congruence].
    apply has_interp_spec in E. contradiction.
  Qed.
  Lemma keep_visit_keep fuel n : size n <= fuel -> is_leaf n = false -> keep_visit g fuel n = Some (keep g n).
  Proof.
    unfold keep. intros L N. destruct (has_interp n) eqn:E.
    - destruct (keep_visit_kept fuel n L) as (m & A & B). { unfold stop. rewrite E, orb_true_r. reflexivity. }
      rewrite B. exact A.
    - destruct n as [|id r q rank ch]; [discriminate N|]. destruct fuel as [|fuel]; [cbn in L; lia|]. cbn [keep_visit]. rewrite E. reflexivity.
  Qed.
End Condense.
