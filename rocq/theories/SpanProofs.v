From Verif Require Import Base SpanModel SpanSpec.
From Coq Require Import Sorting.Sorted.
Open Scope Z_scope.

(** ** Lists *)
Lemma setitem_length {A} (l : list A) i x : length (setitem l i x) = length l.
Proof. revert i; induction l as [|y l IH]; intros [|i]; cbn; auto. Qed.

Lemma setitem_same {A} (l : list A) i x :
  (i < length l)%nat -> nth_error (setitem l i x) i = Some x.
Proof. revert i; induction l as [|y l IH]; intros [|i] H; cbn in *; try lia; auto. apply IH; lia. Qed.

Lemma setitem_other {A} (l : list A) i j x :
  i <> j -> nth_error (setitem l i x) j = nth_error l j.
Proof. revert i j; induction l as [|y l IH]; intros [|i] [|j] H; cbn; auto; try lia. Qed.

Lemma getitem_ok {A} (l : list A) i x : nth_error l i = Some x -> getitem l i = Ok x.
Proof. unfold getitem; intros ->; reflexivity. Qed.

Lemma nth_error_nth_range (l : list range) i :
  (i < length l)%nat -> nth_error l i = Some (nth_range l i).
Proof. intros H. unfold nth_range. apply nth_error_nth'. exact H. Qed.

(** ** Sets *)
Lemma set_union_fresh t : forall s, NoDup (s ++ t) -> set_union s t = s ++ t.
Proof.
  unfold set_union. induction t as [|x t IH]; intros s H; cbn; [now rewrite app_nil_r|].
  unfold set_add at 2.
  assert (Hx : existsb (Nat.eqb x) s = false).
  { apply not_true_is_false. intros E. apply existsb_exists in E as (y & Hy & E).
    apply Nat.eqb_eq in E; subst y. apply NoDup_remove_2 in H. apply H, in_or_app; auto. }
  rewrite Hx, IH; rewrite <- app_assoc; auto.
Qed.

(** ** Sorted selections as chains *)
Definition sz (l : list range) i := snd (nth_range l i) - fst (nth_range l i).

Inductive chain (l : list range) : nat -> list nat -> Prop :=
| chain_nil lo : chain l lo []
| chain_cons lo i sel : (lo <= i < length l)%nat ->
    chain l (S i) sel ->
    (forall j, In j sel -> snd (nth_range l i) <= fst (nth_range l j)) ->
    chain l lo (i :: sel).

Lemma chain_In l lo sel i : chain l lo sel -> In i sel -> (lo <= i < length l)%nat.
Proof.
  induction 1 as [|lo j sel Hj Hc IH Hd]; cbn; [tauto|].
  intros [->|Hi]; [auto|]. apply IH in Hi; lia.
Qed.

Lemma chain_weaken l lo lo' sel : chain l lo sel ->
  (forall i, In i sel -> (lo' <= i)%nat) -> chain l lo' sel.
Proof.
  destruct 1 as [|lo j sel Hj Hc Hd]; intros H; [constructor|].
  constructor; auto. specialize (H j (or_introl eq_refl)). lia.
Qed.

Lemma chain_NoDup l lo sel : chain l lo sel -> NoDup sel.
Proof.
  induction 1 as [|lo j sel Hj Hc IH Hd]; constructor; auto.
  intros Hi. pose proof (chain_In _ _ _ _ Hc Hi). lia.
Qed.

Lemma chain_sorted l lo sel : chain l lo sel -> StronglySorted lt sel.
Proof.
  induction 1 as [|lo j sel Hj Hc IH Hd]; constructor; auto.
  apply Forall_forall. intros x Hx. pose proof (chain_In _ _ _ _ Hc Hx). lia.
Qed.

Lemma insert_last x l : (forall y, In y l -> (y <= x)%nat) -> insert Nat.ltb x l = l ++ [x].
Proof.
  induction l as [|y l IH]; intros H; cbn [insert app]; auto.
  destruct (Nat.ltb_spec x y) as [Hlt|]; [specialize (H y (or_introl eq_refl)); lia|].
  rewrite IH; auto. intros; apply H; now right.
Qed.

Lemma isort_sorted l : StronglySorted lt l -> isort Nat.ltb l = l.
Proof.
  unfold isort. assert (G : forall l acc, StronglySorted lt (acc ++ l) ->
    fold_left (fun acc x => insert Nat.ltb x acc) l acc = acc ++ l).
  { clear l; induction l as [|x l IH]; intros acc H; cbn; [now rewrite app_nil_r|].
    rewrite insert_last.
    - rewrite IH; rewrite <- app_assoc; auto.
    - intros y Hy. clear IH. induction acc as [|z acc IHa]; cbn in *; [tauto|].
      inversion H as [|? ? H1 H2]; subst. destruct Hy as [->|Hy]; auto.
      rewrite Forall_forall in H2.
      assert (y < x)%nat by (apply H2, in_or_app; right; now left). lia. }
  intros H. apply (G l []), H.
Qed.

(** Selections of the specification are chains. *)
Lemma selection_chain l sel : sorted_ranges l -> selection l sel -> chain l 0 sel.
Proof.
  intros [Hs Hn] [Hb Hi Hd].
  assert (G : forall pre suf, sel = pre ++ suf -> forall lo,
     (forall i, In i suf -> (lo <= i)%nat) -> chain l lo suf).
  { intros pre suf; revert pre; induction suf as [|i suf IH]; intros pre E lo Hlo; [constructor|].
    assert (Hib : (i < length l)%nat).
    { apply Hb. rewrite E. apply in_or_app; right; now left. }
    assert (Hlt : forall j, In j suf -> (i < j)%nat).
    { intros j Hj. apply in_split in Hj as (q & r & ->). eapply Hi. exact E. }
    constructor.
    - split; [apply Hlo; now left|auto].
    - apply (IH (pre ++ [i])).
      + rewrite <- app_assoc; exact E.
      + intros j Hj. apply Hlt in Hj. lia.
    - intros j Hj. assert (Hj' := Hj). apply in_split in Hj' as (q & r & Eq). subst suf.
      destruct (Hd _ _ _ _ _ E) as [H|H]; auto.
      assert (Hjb : (j < length l)%nat).
      { apply Hb. rewrite E. apply in_or_app; right; now right. }
      specialize (Hlt j Hj). specialize (Hs i j ltac:(lia)). specialize (Hn j Hjb). lia. }
  apply (G [] sel eq_refl 0%nat). intros; lia.
Qed.

Lemma chain_selection l sel : chain l 0 sel -> selection l sel.
Proof.
  intros H. constructor.
  - intros i Hi. apply (chain_In _ _ _ _ H Hi).
  - intros p i q j r ->. clear -H. revert H. generalize 0%nat.
    induction p as [|x p IH]; cbn; intros lo H; inversion H; subst; eauto.
    match goal with Hc : chain _ (S i) _ |- _ =>
      pose proof (chain_In _ _ _ j Hc ltac:(apply in_or_app; right; now left)) end. lia.
  - intros p i q j r ->. left. clear -H. revert H. generalize 0%nat.
    induction p as [|x p IH]; cbn; intros lo H; inversion H; subst; eauto.
    match goal with Hf : forall j, In j _ -> _ |- _ => apply Hf end.
    apply in_or_app; right; now left.
Qed.

Definition lexle (a b : list nat) : Prop := a = b \/ earlier a b.

Lemma lexle_cons x a b : lexle a b -> lexle (x :: a) (x :: b).
Proof.
  intros [->|(p & y & z & a' & b' & -> & -> & H)]; [now left|right].
  exists (x :: p), y, z, a', b'. auto.
Qed.

Lemma lexle_head x y a b : (x < y)%nat -> lexle (x :: a) (y :: b).
Proof. intros H; right. exists [], x, y, a, b. auto. Qed.

(** Optimal selection of the candidates numbered [i..]. *)
Record opt (l : list range) (i : nat) (c : Z) (p : list nat) : Prop := {
  opt_chain : chain l i p;
  opt_cov : coverage l p = c;
  opt_max : forall s, chain l i s -> coverage l s <= c;
  opt_lex : forall s, chain l i s -> coverage l s = c -> lexle p s }.

Lemma coverage_cons l i s : coverage l (i :: s) = sz l i + coverage l s.
Proof. reflexivity. Qed.

Lemma chain_split l i s : chain l i s ->
  chain l (S i) s \/ (exists s', s = i :: s' /\ chain l (S i) s' /\
    forall j, In j s' -> snd (nth_range l i) <= fst (nth_range l j)).
Proof.
  destruct 1 as [|lo j s Hj Hc Hd]; [left; constructor|].
  destruct (Nat.eq_dec lo j) as [->|Hne]; [right; eauto|left].
  constructor; auto; lia.
Qed.

Lemma opt_step_end l i :
  sorted_ranges l -> (i < length l)%nat ->
  (forall j, (i < j < length l)%nat -> fst (nth_range l j) < snd (nth_range l i)) ->
  forall s, chain l (S i) s ->
   (forall j, In j s -> snd (nth_range l i) <= fst (nth_range l j)) -> s = [].
Proof.
  intros _ Hi H s Hc Hd. destruct s as [|j s]; auto.
  specialize (Hd j (or_introl eq_refl)).
  assert (Hj := chain_In _ _ _ j Hc (or_introl eq_refl)).
  specialize (H j ltac:(lia)). lia.
Qed.

Lemma opt_last l i : sorted_ranges l -> S i = length l -> opt l i (sz l i) [i].
Proof.
  intros [Hs Hn] E. constructor.
  - constructor; [lia|constructor|easy].
  - rewrite coverage_cons. cbn. lia.
  - intros s H. apply chain_split in H as [H|(s' & -> & H & _)].
    + inversion H; subst; [|lia]. cbn. specialize (Hn i ltac:(lia)). unfold sz. lia.
    + rewrite coverage_cons. inversion H; subst; [|lia]. cbn. lia.
  - intros s H Hc. apply chain_split in H as [H|(s' & -> & H & _)].
    + inversion H; subst; [|lia]. cbn in Hc. specialize (Hn i ltac:(lia)). unfold sz in Hc. lia.
    + inversion H; subst; [|lia]. now left.
Qed.

Lemma opt_step l i n c p cp pp :
  sorted_ranges l -> (S i < length l)%nat ->
  opt l (S i) cp pp ->
  (i < n)%nat ->
  (forall j, (n <= j < length l)%nat -> snd (nth_range l i) <= fst (nth_range l j)) ->
  (forall j, (j < n)%nat -> (j < length l)%nat -> fst (nth_range l j) < snd (nth_range l i)) ->
  ((n < length l)%nat /\ opt l n c p \/ (length l <= n)%nat /\ c = 0 /\ p = []) ->
  (sz l i + c < cp -> opt l i cp pp) /\
  (cp <= sz l i + c -> opt l i (sz l i + c) (i :: p)).
Proof.
  intros [Hs Hn] Hi Hp Hin Hge Hlt Hnext.
  assert (Hpc : chain l (S i) p /\ coverage l p = c /\
     (forall j, In j p -> snd (nth_range l i) <= fst (nth_range l j)) /\
     (forall s, chain l (S i) s -> (forall j, In j s -> snd (nth_range l i) <= fst (nth_range l j)) ->
        coverage l s <= c /\ (coverage l s = c -> lexle p s))).
  { destruct Hnext as [[Hnl Ho]|(Hnl & -> & ->)].
    - destruct Ho as [Oc Ov Om Ol].
      split; [|split; [auto|split]].
      + eapply chain_weaken; eauto. intros j Hj. pose proof (chain_In _ _ _ _ Oc Hj). lia.
      + intros j Hj. apply Hge. apply (chain_In _ _ _ _ Oc Hj).
      + intros s Hc Hd. assert (Hsn : chain l n s).
        { eapply chain_weaken; eauto. intros j Hj. pose proof (chain_In _ _ _ _ Hc Hj).
          destruct (Nat.le_gt_cases n j) as [|Hj']; auto. specialize (Hlt j Hj' ltac:(lia)).
          specialize (Hd j Hj). lia. }
        split; auto.
    - split; [constructor|]. split; [reflexivity|]. split; [easy|].
      intros s Hc Hd. assert (s = []) as ->.
      { destruct s as [|j s]; auto. pose proof (chain_In _ _ _ j Hc (or_introl eq_refl)) as Hj.
        specialize (Hd j (or_introl eq_refl)). specialize (Hlt j ltac:(lia) ltac:(lia)). lia. }
      split; [cbn; lia|now left]. }
  destruct Hpc as (Pc & Pv & Pd & Pm). destruct Hp as [Qc Qv Qm Ql].
  split; intros Hcmp; constructor.
  - eapply chain_weaken; eauto. intros j Hj. pose proof (chain_In _ _ _ _ Qc Hj). lia.
  - auto.
  - intros s H. apply chain_split in H as [H|(s' & -> & H & Hd)]; auto.
    rewrite coverage_cons. destruct (Pm s' H Hd) as [H1 _]. lia.
  - intros s H Hc. apply chain_split in H as [H|(s' & -> & H & Hd)]; auto.
    rewrite coverage_cons in Hc. destruct (Pm s' H Hd) as [H1 _]. lia.
  - constructor; auto. lia.
  - rewrite coverage_cons. lia.
  - intros s H. apply chain_split in H as [H|(s' & -> & H & Hd)].
    + specialize (Qm s H). lia.
    + rewrite coverage_cons. destruct (Pm s' H Hd) as [H1 _]. lia.
  - intros s H Hc. apply chain_split in H as [H|(s' & -> & H & Hd)].
    + destruct s as [|j s].
      * cbn in Hc. specialize (Hn i ltac:(lia)). specialize (Qm [] (chain_nil _ _)). cbn in Qm.
        assert (0 <= c). { destruct (Pm [] (chain_nil _ _) ltac:(easy)) as [H0 _]. cbn in H0. lia. }
        unfold sz in *. lia.
      * apply lexle_head. pose proof (chain_In _ _ _ j H (or_introl eq_refl)). lia.
    + rewrite coverage_cons in Hc. apply lexle_cons. apply (Pm s' H Hd). lia.
Qed.

(** ** get_nexts *)
Lemma find_next_spec stop : forall l k,
  match find_next stop k l with
  | Some n => exists m, n = (k + m)%nat /\ (m < length l)%nat /\
       stop <= fst (nth_range l m) /\ forall j, (j < m)%nat -> fst (nth_range l j) < stop
  | None => forall j, (j < length l)%nat -> fst (nth_range l j) < stop
  end.
Proof.
  induction l as [|[a b] l IH]; intros k; cbn [find_next]; [cbn; intros; lia|].
  destruct (Z.leb_spec stop a) as [H|H].
  - exists 0%nat. cbn. repeat split; intros; lia.
  - specialize (IH (S k)). destruct (find_next stop (S k) l) as [n|].
    + destruct IH as (m & -> & Hm & Hs & Hj). exists (S m). cbn. repeat split; try lia; auto.
      intros [|j] Hlt; cbn; [lia|]. apply Hj; lia.
    + intros [|j] Hj; cbn in *; [lia|]. apply IH; lia.
Qed.

Lemma get_nexts_nth l i : (i < length l)%nat ->
  nth_error (get_nexts l) i = Some (find_next (snd (nth_range l i)) 0 l).
Proof.
  intros H. unfold get_nexts. erewrite map_nth_error; [reflexivity|].
  apply nth_error_nth_range, H.
Qed.

(** ** The loop *)
Definition loop_inv (l : list range) (i : nat) (a : res arrays) : Prop :=
  exists covers pointers, a = Ok (covers, pointers) /\
    length covers = length l /\ length pointers = length l /\
    forall j, (i <= j < length l)%nat -> exists c p,
      nth_error covers j = Some c /\ nth_error pointers j = Some (Some p) /\ opt l j c p.

Lemma resolve_step_inv l i a :
  sorted_ranges l -> (i < length l)%nat ->
  loop_inv l (S i) a -> loop_inv l i (resolve_step l (get_nexts l) a i).
Proof.
  intros Hl Hi (covers & pointers & -> & Lc & Lp & H).
  unfold resolve_step. cbn [bind].
  rewrite (getitem_ok _ _ _ (nth_error_nth_range l i Hi)). cbn [bind].
  assert (Done : forall c p, opt l i c p ->
    loop_inv l i (Ok (setitem covers i c, setitem pointers i (Some p)))).
  { intros c p Ho. do 2 eexists. split; [reflexivity|]. rewrite !setitem_length.
    repeat split; auto. intros j Hj. destruct (Nat.eq_dec i j) as [->|Hne].
    - exists c, p. rewrite !setitem_same by lia. auto.
    - rewrite !setitem_other by auto. apply H. lia. }
  destruct (Nat.eqb_spec i (length l - 1)) as [E|E].
  - apply Done. apply opt_last; auto. lia.
  - destruct (H (S i) ltac:(lia)) as (cp & pp & Ecp & Epp & Op).
    rewrite (getitem_ok _ _ _ Ecp). cbn [bind].
    rewrite (getitem_ok _ _ _ (get_nexts_nth l i Hi)). cbn [bind].
    pose proof (find_next_spec (snd (nth_range l i)) l 0) as Hf.
    pose proof (proj1 Hl) as Hs. pose proof (proj2 Hl) as Hn.
    assert (Hcont : forall c p ,
      (sz l i + c < cp -> opt l i cp pp) /\ (cp <= sz l i + c -> opt l i (sz l i + c) (i :: p)) ->
      loop_inv l i
       (let! (cover, indexes) :=
          if sz l i + c <? cp then let! p0 := getitem pointers (S i) in Ok (cp, p0)
          else Ok (sz l i + c, Some (i :: p)) in
        Ok (setitem covers i cover, setitem pointers i indexes))).
    { intros c p [H1 H2]. destruct (Z.ltb_spec (sz l i + c) cp) as [Hc|Hc].
      - rewrite (getitem_ok _ _ _ Epp). cbn [bind]. apply Done; auto.
      - cbn [bind]. apply Done; auto. }
    destruct (find_next (snd (nth_range l i)) 0 l) as [[|n]|].
    + destruct Hf as (m & Em & Hm & Hst & _).
      assert (m = 0%nat) as -> by lia.
      specialize (Hs 0%nat i ltac:(lia)). specialize (Hn i Hi). lia.
    + destruct Hf as (m & Em & Hm & Hst & Hlt). cbn in Em. subst m.
      assert (Hin : (i < S n)%nat).
      { destruct (Nat.lt_ge_cases i (S n)) as [|Hge]; auto.
        specialize (Hs (S n) i ltac:(lia)). specialize (Hn i Hi). lia. }
      destruct (H (S n) ltac:(lia)) as (c & p & Ec & Ep & On).
      rewrite (getitem_ok _ _ _ Ec). cbn [bind]. rewrite (getitem_ok _ _ _ Ep). cbn [bind].
      assert (Eu : set_union [i] p = i :: p).
      { apply (set_union_fresh p [i]). cbn. constructor.
        - intros Hip. pose proof (chain_In _ _ _ _ (opt_chain _ _ _ _ On) Hip). lia.
        - eapply chain_NoDup, opt_chain, On. }
      rewrite Eu.
      apply (Hcont c p). eapply (opt_step l i (S n)); eauto; try lia.
      intros j Hj. specialize (Hs (S n) j ltac:(lia)). lia.
    + cbn [bind]. pose proof (Hcont 0 []) as Hc0.
      pose proof (opt_step l i (length l) 0 [] cp pp Hl) as Hos.
      rewrite Z.add_0_r in Hc0, Hos. apply Hc0. apply Hos; auto; try lia; intros; try lia.
Qed.

Lemma resolve_indexes_spec l : sorted_ranges l ->
  exists sel, resolve_indexes l = Ok sel /\ opt l 0 (coverage l sel) sel.
Proof.
  intros Hl. destruct l as [|x0 l0] eqn:El.
  { exists []. split; [reflexivity|]. constructor; [constructor|reflexivity| |].
    - intros s H. inversion H; subst; [cbn; lia|cbn in *; lia].
    - intros s H _. inversion H; subst; [now left|cbn in *; lia]. }
  unfold resolve_indexes. rewrite <- El in *.
  assert (Hlen : (0 < length l)%nat) by (rewrite El; cbn; lia). clear El x0 l0.
  assert (G : forall k, (k <= length l)%nat -> forall a, loop_inv l k a ->
     loop_inv l 0 (fold_left (resolve_step l (get_nexts l)) (rev (seq 0 k)) a)).
  { induction k as [|k IH]; intros Hk a Ha; [exact Ha|].
    rewrite seq_S, rev_app_distr. cbn [rev app fold_left plus].
    apply IH; [lia|]. apply resolve_step_inv; auto. }
  specialize (G (length l) (le_n _)
     (Ok (repeat 0 (length l), repeat None (length l)))).
  destruct G as (covers & pointers & E & Lc & Lp & H).
  { do 2 eexists. split; [reflexivity|]. rewrite !repeat_length. repeat split; auto. intros; lia. }
  destruct (H 0%nat ltac:(lia)) as (c & p & Ec & Ep & Op).
  exists p.
  destruct l as [|x0 l0] eqn:El; [cbn in Hlen; lia|]. rewrite <- El in *.
  rewrite E. cbn [bind]. rewrite (getitem_ok _ _ _ Ep). cbn [bind].
  rewrite isort_sorted by (eapply chain_sorted, opt_chain, Op).
  split; auto. rewrite (opt_cov _ _ _ _ Op). exact Op.
Qed.

Lemma mapM_getitem (l : list range) sel :
  (forall i, In i sel -> (i < length l)%nat) ->
  mapM (getitem l) sel = Ok (map (nth_range l) sel).
Proof.
  induction sel as [|i sel IH]; intros H; [reflexivity|].
  cbn [mapM map]. rewrite (getitem_ok _ _ _ (nth_error_nth_range l i (H i (or_introl eq_refl)))).
  cbn [bind]. rewrite IH by (intros; apply H; now right). reflexivity.
Qed.

Theorem resolve_spans_spec l : sorted_ranges l ->
  exists sel, resolve_spans l = Ok (map (nth_range l) sel) /\ selection l sel /\
    (forall s, selection l s -> coverage l s <= coverage l sel) /\
    (forall s, selection l s -> coverage l s = coverage l sel -> s = sel \/ earlier sel s).
Proof.
  intros Hl. destruct (resolve_indexes_spec l Hl) as (sel & E & [Oc Ov Om Ol]).
  exists sel. unfold resolve_spans. rewrite E. cbn [bind].
  split; [apply mapM_getitem; intros i Hi; apply (chain_In _ _ _ _ Oc Hi)|].
  split; [apply chain_selection, Oc|]. split.
  - intros s Hs. apply Om, selection_chain; auto.
  - intros s Hs Hc. destruct (Ol s (selection_chain _ _ Hl Hs) Hc) as [->|]; auto.
Qed.
