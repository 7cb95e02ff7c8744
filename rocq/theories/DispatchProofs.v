(** Proofs about DispatchModel.v: the order of ancestors, the method that is chosen, and the passes
    of RuleModel.v as choices of methods. *)
From Coq Require Import String.
From Verif Require Import Base TokenModel EarleyModel RuleModel DispatchModel DispatchSpec.
Open Scope nat_scope.

(** ** Lists *)
Lemma mem_iff : forall c l, mem c l = true <-> In c l.
Proof.
  intros c l. unfold mem. rewrite existsb_exists. split.
  - intros (x & Hx & E). apply String.eqb_eq in E. subst. exact Hx.
  - intros Hc. exists c. split; [exact Hc | apply String.eqb_refl].
Qed.

Lemma before_in {A} (x y : A) l : before x y l -> In x l /\ In y l.
Proof. intros (i & j & _ & Hi & Hj). split; eapply nth_error_In; eassumption. Qed.

Lemma before_cons {A} (x y z : A) l : before x y l -> before x y (z :: l).
Proof. intros (i & j & Hl & Hi & Hj). exists (S i), (S j). repeat split; [lia | exact Hi | exact Hj]. Qed.

Lemma before_head {A} (x y : A) l : In y l -> before x y (x :: l).
Proof.
  intros Hy. apply In_nth_error in Hy. destruct Hy as [j Hj].
  exists 0, (S j). repeat split; [lia | exact Hj].
Qed.

Lemma before_cases {A} (x y z : A) l : before x y (z :: l) -> (x = z /\ In y l) \/ before x y l.
Proof.
  intros (i & j & Hl & Hi & Hj). destruct j as [| j]; [lia |]. destruct i as [| i].
  - left. cbn in Hi. injection Hi as <-. split; [reflexivity |]. cbn in Hj. eapply nth_error_In; eassumption.
  - right. exists i, j. repeat split; [lia | exact Hi | exact Hj].
Qed.

Lemma nth_unique {A} (l : list A) : NoDup l -> forall i j x, nth_error l i = Some x -> nth_error l j = Some x -> i = j.
Proof.
  intros Hn i j x Hi Hj. apply (proj1 (NoDup_nth_error l) Hn).
  - apply nth_error_Some. rewrite Hi. discriminate.
  - rewrite Hi, Hj. reflexivity.
Qed.

Lemma before_trans {A} (x y z : A) l : NoDup l -> before x y l -> before y z l -> before x z l.
Proof.
  intros Hn (i & j & Hl & Hi & Hj) (j' & k & Hl' & Hj' & Hk).
  assert (j = j') by (eapply nth_unique; eassumption). subst.
  exists i, k. repeat split; [lia | exact Hi | exact Hk].
Qed.

Lemma before_irreflexive {A} (x : A) l : NoDup l -> ~ before x x l.
Proof. intros Hn (i & j & Hl & Hi & Hj). assert (i = j) by (eapply nth_unique; eassumption). lia. Qed.

(** ** The merge *)
Lemma candidate_head : forall heads ls c, candidate heads ls = Some c ->
  (exists r, In (c :: r) heads) /\ forall l, In l ls -> ~ In c (tl l).
Proof.
  induction heads as [| h heads IH]; intros ls c E; [discriminate |].
  cbn in E. destruct h as [| d r].
  - destruct (IH _ _ E) as [[r' Hr] Ht]. split; [exists r'; right; exact Hr | exact Ht].
  - destruct (existsb (mem d) (tails ls)) eqn:Ex.
    + destruct (IH _ _ E) as [[r' Hr] Ht]. split; [exists r'; right; exact Hr | exact Ht].
    + injection E as <-. split; [exists r; left; reflexivity |].
      intros l Hl Hin. assert (T : existsb (mem d) (tails ls) = true).
      { apply existsb_exists. exists (tl l). split; [apply in_map; exact Hl | apply mem_iff; exact Hin]. }
      congruence.
Qed.

Lemma drop_in : forall c l x, In x (drop c l) -> In x l.
Proof. intros c [| d l] x H; [exact H |]. cbn in H. destruct (String.eqb c d); [right |]; exact H. Qed.

Lemma drop_keeps : forall c l x, x <> c -> In x l -> In x (drop c l).
Proof.
  intros c [| d l] x Hx H; [exact H |]. cbn. destruct (String.eqb c d) eqn:E; [| exact H].
  apply String.eqb_eq in E. destruct H as [H | H]; [congruence | exact H].
Qed.

Lemma merge_facts : forall fuel ls l, merge fuel ls = Some l ->
  NoDup l /\ (forall x, In x l <-> exists l0, In l0 ls /\ In x l0) /\
  (forall l0 x y, In l0 ls -> before x y l0 -> before x y l).
Proof.
  assert (base_case : forall ls, forallb (fun l : list string => match l with [] => true | _ => false end) ls = true ->
    NoDup (@nil string) /\ (forall x, In x [] <-> exists l0, In l0 ls /\ In x l0) /\
    (forall l0 (x y : string), In l0 ls -> before x y l0 -> before x y [])).
  { intros ls E. rewrite forallb_forall in E.
    assert (N : forall l0, In l0 ls -> l0 = []).
    { intros l0 H0. specialize (E l0 H0). destruct l0; [reflexivity | discriminate]. }
    split; [constructor |]. split.
    - intros x. split; [intros [] |]. intros (l0 & H0 & Hx). rewrite (N l0 H0) in Hx. exact Hx.
    - intros l0 x y H0 Hb. rewrite (N l0 H0) in Hb. exact Hb. }
  induction fuel as [| fuel IH]; intros ls l E; cbn in E.
  - destruct (forallb _ ls) eqn:F; [| discriminate]. injection E as <-. apply base_case. exact F.
  - destruct (forallb _ ls) eqn:F; [injection E as <-; apply base_case; exact F |].
    destruct (candidate ls ls) as [c |] eqn:C; [| discriminate].
    destruct (merge fuel (map (drop c) ls)) as [m |] eqn:R; [| discriminate]. injection E as <-.
    destruct (candidate_head _ _ _ C) as [[r Hr] Ht].
    destruct (IH _ _ R) as (Nm & Im & Bm).
    assert (Hc : ~ In c m).
    { intros Hin. apply Im in Hin. destruct Hin as (l0 & H0 & Hx). apply in_map_iff in H0.
      destruct H0 as (l1 & <- & H1). destruct l1 as [| d l1]; [exact Hx |].
      cbn in Hx. specialize (Ht _ H1). cbn in Ht. destruct (String.eqb c d) eqn:Q; [tauto |].
      destruct Hx as [Hx | Hx]; [| tauto]. subst. rewrite String.eqb_refl in Q. discriminate. }
    assert (In_m : forall x, x <> c -> (In x m <-> exists l0, In l0 ls /\ In x l0)).
    { intros x Hx. rewrite Im. split.
      - intros (l0 & H0 & Hin). apply in_map_iff in H0. destruct H0 as (l1 & <- & H1).
        exists l1. split; [exact H1 | eapply drop_in; exact Hin].
      - intros (l0 & H0 & Hin). exists (drop c l0). split; [apply in_map; exact H0 | apply drop_keeps; assumption]. }
    split; [constructor; assumption |]. split.
    + intros x. destruct (string_dec x c) as [-> | Hx].
      * split; [intros _; exists (c :: r); split; [exact Hr | left; reflexivity] | intros _; left; reflexivity].
      * cbn. rewrite <- (In_m x Hx). split; [intros [H | H]; [congruence | exact H] | intros H; right; exact H].
    + intros l0 x y H0 Hb. destruct l0 as [| d l0]; [destruct Hb as (i & j & _ & Hi & _); destruct i; discriminate |].
      assert (Hd := in_map (drop c) _ _ H0). cbn in Hd. destruct (String.eqb c d) eqn:Q.
      * apply String.eqb_eq in Q. subst d. apply before_cases in Hb. destruct Hb as [[-> Hy] | Hb].
        -- apply before_head. apply Im. exists l0. split; assumption.
        -- apply before_cons. eapply Bm; eassumption.
      * apply before_cons. eapply Bm; eassumption.
Qed.

(** ** The order of ancestors *)
Lemma all_some_map {A B} (f : A -> option B) : forall l r, all_some (map f l) = Some r ->
  Forall2 (fun x y => f x = Some y) l r.
Proof.
  induction l as [| x l IH]; intros r E; cbn in E.
  - injection E as <-. constructor.
  - destruct (f x) as [y |] eqn:F; [| discriminate]. destruct (all_some (map f l)) as [r' |]; [| discriminate].
    injection E as <-. constructor; [exact F | apply IH; reflexivity].
Qed.

Lemma all_some_all {A B} (f : A -> option B) : forall l r, Forall2 (fun x y => f x = Some y) l r ->
  all_some (map f l) = Some r.
Proof. induction 1 as [| x y l r F _ IH]; [reflexivity |]. cbn. rewrite F, IH. reflexivity. Qed.

Lemma mro_step : forall fuel t c l, mro (S fuel) t c = Some l ->
  exists bs ls m, bases_in t c = Some bs /\ Forall2 (fun b r => mro fuel t b = Some r) bs ls /\
    merge (List.length (List.concat (ls ++ [bs]))) (ls ++ [bs]) = Some m /\ l = c :: m.
Proof.
  intros fuel t c l E. cbn in E. destruct (bases_in t c) as [bs |]; [| discriminate].
  destruct (all_some (map (mro fuel t) bs)) as [ls |] eqn:A; [| discriminate].
  destruct (merge _ (ls ++ [bs])) as [m |] eqn:R; [| discriminate]. injection E as <-.
  exists bs, ls, m. repeat split; [apply all_some_map; exact A | exact R].
Qed.

Lemma mro_more : forall fuel t c l, mro fuel t c = Some l -> mro (S fuel) t c = Some l.
Proof.
  induction fuel as [| fuel IH]; intros t c l E; [discriminate |].
  destruct (mro_step _ _ _ _ E) as (bs & ls & m & B & F & R & ->).
  assert (F' : Forall2 (fun b r => mro (S fuel) t b = Some r) bs ls)
    by (clear - F IH; induction F; constructor; [apply IH |]; assumption).
  change (mro (S (S fuel)) t c) with
    (match bases_in t c with
     | None => None
     | Some bs => match all_some (map (mro (S fuel) t) bs) with
                  | None => None
                  | Some ls => option_map (cons c) (merge (List.length (List.concat (ls ++ [bs]))) (ls ++ [bs]))
                  end
     end).
  rewrite B, (all_some_all _ _ _ F'), R. reflexivity.
Qed.

Lemma mro_le : forall f g t c l, f <= g -> mro f t c = Some l -> mro g t c = Some l.
Proof. intros f g t c l H E. induction H as [| g H IH]; [exact E | apply mro_more; exact IH]. Qed.

Lemma mro_same : forall f g t c l l', mro f t c = Some l -> mro g t c = Some l' -> l = l'.
Proof.
  intros f g t c l l' E E'. apply (mro_le f (max f g)) in E; [| lia]. apply (mro_le g (max f g)) in E'; [| lia].
  congruence.
Qed.

Lemma forall2_in_left {A B} (P : A -> B -> Prop) l r x : Forall2 P l r -> In x l -> exists y, In y r /\ P x y.
Proof.
  induction 1 as [| a b l r Hab _ IH]; [intros [] |]. intros [-> | H]; [exists b; split; [left; reflexivity | exact Hab] |].
  destruct (IH H) as (y & Hy & Hp). exists y. split; [right; exact Hy | exact Hp].
Qed.
Lemma forall2_in_right {A B} (P : A -> B -> Prop) l r y : Forall2 P l r -> In y r -> exists x, In x l /\ P x y.
Proof.
  induction 1 as [| a b l r Hab _ IH]; [intros [] |]. intros [-> | H]; [exists a; split; [left; reflexivity | exact Hab] |].
  destruct (IH H) as (x & Hx & Hp). exists x. split; [right; exact Hx | exact Hp].
Qed.

Lemma mro_head : forall fuel t c l, mro fuel t c = Some l -> exists m, l = c :: m.
Proof.
  intros [| fuel] t c l E; [discriminate |]. destruct (mro_step _ _ _ _ E) as (bs & ls & m & _ & _ & _ & ->).
  exists m. reflexivity.
Qed.

Lemma mro_ordered : forall fuel t c l, mro fuel t c = Some l ->
  ancestors_in_order t c l /\ (forall d, In d l -> d = c \/ exists f' l', f' < fuel /\ mro f' t d = Some l').
Proof.
  induction fuel as [fuel IH] using (well_founded_induction lt_wf). intros t c l E.
  destruct fuel as [| fuel]; [discriminate |].
  destruct (mro_step _ _ _ _ E) as (bs & ls & m & B & F & R & ->).
  destruct (merge_facts _ _ _ R) as (Nm & Im & Bm).
  assert (in_base : forall b, In b bs -> exists lb, In lb ls /\ mro fuel t b = Some lb /\ ancestors_in_order t b lb /\
            (forall d, In d lb -> d = b \/ exists f' l', f' < fuel /\ mro f' t d = Some l')).
  { intros b Hb. destruct (forall2_in_left _ _ _ _ F Hb) as (lb & Hl & Em).
    exists lb. split; [exact Hl |]. split; [exact Em |]. exact (IH fuel (Nat.lt_succ_diag_r _) _ _ _ Em). }
  assert (from_base : forall d, In d m -> exists b lb, In b bs /\ In lb ls /\ mro fuel t b = Some lb /\ ancestors_in_order t b lb /\ In d lb /\
            (d = b \/ exists f' l', f' < fuel /\ mro f' t d = Some l')).
  { intros d Hd. apply Im in Hd. destruct Hd as (l0 & H0 & Hd). apply in_app_or in H0. destruct H0 as [H0 | [<- | []]].
    - destruct (forall2_in_right _ _ _ _ F H0) as (b & Hb & Em).
      destruct (IH fuel (Nat.lt_succ_diag_r _) _ _ _ Em) as [O D].
      exists b, l0. exact (conj Hb (conj H0 (conj Em (conj O (conj Hd (D d Hd)))))).
    - destruct (in_base d Hd) as (lb & Hl & Em & O & D). exists d, lb.
      refine (conj Hd (conj Hl (conj Em (conj O (conj _ (or_introl eq_refl)))))).
      apply (all_of_them _ _ _ O). constructor. }
  assert (smaller : forall d, In d m -> exists f' l', f' < S fuel /\ mro f' t d = Some l').
  { intros d Hd. destruct (from_base d Hd) as (b & lb & Hb & _ & Em & _ & _ & [-> | (f' & l' & Hf & Ef)]).
    - exists fuel, lb. split; [lia | exact Em].
    - exists f', l'. split; [lia | exact Ef]. }
  assert (Hc : ~ In c m).
  { intros Hin. destruct (smaller c Hin) as (f' & l' & Hf & Ef).
    destruct (IH f' Hf _ _ _ Ef) as [O _]. assert (l' = c :: m) by (eapply mro_same; eassumption). subst l'.
    pose proof (each_once _ _ _ O) as N. inversion N; contradiction. }
  split.
  - constructor.
    + reflexivity.
    + constructor; assumption.
    + intros d. split.
      * intros [<- | Hd]; [constructor |]. destruct (from_base d Hd) as (b & lb & Hb & _ & _ & O & Hdl & _).
        apply (inherits_base t c b d); [exists bs; split; assumption | apply (all_of_them _ _ _ O); exact Hdl].
      * intros H. inversion H as [c' Hc' | c' b d' (bs' & B' & Hb) Hi Hc' Hd']; subst.
        -- left. reflexivity.
        -- right. assert (bs' = bs) by congruence. subst bs'.
           destruct (in_base b Hb) as (lb & Hl & _ & O & _). apply Im. exists lb.
           split; [apply in_or_app; left; exact Hl | apply (all_of_them _ _ _ O); exact Hi].
    + intros d b [<- | Hd] Hb.
      * destruct Hb as (bs' & B' & Hb). assert (bs' = bs) by congruence. subst bs'.
        apply before_head. apply Im. exists bs. split; [apply in_or_app; right; left; reflexivity | exact Hb].
      * apply before_cons. destruct (from_base d Hd) as (b' & lb & _ & Hl & _ & O & Hdl & _).
        apply (Bm lb); [apply in_or_app; left; exact Hl | apply (class_before_bases _ _ _ O); assumption].
    + intros d bs' b b' [<- | Hd] B' Hb; apply before_cons.
      * assert (bs' = bs) by congruence. subst bs'.
        apply (Bm bs); [apply in_or_app; right; left; reflexivity | exact Hb].
      * destruct (from_base d Hd) as (b0 & lb & _ & Hl & _ & O & Hdl & _).
        apply (Bm lb); [apply in_or_app; left; exact Hl | eapply (bases_as_written _ _ _ O); eassumption].
  - intros d [<- | Hd]; [left; reflexivity | right; apply smaller; exact Hd].
Qed.

Lemma mro_in_order : forall fuel t c l, mro fuel t c = Some l -> ancestors_in_order t c l.
Proof. intros. apply (mro_ordered fuel). assumption. Qed.

Lemma ancestor_later : forall t c l x y, ancestors_in_order t c l -> In x l -> inherits t x y -> x = y \/ before x y l.
Proof.
  intros t c l x y O Hx H. induction H as [x | x b y Hb _ IH]; [left; reflexivity |].
  assert (Bb := class_before_bases _ _ _ O _ _ Hx Hb).
  destruct (IH (proj2 (before_in _ _ _ Bb))) as [-> | Hy]; [right; exact Bb |].
  right. eapply before_trans; [apply O | eassumption | eassumption].
Qed.

(** ** The method that is chosen *)
Section Chosen.
  Variable depth : nat.
  Variable t methods : table.

  Lemma method_owner_spec : forall v name owner, method_owner depth t methods v name = Some owner ->
    inherits t v owner /\ defines methods owner name = true /\
    (forall owner', inherits t v owner' -> inherits t owner' owner -> defines methods owner' name = true -> owner' = owner).
  Proof.
    intros v name owner E. unfold method_owner in E. destruct (mro depth t v) as [cs |] eqn:M; [| discriminate].
    pose proof (mro_in_order _ _ _ _ M) as O.
    assert (Ho := find_some _ _ E). destruct Ho as [Hi Hd].
    split; [apply (all_of_them _ _ _ O); exact Hi |]. split; [exact Hd |].
    intros owner' Hv Ho Hd'. apply (all_of_them _ _ _ O) in Hv.
    destruct (ancestor_later _ _ _ _ _ O Hv Ho) as [H | H]; [exact H | exfalso].
    pose proof (each_once _ _ _ O) as N. clear - E N H Hd' Hv.
    induction cs as [| c cs IH]; [destruct Hv |]. inversion N; subst. cbn in E.
    destruct (defines methods c name) eqn:D.
    - injection E as ->. apply before_cases in H. destruct H as [[-> H] | H]; [contradiction |].
      apply before_in in H. tauto.
    - apply before_cases in H. destruct H as [[-> H] | H]; [congruence |].
      apply IH; try assumption. apply before_in in H. tauto.
  Qed.

  Lemma method_owner_none : forall v cs name, mro depth t v = Some cs -> method_owner depth t methods v name = None ->
    ~ has_method t methods v name.
  Proof.
    intros v cs name M E (owner & Hv & Hd). unfold method_owner in E. rewrite M in E.
    apply (all_of_them _ _ _ (mro_in_order _ _ _ _ M)) in Hv.
    pose proof (find_none _ _ E _ Hv) as H. cbn in H. congruence.
  Qed.

  Lemma has_method_owner : forall v cs name, mro depth t v = Some cs -> has_method t methods v name ->
    exists owner, method_owner depth t methods v name = Some owner.
  Proof.
    intros v cs name M H. destruct (method_owner depth t methods v name) as [owner |] eqn:E; [exists owner; reflexivity |].
    exfalso. eapply method_owner_none; eassumption.
  Qed.

  Lemma owner_mro : forall v name owner, method_owner depth t methods v name = Some owner -> exists cs, mro depth t v = Some cs.
  Proof. intros v name owner E. unfold method_owner in E. destruct (mro depth t v) as [cs |]; [exists cs; reflexivity | discriminate]. Qed.

  Lemma resolve_spec : forall v c owner name, resolve_method depth t methods v c = Some (owner, name) ->
    method_for t methods v c owner name.
  Proof.
    intros v c owner name E. unfold resolve_method in E. destruct (mro depth t c) as [names |] eqn:M; [| discriminate].
    pose proof (mro_in_order _ _ _ _ M) as O.
    assert (F : forall l, first_method depth t methods v l = Some (owner, name) ->
      In name l /\ method_owner depth t methods v name = Some owner /\
      (NoDup l -> forall x, before x name l -> method_owner depth t methods v x = None)).
    { induction l as [| x l IH]; intros H; [discriminate |]. cbn in H.
      destruct (method_owner depth t methods v x) as [o |] eqn:Ex.
      - injection H as -> ->. split; [left; reflexivity |]. split; [exact Ex |].
        intros N y Hb. inversion N; subst. apply before_cases in Hb. destruct Hb as [[-> Hb] | Hb]; [contradiction |].
        apply before_in in Hb. tauto.
      - destruct (IH H) as (Hi & Ho & Hx). split; [right; exact Hi |]. split; [exact Ho |].
        intros N y Hb. inversion N; subst. apply before_cases in Hb. destruct Hb as [[-> _] | Hb]; [exact Ex |].
        apply Hx; assumption. }
    destruct (F _ E) as (Hi & Ho & Hx). clear F.
    destruct (method_owner_spec _ _ _ Ho) as (Hv & Hd & Hc).
    constructor; try assumption.
    - apply (all_of_them _ _ _ O). exact Hi.
    - intros name' Hn Hnn Hm. apply (all_of_them _ _ _ O) in Hn.
      destruct (ancestor_later _ _ _ _ _ O Hn Hnn) as [H | H]; [exact H | exfalso].
      destruct (owner_mro _ _ _ Ho) as [cs Mv].
      destruct (has_method_owner _ _ _ Mv Hm) as [o Eo].
      rewrite (Hx (each_once _ _ _ O) _ H) in Eo. discriminate.
  Qed.

  Lemma resolve_none : forall v c names cs, mro depth t c = Some names -> mro depth t v = Some cs ->
    (resolve_method depth t methods v c = None <-> forall name, inherits t c name -> ~ has_method t methods v name).
  Proof.
    intros v c names cs M Mv. unfold resolve_method. rewrite M.
    pose proof (mro_in_order _ _ _ _ M) as O. split.
    - intros E name Hn. apply (all_of_them _ _ _ O) in Hn. clear M O.
      induction names as [| x names IH]; [destruct Hn |]. cbn in E.
      destruct (method_owner depth t methods v x) as [o |] eqn:Ex; [discriminate |].
      destruct Hn as [<- | Hn]; [eapply method_owner_none; eassumption | exact (IH E Hn)].
    - intros H.
      assert (H' : forall name, In name names -> ~ has_method t methods v name)
        by (intros name Hn; apply H; apply (all_of_them _ _ _ O); exact Hn).
      clear M O H. induction names as [| x names IH]; [reflexivity |]. cbn.
      destruct (method_owner depth t methods v x) as [o |] eqn:Ex.
      + exfalso. apply (H' x (or_introl eq_refl)). exists o. destruct (method_owner_spec _ _ _ Ex) as (Hv & Hd & _).
        split; assumption.
      + apply IH. intros name Hn. apply H'. right. exact Hn.
  Qed.

  Lemma is_instance_spec : forall c d names, mro depth t c = Some names ->
    (is_instance depth t c d = true <-> inherits t c d).
  Proof.
    intros c d names M. unfold is_instance. rewrite M, mem_iff. apply (all_of_them _ _ _ (mro_in_order _ _ _ _ M)).
  Qed.
End Chosen.
