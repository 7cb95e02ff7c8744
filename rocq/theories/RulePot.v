(** ReplaceExtendedTransformator makes at most one forward rule for each quantifier. *)
From Verif Require Import Base EarleyModel RuleModel RuleSpec RuleWords RuleLike RulePass RuleOrder RuleBuild RuleEnds RuleWalk.
Open Scope nat_scope.

Section Pot.
  Context {pred pipe bnf : Type}.
  Notation obj := (obj pred pipe bnf).
  Notation heap := (heap pred pipe bnf).
  Notation visitor := (visitor pred pipe bnf).
  Notation state := (state pred pipe bnf).
  Notation M := (M pred pipe bnf).

  Definition keys (s : state) : list nat := map fst (st_visited s).
  (** Quantifiers not visited yet. *)
  Definition todo (h : heap) (ks : list nat) : nat :=
    length (filter (fun p => match nth_error h p with Some o => quantifier o && negb (is_in p ks) | None => false end) (seq 0 (length h))).
  Definition pot (s : state) : nat := forwards (st_heap s) + todo (st_heap s) (keys s).

  Lemma filter_same {A} (f g : A -> bool) l : (forall x, In x l -> f x = g x) -> filter f l = filter g l.
  Proof. intros K. induction l as [|x l IH]; [reflexivity|]. cbn. rewrite (K x (or_introl eq_refl)), IH; [reflexivity|]. intros y Hy. apply K. right. exact Hy. Qed.
  Lemma todo_alloc h ks o : quantifier o = false -> todo (h ++ [o]) ks = todo h ks.
  Proof.
    intros Q. unfold todo. rewrite app_length. cbn [length]. rewrite Nat.add_1_r, seq_S, filter_app, app_length. cbn [plus filter].
    rewrite nth_error_app2, Nat.sub_diag by lia. cbn [nth_error]. rewrite Q. cbn. rewrite Nat.add_0_r. f_equal. apply filter_same. intros p Hp. apply in_seq in Hp. rewrite nth_error_app1 by lia. reflexivity.
  Qed.
  Lemma todo_put h ks p o o' : nth_error h p = Some o -> quantifier o' = quantifier o -> todo (setitem h p o') ks = todo h ks.
  Proof.
    intros E Q. unfold todo. rewrite setitem_length. f_equal. apply filter_same. intros q Hq. destruct (Nat.eq_dec q p) as [->|Ne]; [|rewrite setitem_other by auto; reflexivity].
    rewrite setitem_same by (apply nth_error_Some; congruence). rewrite E, Q. reflexivity.
  Qed.
  Lemma filter_le {A} (f g : A -> bool) l : (forall x, In x l -> f x = true -> g x = true) -> length (filter f l) <= length (filter g l).
  Proof.
    intros K. induction l as [|x l IH]; [reflexivity|]. cbn. assert (IH' : length (filter f l) <= length (filter g l)) by (apply IH; intros y Hy; apply K; right; exact Hy).
    specialize (K x (or_introl eq_refl)). destruct (f x), (g x); cbn; first [lia|discriminate (K eq_refl)].
  Qed.
  Lemma filter_lt {A} (f g : A -> bool) l x : (forall x, In x l -> f x = true -> g x = true) -> In x l -> f x = false -> g x = true -> length (filter f l) < length (filter g l).
  Proof.
    intros K Hx Fx Gx. induction l as [|y l IH]; [destruct Hx|]. cbn. assert (K' : forall z, In z l -> f z = true -> g z = true) by (intros z Hz; apply K; right; exact Hz).
    pose proof (filter_le f g l K') as Le. destruct Hx as [->|Hx]; [rewrite Fx, Gx; cbn; lia|]. specialize (IH K' Hx). specialize (K y (or_introl eq_refl)). destruct (f y), (g y); cbn; first [lia|discriminate (K eq_refl)].
  Qed.
  Lemma todo_visit h ks p o : nth_error h p = Some o -> ~ In p ks -> todo h (p :: ks) + (if quantifier o then 1 else 0) <= todo h ks.
  Proof.
    intros E N. unfold todo. assert (K : forall q, In q (seq 0 (length h)) -> match nth_error h q with Some o => quantifier o && negb (is_in q (p :: ks)) | None => false end = true ->
      match nth_error h q with Some o => quantifier o && negb (is_in q ks) | None => false end = true).
    { intros q _. destruct (nth_error h q) as [x|]; [|auto]. cbn [is_in existsb]. rewrite !andb_true_iff, !negb_true_iff, orb_false_iff. unfold is_in. tauto. }
    destruct (quantifier o) eqn:Q.
    - rewrite Nat.add_1_r. apply (filter_lt _ _ _ p K); cbv beta; rewrite ?E, ?Q.
      + apply in_seq. split; [lia|]. apply nth_error_Some. congruence.
      + cbn. rewrite Nat.eqb_refl. reflexivity.
      + destruct (is_in p ks) eqn:I; [apply is_in_spec in I; contradiction|reflexivity].
    - rewrite Nat.add_0_r. apply filter_le, K.
  Qed.

  (** At most [k] more, only objects below [b] visited. *)
  Record spends (b k : nat) (s s' : state) : Prop := mkSpends {
    spends_pot : pot s' <= pot s + k;
    spends_keys : forall q, In q (keys s') -> In q (keys s) \/ q < b;
    spends_kept : forall q o, nth_error (st_heap s) q = Some o -> is_forward o = false -> nth_error (st_heap s') q = Some o }.
  Lemma spends_refl b s : spends b 0 s s.
  Proof. split; [lia|auto|auto]. Qed.
  Lemma spends_trans b k k' s s' s'' : spends b k s s' -> spends b k' s' s'' -> spends b (k + k') s s''.
  Proof.
    intros [A B C] [A' B' C']. split; [lia| |auto]. intros q Hq. destruct (B' q Hq) as [K|K]; auto.
  Qed.
  Lemma spends_le b b' k k' s s' : spends b k s s' -> b <= b' -> k <= k' -> spends b' k' s s'.
  Proof. intros [A B C] L K. split; [lia| |exact C]. intros q Hq. destruct (B q Hq); [auto|right; lia]. Qed.
  Lemma spends_alloc b s o : quantifier o = false -> spends b (if is_forward o then 1 else 0) s (mkState (st_heap s ++ [o]) (st_visited s)).
  Proof.
    intros Q. split; [|cbn; auto|cbn].
    - unfold pot. cbn [st_heap]. unfold keys. cbn [st_visited]. rewrite todo_alloc by exact Q. unfold forwards. rewrite filter_app, app_length. cbn. destruct (is_forward o); cbn; lia.
    - intros q x E _. rewrite nth_error_app1; [exact E|]. apply nth_error_Some. congruence.
  Qed.
  Lemma pot_define (s : state) f d d' : nth_error (st_heap s) f = Some (OForward d) -> pot (mkState (setitem (st_heap s) f (OForward (Some d'))) (st_visited s)) <= pot s.
  Proof.
    intros E. unfold pot. cbn [st_heap]. unfold keys. cbn [st_visited]. rewrite (todo_put _ _ _ _ _ E) by reflexivity. rewrite (forwards_put _ _ _ _ E) by reflexivity. lia.
  Qed.
  Lemma spends_define b s f d d' : nth_error (st_heap s) f = Some (OForward d) -> spends b 0 s (mkState (setitem (st_heap s) f (OForward (Some d'))) (st_visited s)).
  Proof.
    intros E. split; [pose proof (pot_define s f d d' E); lia|auto|]. cbn. intros q o Eq F. rewrite setitem_other; [exact Eq|]. intros ->. rewrite E in Eq. injection Eq as <-. discriminate.
  Qed.

  Definition spend {A} (b k : nat) (m : M A) : Prop := forall s a s', m s = Some (Ok (a, s')) -> spends b k s s'.
  Lemma spend_bind {A B} b k k' (m : M A) (f : A -> M B) : spend b k m -> (forall a, spend b k' (f a)) -> spend b (k + k') (bindM m f).
  Proof. intros X F s c s' H. apply bind_ok in H as (a & s1 & H1 & H2). exact (spends_trans _ _ _ _ _ _ (X _ _ _ H1) (F _ _ _ _ H2)). Qed.
  Lemma spend_ret {A} b (a : A) : spend b 0 (ret a).
  Proof. intros s x s' H. apply ret_ok in H as [-> ->]. apply spends_refl. Qed.
  Lemma spend_alloc b o : quantifier o = false -> is_forward o = false -> spend b 0 (alloc o).
  Proof. intros Q F s x s' H. injection H as <- <-. pose proof (spends_alloc b s o Q) as K. rewrite F in K. exact K. Qed.
  Lemma spend_new_rule b l : spend b 0 (RuleModel.new_rule l).
  Proof. apply (spend_bind b 0 0); [apply spend_alloc; reflexivity|]. intros q. apply spend_alloc; reflexivity. Qed.
  Lemma spend_max_bound b item rev : forall count, spend b 0 (max_bound item count rev).
  Proof.
    induction count as [|[|count] IH]; [intros s a s' H; discriminate|apply spend_ret|].
    change (spend b 0 (bindM (max_bound (pred := pred) (pipe := pipe) (bnf := bnf) item (S count) rev) (fun rest => bindM (RuleModel.new_rule [item; rest]) (fun a => alloc (OOr (RuleModel.ordered rev a item)))))).
    apply (spend_bind b 0 0); [exact IH|]. intros rest. apply (spend_bind b 0 0); [apply spend_new_rule|]. intros a. apply spend_alloc; reflexivity.
  Qed.
  Lemma define_done f r s a s' : define (pred := pred) (pipe := pipe) (bnf := bnf) f r s = Some (Ok (a, s')) -> s' = mkState (setitem (st_heap s) f (OForward (Some r))) (st_visited s).
  Proof. unfold define. intros H. apply bind_ok in H as (o & s1 & H1 & H2). apply get_ok in H1 as [_ ->]. destruct (is_forward o); [discriminate|]. injection H2 as <- <-. reflexivity. Qed.
  Lemma spend_temp b (rest : nat -> M nat) : (forall temp, spend b 0 (rest temp)) -> (forall temp s a s', rest temp s = Some (Ok (a, s')) -> exists l, st_heap s' = st_heap s ++ l) ->
    spend b 1 (bindM (alloc (OForward None)) (fun temp => bindM (rest temp) (fun o => bindM (define temp o) (fun _ => ret temp)))).
  Proof.
    intros R X s a s' H. apply bind_ok in H as (temp & s1 & H1 & H2). injection H1 as <- <-. apply bind_ok in H2 as (o & s2 & H2 & H3). apply bind_ok in H3 as (u & s3 & H3 & H4). apply ret_ok in H4 as [-> ->].
    apply define_done in H3 as ->. apply (spends_trans b 1 0 _ _ _ (spends_alloc b s (OForward None) eq_refl)). apply (spends_trans b 0 0 _ _ _ (R _ _ _ _ H2)). destruct (X _ _ _ _ H2) as (l & El). cbn in El.
    apply spends_define with (d := None). rewrite El, nth_error_app1, nth_error_app2, Nat.sub_diag by (rewrite ?app_length; cbn; lia). reflexivity.
  Qed.
  Lemma grow_new_rule l s a s' : RuleModel.new_rule (pred := pred) (pipe := pipe) (bnf := bnf) l s = Some (Ok (a, s')) -> exists x, st_heap s' = st_heap s ++ x.
  Proof. intros H. apply bind_ok in H as (q & s1 & H1 & H2). injection H1 as <- <-. injection H2 as <- <-. cbn. eexists. rewrite <- app_assoc. reflexivity. Qed.
  Lemma spend_repeatable b item rev : spend b 1 (repeatable_rule item rev).
  Proof.
    assert (K : spend b 1 (bindM (alloc (OForward None)) (fun temp => bindM (bindM (RuleModel.new_rule [item; temp]) (fun a => alloc (OOr (RuleModel.ordered rev a item)))) (fun o => bindM (define temp o) (fun _ => ret temp))))).
    { apply spend_temp.
      - intros temp. apply (spend_bind b 0 0); [apply spend_new_rule|]. intros a. apply spend_alloc; reflexivity.
      - intros temp s a s' H. apply bind_ok in H as (x & s1 & H1 & H2). apply grow_new_rule in H1 as (l & El). injection H2 as <- <-. cbn. rewrite El. eexists. rewrite <- app_assoc. reflexivity. }
    intros s a s' H. apply (K s a s'). rewrite <- H. reflexivity.
  Qed.
  Lemma spend_repeatable_optional b item rr ro : spend b 1 (repeatable_optional_rule item rr ro).
  Proof.
    assert (K : spend b 1 (bindM (alloc (OForward None)) (fun temp => bindM (bindM (alloc OEmpty) (fun a => bindM (RuleModel.new_rule [item; temp]) (fun b => alloc (OOr (if ro then RuleModel.ordered rr b item ++ [a] else a :: RuleModel.ordered rr b item))))) (fun o => bindM (define temp o) (fun _ => ret temp))))).
    { apply spend_temp.
      - intros temp. apply (spend_bind b 0 0); [apply spend_alloc; reflexivity|]. intros x. apply (spend_bind b 0 0); [apply spend_new_rule|]. intros a. apply spend_alloc; reflexivity.
      - intros temp s a s' H. apply bind_ok in H as (x & s1 & H1 & H2). injection H1 as <- <-. apply bind_ok in H2 as (y & s2 & H2 & H3). apply grow_new_rule in H2 as (l & El). injection H3 as <- <-. cbn in *. rewrite El. eexists. rewrite <- !app_assoc. reflexivity. }
    intros s a s' H. apply (K s a s'). rewrite <- H. reflexivity.
  Qed.

  (** Visits of objects below [p]. *)
  Definition visitor_spends (V : visitor) (p : nat) : Prop := forall c s r s', fine s -> c < p -> c < size s -> V c s = Some (Ok (r, s')) -> fine s' /\ size s <= size s' /\ spends p 0 s s'.
  Lemma visitor_map V p : visitor_spends V p -> forall l s rs s', fine s -> (forall c, In c l -> c < p /\ c < size s) -> mapMM V l s = Some (Ok (rs, s')) -> spends p 0 s s'.
  Proof.
    intros VS. induction l as [|c l IH]; intros s rs s' F K H; cbn in H.
    - apply ret_ok in H as [-> ->]. apply spends_refl.
    - apply bind_ok in H as (r & s1 & H1 & H2). apply bind_ok in H2 as (rs1 & s2 & H2 & H3). apply ret_ok in H3 as [-> ->].
      destruct (VS c s r s1 F (proj1 (K c (or_introl eq_refl))) (proj2 (K c (or_introl eq_refl))) H1) as (F1 & L1 & S1).
      apply (spends_trans p 0 0 _ _ _ S1). apply (IH s1 rs1 s2 F1); [|exact H2]. intros x Hx. destruct (K x (or_intror Hx)). split; [assumption|lia].
  Qed.
  Lemma visitor_terms V p : visitor_spends V p -> forall ts s rs s', fine s -> (forall c, In c (rule_terms ts) -> c < p /\ c < size s) -> mapMM (visit_term V) ts s = Some (Ok (rs, s')) -> spends p 0 s s'.
  Proof.
    intros VS. induction ts as [|t l IH]; intros s rs s' F K H; cbn in H.
    - apply ret_ok in H as [-> ->]. apply spends_refl.
    - apply bind_ok in H as (r & s1 & H1 & H2). apply bind_ok in H2 as (rs1 & s2 & H2 & H3). apply ret_ok in H3 as [-> ->].
      destruct t as [c|x].
      + cbn in H1. apply bind_ok in H1 as (r' & s3 & H1 & H4). apply ret_ok in H4 as [-> ->]. cbn in K.
        destruct (VS c s r' s3 F (proj1 (K c (or_introl eq_refl))) (proj2 (K c (or_introl eq_refl))) H1) as (F1 & L1 & S1).
        apply (spends_trans p 0 0 _ _ _ S1). apply (IH s3 rs1 s2 F1); [|exact H2]. intros y Hy. destruct (K y (or_intror Hy)). split; [assumption|lia].
      + cbn in H1. apply ret_ok in H1 as [-> ->]. apply (IH s rs1 s2 F K H2).
  Qed.
  Lemma replace_extended_spends V p o s r s' : visitor_spends V p -> fine s -> nth_error (st_heap s) p = Some o ->
    replace_extended_method V p o s = Some (Ok (r, s')) -> spends p (if quantifier o then 1 else 0) s s'.
  Proof.
    intros VS F E H. destruct (is_forward o) eqn:Fo; [destruct o; try discriminate; apply ret_ok in H as [-> ->]; apply spends_refl|].
    assert (C : forall c, In c (children o) -> c < p /\ c < size s) by (intros c Hc; destruct (proj1 F p o c E Hc) as [K1 K2]; split; [apply K2, Fo|exact K1]).
    assert (One : forall r0 k (f : nat -> M nat), In r0 (children o) -> (forall x, spend p k (f x)) -> bindM (V r0) f s = Some (Ok (r, s')) -> spends p k s s').
    { intros r0 k f Hr K X. apply bind_ok in X as (x & s1 & X1 & X2). destruct (VS r0 s x s1 F (proj1 (C r0 Hr)) (proj2 (C r0 Hr)) X1) as (_ & _ & S1). exact (spends_trans p 0 k _ _ _ S1 (K x _ _ _ X2)). }
    assert (Many : forall l (f : list nat -> obj), (forall c, In c l -> In c (children o)) -> (forall x, quantifier (f x) = false /\ is_forward (f x) = false) -> bindM (mapMM V l) (fun x => alloc (f x)) s = Some (Ok (r, s')) -> spends p 0 s s').
    { intros l f Hl K X. apply bind_ok in X as (x & s1 & X1 & X2). apply (spends_trans p 0 0 _ s1); [apply (visitor_map V p VS l s x s1 F); [intros c Hc; apply C, Hl, Hc|exact X1]|]. apply (spend_alloc p (f x) (proj1 (K x)) (proj2 (K x)) _ _ _ X2). }
    destruct o as [ps|rs|r0 rev|r0 rev|r0 rr ro|r0 mi rev|r0 mi rev|r0 mi ma rev|r0 nm|r0 i|r0 rel|d| |pl|ps a|b ps a|ts mi| |k ps]; cbn [replace_extended_method base_method quantifier] in H |- *;
      try discriminate; try (apply ret_ok in H as [-> ->]; apply spends_refl).
    - apply (Many ps ORule); auto.
    - apply (Many rs OOr); auto.
    - apply (spends_le p p 0 1); [|lia|lia]. revert H. apply One; [left; reflexivity|]. intros x. apply (spend_bind p 0 0); [apply spend_alloc; reflexivity|]. intros y. apply spend_alloc; reflexivity.
    - revert H. apply One; [left; reflexivity|]. intros x. apply spend_repeatable.
    - revert H. apply One; [left; reflexivity|]. intros x. apply spend_repeatable_optional.
    - revert H. apply One; [left; reflexivity|]. intros x. apply (spend_bind p 1 0); [apply spend_repeatable|]. intros y. apply spend_new_rule.
    - apply (spends_le p p 0 1); [|lia|lia]. revert H. apply One; [left; reflexivity|]. intros x. apply spend_max_bound.
    - apply (spends_le p p 0 1); [|lia|lia]. revert H. apply One; [left; reflexivity|]. intros x. apply (spend_bind p 0 0); [apply spend_max_bound|]. intros y. apply spend_new_rule.
    - revert H. apply One; [left; reflexivity|]. intros x. apply spend_alloc; reflexivity.
    - revert H. apply One; [left; reflexivity|]. intros x. apply spend_alloc; reflexivity.
    - revert H. apply One; [left; reflexivity|]. intros x. apply spend_alloc; reflexivity.
    - apply (Many ps ORule); auto.
    - apply (Many ps ORule); auto.
    - apply bind_ok in H as (ts' & s1 & H1 & H2). apply (spends_trans p 0 0 _ s1); [apply (visitor_terms V p VS ts s ts' s1 F C H1)|]. apply (spend_alloc p (OProd ts' mi) eq_refl eq_refl _ _ _ H2).
  Qed.
  Lemma assoc_keys p (l : list (nat * nat)) : assoc p l = None -> ~ In p (map fst l).
  Proof. induction l as [|[q r] l IH]; cbn; [intros _ []|]. destruct (Nat.eqb_spec p q) as [->|N]; [discriminate|]. intros E [K|K]; [congruence|exact (IH E K)]. Qed.
  Lemma visit_spends fuel : forall p s r s', fine s -> p < size s -> visit replace_extended_method fuel p s = Some (Ok (r, s')) -> spends (S p) 0 s s'.
  Proof.
    induction fuel as [|fuel IH]; intros p s r s' F L H; [discriminate|]. cbn [visit] in H. apply bind_ok in H as (known & s1 & H1 & H2). injection H1 as <- <-.
    destruct (assoc p (st_visited s)) as [x|] eqn:A; [apply ret_ok in H2 as [-> ->]; apply spends_refl|].
    apply bind_ok in H2 as (o & s1 & H1 & H2). apply get_ok in H1 as [E ->]. apply bind_ok in H2 as (x & s1 & H1 & H2). apply bind_ok in H2 as (u & s2 & H2 & H3). apply ret_ok in H3 as [-> ->]. injection H2 as <- <-.
    assert (VS : visitor_spends (visit replace_extended_method fuel) p).
    { intros c t rc t' Ft Lc Lt Hc. destruct (visit_visits replace_extended_method replace_extended_safe fuel (size t) c Lt t rc t' Ft (le_n _) Hc) as (F1 & L1 & _). split; [exact F1|]. split; [exact L1|]. apply (spends_le (S c) p 0 0); [apply (IH c t rc t' Ft Lt Hc)|lia|lia]. }
    pose proof (replace_extended_spends _ p o s x s1 VS F E H1) as [P K S].
    destruct (is_forward o) eqn:Fo.
    - assert (s1 = s) as -> by (destruct o; try discriminate; apply ret_ok in H1 as [_ ->]; reflexivity). split.
      + unfold pot, keys. cbn [st_heap st_visited map fst]. pose proof (todo_visit (st_heap s) (map fst (st_visited s)) p o E (assoc_keys _ _ A)). lia.
      + intros q [<-|Hq]; [right; cbn; lia|left; exact Hq].
      + auto.
    - assert (E1 : nth_error (st_heap s1) p = Some o) by (apply S; assumption).
      assert (N : ~ In p (keys s1)) by (intros Hp; destruct (K p Hp) as [Hp'|Hp']; [apply (assoc_keys _ _ A Hp')|lia]).
      split.
      + unfold pot, keys in *. cbn [st_heap st_visited map fst]. pose proof (todo_visit (st_heap s1) (map fst (st_visited s1)) p o E1 N). lia.
      + intros q [<-|Hq]; [right; cbn; lia|]. destruct (K q Hq); [auto|right; lia].
      + exact S.
  Qed.
End Pot.
