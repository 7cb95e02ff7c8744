(** Each pass of Rule.normalized. *)
From Verif Require Import Base EarleyModel RuleModel RuleSpec RuleWords RuleLike RulePass RuleMethods RuleExpand.
Open Scope nat_scope.

Section Squash.
  Context {pred pipe bnf : Type}.
  Notation obj := (obj pred pipe bnf).
  Variable pipe_bnf : pipe -> res bnf.
  Variable bnf_lines : bnf -> list (str * list pred).
  Lemma copy_plain R o o' : copy (pred:=pred) (pipe:=pipe) (bnf:=bnf) R o o' -> plain o' = plain o /\ is_quant o' = is_quant o.
  Proof. destruct 1; auto. Qed.

  (** Without directly nested quantifiers, SquashExtendedTransformator only copies. *)
  Lemma squash_ok n0 G : method_ok pipe_bnf bnf_lines (@plain pred pipe bnf) plain is_quant n0 G squash_method.
  Proof.
    intros V OK p o s r s' I D E H.
    destruct (inv_graph _ _ _ _ _ _ (inv_heap _ _ _ _ _ _ _ _ I) p D) as (o1 & E1 & Pl & _ & Co). rewrite E in E1. injection E1 as <-.
    assert (Base : base_method V p o s = Some (Ok (r, s')) -> keeps pipe_bnf bnf_lines plain plain is_quant n0 G s p r s').
    { intros K. eapply base_ok; eauto. intros R o' C. destruct (copy_plain R o o' C) as [A B]. split; [congruence|exact B]. }
    assert (Child : forall c, In c (children o) -> is_quant o = true -> exists oc, nth_error (st_heap s) c = Some oc /\ is_quant oc = false).
    { intros c Hc Q. destruct (Co c Hc) as (_ & oc & Ec & _ & K). exists oc. auto. }
    destruct o as [ps|rs|r0 rev|r0 rev|r0 rr ro|r0 m rev|r0 m rev|r0 m n rev|r0 n|r0 i|r0 rel|d| |pl|ps a|b ps a|ts m| |k ps]; cbn [squash_method] in H; try (apply Base; exact H);
      (apply bind_ok in H as (child & s1 & H1 & H); apply get_ok in H1 as [Ec ->]; destruct (Child r0 (or_introl eq_refl) eq_refl) as (oc & Ec' & Q); rewrite Ec in Ec'; injection Ec' as <-).
    - eapply (visit_copy pipe_bnf bnf_lines plain plain is_quant (fun _ e => e) n0 G V s p _ r0 (fun r' => OOptional r' rev)); eauto; [intros; constructor; assumption|].
      destruct child; try discriminate; exact H.
    - eapply (visit_copy pipe_bnf bnf_lines plain plain is_quant (fun _ e => e) n0 G V s p _ r0 (fun r' => ORepeatable r' rev)); eauto; [intros; constructor; assumption|].
      destruct child; try discriminate; exact H.
    - eapply (visit_copy pipe_bnf bnf_lines plain plain is_quant (fun _ e => e) n0 G V s p _ r0 (fun r' => ORepOpt r' rr ro)); eauto; [intros; constructor; assumption|].
      destruct child; try discriminate; exact H.
    - eapply (visit_copy pipe_bnf bnf_lines plain plain is_quant (fun _ e => e) n0 G V s p _ r0 (fun r' => OMin r' m rev)); eauto; [intros; constructor; assumption|].
      destruct child; try discriminate; exact H.
    - eapply (visit_copy pipe_bnf bnf_lines plain plain is_quant (fun _ e => e) n0 G V s p _ r0 (fun r' => OMax r' m rev)); eauto; [intros; constructor; assumption|].
      destruct child; try discriminate; exact H.
    - eapply (visit_copy pipe_bnf bnf_lines plain plain is_quant (fun _ e => e) n0 G V s p _ r0 (fun r' => OMinMax r' m n rev)); eauto; [intros; constructor; assumption|].
      destruct child; try discriminate; exact H.
  Qed.
End Squash.

Section Alloc.
  Context {pred pipe bnf : Type}.
  Notation obj := (obj pred pipe bnf).
  Notation heap := (heap pred pipe bnf).
  Notation M := (M pred pipe bnf).
  Notation state := (state pred pipe bnf).
  Variable pipe_bnf : pipe -> res bnf.
  Variable bnf_lines : bnf -> list (str * list pred).
  Notation like := (like pipe_bnf bnf_lines).
  Notation denotes := (denotes pipe_bnf bnf_lines).
  Notation open_words := (open_words pipe_bnf bnf_lines).
  Variables allowed produced : obj -> bool.
  Hypothesis produced_allowed : forall o, produced o = true -> allowed o = true.
  Variable n0 : nat.
  Variable G : nat -> Prop.
  Notation old := (old n0).
  Notation dom := (dom n0 G).
  Notation clean := (clean produced n0).
  Notation pair := (pair pipe_bnf bnf_lines produced nothing n0 G).
  Notation heap_inv := (heap_inv allowed produced nothing n0 G).
  Notation inv := (inv pipe_bnf bnf_lines allowed produced nothing n0 G).
  Notation keeps := (keeps pipe_bnf bnf_lines allowed produced nothing n0 G).

  (** A clean child of the given kind. *)
  Definition part (h : heap) (production : bool) (c : nat) : Prop :=
    dom h c /\ clean h c /\ exists oc, nth_error h c = Some oc /\ is_prod oc = production.
  Lemma part_app h t b c : part h b c -> part (h ++ t) b c.
  Proof. intros (D & C & oc & E & P). split; [apply dom_app, D|]. split; [apply clean_app, C|]. exists oc. split; [apply nth_old, E|exact P]. Qed.
  Lemma part_ext s s' b c : ext s s' -> part (st_heap s) b c -> part (st_heap s') b c.
  Proof. intros [t ->]. apply part_app. Qed.
  Lemma pair_part h p r o : pair h p r -> nth_error h p = Some o -> part h (is_prod o) r.
  Proof. intros [D C F _ _] E. destruct (F o E) as (o' & E' & P & _). split; [exact D|]. split; [exact C|]. exists o'. auto. Qed.

  Lemma grow s t : inv s ->
    (forall o, In o t -> produced o = true /\ shape o /\ forall c, In c (children o) -> part (st_heap s ++ t) (has_prods o) c) ->
    inv (mkState (st_heap s ++ t) (st_visited s)).
  Proof.
    intros I H. apply inv_app; [exact I|]. apply heap_inv_app; [apply I|]. intros o Ho. destruct (H o Ho) as (P & S & C).
    split; [exact P|]. split.
    - split; [apply produced_allowed, P|]. split; [exact S|]. intros c Hc. destruct (C c Hc) as (D & _ & oc & E & K). split; [exact D|]. exists oc. split; [exact E|].
      split; [exact K|discriminate].
    - intros c Hc. apply (C c Hc).
  Qed.
  Lemma new_part s t k o b : inv s -> nth_error t k = Some o -> is_prod o = b -> part (st_heap s ++ t) b (length (st_heap s) + k).
  Proof.
    intros I E P. assert (L : k < length t) by (apply nth_error_Some; congruence). pose proof (inv_size _ _ _ _ _ _ (inv_heap _ _ _ _ _ _ _ _ I)).
    split; [split; [rewrite app_length; lia|right; lia]|]. split; [left; lia|]. exists o. split; [|exact P].
    rewrite nth_error_app2 by lia. replace (length (st_heap s) + k - length (st_heap s)) with k by lia. exact E.
  Qed.
  Lemma nth_grow (h t : heap) k : nth_error (h ++ t) (length h + k) = nth_error t k.
  Proof. rewrite nth_error_app2 by lia. f_equal. lia. Qed.

  Lemma alloc_ok s o r s' : inv s -> produced o = true -> shape o -> (forall c, In c (children o) -> part (st_heap s) (has_prods o) c) ->
    alloc o s = Some (Ok (r, s')) -> ext s s' /\ inv s' /\ nth_error (st_heap s') r = Some o /\ part (st_heap s') (is_prod o) r.
  Proof.
    intros I P S C H. unfold alloc in H. injection H as <- <-. split; [exists [o]; reflexivity|]. split.
    - apply grow; [exact I|]. intros x [<-|[]]. split; [exact P|]. split; [exact S|]. intros c Hc. apply part_app, C, Hc.
    - cbn [st_heap]. split; [apply nth_new|]. rewrite <- (Nat.add_0_r (length (st_heap s))). apply (new_part s [o] 0 o); auto.
  Qed.
  Lemma rule_terms_map ts : rule_terms (pred:=pred) (map TRule ts) = ts.
  Proof. unfold rule_terms. induction ts; cbn; congruence. Qed.
  Hypothesis produced_rule : forall ps, produced (ORule ps) = true.
  Hypothesis produced_prod : forall ts m, produced (OProd ts m) = true.
  Lemma new_rule_ok s ts r s' : inv s -> Forall (part (st_heap s) false) ts -> new_rule ts s = Some (Ok (r, s')) ->
    ext s s' /\ inv s' /\ part (st_heap s') false r /\ exists q, nth_error (st_heap s') r = Some (ORule [q]) /\ nth_error (st_heap s') q = Some (OProd (map TRule ts) 0).
  Proof.
    intros I F H. unfold new_rule in H. apply bind_ok in H as (q & s1 & H1 & H). rewrite Forall_forall in F.
    destruct (alloc_ok s (OProd (map TRule ts) 0) q s1 I) as (X1 & I1 & E1 & P1); auto; [left; reflexivity|intros c Hc; cbn [children has_prods] in *; rewrite rule_terms_map in Hc; auto|].
    destruct (alloc_ok s1 (ORule [q]) r s' I1) as (X2 & I2 & E2 & P2); auto; [exact Logic.I|intros c [<-|[]]; exact P1|].
    split; [eapply ext_trans; eassumption|]. split; [exact I2|]. split; [exact P2|]. exists q. split; [exact E2|]. apply (ext_get s1 s' q _ X2 E1).
  Qed.

  (** The rule made from a visited child has the words of [L]. *)
  Record made (s : state) (item r : nat) (s' : state) (L : @language pred -> @language pred) : Prop := {
    made_ext : ext s s';
    made_inv : inv s';
    made_part : part (st_heap s') false r;
    made_words : forall kd, same (open_words kd old (st_heap s') r) (L (open_words kd old (st_heap s') item));
    made_uses : forall q, uses old (st_heap s') r q <-> uses old (st_heap s') item q }.

  Hypothesis produced_or : forall rs, produced (OOr rs) = true.
  Hypothesis produced_empty : produced OEmpty = true.
  Hypothesis produced_forward : forall d, produced (OForward d) = true.

  Lemma setitem_app {A} (h : list A) x y t : setitem (h ++ x :: t) (length h) y = h ++ y :: t.
  Proof. induction h as [|z h IH]; cbn; [reflexivity|]. rewrite IH. reflexivity. Qed.
  Lemma temp_transparent s k : inv s -> old (length (st_heap s) + k) = false.
  Proof. intros I. apply Nat.ltb_ge. pose proof (inv_size _ _ _ _ _ _ (inv_heap _ _ _ _ _ _ _ _ I)). lia. Qed.

  Lemma repeatable_effect item rev (s : state) : let n := length (st_heap s) in
    repeatable_rule item rev s = Some (Ok (n, mkState (st_heap s ++ [OForward (Some (n + 3)); OProd [TRule item; TRule n] 0; ORule [n + 1]; OOr (ordered rev (n + 2) item)]) (st_visited s))).
  Proof.
    intros n. unfold repeatable_rule, new_rule, define, put, get, alloc, bindM, ret. cbn [st_heap st_visited map]. fold n.
    rewrite !app_length, <- !app_assoc. cbn [app length]. fold n.
    replace (n + 1 + 1) with (n + 2) by lia. replace (n + 2 + 1) with (n + 3) by lia.
    assert (E : nth_error (st_heap s ++ [OForward None; OProd [TRule item; TRule n] 0; ORule [n + 1]; OOr (ordered rev (n + 2) item)]) (n + 3) = Some (OOr (ordered rev (n + 2) item))) by apply nth_grow.
    rewrite E. cbn [is_forward]. cbn [st_heap st_visited]. unfold n. rewrite setitem_app. reflexivity.
  Qed.
  Lemma repeatable_made item rev s r s' : inv s -> part (st_heap s) false item -> repeatable_rule item rev s = Some (Ok (r, s')) ->
    made s item r s' (fun l => many l rev).
  Proof.
    intros I Pi H. rewrite repeatable_effect in H. injection H as <- <-. set (n := length (st_heap s)).
    set (t := [OForward (Some (n + 3)); OProd [TRule item; TRule n] 0; ORule [n + 1]; OOr (ordered rev (n + 2) item)]).
    assert (N0 : part (st_heap s ++ t) false n) by (rewrite <- (Nat.add_0_r n); apply (new_part s t 0 _ false I eq_refl eq_refl)).
    assert (N1 : part (st_heap s ++ t) true (n + 1)) by (apply (new_part s t 1 _ true I eq_refl eq_refl)).
    assert (N2 : part (st_heap s ++ t) false (n + 2)) by (apply (new_part s t 2 _ false I eq_refl eq_refl)).
    assert (N3 : part (st_heap s ++ t) false (n + 3)) by (apply (new_part s t 3 _ false I eq_refl eq_refl)).
    assert (Ni : part (st_heap s ++ t) false item) by (apply part_app, Pi).
    assert (E0 : nth_error (st_heap s ++ t) n = Some (OForward (Some (n + 3)))) by apply nth_new.
    assert (T0 : old n = false) by (rewrite <- (Nat.add_0_r n); apply temp_transparent, I).
    constructor; cbn [st_heap].
    - exists t. reflexivity.
    - apply grow; [exact I|]. intros o [<-|[<-|[<-|[<-|[]]]]].
      + split; [apply produced_forward|]. split; [exact Logic.I|]. intros c [<-|[]]. exact N3.
      + split; [apply produced_prod|]. split; [left; reflexivity|]. intros c [<-|[<-|[]]]; assumption.
      + split; [apply produced_rule|]. split; [exact Logic.I|]. intros c [<-|[]]. exact N1.
      + split; [apply produced_or|]. split; [exact Logic.I|]. intros c Hc. cbn [children] in Hc. apply in_ordered in Hc as [->| ->]; assumption.
    - exact N0.
    - intros kd. apply (repeatable_words pipe_bnf bnf_lines old (st_heap s ++ t) item n (n + 1) (n + 2) (n + 3) rev); auto; apply nth_grow.
    - intros q. apply (repeatable_uses old (st_heap s ++ t) item n (n + 1) (n + 2) (n + 3) rev); auto; apply nth_grow.
  Qed.

  Lemma repeatable_optional_effect item rr ro (s : state) : let n := length (st_heap s) in
    repeatable_optional_rule item rr ro s = Some (Ok (n, mkState (st_heap s ++ [OForward (Some (n + 4)); OEmpty; OProd [TRule item; TRule n] 0; ORule [n + 2];
      OOr (if ro then ordered rr (n + 3) item ++ [n + 1] else (n + 1) :: ordered rr (n + 3) item)]) (st_visited s))).
  Proof.
    intros n. unfold repeatable_optional_rule, new_rule, define, put, get, alloc, bindM, ret. cbn [st_heap st_visited map]. fold n.
    rewrite !app_length, <- !app_assoc. cbn [app length]. fold n.
    replace (n + 1 + 1) with (n + 2) by lia. replace (n + 2 + 1) with (n + 3) by lia. replace (n + 3 + 1) with (n + 4) by lia.
    set (o := OOr (if ro then _ else _)).
    assert (E : nth_error (st_heap s ++ [OForward None; OEmpty; OProd [TRule item; TRule n] 0; ORule [n + 2]; o]) (n + 4) = Some o) by apply nth_grow.
    rewrite E. unfold o at 1. cbn [is_forward]. cbn [st_heap st_visited]. unfold n. rewrite setitem_app. reflexivity.
  Qed.
  Lemma repeatable_optional_made item rr ro s r s' : inv s -> part (st_heap s) false item -> repeatable_optional_rule item rr ro s = Some (Ok (r, s')) ->
    made s item r s' (fun l => any l rr ro).
  Proof.
    intros I Pi H. rewrite repeatable_optional_effect in H. injection H as <- <-. set (n := length (st_heap s)).
    set (o := OOr (if ro then _ else _)). set (t := [OForward (Some (n + 4)); OEmpty; OProd [TRule item; TRule n] 0; ORule [n + 2]; o]).
    assert (N0 : part (st_heap s ++ t) false n) by (rewrite <- (Nat.add_0_r n); apply (new_part s t 0 _ false I eq_refl eq_refl)).
    assert (N1 : part (st_heap s ++ t) false (n + 1)) by (apply (new_part s t 1 _ false I eq_refl eq_refl)).
    assert (N2 : part (st_heap s ++ t) true (n + 2)) by (apply (new_part s t 2 _ true I eq_refl eq_refl)).
    assert (N3 : part (st_heap s ++ t) false (n + 3)) by (apply (new_part s t 3 _ false I eq_refl eq_refl)).
    assert (N4 : part (st_heap s ++ t) false (n + 4)) by (apply (new_part s t 4 _ false I eq_refl eq_refl)).
    assert (Ni : part (st_heap s ++ t) false item) by (apply part_app, Pi).
    assert (E0 : nth_error (st_heap s ++ t) n = Some (OForward (Some (n + 4)))) by apply nth_new.
    assert (T0 : old n = false) by (rewrite <- (Nat.add_0_r n); apply temp_transparent, I).
    constructor; cbn [st_heap].
    - exists t. reflexivity.
    - apply grow; [exact I|]. intros x [<-|[<-|[<-|[<-|[<-|[]]]]]].
      + split; [apply produced_forward|]. split; [exact Logic.I|]. intros c [<-|[]]. exact N4.
      + split; [apply produced_empty|]. split; [exact Logic.I|]. intros c [].
      + split; [apply produced_prod|]. split; [left; reflexivity|]. intros c [<-|[<-|[]]]; assumption.
      + split; [apply produced_rule|]. split; [exact Logic.I|]. intros c [<-|[]]. exact N2.
      + split; [apply produced_or|]. split; [exact Logic.I|]. intros c Hc. unfold o in Hc. cbn [children] in Hc. apply in_three in Hc as [->|[->| ->]]; assumption.
    - exact N0.
    - intros kd. apply (repeatable_optional_words pipe_bnf bnf_lines old (st_heap s ++ t) item n (n + 1) (n + 2) (n + 3) (n + 4) rr ro); auto; apply nth_grow.
    - intros q. apply (repeatable_optional_uses old (st_heap s ++ t) item n (n + 1) (n + 2) (n + 3) (n + 4) rr ro); auto; apply nth_grow.
  Qed.

  Lemma optional_made item rev s r s' : inv s -> part (st_heap s) false item -> optional_rule item rev s = Some (Ok (r, s')) ->
    made s item r s' (fun l => maybe l rev).
  Proof.
    intros I Pi H. unfold optional_rule in H. apply bind_ok in H as (a & s1 & H1 & H).
    destruct (alloc_ok s OEmpty a s1 I produced_empty Logic.I (fun c H => match H with end) H1) as (X1 & I1 & E1 & P1).
    destruct (alloc_ok s1 (OOr (ordered rev a item)) r s' I1 (produced_or _) Logic.I) as (X2 & I2 & E2 & P2); auto.
    { intros c Hc. cbn [children] in Hc. apply in_ordered in Hc as [->| ->]; [exact P1|apply (part_ext s s1); assumption]. }
    assert (Ea := ext_get s1 s' a _ X2 E1).
    constructor; auto.
    - eapply ext_trans; eassumption.
    - intros kd. eapply same_trans; [apply (or_words pipe_bnf bnf_lines old _ kd r a item rev E2)|]. intros w. unfold maybe. split.
      + intros [(u & Hu & ->)|(u & Hu & ->)]; [left|right; eauto]. apply (open_words_obj pipe_bnf bnf_lines kd old _ a _ Ea eq_refl) in Hu. cbn in Hu. subst. reflexivity.
      + intros [->|(u & Hu & ->)]; [left|right; eauto]. exists []. split; [|reflexivity]. apply (open_words_obj pipe_bnf bnf_lines kd old _ a _ Ea eq_refl). reflexivity.
    - intros q. rewrite (or_uses old _ r a item rev q E2). rewrite (uses_obj old _ a _ q Ea eq_refl). split; [intros [(c & [] & _)|K]; exact K|auto].
  Qed.

  (** Later allocations change neither the rule nor its item. *)
  Lemma made_more s item r s1 s' L : (forall l l', same l l' -> same (L l) (L l')) -> part (st_heap s) false item -> made s item r s1 L -> inv s' -> ext s1 s' -> made s item r s' L.
  Proof.
    intros Lx Pi [X I P W U] I' X'. assert (Di : dom (st_heap s1) item) by (apply (part_ext s s1 false item X Pi)).
    assert (Li : like2 pipe_bnf bnf_lines old (st_heap s1) item old (st_heap s') item) by (destruct X' as [t ->]; eapply like_app; [apply I|exact Di]).
    assert (Lr : like2 pipe_bnf bnf_lines old (st_heap s1) r old (st_heap s') r) by (destruct X' as [t ->]; eapply like_app; [apply I|apply P]).
    constructor.
    - eapply ext_trans; eassumption.
    - exact I'.
    - apply (part_ext s1 s'); assumption.
    - intros kd. eapply same_trans; [apply same_sym, Lr|]. eapply same_trans; [apply W|]. apply Lx, Li.
    - intros q. rewrite <- (proj2 Lr q), <- (proj2 Li q). apply U.
  Qed.
  Lemma same_included (l l' : @language pred) : same l l' <-> included l l' /\ included l' l.
  Proof. split; [intros H; split; intros w; apply H|intros [A B] w; split; [apply A|apply B]]. Qed.
  Lemma many_same l l' rev : same (pred:=pred) l l' -> same (many l rev) (many l' rev).
  Proof. rewrite !same_included. intros [A B]. split; apply many_mono; assumption. Qed.
  Lemma at_most_same l l' rev n : same (pred:=pred) l l' -> same (at_most l rev n) (at_most l' rev n).
  Proof. rewrite !same_included. intros [A B]. split; apply at_most_mono; assumption. Qed.
  Lemma times_same l l' m m' n : same (pred:=pred) l l' -> same m m' -> same (times l m n) (times l' m' n).
  Proof. rewrite !same_included. intros [A B] [A' B']. split; apply times_mono; assumption. Qed.

  Lemma max_bound_made item rev count : forall s r s', inv s -> part (st_heap s) false item -> max_bound item count rev s = Some (Ok (r, s')) ->
    made s item r s' (fun l => at_most l rev count).
  Proof.
    induction count as [|[|count] IH]; intros s r s' I Pi H; [discriminate| |].
    - cbn [max_bound] in H. apply ret_ok in H as [-> ->]. constructor; auto.
      + apply ext_refl.
      + intros kd w. split; [intros K; constructor; exact K|intros K; inversion K; assumption].
      + reflexivity.
    - change (bindM (max_bound item (S count) rev) (fun rest => bindM (new_rule [item; rest]) (fun a => alloc (OOr (ordered rev a item)))) s = Some (Ok (r, s'))) in H.
      apply bind_ok in H as (rest & s1 & H1 & H). apply bind_ok in H as (a & s2 & H2 & H).
      assert (M1 := IH s rest s1 I Pi H1). assert (I1 := made_inv _ _ _ _ _ M1). assert (X1 := made_ext _ _ _ _ _ M1).
      assert (Pi1 := part_ext s s1 false item X1 Pi).
      destruct (new_rule_ok s1 [item; rest] a s2 I1) as (X2 & I2 & Pa & q & Ea & Eq); auto; [constructor; [exact Pi1|constructor; [apply M1|constructor]]|].
      assert (Pi2 := part_ext s1 s2 false item X2 Pi1).
      destruct (alloc_ok s2 (OOr (ordered rev a item)) r s' I2 (produced_or _) Logic.I) as (X3 & I3 & E3 & P3); auto.
      { intros c Hc. cbn [children] in Hc. apply in_ordered in Hc as [->| ->]; assumption. }
      assert (X13 : ext s1 s') by (eapply ext_trans; eassumption).
      assert (M3 := made_more s item rest s1 s' _ (fun l l' => at_most_same l l' rev (S count)) Pi M1 I3 X13).
      assert (Ea' := ext_get s2 s' a _ X3 Ea). assert (Eq' := ext_get s2 s' q _ X3 Eq).
      constructor; auto.
      + eapply ext_trans; eassumption.
      + intros kd. eapply same_trans; [apply (or_words pipe_bnf bnf_lines old _ kd r a item rev E3)|].
        assert (Wa := pair_words pipe_bnf bnf_lines old _ item rest q a Eq' Ea' kd). assert (Wr := made_words _ _ _ _ _ M3 kd).
        intros w. split.
        * intros [(u & Hu & ->)|(u & Hu & ->)]; [|constructor; exact Hu]. apply Wa in Hu as (x & y & Hx & Hy & ->). constructor; [exact Hx|apply Wr, Hy].
        * intros K. inversion K as [|? u Hu|? u v Hu Hv]; subst; [right; eauto|left]. eexists. split; [|reflexivity]. apply Wa. exists u, v. split; [exact Hu|]. split; [apply Wr, Hv|reflexivity].
      + intros x. rewrite (or_uses old _ r a item rev x E3), (pair_uses old _ item rest q a Eq' Ea' x), (made_uses _ _ _ _ _ M3 x). tauto.
  Qed.
  Lemma map_repeat {A B} (f : A -> B) x k : map f (repeat x k) = repeat (f x) k.
  Proof. induction k; cbn; congruence. Qed.
  Lemma times_made s item last s1 k r s' L : (forall l l', same l l' -> same (L l) (L l')) -> part (st_heap s) false item -> made s item last s1 L ->
    new_rule (repeat item k ++ [last]) s1 = Some (Ok (r, s')) -> made s item r s' (fun l => times l (L l) k).
  Proof.
    intros Lx Pi M1 H. assert (I1 := made_inv _ _ _ _ _ M1). assert (X1 := made_ext _ _ _ _ _ M1). assert (Pi1 := part_ext s s1 false item X1 Pi).
    destruct (new_rule_ok s1 (repeat item k ++ [last]) r s' I1) as (X2 & I2 & Pr & q & Er & Eq); auto.
    { apply Forall_app. split; [apply Forall_forall; intros c Hc; apply repeat_spec in Hc as ->; exact Pi1|constructor; [apply M1|constructor]]. }
    assert (M2 := made_more s item last s1 s' L Lx Pi M1 I2 X2).
    constructor; auto.
    - eapply ext_trans; eassumption.
    - intros kd. eapply same_trans; [apply (new_rule_words pipe_bnf bnf_lines old _ kd r q _ Er Eq)|]. rewrite map_app, map_repeat. cbn [map].
      eapply same_trans; [apply sequence_times|]. apply times_same; [apply same_refl|apply M2].
    - intros x. rewrite (new_rule_uses old _ r q _ x Er Eq). split.
      + intros (c & Hc & U). apply in_app_or in Hc as [Hc|[<-|[]]]; [apply repeat_spec in Hc as ->; exact U|apply M2, U].
      + intros U. exists last. split; [apply in_or_app; right; left; reflexivity|apply M2, U].
  Qed.
End Alloc.

Section Methods.
  Context {pred pipe bnf : Type}.
  Notation obj := (obj pred pipe bnf).
  Notation heap := (heap pred pipe bnf).
  Notation state := (state pred pipe bnf).
  Variable pipe_bnf : pipe -> res bnf.
  Variable bnf_lines : bnf -> list (str * list pred).
  Notation open_words := (open_words pipe_bnf bnf_lines).
  Notation method_ok allowed produced special := (method_ok pipe_bnf bnf_lines (allowed : obj -> bool) produced special).
  Lemma and_l a b : a && b = true -> a = true. Proof. destruct a; auto. Qed.

  Lemma no_quant_plain (o : obj) : no_quant o = true -> plain o = true. Proof. apply and_l. Qed.
  Lemma no_or_quant (o : obj) : no_or o = true -> no_quant o = true. Proof. apply and_l. Qed.
  Lemma no_empty_or (o : obj) : no_empty o = true -> no_or o = true. Proof. apply and_l. Qed.

  (** ** ReplaceExtended *)
  Lemma quant_keeps n0 G s p (o : obj) c s1 r s' L :
    inv pipe_bnf bnf_lines plain no_quant nothing n0 G s -> dom n0 G (st_heap s) p -> nth_error (st_heap s) p = Some o -> is_quant o = true -> children o = [c] ->
    forall item, ext s s1 -> pair pipe_bnf bnf_lines no_quant nothing n0 G (st_heap s1) c item -> inv pipe_bnf bnf_lines plain no_quant nothing n0 G s1 ->
    (forall l l', same l l' -> same (L l) (L l')) ->
    (forall kd (D : nat -> language), same (denotes pipe_bnf bnf_lines kd D o) (L (D c))) ->
    made pipe_bnf bnf_lines plain no_quant n0 G s1 item r s' L -> keeps pipe_bnf bnf_lines plain no_quant nothing n0 G s p r s'.
  Proof.
    intros I D E Q Ch item X P I1 Lx Ld Mk. assert (X2 := made_ext _ _ _ _ _ _ _ _ _ _ _ Mk). assert (I2 := made_inv _ _ _ _ _ _ _ _ _ _ _ Mk).
    assert (X02 : ext s s') by (eapply ext_trans; eassumption).
    assert (Dc : dom n0 G (st_heap s) c) by (apply (child_dom pipe_bnf bnf_lines plain no_quant nothing n0 G s p o c I D E); rewrite Ch; left; reflexivity).
    assert (P2 : pair pipe_bnf bnf_lines no_quant nothing n0 G (st_heap s') c item) by (apply (ext_pair pipe_bnf bnf_lines plain no_quant nothing n0 G s1 s'); [exact I1|exact X2|apply (ext_dom n0 G s s1 c X Dc)|exact P]).
    split; [exact X02|]. split; [exact I2|]. destruct (made_part _ _ _ _ _ _ _ _ _ _ _ Mk) as (Dr & Cr & orr & Er & Pr).
    assert (E2 := ext_get s s' p o X02 E). assert (F : is_forward o = false) by (destruct o; auto; discriminate).
    constructor.
    - exact Dr.
    - exact Cr.
    - intros o1 E1. rewrite E2 in E1. injection E1 as <-. exists orr. split; [exact Er|]. split; [|reflexivity]. rewrite Pr. destruct o; auto; discriminate.
    - split.
      + intros kd. eapply same_trans; [apply (open_words_obj pipe_bnf bnf_lines kd (old n0) _ p o E2 F)|]. eapply same_trans; [apply Ld|].
        eapply same_trans; [|apply same_sym, (made_words _ _ _ _ _ _ _ _ _ _ _ Mk kd)]. apply Lx. apply (pair_old _ _ _ _ _ _ _ _ _ P2).
      + intros q. rewrite (made_uses _ _ _ _ _ _ _ _ _ _ _ Mk q). rewrite (uses_obj (old n0) _ p o q E2) by (rewrite F; reflexivity). rewrite Ch.
        rewrite <- (proj2 (pair_old _ _ _ _ _ _ _ _ _ P2) q). split; [intros (x & [<-|[]] & U); exact U|intros U; exists c; split; [left; reflexivity|exact U]].
    - intros [N|(o1 & E1 & A1 & P1)].
      + destruct (inv_new _ _ _ _ _ _ (inv_heap _ _ _ _ _ _ _ _ I2) p o N E2) as [K _]. unfold no_quant in K. rewrite Q in K. rewrite andb_false_r in K. discriminate.
      + rewrite E2 in E1. injection E1 as <-. destruct o; discriminate.
  Qed.
  Lemma replace_extended_ok n0 G : method_ok plain no_quant nothing n0 G replace_extended_method.
  Proof.
    intros V OK p o s r s' I D E H.
    destruct (inv_graph _ _ _ _ _ _ (inv_heap _ _ _ _ _ _ _ _ I) p D) as (o1 & E1 & Pl & _ & Co). rewrite E in E1. injection E1 as <-.
    destruct (is_quant o) eqn:Q.
    - assert (Ch : exists c, children o = [c]) by (destruct o; try discriminate; cbn; eauto). destruct Ch as [c Ch].
      assert (Dc : dom n0 G (st_heap s) c) by (apply (child_dom pipe_bnf bnf_lines plain no_quant nothing n0 G s p o c I D E); rewrite Ch; left; reflexivity).
      assert (Hc : exists item s1, V c s = Some (Ok (item, s1)) /\
                 match o with
                 | ORepeatable _ rev => repeatable_rule item rev s1
                 | OOptional _ rev => optional_rule item rev s1
                 | ORepOpt _ rr ro => repeatable_optional_rule item rr ro s1
                 | OMin _ min rev => bindM (repeatable_rule item rev) (fun last => new_rule (repeat item (min - 1) ++ [last])) s1
                 | OMax _ max rev => max_bound item max rev s1
                 | OMinMax _ min max rev => bindM (max_bound item (max - min + 1) rev) (fun last => new_rule (repeat item (min - 1) ++ [last])) s1
                 | _ => None
                 end = Some (Ok (r, s'))).
      { destruct o; try discriminate; cbn in Ch; injection Ch as <-; cbn [replace_extended_method] in H; apply bind_ok in H as (item & s1 & H1 & H); exists item, s1; auto. }
      destruct Hc as (item & s1 & H1 & H2). destruct (OK c s item s1 I Dc H1) as (X & I1 & P).
      destruct (Co c) as (_ & oc & Ec & Kc & _); [rewrite Ch; left; reflexivity|].
      assert (Pi : part no_quant n0 G (st_heap s1) false item).
      { assert (K := pair_part pipe_bnf bnf_lines no_quant n0 G _ c item oc P (ext_get s s1 c oc X Ec)). rewrite Kc in K. destruct o; try discriminate; exact K. }
      destruct o as [ps|rs|r0 rev|r0 rev|r0 rr ro|r0 m rev|r0 m rev|r0 m n rev|r0 n|r0 i|r0 rel|d| |pl|ps a|b ps a|ts m| |k ps]; try discriminate; cbn in Ch; injection Ch as ->.
      + eapply (quant_keeps n0 G s p _ c s1 r s' (fun l => maybe l rev) I D E eq_refl eq_refl item X P I1).
        * intros l l'. rewrite !same_included. intros [A B]. split; apply maybe_mono; assumption.
        * intros kd Dn. apply same_refl.
        * eapply optional_made; eauto using no_quant_plain.
      + eapply (quant_keeps n0 G s p _ c s1 r s' (fun l => many l rev) I D E eq_refl eq_refl item X P I1).
        * intros l l'. apply many_same.
        * intros kd Dn. apply same_refl.
        * eapply repeatable_made; eauto using no_quant_plain.
      + eapply (quant_keeps n0 G s p _ c s1 r s' (fun l => any l rr ro) I D E eq_refl eq_refl item X P I1).
        * intros l l'. rewrite !same_included. intros [A B]. split; apply any_mono; assumption.
        * intros kd Dn. apply same_refl.
        * eapply repeatable_optional_made; eauto using no_quant_plain.
      + apply bind_ok in H2 as (last & s2 & H2 & H3).
        eapply (quant_keeps n0 G s p _ c s1 r s' (fun l => times l (many l rev) (m - 1)) I D E eq_refl eq_refl item X P I1).
        * intros l l' S. apply times_same; [exact S|apply many_same, S].
        * intros kd Dn. apply same_refl.
        * eapply (times_made pipe_bnf bnf_lines plain no_quant no_quant_plain n0 G) with (L := fun l => many l rev); eauto; [intros l l'; apply many_same|].
          eapply repeatable_made; eauto using no_quant_plain.
      + eapply (quant_keeps n0 G s p _ c s1 r s' (fun l => at_most l rev m) I D E eq_refl eq_refl item X P I1).
        * intros l l'. apply at_most_same.
        * intros kd Dn. apply same_refl.
        * eapply max_bound_made; eauto using no_quant_plain.
      + apply bind_ok in H2 as (last & s2 & H2 & H3).
        eapply (quant_keeps n0 G s p _ c s1 r s' (fun l => times l (at_most l rev (n - m + 1)) (m - 1)) I D E eq_refl eq_refl item X P I1).
        * intros l l' S. apply times_same; [exact S|apply at_most_same, S].
        * intros kd Dn. apply same_refl.
        * eapply (times_made pipe_bnf bnf_lines plain no_quant no_quant_plain n0 G) with (L := fun l => at_most l rev (n - m + 1)); eauto; [intros l l'; apply at_most_same|].
          eapply max_bound_made; eauto using no_quant_plain.
    - assert (Hb : base_method V p o s = Some (Ok (r, s'))) by (destruct o; try discriminate; exact H).
      eapply base_ok; eauto using no_quant_plain.
      + intros R o' C. destruct (copy_plain R o o' C) as [A B]. split; [|reflexivity]. unfold no_quant. rewrite A, B, Q, Pl. reflexivity.
      + intros _. unfold no_quant. rewrite Pl, Q. reflexivity.
  Qed.

  (** ** One production of one term *)
  Lemma through opaque (h : heap) p o c : nth_error h p = Some o -> is_forward o = false -> children o = [c] ->
    (forall kd (D : nat -> language), same (denotes pipe_bnf bnf_lines kd D o) (D c)) -> like pipe_bnf bnf_lines opaque h p c.
  Proof.
    intros E F Ch S. split.
    - intros kd. eapply same_trans; [apply (open_words_obj pipe_bnf bnf_lines kd opaque h p o E F)|]. apply S.
    - intros q. rewrite (uses_obj opaque h p o q E) by (rewrite F; reflexivity). rewrite Ch.
      split; [intros (x & [<-|[]] & U); exact U|intros U; exists c; split; [left; reflexivity|exact U]].
  Qed.
  Lemma through_prod opaque h q r : nth_error h q = Some (OProd [TRule r] 0) -> like pipe_bnf bnf_lines opaque h q r.
  Proof. intros E. apply (through opaque h q _ r E eq_refl eq_refl). intros kd D. apply (sequence_one 0 (D r) eq_refl). Qed.
  Lemma through_rule opaque h r q : nth_error h r = Some (ORule [q]) -> like pipe_bnf bnf_lines opaque h r q.
  Proof. intros E. apply (through opaque h r _ q E eq_refl eq_refl). intros kd D. apply alternatives_one. Qed.

  (** ** ReplaceOr *)
  Lemma forall2_same (R : nat -> nat -> Prop) (D : nat -> language) l l' : (forall x y, R x y -> same (pred:=pred) (D x) (D y)) -> Forall2 R l l' ->
    same (alternatives (map D l)) (alternatives (map D l')).
  Proof.
    intros H F. apply same_included. split; apply alternatives_mono.
    - apply (forall2_included R); [|exact F]. intros x y K w. apply (H x y K).
    - apply (forall2_included (fun y x => R x y)); [|apply forall2_flip, F]. intros x y K w. apply (H y x K).
  Qed.
  Lemma Forall2_impl {A B} (P Q : A -> B -> Prop) l l' : (forall x y, P x y -> Q x y) -> Forall2 P l l' -> Forall2 Q l l'.
  Proof. intros H F. induction F; constructor; auto. Qed.
  Lemma forall2_in {A B} (R : A -> B -> Prop) l l' x : Forall2 R l l' -> In x l -> exists y, In y l' /\ R x y.
  Proof.
    induction 1 as [|a b l l' K F IH]; intros Hx; [destruct Hx|]. destruct Hx as [->|Hx]; [exists b; split; [left; auto|auto]|].
    destruct (IH Hx) as (y & Hy & Ky). exists y. split; [right; auto|auto].
  Qed.
  Lemma or_rule_like opaque h p rs n ps : nth_error h p = Some (OOr rs) -> nth_error h n = Some (ORule ps) -> Forall2 (like pipe_bnf bnf_lines opaque h) rs ps ->
    like pipe_bnf bnf_lines opaque h p n.
  Proof.
    intros E E' F. apply (obj_like pipe_bnf bnf_lines opaque h p _ n _ E E' eq_refl eq_refl).
    - intros kd. cbn [RuleSpec.denotes]. apply (forall2_same (like pipe_bnf bnf_lines opaque h)); [|exact F]. intros x y [K _]. apply K.
    - intros q. cbn [children]. split; intros (c & Hc & U).
      + destruct (forall2_in _ _ _ c F Hc) as (y & Hy & [_ K]). exists y. split; [exact Hy|apply K, U].
      + destruct (forall2_in _ _ _ c (forall2_flip _ _ _ F) Hc) as (y & Hy & [_ K]). exists y. split; [exact Hy|apply K, U].
  Qed.
  Lemma replace_or_ok n0 G : method_ok no_quant no_or nothing n0 G replace_or_method.
  Proof.
    intros V OK p o s r s' I D E H.
    destruct (inv_graph _ _ _ _ _ _ (inv_heap _ _ _ _ _ _ _ _ I) p D) as (o1 & E1 & Pl & _ & Co). rewrite E in E1. injection E1 as <-.
    assert (Base : (forall rs, o <> OOr rs) -> base_method V p o s = Some (Ok (r, s')) -> keeps pipe_bnf bnf_lines no_quant no_or nothing n0 G s p r s').
    { intros N K. eapply base_ok; eauto using no_or_quant, no_quant_plain.
      - intros R o' C. split; [|reflexivity]. destruct C; auto. exfalso. eapply N. reflexivity.
      - intros A. unfold no_or. rewrite Pl. destruct o; auto. }
    destruct o as [ps|rs|r0 rev|r0 rev|r0 rr ro|r0 m rev|r0 m rev|r0 m n rev|r0 n|r0 i|r0 rel|d| |pl|ps a|b ps a|ts m| |k ps]; try (apply Base; [discriminate|exact H]).
    clear Base. cbn [replace_or_method] in H. apply bind_ok in H as (qs & s1 & H1 & H).
    set (Post := fun (h : heap) (x q : nat) => part no_or n0 G h true q /\ like pipe_bnf bnf_lines (old n0) h x q /\ (clean no_or n0 h x -> like pipe_bnf bnf_lines all h x q)).
    assert (K : ext s s1 /\ inv pipe_bnf bnf_lines no_quant no_or nothing n0 G s1 /\ Forall2 (Post (st_heap s1)) rs qs).
    { refine (mapMM_ok pipe_bnf bnf_lines no_quant no_or nothing n0 G _ (fun h x => dom n0 G h x /\ exists ox, nth_error h x = Some ox /\ is_prod ox = false) Post _ _ _ rs s qs s1 I _ H1).
      - intros h t x (Dx & ox & Ex & Px). split; [apply dom_app, Dx|]. exists ox. split; [apply nth_old, Ex|exact Px].
      - intros h t x q Ih (Dx & _) (P & L & La). split; [apply part_app, P|]. split.
        + eapply like_app2; try eassumption. apply P.
        + intros C. eapply like_app2; try eassumption; [apply P|]. apply La. destruct Dx as [Lx _]. apply (clean_app_inv no_or n0 h t x Lx C).
      - intros x sa q sb Ia (Dx & ox & Ex & Px) Hx.
        apply bind_ok in Hx as (x' & sc & Hv & Ha). destruct (OK x sa x' sc Ia Dx Hv) as (Xa & Ic & Pc).
        assert (Pp := pair_part pipe_bnf bnf_lines no_or n0 G _ x x' ox Pc (ext_get sa sc x ox Xa Ex)). rewrite Px in Pp.
        destruct (alloc_ok pipe_bnf bnf_lines no_quant no_or no_or_quant n0 G sc (OProd [TRule x'] 0) q sb Ic eq_refl (or_introl eq_refl)) as (Xb & Ib & Eq & Pq).
        { intros c [<-|[]]. exact Pp. }
        { exact Ha. }
        assert (Pb := ext_pair pipe_bnf bnf_lines no_quant no_or nothing n0 G sc sb x x' Ic Xb (ext_dom n0 G sa sc x Xa Dx) Pc).
        split; [eapply ext_trans; eassumption|]. split; [exact Ib|]. split; [exact Pq|]. split.
        + eapply like_trans; [apply (pair_old _ _ _ _ _ _ _ _ _ Pb)|apply like_sym, through_prod, Eq].
        + intros C. eapply like_trans; [apply (pair_all _ _ _ _ _ _ _ _ _ Pb C)|apply like_sym, through_prod, Eq].
      - apply Forall_forall. intros c Hc. destruct (Co c Hc) as (Dc & oc & Ec & Pc & _). split; [exact Dc|]. exists oc. auto. }
    destruct K as (X1 & I1 & F1).
    destruct (alloc_ok pipe_bnf bnf_lines no_quant no_or no_or_quant n0 G s1 (ORule qs) r s' I1 eq_refl Logic.I) as (X2 & I2 & Er & Pr).
    { intros c Hc. destruct (forall2_in _ _ _ c (forall2_flip _ _ _ F1) Hc) as (y & _ & (K & _)). exact K. }
    { exact H. }
    assert (X02 : ext s s') by (eapply ext_trans; eassumption). assert (E2 := ext_get s s' p _ X02 E).
    assert (F2 : Forall2 (fun c q => Post (st_heap s') c q /\ In c rs) rs qs).
    { assert (K : forall c, In c rs -> dom n0 G (st_heap s1) c) by (intros c Hc; apply (ext_dom n0 G s s1 c X1), (Co c Hc)).
      clear - F1 X2 I1 K. assert (Z : Forall2 (fun c q => Post (st_heap s') c q) rs qs).
      { induction F1 as [|c q l l' (P & L & La) F IH]; constructor; [|apply IH; intros c' Hc'; apply K; right; exact Hc'].
        assert (Dc := K c (or_introl eq_refl)). split; [apply (part_ext no_or n0 G s1 s' true q X2 P)|]. destruct X2 as [t ->]. split.
        - eapply like_app2; try eassumption; [apply I1|apply P].
        - intros C. eapply like_app2; try eassumption; [apply I1|apply P|]. apply La. destruct Dc as [Lx _]. apply (clean_app_inv no_or n0 _ t c Lx C). }
      clear - Z. induction Z; constructor; [split; [assumption|left; reflexivity]|]. eapply Forall2_impl; [|exact IHZ]. cbn. tauto. }
    split; [exact X02|]. split; [exact I2|]. destruct Pr as (Dr & Cr & _). constructor.
    - exact Dr.
    - exact Cr.
    - intros o1 E1. rewrite E2 in E1. injection E1 as <-. eexists. split; [exact Er|]. auto.
    - apply (or_rule_like (old n0) _ p rs r qs E2 Er). eapply Forall2_impl; [|exact F2]. intros c q ((_ & L & _) & _). exact L.
    - intros C. apply (or_rule_like all _ p rs r qs E2 Er). eapply Forall2_impl; [|exact F2]. intros c q ((_ & _ & La) & Hc). apply La.
      apply (proj2 (inv_new _ _ _ _ _ _ (inv_heap _ _ _ _ _ _ _ _ I2) p _ (not_atomic_clean no_or n0 _ p _ E2 eq_refl C) E2) c Hc).
  Qed.

  (** ** ReplaceEmpty *)
  Lemma replace_empty_ok n0 G : method_ok no_or no_empty nothing n0 G replace_empty_method.
  Proof.
    intros V OK p o s r s' I D E H.
    destruct (inv_graph _ _ _ _ _ _ (inv_heap _ _ _ _ _ _ _ _ I) p D) as (o1 & E1 & Pl & _ & Co). rewrite E in E1. injection E1 as <-.
    assert (Base : o <> OEmpty -> base_method V p o s = Some (Ok (r, s')) -> keeps pipe_bnf bnf_lines no_or no_empty nothing n0 G s p r s').
    { intros N K. eapply base_ok; eauto using no_or_quant, no_quant_plain, no_empty_or.
      - intros R o' C. split; [|reflexivity]. destruct C; auto.
      - intros A. unfold no_empty. rewrite Pl. destruct o; auto. }
    destruct o as [ps|rs|r0 rev|r0 rev|r0 rr ro|r0 m rev|r0 m rev|r0 m n rev|r0 n|r0 i|r0 rel|d| |pl|ps a|b ps a|ts m| |k ps]; try (apply Base; [discriminate|exact H]).
    clear Base. cbn [replace_empty_method] in H. apply bind_ok in H as (q & s1 & H1 & H).
    destruct (alloc_ok pipe_bnf bnf_lines no_or no_empty no_empty_or n0 G s OEmptyProd q s1 I eq_refl Logic.I (fun c H => match H with end) H1) as (X1 & I1 & Eq & Pq).
    destruct (alloc_ok pipe_bnf bnf_lines no_or no_empty no_empty_or n0 G s1 (ORule [q]) r s' I1 eq_refl Logic.I) as (X2 & I2 & Er & Pr).
    { intros c [<-|[]]. exact Pq. }
    { exact H. }
    assert (X02 : ext s s') by (eapply ext_trans; eassumption). assert (E2 := ext_get s s' p _ X02 E). assert (Eq2 := ext_get s1 s' q _ X2 Eq).
    assert (L : forall opaque, like pipe_bnf bnf_lines opaque (st_heap s') p r).
    { intros opaque. eapply like_trans; [|apply like_sym, through_rule, Er]. apply (obj_like pipe_bnf bnf_lines opaque _ p _ q _ E2 Eq2 eq_refl eq_refl); [intros kd; apply same_refl|].
      intros x. reflexivity. }
    split; [exact X02|]. split; [exact I2|]. destruct Pr as (Dr & Cr & _). constructor; auto.
    intros o1 E1. rewrite E2 in E1. injection E1 as <-. eexists. split; [exact Er|]. auto.
  Qed.

  (** ** Flatten *)
  Definition term_uses opaque (h : heap) (t : term pred) (q : nat) : Prop := match t with TRule r => uses opaque h r q | TPred _ => False end.
  Definition term_like opaque (h : heap) (t t' : term pred) : Prop :=
    (forall kd, same (denotes_term (open_words kd opaque h) t) (denotes_term (open_words kd opaque h) t')) /\
    (forall q, term_uses opaque h t q <-> term_uses opaque h t' q).
  Lemma term_like_trans opaque h a b c : term_like opaque h a b -> term_like opaque h b c -> term_like opaque h a c.
  Proof. intros [A B] [A' B']. split; [intros kd; eapply same_trans; [apply A|apply A']|intros q; rewrite B; apply B']. Qed.
  Lemma term_like_refl opaque h a : term_like opaque h a a.
  Proof. split; [intros kd; apply same_refl|reflexivity]. Qed.
  Lemma like_term_like opaque h r r' : like pipe_bnf bnf_lines opaque h r r' -> term_like opaque h (TRule r) (TRule r').
  Proof. intros [A B]. split; assumption. Qed.
  Lemma rule_terms_uses opaque h ts q : (exists c, In c (rule_terms ts) /\ uses opaque h c q) <-> exists t, In t ts /\ term_uses opaque h t q.
  Proof.
    unfold rule_terms. split.
    - intros (c & Hc & U). apply in_flat_map in Hc as (t & Ht & K). exists t. split; [exact Ht|]. destruct t; [destruct K as [<-|[]]; exact U|destruct K].
    - intros ([r|p] & Ht & U); [|destruct U]. exists r. split; [|exact U]. apply in_flat_map. exists (TRule r). split; [exact Ht|left; reflexivity].
  Qed.
  (** A production of one term is the term. *)
  Lemma through_term opaque h r q t : nth_error h r = Some (ORule [q]) -> nth_error h q = Some (OProd [t] 0) -> term_like opaque h (TRule r) t.
  Proof.
    intros Er Eq. destruct (through_rule opaque h r q Er) as [A B]. split.
    - intros kd. eapply same_trans; [apply A|]. eapply same_trans; [apply (open_words_obj pipe_bnf bnf_lines kd opaque h q _ Eq eq_refl)|].
      cbn [RuleSpec.denotes map]. apply (sequence_one 0 _ eq_refl).
    - intros x. cbn [term_uses]. rewrite (B x), (uses_obj opaque h q _ x Eq eq_refl). cbn [children]. rewrite rule_terms_uses. split.
      + intros (t' & [<-|[]] & U). exact U.
      + intros U. exists t. split; [left; reflexivity|exact U].
  Qed.
  Lemma prod_like opaque h p ts n ts' main : nth_error h p = Some (OProd ts main) -> nth_error h n = Some (OProd ts' main) -> Forall2 (term_like opaque h) ts ts' ->
    like pipe_bnf bnf_lines opaque h p n.
  Proof.
    intros E E' F. apply (obj_like pipe_bnf bnf_lines opaque h p _ n _ E E' eq_refl eq_refl).
    - intros kd. cbn [RuleSpec.denotes]. apply same_included. split; apply sequence_mono.
      + apply (forall2_included (term_like opaque h)); [|exact F]. intros x y [K _] w. apply K.
      + apply (forall2_included (fun y x => term_like opaque h x y)); [|apply forall2_flip, F]. intros x y [K _] w. apply K.
    - intros q. cbn [children]. rewrite !rule_terms_uses. split; intros (c & Hc & U).
      + destruct (forall2_in _ _ _ c F Hc) as (y & Hy & [_ K]). exists y. split; [exact Hy|apply K, U].
      + destruct (forall2_in _ _ _ c (forall2_flip _ _ _ F) Hc) as (y & Hy & [_ K]). exists y. split; [exact Hy|apply K, U].
  Qed.

  Section Flatten.
    Variable n0 : nat.
    Variable G : nat -> Prop.
    Notation inv := (inv pipe_bnf bnf_lines no_empty no_empty nothing n0 G).
    Notation heap_inv := (heap_inv no_empty no_empty nothing n0 G).
    Notation visit_ok := (visit_ok pipe_bnf bnf_lines no_empty no_empty nothing n0 G).
    Notation part := (part no_empty n0 G).
    Notation clean := (clean no_empty n0).
    Notation dom := (dom n0 G).
    Definition pre (h : heap) (t : term pred) : Prop :=
      match t with TRule r => dom h r /\ exists o, nth_error h r = Some o /\ is_prod o = false | TPred _ => True end.
    Definition term_clean (h : heap) (t : term pred) : Prop := match t with TRule r => clean h r | TPred _ => True end.
    Definition post (h : heap) (t t' : term pred) : Prop :=
      match t' with TRule r => part h false r | TPred _ => True end /\ term_like (old n0) h t t' /\ (term_clean h t -> term_like all h t t').
    Lemma pre_app h t x : pre h x -> pre (h ++ t) x.
    Proof. destruct x as [r|p]; [|auto]. intros (D & o & E & P). split; [apply dom_app, D|]. exists o. split; [apply nth_old, E|exact P]. Qed.
    Lemma term_app opaque h t x : heap_inv h -> match x with TRule r => dom h r | TPred _ => True end ->
      (forall kd, same (denotes_term (open_words kd opaque h) x) (denotes_term (open_words kd opaque (h ++ t)) x)) /\
      (forall q, term_uses opaque h x q <-> term_uses opaque (h ++ t) x q).
    Proof.
      intros I D. destruct x as [r|p]; [|split; [intros kd; apply same_refl|reflexivity]]. apply (like_app pipe_bnf bnf_lines no_empty no_empty nothing n0 G opaque h t r I D).
    Qed.
    Lemma term_like_app opaque h t x y : heap_inv h -> match x with TRule r => dom h r | TPred _ => True end -> match y with TRule r => dom h r | TPred _ => True end ->
      term_like opaque h x y -> term_like opaque (h ++ t) x y.
    Proof.
      intros I Dx Dy [A B]. destruct (term_app opaque h t x I Dx) as [Ax Bx]. destruct (term_app opaque h t y I Dy) as [Ay By]. split.
      - intros kd. eapply same_trans; [apply same_sym, Ax|]. eapply same_trans; [apply A|apply Ay].
      - intros q. rewrite <- (Bx q), <- (By q). apply B.
    Qed.
    Lemma post_app h t x y : heap_inv h -> pre h x -> post h x y -> post (h ++ t) x y.
    Proof.
      intros I Px (P & L & La). assert (Dx : match x with TRule r => dom h r | TPred _ => True end) by (destruct x; [apply Px|auto]).
      assert (Dy : match y with TRule r => dom h r | TPred _ => True end) by (destruct y; [apply P|auto]).
      split; [destruct y; [apply part_app, P|auto]|]. split; [apply term_like_app; assumption|]. intros C. apply term_like_app; auto. apply La.
      destruct x as [r|p]; [|auto]. cbn in *. destruct Dx as [Lx _]. apply (clean_app_inv no_empty n0 h t r Lx C).
    Qed.
    Lemma in_graph s p o : inv s -> dom (st_heap s) p -> nth_error (st_heap s) p = Some o -> node no_empty nothing (st_heap s) (dom (st_heap s)) o.
    Proof. intros I D E. destruct (inv_graph _ _ _ _ _ _ (inv_heap _ _ _ _ _ _ _ _ I) p D) as (o' & E' & N). rewrite E in E'. injection E' as <-. exact N. Qed.
    (** What is under a rule with one production. *)
    Lemma under s r q oq : inv s -> dom (st_heap s) r -> nth_error (st_heap s) r = Some (ORule [q]) -> nth_error (st_heap s) q = Some oq ->
      dom (st_heap s) q /\ is_prod oq = true /\ node no_empty nothing (st_heap s) (dom (st_heap s)) oq /\ (clean (st_heap s) r -> clean (st_heap s) q).
    Proof.
      intros I D E Eq. destruct (in_graph s r _ I D E) as (_ & _ & C). destruct (C q (or_introl eq_refl)) as (Dq & o & Eo & P & _).
      rewrite Eq in Eo. injection Eo as <-. split; [exact Dq|]. split; [exact P|]. split; [apply (in_graph s q oq I Dq Eq)|].
      intros Cr. apply (proj2 (inv_new _ _ _ _ _ _ (inv_heap _ _ _ _ _ _ _ _ I) r _ (not_atomic_clean no_empty n0 _ r _ E eq_refl Cr) E)). left. reflexivity.
    Qed.
    Lemma flatten_term_ok V fuel : visit_ok V -> forall t s t' s', inv s -> pre (st_heap s) t -> flatten_term fuel V t s = Some (Ok (t', s')) ->
      ext s s' /\ inv s' /\ post (st_heap s') t t'.
    Proof.
      intros OK. induction fuel as [|fuel IH]; intros t s t' s' I P H; [discriminate|]. cbn [flatten_term] in H. destruct t as [r|p].
      2: { apply ret_ok in H as [-> ->]. split; [apply ext_refl|]. split; [exact I|]. split; [exact Logic.I|]. split; [apply term_like_refl|intros _; apply term_like_refl]. }
      apply bind_ok in H as (o & s1 & H1 & H). apply get_ok in H1 as [E ->]. destruct P as (D & o1 & E1 & Np). rewrite E in E1. injection E1 as <-.
      assert (Plain : visit_term V (TRule r) s = Some (Ok (t', s')) -> ext s s' /\ inv s' /\ post (st_heap s') (TRule r) t').
      { intros K. cbn [visit_term] in K. apply bind_ok in K as (r' & s2 & K1 & K). apply ret_ok in K as [-> ->].
        destruct (OK r s r' s2 I D K1) as (X & I2 & P2). split; [exact X|]. split; [exact I2|].
        assert (Pp := pair_part pipe_bnf bnf_lines no_empty n0 G _ r r' o P2 (ext_get s s2 r o X E)). rewrite Np in Pp.
        split; [exact Pp|]. split; [apply like_term_like, (pair_old _ _ _ _ _ _ _ _ _ P2)|]. intros C. apply like_term_like, (pair_all _ _ _ _ _ _ _ _ _ P2 C). }
      destruct o as [[|q [|q2 ps]]| | | | | | | | | | | | | | | | | |]; try (apply Plain; exact H).
      apply bind_ok in H as (oq & s1 & H1 & H). apply get_ok in H1 as [Eq ->]. destruct (under s r q oq I D E Eq) as (Dq & Pq & (Aq & Sq & Cq) & Cl).
      destruct (production_terms oq) as [|t1 [|t2 ts]] eqn:Pt; try (apply Plain; exact H).
      destruct oq as [| | | | | | | | | | | | | | | |ts main| |]; try discriminate. cbn in Pt. subst ts.
      assert (main = 0) by (destruct Sq as [K|K]; [exact K|cbn in K; lia]). subst main.
      assert (Pre1 : pre (st_heap s) t1).
      { destruct t1 as [r1|p1]; [|exact Logic.I]. destruct (Cq r1 (or_introl eq_refl)) as (D1 & o1 & E1 & P1 & _). split; [exact D1|]. exists o1. auto. }
      destruct (IH t1 s t' s' I Pre1 H) as (X & I1 & P1 & L1 & La1). split; [exact X|]. split; [exact I1|]. split; [exact P1|].
      assert (Er' := ext_get s s' r _ X E). assert (Eq' := ext_get s s' q _ X Eq). split.
      - eapply term_like_trans; [apply (through_term (old n0) _ r q t1 Er' Eq')|exact L1].
      - intros C. eapply term_like_trans; [apply (through_term all _ r q t1 Er' Eq')|]. apply La1. destruct t1 as [r1|p1]; [|exact Logic.I]. cbn [term_clean] in *.
        assert (Nr := not_atomic_clean no_empty n0 _ r _ Er' eq_refl C).
        assert (Cq' := proj2 (inv_new _ _ _ _ _ _ (inv_heap _ _ _ _ _ _ _ _ I1) r _ Nr Er') q (or_introl eq_refl)).
        assert (Nq := not_atomic_clean no_empty n0 _ q _ Eq' eq_refl Cq').
        apply (proj2 (inv_new _ _ _ _ _ _ (inv_heap _ _ _ _ _ _ _ _ I1) q _ Nq Eq') r1 (or_introl eq_refl)).
    Qed.
    Lemma flatten_ok fuel : RulePass.method_ok pipe_bnf bnf_lines no_empty no_empty nothing n0 G (flatten_method fuel).
    Proof.
      intros V OK p o s r s' I D E H. destruct (in_graph s p o I D E) as (Al & Sh & Co).
      assert (Base : (forall ts m, o <> OProd ts m) -> base_method V p o s = Some (Ok (r, s')) -> keeps pipe_bnf bnf_lines no_empty no_empty nothing n0 G s p r s').
      { intros N K. eapply base_ok; eauto.
        - apply no_quant_plain, no_or_quant, no_empty_or, Al.
        - intros R o' C. split; [|reflexivity]. destruct C; auto. }
      destruct o as [ps|rs|r0 rev|r0 rev|r0 rr ro|r0 m rev|r0 m rev|r0 m n rev|r0 n|r0 i|r0 rel|d| |pl|ps a|b ps a|ts m| |k ps]; try (apply Base; [discriminate|exact H]). clear Base.
      assert (Default : bindM (mapMM (flatten_term fuel V) ts) (fun ts' => alloc (OProd ts' m)) s = Some (Ok (r, s')) -> keeps pipe_bnf bnf_lines no_empty no_empty nothing n0 G s p r s').
      { intros K. apply bind_ok in K as (ts' & s1 & K1 & K).
        assert (Ps : Forall (pre (st_heap s)) ts).
        { apply Forall_forall. intros [c|x] Hc; [|exact Logic.I]. destruct (Co c (in_rule_terms c ts Hc)) as (Dc & oc & Ec & Pc & _). split; [exact Dc|]. exists oc. auto. }
        destruct (mapMM_ok pipe_bnf bnf_lines no_empty no_empty nothing n0 G (flatten_term fuel V) pre post pre_app post_app (fun x sa y sb Ia => flatten_term_ok V fuel OK x sa y sb Ia) ts s ts' s1 I Ps K1) as (X1 & I1 & F1).
        assert (Len : length ts' = length ts) by (clear - F1; induction F1; cbn; auto).
        destruct (alloc_ok pipe_bnf bnf_lines no_empty no_empty (fun _ e => e) n0 G s1 (OProd ts' m) r s' I1 eq_refl) as (X2 & I2 & Er & Pr).
        { cbn in *. rewrite Len. exact Sh. }
        { intros c Hc. cbn [children has_prods] in *. apply in_flat_map in Hc as (t & Ht & Kt). destruct (forall2_in _ _ _ t (forall2_flip _ _ _ F1) Ht) as (y & _ & (Pt & _)).
          destruct t as [x|x]; [destruct Kt as [<-|[]]; exact Pt|destruct Kt]. }
        { exact K. }
        assert (X02 : ext s s') by (eapply ext_trans; eassumption). assert (E2 := ext_get s s' p _ X02 E).
        assert (F2 : Forall2 (fun c q => post (st_heap s') c q /\ In c ts) ts ts').
        { assert (Ps1 : Forall (pre (st_heap s1)) ts) by (destruct X1 as [t ->]; revert Ps; apply Forall_impl; intros c; apply pre_app).
          assert (Z : Forall2 (post (st_heap s')) ts ts').
          { clear - F1 X2 I1 Ps1. destruct X2 as [t ->]. induction F1 as [|c q l l' P F IH]; constructor; inversion Ps1; subst; [apply post_app; [apply I1|assumption|exact P]|auto]. }
          clear - Z. induction Z; constructor; [split; [assumption|left; reflexivity]|]. eapply Forall2_impl; [|exact IHZ]. cbn. tauto. }
        split; [exact X02|]. split; [exact I2|]. destruct Pr as (Dr & Cr & _). constructor.
        - exact Dr.
        - exact Cr.
        - intros o1 E1. rewrite E2 in E1. injection E1 as <-. eexists. split; [exact Er|]. auto.
        - apply (prod_like (old n0) _ p ts r ts' m E2 Er). eapply Forall2_impl; [|exact F2]. intros c q ((_ & L & _) & _). exact L.
        - intros C. apply (prod_like all _ p ts r ts' m E2 Er). eapply Forall2_impl; [|exact F2]. intros c q ((_ & _ & La) & Hc). apply La.
          destruct c as [x|x]; [|exact Logic.I]. cbn.
          apply (proj2 (inv_new _ _ _ _ _ _ (inv_heap _ _ _ _ _ _ _ _ I2) p _ (not_atomic_clean no_empty n0 _ p _ E2 eq_refl C) E2) x). apply in_rule_terms, Hc. }
      cbn [flatten_method] in H. destruct ts as [|[r0|p0] [|t2 ts]]; try (apply Default; exact H).
      apply bind_ok in H as (o' & s1 & H1 & H). apply get_ok in H1 as [Er ->].
      destruct o' as [[|q [|q2 ps]]| | | | | | | | | | | | | | | | | |]; try (apply Default; exact H). clear Default.
      assert (m = 0) by (destruct Sh as [K|K]; [exact K|cbn in K; lia]). subst m.
      destruct (Co r0 (or_introl eq_refl)) as (D0 & o0 & E0 & P0 & _). rewrite Er in E0. injection E0 as <-.
      destruct (in_graph s r0 _ I D0 Er) as (_ & _ & C0). destruct (C0 q (or_introl eq_refl)) as (Dq & oq & Eq & Pq & _).
      destruct (OK q s r s' I Dq H) as (X & I2 & P2). split; [exact X|]. split; [exact I2|].
      assert (E2 := ext_get s s' p _ X E). assert (Er2 := ext_get s s' r0 _ X Er). assert (Eq2 := ext_get s s' q _ X Eq).
      assert (L : forall opaque, like pipe_bnf bnf_lines opaque (st_heap s') p q).
      { intros opaque. eapply like_trans; [apply through_prod, E2|apply through_rule, Er2]. }
      constructor.
      - apply (pair_dom _ _ _ _ _ _ _ _ _ P2).
      - apply (pair_clean _ _ _ _ _ _ _ _ _ P2).
      - intros o1 E1. rewrite E2 in E1. injection E1 as <-. destruct (pair_form _ _ _ _ _ _ _ _ _ P2 oq Eq2) as (o' & E' & K & _). exists o'. split; [exact E'|]. split; [|reflexivity].
        rewrite K, Pq. reflexivity.
      - eapply like_trans; [apply L|apply (pair_old _ _ _ _ _ _ _ _ _ P2)].
      - intros C. eapply like_trans; [apply L|]. apply (pair_all _ _ _ _ _ _ _ _ _ P2).
        assert (Cr := proj2 (inv_new _ _ _ _ _ _ (inv_heap _ _ _ _ _ _ _ _ I2) p _ (not_atomic_clean no_empty n0 _ p _ E2 eq_refl C) E2) r0 (or_introl eq_refl)).
        apply (proj2 (inv_new _ _ _ _ _ _ (inv_heap _ _ _ _ _ _ _ _ I2) r0 _ (not_atomic_clean no_empty n0 _ r0 _ Er2 eq_refl Cr) Er2) q (or_introl eq_refl)).
    Qed.
  End Flatten.
End Methods.
