(** The rule that repeatable(max=n) stands for is nested n deep: what the passes after it need. *)
From Verif Require Import Base TokenModel EarleyModel PredicateModel PipelineModel RuleModel GrammarModel BuildStackModel BuildStackProofs.
From Coq Require Import Lia.
Open Scope nat_scope.

Section Chain.
  Context {pred pipe bnf : Type}.
  Notation obj := (obj pred pipe bnf).
  Notation heap := (heap pred pipe bnf).
  Notation state := (state pred pipe bnf).
  Notation M := (M pred pipe bnf).
  Notation visitor := (visitor pred pipe bnf).
  Variable comp : nat.

  Lemma bind_ok {A B} (m : M A) (f : A -> M B) s x : bindM m f s = Some (Ok x) -> exists a s1, m s = Some (Ok (a, s1)) /\ f a s1 = Some (Ok x).
  Proof. unfold bindM. destruct (m s) as [[[a s1]|e]|]; [|discriminate|discriminate]. intros E. exists a, s1. auto. Qed.
  Lemma frames_ok {A} k room (m : M A) s x : frames k room m s = Some x -> k <= room /\ m s = Some x.
  Proof. unfold frames. destruct (Nat.ltb_spec room k); [discriminate|auto]. Qed.

  (** ** Heaps only grow, and get no forward rules *)
  Definition ext (h h' : heap) : Prop := exists l, h' = h ++ l /\ Forall (fun o => is_forward o = false) l.
  Lemma ext_refl h : ext h h. Proof. exists []. rewrite app_nil_r. auto. Qed.
  Lemma ext_trans h1 h2 h3 : ext h1 h2 -> ext h2 h3 -> ext h1 h3.
  Proof. intros (l & -> & F) (l' & -> & F'). exists (l ++ l'). rewrite app_assoc. split; [reflexivity|apply Forall_app; auto]. Qed.
  Lemma ext_add h o : is_forward o = false -> ext h (h ++ [o]).
  Proof. intros F. exists [o]. auto. Qed.
  Lemma ext_nth h h' p o : ext h h' -> nth_error h p = Some o -> nth_error h' p = Some o.
  Proof. intros (l & -> & _) E. rewrite nth_error_app1; [exact E|]. apply nth_error_Some. congruence. Qed.
  Lemma nth_last (h : heap) o : nth_error (h ++ [o]) (length h) = Some o.
  Proof. rewrite nth_error_app2 by lia. rewrite Nat.sub_diag. reflexivity. Qed.
  Definition grows {A} (m : M A) : Prop := forall s a s', m s = Some (Ok (a, s')) -> ext (st_heap s) (st_heap s').
  Lemma grows_ret {A} (a : A) : grows (ret a). Proof. intros s b s' E. injection E as <- <-. apply ext_refl. Qed.
  Lemma grows_raise {A} e : grows (raise (A := A) e). Proof. intros s b s' E. discriminate. Qed.
  Lemma grows_no {A} : grows (no_fuel (A := A)). Proof. intros s b s' E. discriminate. Qed.
  Lemma grows_get p : grows (get p). Proof. intros s b s'. unfold get. destruct (nth_error _ _); [|discriminate]. intros E. injection E as <- <-. apply ext_refl. Qed.
  Lemma grows_recall p : grows (recall p). Proof. intros s b s' E. injection E as <- <-. apply ext_refl. Qed.
  Lemma grows_remember p r : grows (remember p r). Proof. intros s b s' E. injection E as <- <-. apply ext_refl. Qed.
  Lemma grows_alloc o : is_forward o = false -> grows (alloc o). Proof. intros F s b s' E. injection E as <- <-. apply ext_add, F. Qed.
  Lemma grows_bind {A B} (m : M A) (f : A -> M B) : grows m -> (forall a, grows (f a)) -> grows (bindM m f).
  Proof. intros H F s b s' E. apply bind_ok in E as (a & s1 & E1 & E2). eapply ext_trans; [eapply H, E1|eapply F, E2]. Qed.
  Lemma grows_map {A B} (f : A -> M B) : (forall a, grows (f a)) -> forall l, grows (mapMM f l).
  Proof. intros F. induction l as [|a l IH]; [apply grows_ret|]. cbn. apply grows_bind; [apply F|]. intros b. apply grows_bind; [exact IH|]. intros. apply grows_ret. Qed.
  Lemma grows_frames {A} k room (m : M A) : grows m -> grows (frames k room m).
  Proof. intros H s a s' E. apply frames_ok in E as [_ E]. apply (H _ _ _ E). Qed.
  Ltac gr := repeat first [apply grows_ret | apply grows_raise | apply grows_get | apply grows_recall | apply grows_remember | (apply grows_alloc; reflexivity) | assumption
    | match goal with H : forall p, grows (?v p) |- grows (?v ?p) => apply H end | apply grows_bind; [|intros ?] | apply grows_map; intros ?].
  Lemma base_grows (v : visitor) p o : (forall q, grows (v q)) -> grows (base_method v p o).
  Proof. intros V. destruct o; cbn [base_method]; unfold visit_Production, visit_Rule; gr. unfold visit_term. match goal with |- grows (match ?t with _ => _ end) => destruct t end; gr. Qed.
  Lemma or_grows (v : visitor) p o : (forall q, grows (v q)) -> grows (replace_or_method v p o).
  Proof. intros V. destruct o; try apply (base_grows v), V. cbn [replace_or_method]. gr. Qed.
  Lemma visit_grows fuel : forall room p, grows (visit_within (or_within comp) fuel room p).
  Proof.
    induction fuel as [|fuel IH]; intros room p; [apply grows_no|]. cbn [visit_within]. apply grows_frames. apply grows_bind; [apply grows_recall|]. intros [r|]; [apply grows_ret|]. apply grows_bind; [apply grows_get|]. intros o.
    apply grows_bind; [|intros; gr]. unfold or_within, framed. apply grows_frames, or_grows. intros q. apply IH.
  Qed.

  (** ** The item: a rule of one predicate *)
  Definition leafp (h : heap) (q : nat) : Prop := exists x m, nth_error h q = Some (OProd [TPred x] m).
  Definition leafr (h : heap) (p : nat) : Prop := exists q, nth_error h p = Some (ORule [q]) /\ leafp h q.
  Lemma leafp_ext h h' q : ext h h' -> leafp h q -> leafp h' q.
  Proof. intros X (x & m & E). exists x, m. apply (ext_nth h); assumption. Qed.
  Lemma leafr_ext h h' q : ext h h' -> leafr h q -> leafr h' q.
  Proof. intros X (x & E & L). exists x. split; [apply (ext_nth h); assumption|apply (leafp_ext h); assumption]. Qed.
  (** Only leaves have been visited. *)
  Definition inv (s : state) : Prop := forall p r, assoc p (st_visited s) = Some r -> (leafp (st_heap s) p /\ leafp (st_heap s) r) \/ (leafr (st_heap s) p /\ leafr (st_heap s) r).
  Definition leaf_step (s s' : state) : Prop := ext (st_heap s) (st_heap s') /\ inv s'.
  Lemma inv_ext s h' : inv s -> ext (st_heap s) h' -> inv (mkState h' (st_visited s)).
  Proof. intros I X p r E. cbn in *. destruct (I p r E) as [[A B]|[A B]]; [left|right]; split; first [eapply leafp_ext; eassumption|eapply leafr_ext; eassumption]. Qed.
  Lemma inv_add s p r : inv s -> (leafp (st_heap s) p /\ leafp (st_heap s) r) \/ (leafr (st_heap s) p /\ leafr (st_heap s) r) -> inv (mkState (st_heap s) ((p, r) :: st_visited s)).
  Proof. intros I L p' r'. cbn. destruct (Nat.eqb_spec p' p) as [->|_]; [intros E; injection E as <-; exact L|apply I]. Qed.

  Section Leaf.
    Variable m : (nat -> visitor) -> nat -> nat -> obj -> M nat.
    Hypothesis HR : forall v room p ps, m v room p (ORule ps) = frames (1 + comp) room (visit_Rule (v (room - (1 + comp))) ps).
    Hypothesis HP : forall v room p t ts mn, m v room p (OProd (t :: ts) mn) = frames (2 + comp) room (visit_Production (v (room - (2 + comp))) (t :: ts) mn).
    Lemma visit_fresh fuel room p s x : visit_within m fuel room p s = Some (Ok x) -> assoc p (st_visited s) = None ->
      exists o fuel' r s1, nth_error (st_heap s) p = Some o /\ fuel = S fuel' /\ 1 <= room /\ m (visit_within m fuel') (room - 1) p o s = Some (Ok (r, s1)) /\ x = (r, mkState (st_heap s1) ((p, r) :: st_visited s1)).
    Proof.
      destruct fuel as [|fuel]; [discriminate|]. cbn [visit_within]. intros E N. apply frames_ok in E as [L E]. apply bind_ok in E as (k & s1 & E1 & E). injection E1 as <- <-. rewrite N in E.
      apply bind_ok in E as (o & s2 & E2 & E). unfold get in E2. destruct (nth_error (st_heap s) p) as [o'|] eqn:Eo; [|discriminate]. injection E2 as -> <-. apply bind_ok in E as (r & s3 & E3 & E). apply bind_ok in E as (u & s4 & E4 & E).
      injection E4 as <- <-. injection E as <-. exists o, fuel, r, s3. auto.
    Qed.
    Lemma leafp_visit fuel room q s r s' : inv s -> leafp (st_heap s) q -> visit_within m fuel room q s = Some (Ok (r, s')) -> leaf_step s s' /\ leafp (st_heap s') r.
    Proof.
      intros I (x & mn & Q) E. destruct (assoc q (st_visited s)) as [r'|] eqn:N.
      - destruct fuel as [|fuel]; [discriminate|]. cbn [visit_within] in E. apply frames_ok in E as [_ E]. apply bind_ok in E as (k & s1 & E1 & E). injection E1 as <- <-. rewrite N in E. injection E as <- <-. split; [split; [apply ext_refl|exact I]|].
        destruct (I q r' N) as [[_ B]|[(q' & A & _) _]]; [exact B|congruence].
      - apply visit_fresh in E as (o & fuel' & r1 & s1 & Eo & _ & _ & Em & Ex); [|exact N]. rewrite Q in Eo. injection Eo as <-. rewrite HP in Em. apply frames_ok in Em as [_ Em]. unfold visit_Production in Em. cbn [mapMM visit_term] in Em.
        unfold bindM, ret, alloc in Em. injection Em as <- <-. injection Ex as -> ->. cbn [st_heap].
        assert (X : ext (st_heap s) (st_heap s ++ [OProd [TPred x] mn])) by (apply ext_add; reflexivity). assert (LR : leafp (st_heap s ++ [OProd [TPred x] mn]) (length (st_heap s))) by (exists x, mn; apply nth_last).
        split; [split; [exact X|]|exact LR]. apply (inv_add (mkState (st_heap s ++ [OProd [TPred x] mn]) (st_visited s))); [apply inv_ext; assumption|]. left. split; [exists x, mn; apply (ext_nth _ _ _ _ X Q)|exact LR].
    Qed.
    Lemma leafr_visit fuel room i s r s' : inv s -> leafr (st_heap s) i -> visit_within m fuel room i s = Some (Ok (r, s')) -> leaf_step s s' /\ leafr (st_heap s') r.
    Proof.
      intros I (q & Q & LQ) E. destruct (assoc i (st_visited s)) as [r'|] eqn:N.
      - destruct fuel as [|fuel]; [discriminate|]. cbn [visit_within] in E. apply frames_ok in E as [_ E]. apply bind_ok in E as (k & s1 & E1 & E). injection E1 as <- <-. rewrite N in E. injection E as <- <-. split; [split; [apply ext_refl|exact I]|].
        destruct (I i r' N) as [[(? & ? & B) _]|[_ B]]; [congruence|exact B].
      - apply visit_fresh in E as (o & fuel' & r1 & s1 & Eo & _ & _ & Em & Ex); [|exact N]. rewrite Q in Eo. injection Eo as <-. rewrite HR in Em. apply frames_ok in Em as [_ Em]. unfold visit_Rule in Em. cbn [mapMM] in Em.
        apply bind_ok in Em as (ps & s2 & E1 & E2). apply bind_ok in E1 as (q' & s3 & Eq & E1). destruct (leafp_visit _ _ _ _ _ _ I LQ Eq) as [[X3 I3] LQ']. apply bind_ok in E1 as (qs & s4 & E3 & E4). injection E3 as <- <-. injection E4 as <- <-. injection E2 as <- <-. injection Ex as -> ->. cbn [st_heap st_visited].
        assert (X : ext (st_heap s3) (st_heap s3 ++ [ORule [q']])) by (apply ext_add; reflexivity).
        assert (LR : leafr (st_heap s3 ++ [ORule [q']]) (length (st_heap s3))) by (exists q'; split; [apply nth_last|apply (leafp_ext _ _ _ X), LQ']).
        split; [split; [apply (ext_trans _ _ _ X3 X)|]|exact LR]. apply (inv_add (mkState (st_heap s3 ++ [ORule [q']]) (st_visited s3))); [apply inv_ext; assumption|]. right. split; [|exact LR]. cbn. apply (leafr_ext _ _ _ X), (leafr_ext _ _ _ X3). exists q. auto.
    Qed.
  End Leaf.

  (** ** What repeatable(max=n) stands for, before and after ReplaceOrTransformator *)
  Inductive chain (h : heap) : nat -> nat -> Prop :=
  | chain_one o : leafr h o -> chain h o 1
  | chain_more o a i q o' k : nth_error h o = Some (OOr [a; i]) -> nth_error h a = Some (ORule [q]) -> nth_error h q = Some (OProd [TRule i; TRule o'] 0) -> leafr h i -> chain h o' k -> chain h o (S k).
  Inductive nested (h : heap) : nat -> nat -> Prop :=
  | nested_one o : leafr h o -> nested h o 1
  | nested_more o p1 p2 a i q o' k : nth_error h o = Some (ORule [p1; p2]) -> nth_error h p1 = Some (OProd [TRule a] 0) -> nth_error h a = Some (ORule [q]) -> nth_error h q = Some (OProd [TRule i; TRule o'] 0) -> leafr h i -> nested h o' k -> nested h o (S k).
  Lemma chain_ext h h' o k : ext h h' -> chain h o k -> chain h' o k.
  Proof. intros X. induction 1 as [o L|o a i q o' k E1 E2 E3 L C IH]; [apply chain_one, (leafr_ext h); assumption|]. apply (chain_more h' o a i q o'); try (apply (ext_nth h); assumption); [apply (leafr_ext h); assumption|exact IH]. Qed.
  Lemma nested_ext h h' o k : ext h h' -> nested h o k -> nested h' o k.
  Proof. intros X. induction 1 as [o L|o p1 p2 a i q o' k E1 E2 E3 E4 L C IH]; [apply nested_one, (leafr_ext h); assumption|]. apply (nested_more h' o p1 p2 a i q o'); try (apply (ext_nth h); assumption); [apply (leafr_ext h); assumption|exact IH]. Qed.
  Lemma chain_of_max item : forall n s, 1 <= n -> leafr (st_heap s) item -> exists o s', max_bound item n false s = Some (Ok (o, s')) /\ ext (st_heap s) (st_heap s') /\ st_visited s' = st_visited s /\ chain (st_heap s') o n.
  Proof.
    induction n as [|n IH]; intros s L I; [lia|]. destruct n as [|n]; [exists item, s; split; [reflexivity|]; split; [apply ext_refl|]; split; [reflexivity|apply chain_one, I]|].
    destruct (IH s ltac:(lia) I) as (o & s1 & E & X & V & C). change (max_bound item (S (S n)) false s) with (bindM (max_bound item (S n) false) (fun rest => bindM (new_rule [item; rest]) (fun a => alloc (OOr (ordered false a item)))) s). unfold bindM at 1. rewrite E. unfold new_rule, bindM, alloc. cbn [st_heap st_visited map ordered]. eexists _, _. split; [reflexivity|]. cbn [st_heap st_visited].
    set (h1 := st_heap s1 ++ [OProd [TRule item; TRule o] 0]). set (h2 := h1 ++ [ORule [length (st_heap s1)]]). set (h3 := h2 ++ [OOr [length h1; item]]).
    assert (X1 : ext (st_heap s1) h1) by (apply ext_add; reflexivity). assert (X2 : ext h1 h2) by (apply ext_add; reflexivity). assert (X3 : ext h2 h3) by (apply ext_add; reflexivity).
    split; [exact (ext_trans _ _ _ X (ext_trans _ _ _ X1 (ext_trans _ _ _ X2 X3)))|]. split; [exact V|].
    apply (chain_more _ _ (length h1) item (length (st_heap s1)) o).
    - apply nth_last.
    - apply (ext_nth _ _ _ _ X3). apply nth_last.
    - apply (ext_nth _ _ _ _ (ext_trans _ _ _ X2 X3)). apply nth_last.
    - apply (leafr_ext _ _ _ (ext_trans _ _ _ X (ext_trans _ _ _ X1 (ext_trans _ _ _ X2 X3)))), I.
    - apply (chain_ext _ _ _ _ (ext_trans _ _ _ X1 (ext_trans _ _ _ X2 X3))), C.
  Qed.
  Lemma not_leaf s p : inv s -> ~ leafp (st_heap s) p -> ~ leafr (st_heap s) p -> assoc p (st_visited s) = None.
  Proof. intros I A B. destruct (assoc p (st_visited s)) as [r|] eqn:N; [|reflexivity]. destruct (I p r N) as [[? _]|[? _]]; contradiction. Qed.
  Lemma nested_after_or : forall k fuel room o s r s', inv s -> chain (st_heap s) o k -> visit_within (or_within comp) fuel room o s = Some (Ok (r, s')) -> nested (st_heap s') r k.
  Proof.
    induction k as [|k IH]; intros fuel room o s r s' I C E; [inversion C|]. inversion C as [o1 L|o1 a i q o' k1 E1 E2 E3 L C']; subst.
    - apply nested_one. apply (leafr_visit (or_within comp)) in E as [_ B]; [exact B|reflexivity|reflexivity|exact I|exact L].
    - apply visit_fresh in E as (o1 & f1 & r1 & s1 & Eo & _ & _ & Em & Ex).
      2:{ apply not_leaf; [exact I| |]; [intros (? & ? & Y); congruence|intros (? & Y & _); congruence]. }
      rewrite E1 in Eo. injection Eo as <-. injection Ex as -> ->. cbn [st_heap]. unfold or_within, framed in Em. apply frames_ok in Em as [_ Em]. cbn [replace_or_method base_frames mapMM] in Em.
      apply bind_ok in Em as (ps & s2 & Em & Ea). apply bind_ok in Em as (p1 & s3 & Ep1 & Em). apply bind_ok in Ep1 as (ra & s4 & Ev & Ep1).
      (* the rule of the first alternative *)
      apply visit_fresh in Ev as (oa & f2 & r2 & s5 & Eo & _ & _ & Ev & Ex).
      2:{ apply not_leaf; [exact I| |]; [intros (? & ? & Y); congruence|]. intros (q' & Y & (? & ? & Z)). rewrite E2 in Y. injection Y as <-. congruence. }
      rewrite E2 in Eo. injection Eo as <-. injection Ex as -> ->. unfold or_within, framed in Ev. apply frames_ok in Ev as [_ Ev]. cbn [replace_or_method base_method base_frames] in Ev. unfold visit_Rule in Ev. cbn [mapMM] in Ev.
      apply bind_ok in Ev as (qs & s6 & Ev & Er). apply bind_ok in Ev as (rq & s7 & Eq & Ev).
      (* its production *)
      apply visit_fresh in Eq as (oq & f3 & r3 & s8 & Eo & _ & _ & Eq & Ex).
      2:{ apply not_leaf; [exact I| |]; [intros (? & ? & Y); congruence|intros (? & Y & _); congruence]. }
      rewrite E3 in Eo. injection Eo as <-. injection Ex as -> ->. unfold or_within, framed in Eq. apply frames_ok in Eq as [_ Eq]. cbn [replace_or_method base_method base_frames] in Eq. unfold visit_Production in Eq. cbn [mapMM visit_term] in Eq.
      apply bind_ok in Eq as (ts & s9 & Eq & Ep). apply bind_ok in Eq as (t1 & s10 & Et1 & Eq). apply bind_ok in Et1 as (ri & s11 & Ei & Et1). injection Et1 as <- <-. apply (leafr_visit (or_within comp)) in Ei as [[X11 I11] Li]; [|reflexivity|reflexivity|exact I|exact L].
      apply bind_ok in Eq as (ts2 & s12 & Eq & Eq'). injection Eq' as <- <-. apply bind_ok in Eq as (t2 & s13 & Et2 & Eq). apply bind_ok in Et2 as (ro & s14 & Eo & Et2). injection Et2 as <- <-. injection Eq as <- <-. injection Ep as <- <-.
      pose proof (IH _ _ _ _ _ _ I11 (chain_ext _ _ _ _ X11 C') Eo) as N14. pose proof (visit_grows _ _ _ _ _ _ Eo) as X14.
      apply bind_ok in Ev as (qs' & s15 & Eqs & Ev). injection Eqs as <- <-. injection Ev as <- <-. injection Er as <- <-. injection Ep1 as <- <-. cbn [st_heap st_visited] in Em.
      apply bind_ok in Em as (ps' & s16 & Em & Em'). injection Em' as <- <-. apply bind_ok in Em as (p2 & s17 & Ep2 & Em). apply bind_ok in Em as (e & s18 & Ee & Em). injection Ee as <- <-. injection Em as <- <-. injection Ea as <- <-. cbn [st_heap].
      assert (X17 := grows_bind _ _ (visit_grows _ _ _) (fun r => grows_alloc (OProd [TRule r] 0) eq_refl) _ _ _ Ep2). cbn [st_heap] in X17.
      set (h1 := st_heap s14 ++ [OProd [TRule ri; TRule ro] 0]) in *. set (h2 := h1 ++ [ORule [length (st_heap s14)]]) in *. set (h3 := h2 ++ [OProd [TRule (length h1)] 0]) in *. set (h4 := st_heap s17 ++ [ORule [length h2; p2]]).
      assert (X1 : ext (st_heap s14) h1) by (apply ext_add; reflexivity). assert (X2 : ext h1 h2) by (apply ext_add; reflexivity). assert (X3 : ext h2 h3) by (apply ext_add; reflexivity). assert (X4 : ext h3 h4) by (apply (ext_trans _ _ _ X17), ext_add; reflexivity).
      apply (nested_more _ _ (length h2) p2 (length h1) ri (length (st_heap s14)) ro).
      + apply nth_last.
      + apply (ext_nth _ _ _ _ X4), nth_last.
      + apply (ext_nth _ _ _ _ (ext_trans _ _ _ X3 X4)), nth_last.
      + apply (ext_nth _ _ _ _ (ext_trans _ _ _ X2 (ext_trans _ _ _ X3 X4))), nth_last.
      + apply (leafr_ext _ _ _ (ext_trans _ _ _ X14 (ext_trans _ _ _ X1 (ext_trans _ _ _ X2 (ext_trans _ _ _ X3 X4))))), Li.
      + apply (nested_ext _ _ _ _ (ext_trans _ _ _ X1 (ext_trans _ _ _ X2 (ext_trans _ _ _ X3 X4)))), N14.
  Qed.
  (** ReplaceEmptyTransformator goes down four objects for each repetition. *)
  Lemma nested_needs : forall k fuel room o s x, inv s -> nested (st_heap s) o k -> visit_within (empty_within comp) fuel room o s = Some (Ok x) -> (10 + 4 * comp) * (k - 1) <= room.
  Proof.
    induction k as [|k IH]; intros fuel room o s x I C E; [lia|]. inversion C as [o1 L|o1 p1 p2 a i q o' k1 E1 E2 E3 E4 L C']; subst; [lia|]. destruct x as [r s'].
    apply visit_fresh in E as (o1 & f1 & r1 & s1 & Eo & _ & L1 & Em & _).
    2:{ apply not_leaf; [exact I| |]; [intros (? & ? & Y); congruence|intros (? & Y & _); congruence]. }
    rewrite E1 in Eo. injection Eo as <-. unfold empty_within, framed in Em. apply frames_ok in Em as [L2 Em]. cbn [replace_empty_method base_method base_frames] in Em, L2. unfold visit_Rule in Em. cbn [mapMM] in Em.
    apply bind_ok in Em as (ps & s2 & Em & _). apply bind_ok in Em as (r2 & s3 & Em & _).
    apply visit_fresh in Em as (o2 & f2 & r3 & s4 & Eo & _ & L3 & Em & _).
    2:{ apply not_leaf; [exact I| |]; [intros (? & ? & Y); congruence|intros (? & Y & _); congruence]. }
    rewrite E2 in Eo. injection Eo as <-. unfold empty_within, framed in Em. apply frames_ok in Em as [L4 Em]. cbn [replace_empty_method base_method base_frames] in Em, L4. unfold visit_Production in Em. cbn [mapMM visit_term] in Em.
    apply bind_ok in Em as (ts & s5 & Em & _). apply bind_ok in Em as (t & s6 & Em & _). apply bind_ok in Em as (r4 & s7 & Em & _).
    apply visit_fresh in Em as (o3 & f3 & r5 & s8 & Eo & _ & L5 & Em & _).
    2:{ apply not_leaf; [exact I| |]; [intros (? & ? & Y); congruence|]. intros (q' & Y & (? & ? & Z)). rewrite E3 in Y. injection Y as <-. congruence. }
    rewrite E3 in Eo. injection Eo as <-. unfold empty_within, framed in Em. apply frames_ok in Em as [L6 Em]. cbn [replace_empty_method base_method base_frames] in Em, L6. unfold visit_Rule in Em. cbn [mapMM] in Em.
    apply bind_ok in Em as (ps' & s9 & Em & _). apply bind_ok in Em as (r6 & s10 & Em & _).
    apply visit_fresh in Em as (o4 & f4 & r7 & s11 & Eo & _ & L7 & Em & _).
    2:{ apply not_leaf; [exact I| |]; [intros (? & ? & Y); congruence|intros (? & Y & _); congruence]. }
    rewrite E4 in Eo. injection Eo as <-. unfold empty_within, framed in Em. apply frames_ok in Em as [L8 Em]. cbn [replace_empty_method base_method base_frames] in Em, L8. unfold visit_Production in Em. cbn [mapMM visit_term] in Em.
    apply bind_ok in Em as (ts' & s12 & Em & _). apply bind_ok in Em as (t1 & s13 & Ei & Em). apply bind_ok in Ei as (ri & s14 & Ei & Et). injection Et as <- <-. apply (leafr_visit (empty_within comp)) in Ei as [[X I14] _]; [|reflexivity|reflexivity|exact I|exact L].
    apply bind_ok in Em as (ts'' & s15 & Em & _). apply bind_ok in Em as (t2 & s16 & Em & _). apply bind_ok in Em as (ro & s17 & Em & _).
    apply (IH _ _ _ _ _ I14 (nested_ext _ _ _ _ X C')) in Em. destruct k as [|k]; [lia|]. cbn [Nat.sub] in Em |- *. rewrite Nat.sub_0_r in *. lia.
  Qed.

  (** ** The passes *)
  Definition no_forward (h : heap) : Prop := Forall (fun o => is_forward o = false) h.
  Lemma no_forward_ext h h' : no_forward h -> ext h h' -> no_forward h'.
  Proof. intros N (l & -> & F). apply Forall_app. auto. Qed.
  Lemma walk_idle m fuel limit : forall n queue vis (s : state) u s', no_forward (st_heap s) -> walk_loop n (define_visited_within m fuel limit) queue vis s = Some (Ok (u, s')) -> s' = s.
  Proof.
    induction n as [|n IH]; intros queue vis s u s' N E; destruct queue as [|x queue]; cbn [walk_loop] in E; try discriminate; try (injection E as _ <-; reflexivity).
    apply bind_ok in E as (u1 & s1 & E1 & E). apply bind_ok in E as (o & s2 & E2 & E).
    assert (S1 : s1 = s).
    { apply bind_ok in E1 as (o1 & s3 & Eg & E1). unfold get in Eg. destruct (nth_error (st_heap s) x) as [o2|] eqn:Ex; [|discriminate]. injection Eg as -> <-. apply nth_error_In in Ex. unfold no_forward in N. rewrite Forall_forall in N. specialize (N _ Ex).
      destruct o1; try (injection E1 as _ <-; reflexivity). discriminate. }
    subst s1. unfold get in E2. destruct (nth_error (st_heap s) x) as [o2|]; [|discriminate]. injection E2 as -> <-. destruct (enqueue _ _ _) as [q' v']. apply (IH _ _ _ _ _ N E).
  Qed.
  Lemma run_idle m fuel limit (h : heap) root r h' : no_forward h -> run_visit_within m fuel limit h root = Some (Ok (r, h')) -> exists s', visit_within m fuel limit root (mkState h []) = Some (Ok (r, s')) /\ h' = st_heap s'.
  Proof.
    intros N E. unfold run_visit_within in E. destruct (bindM _ _ _) as [[[r1 s1]|]|] eqn:B; try discriminate. injection E as -> <-. apply bind_ok in B as (u & s2 & B1 & B2). apply walk_idle in B1; [|exact N]. subst s2. exists s1. auto.
  Qed.
  Lemma inv_start h : inv (mkState h []). Proof. intros p r E. discriminate. Qed.
  Lemma then_ok {A B} (a : option (res A)) (f : A -> option (res B)) x : then_ a f = Some (Ok x) -> exists y, a = Some (Ok y) /\ f y = Some (Ok x).
  Proof. destruct a as [[y|e]|]; try discriminate. intros E. exists y. auto. Qed.
  Lemma max_needs (pb : pipe -> res bnf) (lines : bnf -> list (str * list pred)) (ap : pred -> res pred) (aq : pipe -> res pipe) (x : pred) n fuel limit r : 1 <= n ->
    parser_rule_within comp pb lines ap aq fuel limit [OProd [TPred x] 0; ORule [0]; OMax 1 n false] 2 = Some (Ok r) -> (10 + 4 * comp) * (n - 1) <= limit.
  Proof.
    intros Ln E. unfold parser_rule_within in E. apply then_ok in E as ([r1 h1] & Ea & E). apply then_ok in E as ([r2 h2] & En & _). unfold normalized_within in En. apply then_ok in En as ([r3 h3] & Es & En). apply then_ok in En as ([r4 h4] & Ee & En).
    apply then_ok in En as ([r5 h5] & Eo & En). apply then_ok in En as ([r6 h6] & Ep & _).
    (* activation *)
    apply (inplace_le _ _ (10 + fuel)) in Ea; [|lia]. assert (A : exists x', r1 = 2 /\ h1 = [OProd [TPred x'] 0; ORule [0]; OMax 1 n false]).
    { cbv in Ea. destruct (ap x) as [x'|]; [|discriminate]. injection Ea as <- <-. exists x'. auto. }
    destruct A as (x' & -> & ->). clear Ea.
    assert (N1 : no_forward [OProd [TPred x'] 0; ORule [0]; OMax 1 n false]) by (repeat constructor).
    assert (L1 : leafr [OProd [TPred x'] 0; ORule [0]; OMax 1 n false] 1) by (exists 0; split; [reflexivity|]; exists x', 0; reflexivity).
    (* SquashExtendedTransformator *)
    apply run_idle in Es as (s3 & Es & ->); [|exact N1]. apply visit_fresh in Es as (o & f1 & r7 & s7 & Eo' & _ & _ & Es & Ex); [|reflexivity]. injection Eo' as <-. injection Ex as -> ->. unfold squash_within in Es. apply bind_ok in Es as (child & s8 & Eg & Es). injection Eg as <- <-.
    unfold framed in Es. apply frames_ok in Es as [_ Es]. cbn [squash_method] in Es. apply bind_ok in Es as (child & s8 & Eg & Es). injection Eg as <- <-. cbv beta iota in Es. apply bind_ok in Es as (i & s9 & Ei & Es). apply (leafr_visit (squash_within comp)) in Ei as [[X9 _] L9]; [|reflexivity|reflexivity|apply inv_start|exact L1].
    injection Es as <- <-. cbn [st_heap] in *. assert (X10 : ext (st_heap s9) (st_heap s9 ++ [OMax i n false])) by (apply ext_add; reflexivity).
    assert (N2 : no_forward (st_heap s9 ++ [OMax i n false])) by (apply (no_forward_ext _ _ N1), (ext_trans _ _ _ X9 X10)).
    (* ReplaceExtendedTransformator *)
    apply run_idle in Ee as (s4 & Ee & ->); [|exact N2]. apply visit_fresh in Ee as (o & f2 & r8 & s10 & Eo' & _ & _ & Ee & Ex); [|reflexivity]. cbn [st_heap] in Eo'. rewrite nth_last in Eo'. injection Eo' as <-. injection Ex as -> ->. unfold extended_within, framed in Ee. apply frames_ok in Ee as [_ Ee]. cbn [replace_extended_method] in Ee.
    apply bind_ok in Ee as (i2 & s11 & Ei & Ee). apply (leafr_visit (extended_within comp)) in Ei as [[X11 _] L11]; [|reflexivity|reflexivity|apply inv_start|apply (leafr_ext _ _ _ X10), L9]. cbn [st_heap] in X11.
    destruct (chain_of_max i2 n s11 Ln L11) as (o & s12 & Em & X12 & _ & C). rewrite Em in Ee. injection Ee as <- <-. cbn [st_heap] in *.
    assert (N3 : no_forward (st_heap s12)) by (apply (no_forward_ext _ _ N2), (ext_trans _ _ _ X11 X12)).
    (* ReplaceOrTransformator *)
    apply run_idle in Eo as (s5 & Eo & ->); [|exact N3]. pose proof (nested_after_or _ _ _ _ _ _ _ (inv_start _) C Eo) as N5. pose proof (visit_grows _ _ _ _ _ _ Eo) as X5.
    (* ReplaceEmptyTransformator *)
    apply run_idle in Ep as (s6 & Ep & _); [|apply (no_forward_ext _ _ N3 X5)]. apply (nested_needs n _ _ _ _ _ (inv_start _) N5 Ep).
  Qed.
End Chain.
