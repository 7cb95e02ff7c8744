(** The rule a parser starts from has the interpretation written on the root, if the root is
    not a part of itself. *)
From Verif Require Import Base SpanProofs EarleyModel RuleModel RuleSpec RuleWords RuleLike RulePass RuleMethods RuleNormal RuleNormalized RuleOrder RuleBfs RuleBNF RuleForward RuleNames RuleAsBnf RuleRoot
  RuleActivate RuleParser.
Open Scope nat_scope.

Section Start.
  Context {pred pipe bnf : Type}.
  Notation obj := (obj pred pipe bnf).
  Notation heap := (heap pred pipe bnf).
  Notation visitor := (visitor pred pipe bnf).
  Notation state := (state pred pipe bnf).
  Notation M := (M pred pipe bnf).

  (** ** A pass of normalisation keeps the interpretation of the root. *)
  Theorem pass_interp method fuel (h : heap) root c i r h' :
    steady method -> (forall V p c i, method V p (OInterp c i) = bindM (V c) (fun r' => alloc (OInterp r' i))) ->
    nth_error h root = Some (OInterp c i) -> alone h root ->
    run_visit method fuel h root = Some (Ok (r, h')) -> exists c', nth_error h' r = Some (OInterp c' i).
  Proof.
    intros MK MI E Al H. unfold run_visit in H. destruct (transform_walk method fuel root (mkState h [])) as [[[r1 s2]|e]|] eqn:T; try discriminate.
    injection H as -> <-. unfold transform_walk in T. apply bind_ok in T as (u & s1 & T1 & T2).
    assert (Lroot : root < length h) by (apply nth_error_Some; congruence).
    set (In_play := fun q => reach h root q \/ length h <= q). set (ok := fun q => In_play q /\ q <> root).
    assert (A1 : forall c, length h <= c -> In_play c) by (intros x L; right; exact L).
    assert (A2 : forall c, ok c -> In_play c) by (intros x [A _]; exact A).
    assert (A3 : forall c, length h <= c -> ok c) by (intros x L; split; [right; exact L|lia]).
    assert (K0 : kept h In_play ok (mkState h [])).
    { constructor; cbn; [lia|auto|intros q (d & K); exists d; exact K| |intros ? ? []].
      intros q o' x [R|L] E' Hc; [|apply nth_error_None in L; congruence]. split; [left; eapply reach_step; eauto|]. intros ->. apply (Al q o' R E' Hc). }
    assert (K1 : kept h In_play ok s1).
    { refine (proj1 (walk_keeps h In_play ok A2 _ _ fuel [root] [root] _ (mkState h []) u s1 K0 T1)); [|constructor; [left; apply reach_refl|constructor]].
      intros p Sp. apply define_visited_keeps; auto. }
    destruct (visit_step _ _ _ _ _ _ T2) as [[Hm _]|(fuel' & o' & s3 & E' & Hm & Hh)]; [destruct (k_memo _ _ _ _ K1 root r Hm) as ((_ & N) & _); congruence|].
    rewrite (k_old _ _ _ _ K1 root _ E eq_refl) in E'. injection E' as <-. rewrite MI in Hm. apply bind_ok in Hm as (c' & s4 & _ & Ha).
    injection Ha as <- <-. rewrite Hh. cbn. exists c'. rewrite nth_error_app2 by lia. rewrite Nat.sub_diag. reflexivity.
  Qed.

  (** ** The conversion to BNF: what is visited is never the root before the end. *)
  Section Clean.
    Variable pipe_bnf : pipe -> res bnf.
    Variable bnf_lines : bnf -> list (str * list pred).
    Variable parents : list nat.
    Variable h0 : heap.
    (** The objects that are left alone until the end. *)
    Variable chain ok : nat -> Prop.
    Hypothesis new_ok : forall c, length h0 <= c -> ok c.
    Hypothesis ok_chain : forall c, ok c -> ~ chain c.
    Hypothesis chain_old : forall q, chain q -> exists o, nth_error h0 q = Some o /\ is_forward o = false /\ forall c, In c (children o) -> ok c \/ chain c.
    Lemma chain_size q : chain q -> q < length h0.
    Proof. intros C. destruct (chain_old q C) as (o & E & _). apply nth_error_Some. congruence. Qed.
    Record clean (s : state) : Prop := {
      c_size : length h0 <= length (st_heap s);
      c_chain : forall q, chain q -> nth_error (st_heap s) q = nth_error h0 q;
      c_children : forall q o c, ok q -> nth_error (st_heap s) q = Some o -> In c (children o) -> ok c;
      c_memo : forall p r, In (p, r) (st_visited s) -> ok p /\ ok r;
      c_forward : forall q o, nth_error h0 q = Some o -> is_forward o = true -> exists o', nth_error (st_heap s) q = Some o' /\ is_forward o' = true }.
    Definition cleans {A} (x : M A) (Q : A -> Prop) : Prop := forall s a s', clean s -> x s = Some (Ok (a, s')) -> clean s' /\ Q a.
    Lemma cleans_bind {A B} (x : M A) (f : A -> M B) Q Q' : cleans x Q -> (forall a, Q a -> cleans (f a) Q') -> cleans (bindM x f) Q'.
    Proof. intros X F s b s' I H. apply bind_ok in H as (a & s1 & H1 & H2). destruct (X s a s1 I H1) as [I1 Qa]. exact (F a Qa s1 b s' I1 H2). Qed.
    Lemma cleans_ret {A} (a : A) (Q : A -> Prop) : Q a -> cleans (ret a) Q.
    Proof. intros K s b s' I H. apply ret_ok in H as [-> ->]. auto. Qed.
    Lemma cleans_raise {A} e (Q : A -> Prop) : cleans (raise e) Q. Proof. intros s b s' I H. discriminate. Qed.
    Lemma cleans_no_fuel {A} (Q : A -> Prop) : cleans no_fuel Q. Proof. intros s b s' I H. discriminate. Qed.
    Lemma cleans_get p : ok p -> cleans (get p) (fun o => forall c, In c (children o) -> ok c).
    Proof. intros Sp s o s' I H. apply get_ok in H as [E ->]. split; [exact I|]. intros c Hc. apply (c_children s I p o c Sp E Hc). Qed.
    Lemma cleans_alloc (o : obj) : (forall c, In c (children o) -> ok c) -> cleans (alloc o) ok.
    Proof.
      intros K s r s' [I1 I2 I4 I5 I6] H. injection H as <- <-. split; [|apply new_ok, I1]. constructor; cbn.
      - rewrite app_length. lia.
      - intros q C. rewrite nth_error_app1; [apply I2, C|]. assert (L := chain_size q C). lia.
      - intros q o' x Sq E Hc. destruct (Nat.lt_ge_cases q (length (st_heap s))) as [L|L].
        + rewrite nth_error_app1 in E by exact L. apply (I4 q o' x Sq E Hc).
        + rewrite nth_error_app2 in E by exact L. destruct (q - length (st_heap s)) as [|k]; [|destruct k; discriminate]. injection E as <-. apply K, Hc.
      - exact I5.
      - intros q o' E F. destruct (I6 q o' E F) as (o2 & E2 & F2). exists o2. split; [|exact F2]. rewrite nth_error_app1; [exact E2|]. apply nth_error_Some. congruence.
    Qed.
    Lemma clean_put s p (o : obj) : clean s -> ~ chain p -> (ok p -> forall c, In c (children o) -> ok c) ->
      (forall o', nth_error (st_heap s) p = Some o' -> is_forward o' = true -> is_forward o = true) -> clean (mkState (setitem (st_heap s) p o) (st_visited s)).
    Proof.
      intros [I1 I2 I4 I5 I6] N K KF. constructor; cbn.
      - rewrite setitem_length. exact I1.
      - intros q C. rewrite setitem_other by congruence. apply I2, C.
      - intros q o' x Sq E Hc. destruct (Nat.eq_dec p q) as [->|N']; [|rewrite setitem_other in E by exact N'; apply (I4 q o' x Sq E Hc)].
        assert (L : q < length (st_heap s)) by (rewrite <- (setitem_length (st_heap s) q o); apply nth_error_Some; congruence).
        rewrite setitem_same in E by exact L. injection E as <-. apply K; assumption.
      - exact I5.
      - intros q o' E F. destruct (I6 q o' E F) as (o2 & E2 & F2). destruct (Nat.eq_dec p q) as [->|N']; [|exists o2; rewrite setitem_other by exact N'; auto].
        exists o. split; [apply setitem_same, nth_error_Some; congruence|apply (KF o2 E2 F2)].
    Qed.
    Lemma cleans_map {A B} (f : A -> M B) (P : A -> Prop) (Q : B -> Prop) l : (forall x, P x -> cleans (f x) Q) -> Forall P l -> cleans (mapMM f l) (Forall Q).
    Proof.
      intros F W. induction W as [|x l Px W IH]; cbn [mapMM]; [apply cleans_ret; constructor|]. eapply cleans_bind; [apply F, Px|]. intros y Qy.
      eapply cleans_bind; [exact IH|]. intros ys Qs. apply cleans_ret. constructor; assumption.
    Qed.
    Lemma cleans_define f r : ~ chain f -> ok r -> cleans (define f r) (fun _ => True).
    Proof.
      intros N Kr. unfold define. intros s u s' I H. apply bind_ok in H as (o & s1 & H1 & H). apply get_ok in H1 as [E ->]. destruct (is_forward o); [discriminate|].
      injection H as <- <-. split; [|exact Logic.I]. apply clean_put; [exact I|exact N| |reflexivity]. intros _ c [<-|[]]. exact Kr.
    Qed.
    Definition visits (V : visitor) : Prop := forall p, ok p -> cleans (V p) ok.
    Lemma lift_cleans r : ok r -> cleans (lift r) ok.
    Proof.
      intros K. unfold lift. eapply cleans_bind; [apply cleans_alloc|]; [intros c [<-|[]]; exact K|]. intros q Kq. apply cleans_alloc. intros c [<-|[]]. exact Kq.
    Qed.
    Lemma attribute_cleans present update r : ok r -> cleans (set_attribute present update r) ok.
    Proof.
      intros K. unfold set_attribute. eapply cleans_bind; [apply cleans_get, K|]. intros o _. destruct (get_attributes o) as [a|]; [|apply cleans_raise].
      eapply cleans_bind with (Q := ok); [destruct (present a); [apply lift_cleans, K|apply cleans_ret, K]|]. intros r' Kr.
      intros s u s' I H. apply bind_ok in H as (o' & s1 & H1 & H). destruct (cleans_get r' Kr s o' s1 I H1) as [_ Ko]. apply get_ok in H1 as [Eo ->].
      apply bind_ok in H as (v & s1 & H1 & H). apply ret_ok in H as [-> ->]. injection H1 as _ <-. split; [|exact Kr].
      apply clean_put; [exact I|apply ok_chain, Kr| |]; [intros _ c Hc; apply Ko; destruct o'; exact Hc|]. intros o2 E2 F2. rewrite Eo in E2. injection E2 as <-. destruct o'; try discriminate; reflexivity.
    Qed.
    Lemma wrapper_cleans V r : visits V -> ok r -> cleans (visit_WrapperRule parents V r) ok.
    Proof.
      intros HV K. unfold visit_WrapperRule. eapply cleans_bind; [apply cleans_get, K|]. intros o _. destruct (is_forward o); [apply lift_cleans, K|].
      eapply cleans_bind with (Q := fun _ => True).
      { unfold is_shared. match goal with |- cleans (match ?x with _ => _ end) _ => destruct x end; [apply cleans_raise|apply cleans_ret; exact I]. }
      intros shared _. eapply cleans_bind; [apply HV, K|]. intros r' Kr. destruct shared; [apply lift_cleans, Kr|apply cleans_ret, Kr].
    Qed.
    Notation good_term := (fun t : term pred => match t with TRule r => ok r | TPred _ => True end).
    Lemma good_terms ts : (forall c, In c (rule_terms ts) -> ok c) <-> Forall good_term ts.
    Proof.
      unfold rule_terms. rewrite Forall_forall. split.
      - intros K [r|p] Hx; [|exact I]. apply K, in_flat_map. exists (TRule r). split; [exact Hx|left; reflexivity].
      - intros K c Hc. apply in_flat_map in Hc as ([r|p] & Ht & Hr); [|destruct Hr]. destruct Hr as [<-|[]]. apply (K (TRule r) Ht).
    Qed.
    Lemma many_cleans V ps : visits V -> (forall c, In c ps -> ok c) -> cleans (mapMM V ps) (Forall ok).
    Proof. intros HV K. apply cleans_map with (P := ok); [exact HV|]. apply Forall_forall, K. Qed.
    Lemma base_cleans V p o : visits V -> ok p -> (forall c, In c (children o) -> ok c) -> cleans (base_method V p o) ok.
    Proof.
      intros HV Kp K. assert (One : forall r (f : nat -> obj), ok r -> (forall x c, In c (children (f x)) -> c = x) -> cleans (bindM (V r) (fun r' => alloc (f r'))) ok).
      { intros r f Kr F. eapply cleans_bind; [apply HV, Kr|]. intros r' Kr'. apply cleans_alloc. intros c Hc. rewrite (F r' c Hc). exact Kr'. }
      destruct o; cbn [base_method]; try (apply cleans_ret; exact Kp); try (apply cleans_raise).
      all: try (apply One; [apply K; left; reflexivity|]; intros x c [<-|[]]; reflexivity).
      all: try (eapply cleans_bind; [apply many_cleans; [exact HV|exact K]|]; intros ps' Ks; apply cleans_alloc; intros c Hc; rewrite Forall_forall in Ks; apply Ks, Hc).
      all: try (eapply cleans_bind; [apply cleans_map with (P := good_term) (Q := good_term);
        [intros [r|q] Kt; cbn [visit_term]; [eapply cleans_bind; [apply HV, Kt|]; intros r' Kr; apply cleans_ret, Kr|apply cleans_ret; exact I]|apply good_terms, K]|];
        intros ts' Ks; apply cleans_alloc; cbn [children]; apply good_terms, Ks).
    Qed.
    Lemma bnf_cleans V p o : visits V -> ok p -> (forall c, In c (children o) -> ok c) -> cleans (bnf_method pipe_bnf bnf_lines parents V p o) ok.
    Proof.
      intros HV Kp K. destruct o; cbn [bnf_method]; try (apply cleans_raise); try (apply base_cleans; assumption).
      all: try (eapply cleans_bind; [apply many_cleans; [exact HV|exact K]|]; intros ps' Ks; apply cleans_alloc; intros c Hc; rewrite Forall_forall in Ks; apply Ks, Hc).
      all: try (eapply cleans_bind; [apply wrapper_cleans; [exact HV|apply K; left; reflexivity]|]; intros r' Kr; apply attribute_cleans, Kr).
      destruct (pipe_bnf _) as [b|e]; [|apply cleans_raise]. unfold new_pipeline.
      eapply cleans_bind; [apply cleans_map with (P := fun _ => True) (Q := ok); [|apply Forall_forall; auto]|].
      - intros line _. apply cleans_alloc. intros c [].
      - intros ps Ks. apply cleans_alloc. intros c Hc. rewrite Forall_forall in Ks. apply Ks, Hc.
    Qed.
    Notation method := (bnf_method pipe_bnf bnf_lines parents).
    Lemma visit_clean fuel : visits (visit method fuel).
    Proof.
      induction fuel as [|fuel IH]; intros p Kp; cbn [visit]; [apply cleans_no_fuel|].
      apply cleans_bind with (Q := fun o => forall r, o = Some r -> ok r).
      { intros s o s' I H. injection H as <- <-. split; [exact I|]. intros r E. apply (c_memo s I p r), assoc_in, E. }
      intros [r|] K; [apply cleans_ret, K; reflexivity|]. clear K.
      eapply cleans_bind; [apply cleans_get, Kp|]. intros o K. eapply cleans_bind; [apply (bnf_cleans (visit method fuel) p o IH Kp K)|]. intros r Kr.
      eapply cleans_bind with (Q := fun _ => True); [|intros _ _; apply cleans_ret, Kr].
      intros s u s' [I1 I2 I4 I5 I6] H. injection H as <- <-. split; [|exact I]. constructor; cbn; auto. intros q r' [E|H]; [injection E as <- <-; auto|apply I5, H].
    Qed.
    Lemma define_visited_clean fuel p : ok p \/ chain p -> cleans (define_visited method fuel p) (fun _ => True).
    Proof.
      intros Sp. unfold define_visited. intros s u s' I H. apply bind_ok in H as (o & s1 & H1 & H). apply get_ok in H1 as [E ->].
      destruct o as [| | | | | | | | | | |[r|]| | | | | | |]; try (apply ret_ok in H as [_ ->]; auto; fail).
      destruct Sp as [Kp|C]; [|destruct (chain_old p C) as (o & Eo & F & _); rewrite (c_chain s I p C), Eo in E; injection E as ->; discriminate].
      assert (Kr : ok r) by (apply (c_children s I p _ r Kp E); left; reflexivity).
      revert H. apply (cleans_bind (visit method fuel r) (fun r' => define p r') ok (fun _ => True)); [apply visit_clean, Kr| |exact I].
      intros r' Kr'. apply cleans_define; [apply ok_chain, Kp|exact Kr'].
    Qed.
    Lemma cleans_get_any p : ok p \/ chain p -> cleans (get p) (fun o => forall c, In c (children o) -> ok c \/ chain c).
    Proof.
      intros [Kp|C] s o s' I H; apply get_ok in H as [E ->]; (split; [exact I|]); intros c Hc; [left; apply (c_children s I p o c Kp E Hc)|].
      destruct (chain_old p C) as (o' & Eo & _ & K). rewrite (c_chain s I p C), Eo in E. injection E as ->. apply K, Hc.
    Qed.
    Lemma walk_clean (act : nat -> M unit) : (forall p, ok p \/ chain p -> cleans (act p) (fun _ => True)) ->
      forall fuel queue vis, Forall (fun p => ok p \/ chain p) queue -> cleans (walk_loop fuel act queue vis) (fun _ => True).
    Proof.
      intros A. induction fuel as [|fuel IH]; intros [|x queue] vis W; cbn [walk_loop]; try (apply cleans_ret; exact I); [apply cleans_no_fuel|].
      inversion W as [|? ? Sx Wq]; subst. eapply cleans_bind; [apply A, Sx|]. intros _ _. eapply cleans_bind; [apply cleans_get_any, Sx|]. intros o K.
      destruct (enqueue (children o) queue vis) as [queue2 vis2] eqn:En. apply IH. apply Forall_forall. intros y Hy.
      destruct (enqueue_spec _ _ _ _ _ En) as (_ & _ & _ & _ & F). destruct (F y Hy) as [Q|Q]; [|apply K, Q]. rewrite Forall_forall in Wq. apply Wq, Q.
    Qed.
  End Clean.

  Definition interpreted_at (h : heap) (r i : nat) : Prop := exists o a, nth_error h r = Some o /\ get_attributes o = Some a /\ a_interp a = Some i.

  Lemma set_interpretator_at i x (s : state) r s' : set_interpretator i x s = Some (Ok (r, s')) -> interpreted_at (st_heap s') r i.
  Proof.
    unfold set_interpretator, set_attribute. intros H. apply bind_ok in H as (o & s1 & H1 & H). apply get_ok in H1 as [E ->].
    destruct (get_attributes o) as [a|] eqn:Ea; [|discriminate]. apply bind_ok in H as (r' & s2 & H2 & H).
    apply bind_ok in H as (o' & s3 & H3 & H). apply get_ok in H3 as [E' ->]. apply bind_ok in H as (u & s4 & H4 & H). apply ret_ok in H as [-> ->]. injection H4 as _ <-.
    assert (B : exists a', get_attributes o' = Some a').
    { destruct (match a_interp a with Some _ => true | None => false end).
      - unfold lift in H2. apply bind_ok in H2 as (q & s5 & H5 & H6). injection H6 as <- <-. cbn in E'. rewrite nth_error_app2, Nat.sub_diag in E' by lia. injection E' as <-.
        eexists. reflexivity.
      - apply ret_ok in H2 as [-> ->]. rewrite E in E'. injection E' as <-. eauto. }
    destruct B as (a' & B). cbn. assert (L : r' < length (st_heap s2)) by (apply nth_error_Some; congruence).
    destruct o'; try discriminate; eexists; eexists; (split; [apply setitem_same, L|split; reflexivity]).
  Qed.

  Theorem to_bnf_interp pipe_bnf bnf_lines fuel (h : heap) root c i r h' :
    nth_error h root = Some (OInterp c i) -> alone h root -> to_bnf pipe_bnf bnf_lines fuel h root = Some (Ok (r, h')) -> interpreted_at h' r i.
  Proof.
    intros E Al H. unfold to_bnf in H. destruct (bfs fuel h root) as [objects|]; [|discriminate]. set (parents := count_parents h objects) in *.
    unfold run_visit in H. destruct (transform_walk (bnf_method pipe_bnf bnf_lines parents) fuel root (mkState h [])) as [[[r1 s2]|e]|] eqn:T; try discriminate.
    injection H as -> <-. unfold transform_walk in T. apply bind_ok in T as (u & s1 & T1 & T2).
    assert (Lroot : root < length h) by (apply nth_error_Some; congruence).
    set (ok := fun q => (reach h root q \/ length h <= q) /\ q <> root).
    assert (A3 : forall c, length h <= c -> ok c) by (intros x L; split; [right; exact L|lia]).
    assert (A4 : forall c, ok c -> ~ (fun q => q = root) c) by (intros x [_ A]; exact A).
    assert (A5 : forall q, (fun q => q = root) q -> exists o, nth_error h q = Some o /\ is_forward o = false /\ forall c, In c (children o) -> ok c \/ (fun q => q = root) c).
    { intros q ->. eexists. split; [exact E|]. split; [reflexivity|]. intros x Hx. left. split; [left; eapply reach_step; [apply reach_refl|exact E|exact Hx]|].
      intros ->. apply (Al root _ (reach_refl h root) E Hx). }
    assert (K0 : clean h (fun q => q = root) ok (mkState h [])).
    { constructor; cbn; [lia|reflexivity| |intros ? ? []|eauto].
      intros q o' x [[R|L] _] E' Hc; [|apply nth_error_None in L; congruence]. split; [left; eapply reach_step; eauto|]. intros ->. apply (Al q o' R E' Hc). }
    assert (K1 : clean h (fun q => q = root) ok s1).
    { refine (proj1 (walk_clean h (fun q => q = root) ok A5 _ _ fuel [root] [root] _ (mkState h []) u s1 K0 T1)); [|constructor; [right; reflexivity|constructor]].
      intros p Sp. apply define_visited_clean; auto. }
    destruct (visit_step _ _ _ _ _ _ T2) as [[Hm _]|(fuel' & o' & s3 & E' & Hm & Hh)]; [destruct (c_memo _ _ _ _ K1 root r Hm) as ((_ & N) & _); congruence|].
    rewrite (c_chain _ _ _ _ K1 root eq_refl), E in E'. injection E' as <-. cbn [bnf_method] in Hm. apply bind_ok in Hm as (c' & s4 & _ & Ha). rewrite Hh. eapply set_interpretator_at. exact Ha.
  Qed.

  (** ** The whole construction *)
  Lemma generate_interp rules : forall n (h : heap) r i, interpreted_at h r i -> interpreted_at (generate_names rules n h) r i.
  Proof.
    induction rules as [|x rules IH]; intros n h r i K; cbn [generate_names]; [exact K|]. destruct (nth_error h x) as [o|] eqn:E; [|apply IH, K].
    destruct (get_attributes o) as [a|] eqn:Ea; [|apply IH, K]. destruct (has_name a); [apply IH, K|]. apply IH. destruct K as (o' & a' & E' & Eb & K).
    destruct (Nat.eq_dec x r) as [->|N]; [|exists o', a'; rewrite setitem_other by exact N; auto]. rewrite E in E'. injection E' as <-. rewrite Ea in Eb. injection Eb as <-.
    assert (L : r < length h) by (apply nth_error_Some; congruence).
    destruct o; try discriminate; cbn in Ea; injection Ea as ->; eexists; eexists; (split; [apply setitem_same, L|split; [reflexivity|exact K]]).
  Qed.
  Lemma remove_forward_root fuel (h : heap) root r h' : run_inplace remove_forward_visit fuel h root = Some (Ok (r, h')) -> r = root \/ exists d, nth_error h' root = Some (OForward d).
  Proof.
    intros H. unfold run_inplace, transform_inplace in H.
    destruct (bindM (walk fuel (fun p => bindM (remove_forward_visit p) (fun _ => ret tt)) root) (fun _ => remove_forward_visit root) (mkState h [])) as [[[r1 s2]|e]|] eqn:T; try discriminate.
    injection H as -> <-. apply bind_ok in T as (u & s1 & _ & T). unfold remove_forward_visit in T. apply bind_ok in T as (o & s3 & T1 & T). apply get_ok in T1 as [E ->].
    destruct o as [| | | | | | | | | | |[d|]| | | | | | |]; try discriminate; try (apply ret_ok in T as [-> ->]; left; reflexivity; fail).
    - apply ret_ok in T as [_ ->]. right. eexists. exact E.
    - apply bind_ok in T as (ts' & s4 & _ & T). apply bind_ok in T as (u' & s5 & _ & T). apply ret_ok in T as [-> _]. left. reflexivity.
  Qed.
  Lemma top_alone fit (h : heap) root c i : top fit h root -> nth_error h root = Some (OInterp c i) -> alone h root.
  Proof. intros (o & E & [F|[_ A]]) E'; [rewrite E' in E; injection E as <-; discriminate|exact A]. Qed.
End Start.

Section Whole.
  Context {pred pipe bnf : Type}.
  Notation obj := (obj pred pipe bnf).
  Notation heap := (heap pred pipe bnf).
  Variable pipe_bnf : pipe -> res bnf.
  Variable bnf_lines : bnf -> list (str * list pred).
  Theorem normalized_interp fuel (h : heap) root r h' c i :
    graph plain is_quant h (reach h root) -> ordered h -> top not_once h root -> nth_error h root = Some (OInterp c i) ->
    normalized fuel h root = Some (Ok (r, h')) -> exists c', nth_error h' r = Some (OInterp c' i).
  Proof.
    intros Gr O T E H. assert (L : root < length h) by (apply nth_error_Some; congruence). unfold normalized in H.
    apply then_ok in H as ((r1 & h1) & H1 & H). apply then_ok in H as ((r2 & h2) & H2 & H).
    apply then_ok in H as ((r3 & h3) & H3 & H). apply then_ok in H as ((r4 & h4) & H4 & H5).
    destruct (run_visit_ordered squash_method squash_safe fuel h root r1 h1 O L H1) as (O1 & L1 & N1).
    destruct (run_visit_ordered _ replace_extended_safe fuel h1 r1 r2 h2 O1 L1 H2) as (O2 & L2 & N2).
    destruct (run_visit_ordered _ replace_or_safe fuel h2 r2 r3 h3 O2 L2 H3) as (O3 & L3 & N3).
    destruct (run_visit_ordered _ replace_empty_safe fuel h3 r3 r4 h4 O3 L3 H4) as (O4 & L4 & N4).
    assert (Calm : forall hx rx cx, nth_error hx rx = Some (OInterp cx i : obj) -> forall o, nth_error hx rx = Some o -> is_prod o = false /\ calm hx o).
    { intros hx rx cx Ex o Eo. rewrite Ex in Eo. injection Eo as <-. split; [reflexivity|]. intros Q. discriminate. }
    destruct (pass_interp squash_method fuel h root c i r1 h1 squash_steady (fun _ _ _ _ => eq_refl) E (top_alone _ _ _ _ _ T E) H1) as (c1 & E1).
    assert (T1 := pass_top squash_method not_once not_once fuel h root r1 h1 squash_steady squash_safe squash_ends (fun _ e => e) O (Calm _ _ _ E) T H1).
    destruct (pass_interp _ fuel h1 r1 c1 i r2 h2 replace_extended_steady (fun _ _ _ _ => eq_refl) E1 (top_alone _ _ _ _ _ T1 E1) H2) as (c2 & E2).
    assert (T2 := pass_top _ not_once any fuel h1 r1 r2 h2 replace_extended_steady replace_extended_safe replace_extended_ends (fun _ _ => I) O1 (Calm _ _ _ E1) T1 H2).
    destruct (pass_interp _ fuel h2 r2 c2 i r3 h3 replace_or_steady (fun _ _ _ _ => eq_refl) E2 (top_alone _ _ _ _ _ T2 E2) H3) as (c3 & E3).
    assert (T3 := pass_top _ any any fuel h2 r2 r3 h3 replace_or_steady replace_or_safe replace_or_ends (fun _ e => e) O2 (Calm _ _ _ E2) T2 H3).
    destruct (pass_interp _ fuel h3 r3 c3 i r4 h4 replace_empty_steady (fun _ _ _ _ => eq_refl) E3 (top_alone _ _ _ _ _ T3 E3) H4) as (c4 & E4).
    assert (T4 := pass_top _ any any fuel h3 r3 r4 h4 replace_empty_steady replace_empty_safe replace_empty_ends (fun _ e => e) O3 (Calm _ _ _ E3) T3 H4).
    apply (pass_interp _ fuel h4 r4 c4 i r h' (flatten_steady fuel) (fun _ _ _ _ => eq_refl) E4 (top_alone _ _ _ _ _ T4 E4) H5).
  Qed.

  Variable activate_pred : pred -> res pred.
  Variable activate_pipe : pipe -> res pipe.
  Hypothesis pred_twice : forall x y, activate_pred x = Ok y -> activate_pred y = Ok y.
  Hypothesis pipe_twice : forall x y, activate_pipe x = Ok y -> activate_pipe y = Ok y.
  Theorem parser_rule_interp fuel (h : heap) root r h' c i : source h root -> top not_once h root -> nth_error h root = Some (OInterp c i) ->
    parser_rule pipe_bnf bnf_lines activate_pred activate_pipe fuel h root = Some (Ok (r, h')) -> interpreted_at h' r i.
  Proof.
    intros S T E H. unfold RuleModel.parser_rule in H. apply then_ok in H as ((r1 & ha) & H1 & H). apply then_ok in H as ((rn & hn) & H2 & H3).
    destruct (activate_ok activate_pred activate_pipe pred_twice pipe_twice fuel h root r1 ha H1) as [-> A]. assert (Sa := source_activated activate_pred activate_pipe h ha root S A).
    assert (Ta := top_activated activate_pred activate_pipe h ha root A T). destruct Sa as (Ga & Oa & oa & Ea & Pa). assert (La : root < length ha) by (apply nth_error_Some; congruence).
    assert (Ei : nth_error ha root = Some (OInterp c i)).
    { destruct (proj1 (proj2 A) root _ (reach_refl h root) E) as (o' & E' & K). rewrite E'. inversion K; subst; reflexivity. }
    destruct (normalized_interp fuel ha root rn hn c i Ga Oa Ta Ei H2) as (cn & En).
    assert (Tn := normalized_top pipe_bnf bnf_lines fuel ha root rn hn Ga Oa (ex_intro _ oa (conj Ea Pa)) Ta H2).
    destruct (normalized_ok pipe_bnf bnf_lines fuel ha root (reach ha root) rn hn Ga (reach_refl ha root) H2) as (Gn & _).
    destruct (normalized_ordered fuel ha root rn hn Oa La H2) as (On & _ & _).
    unfold as_bnf in H3. apply then_ok in H3 as ((r1 & h1) & H4 & H). apply then_ok in H as ((r2 & h2) & H5 & H).
    assert (K := to_bnf_interp pipe_bnf bnf_lines fuel hn rn cn i r1 h1 En (top_alone _ _ _ _ _ Tn En) H4).
    destruct (to_bnf_ok pipe_bnf bnf_lines fuel hn rn r1 h1 Gn On (ex_intro _ _ (conj En eq_refl)) H4) as (G1 & R1 & _).
    destruct (remove_forward_ok pipe_bnf bnf_lines h1 (reach h1 r1) G1 fuel r1 r2 h2 (reach_refl h1 r1) R1 H5) as (_ & _ & _ & Ne).
    destruct (nth_error h2 r2) as [o|] eqn:Eo; [|discriminate]. destruct (is_bnf o) eqn:B; [|discriminate]. destruct (bfs fuel h2 r2) as [objects|]; [|discriminate]. injection H as <- <-.
    apply generate_interp. destruct K as (o1 & a & K1 & K2 & K3). destruct (proj2 Ne r1 o1 K1) as (o2 & E2 & N2).
    assert (o2 = o1) as -> by (destruct N2 as [->|(ts & ts' & m & -> & _)]; [reflexivity|discriminate]). exists o1, a. split; [|auto].
    destruct (remove_forward_root fuel h1 r1 r2 h2 H5) as [->|(d & F)]; [exact E2|]. rewrite E2 in F. injection F as ->. discriminate.
  Qed.
End Whole.
