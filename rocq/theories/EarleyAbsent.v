(** Completeness of the chart for grammars whose empty parts come in time. *)
From Verif Require Import Base EarleyModel EarleySpec EarleyInv EarleyProofs AbsentSpec EarleyRounds.
Open Scope nat_scope.

Section Absent.
  Context {token pred : Type}.
  Variable accepts : pred -> token -> bool.
  Variable constrain : pred -> token -> token.
  Variable g : grammar token pred.
  Variable toks : list token.
  Variable all : bool.

  Notation state := (state token pred).
  Notation cst := (cst token pred).
  Notation predicted := (predicted g toks).
  Notation next_term := (next_term g).
  Notation completed := (completed g).
  Notation expects := (expects g).
  Notation derives := (derives accepts g toks).
  Notation derives_seq := (derives_seq accepts g toks).

  Hypothesis PS : predict_sound g.
  Hypothesis PC : predict_complete accepts g.
  Variable lo : nat -> nat -> nat.
  Variable up : nat -> nat -> option nat.
  Hypothesis RO : rounds g lo up.
  Variable fuel : nat.
  Variable st : cst.
  Hypothesis CH : chart accepts constrain g toks fuel all = Some st.

  (** ** The rounds of a column *)
  Section Column.
    Variable k : nat.
    Variable L : nat -> nat.
    Hypothesis HL : history g toks all st k L.
    Notation col := (cols st k).
    Fixpoint bound (n : nat) : nat := match n with O => L 0 | S n' => L (bound n') end.

    Lemma grows i j : i <= j -> L i <= L j.
    Proof. induction 1 as [|j Le IH]; [lia|]. assert (Z := sch_grows _ _ _ _ _ _ (his_schedule _ _ _ _ _ _ HL) j ltac:(lia)). lia. Qed.
    Lemma most i : L i <= length col.
    Proof. apply (sch_most _ _ _ _ _ _ (his_schedule _ _ _ _ _ _ HL)). lia. Qed.
    Lemma bound_most n : bound n <= length col.
    Proof. destruct n; apply most. Qed.
    Lemma bound_step n : bound n <= bound (S n).
    Proof. cbn. apply (sch_ahead _ _ _ _ _ _ (his_schedule _ _ _ _ _ _ HL)); [lia|apply bound_most]. Qed.
    Lemma bound_grows n m : n <= m -> bound n <= bound m.
    Proof. induction 1 as [|m Le IH]; [lia|]. assert (Z := bound_step m). lia. Qed.
    Lemma next_bound i n : i < bound n -> L (S i) <= bound (S n).
    Proof. intros Lt. cbn. apply grows. lia. Qed.

    Lemma col_ok x : In x col -> In (s_prod x) (g_prods g (s_rule x)).
    Proof.
      intros Hx. destruct (chart_spec accepts constrain g toks all fuel st CH) as (V & _ & _). destruct (inv_ok _ _ _ _ _ _ _ V k x Hx) as (_ & _ & _ & N & _ & _).
      apply (predicted_in g toks PS (s_start x)). eapply nth_error_In; eauto.
    Qed.
    (** No item is added before its round. *)
    Lemma not_before : forall n m x, m < bound n -> nth_error col m = Some x -> lo (s_prod x) (s_dot x) <= n.
    Proof.
      assert (FIRST : forall m x, m < L 0 -> nth_error col m = Some x -> lo (s_prod x) (s_dot x) = 0).
      { intros m x Hm Hx. assert (Ix := col_ok x (nth_error_In _ _ Hx)). destruct (his_first _ _ _ _ _ _ HL m x Hm Hx) as [(n & p & -> & E)|[-> E]].
        - apply (rounds_word _ _ _ RO _ _ _ _ Ix E).
        - apply (rounds_start _ _ _ RO _ E). }
      induction n as [|n IH]; intros m x Hm Hx; [rewrite (FIRST m x Hm Hx); lia|].
      destruct (Nat.lt_ge_cases m (L 0)) as [Lt|Ge]; [rewrite (FIRST m x Lt Hx); lia|].
      destruct (sch_cause _ _ _ _ _ _ (his_schedule _ _ _ _ _ _ HL) m x Ge Hx) as (i & s & _ & [Hi1 Hi2] & Hs & Ca).
      assert (Li : i < bound n). { cbn in Hm. destruct (Nat.lt_ge_cases i (bound n)) as [|Ge']; [assumption|]. assert (Z := grows _ _ Ge'). lia. }
      assert (Is := col_ok s (nth_error_In _ _ Hs)). assert (Ix := col_ok x (nth_error_In _ _ Hx)). specialize (IH i s Li Hs).
      destruct Ca as [(r & E & Er & ->)|(C & d & -> & E)].
      - unfold EarleyModel.next_term in E. rewrite Er in Ix. destruct (rounds_predict _ _ _ RO _ _ _ _ _ Is E Ix) as [Z _]. lia.
      - destruct (rounds_part _ _ _ RO _ _ _ _ _ Ix E Is) as [Z _].
        destruct (chart_spec accepts constrain g toks all fuel st CH) as (V & _ & _). rewrite (completed_dot accepts constrain g toks k s (inv_ok _ _ _ _ _ _ _ V k s (nth_error_In _ _ Hs)) C) in IH. lia.
    Qed.
    Lemma in_first x m : nth_error col m = Some x -> scanned g x -> m < L 0.
    Proof.
      intros Hx (n & p & Ed & E). destruct (Nat.lt_ge_cases m (L 0)) as [|Ge]; [assumption|exfalso].
      destruct (sch_cause _ _ _ _ _ _ (his_schedule _ _ _ _ _ _ HL) m x Ge Hx) as (i & s & _ & _ & _ & [(r & _ & _ & Z)|(_ & d & Z & E')]); [congruence|]. rewrite Ed in Z. injection Z as <-. congruence.
    Qed.
  End Column.

  (** The state number [i] of column [k] is there by round [u]. *)
  Definition by_round (k i : nat) (u : option nat) : Prop :=
    forall v, u = Some v -> forall L, history g toks all st k L -> i < bound L v.
  Definition expected (k r : nat) : Prop :=
    forall q, In q (predicted k r) -> exists i x, nth_error (cols st k) i = Some x /\ serase x = (r, q, 0, k, []) /\ by_round k i (up q 0).

  Lemma empty_nullable :
    (forall t i j d, derives t i j d -> i = j -> nullable g t) /\
    (forall ts i j ds, derives_seq ts i j ds -> i = j -> forall t, In t ts -> nullable g t).
  Proof.
    apply derives_mutind.
    - intros; lia.
    - intros r q i j ds Hq Ds IH E. apply nullable_rule with (q := q); auto.
    - intros i _ t [].
    - intros t ts i k j d ds D IH1 Ds IH2 E t' Ht. assert (A := proj1 (proj1 (derives_span accepts g toks) _ _ _ _ D)). assert (B := proj1 (proj2 (derives_span accepts g toks) _ _ _ _ Ds)).
      destruct Ht as [<-|Ht]; [apply IH1; lia|apply IH2; [lia|exact Ht]].
  Qed.

  (** A state that waits for a rule: the rule is predicted. *)
  Lemma waiting_expected i m s r' : i <= length toks -> nth_error (cols st i) m = Some s -> next_term s = Some (TRule r') -> by_round i m (up (s_prod s) (s_dot s)) -> expected i r'.
  Proof.
    intros Hi Hs NTs Bs. assert (Hq := col_ok i s (nth_error_In _ _ Hs)). assert (NT := NTs). unfold EarleyModel.next_term in NT.
    destruct (chart_history accepts constrain g toks all PS fuel st CH i Hi) as (L & HL).
    intros q' Hq'. assert (F := sch_effects _ _ _ _ _ _ (his_schedule _ _ _ _ _ _ HL) m s ltac:(lia) Hs). unfold effects in F. rewrite NTs in F. destruct (F q' Hq') as (n & x & Ln & Hx & Ex).
            exists n, x. split; [exact Hx|]. split; [exact Ex|]. intros v Ev L' HL'.
            assert (F' := sch_effects _ _ _ _ _ _ (his_schedule _ _ _ _ _ _ HL') m s ltac:(lia) Hs). unfold effects in F'. rewrite NTs in F'. destruct (F' q' Hq') as (n' & x' & Ln' & Hx' & Ex').
            assert (n = n') as ->. { destruct (chart_spec accepts constrain g toks all fuel st CH) as (V & _ & _). eapply (serase_inj_nth accepts constrain g toks _ _ st i x x' n n' V); eauto. congruence. }
            destruct (rounds_predict _ _ _ RO _ _ _ _ _ Hq NT (predicted_in g toks PS i r' q' Hq')) as [_ A]. rewrite Ev in A. unfold after in A. destruct (up (s_prod s) (s_dot s)) as [w|] eqn:Ew; [|destruct A].
            assert (Z := next_bound i L' HL' m w (Bs w eq_refl L' HL')). assert (Z' := bound_grows i L' HL' (S w) v A). lia.
  Qed.

  Lemma found :
    (forall t i j d, derives t i j d -> i <= length toks -> forall r, t = TRule r -> expected i r ->
       exists m s, nth_error (cols st j) m = Some s /\ completed s = true /\ s_rule s = r /\ s_start s = i /\ erase (state_node s) = d /\
         by_round j m (up (s_prod s) (length (g_terms g (s_prod s))))) /\
    (forall ts i j ds, derives_seq ts i j ds -> i <= length toks -> forall r q from pre post m s, In q (g_prods g r) -> g_terms g q = pre ++ ts ++ post ->
       nth_error (cols st i) m = Some s -> s_rule s = r -> s_prod s = q -> s_start s = from -> s_dot s = length pre -> by_round i m (up q (length pre)) ->
       exists m' s', nth_error (cols st j) m' = Some s' /\ s_rule s' = r /\ s_prod s' = q /\ s_start s' = from /\ s_dot s' = length (pre ++ ts) /\
         map erase (s_children s') = map erase (s_children s) ++ ds /\ by_round j m' (up q (length (pre ++ ts)))).
  Proof.
    apply derives_mutind.
    - intros p i t _ _ _ r E. discriminate.
    - intros r q i j ds Hq Ds IH Hi r' E EX. injection E as <-.
      assert (Q : In q (predicted i r)) by (eapply derives_predicted; eauto; econstructor; eauto).
      destruct (EX q Q) as (m & s & Hs & Es & Bs). unfold serase in Es. injection Es as Er Ep Ed Ef Ec.
      destruct (IH Hi r q i [] [] m s) as (m' & s' & A1 & A2 & A3 & A4 & A5 & A6 & A7); auto. { cbn. rewrite app_nil_r. reflexivity. } cbn [app] in A5, A7.
      exists m', s'. split; [exact A1|]. split; [apply completed_iff; rewrite A3, A5; lia|]. split; [exact A2|]. split; [exact A4|]. split; [cbn; rewrite A2, A3, A6, Ec; reflexivity|].
      rewrite A3. exact A7.
    - intros i Hi r q from pre post m s Hq Et Hs Er Ep Ef Ed Bs. exists m, s. rewrite !app_nil_r. auto 10.
    - intros t ts i k j d ds D IH1 Ds IH2 Hi r q from pre post m s Hq Et Hs Er Ep Ef Ed Bs.
      assert (NT : nth_error (g_terms g q) (length pre) = Some t) by (rewrite Et, nth_error_app2, Nat.sub_diag by lia; reflexivity).
      assert (NTs : next_term s = Some t) by (unfold EarleyModel.next_term; rewrite Ep, Ed; exact NT).
      destruct (proj1 (derives_span accepts g toks) _ _ _ _ D) as (Lik & _ & Lk). specialize (Lk Hi).
      assert (NEXT : exists m1 s1, nth_error (cols st k) m1 = Some s1 /\ s_rule s1 = r /\ s_prod s1 = q /\ s_start s1 = from /\ s_dot s1 = S (length pre) /\
        map erase (s_children s1) = map erase (s_children s) ++ [d] /\ by_round k m1 (up q (S (length pre)))).
      { destruct t as [r'|p].
        - destruct (chart_history accepts constrain g toks all PS fuel st CH i Hi) as (L & HL).
          assert (EX : expected i r') by (eapply waiting_expected with (m := m) (s := s); eauto; rewrite Ep, Ed; exact Bs).
          destruct (IH1 Hi r' eq_refl EX) as (n & c & Hc & Cc & Rc & Sc & Ec & Bc).
          destruct (chart_history accepts constrain g toks all PS fuel st CH k Lk) as (L2 & HL2).
          assert (Qc : In (s_prod c) (g_prods g r')) by (rewrite <- Rc; apply (col_ok k c (nth_error_In _ _ Hc))).
          assert (NTc : next_term c = None) by (unfold EarleyModel.completed in Cc; destruct (next_term c); [discriminate|reflexivity]).
          assert (Xs : expects (s_rule c) s = true) by (unfold EarleyModel.expects; rewrite NTs, Rc; apply Nat.eqb_refl).
          assert (EARLY : forall L', history g toks all st k L' -> s_start c < k \/ s_start c = k /\ m < L' (S n)).
          { intros L' HL'. rewrite Sc. destruct (Nat.eq_dec i k) as [<-|Ne]; [|left; lia]. right. split; [reflexivity|].
            assert (AB : forall t, In t (g_terms g (s_prod c)) -> nullable g t).
            { rewrite <- Ec in D. cbn in D. inversion D; subst. eapply (proj2 empty_nullable); eauto. }
            assert (W := rounds_absent _ _ _ RO _ _ _ _ _ Hq NT Qc AB). unfold within in W. destruct (up q (length pre)) as [v|]; [|destruct W]. specialize (Bs v eq_refl L' HL').
            assert (Dc : s_dot c = length (g_terms g (s_prod c))). { destruct (chart_spec accepts constrain g toks all fuel st CH) as (V & _ & _). apply (completed_dot accepts constrain g toks i c (inv_ok _ _ _ _ _ _ _ V i c (nth_error_In _ _ Hc)) Cc). }
            assert (NB := fun b H => not_before i L' HL' b n c H Hc). rewrite Dc in NB.
            destruct (lo (s_prod c) (length (g_terms g (s_prod c)))) as [|b].
            - assert (v = 0) as -> by lia. cbn in Bs. assert (Z := grows i L' HL' 0 (S n) ltac:(lia)). lia.
            - assert (Ge : bound L' b <= n). { destruct (Nat.lt_ge_cases n (bound L' b)) as [Lt|]; [|assumption]. specialize (NB b Lt). lia. }
              assert (Z := grows i L' HL' (bound L' b) (S n) ltac:(lia)). assert (Z' := bound_grows i L' HL' v (S b) W). cbn in Z'. lia. }
          assert (F := sch_effects _ _ _ _ _ _ (his_schedule _ _ _ _ _ _ HL2) n c ltac:(lia) Hc). unfold effects in F. rewrite NTc in F.
          assert (Hsc : nth_error (cols st (s_start c)) m = Some s) by (rewrite Sc; exact Hs).
          destruct (F m s Hsc (EARLY L2 HL2) Xs) as (m1 & s1 & L1 & H1 & E1). rewrite serase_advance, Ec in E1. unfold serase in E1. injection E1 as F1 F2 F3 F4 F5.
          exists m1, s1. split; [exact H1|]. split; [congruence|]. split; [congruence|]. split; [congruence|]. split; [congruence|]. split; [exact F5|].
          intros v Ev L' HL'. assert (F' := sch_effects _ _ _ _ _ _ (his_schedule _ _ _ _ _ _ HL') n c ltac:(lia) Hc). unfold effects in F'. rewrite NTc in F'.
          destruct (F' m s Hsc (EARLY L' HL') Xs) as (m2 & s2 & L2' & H2 & E2).
          assert (m1 = m2) as ->. { destruct (chart_spec accepts constrain g toks all fuel st CH) as (V & _ & _). eapply (serase_inj_nth accepts constrain g toks _ _ st k s1 s2 m1 m2 V); eauto. rewrite E2, serase_advance, Ec. unfold serase. congruence. }
          destruct (rounds_part _ _ _ RO _ _ _ _ _ Hq NT Qc) as [_ A]. rewrite Ev in A. unfold after in A. destruct (up (s_prod c) (length (g_terms g (s_prod c)))) as [w|] eqn:Ew; [|destruct A].
          assert (Z := next_bound k L' HL' n w (Bc w eq_refl L' HL')). assert (Z' := bound_grows k L' HL' (S w) v A). lia.
        - inversion D as [p' i' tk T1 T2|]; subst. assert (CL := final_closed accepts constrain g toks all fuel st CH i s Hi (nth_error_In _ _ Hs)). unfold closed in CL. rewrite NTs in CL.
          specialize (CL _ T1 T2). apply has_iff in CL as (s1 & H1 & E1). unfold serase in E1. injection E1 as F1 F2 F3 F4 F5. apply In_nth_error in H1 as (m1 & H1). exists m1, s1.
          split; [exact H1|]. split; [congruence|]. split; [congruence|]. split; [congruence|]. split; [congruence|]. split; [exact F5|].
          intros v Ev L' HL'. assert (Z := in_first (S i) L' HL' s1 m1 H1). assert (Z' := bound_grows (S i) L' HL' 0 v ltac:(lia)). cbn in Z'.
          assert (m1 < L' 0); [|lia]. apply Z. exists (length pre), p. split; [congruence|]. rewrite F2. exact NT. }
      destruct NEXT as (m1 & s1 & H1 & N2 & N3 & N4 & N5 & N6 & N7).
      destruct (IH2 Lk r q from (pre ++ [t]) post m1 s1) as (m' & s' & A1 & A2 & A3 & A4 & A5 & A6 & A7); auto.
      + rewrite <- app_assoc. exact Et.
      + rewrite app_length. cbn. lia.
      + rewrite app_length. cbn. rewrite Nat.add_1_r. exact N7.
      + rewrite <- app_assoc in A5, A7. exists m', s'. split; [exact A1|]. split; [exact A2|]. split; [exact A3|]. split; [exact A4|]. split; [exact A5|]. split; [|exact A7]. rewrite A6, N6, <- app_assoc. reflexivity.
  Qed.

  Lemma start_expected k : k <= length toks -> k = 0 \/ all = true -> expected k (g_start g).
  Proof.
    intros Hk Ha q Hq. destruct (chart_history accepts constrain g toks all PS fuel st CH k Hk) as (L & HL).
    destruct (his_start _ _ _ _ _ _ HL Ha q Hq) as (i & x & Hi & Hx & E). exists i, x. split; [exact Hx|]. split; [exact E|]. intros v _ L' HL'.
    destruct (his_start _ _ _ _ _ _ HL' Ha q Hq) as (i' & x' & Hi' & Hx' & E').
    assert (i = i') as ->. { destruct (chart_spec accepts constrain g toks all fuel st CH) as (V & _ & _). eapply (serase_inj_nth accepts constrain g toks _ _ st k x x' i i' V); eauto. congruence. }
    assert (Z' := bound_grows k L' HL' 0 v ltac:(lia)). cbn in Z'. lia.
  Qed.
End Absent.

Theorem timely_chart_complete {token pred} (accepts : pred -> token -> bool) constrain (g : grammar token pred) toks all fuel st :
  predict_sound g -> predict_complete accepts g -> timely g -> chart accepts constrain g toks fuel all = Some st ->
  forall i j d, derives accepts g toks (TRule (g_start g)) i j d -> i <= length toks -> i = 0 \/ all = true ->
  exists s, In s (cols st j) /\ completed g s = true /\ s_rule s = g_start g /\ s_start s = i /\ erase (state_node s) = d.
Proof.
  intros PS PC (lo & up & RO) CH i j d D Hi Ha.
  destruct (proj1 (found accepts constrain g toks all PS PC lo up RO fuel st CH) _ _ _ _ D Hi _ eq_refl (start_expected accepts constrain g toks all PS up fuel st CH i Hi Ha)) as (m & s & A & B & C & E & F & _).
  exists s. split; [eapply nth_error_In; eauto|auto].
Qed.
