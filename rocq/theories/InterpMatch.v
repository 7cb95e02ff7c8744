(** Facts of matches given out by the parser: spans and JSON.  Ambiguous inputs,
    custom functions, texts. *)
From Coq Require Import Sorted Permutation.
From Verif Require Import Base TokenModel EarleyModel TreeModel TreeSpec TreeProofs ParserModel ParserSpec MatchProofs ResultProofs ParserTheorems
  AgreeProofs ReportProofs TokenizerSpec PredicateModel PredicateProofs InterpModel InterpSpec InterpProofs FactProofs FactTheorems ResultWf InterpTheorems.

(** ** Reported matches *)
Section Reported.
  Context {pred : Type}.
  Variable accepts : pred -> token -> bool.
  Variable constrain : pred -> token -> token.
  Variable rel : nat -> form -> form -> bool.
  Variable g : grammar token pred.
  Variable fuel : nat.
  Variable toks : list token.

  Lemma reported_tree s m : predicates_narrow accepts constrain -> reported accepts constrain rel g fuel toks s m ->
    exists all trees n, parse accepts constrain g fuel toks all = Some trees /\ In (n, m_range m) trees /\
      propagate n = Some (m_root m) /\ good_store toks trees s.
  Proof.
    intros PN R. destruct R as [s ms m H HI|s m H|all trees k ms s e m P H HI].
    - destruct (findall_reported accepts constrain rel g toks fuel s ms m H HI) as (trees & n & P & HT & HP).
      exists true, trees, n. split; auto. split; auto. split; auto.
      destruct (findall_spec accepts constrain rel g fuel toks s ms (good_store toks trees) trees H P)
        as (found & F1 & F2 & F3 & F4 & F5 & F6); auto.
      { eapply good_nil; eauto. }
      intros t s0 s' m0 HT' GS E. eapply prepare_good; eauto.
    - destruct (match_spec accepts constrain rel g fuel toks _ H) as (trees & P & CASES).
      destruct CASES as [(t & s1 & m1 & X & HT & E & _)|[(t & e & X & _)|[X _]]];
        [injection X as <- <-|discriminate|discriminate].
      destruct (prepare_good accepts constrain rel g toks fuel false trees t [] s m PN P HT) as [GS _]; auto.
      { eapply good_nil; eauto. }
      destruct t as [n [i j]].
      destruct (prepare_match_inv rel g _ _ _ _ _ E (tree_nodup_id _ _ _ _ _ _ _ P _ HT) (tree_nodup_pos _ _ _ _ _ _ _ P _ HT))
        as (rl & gr & M1 & M2 & M3 & M4 & M5 & M6 & _).
      exists false, trees, n. rewrite M6. auto.
    - assert (G : forall l s0, incl l trees -> good_store toks trees s0 -> forall ms s e,
        prepare_matches rel g l s0 = (ms, s, e) -> good_store toks trees s /\
        (In m ms -> exists n, In (n, m_range m) trees /\ propagate n = Some (m_root m))).
      { induction l as [|t l IH]; intros s0 IC GS ms0 s1 e1 E; cbn [prepare_matches] in E.
        - injection E as <- <- <-. split; auto. intros [].
        - assert (HT : In t trees) by (apply IC; left; auto).
          assert (IC' : incl l trees) by (intros x Hx; apply IC; right; auto).
          destruct (prepare_match rel g t s0) as [[s2 [m2|]]|] eqn:EP.
          + destruct (prepare_matches rel g l s2) as [[ms2 s3] e2] eqn:E2. injection E as <- <- <-.
            destruct (prepare_good accepts constrain rel g toks fuel all trees t s0 s2 m2 PN P HT GS EP) as [G1 G2].
            destruct (IH s2 IC' G1 ms2 s3 e2 E2) as [A B]. split; auto.
            intros [->|HM]; [|apply B; auto]. destruct t as [n [i j]].
            destruct (prepare_match_inv rel g _ _ _ _ _ EP (tree_nodup_id _ _ _ _ _ _ _ P _ HT) (tree_nodup_pos _ _ _ _ _ _ _ P _ HT))
              as (rl & gr & M1 & M2 & M3 & M4 & M5 & M6 & _).
            exists n. rewrite M6. auto.
          + pose proof (prepare_match_none rel g _ _ _ EP) as ->. eapply IH; eauto.
          + injection E as <- <- <-. split; auto. intros []. }
      destruct (G (firstn k trees) []) with (ms := ms) (s := s) (e := e) as [A B]; auto.
      { intros x Hx. rewrite <- (firstn_skipn k trees). apply in_or_app. left. exact Hx. }
      { eapply good_nil; eauto. }
      destruct (B HI) as (n & HT & HP). exists all, trees, n. auto.
  Qed.

  (** The tokens under the match, in the state [s]. *)
  Lemma reported_tokens s m : predicates_narrow accepts constrain -> reported accepts constrain rel g fuel toks s m ->
    no_empty_node (m_root m) /\
    Forall2 (stands_for_token toks) (seq (fst (m_range m)) (snd (m_range m) - fst (m_range m))) (toks_of s (m_root m)).
  Proof.
    intros PN R. destruct (reported_tree s m PN R) as (all & trees & n & P & HT & HP & GS).
    split; [eapply propagate_no_empty; eauto|]. destruct (m_range m) as [i j]. cbn [fst snd].
    destruct (tree_pos accepts constrain g toks all fuel trees P n i j HT) as [A B].
    pose proof (propagate_leaves n) as PL. rewrite HP in PL. unfold toks_of. rewrite <- PL, <- B. clear PL.
    assert (X : forall l, In l (tree_leaves n) -> stands_for_token toks (leaf_pos l) (token_at s l)).
    { intros l Hl. apply GS. exists (n, (i, j)). auto. }
    clear - X. induction (tree_leaves n) as [|l ls IH]; cbn [map]; constructor; [apply X; left; auto|]. apply IH. intros. apply X. right. auto.
  Qed.
End Reported.

Lemma Forall2_length {A B} (R : A -> B -> Prop) l l' : Forall2 R l l' -> length l = length l'.
Proof. induction 1; cbn; congruence. Qed.
Lemma app_inj_len {A} (a a' b b' : list A) : a ++ b = a' ++ b' -> length a = length a' -> a = a' /\ b = b'.
Proof.
  revert a'. induction a as [|x a IH]; intros [|y a'] E L; cbn in *; try discriminate; auto.
  injection E as -> E. destruct (IH a' E) as [-> ->]; auto.
Qed.

(** ** Sorting of spans *)
Notation by_start := (fun a b : Z * Z => Z.ltb (fst a) (fst b)).
Definition start_le (a b : Z * Z) : Prop := (fst a <= fst b)%Z.
Lemma insert_perm x l : Permutation (x :: l) (insert by_start x l).
Proof.
  induction l as [|y l IH]; cbn [insert]; [reflexivity|]. destruct (Z.ltb (fst x) (fst y)); [reflexivity|].
  rewrite <- IH. apply perm_swap.
Qed.
Lemma insert_sorted x l : StronglySorted start_le l -> StronglySorted start_le (insert by_start x l).
Proof.
  unfold start_le. induction 1 as [|y l S IH F]; cbn [insert]; [repeat constructor|]. destruct (Z.ltb (fst x) (fst y)) eqn:E.
  - apply Z.ltb_lt in E. constructor; [constructor; auto|]. constructor; [lia|]. rewrite Forall_forall in *. intros z Hz. specialize (F z Hz). lia.
  - apply Z.ltb_ge in E. constructor; auto. rewrite Forall_forall in *. intros z Hz.
    apply (Permutation_in _ (Permutation_sym (insert_perm x l))) in Hz as [<-|Hz]; auto.
Qed.
Lemma sorted_spans_ok l : StronglySorted start_le (sorted_spans l) /\ Permutation l (sorted_spans l).
Proof.
  unfold sorted_spans, isort.
  assert (G : forall l acc, StronglySorted start_le acc ->
    StronglySorted start_le (fold_left (fun acc x => insert by_start x acc) l acc) /\
    Permutation (l ++ acc) (fold_left (fun acc x => insert by_start x acc) l acc)).
  { clear. induction l as [|x l IH]; intros acc S; cbn [fold_left app]; [split; [auto|reflexivity]|].
    destruct (IH (insert by_start x acc) (insert_sorted x acc S)) as [A B]. split; auto.
    rewrite <- B, <- insert_perm. apply Permutation_middle. }
  destruct (G l [] (SSorted_nil _)) as [A B]. rewrite app_nil_r in B. auto.
Qed.

Section Values.
  Variable schemes : nat -> scheme.
  Variable subclass : nat -> nat -> bool.
  Variable U : unicode.
  Variable inflect : nat -> list str -> option str.
  Notation call_interpretator := (call_interpretator schemes subclass U inflect).
  Notation call_norm := (call_norm schemes U inflect).
  Notation normalized_result := (normalized_result schemes).
  Notation value_of := (value_of schemes subclass U inflect).

  Section Match.
    Context {pred : Type}.
    Variable accepts : pred -> token -> bool.
    Variable constrain : pred -> token -> token.
    Variable rel : nat -> form -> form -> bool.
    Variable g : grammar token pred.
    Variable interps : nat -> interpretator.
    Notation match_fact := (match_fact schemes subclass U inflect g interps).
    Notation interpret := (interpret schemes subclass U inflect g interps).
    Notation visit := (visit_interp schemes subclass U inflect g interps).

    Lemma root_fact s n sc r : root_class g interps n sc -> interpret s n = Ok r -> exists f, r = RFact f /\ fact_class f = sc.
    Proof.
      intros (id & ru & q & rank & ch & i & -> & Gi & Ei) H. unfold InterpModel.interpret in H.
      destruct (keep g (Node id ru q rank ch)) as [n'|] eqn:K; cbn [bind] in H; [|discriminate].
      unfold keep in K. destruct (has_interp g (Node id ru q rank ch)) eqn:HI; [|discriminate].
      rewrite kept_eq, HI in K. injection K as <-. cbn [visit_interp] in H.
      destruct (mapM (visit s) (flat_map (kept g) ch)) as [items|]; cbn [bind] in H; [|discriminate].
      rewrite Gi, Ei in H. cbn [InterpModel.call_interpretator] in H.
      destruct (call_fact schemes subclass sc items) as [x|] eqn:E; cbn [bind] in H; [|discriminate]. injection H as <-.
      apply call_fact_spec in E as (rep & chg & attrs & -> & _). eexists. split; reflexivity.
    Qed.

    Lemma fact_spans fuel toks s m sc v : predicates_narrow accepts constrain -> kinds_agree schemes subclass ->
      (forall i, const_interpretator (interps i) = false) ->
      reported accepts constrain rel g fuel toks s m -> root_class g interps (m_root m) sc ->
      match_fact s m = Ok v ->
      exists l f, value_spans v = Ok l /\ StronglySorted start_le l /\ interpret s (m_root m) = Ok (RFact f) /\
        (forall sp, In sp l <-> exists ts, chain_in (RFact f) ts /\ get_tokens_span ts = Ok sp) /\
        (forall ts, chain_in (RFact f) ts -> exists i j, fst (m_range m) <= i < j /\ j <= snd (m_range m) /\
           Forall2 (stands_for_token toks) (seq i (j - i)) ts) /\
        (forall sp, In sp l -> exists i j a b, fst (m_range m) <= i <= j /\ j < snd (m_range m) /\
           nth_error toks i = Some a /\ nth_error toks j = Some b /\ sp = (t_start a, t_stop b)).
    Proof.
      intros PN KA NC R RC H. destruct (reported_tokens accepts constrain rel g fuel toks s m PN R) as [NE F].
      unfold InterpModel.match_fact in H. destruct (interpret s (m_root m)) as [r|] eqn:EI; cbn [bind] in H; [|discriminate].
      destruct (root_fact s _ sc r RC EI) as (f & -> & FC).
      assert (W : wf_result schemes (run_of (toks_of s (m_root m))) (fun _ => True) False (RFact f)).
      { eapply interpret_wf; [exact KA| | | | |exact NE|exact EI]; auto.
        - intros i. destruct (interps i) as [| |n|a n]; cbn; auto; destruct n; cbn; auto.
        - intros i E. rewrite NC in E. discriminate. }
      destruct (wf_spans schemes _ _ (fun ts (X : run_of _ ts) => proj1 X) _ W) as (l & El & Sl). cbn [spans_result] in El.
      destruct (sorted_spans_ok l) as [SS SP].
      assert (RUN : forall ts, chain_in (RFact f) ts -> ts <> [] /\ exists i j, fst (m_range m) <= i < j /\ j <= snd (m_range m) /\
           Forall2 (stands_for_token toks) (seq i (j - i)) ts).
      { intros ts HC. destruct (chain_wf _ _ _ _ _ _ HC W) as [N (a & b & E)]. split; auto.
        rewrite E in F. apply Forall2_app_inv_r in F as (s1 & s23 & F1 & F23 & E1).
        apply Forall2_app_inv_r in F23 as (s2 & s3 & F2 & F3 & E2). subst s23.
        assert (L2 : length s2 <> 0). { rewrite (Forall2_length _ _ _ F2). destruct ts; cbn; congruence. }
        assert (LEN : snd (m_range m) - fst (m_range m) = length s1 + length s2 + length s3).
        { rewrite <- (seq_length (snd (m_range m) - fst (m_range m)) (fst (m_range m))), E1, !app_length. lia. }
        exists (fst (m_range m) + length s1), (fst (m_range m) + length s1 + length s2).
        split; [lia|]. split; [lia|]. replace (_ + _ + _ - _) with (length s2) by lia.
        replace (seq (fst (m_range m) + length s1) (length s2)) with s2; auto.
        rewrite LEN in E1. rewrite !seq_app, <- app_assoc in E1.
        apply app_inj_len in E1 as [_ E1]; [|rewrite seq_length; reflexivity].
        apply app_inj_len in E1 as [E1 _]; [|rewrite seq_length; reflexivity]. auto. }
      assert (v' : exists values, v = VFact sc values f).
      { cbn in H. destruct f as [sc' rep chg attrs]. cbn in FC. subst sc'. apply normalized_fact_spec in H as (values & -> & _). eauto. }
      destruct v' as [values ->].
      exists (sorted_spans l), f. cbn [value_spans]. rewrite El. cbn [bind]. split; auto. split; auto. split; auto.
      assert (IFF : forall sp, In sp (sorted_spans l) <-> exists ts, chain_in (RFact f) ts /\ get_tokens_span ts = Ok sp).
      { intros sp. rewrite <- Sl. split; apply Permutation_in; [apply Permutation_sym|]; auto. }
      split; auto. split.
      - intros ts HC. exact (proj2 (RUN ts HC)).
      - intros sp Hsp. apply IFF in Hsp as (ts & HC & E). destruct (RUN ts HC) as (N & i & j & A & B & D).
        destruct (span_of_tokens toks i (j - i) ts sp D E) as (a & b & X & Y & Z & W').
        exists i, (j - 1), a, b. split; [lia|]. split; [lia|]. split; auto. split; [|auto]. rewrite <- Y. f_equal. lia.
    Qed.

    Lemma in_order_nth ts i j a b : in_order ts -> i < j -> nth_error ts i = Some a -> nth_error ts j = Some b ->
      (t_stop a <= t_start b)%Z.
    Proof.
      intros O L A B. apply nth_error_split in A as (l1 & l2 & -> & <-).
      rewrite nth_error_app2 in B by lia. replace (j - length l1) with (S (j - length l1 - 1)) in B by lia. cbn in B.
      apply nth_error_split in B as (l3 & l4 & -> & _). eapply O. reflexivity.
    Qed.

    Lemma fact_spans_inside fuel toks s m sc v : predicates_narrow accepts constrain -> kinds_agree schemes subclass ->
      (forall i, const_interpretator (interps i) = false) ->
      reported accepts constrain rel g fuel toks s m -> root_class g interps (m_root m) sc ->
      match_fact s m = Ok v -> in_order toks -> (forall t, In t toks -> (t_start t <= t_stop t)%Z) ->
      good_match toks m ->
      forall l sp, value_spans v = Ok l -> In sp l -> (fst (m_span m) <= fst sp <= snd sp)%Z /\ (snd sp <= snd (m_span m))%Z.
    Proof.
      intros PN KA NC R RC H O POS GM l sp E HI.
      destruct (fact_spans fuel toks s m sc v PN KA NC R RC H) as (l' & f & E' & _ & _ & _ & _ & X).
      rewrite E in E'. injection E' as <-. destruct (X sp HI) as (i & j & a & b & A & B & C & D & ->).
      destruct GM as (_ & ma & mb & MA & MB & ML & ->). cbn [fst snd].
      assert (P : forall k t, nth_error toks k = Some t -> (t_start t <= t_stop t)%Z) by (intros k t Hk; apply POS; eapply nth_error_In; eauto).
      assert (X1 : (t_start ma <= t_start a)%Z).
      { destruct (Nat.eq_dec (fst (m_range m)) i) as [<-|N]; [rewrite MA in C; injection C as ->; lia|].
        pose proof (in_order_nth toks (fst (m_range m)) i _ _ O ltac:(lia) MA C). pose proof (P _ _ MA). lia. }
      assert (X2 : (t_stop b <= t_stop mb)%Z).
      { destruct (Nat.eq_dec j (snd (m_range m) - 1)) as [->|N]; [rewrite MB in D; injection D as ->; lia|].
        pose proof (in_order_nth toks j (snd (m_range m) - 1) _ _ O ltac:(lia) D MB). pose proof (P _ _ MB). lia. }
      assert (X3 : (t_start a <= t_stop b)%Z).
      { destruct (Nat.eq_dec i j) as [->|N]; [rewrite C in D; injection D as ->; eauto|].
        pose proof (in_order_nth toks i j _ _ O ltac:(lia) C D). pose proof (P _ _ C). pose proof (P _ _ D). lia. }
      lia.
    Qed.

    Lemma reported_good fuel toks s m : predicates_narrow accepts constrain ->
      reported accepts constrain rel g fuel toks s m -> good_match toks m.
    Proof.
      intros PN [s0 ms m0 F HI|s0 m0 M|all trees k ms s0 e m0 P H HI].
      - eapply findall_good; eauto.
      - eapply match_good; eauto.
      - assert (G : forall l s0, incl l trees -> good_store toks trees s0 -> forall ms s e,
          prepare_matches rel g l s0 = (ms, s, e) -> In m0 ms -> good_match toks m0).
        { induction l as [|t l IH]; intros s1 IC GS ms0 s2 e1 E HM; cbn [prepare_matches] in E.
          - injection E as <- <- <-. destruct HM.
          - assert (HT : In t trees) by (apply IC; left; auto).
            assert (IC' : incl l trees) by (intros x Hx; apply IC; right; auto).
            destruct (prepare_match rel g t s1) as [[s3 [m2|]]|] eqn:EP.
            + destruct (prepare_matches rel g l s3) as [[ms2 s4] e2] eqn:E2. injection E as <- <- <-.
              destruct (prepare_good accepts constrain rel g toks fuel all trees t s1 s3 m2 PN P HT GS EP) as [G1 G2].
              destruct HM as [<-|HM]; auto. eapply IH; eauto.
            + pose proof (prepare_match_none rel g _ _ _ EP) as ->. eapply IH; eauto.
            + injection E as <- <- <-. destruct HM. }
        eapply (G (firstn k trees) []); eauto.
        + intros x Hx. rewrite <- (firstn_skipn k trees). apply in_or_app. auto.
        + eapply good_nil; eauto.
    Qed.

    Lemma spans_inside fuel toks s m sc v : predicates_narrow accepts constrain -> kinds_agree schemes subclass ->
      (forall i, const_interpretator (interps i) = false) ->
      reported accepts constrain rel g fuel toks s m -> root_class g interps (m_root m) sc ->
      match_fact s m = Ok v -> in_order toks -> (forall t, In t toks -> (t_start t <= t_stop t)%Z) ->
      forall l sp, value_spans v = Ok l -> In sp l -> (fst (m_span m) <= fst sp <= snd sp)%Z /\ (snd sp <= snd (m_span m))%Z.
    Proof.
      intros PN KA NC R RC H O POS. eapply fact_spans_inside; eauto. eapply reported_good; eauto.
    Qed.

    Lemma result_json P C : forall r, wf_result schemes P fact_free C r -> forall v, normalized_result r = Ok v -> is_fact v ->
      value_json schemes v = json_result schemes r.
    Proof.
      apply (result_induct (fun r => wf_result schemes P fact_free C r -> forall v, normalized_result r = Ok v -> is_fact v ->
        value_json schemes v = json_result schemes r) (fun _ => True) (fun _ => True)); auto.
      - intros ts k _ v H. cbn in H. injection H as <-. intros (? & ? & ? & ?). discriminate.
      - intros [sc rep chg attrs] _ _ v H _. apply normalized_fact_spec in H as (values & -> & _). reflexivity.
      - intros w r _ [W _] v H (sc & at_ & raw & ->). cbn in H. injection H as ->. discriminate W.
      - intros w items k [W _] v H (sc & at_ & raw & ->). cbn in H. injection H as ->. discriminate W.
    Qed.

    Lemma fact_json s m v : kinds_agree schemes subclass ->
      (forall sc k d, get_decl k (schemes sc) = Some (Plain d) -> fact_free d) ->
      (forall i, interpretator_values fact_free (interps i)) ->
      match_fact s m = Ok v -> is_fact v -> value_json schemes v = Ok (to_json v).
    Proof.
      intros KA D V H IF. unfold InterpModel.match_fact in H.
      destruct (interpret s (m_root m)) as [r|] eqn:EI; cbn [bind] in H; [|discriminate].
      assert (W : wf_result schemes (fun _ => True) fact_free True r).
      { eapply interpret_wf_any; [exact KA|exact D| |exact V| |exact EI]; auto.
        - intros x. reflexivity.
        - intros i _. exact I. }
      pose proof (wf_json schemes _ _ D r W v H) as J.
      rewrite <- J. eapply result_json; eauto.
    Qed.
    Lemma fact_json_only s m v : kinds_agree schemes subclass ->
      (forall sc k d, get_decl k (schemes sc) = Some (Plain d) -> fact_free d) ->
      (forall i, interpretator_values fact_free (interps i)) ->
      match_fact s m = Ok v -> (is_fact v -> value_json schemes v = Ok (to_json v)) /\ (~ is_fact v -> value_json schemes v = Err AttributeError).
    Proof.
      intros KA D V H. split; [exact (fact_json s m v KA D V H)|]. intro N. destruct v; try reflexivity. exfalso. apply N. unfold is_fact. eauto.
    Qed.
  End Match.

  (** ** Ambiguous inputs *)
  Lemma not_all_tokens items : all_tokens items = None <-> exists i, In i items /\ ~ is_token_item i.
  Proof.
    induction items as [|[t|r] items IH]; cbn [all_tokens].
    - split; [discriminate|]. intros (i & [] & _).
    - destruct (all_tokens items) as [ts|] eqn:E.
      + split; [discriminate|]. intros (i & [<-|H] & N); [exfalso; apply N; exists t; reflexivity|].
        assert (Some ts = None) by (apply IH; eauto). discriminate.
      + split; auto. intros _. destruct (proj1 IH eq_refl) as (i & H & N). exists i. split; [right|]; auto.
    - split; auto. intros _. exists (IResult r). split; [left; auto|]. intros [t E]. discriminate.
  Qed.

  Lemma attribute_ambiguous a items key : Forall proper_item items ->
    (ambiguous items -> call_attribute a items key = Err TypeError) /\
    (~ ambiguous items -> exists r, call_attribute a items key = Ok (RAttr r a)).
  Proof.
    intros F. unfold ambiguous, call_attribute. rewrite <- not_all_tokens. split.
    - intros [-> L]. destruct items as [|[t|[]] [|]]; try reflexivity; cbn in L; congruence.
    - intros H. destruct (all_tokens items) as [ts|] eqn:E; [eauto|].
      destruct (Nat.eq_dec (length items) 1) as [L|L]; [|tauto].
      destruct items as [|i [|]]; try discriminate. inversion F as [|? ? Hi _]; subst.
      destruct i as [t|[ts k|f|v b|v inp]]; [discriminate E|destruct Hi|eauto..].
  Qed.
  Lemma norm_ambiguous n items key : is_const n = false -> ambiguous items -> call_norm n items key = Err TypeError.
  Proof.
    intros C [A L]. apply not_all_tokens in A. destruct n; try discriminate; cbn [InterpModel.call_norm]; rewrite A;
      destruct items as [|[t|r] [|]]; try reflexivity; cbn in L; congruence.
  Qed.
  (** Otherwise the outcome is that of the normalizer on the chain or the item. *)
  Lemma norm_clear n items key : is_const n = false -> ~ ambiguous items ->
    exists r, source_of items key r /\
      call_norm n items key = (let! v := call_normalizer schemes U inflect n r in Ok (RNorm v (NResult r))).
  Proof.
    intros C A. unfold ambiguous in A. rewrite <- not_all_tokens in A. destruct (all_tokens items) as [ts|] eqn:E.
    - exists (RChain ts key). split; [left; exists ts; split; auto; apply all_tokens_spec; auto|].
      destruct n; try discriminate; cbn [InterpModel.call_norm]; rewrite E; reflexivity.
    - destruct (Nat.eq_dec (length items) 1) as [L|L]; [|tauto].
      destruct items as [|[t|r] [|]]; try discriminate. exists r. split; [right; auto|].
      destruct n; try discriminate; reflexivity.
  Qed.
  Lemma norm_const v items key : call_norm (NConst v) items key = Ok (RNorm v (NInput items key)).
  Proof. reflexivity. Qed.

  Definition is_morph (n : normalizer) : bool := match n with NMorph _ | NMorphFunction _ _ => true | _ => false end.
  Lemma morph_on_result n r key : is_morph n = true -> proper_item (IResult r) ->
    call_norm n [IResult r] key = Err TypeError.
  Proof. intros M H. destruct n; try discriminate; destruct r; try reflexivity; destruct H. Qed.

  (** ** Custom functions *)
  Lemma norm_value n items key : is_const n = false ->
    value_of (INorm n) items key =
    match all_tokens items with
    | Some ts => call_normalizer schemes U inflect n (RChain ts key)
    | None => match items with [IResult r] => call_normalizer schemes U inflect n r | _ => Err TypeError end
    end.
  Proof.
    intros C. unfold InterpSpec.value_of. cbn [InterpModel.call_interpretator].
    assert (X : call_norm n items key = match all_tokens items with
      | Some ts => let! v := call_normalizer schemes U inflect n (RChain ts key) in Ok (RNorm v (NResult (RChain ts key)))
      | None => match items with [IResult r] => let! v := call_normalizer schemes U inflect n r in Ok (RNorm v (NResult r)) | _ => Err TypeError end
      end) by (destruct n; try discriminate; reflexivity).
    rewrite X. destruct (all_tokens items) as [ts|].
    - destruct (call_normalizer _ _ _ _ _); reflexivity.
    - destruct items as [|[t|r] [|]]; try reflexivity. destruct (call_normalizer _ _ _ _ _); reflexivity.
  Qed.
  Lemma attr_norm_value a n items key : value_of (IAttrNorm a n) items key = value_of (INorm n) items key.
  Proof.
    unfold InterpSpec.value_of. cbn [InterpModel.call_interpretator]. destruct (call_norm n items key); reflexivity.
  Qed.
  Lemma attr_value a items key : Forall proper_item items ->
    value_of (IAttr a) items key =
    match all_tokens items with
    | Some ts => normalized_result (RChain ts key)
    | None => match items with [IResult r] => normalized_result r | _ => Err TypeError end
    end.
  Proof.
    intros F. unfold InterpSpec.value_of. cbn [InterpModel.call_interpretator]. unfold call_attribute.
    destruct (all_tokens items) as [ts|] eqn:E; [reflexivity|].
    destruct items as [|[t|r] [|]]; try reflexivity; try discriminate E.
    - inversion F as [|? ? Hi _]; subst. destruct r; try reflexivity. destruct Hi.
    - destruct r; reflexivity.
  Qed.

  Lemma custom_normalizer n f n' items key : normalizer_custom n f = Ok n' ->
    value_of (INorm n') items key = (let! w := value_of (INorm n) items key in f w).
  Proof.
    intros H. destruct n; try discriminate; cbn in H; injection H as <-; rewrite !norm_value by reflexivity;
      (destruct (all_tokens items) as [ts|]; [|destruct items as [|[t|r] [|]]]; try reflexivity); cbn [call_normalizer];
      destruct (normalized_result _) as [w|]; cbn [bind]; reflexivity.
  Qed.
  Lemma custom_attribute x f x' items key : Forall proper_item items -> attribute_custom f x = Ok x' ->
    value_of (attribute_interpretator x') items key = (let! w := value_of (attribute_interpretator x) items key in f w).
  Proof.
    intros F H. destruct x; try discriminate; cbn in H; injection H as <-; cbn [attribute_interpretator].
    - rewrite attr_norm_value, norm_value, attr_value by auto.
      destruct (all_tokens items) as [ts|]; [|destruct items as [|[t|r] [|]]]; reflexivity.
    - rewrite !attr_norm_value. apply custom_normalizer. reflexivity.
    - rewrite !attr_norm_value. apply custom_normalizer. reflexivity.
  Qed.
  Lemma custom_twice a f h items key r : Forall proper_item items -> source_of items key r ->
    exists x y, attribute_custom f (AAttribute a) = Ok x /\ attribute_custom h x = Ok y /\
    value_of (attribute_interpretator y) items key =
      (let! w := normalized_result r in let! v := f w in h v).
  Proof.
    intros F S. exists (AFunction a f), (AFunctionFunction a f h). split; [reflexivity|]. split; [reflexivity|].
    cbn [attribute_interpretator]. rewrite attr_norm_value, norm_value by reflexivity.
    destruct S as [(ts & -> & ->)| ->].
    - rewrite (proj2 (all_tokens_spec (map IToken ts) ts) eq_refl). reflexivity.
    - reflexivity.
  Qed.
  Lemma attribute_kept x f x' : attribute_custom f x = Ok x' ->
    forall items key r, call_interpretator (attribute_interpretator x') items key = Ok r -> exists v, r = RAttr v (base_attr x).
  Proof.
    intros H items key r. destruct x; try discriminate; cbn in H; injection H as <-; cbn [attribute_interpretator InterpModel.call_interpretator base_attr];
      destruct (call_norm _ items key); cbn [bind]; try discriminate; intros [= <-]; eauto.
  Qed.

  (** ** Text *)
  Lemma join_cons a l : join_tokens (a :: l) = t_value a ++ concat (format_tokens (Some (t_stop a)) l).
  Proof. reflexivity. Qed.
  Lemma joined_join ts : ts <> [] -> joined ts (join_tokens ts).
  Proof.
    destruct ts as [|t ts]; [congruence|]. intros _. revert t. induction ts as [|b ts IH]; intros a.
    - unfold join_tokens. cbn. rewrite app_nil_r. constructor.
    - rewrite join_cons. cbn [format_tokens]. destruct (Z.ltb 0 (t_start b - t_stop a)) eqn:E; cbn [app concat].
      + apply joined_gap; [apply Z.ltb_lt in E; lia|]. rewrite <- join_cons. apply IH.
      + apply joined_adjacent; [apply Z.ltb_ge in E; lia|]. rewrite <- join_cons. apply IH.
  Qed.
  Lemma joined_unique ts s s' : joined ts s -> joined ts s' -> s = s'.
  Proof.
    intros H. revert s'. induction H as [t|a b l s L H IH|a b l s L H IH]; intros s' H'; inversion H'; subst; try lia; auto;
      f_equal; auto. f_equal. auto.
  Qed.
  Lemma value_joined a ts key s : ts <> [] ->
    (value_of (IAttr a) (map IToken ts) key = Ok (VStr s) <-> joined ts s).
  Proof.
    intros N. rewrite attr_value by (rewrite Forall_forall; intros i Hi; apply in_map_iff in Hi as (t & <- & _); exact I).
    rewrite (proj2 (all_tokens_spec (map IToken ts) ts) eq_refl). cbn [InterpModel.normalized_result].
    split; [intros [= <-]; apply joined_join; auto|]. intros H. rewrite (joined_unique _ _ _ (joined_join ts N) H). reflexivity.
  Qed.

  (** normalized() and inflected(). *)
  Definition rewords (m : morph_normalizer) (t : token) : res token := match m with MNormalized => normalize_token U t | MInflected grams => inflect_token U inflect t grams end.
  Lemma rewords_spec m t : match rewords m t with Ok t' => reworded U inflect m t t' | Err e => e = IndexError /\ t_forms t = Some [] end.
  Proof.
    unfold rewords, normalize_token, inflect_token, normalized, form_inflect, reworded. destruct m as [|grams]; destruct (t_forms t) as [[|f fs]|]; cbn; auto.
    - split; [reflexivity|]. split; [reflexivity|]. right. exists f, fs. auto.
    - split; [reflexivity|]. split; [reflexivity|]. right. exists f, fs. split; [reflexivity|]. destruct (inflect (f_raw f) grams); auto.
  Qed.
  Lemma reworded_unique m t a b : reworded U inflect m t a -> reworded U inflect m t b -> t_start a = t_start b /\ t_stop a = t_stop b /\ t_value a = t_value b.
  Proof.
    intros (A1 & A2 & A3) (B1 & B2 & B3). split; [congruence|]. split; [congruence|]. destruct A3 as [[F ->]|(f & fs & F & W)], B3 as [[F' V]|(f' & fs' & F' & W')]; try congruence.
    assert (f' = f) as -> by congruence. destruct m; cbn in W, W'; [congruence|]. destruct W as [W|[W ->]], W' as [W'|[W' E]]; congruence.
  Qed.
  Lemma joined_alike ts ts' s : Forall2 (fun a b => t_start a = t_start b /\ t_stop a = t_stop b /\ t_value a = t_value b) ts ts' -> joined ts s -> joined ts' s.
  Proof.
    intros F J. revert ts' F. induction J as [t|a b l s L J IH|a b l s L J IH]; intros ts' F; inversion F as [|? a' ? l1 (A1 & A2 & A3) F1]; subst.
    - inversion F1; subst. rewrite A3. constructor.
    - inversion F1 as [|? b' ? l2 (B1 & B2 & B3) F2]; subst. rewrite A3. constructor; [congruence|]. apply IH, F1.
    - inversion F1 as [|? b' ? l2 (B1 & B2 & B3) F2]; subst. rewrite A3. constructor; [congruence|]. apply IH, F1.
  Qed.
  Lemma rewords_all m ts : match mapM (rewords m) ts with Ok ts' => Forall2 (reworded U inflect m) ts ts' | Err e => e = IndexError /\ exists t, In t ts /\ t_forms t = Some [] end.
  Proof.
    induction ts as [|t ts IH]; cbn; [constructor|]. assert (K := rewords_spec m t). destruct (rewords m t) as [t'|e]; cbn; [|destruct K as [-> K]; split; [reflexivity|exists t; auto]].
    destruct (mapM (rewords m) ts) as [ts'|e]; cbn; [constructor; assumption|]. destruct IH as (-> & u & Hu & E). split; [reflexivity|]. exists u. auto.
  Qed.
  Lemma morph_chain m ts key : (m = MNormalized -> key = None \/ key = Some []) -> InterpModel.call_morph U inflect m (RChain ts key) = (let! ts' := mapM (rewords m) ts in Ok (VStr (join_tokens ts'))).
  Proof.
    destruct m as [|grams]; cbn; intros K.
    - destruct (K eq_refl) as [->| ->]; unfold join_normalized_tokens; change (normalize_token U) with (rewords MNormalized); destruct (mapM (rewords MNormalized) ts); reflexivity.
    - unfold join_inflected_tokens. change (fun t => inflect_token U inflect t grams) with (rewords (MInflected grams)). destruct (mapM (rewords (MInflected grams)) ts); reflexivity.
  Qed.
  Lemma value_reworded m ts key i : ts <> [] -> (m = MNormalized -> key = None \/ key = Some []) -> (i = INorm (NMorph m) \/ exists a, i = IAttrNorm a (NMorph m)) ->
    (forall s, value_of i (map IToken ts) key = Ok (VStr s) <-> exists ts', Forall2 (reworded U inflect m) ts ts' /\ joined ts' s) /\
    (forall e, value_of i (map IToken ts) key = Err e <-> e = IndexError /\ exists t, In t ts /\ t_forms t = Some []).
  Proof.
    intros N K I. assert (V : value_of i (map IToken ts) key = (let! ts' := mapM (rewords m) ts in Ok (VStr (join_tokens ts')))).
    { unfold InterpSpec.value_of. assert (C : call_norm (NMorph m) (map IToken ts) key = (let! v := InterpModel.call_morph U inflect m (RChain ts key) in Ok (RNorm v (NResult (RChain ts key))))).
      { unfold InterpModel.call_norm. rewrite (proj2 (all_tokens_spec (map IToken ts) ts) eq_refl). reflexivity. }
      destruct I as [->|(a & ->)]; cbn [call_interpretator]; rewrite C, (morph_chain m ts key K); destruct (mapM (rewords m) ts); reflexivity. }
    rewrite V. assert (A := rewords_all m ts). destruct (mapM (rewords m) ts) as [ts'|e]; cbn.
    - assert (N' : ts' <> []) by (intros ->; inversion A; subst; contradiction). split.
      + intros s. split; [intros [= <-]; exists ts'; split; [exact A|apply joined_join, N']|]. intros (us & F & J). f_equal. f_equal. apply (joined_unique ts'); [apply joined_join, N'|].
        apply (joined_alike us); [|exact J]. clear - A F. revert us F. induction A as [|t t' l l' R A IH]; intros us F; inversion F; subst; constructor; [eapply reworded_unique; eassumption|apply IH; assumption].
      + intros e. split; [discriminate|]. intros (_ & t & Ht & E). exfalso. clear - A Ht E. induction A as [|u u' l l' R A IH]; [destruct Ht|]. destruct Ht as [->|Ht]; [|auto]. destruct R as (_ & _ & [[X _]|(f & fs & X & _)]); congruence.
    - destruct A as (-> & t & Ht & E). split.
      + intros s. split; [discriminate|]. intros (ts' & F & _). exfalso. clear - F Ht E. induction F as [|u u' l l' R A IH]; [destruct Ht|]. destruct Ht as [->|Ht]; [|auto]. destruct R as (_ & _ & [[X _]|(f & fs & X & _)]); congruence.
      + intros e. split; [intros [= <-]; eauto|intros (-> & _); reflexivity].
  Qed.

  (** With single spaces the text itself comes back. *)
  Lemma joined_text text ts : ts <> [] -> Forall (faithful text) ts -> single_spaces text ts ->
    exists before after, text = before ++ join_tokens ts ++ after /\
      match ts with t :: _ => t_start t = Z.of_nat (length before) | [] => True end.
  Proof.
    destruct ts as [|t ts]; [congruence|]. intros _. revert t. induction ts as [|b ts IH]; intros a F S.
    - inversion F as [|? ? Fa _]; subst. destruct Fa as (p & q & E & A & B). exists p, q.
      unfold join_tokens. cbn. rewrite app_nil_r. auto.
    - inversion F as [|? ? Fa Fb]; subst. destruct S as [G S]. destruct (IH b Fb S) as (p & q & E & A).
      destruct Fa as (pa & qa & Ea & Sa & Ta). rewrite join_cons. cbn [format_tokens].
      rewrite join_cons in E.
      assert (LE : length pa + length (t_value a) <= length text) by (rewrite Ea, !app_length; lia).
      destruct G as [G|[G Gs]].
      + rewrite (proj2 (Z.ltb_ge 0 (t_start b - t_stop a))) by lia. cbn [app concat].
        exists pa, q. split; auto. assert (EP : p = pa ++ t_value a).
        { assert (length p = length (pa ++ t_value a)) by (rewrite app_length; lia).
          rewrite Ea, app_assoc in E. apply app_inj_len in E as [E _]; auto. }
        rewrite E, EP, <- !app_assoc. reflexivity.
      + rewrite (proj2 (Z.ltb_lt 0 (t_start b - t_stop a))) by lia. cbn [app concat].
        exists pa, q. split; auto. assert (EP : p = pa ++ t_value a ++ [32%N]).
        { assert (LP : length p = length pa + length (t_value a) + 1) by lia.
          rewrite Ta, Nat2Z.id in Gs. rewrite Ea, app_assoc in Gs. rewrite nth_error_app2 in Gs by (rewrite app_length; lia).
          rewrite app_length in Gs. replace (_ - _) with 0 in Gs by lia. destruct qa as [|c qa]; [discriminate|]. injection Gs as ->.
          rewrite Ea in E. replace (pa ++ t_value a ++ 32%N :: qa) with ((pa ++ t_value a ++ [32%N]) ++ qa) in E by (rewrite <- !app_assoc; reflexivity).
          apply app_inj_len in E as [E _]; [auto|]. rewrite !app_length. cbn. lia. }
        rewrite E, EP. cbn [app]. rewrite <- !app_assoc. cbn [app]. rewrite <- !app_assoc. reflexivity.
  Qed.

  (** ** Dictionary lines *)
  Section Lines.
    Context {pred : Type}.
    Variable g : grammar token pred.
    Variable interps : nat -> interpretator.
    Variable s : store.
    Notation visit := (visit_interp schemes subclass U inflect g interps s).

    Lemma visit_leaves ch : Forall a_leaf ch -> mapM visit ch = Ok (map IToken (flat_map (tree_tokens s) ch)).
    Proof.
      induction 1 as [|c ch (id & pos & p & tk & ->) F IH]; [reflexivity|]. cbn [mapM]. cbn [visit_interp bind]. rewrite IH.
      cbn [bind flat_map]. reflexivity.
    Qed.
    Lemma line_value id r q rank ch i c line : Forall a_leaf ch -> g_interp g r = Some i -> g_key g q = Some (c :: line) ->
      (interps i = INorm (NMorph MNormalized) \/ (exists a, interps i = IAttrNorm a (NMorph MNormalized))) ->
      exists x, visit (Node id r q rank ch) = Ok (IResult x) /\ normalized_result x = Ok (VStr (c :: line)).
    Proof.
      intros F G K [E|[a E]]; cbn [visit_interp]; rewrite (visit_leaves ch F); cbn [bind]; rewrite G, K, E;
        cbn [InterpModel.call_interpretator InterpModel.call_norm];
        rewrite (proj2 (all_tokens_spec (map IToken _) _) eq_refl); cbn; eexists; split; reflexivity.
    Qed.
  End Lines.

  (** ** Order of attributes *)
  Lemma fact_order sc rep chg attrs values raw : NoDup (map fst (schemes sc)) ->
    normalized_fact schemes (mkFact sc rep chg attrs) = Ok (VFact sc values raw) -> map fst values = map fst (schemes sc).
  Proof.
    intros N H. rewrite normalized_fact_eq in H. destruct (mapM _ attrs) as [kw|]; cbn [bind] in H; [|discriminate].
    unfold fact_init in H. destruct (forallb _ kw); cbn [bind] in H; [|discriminate]. injection H as <- _.
    assert (G : forall (f : str -> pyval) l acc, NoDup (map fst acc ++ l) ->
      map fst (fold_left (fun acc k => sdict_set k (f k) acc) l acc) = map fst acc ++ l).
    { clear. intros f. induction l as [|k l IH]; intros acc N; cbn [fold_left]; [rewrite app_nil_r; reflexivity|].
      assert (E : map fst (sdict_set k (f k) acc) = map fst acc ++ [k]).
      { rewrite set_keys. destruct (str_in k (map fst acc)) eqn:E; [|reflexivity]. exfalso.
        unfold str_in in E. apply existsb_exists in E as (k' & I & E). apply str_eqb_eq in E as <-.
        apply NoDup_remove_2 in N. apply N. apply in_or_app. auto. }
      rewrite IH, E, <- app_assoc; [reflexivity|]. rewrite E, <- app_assoc. exact N. }
    apply G. exact N.
  Qed.

  Lemma const_value a v items key :
    (exists r, InterpModel.call_interpretator schemes subclass U inflect (INorm (NConst v)) items key = Ok r /\ InterpModel.normalized_result schemes r = Ok v) /\
    (exists r, InterpModel.call_interpretator schemes subclass U inflect (IAttrNorm a (NConst v)) items key = Ok (RAttr r a) /\
       InterpModel.normalized_result schemes r = Ok v).
  Proof. split; eexists; split; reflexivity. Qed.
  Lemma reinterpret a b v key :
    InterpModel.call_interpretator schemes subclass U inflect (IAttr b) [IResult (RAttr v a)] key = Ok (RAttr v b).
  Proof. reflexivity. Qed.
End Values.

Lemma joined_exists ts : ts <> [] -> exists s, joined ts s /\ forall s', joined ts s' -> s' = s.
Proof.
  intros N. exists (join_tokens ts). split; [apply joined_join, N|]. intros s' H. eapply joined_unique; eauto. apply joined_join, N.
Qed.
Lemma joined_source text ts s : joined ts s -> Forall (faithful text) ts -> single_spaces text ts ->
  exists before after, text = before ++ s ++ after /\
    match ts with t :: _ => t_start t = Z.of_nat (length before) | [] => True end.
Proof.
  intros J F S. assert (N : ts <> []) by (destruct J; discriminate).
  rewrite (joined_unique ts s _ J (joined_join ts N)). apply joined_text; auto.
Qed.
