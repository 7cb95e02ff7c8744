(** Results of whole matches: shape, spans and JSON; normalizers and texts. *)
From Verif Require Import Base TokenModel EarleyModel TreeModel TreeSpec TreeProofs ParserModel ParserSpec ResultProofs ParserTheorems
  AgreeProofs ReportProofs PredicateModel InterpModel InterpSpec InterpProofs FactProofs FactTheorems ResultWf.

Section Theorems.
  Variable schemes : nat -> scheme.
  Variable subclass : nat -> nat -> bool.
  Variable U : unicode.
  Variable inflect : nat -> list str -> option str.
  Notation call_fact := (call_fact schemes subclass).
  Notation call_norm := (call_norm schemes U inflect).
  Notation call_interpretator := (call_interpretator schemes subclass U inflect).
  Notation wf_result := (wf_result schemes).
  Notation wf_item := (wf_item schemes).

  (** ** Well-formedness of one interpretation *)
  Section Call.
    Variable P : list token -> Prop.
    Variable Q : pyval -> Prop.
    Variable C : Prop.
    Hypothesis KINDS : kinds_agree schemes subclass.
    Hypothesis DEFAULTS : forall sc k d, get_decl k (schemes sc) = Some (Plain d) -> Q d.
    Hypothesis STRINGS : forall s, Q (VStr s).

    Lemma is_rep_true d : is_rep d = true <-> d = Some Repeatable.
    Proof. destruct d as [[|]|]; cbn; split; congruence. Qed.
    Lemma kinds_is_rep sc sc' k : subclass sc' sc = true -> is_rep (get_decl k (schemes sc')) = is_rep (get_decl k (schemes sc)).
    Proof.
      intros H. pose proof (KINDS sc sc' k H) as K. unfold repeatable_attr in K. rewrite <- !is_rep_true in K.
      apply eq_true_iff_eq. exact K.
    Qed.

    Definition good_slot (rep : bool) (o : option slot) : Prop :=
      match o with Some s => shape rep s /\ wf_slot schemes P Q C s | None => True end.

    Lemma effect_good sc k : forall items, Forall (wf_item P Q C) items -> forall cur,
      good_slot (is_rep (get_decl k (schemes sc))) cur ->
      good_slot (is_rep (get_decl k (schemes sc))) (fold_left (effect subclass sc (is_rep (get_decl k (schemes sc))) k) items cur).
    Proof.
      intros items F. induction F as [|i items Hi F IH]; intros cur G; [exact G|]. cbn [fold_left]. apply IH.
      destruct i as [t|[ts key|[sc' rep' ochg oattrs]|v a|v inp]]; cbn [effect fact_class changed]; auto.
      - destruct (subclass sc' sc && str_in k ochg) eqn:E; [|auto]. apply andb_true_iff in E as [E1 E2].
        cbn in Hi. destruct Hi as (N & R & D & K & A). rewrite All_in in A. cbn in E2. 
        destruct (sdict_get k oattrs) as [s|] eqn:Es; [|exact I]. apply get_in in Es. destruct (A _ Es) as [A1 A2].
        cbn [fst snd] in *. cbn [good_slot]. rewrite R, (kinds_is_rep sc sc' k E1) in A1. auto.
      - destruct (subclass sc (a_fact a) && str_eqb k (a_name a)); [|auto]. cbn in Hi.
        destruct (is_rep (get_decl k (schemes sc))) eqn:ER.
        + destruct cur as [[l|d|r]|]; auto. destruct G as [_ G]. split; [reflexivity|].
          change (All (wf_result P Q C) l) in G. change (All (wf_result P Q C) (l ++ [v])). rewrite All_in in *.
          intros r Hr. apply in_app_or in Hr as [Hr|[<-|[]]]; auto.
        + split; [reflexivity|]. exact Hi.
    Qed.

    Lemma call_fact_wf sc items r : Forall (wf_item P Q C) items -> call_fact sc items = Ok r -> wf_result P Q C r.
    Proof.
      intros F H. apply call_fact_spec in H as (rep & chg & attrs & -> & N & R & Ch & G & K).
      cbn [ResultWf.wf_result wf_fact].
      assert (GS : forall k, good_slot (is_rep (get_decl k (schemes sc))) (sdict_get k attrs)).
      { intros k. rewrite G. apply effect_good; auto. destruct (get_decl k (schemes sc)) as [[d|]|] eqn:E; cbn; auto.
        split; auto. eapply DEFAULTS; eauto. }
      split; auto. split; auto. split; [|split; auto].
      - intros k Hk. rewrite G.
        assert (X : forall items cur, cur <> None -> Forall (wf_item P Q C) items ->
          fold_left (effect subclass sc (is_rep (get_decl k (schemes sc))) k) items cur <> None).
        { clear - Hk. induction items as [|i items IH]; intros cur Hc F; [exact Hc|]. cbn [fold_left].
          inversion F as [|? ? Hi F']; subst. apply IH; auto.
          destruct i as [t|[ts key|[sc' rep' ochg oattrs]|v a|v inp]]; cbn [effect fact_class changed]; auto.
          - destruct (subclass sc' sc && str_in k ochg) eqn:E; [|auto]. apply andb_true_iff in E as [_ E].
            cbn in Hi. destruct Hi as (_ & _ & _ & K & _). apply K. exact E.
          - destruct (_ && _); [|auto]. destruct (is_rep _); [|discriminate].
            destruct cur as [[]|]; auto; discriminate. }
        apply X; auto. destruct (get_decl k (schemes sc)) as [[]|]; cbn; congruence.
      - rewrite All_in. intros [k s] Hin. cbn [fst snd]. rewrite R. pose proof (GS k) as X.
        rewrite (in_get k s attrs N Hin) in X. exact X.
    Qed.

    Lemma all_tokens_spec items ts : all_tokens items = Some ts <-> items = map IToken ts.
    Proof.
      revert ts. induction items as [|[t|r] items IH]; intros ts; cbn [all_tokens].
      - split; [intros [= <-]; reflexivity|]. destruct ts; [auto|discriminate].
      - destruct (all_tokens items) as [ts'|] eqn:E.
        + rewrite (proj1 (IH ts') eq_refl). split; [intros [= <-]; reflexivity|].
          destruct ts as [|t' ts]; [discriminate|]. cbn. intros [= -> X]. f_equal. f_equal.
          clear - X. revert ts X. induction ts' as [|a l IH]; intros [|b m]; cbn; try discriminate; auto. intros [= -> X]. f_equal. auto.
        + split; [discriminate|]. destruct ts as [|t' ts]; [discriminate|]. cbn. intros [= -> X].
          apply IH in X. discriminate.
      - split; [discriminate|]. destruct ts; discriminate.
    Qed.

    Definition const_ok (i : interpretator) : Prop := const_interpretator i = true -> C.

    Lemma call_morph_string m r v : call_morph U inflect m r = Ok v -> exists s, v = VStr s.
    Proof.
      destruct r as [ts key| | |]; try discriminate. cbn. destruct m.
      - destruct key as [[|c key]|]; [|intros [= <-]; eauto|];
        destruct (join_normalized_tokens U ts); cbn [bind]; try discriminate; intros [= <-]; eauto.
      - destruct (join_inflected_tokens U inflect ts grams); cbn [bind]; try discriminate; intros [= <-]; eauto.
    Qed.
    Lemma normalizer_value n r v : normalizer_values Q n -> call_normalizer schemes U inflect n r = Ok v -> Q v.
    Proof.
      intros V H. destruct n as [m|w|f|f g|m f]; cbn in V, H.
      - apply call_morph_string in H as [s ->]. auto.
      - injection H as <-. auto.
      - destruct (normalized_result schemes r); cbn [bind] in H; [eauto|discriminate].
      - destruct (normalized_result schemes r); cbn [bind] in H; [|discriminate]. destruct (f a); cbn [bind] in H; [eauto|discriminate].
      - destruct (call_morph U inflect m r); cbn [bind] in H; [eauto|discriminate].
    Qed.

    Lemma call_norm_wf n items key r : normalizer_values Q n -> (is_const n = true -> C) -> Forall (wf_item P Q C) items ->
      (forall ts, all_tokens items = Some ts -> P ts) -> call_norm n items key = Ok r -> wf_result P Q C r.
    Proof.
      intros V CO F T H.
      assert (G : is_const n = false -> match all_tokens items with
        | Some ts => let! v := call_normalizer schemes U inflect n (RChain ts key) in Ok (RNorm v (NResult (RChain ts key)))
        | None => match items with
            | [IResult r] => let! v := call_normalizer schemes U inflect n r in Ok (RNorm v (NResult r))
            | _ => Err TypeError end end = Ok r -> wf_result P Q C r).
      { intros _. destruct (all_tokens items) as [ts|] eqn:E.
        - destruct (call_normalizer _ _ _ n (RChain ts key)) as [v|] eqn:Ev; cbn [bind]; [|discriminate]. intros [= <-].
          split; [eapply normalizer_value; eauto|]. apply (T ts eq_refl).
        - destruct items as [|[t|r0] [|]]; try discriminate. inversion F as [|? ? Hi _]; subst.
          destruct (call_normalizer _ _ _ n r0) as [v|] eqn:Ev; cbn [bind]; [|discriminate]. intros [= <-].
          split; [eapply normalizer_value; eauto|]. exact Hi. }
      destruct n; try (apply G; [reflexivity|exact H]). cbn in H. injection H as <-. split; [exact V|auto].
    Qed.

    Lemma call_wf i items key r : interpretator_values Q i -> const_ok i -> Forall (wf_item P Q C) items ->
      (forall ts, all_tokens items = Some ts -> P ts) -> call_interpretator i items key = Ok r -> wf_result P Q C r.
    Proof.
      intros V CO F T H. destruct i as [sc|a|n|a n]; cbn [InterpModel.call_interpretator] in H.
      - eapply call_fact_wf; eauto.
      - unfold call_attribute in H. destruct (all_tokens items) as [ts|] eqn:E.
        + injection H as <-. apply (T ts eq_refl).
        + destruct items as [|[t|[ts k|f|v b|v inp]] [|]]; try discriminate; injection H as <-; inversion F as [|? ? Hi _]; subst; exact Hi.
      - eapply call_norm_wf; eauto.
      - destruct (call_norm n items key) as [r'|] eqn:E; cbn [bind] in H; [|discriminate]. injection H as <-.
        eapply call_norm_wf in E; eauto.
    Qed.
  End Call.

  (** ** Whole trees *)
  Section Tree.
    Context {pred : Type}.
    Notation node := (node token pred).
    Variable g : grammar token pred.
    Variable interps : nat -> interpretator.
    Variable s : store.
    Variable Q : pyval -> Prop.
    Variable C : Prop.
    Hypothesis KINDS : kinds_agree schemes subclass.
    Hypothesis DEFAULTS : forall sc k d, get_decl k (schemes sc) = Some (Plain d) -> Q d.
    Hypothesis STRINGS : forall s, Q (VStr s).
    Hypothesis VALUES : forall i, interpretator_values Q (interps i).
    Hypothesis CONSTS : forall i, const_ok C (interps i).
    Notation visit := (visit_interp schemes subclass U inflect g interps s).
    Notation interpret := (interpret schemes subclass U inflect g interps s).

    Definition toks_of (n : node) : list token := map (token_at s) (tree_leaves n).
    Definition run_of (l ts : list token) : Prop := ts <> [] /\ exists a b, l = a ++ ts ++ b.
    Lemma toks_of_node id r q rank ch : toks_of (Node id r q rank ch) = flat_map toks_of ch.
    Proof.
      unfold toks_of. cbn [tree_leaves]. induction ch as [|c ch IH]; [reflexivity|]. cbn [flat_map]. rewrite map_app. f_equal. exact IH.
    Qed.
    Lemma run_of_sub c ch ts : In c ch -> run_of (toks_of c) ts -> run_of (flat_map toks_of ch) ts.
    Proof.
      intros H [N (a & b & E)]. split; auto. apply in_split in H as (l1 & l2 & ->).
      rewrite flat_map_app. cbn [flat_map]. rewrite E. exists (flat_map toks_of l1 ++ a), (b ++ flat_map toks_of l2).
      rewrite <- !app_assoc. reflexivity.
    Qed.

    (** [Q0]: what holds of the tokens given to a result directly. *)
    Lemma visit_wf : forall n : node, no_empty_node n -> forall i, visit n = Ok i -> 
      wf_item (run_of (toks_of n)) Q C i /\ (forall t, i = IToken t -> toks_of n = [t]).
    Proof.
      induction n as [id pos p tk|id r q rank ch IH] using node_ind2; intros NE i H.
      - cbn in H. injection H as <-. split; [exact I|]. intros t [= <-]. reflexivity.
      - cbn [visit_interp] in H. destruct (mapM visit ch) as [items|] eqn:EM; cbn [bind] in H; [|discriminate].
        destruct (g_interp g r) as [k|]; [|discriminate].
        destruct (call_interpretator (interps k) items (g_key g q)) as [x|] eqn:EC; cbn [bind] in H; [|discriminate]. injection H as <-.
        split; [|intros t E; discriminate]. cbn [ResultWf.wf_item]. apply no_empty_node_eq in NE as [N A]. rewrite all_no_empty_Forall in A.
        rewrite toks_of_node. apply (call_wf _ _ C KINDS DEFAULTS STRINGS (interps k) items (g_key g q)); [apply VALUES|apply CONSTS| | |exact EC].
        + rewrite Forall_forall in *. intros i Hi. destruct (mapM_in' _ _ _ EM _ Hi) as (c & E & Hc).
          destruct (IH c Hc (A c Hc) i E) as [W _]. destruct i as [t|y]; [exact I|]. cbn [ResultWf.wf_item] in *.
          eapply wf_mono; [|exact W]. intros ts. apply run_of_sub. auto.
        + intros ts E. apply all_tokens_spec in E. subst items.
          assert (X : flat_map toks_of ch = ts /\ (ch <> [] -> ts <> [])).
          { clear - EM IH A. revert ts EM. induction ch as [|c ch IHch]; intros ts EM; cbn [mapM] in EM.
            - injection EM as EM. destruct ts; [|discriminate]. split; auto.
            - destruct (visit c) as [i|] eqn:E; cbn [bind] in EM; [|discriminate].
              destruct (mapM visit ch) as [is|] eqn:E'; cbn [bind] in EM; [|discriminate].
              destruct ts as [|t ts]; [discriminate|]. cbn [map] in EM. injection EM as -> ->.
              inversion IH as [|? ? Hc IH']; subst. inversion A as [|? ? Ac A']; subst.
              destruct (Hc Ac _ E) as [_ T]. destruct (IHch IH' A' ts eq_refl) as [X _].
              cbn [flat_map]. rewrite (T t eq_refl), X. split; [reflexivity|discriminate]. }
          destruct X as [<- X]. split; [auto|]. exists [], []. rewrite app_nil_r. reflexivity.
    Qed.

    Lemma visit_wf_any : forall (n : node) i, visit n = Ok i -> wf_item (fun _ => True) Q C i.
    Proof.
      induction n as [id pos p tk|id r q rank ch IH] using node_ind2; intros i H; [cbn in H; injection H as <-; exact I|].
      cbn [visit_interp] in H. destruct (mapM visit ch) as [items|] eqn:EM; cbn [bind] in H; [|discriminate].
      destruct (g_interp g r) as [k|]; [|discriminate].
      destruct (call_interpretator (interps k) items (g_key g q)) as [x|] eqn:EC; cbn [bind] in H; [|discriminate]. injection H as <-.
      apply (call_wf _ _ C KINDS DEFAULTS STRINGS (interps k) items (g_key g q)); [apply VALUES|apply CONSTS| |auto|exact EC].
      rewrite Forall_forall in *. intros i Hi. destruct (mapM_in' _ _ _ EM _ Hi) as (c & E & Hc). eauto.
    Qed.
    Lemma interpret_wf_any n r : interpret n = Ok r -> wf_result (fun _ => True) Q C r.
    Proof.
      intros H. unfold InterpModel.interpret in H. destruct (keep g n) as [n'|] eqn:K; cbn [bind] in H; [|discriminate].
      destruct (visit n') as [i|] eqn:V; cbn [bind] in H; [|discriminate]. destruct i as [t|x]; [discriminate|]. injection H as <-.
      exact (visit_wf_any n' _ V).
    Qed.

    Lemma kept_no_empty n : no_empty_node n -> Forall no_empty_node (kept g n) /\ kept g n <> [].
    Proof.
      induction n as [id pos p tk|id r q rank ch IH] using node_ind2; intros NE.
      - cbn. split; [constructor; auto|discriminate].
      - apply no_empty_node_eq in NE as [N A]. rewrite all_no_empty_Forall in A.
        assert (X : Forall no_empty_node (flat_map (kept g) ch) /\ flat_map (kept g) ch <> []).
        { split.
          - rewrite Forall_forall in *. intros x Hx. apply in_flat_map in Hx as (c & Hc & Hx).
            destruct (IH c Hc (A c Hc)) as [F _]. rewrite Forall_forall in F. auto.
          - destruct ch as [|c ch]; [congruence|]. inversion IH as [|? ? Hc IH']; subst. inversion A as [|? ? Ac A']; subst.
            destruct (Hc Ac) as [_ Y]. cbn [flat_map]. destruct (kept g c); [congruence|discriminate]. }
        rewrite kept_eq. destruct (has_interp g _); [|exact X]. split; [|discriminate].
        constructor; [|constructor]. apply no_empty_node_eq. rewrite all_no_empty_Forall. tauto.
    Qed.
    Lemma keep_no_empty n n' : no_empty_node n -> keep g n = Ok n' -> no_empty_node n'.
    Proof.
      intros NE. unfold keep. destruct (has_interp g n); [|discriminate]. destruct (kept_no_empty n NE) as [F _].
      destruct (kept g n) as [|m [|]]; try discriminate. intros [= <-]. inversion F; auto.
    Qed.

    Lemma interpret_wf n r : no_empty_node n -> interpret n = Ok r -> wf_result (run_of (toks_of n)) Q C r.
    Proof.
      intros NE H. unfold InterpModel.interpret in H. destruct (keep g n) as [n'|] eqn:K; cbn [bind] in H; [|discriminate].
      destruct (visit n') as [i|] eqn:V; cbn [bind] in H; [|discriminate]. destruct i as [t|x]; [discriminate|]. injection H as <-.
      destruct (visit_wf n' (keep_no_empty _ _ NE K) _ V) as [W _]. unfold toks_of in *. rewrite (keep_leaves _ _ _ K) in W. exact W.
    Qed.
  End Tree.
End Theorems.
