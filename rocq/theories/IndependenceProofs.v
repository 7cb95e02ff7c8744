(** Candidates that share no related leaf do not influence each other; parsers
    that never raise. *)
From Coq Require Import Permutation.
From Verif Require Import Base SpanModel EarleyModel EarleySpec EarleyInv EarleyProofs
  TokenModel TreeModel ParserModel TreeSpec TreeProofs RelationSpec RelationProofs
  ParserSpec FindallProofs ParserProofs MatchProofs ResultProofs ParserTheorems AgreeProofs ReportProofs.
Open Scope nat_scope.

Definition range_dec (a b : nat * nat) : {a = b} + {a <> b}.
Proof. decide equality; apply Nat.eq_dec. Defined.

(** ** Empty parses *)
Section Empty.
  Context {pred : Type}.
  Variable accepts : pred -> token -> bool.
  Variable g : grammar token pred.
  Variable toks : list token.

  Lemma derives_empty :
    (forall t i j d, derives accepts g toks t i j d -> i = j -> nullable g t) /\
    (forall ts i j ds, derives_seq accepts g toks ts i j ds -> i = j -> forall t, In t ts -> nullable g t).
  Proof.
    apply derives_mutind.
    - intros. lia.
    - intros r q i j ds HQ _ IH E. econstructor; eauto.
    - intros i _ t [].
    - intros t ts i k j d ds D1 IH1 D2 IH2 E u HU.
      pose proof (proj1 (proj1 (derives_span accepts g toks) _ _ _ _ D1)).
      pose proof (proj1 (proj2 (derives_span accepts g toks) _ _ _ _ D2)).
      assert (i = k) by lia. assert (k = j) by lia.
      destruct HU as [<-|HU]; auto.
  Qed.
End Empty.

Section Independent.
  Context {pred : Type}.
  Variable accepts : pred -> token -> bool.
  Variable constrain : pred -> token -> token.
  Variable rel : nat -> form -> form -> bool.
  Variable g : grammar token pred.
  Variable toks : list token.

  Notation node := (node token pred).
  Notation leaf := (@leaf pred).
  Notation tree := (@tree pred).
  Notation amatch := (@amatch pred).
  Notation parse := (parse accepts constrain g).
  Notation prepare_match := (prepare_match rel g).

  Section One.
    Variable all : bool.
    Variable fuel : nat.
    Variable trees : list tree.
    Hypothesis PARSE : parse fuel toks all = Some trees.
    Notation chart_leaf := (chart_leaf trees).

    Lemma parsed_nonempty n i j : predict_sound g -> ~ nullable g (TRule (g_start g)) -> In (n, (i, j)) trees -> i < j.
    Proof.
      intros PS NN H. destruct (parse_sound accepts constrain g fuel toks all trees n i j PS PARSE H) as (D & _).
      pose proof (proj1 (proj1 (derives_span accepts g toks) _ _ _ _ D)).
      destruct (Nat.eq_dec i j) as [E|]; [|lia]. exfalso. apply NN.
      eapply (proj1 (derives_empty accepts g toks)); eauto.
    Qed.

    (** ** A candidate depends on the tokens of its own leaves *)
    Lemma node_main_local s1 s2 : forall n : node,
      (forall l, In l (tree_leaves n) -> token_at s1 l = token_at s2 l) ->
      node_main (g_main g) s1 n = node_main (g_main g) s2 n.
    Proof.
      induction n as [id pos p tk|id r q rank ch IH] using node_ind2; intros H.
      - cbn [node_main]. f_equal. f_equal. apply (H (id, pos, p, tk)). left. auto.
      - cbn [node_main]. cbn [tree_leaves] in H. generalize (g_main g q). clear q.
        induction IH as [|c ch Hc IH IHch]; intros k; auto. cbn [flat_map] in H.
        destruct k as [|k].
        + apply Hc. intros l Hl. apply H. apply in_or_app. auto.
        + apply IHch. intros l Hl. apply H. apply in_or_app. auto.
    Qed.

    Lemma tree_relations_local s1 s2 (n : node) :
      (forall l, In l (tree_leaves n) -> token_at s1 l = token_at s2 l) ->
      tree_relations g s1 n = tree_relations g s2 n.
    Proof.
      intros H. unfold tree_relations.
      assert (W : forall m, In m (walk n) -> node_main (g_main g) s1 m = node_main (g_main g) s2 m).
      { intros m Hm. apply node_main_local. intros l Hl. apply H. eapply walk_sub; eauto. }
      revert W. generalize (walk n). intros ns. generalize (Ok empty_graph).
      induction ns as [|m ns IH]; intros gr W; auto. cbn [fold_left].
      assert (E : visit_relation g s1 gr m = visit_relation g s2 gr m).
      { unfold visit_relation. destruct gr as [gr|]; auto. cbn [bind]. destruct m; auto.
        destruct (g_relation g rule); auto. rewrite W; auto. left. auto. }
      rewrite E. apply IH. intros x Hx. apply W. right. auto.
    Qed.

    Definition outcome (r : res (store * option amatch)) : res (option amatch) :=
      match r with Ok (_, m) => Ok m | Err e => Err e end.

    Lemma prepare_local t s1 s2 : In t trees ->
      (forall l, In l (tree_leaves (fst t)) -> token_at s1 l = token_at s2 l) ->
      outcome (prepare_match t s1) = outcome (prepare_match t s2).
    Proof.
      intros HT H. destruct t as [n range]. cbn [fst] in H.
      pose proof (tree_nodup_id _ _ _ _ _ _ _ PARSE _ HT) as IDS.
      pose proof (tree_nodup_pos _ _ _ _ _ _ _ PARSE _ HT) as POS. cbn [fst] in IDS, POS.
      pose proof (propagate_leaves n) as EL.
      destruct (propagate n) as [n'|] eqn:P; [|unfold ParserModel.prepare_match; rewrite P; reflexivity].
      rewrite EL in H, IDS, POS.
      pose proof (tree_relations_local s1 s2 n' H) as GR.
      destruct (tree_relations g s2 n') as [gr|e] eqn:G2.
      2:{ unfold ParserModel.prepare_match. rewrite P, GR, G2. reflexivity. }
      destruct (related_exists g _ _ _ G2) as (rl & RL).
      destruct (snd (validate rel gr)) eqn:HV.
      - destruct (prepare_match_valid rel g s1 n n' range P IDS POS rl RL gr GR HV)
          as (s1' & [root1 range1 tok1 span1] & A1 & B1 & C1 & D1 & E1 & _).
        destruct (prepare_match_valid rel g s2 n n' range P IDS POS rl RL gr G2 HV)
          as (s2' & [root2 range2 tok2 span2] & A2 & B2 & C2 & D2 & E2 & _).
        rewrite A1, A2. cbn [m_root m_range m_tokens m_span outcome] in *.
        assert (T : tok1 = tok2).
        { rewrite D1, D2. apply map_ext_in. intros l Hl. unfold narrowed. rewrite (H l Hl). reflexivity. }
        rewrite T in E1. rewrite E1 in E2. injection E2 as ->. repeat f_equal; congruence.
      - rewrite (prepare_match_invalid rel g s1 n n' range P gr GR HV).
        rewrite (prepare_match_invalid rel g s2 n n' range P gr G2 HV). reflexivity.
    Qed.

    (** What an accepted candidate changes. *)
    Lemma prepare_changes t s s' m l : In t trees -> chart_leaf l -> prepare_match t s = Ok (s', Some m) ->
      token_at s' l = token_at s l \/
      (exists n' rl ro, propagate (fst t) = Some n' /\ related g n' rl /\ In (ro, l) rl).
    Proof.
      intros HT HL H. destruct t as [n range]. cbn [fst].
      pose proof (tree_nodup_pos _ _ _ _ _ _ _ PARSE _ HT) as POS. cbn [fst] in POS.
      destruct (prepare_match_inv rel g _ _ _ _ _ H (tree_nodup_id _ _ _ _ _ _ _ PARSE _ HT) POS)
        as (rl & gr & M1 & M2 & M3 & M4 & M5 & M6 & M7 & M8 & M9 & M10).
      destruct (in_dec Nat.eq_dec (leaf_id l) (map leaf_id (tree_leaves n))) as [HI|HI].
      - apply in_map_iff in HI as (l' & E & HI).
        assert (l' = l) as ->.
        { eapply chart_leaf_inj; eauto. exists (n, range). auto. }
        rewrite M9 by auto. unfold narrowed.
        destruct (existsb (fun e => Nat.eqb (leaf_pos (snd e)) (leaf_pos l)) rl) eqn:EX; [|auto].
        apply existsb_exists in EX as ([ro l'] & H1 & H2). apply Nat.eqb_eq in H2. cbn [snd] in H2.
        right. exists (m_root m), rl, ro. split; auto. split; auto.
        assert (l' = l) as <-; auto. rewrite <- M5 in POS, HI.
        eapply (rl_pos_eq g (m_root m) POS rl M2); eauto.
      - left. destruct l as [[[id pos] p] tk]. cbn [token_at leaf_id] in *. unfold leaf_token. rewrite M10; auto.
    Qed.

    (** ** Independence *)
    Section Unshared.
      Hypothesis UN : unshared g trees.

      (** Leaves that changed are related in a candidate already gathered. *)
      Definition touched (acc : list ((nat * nat) * amatch)) (s : store) : Prop :=
        forall l, chart_leaf l -> token_at s l = token_at [] l \/
          exists u u' rl ro, In u trees /\ In (snd u) (map fst acc) /\ propagate (fst u) = Some u' /\
            related g u' rl /\ In (ro, l) rl.

      Lemma touched_alone acc s t : touched acc s -> In t trees -> ~ In (snd t) (map fst acc) ->
        outcome (prepare_match t s) = outcome (prepare_match t []).
      Proof.
        intros TS HT NI. apply prepare_local; auto. intros l HL.
        destruct (TS l) as [|(u & u' & rl & ro & A & B & C & D & E)]; auto.
        { exists t. auto. }
        exfalso. apply (UN t u u' rl ro l HT A); auto. intros X. apply NI. rewrite X. auto.
      Qed.

      Definition alone (s : store) : Prop := s = [].

      Lemma collect_alone : forall rest acc s s' acc', incl rest trees -> touched acc s ->
        collect rel g rest acc s = Ok (s', acc') ->
        exists new, acc' = acc ++ new /\ gathered rel g alone rest acc new.
      Proof.
        induction rest as [|t rest IH]; intros acc s s' acc' INC HP H; cbn [collect] in H.
        - injection H as <- <-. exists []. rewrite app_nil_r. split; auto.
          split; cbn [map].
          + constructor.
          + intros r [].
          + constructor.
          + intros r m [].
          + intros t [].
        - assert (INC' : incl rest trees) by (intros x Hx; apply INC; right; auto).
          assert (HT : In t trees) by (apply INC; left; auto).
          destruct (lookup_range (snd t) acc) as [m0|] eqn:EL.
          + destruct (IH _ _ _ _ INC' HP H) as (new & -> & [G1 G2 G3 G4 G5]).
            exists new. split; auto.
            apply lookup_range_in in EL; auto. assert (KEY : In (snd t) (map fst acc)).
            { apply in_map_iff. exists (snd t, m0). auto. }
            split; auto.
            * cbn [map]. apply sub_skip. auto.
            * intros r m HI. destruct (G4 r m HI) as (pre & u & post & s1 & s2 & -> & A & B & C & D).
              exists (t :: pre), u, post, s1, s2. split; auto. split; auto. split; auto. split; auto.
              intros v [<-|Hv] Ev; auto. exfalso. apply (G2 r); [|congruence].
              apply in_map_iff. exists (r, m). auto.
            * intros v [<-|Hv] NI; auto. exfalso. apply NI. rewrite map_app. apply in_or_app. auto.
          + apply lookup_range_none in EL; auto.
            pose proof (touched_alone acc s t HP HT EL) as OUT.
            destruct (prepare_match t s) as [[s1 [m|]]|e] eqn:E; cbn [bind] in H; [| |discriminate].
            * destruct (prepare_match t []) as [[s0 [m'|]]|] eqn:E0; cbn [outcome] in OUT; try discriminate.
              injection OUT as <-.
              assert (HP1 : touched (acc ++ [(snd t, m)]) s1).
              { intros l HL. destruct (prepare_changes _ _ _ _ l HT HL E) as [X|(n' & rl & ro & X & Y & Z)].
                - rewrite X. destruct (HP l HL) as [|(u & u' & rl & ro & A & B & C)]; auto. right.
                  exists u, u', rl, ro. split; auto. split; auto. rewrite map_app. apply in_or_app. auto.
                - right. exists t, n', rl, ro. split; auto. split; auto. rewrite map_app. apply in_or_app. right. left. auto. }
              destruct (IH _ _ _ _ INC' HP1 H) as (new & -> & [G1 G2 G3 G4 G5]).
              exists ((snd t, m) :: new). rewrite <- app_assoc. split; auto.
              assert (NK : forall r, In r (map fst new) -> r <> snd t).
              { intros r Hr ->. apply (G2 _ Hr). rewrite map_app. apply in_or_app. right. left. auto. }
              split.
              -- cbn [map fst]. constructor; auto. intros X. apply (NK _ X). auto.
              -- intros r [<-|Hr]; auto. intros X. apply (G2 _ Hr). rewrite map_app. apply in_or_app. auto.
              -- cbn [map fst]. apply sub_keep. auto.
              -- intros r m' [HI|HI].
                 ++ injection HI as <- <-. exists [], t, rest, [], s0. split; auto. split; auto. split; [reflexivity|].
                    split; auto. intros u [].
                 ++ destruct (G4 r m' HI) as (pre & u & post & s2 & s3 & -> & A & B & C & D).
                    exists (t :: pre), u, post, s2, s3. split; auto. split; auto. split; auto. split; auto.
                    intros v [<-|Hv] Ev; auto. exfalso. apply (NK r); [|congruence].
                    apply in_map_iff. exists (r, m'). auto.
              -- intros v [<-|Hv] NI.
                 ++ exfalso. apply NI. rewrite map_app. apply in_or_app. right. left. auto.
                 ++ apply G5; auto. rewrite <- app_assoc. auto.
            * apply prepare_match_none in E as E'. subst s1.
              destruct (prepare_match t []) as [[s0 [m'|]]|] eqn:E0; cbn [outcome] in OUT; try discriminate.
              apply prepare_match_none in E0 as E'. subst s0.
              destruct (IH _ _ _ _ INC' HP H) as (new & -> & [G1 G2 G3 G4 G5]).
              exists new. split; auto. split; auto.
              -- cbn [map]. apply sub_skip. auto.
              -- intros r m HI. destruct (G4 r m HI) as (pre & u & post & s1 & s2 & -> & A & B & C & D).
                 exists (t :: pre), u, post, s1, s2. split; auto. split; auto. split; auto. split; auto.
                 intros v [<-|Hv] Ev; auto. exists []. split; [reflexivity|]. auto.
              -- intros v [<-|Hv] NI; auto. exists []. split; [reflexivity|]. auto.
      Qed.
    End Unshared.

    (** ** Nothing is raised *)
    Section Apply.
      Hypothesis RA : relations_apply g trees.
      Hypothesis NE : forall n i j, In (n, (i, j)) trees -> i < j.

      (** Tokens with forms still have forms. *)
      Definition formed (s : store) : Prop :=
        forall l, chart_leaf l -> t_forms (token_at [] l) <> None -> t_forms (token_at s l) <> None.

      Lemma formed_ok t s : In t trees -> formed s ->
        exists s' m, prepare_match t s = Ok (s', m) /\ formed s'.
      Proof.
        intros HT FS. destruct t as [n [i j]].
        pose proof (tree_nodup_id _ _ _ _ _ _ _ PARSE _ HT) as IDS.
        pose proof (tree_nodup_pos _ _ _ _ _ _ _ PARSE _ HT) as POS. cbn [fst] in IDS, POS.
        pose proof (propagate_leaves n) as EL.
        destruct (tree_pos _ _ _ _ _ _ _ PARSE _ _ _ HT) as [A B].
        destruct (propagate n) as [n'|] eqn:P.
        2:{ rewrite EL in B. simpl in B. pose proof (NE _ _ _ HT). destruct (j - i) eqn:X; [lia|discriminate]. }
        destruct (RA _ _ _ HT P) as (rl & RL & FO). rewrite EL in IDS, POS.
        destruct (graph_of_ok s rl) with (gr := empty_graph) as (gr & GR).
        { intros ro l HI. apply FS.
          - exists (n, (i, j)). split; auto. cbn [fst]. rewrite EL. eapply related_in; eauto.
          - destruct l as [[[id pos] p] tk]. apply (FO _ _ _ _ _ HI). }
        rewrite <- (tree_relations_related g s n' rl RL) in GR.
        destruct (snd (validate rel gr)) eqn:HV.
        - destruct (prepare_match_valid rel g s n n' (i, j) P IDS POS rl RL gr GR HV)
            as (s1 & m & M1 & M2 & M3 & M4 & M5 & M6 & M7).
          exists s1, (Some m). split; auto. intros l HL HF.
          destruct (prepare_changes _ _ _ _ l HT HL M1) as [X|(n2 & rl2 & ro & X & Y & Z)].
          + rewrite X. auto.
          + cbn [fst] in X. rewrite P in X. injection X as <-.
            rewrite M6 by (eapply related_in; eauto).
            unfold narrowed. destruct existsb; [discriminate|]. auto.
        - exists s, None. split; auto. apply (prepare_match_invalid rel g s n n' (i, j) P gr GR HV).
      Qed.

      Lemma collect_formed : forall rest acc s, incl rest trees -> formed s ->
        exists s' acc', collect rel g rest acc s = Ok (s', acc').
      Proof.
        induction rest as [|t rest IH]; intros acc s IC FS; cbn [collect]; eauto.
        assert (IC' : incl rest trees) by (intros x Hx; apply IC; right; auto).
        destruct (lookup_range (snd t) acc); auto.
        destruct (formed_ok t s) as (s1 & m & E & F1); auto; [apply IC; left; auto|].
        rewrite E. cbn [bind]. destruct m; auto.
      Qed.

      Lemma first_formed : forall rest s, incl rest trees -> formed s ->
        exists s' m, first_match rel g rest s = Ok (s', m).
      Proof.
        induction rest as [|t rest IH]; intros s IC FS; cbn [first_match]; eauto.
        assert (IC' : incl rest trees) by (intros x Hx; apply IC; right; auto).
        destruct (formed_ok t s) as (s1 & m & E & F1); auto; [apply IC; left; auto|].
        rewrite E. cbn [bind]. destruct m; eauto.
      Qed.
    End Apply.
  End One.

  (** ** findall and match *)
  Lemma findall_alone fuel trees s ms : parse fuel toks true = Some trees -> unshared g trees ->
    findall accepts constrain rel g fuel toks = Some (Ok (s, ms)) ->
    best_ranges (fun r => exists t s' m, In t trees /\ snd t = r /\ prepare_match t [] = Ok (s', Some m)) (map m_range ms) /\
    (forall m, In m ms -> exists t s', In t trees /\ snd t = m_range m /\ prepare_match t [] = Ok (s', Some m) /\
       forall u, In u trees -> snd u = m_range m -> tree_before u t -> prepare_match u [] = Ok ([], None)).
  Proof.
    intros PA UN H. unfold ParserModel.findall in H. rewrite PA in H.
    destruct (sort_trees_ok _ _ _ _ _ _ _ PA) as (sorted & S1 & S2 & S3). rewrite S1 in H. cbn [bind] in H.
    injection H as H.
    assert (INC : incl sorted trees).
    { intros x Hx. eapply Permutation_in; [apply Permutation_sym; eauto|auto]. }
    destruct (resolved_gathered accepts constrain rel g toks true fuel trees PA alone sorted ms s S2 S3)
      as (found & [G1 G2 G3 G4 G5] & C & B & SEL); auto.
    { intros s1 found C. destruct (collect_alone true fuel trees PA UN sorted [] [] s1 found INC) as (new & -> & G); auto.
      intros l HL. auto. }
    destruct SEL as (L1 & L2 & L3 & L4).
    assert (KEYS : forall r, In r (map fst found) <->
      exists t s' m, In t trees /\ snd t = r /\ prepare_match t [] = Ok (s', Some m)).
    { intros r. split.
      - intros HR. apply in_map_iff in HR as ([r' m] & <- & HI).
        destruct (G4 _ _ HI) as (pre & t & post & s1 & s2 & E & A1 & -> & A3 & A4).
        exists t, s2, m. split; auto. apply INC. rewrite E. apply in_or_app. right. left. auto.
      - intros (t & s' & m & HT & <- & E).
        destruct (in_dec range_dec (snd t) (map fst found)) as [|NI]; auto. exfalso.
        destruct (G5 t) as (s3 & -> & X); auto; [eapply Permutation_in; eauto|]. congruence. }
    split.
    - split; auto. split; [intros r HR; apply KEYS; auto|].
      split; intros S HS HC; [|intros HE]; [apply L3|apply L4]; auto; intros r HR; apply KEYS; auto.
    - intros m HM. destruct (G4 _ _ (B _ HM)) as (pre & t & post & s1 & s2 & E & A1 & -> & A3 & A4).
      exists t, s2. split; [apply INC; rewrite E; apply in_or_app; right; left; auto|].
      split; auto. split; auto. intros u Hu Er BF.
      assert (In u pre) as HP.
      { apply (Permutation_in _ S2) in Hu. rewrite E in Hu. apply in_app_or in Hu as [Hu|[->|Hu]]; auto.
        + apply tree_before_irrefl in BF. destruct BF.
        + exfalso. apply in_split in Hu as (q & z & ->).
          eapply tree_before_irrefl. eapply tree_before_trans; [exact BF|]. eapply S3. exact E. }
      destruct (A4 u HP Er) as (s3 & -> & X). auto.
  Qed.

  (** Overlap resolution raises nothing on ranges that are not empty. *)
  Lemma resolved_ok fuel trees sorted s found : parse fuel toks true = Some trees -> Permutation trees sorted ->
    pairwise tree_before sorted -> (forall n i j, In (n, (i, j)) trees -> i < j) ->
    collect rel g sorted [] [] = Ok (s, found) ->
    exists ms, prepare_resolved_matches rel g sorted [] = Ok (s, ms).
  Proof.
    intros PA S2 S3 NE C.
    assert (INC : incl sorted trees).
    { intros x Hx. eapply Permutation_in; [apply Permutation_sym; eauto|auto]. }
    unfold prepare_resolved_matches. rewrite C. cbn [bind].
    destruct (collect_spec rel g fuel trees (fun _ => True) (fun _ _ _ _ _ _ _ => Logic.I)
      _ _ _ _ _ INC Logic.I C) as (new & EN & HP' & G). cbn [app] in EN. subst new.
    destruct (resolve_ranges (map fst found)) as (out & R1 & R2 & R3 & R4).
    { eapply strict_pairwise; eauto; [|apply G]. eapply sublist_pairwise; eauto; [apply G|]. eapply weak_pairwise; eauto. }
    { intros r Hr. apply in_map_iff in Hr as ([r' m] & <- & Hr).
      destruct (ga_from _ _ _ _ _ _ G _ _ Hr) as (pre & t & post & s2 & s3 & E1 & <- & _).
      destruct t as [n [i j]]. cbn [fst snd]. eapply NE. apply INC. rewrite E1. apply in_or_app. right. left. reflexivity. }
    rewrite map_map in R1. rewrite R1. cbn [bind].
    assert (M : forall out, incl out (map fst found) -> exists ms0,
          mapM (fun sp => match lookup_range (Z.to_nat (fst sp), Z.to_nat (snd sp)) found with
                          | Some m => Ok m | None => Err KeyError end) (map zrange out) = Ok ms0).
    { clear out R1 R2 R3 R4. induction out as [|r out IH]; intros IO; cbn [map mapM]; eauto.
      unfold zrange at 1 2. cbn [fst snd]. rewrite !Nat2Z.id. rewrite <- surjective_pairing.
      destruct (lookup_range r found) as [m|] eqn:E.
      - cbn [bind]. destruct IH as (ms0 & EM); [intros x Hx; apply IO; right; auto|]. rewrite EM. cbn [bind]. eauto.
      - eapply lookup_range_none in E; eauto. exfalso. apply E. apply IO. left. auto. }
    destruct (M out R3) as (ms & EM). rewrite EM. cbn [bind]. eauto.
  Qed.

  Lemma formed_nil trees : formed trees [].
  Proof. intros l _ H. exact H. Qed.

  Lemma findall_never_raises fuel trees : predict_sound g -> ~ nullable g (TRule (g_start g)) ->
    parse fuel toks true = Some trees -> relations_apply g trees ->
    exists s ms, findall accepts constrain rel g fuel toks = Some (Ok (s, ms)).
  Proof.
    intros PS NN PA RA. unfold ParserModel.findall. rewrite PA.
    destruct (sort_trees_ok _ _ _ _ _ _ _ PA) as (sorted & S1 & S2 & S3). rewrite S1. cbn [bind].
    assert (INC : incl sorted trees).
    { intros x Hx. eapply Permutation_in; [apply Permutation_sym; eauto|auto]. }
    assert (NE : forall n i j, In (n, (i, j)) trees -> i < j).
    { intros. eapply parsed_nonempty; eauto. }
    destruct (collect_formed true fuel trees PA RA NE sorted [] [] INC (formed_nil trees)) as (s & found & C).
    destruct (resolved_ok fuel trees sorted s found PA S2 S3 NE C) as (ms & E). rewrite E. eauto.
  Qed.

  Lemma match_never_raises fuel trees : predict_sound g -> ~ nullable g (TRule (g_start g)) ->
    parse fuel toks false = Some trees -> relations_apply g trees ->
    exists s m, match_ accepts constrain rel g fuel toks = Some (Ok (s, m)).
  Proof.
    intros PS NN PA RA. unfold ParserModel.match_. rewrite PA.
    destruct (sort_trees_ok _ _ _ _ _ _ _ PA) as (sorted & S1 & S2 & S3). rewrite S1. cbn [bind].
    assert (INC : incl sorted trees).
    { intros x Hx. eapply Permutation_in; [apply Permutation_sym; eauto|auto]. }
    assert (NE : forall n i j, In (n, (i, j)) trees -> i < j).
    { intros. eapply parsed_nonempty; eauto. }
    destruct (first_formed false fuel trees PA RA NE sorted [] INC (formed_nil trees)) as (s & m & E).
    rewrite E. eauto.
  Qed.

  Lemma free_applies trees : relation_free g -> relations_apply g trees.
  Proof.
    intros RF n range n' _ _. exists []. split; [apply (free_relations g [] n' RF)|]. intros ? ? ? ? ? [].
  Qed.
  Lemma free_unshared trees : relation_free g -> unshared g trees.
  Proof.
    intros RF t u u' rl ro l _ _ _ _ RL HI. exfalso.
    destruct (free_relations g [] u' RF) as [_ R0].
    unfold related in *. inversion R0 as [E|]; rewrite <- E in RL; inversion RL; subst; destruct HI.
  Qed.

  Lemma never_raises fuel trees : predict_sound g -> ~ nullable g (TRule (g_start g)) ->
    relations_apply g trees \/ relation_free g ->
    (parse fuel toks true = Some trees ->
       exists s ms, findall accepts constrain rel g fuel toks = Some (Ok (s, ms))) /\
    (parse fuel toks false = Some trees ->
       exists s m, match_ accepts constrain rel g fuel toks = Some (Ok (s, m))).
  Proof.
    intros PS NN RA.
    assert (relations_apply g trees) by (destruct RA; auto using free_applies).
    split; intros PA; [eapply findall_never_raises|eapply match_never_raises]; eauto.
  Qed.
End Independent.
