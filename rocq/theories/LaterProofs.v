(** What happens to a match after it has been reported. *)
From Coq Require Import Permutation.
From Verif Require Import Base SpanModel EarleyModel EarleySpec EarleyInv EarleyProofs TokenModel TreeModel ParserModel TreeSpec TreeProofs RelationSpec RelationProofs
  ParserSpec FindallProofs ParserProofs MatchProofs ResultProofs ParserTheorems AgreeProofs ReportProofs IndependenceProofs PredicateModel InterpModel InterpProofs LaterModel LaterSpec.
Open Scope nat_scope.

Lemma fewer_refl t : fewer t t.
Proof. split; [repeat split|]. unfold forms_within. destruct (t_forms t); auto. Qed.
Lemma fewer_trans a b c : fewer a b -> fewer b c -> fewer a c.
Proof.
  intros [(A1 & A2 & A3 & A4 & A5) A6] [(B1 & B2 & B3 & B4 & B5) B6]. split; [repeat split; congruence|]. unfold forms_within in *.
  destruct (t_forms a), (t_forms b), (t_forms c); auto; try discriminate; try contradiction.
Qed.

Section Fact.
  Variable schemes : nat -> scheme.
  Variable subclass : nat -> nat -> bool.
  Variable U : unicode.
  Variable inflect : nat -> list str -> option str.
  Context {pred : Type}.
  Variable g : grammar token pred.
  Variable interps : nat -> interpretator.
  (** A fact is made of the tokens of the leaves. *)
  Lemma visit_local s1 s2 : forall n : node token pred, (forall l, In l (tree_leaves n) -> token_at s1 l = token_at s2 l) ->
    visit_interp schemes subclass U inflect g interps s1 n = visit_interp schemes subclass U inflect g interps s2 n.
  Proof.
    induction n as [id pos p tk|id r q rank ch IH] using node_ind2; intros H.
    - cbn. do 2 f_equal. apply (H (id, pos, p, tk)). left. reflexivity.
    - cbn [visit_interp]. assert (E : mapM (visit_interp schemes subclass U inflect g interps s1) ch = mapM (visit_interp schemes subclass U inflect g interps s2) ch); [|rewrite E; reflexivity].
      cbn [tree_leaves] in H. induction IH as [|c ch Hc _ IHc]; [reflexivity|]. cbn [mapM]. cbn [flat_map] in H. rewrite Hc by (intros l Hl; apply H, in_or_app; auto). rewrite IHc by (intros l Hl; apply H, in_or_app; auto). reflexivity.
  Qed.
  Lemma fact_local s1 s2 (m : @amatch pred) : (forall l, In l (tree_leaves (m_root m)) -> token_at s1 l = token_at s2 l) ->
    match_fact schemes subclass U inflect g interps s1 m = match_fact schemes subclass U inflect g interps s2 m.
  Proof.
    intros H. unfold match_fact, interpret. destruct (keep g (m_root m)) as [n|e] eqn:K; [|reflexivity]. cbn [bind]. rewrite (visit_local s1 s2); [reflexivity|]. rewrite (keep_leaves g _ _ K). exact H.
  Qed.
End Fact.

Section Later.
  Context {pred : Type}.
  Variable accepts : pred -> token -> bool.
  Variable constrain : pred -> token -> token.
  Variable rel : nat -> form -> form -> bool.
  Variable g : grammar token pred.
  Variable toks : list token.
  Notation tree := (@tree pred).
  Notation amatch := (@amatch pred).
  Notation prepare_match := (prepare_match rel g).

  Lemma yielded_matches trees : forall s, prepare_matches rel g trees s = let '(found, s', e) := yielded rel g trees s in (map fst found, s', e).
  Proof.
    induction trees as [|t trees IH]; intros s; [reflexivity|]. cbn [prepare_matches yielded]. destruct (prepare_match t s) as [[s' [m|]]|e]; [|apply IH|reflexivity].
    rewrite IH. destruct (yielded rel g trees s') as [[found s''] e]. reflexivity.
  Qed.
  Section One.
    Variable all : bool.
    Variable fuel : nat.
    Variable trees : list tree.
    Hypothesis PARSE : parse accepts constrain g fuel toks all = Some trees.
    Notation chart_leaf := (chart_leaf trees).

    Lemma step_fewer t s s' o l : In t trees -> chart_leaf l -> prepare_match t s = Ok (s', o) -> fewer (token_at s' l) (token_at s l).
    Proof.
      intros HT HL H. destruct o as [m|]; [|rewrite (prepare_match_none _ _ _ _ _ H); apply fewer_refl]. destruct t as [n range].
      pose proof (tree_nodup_pos _ _ _ _ _ _ _ PARSE _ HT) as POS. cbn [fst] in POS.
      destruct (prepare_match_inv rel g _ _ _ _ _ H (tree_nodup_id _ _ _ _ _ _ _ PARSE _ HT) POS) as (rl & gr & M1 & M2 & M3 & M4 & M5 & M6 & M7 & M8 & M9 & M10).
      destruct (in_dec Nat.eq_dec (leaf_id l) (map leaf_id (tree_leaves n))) as [HI|HI].
      - apply in_map_iff in HI as (l' & E & HI). assert (l' = l) as -> by (eapply chart_leaf_inj; eauto; exists (n, range); auto).
        rewrite M9 by auto. split; [apply narrowed_same_text|]. rewrite <- M5 in POS, HI. eapply narrowed_within; eauto.
      - destruct l as [[[id pos] p] tk]. cbn [token_at leaf_id] in *. unfold leaf_token. rewrite M10 by auto. apply fewer_refl.
    Qed.
    (** A match when it is made. *)
    Lemma made t s s' m : In t trees -> prepare_match t s = Ok (s', Some m) ->
      tree_leaves (m_root m) = tree_leaves (fst t) /\ m_range m = snd t /\ tree_tokens s' (m_root m) = m_tokens m.
    Proof.
      intros HT H. destruct t as [n range].
      destruct (prepare_match_inv rel g _ _ _ _ _ H (tree_nodup_id _ _ _ _ _ _ _ PARSE _ HT) (tree_nodup_pos _ _ _ _ _ _ _ PARSE _ HT)) as (rl & gr & M1 & M2 & M3 & M4 & M5 & M6 & M7 & M8 & M9 & M10).
      split; [exact M5|]. split; [exact M6|]. rewrite tree_tokens_leaves, M5, M7. apply map_ext_in. exact M9.
    Qed.
    Lemma leaves_in t l : In t trees -> In l (tree_leaves (fst t)) -> chart_leaf l.
    Proof. intros; exists t; auto. Qed.
    Lemma yielded_later : forall rest s found sf e, incl rest trees -> yielded rel g rest s = (found, sf, e) ->
      (forall l, chart_leaf l -> fewer (token_at sf l) (token_at s l)) /\
      forall m s1, In (m, s1) found -> exists t, In t rest /\ tree_leaves (m_root m) = tree_leaves (fst t) /\ tree_tokens s1 (m_root m) = m_tokens m /\
        forall l, chart_leaf l -> fewer (token_at sf l) (token_at s1 l).
    Proof.
      induction rest as [|t rest IH]; intros s found sf e INC H; cbn [yielded] in H; [injection H as <- <- <-; split; [intros; apply fewer_refl|intros m s1 []]|].
      assert (HT : In t trees) by (apply INC; left; reflexivity). assert (INC' : incl rest trees) by (intros x Hx; apply INC; right; exact Hx).
      destruct (prepare_match t s) as [[s' [m|]]|e1] eqn:P.
      - destruct (yielded rel g rest s') as [[found' sf'] e'] eqn:Y. injection H as <- <- <-. destruct (IH s' found' sf' e' INC' Y) as [K1 K2]. split.
        + intros l Hl. eapply fewer_trans; [apply K1; exact Hl|]. eapply step_fewer; eauto.
        + intros m1 s1 [[= -> ->]|HI].
          * destruct (made t s s1 m1 HT P) as (L & _ & T). exists t. split; [left; reflexivity|]. auto.
          * destruct (K2 m1 s1 HI) as (t' & A & B). exists t'. split; [right; exact A|exact B].
      - destruct (IH s' found sf e INC' H) as [K1 K2]. split.
        + intros l Hl. eapply fewer_trans; [apply K1; exact Hl|]. eapply step_fewer; eauto.
        + intros m1 s1 HI. destruct (K2 m1 s1 HI) as (t' & A & B). exists t'. split; [right; exact A|exact B].
      - injection H as <- <- <-. split; [intros; apply fewer_refl|intros m s1 []].
    Qed.
    Lemma tokens_later s1 s2 (n : node token pred) : (forall l, In l (tree_leaves n) -> fewer (token_at s1 l) (token_at s2 l)) -> Forall2 fewer (tree_tokens s1 n) (tree_tokens s2 n).
    Proof.
      rewrite !tree_tokens_leaves. induction (tree_leaves n) as [|l ls IH]; intros H; constructor; [apply H; left; reflexivity|apply IH; intros l' Hl'; apply H; right; exact Hl'].
    Qed.

    (** Candidates with tokens of their own. *)
    Lemma unchanged_by t u s s' o l : In t trees -> In u trees -> separate g trees -> t <> u -> prepare_match u s = Ok (s', o) -> In l (tree_leaves (fst t)) -> token_at s' l = token_at s l.
    Proof.
      intros HT HU S NE P HL. destruct o as [m|]; [|rewrite (prepare_match_none _ _ _ _ _ P); reflexivity].
      destruct (prepare_changes accepts constrain rel g toks all fuel trees PARSE u s s' m l HU (leaves_in t l HT HL) P) as [E|(n' & rl & ro & A & B & C)]; [exact E|].
      destruct (S t u n' rl ro l HT HU NE A B C HL).
    Qed.
    Lemma unchanged_later t : In t trees -> separate g trees -> forall rest s found sf e, incl rest trees -> ~ In t rest -> yielded rel g rest s = (found, sf, e) ->
      forall l, In l (tree_leaves (fst t)) -> token_at sf l = token_at s l.
    Proof.
      intros HT S. induction rest as [|u rest IH]; intros s found sf e INC NI H l HL; cbn [yielded] in H; [injection H as <- <- <-; reflexivity|].
      assert (HU : In u trees) by (apply INC; left; reflexivity). assert (INC' : incl rest trees) by (intros x Hx; apply INC; right; exact Hx). assert (NI' : ~ In t rest) by (intros X; apply NI; right; exact X).
      assert (NE : t <> u) by (intros ->; apply NI; left; reflexivity).
      destruct (prepare_match u s) as [[s' [m|]]|e1] eqn:P; [| |injection H as <- <- <-; reflexivity].
      - destruct (yielded rel g rest s') as [[found' sf'] e'] eqn:Y. injection H as <- <- <-. rewrite (IH s' found' sf' e' INC' NI' Y l HL). apply (unchanged_by t u s s' (Some m) l); auto.
      - rewrite (IH s' found sf e INC' NI' H l HL). apply (unchanged_by t u s s' None l); auto.
    Qed.
    Lemma yielded_unchanged : separate g trees -> forall rest s found sf e, incl rest trees -> NoDup rest -> yielded rel g rest s = (found, sf, e) ->
      forall m s1, In (m, s1) found -> forall l, In l (tree_leaves (m_root m)) -> token_at sf l = token_at s1 l.
    Proof.
      intros S. induction rest as [|t rest IH]; intros s found sf e INC ND H m s1 HI l HL; cbn [yielded] in H; [injection H as <- <- <-; destruct HI|].
      assert (HT : In t trees) by (apply INC; left; reflexivity). assert (INC' : incl rest trees) by (intros x Hx; apply INC; right; exact Hx). inversion ND as [|? ? NI ND']; subst.
      destruct (prepare_match t s) as [[s' [m1|]]|e1] eqn:P; [| |injection H as <- <- <-; destruct HI].
      - destruct (yielded rel g rest s') as [[found' sf'] e'] eqn:Y. injection H as <- <- <-. destruct HI as [[= -> ->]|HI]; [|eapply IH; eauto].
        destruct (made t s s1 m HT P) as (L & _). rewrite L in HL. apply (unchanged_later t HT S rest s1 found' sf' e' INC' NI Y l HL).
      - eapply IH; eauto.
    Qed.
    (** findall: the trees are handled one after another before anything is yielded. *)
    Lemma collect_later : forall rest acc s s' acc', incl rest trees -> collect rel g rest acc s = Ok (s', acc') ->
      (forall l, chart_leaf l -> fewer (token_at s' l) (token_at s l)) /\
      forall r m, In (r, m) acc' -> In (r, m) acc \/ exists t s1, In t rest /\ snd t = r /\ tree_leaves (m_root m) = tree_leaves (fst t) /\ tree_tokens s1 (m_root m) = m_tokens m /\
        (forall l, chart_leaf l -> fewer (token_at s' l) (token_at s1 l)).
    Proof.
      induction rest as [|t rest IH]; intros acc s s' acc' INC H; cbn [collect] in H; [injection H as <- <-; split; [intros; apply fewer_refl|auto]|].
      assert (HT : In t trees) by (apply INC; left; reflexivity). assert (INC' : incl rest trees) by (intros x Hx; apply INC; right; exact Hx).
      destruct (lookup_range (snd t) acc) as [m0|].
      { destruct (IH acc s s' acc' INC' H) as [K1 K2]. split; [exact K1|]. intros r m HI. destruct (K2 r m HI) as [X|(t' & s1 & A & B)]; [auto|]. right. exists t', s1. split; [right; exact A|exact B]. }
      destruct (prepare_match t s) as [[s1 o]|e] eqn:P; cbn [bind] in H; [|discriminate]. destruct o as [m1|].
      - destruct (IH _ s1 s' acc' INC' H) as [K1 K2]. split.
        + intros l Hl. eapply fewer_trans; [apply K1; exact Hl|]. eapply step_fewer; eauto.
        + intros r m HI. destruct (K2 r m HI) as [X|(t' & s2 & A & B)].
          * apply in_app_or in X as [X|[[= <- <-]|[]]]; [auto|]. right. destruct (made t s s1 m1 HT P) as (L & _ & T). exists t, s1. split; [left; reflexivity|]. auto.
          * right. exists t', s2. split; [right; exact A|exact B].
      - destruct (IH _ s1 s' acc' INC' H) as [K1 K2]. split.
        + intros l Hl. eapply fewer_trans; [apply K1; exact Hl|]. eapply step_fewer; eauto.
        + intros r m HI. destruct (K2 r m HI) as [X|(t' & s2 & A & B)]; [auto|]. right. exists t', s2. split; [right; exact A|exact B].
    Qed.
    Lemma collect_unchanged : unshared g trees -> forall rest acc s s' acc', incl rest trees -> collect rel g rest acc s = Ok (s', acc') ->
      (forall t l, In t trees -> In (snd t) (map fst acc) -> In l (tree_leaves (fst t)) -> token_at s' l = token_at s l) /\
      forall r m, In (r, m) acc' -> In (r, m) acc \/ tree_tokens s' (m_root m) = m_tokens m.
    Proof.
      intros UN. induction rest as [|t rest IH]; intros acc s s' acc' INC H; cbn [collect] in H; [injection H as <- <-; split; auto|].
      assert (HT : In t trees) by (apply INC; left; reflexivity). assert (INC' : incl rest trees) by (intros x Hx; apply INC; right; exact Hx).
      destruct (lookup_range (snd t) acc) as [m0|] eqn:LR; [apply (IH acc s s' acc' INC' H)|].
      destruct (prepare_match t s) as [[s1 o]|e] eqn:P; cbn [bind] in H; [|discriminate]. destruct o as [m1|].
      - destruct (IH _ s1 s' acc' INC' H) as [K1 K2]. assert (NI : ~ In (snd t) (map fst acc)).
        { clear -LR. induction acc as [|[r m] acc IH]; [intros []|]. cbn in *. destruct (range_eqb (snd t) r) eqn:E; [discriminate|]. intros [X|X]; [|exact (IH LR X)]. subst r. unfold range_eqb in E. rewrite !Nat.eqb_refl in E. discriminate. }
        split.
        + intros u l HU HR HL. rewrite (K1 u l HU); [|rewrite map_app; apply in_or_app; left; exact HR|exact HL].
          destruct (prepare_changes accepts constrain rel g toks all fuel trees PARSE t s s1 m1 l HT (leaves_in u l HU HL) P) as [E|(n' & rl & ro & A & B & C)]; [exact E|].
          exfalso. apply (UN u t n' rl ro l HU HT); auto. intros X. apply NI. rewrite <- X. exact HR.
        + intros r m HI. destruct (K2 r m HI) as [X|X]; [|auto]. apply in_app_or in X as [X|[[= <- <-]|[]]]; [auto|]. right.
          destruct (made t s s1 m1 HT P) as (L & _ & T). rewrite <- T, !tree_tokens_leaves. apply map_ext_in. intros l Hl. rewrite L in Hl. apply (K1 t l HT); [|exact Hl]. rewrite map_app. apply in_or_app. right. left. reflexivity.
      - rewrite (prepare_match_none _ _ _ _ _ P) in *. destruct (IH _ s s' acc' INC' H) as [K1 K2]. split; [exact K1|exact K2].
    Qed.
  End One.

  (** ** Extract *)
  Theorem extract_yields fuel all found s e : extract_yielded accepts constrain rel g fuel toks all = Some (found, s, e) -> extract accepts constrain rel g fuel toks all = Some (map fst found, s, e).
  Proof. unfold extract_yielded, extract. destruct parse as [trees|]; [|discriminate]. intros [= H]. rewrite yielded_matches, H. reflexivity. Qed.
  Theorem extract_later fuel all found sf e : extract_yielded accepts constrain rel g fuel toks all = Some (found, sf, e) ->
    forall m s, In (m, s) found -> tree_tokens s (m_root m) = m_tokens m /\ Forall2 fewer (tree_tokens sf (m_root m)) (m_tokens m).
  Proof.
    unfold extract_yielded. destruct (parse accepts constrain g fuel toks all) as [trees|] eqn:PA; [|discriminate]. intros [= H] m s HI.
    destruct (yielded_later all fuel trees PA trees [] found sf e (incl_refl _) H) as [_ K]. destruct (K m s HI) as (t & HT & L & T & F). split; [exact T|]. rewrite <- T. apply tokens_later. intros l Hl. apply F. exists t. rewrite <- L. auto.
  Qed.
  Theorem extract_unchanged fuel all trees found sf e : parse accepts constrain g fuel toks all = Some trees -> separate g trees -> extract_yielded accepts constrain rel g fuel toks all = Some (found, sf, e) ->
    forall m s, In (m, s) found -> tree_tokens sf (m_root m) = m_tokens m /\
    forall schemes subclass U inflect interps, match_fact schemes subclass U inflect g interps sf m = match_fact schemes subclass U inflect g interps s m.
  Proof.
    unfold extract_yielded. intros PA S. rewrite PA. intros [= H] m s HI.
    assert (ND : NoDup trees) by (apply (NoDup_map_inv _ _ (parse_unique accepts constrain g fuel toks all trees PA))).
    pose proof (yielded_unchanged all fuel trees PA S trees [] found sf e (incl_refl _) ND H m s HI) as X. split; [|intros; apply fact_local; exact X].
    destruct (yielded_later all fuel trees PA trees [] found sf e (incl_refl _) H) as [_ K]. destruct (K m s HI) as (t & HT & L & T & F). rewrite <- T, !tree_tokens_leaves. apply map_ext_in. exact X.
  Qed.
  (** ** findall *)
  Theorem findall_later fuel s ms : findall accepts constrain rel g fuel toks = Some (Ok (s, ms)) -> forall m, In m ms -> Forall2 fewer (tree_tokens s (m_root m)) (m_tokens m).
  Proof.
    unfold findall. destruct (parse accepts constrain g fuel toks true) as [trees|] eqn:PA; [|discriminate]. intros [= H] m HM.
    destruct (sort_trees_ok _ _ _ _ _ _ _ PA) as (sorted & S1 & S2 & _). rewrite S1 in H. cbn [bind] in H.
    assert (INC : incl sorted trees) by (intros x Hx; eapply Permutation_in; [apply Permutation_sym; eauto|auto]).
    unfold prepare_resolved_matches in H. destruct (collect rel g sorted [] []) as [[s' found]|e] eqn:C; [|discriminate]. cbn [bind] in H.
    destruct (resolve_spans _) as [spans|e]; [|discriminate]. cbn [bind] in H. destruct (mapM _ spans) as [ms'|e] eqn:M; [|discriminate]. cbn [bind] in H. injection H as <- <-.
    assert (X : exists r, In (r, m) found).
    { clear -M HM. revert ms' M HM. induction spans as [|sp spans IH]; intros ms' M HM; cbn [mapM] in M; [injection M as <-; destruct HM|].
      destruct (lookup_range _ found) as [m1|] eqn:L; cbn [bind] in M; [|discriminate]. destruct (mapM _ spans) as [l|]; cbn [bind] in M; [|discriminate]. injection M as <-. destruct HM as [->|HM]; [|eapply IH; eauto].
      clear -L. revert L. generalize (Z.to_nat (fst sp), Z.to_nat (snd sp)). intros r. induction found as [|[r' m'] found IH]; [discriminate|]. cbn. destruct (range_eqb r r'); [intros [= ->]; exists r'; left; reflexivity|]. intros L. destruct (IH L) as [r0 H0]. exists r0. right. exact H0. }
    destruct X as [r X]. destruct (collect_later true fuel trees PA sorted [] [] s' found INC C) as [_ K]. destruct (K r m X) as [[]|(t & s1 & A & B & L & T & F)].
    rewrite <- T. apply tokens_later. intros l Hl. apply F. exists t. rewrite <- L. auto.
  Qed.
  Theorem findall_unchanged fuel trees s ms : parse accepts constrain g fuel toks true = Some trees -> unshared g trees -> findall accepts constrain rel g fuel toks = Some (Ok (s, ms)) ->
    forall m, In m ms -> tree_tokens s (m_root m) = m_tokens m.
  Proof.
    unfold findall. intros PA UN. rewrite PA. intros [= H] m HM.
    destruct (sort_trees_ok _ _ _ _ _ _ _ PA) as (sorted & S1 & S2 & _). rewrite S1 in H. cbn [bind] in H.
    assert (INC : incl sorted trees) by (intros x Hx; eapply Permutation_in; [apply Permutation_sym; eauto|auto]).
    unfold prepare_resolved_matches in H. destruct (collect rel g sorted [] []) as [[s' found]|e] eqn:C; [|discriminate]. cbn [bind] in H.
    destruct (resolve_spans _) as [spans|e]; [|discriminate]. cbn [bind] in H. destruct (mapM _ spans) as [ms'|e] eqn:M; [|discriminate]. cbn [bind] in H. injection H as <- <-.
    assert (X : exists r, In (r, m) found).
    { clear -M HM. revert ms' M HM. induction spans as [|sp spans IH]; intros ms' M HM; cbn [mapM] in M; [injection M as <-; destruct HM|].
      destruct (lookup_range _ found) as [m1|] eqn:L; cbn [bind] in M; [|discriminate]. destruct (mapM _ spans) as [l|]; cbn [bind] in M; [|discriminate]. injection M as <-. destruct HM as [->|HM]; [|eapply IH; eauto].
      clear -L. revert L. generalize (Z.to_nat (fst sp), Z.to_nat (snd sp)). intros r. induction found as [|[r' m'] found IH]; [discriminate|]. cbn. destruct (range_eqb r r'); [intros [= ->]; exists r'; left; reflexivity|]. intros L. destruct (IH L) as [r0 H0]. exists r0. right. exact H0. }
    destruct X as [r X]. destruct (collect_unchanged true fuel trees PA UN sorted [] [] s' found INC C) as [_ K]. destruct (K r m X) as [[]|E]. exact E.
  Qed.
  (** One candidate for every range. *)
  Lemma unshared_separate (trees : list tree) : NoDup (map snd trees) -> unshared g trees -> separate g trees.
  Proof.
    intros ND UN t u u' rl ro l HT HU NE. apply (UN t u u' rl ro l HT HU). intros E. apply NE. clear -ND HT HU E. induction trees as [|x trees IH]; [destruct HT|]. cbn [map] in ND. inversion ND as [|? ? N1 N2]; subst.
    destruct HT as [->|HT], HU as [->|HU]; auto; exfalso; apply N1; [rewrite E|rewrite <- E]; apply in_map; assumption.
  Qed.
  (** Rules without relations. *)
  Theorem free_separate trees : relation_free g -> separate g trees.
  Proof.
    intros RF t u u' rl ro l _ _ _ _ RL HI _. destruct (free_relations g [] u' RF) as [_ R0].
    unfold related in *. inversion R0 as [E|]; rewrite <- E in RL; inversion RL; subst; destruct HI.
  Qed.
End Later.

(** ** match *)
Section Match.
  Context {pred : Type}.
  Variable accepts : pred -> token -> bool.
  Variable constrain : pred -> token -> token.
  Variable rel : nat -> form -> form -> bool.
  Variable g : grammar token pred.
  Theorem match_unchanged toks fuel s m : match_ accepts constrain rel g fuel toks = Some (Ok (s, Some m)) -> tree_tokens s (m_root m) = m_tokens m.
  Proof.
    unfold match_. destruct (parse accepts constrain g fuel toks false) as [trees|] eqn:PA; [|discriminate]. intros [= H].
    destruct (sort_trees_ok _ _ _ _ _ _ _ PA) as (sorted & S1 & S2 & _). rewrite S1 in H. cbn [bind] in H.
    assert (INC : incl sorted trees) by (intros x Hx; eapply Permutation_in; [apply Permutation_sym; eauto|auto]).
    clear S1 S2. revert INC H. generalize (@nil (nat * token)). induction sorted as [|t sorted IH]; intros s0 INC H; cbn [first_match] in H; [discriminate|].
    destruct (prepare_match rel g t s0) as [[s1 [m1|]]|e] eqn:P; cbn [bind] in H; [| |discriminate].
    - injection H as <- <-. assert (HT : In t trees) by (apply INC; left; reflexivity). apply (made accepts constrain rel g toks false fuel trees PA t s0 s1 m1 HT P).
    - apply (IH s1); [|exact H]. intros x Hx. apply INC. right. exact Hx.
  Qed.
  Theorem find_later toks fuel s m : find accepts constrain rel g fuel toks = Some (Ok (s, Some m)) -> Forall2 fewer (tree_tokens s (m_root m)) (m_tokens m).
  Proof.
    unfold find. destruct (findall accepts constrain rel g fuel toks) as [[[s' ms]|e]|] eqn:F; [|discriminate|discriminate]. cbn [bind]. intros [= -> H]. eapply findall_later; eauto. destruct ms; [discriminate|]. injection H as ->. left. reflexivity.
  Qed.
  Theorem find_unchanged toks fuel trees s m : parse accepts constrain g fuel toks true = Some trees -> unshared g trees -> find accepts constrain rel g fuel toks = Some (Ok (s, Some m)) -> tree_tokens s (m_root m) = m_tokens m.
  Proof.
    intros PA UN. unfold find. destruct (findall accepts constrain rel g fuel toks) as [[[s' ms]|e]|] eqn:F; [|discriminate|discriminate]. cbn [bind]. intros [= -> H]. eapply findall_unchanged; eauto. destruct ms; [discriminate|]. injection H as ->. left. reflexivity.
  Qed.
End Match.
