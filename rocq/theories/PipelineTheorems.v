(** Statements about pipelines, in the form used by PropPipelines. *)
From Coq Require String.
From Verif Require Import Base TokenModel EarleyModel EarleySpec EarleyProofs EarleyTerm TokenizerModel PredicateModel PredicateSpec PredicateProofs
  PipelineModel PipelineSpec ParserModel ParserSpec ParserTheorems AgreeProofs RelationSpec PipelineProofs PredicateCases TaggerModel.

(** ** The lookup against trying everything *)
Section Without.
  Context {pred : Type}.
  Variables (accepts : pred -> token -> bool) (constrain : pred -> token -> token) (g : grammar token pred) (toks : list token).

  Lemma derives_without : (forall t i j d, derives accepts g toks t i j d -> derives accepts (without_index g) toks t i j d) /\
    (forall ts i j ds, derives_seq accepts g toks ts i j ds -> derives_seq accepts (without_index g) toks ts i j ds).
  Proof.
    apply (derives_mutind _ _ accepts g toks
      (fun t i j d _ => derives accepts (without_index g) toks t i j d)
      (fun ts i j ds _ => derives_seq accepts (without_index g) toks ts i j ds));
      intros; econstructor; eassumption.
  Qed.
  Lemma derives_with : (forall t i j d, derives accepts (without_index g) toks t i j d -> derives accepts g toks t i j d) /\
    (forall ts i j ds, derives_seq accepts (without_index g) toks ts i j ds -> derives_seq accepts g toks ts i j ds).
  Proof.
    apply (derives_mutind _ _ accepts (without_index g) toks
      (fun t i j d _ => derives accepts g toks t i j d)
      (fun ts i j ds _ => derives_seq accepts g toks ts i j ds));
      intros; econstructor; eassumption.
  Qed.
  Lemma same_parses fuel fuel' all trees trees' i j d :
    predict_sound g -> predict_complete accepts g ->
    parse accepts constrain g fuel toks all = Some trees ->
    parse accepts constrain (without_index g) fuel' toks all = Some trees' ->
    (all = false -> start_not_used g) -> no_empty_part d ->
    ((exists n, In (n, (i, j)) trees /\ erase n = d) <-> (exists n, In (n, (i, j)) trees' /\ erase n = d)).
  Proof.
    intros PS PC P P' NU NE.
    assert (PS' : predict_sound (without_index g)) by (intros r t q H; exact H).
    assert (PC' : predict_complete accepts (without_index g)) by (intros r t q H _; exact H).
    split; intros (n & HI & <-).
    - destruct (parse_sound accepts constrain g fuel toks all trees n i j PS P HI) as (D & _ & LE & W).
      destruct (proj1 (derives_span accepts g toks) _ _ _ _ D) as (L & _).
      apply (parse_complete accepts constrain (without_index g) fuel' toks all trees' i j (erase n) PC' P'); auto.
      + apply (proj1 derives_without). exact D.
      + lia.
      + destruct all; [auto|]. left. apply (whole_text accepts constrain g fuel toks trees n i j (NU eq_refl) P HI).
      + destruct all; [auto|]. left. apply W. reflexivity.
    - destruct (parse_sound accepts constrain (without_index g) fuel' toks all trees' n i j PS' P' HI) as (D & _ & LE & W).
      destruct (proj1 (derives_span accepts (without_index g) toks) _ _ _ _ D) as (L & _).
      apply (parse_complete accepts constrain g fuel toks all trees i j (erase n) PC P); auto.
      + apply (proj1 derives_with). exact D.
      + lia.
      + destruct all; [auto|]. left. apply (whole_text accepts constrain (without_index g) fuel' toks trees' n i j (NU eq_refl) P' HI).
      + destruct all; [auto|]. left. apply W. reflexivity.
  Qed.
End Without.

(** ** The order of the lines *)
Lemma scheme_lines U c k lines p prods : activate_pipeline c (scheme k lines) = Ok p -> pipeline_productions U p = Ok prods ->
  Forall2 (fun line pr => fst pr = line /\ exists parts, split_line (c_tokenizer c) line = Ok parts /\
     Forall2 (part_predicate U c k) parts (snd pr)) lines prods.
Proof.
  intros ACT P.
  assert (S2 := proj2 (proj2 (scheme_productions U c k lines p prods ACT P))).
  assert (map fst prods = lines) as <-.
  { clear S2. destruct k; cbn in ACT;
      [destruct (mapM (get_key c) lines) as [keys|] eqn:M|destruct (mapM (get_key c) lines) as [keys|] eqn:M|
       destruct (mapM (get_morph_key c) lines) as [keys|] eqn:M]; cbn in ACT; try discriminate ACT;
      injection ACT as <-; cbn in P; injection P as <-; rewrite map_map; cbn [fst];
      revert keys M; induction lines as [|l lines IH]; intros keys M; cbn in M;
      try (injection M as <-; reflexivity).
    1,2: destruct (get_key c l) as [x|] eqn:E; cbn in M; [|discriminate];
      destruct (mapM (get_key c) lines) as [xs|]; cbn in M; [|discriminate]; injection M as <-; cbn [map];
      rewrite (IH xs eq_refl); f_equal; unfold get_key in E;
      destruct (split_line (c_tokenizer c) l); cbn in E; [|discriminate]; injection E as <-; reflexivity.
    destruct (get_morph_key c l) as [x|] eqn:E; cbn in M; [|discriminate];
      destruct (mapM (get_morph_key c) lines) as [xs|]; cbn in M; [|discriminate]; injection M as <-; cbn [map];
      rewrite (IH xs eq_refl); f_equal; unfold get_morph_key in E;
      destruct (split_line (c_tokenizer c) l) as [parts|]; cbn in E; [|discriminate].
    destruct (mapM (fun part => let! m := get_morph c in Ok (mo_normalized m part)) parts); cbn in E; [|discriminate].
    injection E as <-. reflexivity. }
  clear ACT P. induction prods as [|[line ps] prods IH]; cbn; constructor.
  - split; [reflexivity|]. apply (S2 line ps). left. reflexivity.
  - assert (X : forall line ps, In (line, ps) prods -> exists parts, split_line (c_tokenizer c) line = Ok parts /\
      Forall2 (part_predicate U c k) parts ps) by (intros l' ps' H; apply (S2 l' ps'); right; exact H).
    clear -X. induction prods as [|[line ps] prods IH]; cbn; constructor.
    + split; [reflexivity|]. apply X. left. reflexivity.
    + apply IH. intros l ps' H. apply X. right. exact H.
Qed.
Lemma Forall2_nth {A B} (P : A -> B -> Prop) l l' : Forall2 P l l' -> forall i x, nth_error l i = Some x ->
  exists y, nth_error l' i = Some y /\ P x y.
Proof.
  induction 1 as [|a b l l' H _ IH]; intros [|i] x E; try discriminate E.
  - injection E as <-. exists b. auto.
  - apply IH. exact E.
Qed.
Lemma index_of_seq n : forall a q, a <= q < a + n -> index_of q (seq a n) = q - a.
Proof.
  induction n as [|n IH]; intros a q H; [lia|]. cbn [seq index_of]. destruct (Nat.eqb_spec q a); [lia|].
  rewrite IH by lia. lia.
Qed.
Lemma rank_singleton x y : rank_before [x] [y] -> x < y.
Proof.
  intros (p & x' & y' & a & b & E1 & E2 & L). destruct p as [|z [|]]; try discriminate E1.
  injection E1 as -> _. injection E2 as -> _. exact L.
Qed.

Lemma first_line U set_order c k lines p b rel : set_iteration set_order ->
  activate_pipeline c (scheme k lines) = Ok p -> pipeline_as_bnf U set_order p = Ok b -> k <> Morph ->
  forall fuel toks s m, match_ (accepts U) narrow rel (pipeline_grammar U set_order b) fuel toks = Some (Ok (s, Some m)) ->
  exists before line after, lines = before ++ line :: after /\ line_agrees U c k line toks /\
    (forall l, In l before -> ~ line_agrees U c k l toks) /\
    exists ds, erase (m_root m) = DNode 0 (length before) ds.
Proof.
  intros SO ACT BNF NM fuel toks s m M. set (G := pipeline_grammar U set_order b) in *.
  destruct (as_bnf_spec U set_order SO p b BNF) as (P & K & _).
  pose proof (scheme_lines U c k lines p _ ACT P) as SL.
  assert (KB : b_kind b <> Morph).
  { rewrite K. rewrite (proj1 (scheme_productions U c k lines p _ ACT P)). exact NM. }
  destruct (free_match (accepts U) narrow rel G toks (pipeline_free U set_order b)
      (pipeline_sound U set_order SO p b BNF) (pipeline_complete U set_order SO p b BNF)
      (pipeline_filters U set_order SO p b BNF KB) (pipeline_no_nullable U set_order SO p b BNF) fuel _ (pipeline_start U set_order b) M)
    as [(s' & m' & E & R & D & BEST)|[E _]]; [|discriminate E].
  injection E as <- <-.
  destruct (derived_key U set_order c SO k lines p b ACT BNF toks 0 (length toks) _ D) as (q & line & ds & ED & KEY & HL & LA).
  rewrite range_all in LA. cbn in KEY. unfold production_key in KEY.
  destruct (nth_error (b_productions b) q) as [[line' ps]|] eqn:Q; [|discriminate KEY]. injection KEY as ->.
  assert (LEN : length lines = length (b_productions b)) by (eapply Forall2_len; exact SL).
  assert (QL : q < length lines) by (rewrite LEN; apply nth_error_Some; congruence).
  assert (QN : nth_error lines q = Some line).
  { destruct (nth_error lines q) as [l|] eqn:X; [|apply nth_error_None in X; lia].
    destruct (Forall2_nth _ _ _ SL q l X) as (y & Y & Y1 & _). rewrite Q in Y. injection Y as <-. cbn in Y1. subst. reflexivity. }
  destruct (nth_error_split lines q QN) as (before & after & EL & LB).
  exists before, line, after. split; [exact EL|]. split; [exact LA|]. split; [|exists ds; rewrite LB; exact ED].
  intros l HB AG. apply In_nth_error in HB as [q' Q'].
  assert (LT : q' < length before) by (apply nth_error_Some; congruence).
  assert (QN' : nth_error lines q' = Some l) by (rewrite EL, nth_error_app1; auto).
  destruct (Forall2_nth _ _ _ SL q' l QN') as ([l' ps'] & Y & Y1 & parts & S & PP). cbn in Y1, PP. subst l'.
  destruct AG as (parts' & S' & AG). apply split_line_words in S'. rewrite S in S'. injection S' as <-.
  apply (parts_agree U c k parts ps' toks PP) in AG.
  assert (LP : length ps' = length toks) by (eapply Forall2_len; exact AG).
  destruct (preds_derive U set_order b toks ps' 0) as [ds' D'].
  { cbn [Nat.add]. rewrite LP, range_all. exact AG. }
  cbn [Nat.add] in D'. rewrite LP in D'.
  assert (D0 : derives (accepts U) G toks (TRule (g_start G)) 0 (length toks) (DNode 0 q' ds')).
  { cbn. econstructor.
    - cbn. apply in_seq. split; [lia|]. cbn. rewrite <- LEN. lia.
    - cbn. unfold production_terms. rewrite Y. exact D'. }
  assert (LEAVES : forall ps i j ds, derives_seq (accepts U) G toks (map TPred ps) i j ds -> flat_map (choices G) ds = []).
  { clear. induction ps as [|x ps IH]; intros i j ds D; cbn [map] in D; inversion D as [|a b' c k d e f H1 H2]; subst; [reflexivity|].
    inversion H1; subst. cbn. eapply IH. eassumption. }
  assert (CH : forall q ps line ds, nth_error (b_productions b) q = Some (line, ps) -> derives (accepts U) G toks (TRule 0) 0 (length toks) (DNode 0 q ds) ->
     choices G (DNode 0 q ds) = [q]).
  { intros q0 ps0 l0 ds0 N0 D1. inversion D1 as [|r q1 i1 j1 ds1 HI HS]; subst. cbn in HS. unfold production_terms in HS. rewrite N0 in HS.
    cbn [choices]. rewrite (LEAVES _ _ _ _ HS). cbn in HI |- *. unfold production_numbers. rewrite index_of_seq; [rewrite Nat.sub_0_r; reflexivity|].
    cbn. split; [lia|]. apply nth_error_Some. congruence. }
  destruct (BEST _ D0) as [X|X].
  - rewrite ED in X. injection X as X _. lia.
  - unfold preferred in X. rewrite ED in X, D. rewrite (CH q ps line ds Q D), (CH q' ps' l ds' Y D0) in X.
    apply rank_singleton in X. lia.
Qed.

(** ** Blank lines *)
Lemma blank_line U set_order c k lines p : activate_pipeline c (scheme k lines) = Ok p ->
  ((exists line, In line lines /\ cut_into (c_tokenizer c) line []) -> pipeline_as_bnf U set_order p = Err IndexError) /\
  (~ (exists line, In line lines /\ cut_into (c_tokenizer c) line []) -> exists b, pipeline_as_bnf U set_order p = Ok b).
Proof.
  intros ACT.
  assert (exists prods, pipeline_productions U p = Ok prods) as [prods P].
  { destruct k; cbn in ACT;
      [destruct (mapM (get_key c) lines)|destruct (mapM (get_key c) lines)|destruct (mapM (get_morph_key c) lines)];
      cbn in ACT; try discriminate ACT; injection ACT as <-; cbn; eauto. }
  destruct (scheme_productions U c k lines p prods ACT P) as (_ & S1 & S2).
  unfold pipeline_as_bnf. rewrite P. cbn [bind]. split.
  - intros (line & HL & E). destruct (S1 _ HL) as (parts & ps & E' & HI & F).
    apply split_line_words in E. rewrite E in E'. injection E' as <-. inversion F; subst.
    rewrite (build_index_fails set_order (map snd prods)); [reflexivity|]. apply in_map_iff. exists (line, []). auto.
  - intros N. destruct (build_index_total set_order (map snd prods)) with (q := 0) (i := @nil (str * list nat)) as [i ->].
    + intros ps H E. subst. apply in_map_iff in H as ([line ps] & E & H). cbn in E. subst.
      destruct (S2 _ _ H) as (HL & parts & E & F). inversion F; subst. apply N. exists line. split; [exact HL|]. apply split_line_words, E.
    + cbn [bind]. eauto.
Qed.

(** ** Activation *)
Lemma pipeline_active c k lines : (exists p, activate_pipeline c (scheme k lines) = Ok p) <->
  forall line, In line lines -> exists words, cut_into (c_tokenizer c) line words /\ (k = Morph -> words <> [] -> c_morph c <> None).
Proof.
  assert (K : forall {A} (f : str -> res A), (exists r, mapM f lines = Ok r) <-> forall line, In line lines -> exists x, f line = Ok x).
  { intros A f. clear. induction lines as [|l ls IH]; [split; [intros _ ? []|exists []; reflexivity]|]. cbn [mapM]. split.
    - intros (r & H). destruct (f l) as [x|] eqn:E; [|discriminate]. cbn in H. destruct (mapM f ls) as [xs|]; [|discriminate]. intros line [<-|I]; [eauto|]. apply IH; [eauto|exact I].
    - intros H. destruct (H l (or_introl eq_refl)) as (x & ->). destruct (proj2 IH (fun line I => H line (or_intror I))) as (xs & ->). eexists. reflexivity. }
  assert (P : forall {A} (m : res A) (f : A -> pipeline), (exists p, (let! x := m in Ok (f x)) = Ok p) <-> exists x, m = Ok x).
  { intros A m f. destruct m as [x|e]; cbn; split; intros (y & E); try discriminate; eauto. }
  assert (G : forall line, (exists x, get_key c line = Ok x) <-> exists words, cut_into (c_tokenizer c) line words).
  { intros line. unfold get_key. split.
    - intros (x & E). destruct (split_line (c_tokenizer c) line) as [ws|] eqn:S; [|discriminate]. exists ws. apply split_line_words, S.
    - intros (ws & E). apply split_line_words in E. rewrite E. eexists. reflexivity. }
  destruct k; cbn [scheme activate_pipeline]; rewrite P, K; split; intros H line I; specialize (H line I).
  - apply G in H as (ws & E). exists ws. split; [exact E|discriminate].
  - destruct H as (ws & E & _). apply G. eauto.
  - apply G in H as (ws & E). exists ws. split; [exact E|discriminate].
  - destruct H as (ws & E & _). apply G. eauto.
  - destruct H as (x & E). unfold get_morph_key in E. destruct (split_line (c_tokenizer c) line) as [ws|] eqn:S; [|discriminate]. exists ws. split; [apply split_line_words, S|]. intros _ NE. cbn in E. destruct ws as [|w ws]; [congruence|]. unfold get_morph in E. cbn in E. destruct (c_morph c); [discriminate|]. discriminate E.
  - destruct H as (ws & E & M). apply split_line_words in E. unfold get_morph_key. rewrite E. cbn [bind]. destruct ws as [|w ws]; [eexists; reflexivity|]. specialize (M eq_refl ltac:(discriminate)). unfold get_morph. destruct (c_morph c) as [m|]; [|congruence].
    assert (T : forall l : list str, exists r, mapM (fun part => let! m0 := Ok m in Ok (mo_normalized m0 part)) l = Ok r) by (induction l as [|y l IH]; [exists []; reflexivity|destruct IH as (r & E1); cbn [bind mapM] in E1 |- *; rewrite E1; eexists; reflexivity]).
    destruct (T (w :: ws)) as (r & ->). eexists. reflexivity.
Qed.

(** Iteration in order of first appearance. *)
Definition first_seen (l : list str) : list str := rev (nodup (list_eq_dec N.eq_dec) (rev l)).
Lemma first_seen_iterates : set_iteration first_seen.
Proof.
  intros l. unfold first_seen. split; [apply NoDup_rev, NoDup_nodup|].
  intros x. rewrite <- in_rev, nodup_In, <- in_rev. reflexivity.
Qed.

(** ** Concrete dictionaries *)
Definition cities : list str := [str_of "New York"; str_of "york"; str_of "new york"].
Definition new_york : list token :=
  [mkToken (str_of "new") 0 3 LATIN None None; mkToken (str_of "york") 4 8 LATIN None None].
Definition metals : list str := [str_of "steel"].
Definition build (k : kind) (lines : list str) : res pipeline_bnf :=
  let! p := activate_pipeline small_context (scheme k lines) in pipeline_as_bnf ASCII first_seen p.
Definition pipeline_match (k : kind) (lines : list str) (toks : list token) : option (nat * nat * option str) :=
  match build k lines with
  | Ok b =>
      match match_ (accepts ASCII) narrow (fun _ _ _ => true) (pipeline_grammar ASCII first_seen b) 50 toks with
      | Some (Ok (_, Some m)) =>
          Some (m_range m, match erase (m_root m) with DNode _ q _ => production_key b q | DLeaf _ _ => None end)
      | _ => None
      end
  | Err _ => None
  end.

(** A dictionary with an empty line. *)
Lemma blank_refutes : forall U set_order k, exists c lines p, In [] lines /\ activate_pipeline c (scheme k lines) = Ok p /\
  pipeline_as_bnf U set_order p = Err IndexError.
Proof.
  intros U set_order k. exists small_context, [[]].
  assert (exists p, activate_pipeline small_context (scheme k [[]]) = Ok p) as [p E].
  { destruct k; eexists; vm_compute; reflexivity. }
  exists p. split; [left; reflexivity|]. split; [exact E|].
  apply (blank_line U set_order small_context k [[]] p E). exists []. split; [left; reflexivity|]. apply split_line_words. vm_compute. reflexivity.
Qed.
(** Two normal forms of one token: the lookup yields a production twice and not in the
    order of the lines. *)
Lemma morph_order_refutes : exists b t, build Morph [str_of "steel"; str_of "steels"] = Ok b /\
  pipeline_predict ASCII first_seen b t = [0; 1; 1].
Proof.
  eexists. exists steel. split; [vm_compute; reflexivity|]. vm_compute. reflexivity.
Qed.
