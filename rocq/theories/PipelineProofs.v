(** Proofs about pipelines. *)
From Verif Require Import Base TokenModel EarleyModel EarleySpec EarleyTerm TokenizerModel PredicateModel PredicateSpec PredicateProofs
  PipelineModel PipelineSpec ParserModel ParserSpec ParserTheorems AgreeProofs RelationSpec TokenizerProofs.

(** Lines are cut by the tokenizer. *)
Lemma finditer_enough t text : forall fuel fuel' must i l l', finditer fuel t text must i = Some l -> finditer fuel' t text must i = Some l' -> l = l'.
Proof.
  induction fuel as [|fuel IH]; intros [|fuel'] must i l l' A B; cbn in A, B; destruct (search t text must (length text - i) i) as [[[s e] ty]|]; try congruence.
  destruct (finditer fuel t text (Nat.eqb s e) e) as [r|] eqn:E; [|discriminate]. destruct (finditer fuel' t text (Nat.eqb s e) e) as [r'|] eqn:E'; [|discriminate]. rewrite (IH _ _ _ _ _ E E') in A. congruence.
Qed.
Lemma tokenize_enough t text fuel fuel' r r' : tokenize fuel t text = Some r -> tokenize fuel' t text = Some r' -> r = r'.
Proof.
  unfold tokenize. destruct (finditer fuel t text false 0) as [l|] eqn:E; [|discriminate]. destruct (finditer fuel' t text false 0) as [l'|] eqn:E'; [|discriminate]. rewrite (finditer_enough _ _ _ _ _ _ _ _ E E'). congruence.
Qed.
Lemma split_line_words t line words : split_line t line = Ok words <-> cut_into t line words.
Proof.
  unfold split_line, split, cut_into. destruct (tokenize_terminates t line (2 * length line + 1) (le_n _)) as (r & E). rewrite E. split.
  - intros H. destruct r as [l|]; [|discriminate]. injection H as <-. eauto.
  - intros (fuel & tokens & F & ->). rewrite (tokenize_enough _ _ _ _ _ _ E F). reflexivity.
Qed.

Lemma str_eqb_sym a b : str_eqb a b = str_eqb b a.
Proof. destruct (str_eqb b a) eqn:E; [apply str_eqb_eq in E; subst; apply str_eqb_eq; reflexivity|].
  destruct (str_eqb a b) eqn:F; [apply str_eqb_eq in F; subst|reflexivity].
  rewrite <- E. symmetry. apply str_eqb_eq. reflexivity. Qed.
Lemma index_get_add i v q w : index_get (index_add v q i) w = index_get i w ++ (if str_eqb w v then [q] else []).
Proof.
  induction i as [|[v' qs] i IH]; cbn.
  - destruct (str_eqb w v); reflexivity.
  - destruct (str_eqb v v') eqn:E; cbn.
    + apply str_eqb_eq in E. subst. destruct (str_eqb w v'); [reflexivity|rewrite app_nil_r; reflexivity].
    + destruct (str_eqb w v') eqn:F; [|exact IH].
      apply str_eqb_eq in F. subst. rewrite str_eqb_sym, E, app_nil_r. reflexivity.
Qed.
Lemma index_get_adds vs q w : NoDup vs -> forall i,
  index_get (fold_left (fun i v => index_add v q i) vs i) w = index_get i w ++ (if str_in w vs then [q] else []).
Proof.
  induction 1 as [|v vs N _ IH]; intros i; cbn [fold_left].
  - cbn. rewrite app_nil_r. reflexivity.
  - rewrite IH, index_get_add, <- app_assoc. f_equal. unfold str_in. cbn [existsb].
    destruct (str_eqb w v) eqn:E; cbn [orb app]; [|reflexivity].
    apply str_eqb_eq in E. subst. destruct (existsb (str_eqb v) vs) eqn:F; [|reflexivity].
    exfalso. apply N. apply str_in_In. exact F.
Qed.

Lemma skipn_nth {A} (l : list A) i t : nth_error l i = Some t -> skipn i l = t :: skipn (S i) l.
Proof.
  revert i. induction l as [|y l IH]; intros [|i] H; try discriminate H; [injection H as ->; reflexivity|].
  apply IH in H. exact H.
Qed.
Lemma nth_skipn {A} (l : list A) i t rest : skipn i l = t :: rest -> nth_error l i = Some t /\ skipn (S i) l = rest.
Proof.
  revert i. induction l as [|y l IH]; intros [|i] H; try discriminate H; [injection H as -> ->; auto|].
  apply IH in H. exact H.
Qed.

Section Pipelines.
  Variable U : unicode.
  Variable set_order : list str -> list str.
  Hypothesis SO : set_iteration set_order.

  Lemma so_in l x : In x (set_order l) -> In x l.
  Proof. apply SO. Qed.
  Definition files (w : str) (ps : list predicate) : bool :=
    match ps with p :: _ => str_in w (index_values set_order p) | [] => false end.
  Lemma values_nodup p : NoDup (index_values set_order p).
  Proof. destruct p; cbn; try constructor; auto; try constructor. apply SO. Qed.
  Lemma build_index_spec prods : forall q i i', build_index set_order q prods i = Ok i' ->
    (forall ps, In ps prods -> ps <> []) /\
    forall w, index_get i' w = index_get i w ++ map (Nat.add q) (filter (fun k => files w (nth k prods [])) (seq 0 (length prods))).
  Proof.
    induction prods as [|[|p ps] prods IH]; intros q i i' H; cbn [build_index] in H.
    - injection H as <-. split; [intros ? []|]. intros w. cbn. rewrite app_nil_r. reflexivity.
    - discriminate H.
    - apply IH in H as [A B]. split; [intros x [<-|Hx]; [discriminate|auto]|].
      intros w. rewrite B, index_get_adds by apply values_nodup. rewrite <- app_assoc. f_equal.
      cbn [length seq filter]. rewrite <- seq_shift.
      assert (forall l, filter (fun k => files w (nth k ((p :: ps) :: prods) [])) (map S l) =
                        map S (filter (fun k => files w (nth k prods [])) l)) as E.
      { induction l as [|x l IHl]; [reflexivity|]. cbn [map filter]. rewrite IHl.
        change (nth (S x) ((p :: ps) :: prods) []) with (nth x prods []).
        destruct (files w (nth x prods [])); reflexivity. }
      rewrite E. cbn [nth files]. destruct (str_in w (index_values set_order p)); cbn [map app].
      + f_equal; [rewrite Nat.add_0_r; reflexivity|]. rewrite map_map. apply map_ext. intros. lia.
      + rewrite map_map. apply map_ext. intros. lia.
  Qed.
  Lemma build_index_total prods : (forall ps, In ps prods -> ps <> []) -> forall q i, exists i', build_index set_order q prods i = Ok i'.
  Proof.
    induction prods as [|[|p ps] prods IH]; intros H q i; cbn [build_index]; [eauto| |].
    - destruct (H [] (or_introl eq_refl) eq_refl).
    - apply IH. intros x Hx. apply H. right. exact Hx.
  Qed.
  Lemma build_index_fails prods : In [] prods -> forall q i, build_index set_order q prods i = Err IndexError.
  Proof.
    induction prods as [|[|p ps] prods IH]; intros H q i; cbn [build_index]; [destruct H|reflexivity|].
    destruct H as [H|H]; [discriminate H|]. apply IH. exact H.
  Qed.

  (** The values looked up for a token. *)
  Definition looked_up (k : kind) (t : token) : list str :=
    match k with
    | Exact => [t_value t]
    | Caseless => [u_lower U (t_value t)]
    | Morph => match t_forms t with Some fs => set_order (map f_normalized fs) | None => [u_lower U (t_value t)] end
    end.
  Lemma predict_looked b t : pipeline_predict U set_order b t = flat_map (index_get (b_index b)) (looked_up (b_kind b) t).
  Proof.
    unfold pipeline_predict, looked_up. destruct (b_kind b); cbn [flat_map]; rewrite ?app_nil_r; auto.
    destruct (t_forms t); cbn [flat_map]; rewrite ?app_nil_r; auto.
  Qed.
  Definition of_kind (k : kind) (p : predicate) : Prop :=
    match k, p with
    | Exact, PEq _ => True | Caseless, PCaseless _ => True | Morph, PDictionary _ => True
    | _, _ => False
    end.
  Lemma looked_up_accepts k p t : of_kind k p ->
    (accepts U p t = true <-> exists w, In w (looked_up k t) /\ In w (index_values set_order p)).
  Proof.
    intros K. rewrite accepts_call. destruct k, p; try contradiction K; cbn [call index_values looked_up]; rewrite ?ok_true.
    - rewrite str_eqb_eq. split; [intros <-; eexists; split; left; reflexivity|].
      intros (w & [<-|[]] & [<-|[]]). reflexivity.
    - rewrite str_eqb_eq. split; [intros <-; eexists; split; left; reflexivity|].
      intros (w & [<-|[]] & [E|[]]). auto.
    - unfold normalized. destruct (t_forms t) as [fs|]; cbn [bind]; rewrite ok_true.
      + rewrite existsb_exists. split.
        * intros (f & Hf & H). apply str_in_In in H. exists (f_normalized f). split; apply SO; [apply in_map|]; auto.
        * intros (w & A & B). apply so_in in A, B. apply in_map_iff in A as (f & <- & A).
          exists f. split; [exact A|]. apply str_in_In. exact B.
      + rewrite str_in_In. split.
        * intros H. eexists. split; [left; reflexivity|]. apply SO. exact H.
        * intros (w & [<-|[]] & H). apply so_in in H. exact H.
  Qed.

  Lemma productions_kind p prods : pipeline_productions U p = Ok prods ->
    forall line ps x, In (line, ps) prods -> In x ps -> of_kind (pipeline_kind p) x.
  Proof.
    destruct p; cbn; intros [= <-]; intros line ps x H Hx; apply in_map_iff in H as (k & [= <- <-] & _);
      apply in_map_iff in Hx as (? & <- & _); exact I.
  Qed.

  (** A rule made from a pipeline. *)
  Lemma as_bnf_spec p b : pipeline_as_bnf U set_order p = Ok b ->
    pipeline_productions U p = Ok (b_productions b) /\ b_kind b = pipeline_kind p /\
    (forall line ps, In (line, ps) (b_productions b) -> ps <> []) /\
    (forall line ps x, In (line, ps) (b_productions b) -> In x ps -> of_kind (b_kind b) x) /\
    forall w, index_get (b_index b) w = filter (fun k => files w (nth k (map snd (b_productions b)) [])) (production_numbers b).
  Proof.
    unfold pipeline_as_bnf. destruct (pipeline_productions U p) as [prods|] eqn:P; cbn [bind]; [|discriminate].
    destruct (build_index set_order 0 (map snd prods) []) as [i|] eqn:I; cbn [bind]; [|discriminate].
    intros [= <-]. cbn [b_productions b_kind b_index].
    destruct (build_index_spec _ _ _ _ I) as [A B]. split; [reflexivity|]. split; [reflexivity|]. split.
    - intros line ps H. apply A. apply in_map_iff. exists (line, ps). auto.
    - split; [exact (productions_kind p prods P)|]. intros w. rewrite B. cbn [index_get app].
      unfold production_numbers. cbn [b_productions]. rewrite map_length. apply map_id.
  Qed.
  Lemma nth_snd (l : list (str * list predicate)) q : nth q (map snd l) [] =
    match nth_error l q with Some (_, ps) => ps | None => [] end.
  Proof. revert q. induction l as [|[a ps] l IH]; intros [|q]; cbn; auto. Qed.

  (** Soundness and completeness of the lookup. *)
  Lemma predict_spec p b : pipeline_as_bnf U set_order p = Ok b -> forall q t,
    In q (pipeline_predict U set_order b t) <->
    exists line first rest, nth_error (b_productions b) q = Some (line, first :: rest) /\ accepts U first t = true.
  Proof.
    intros H q t. destruct (as_bnf_spec p b H) as (_ & _ & NE & K & IX).
    rewrite predict_looked, in_flat_map. split.
    - intros (w & Hw & Hq). rewrite IX in Hq. apply filter_In in Hq as [A F].
      rewrite nth_snd in F. destruct (nth_error (b_productions b) q) as [[line [|first rest]]|] eqn:E; try discriminate F.
      exists line, first, rest. split; [reflexivity|]. cbn [files] in F. apply str_in_In in F.
      apply (looked_up_accepts (b_kind b)); [|eauto].
      apply (K line (first :: rest)); [eapply nth_error_In; exact E|left; reflexivity].
    - intros (line & first & rest & E & A).
      apply (looked_up_accepts (b_kind b)) in A.
      2:{ apply (K line (first :: rest)); [eapply nth_error_In; exact E|left; reflexivity]. }
      destruct A as (w & A & B). exists w. split; [exact A|]. rewrite IX. apply filter_In. split.
      + apply in_seq. split; [lia|]. cbn. apply nth_error_Some. congruence.
      + rewrite nth_snd, E. cbn [files]. apply str_in_In. exact B.
  Qed.
  (** Plain and caseless lookups keep the order of the lines. *)
  Lemma predict_filter p b : pipeline_as_bnf U set_order p = Ok b -> b_kind b <> Morph -> forall t,
    pipeline_predict U set_order b t =
    filter (fun q => match nth_error (b_productions b) q with Some (_, first :: _) => accepts U first t | _ => false end) (production_numbers b).
  Proof.
    intros H NM t. destruct (as_bnf_spec p b H) as (_ & _ & NE & K & IX).
    assert (exists w, looked_up (b_kind b) t = [w]) as [w E].
    { destruct (b_kind b); cbn; eauto. congruence. }
    rewrite predict_looked, E. cbn [flat_map]. rewrite app_nil_r, IX.
    apply filter_ext_in. intros q Hq. rewrite nth_snd.
    destruct (nth_error (b_productions b) q) as [[line [|first rest]]|] eqn:Q; try reflexivity.
    cbn [files]. assert (of_kind (b_kind b) first) as KF.
    { apply (K line (first :: rest)); [eapply nth_error_In; exact Q|left; reflexivity]. }
    apply Bool.eq_true_iff_eq. rewrite (looked_up_accepts _ _ t KF), E, str_in_In. split.
    - intros X. exists w. split; [left; reflexivity|exact X].
    - intros (w' & [<-|[]] & X). exact X.
  Qed.

  (** ** In a grammar *)
  Lemma indexed_sound g : (forall r, indexed_rule U set_order g r) -> predict_sound g.
  Proof.
    intros H r t q Hq. destruct (H r) as [E|(p & b & base & B & P & Pr & T)]; [rewrite E in Hq; exact Hq|].
    rewrite Pr in Hq. rewrite P. apply in_map_iff in Hq as (k & <- & Hk). apply in_map.
    apply (predict_spec p b B) in Hk as (line & first & rest & E & _).
    apply in_seq. split; [lia|]. cbn. apply nth_error_Some. congruence.
  Qed.
  Lemma indexed_complete g : (forall r, indexed_rule U set_order g r) -> predict_complete (accepts U) g.
  Proof.
    intros H r t q Hq Hf. destruct (H r) as [E|(p & b & base & B & P & Pr & T)]; [rewrite E; exact Hq|].
    rewrite Pr. rewrite P in Hq. apply in_map_iff in Hq as (k & <- & Hk). apply in_map.
    rewrite T in Hf by exact Hk. apply (predict_spec p b B).
    unfold production_terms in Hf. apply in_seq in Hk as [_ Hk]. cbn in Hk.
    destruct (nth_error (b_productions b) k) as [[line ps]|] eqn:E; [|apply nth_error_None in E; lia].
    destruct (as_bnf_spec p b B) as (_ & _ & NE & _).
    destruct ps as [|first rest]; [destruct (NE line [] (nth_error_In _ _ E) eq_refl)|].
    cbn in Hf. eauto.
  Qed.

  Section Grammar.
    Variables (p : pipeline) (b : pipeline_bnf).
    Hypothesis B : pipeline_as_bnf U set_order p = Ok b.
    Notation G := (pipeline_grammar U set_order b).
    Lemma pipeline_indexed r : indexed_rule U set_order G r.
    Proof.
      destruct r as [|r]; [right|left; intros t; reflexivity]. exists p, b, 0. split; [exact B|].
      assert (forall l, map (Nat.add 0) l = l) as E by (intros l; apply map_id).
      cbn. split; [symmetry; apply E|]. split; [intros t; symmetry; apply E|]. intros q _. reflexivity.
    Qed.
    Lemma pipeline_free : relation_free G.
    Proof. intros r. reflexivity. Qed.
    Lemma pipeline_no_nullable : no_nullable G.
    Proof.
      intros r N. inversion N as [r' q HI HN]; subst. destruct r as [|r]; [|destruct HI]. cbn in HI, HN.
      unfold production_terms in HN. apply in_seq in HI as [_ HI]. cbn in HI.
      destruct (nth_error (b_productions b) q) as [[line ps]|] eqn:E; [|apply nth_error_None in E; lia].
      destruct (as_bnf_spec p b B) as (_ & _ & NE & _).
      destruct ps as [|first rest]; [exact (NE line [] (nth_error_In _ _ E) eq_refl)|].
      specialize (HN (TPred first) (or_introl eq_refl)). inversion HN.
    Qed.
    Lemma pipeline_no_rules q r : ~ In (TRule r) (g_terms G q).
    Proof.
      cbn. unfold production_terms. destruct (nth_error (b_productions b) q) as [[line ps]|]; [|intros []].
      intros H. apply in_map_iff in H as (x & X & _). discriminate X.
    Qed.
    Lemma pipeline_start : start_not_used G.
    Proof. intros q. apply pipeline_no_rules. Qed.
    Lemma pipeline_finite : finite_grammar G [0].
    Proof. split; [left; reflexivity|]. intros r q r' _ _ H. destruct (pipeline_no_rules _ _ H). Qed.
    Lemma pipeline_acyclic : acyclic G.
    Proof.
      exists (fun _ => 0). intros r q pre r' post _ E _. exfalso. apply (pipeline_no_rules q r'). rewrite E. apply in_elt.
    Qed.
    Lemma pipeline_sound : predict_sound G.
    Proof. apply indexed_sound, pipeline_indexed. Qed.
    Lemma pipeline_complete : predict_complete (accepts U) G.
    Proof. apply indexed_complete, pipeline_indexed. Qed.
    Lemma pipeline_filters : b_kind b <> Morph -> predict_filters G.
    Proof.
      intros NM r t. destruct r as [|r]; [|exists (fun _ => true); reflexivity].
      eexists. cbn. apply (predict_filter p b B NM t).
    Qed.

    (** Derivations of the grammar. *)
    Lemma derives_preds toks ps : forall i j ds, derives_seq (accepts U) G toks (map TPred ps) i j ds ->
      j = i + length ps /\ Forall2 (fun x t => accepts U x t = true) ps (range_tokens toks (i, j)).
    Proof.
      unfold range_tokens. cbn [fst snd].
      induction ps as [|x ps IH]; intros i j ds D; cbn [map] in D; inversion D as [|a b' c k d e f H1 H2]; subst.
      - split; [cbn; lia|]. rewrite Nat.sub_diag. constructor.
      - inversion H1 as [x' i' t Ht A|]; subst. apply IH in H2 as [-> F]. split; [cbn; lia|].
        replace (S i + length ps - S i) with (length ps) in F by lia.
        replace (S i + length ps - i) with (S (length ps)) by lia.
        rewrite (skipn_nth toks i t Ht).
        cbn [firstn]. constructor; auto.
    Qed.
    Lemma preds_derive toks ps : forall i, Forall2 (fun x t => accepts U x t = true) ps (range_tokens toks (i, i + length ps)) ->
      exists ds, derives_seq (accepts U) G toks (map TPred ps) i (i + length ps) ds.
    Proof.
      unfold range_tokens. cbn [fst snd].
      induction ps as [|x ps IH]; intros i F; cbn [map length].
      - rewrite Nat.add_0_r. eexists. constructor.
      - cbn [length] in F. replace (i + S (length ps) - i) with (S (length ps)) in F by lia.
        destruct (skipn i toks) as [|t rest] eqn:E; [inversion F|]. cbn [firstn] in F. inversion F; subst.
        assert (nth_error toks i = Some t /\ skipn (S i) toks = rest) as [Ht Hr].
        { exact (nth_skipn toks i t rest E). }
        destruct (IH (S i)) as [ds D].
        + rewrite Hr. replace (S i + length ps - S i) with (length ps) by lia. assumption.
        + replace (i + S (length ps)) with (S i + length ps) by lia.
          eexists. econstructor; [|exact D]. econstructor; eassumption.
    Qed.
    Lemma derives_line toks i j : (exists d, derives (accepts U) G toks (TRule 0) i j d) <->
      exists line ps, In (line, ps) (b_productions b) /\ j = i + length ps /\
        Forall2 (fun x t => accepts U x t = true) ps (range_tokens toks (i, j)).
    Proof.
      split.
      - intros (d & D). inversion D as [|r q i' j' ds HI HS]; subst. cbn in HI, HS.
        unfold production_terms in HS. apply in_seq in HI as [_ HI]. cbn in HI.
        destruct (nth_error (b_productions b) q) as [[line ps]|] eqn:E; [|apply nth_error_None in E; lia].
        exists line, ps. split; [eapply nth_error_In; exact E|]. eapply derives_preds. exact HS.
      - intros (line & ps & HI & -> & F). apply preds_derive in F as [ds D].
        apply In_nth_error in HI as [q E]. eexists. econstructor.
        + cbn. apply in_seq. split; [lia|]. cbn. apply nth_error_Some. rewrite E. discriminate.
        + cbn. unfold production_terms. rewrite E. exact D.
    Qed.
  End Grammar.
End Pipelines.

(** ** Lines *)
Lemma mapM_in {A B} (f : A -> res B) l l' : mapM f l = Ok l' ->
  (forall x, In x l -> exists y, f x = Ok y /\ In y l') /\ (forall y, In y l' -> exists x, In x l /\ f x = Ok y).
Proof.
  revert l'. induction l as [|x l IH]; intros l' H; cbn in H.
  - injection H as <-. split; intros ? [].
  - destruct (f x) as [y|] eqn:E; cbn in H; [|discriminate]. destruct (mapM f l) as [ys|]; cbn in H; [|discriminate].
    injection H as <-. destruct (IH _ eq_refl) as [A' B']. split.
    + intros z [<-|Hz]; [exists y; split; [exact E|left; reflexivity]|].
      destruct (A' z Hz) as (w & W1 & W2). exists w. split; [exact W1|right; exact W2].
    + intros z [<-|Hz]; [exists x; split; [left; reflexivity|exact E]|].
      destruct (B' z Hz) as (w & W1 & W2). exists w. split; [right; exact W1|exact W2].
Qed.

Section Lines.
  Variables (U : unicode) (set_order : list str -> list str) (c : context).

  Definition part_predicate (k : kind) (part : str) (p : predicate) : Prop :=
    match k with
    | Exact => p = PEq part
    | Caseless => p = caseless U part
    | Morph => exists m, c_morph c = Some m /\ p = PDictionary (mo_normalized m part)
    end.
  Lemma part_accepts k part p t : part_predicate k part p -> (accepts U p t = true <-> word_agrees U c k part t).
  Proof.
    intros H. rewrite accepts_call. destruct k; cbn in H.
    - subst. cbn. rewrite ok_true, str_eqb_eq. reflexivity.
    - subst. rewrite caseless_says. reflexivity.
    - destruct H as (m & Hm & ->). rewrite normal_shared. cbn. split; [eauto|].
      intros (m' & Hm' & X). congruence.
  Qed.
  Lemma scheme_productions k lines p prods : activate_pipeline c (scheme k lines) = Ok p -> pipeline_productions U p = Ok prods ->
    pipeline_kind p = k /\
    (forall line, In line lines -> exists parts ps, split_line (c_tokenizer c) line = Ok parts /\ In (line, ps) prods /\
       Forall2 (part_predicate k) parts ps) /\
    (forall line ps, In (line, ps) prods -> In line lines /\ exists parts, split_line (c_tokenizer c) line = Ok parts /\
       Forall2 (part_predicate k) parts ps).
  Proof.
    intros H P. destruct k; cbn in H.
    1,2: destruct (mapM (get_key c) lines) as [keys|] eqn:M; cbn in H; [|discriminate]; injection H as <-;
      cbn in P; injection P as <-; split; [reflexivity|]; apply mapM_in in M as [M1 M2]; split.
    - intros line HL. destruct (M1 line HL) as (k & E & HK). unfold get_key in E.
      destruct (split_line (c_tokenizer c) line) as [parts|] eqn:S; cbn in E; [|discriminate]. injection E as <-.
      exists parts, (map PEq parts). split; [reflexivity|]. split; [apply in_map_iff; eexists; split; [|exact HK]; reflexivity|].
      clear. induction parts; constructor; auto. reflexivity.
    - intros line ps HP. apply in_map_iff in HP as (k & [= <- <-] & HK). destruct (M2 k HK) as (line & HL & E). unfold get_key in E.
      destruct (split_line (c_tokenizer c) line) as [parts|] eqn:S; cbn in E; [|discriminate]. injection E as <-. cbn [k_value k_terms].
      split; [exact HL|]. exists parts. split; [exact S|]. clear. induction parts; constructor; auto. reflexivity.
    - intros line HL. destruct (M1 line HL) as (k & E & HK). unfold get_key in E.
      destruct (split_line (c_tokenizer c) line) as [parts|] eqn:S; cbn in E; [|discriminate]. injection E as <-.
      exists parts, (map (caseless U) parts). split; [reflexivity|]. split; [apply in_map_iff; eexists; split; [|exact HK]; reflexivity|].
      clear. induction parts; constructor; auto. reflexivity.
    - intros line ps HP. apply in_map_iff in HP as (k & [= <- <-] & HK). destruct (M2 k HK) as (line & HL & E). unfold get_key in E.
      destruct (split_line (c_tokenizer c) line) as [parts|] eqn:S; cbn in E; [|discriminate]. injection E as <-. cbn [k_value k_terms].
      split; [exact HL|]. exists parts. split; [exact S|]. clear. induction parts; constructor; auto. reflexivity.
    - destruct (mapM (get_morph_key c) lines) as [keys|] eqn:M; cbn in H; [|discriminate]; injection H as <-;
      cbn in P; injection P as <-; split; [reflexivity|]; apply mapM_in in M as [M1 M2].
      assert (forall line k, get_morph_key c line = Ok k -> k_value k = line /\ exists parts,
        split_line (c_tokenizer c) line = Ok parts /\ Forall2 (part_predicate Morph) parts (map PDictionary (k_terms k))) as K.
      { intros line k E. unfold get_morph_key in E.
        destruct (split_line (c_tokenizer c) line) as [parts|] eqn:S; cbn in E; [|discriminate].
        destruct (mapM (fun part => let! m := get_morph c in Ok (mo_normalized m part)) parts) as [terms|] eqn:T; cbn in E; [|discriminate].
        injection E as <-. cbn [k_value k_terms]. split; [reflexivity|]. exists parts. split; [reflexivity|].
        clear S. revert terms T. induction parts as [|x parts IH]; intros terms T; cbn in T; [injection T as <-; constructor|].
        unfold get_morph in T at 1. destruct (c_morph c) as [m|] eqn:CM; cbn in T; [|discriminate].
        destruct (mapM (fun part => let! m := get_morph c in Ok (mo_normalized m part)) parts) as [ts|] eqn:T'; cbn in T; [|discriminate].
        injection T as <-. constructor; [cbn; eauto|]. apply IH. reflexivity. }
      split.
      + intros line HL. destruct (M1 line HL) as (k & E & HK). destruct (K _ _ E) as (V & parts & S & F).
        exists parts, (map PDictionary (k_terms k)). split; [exact S|]. split; [|exact F].
        apply in_map_iff. exists k. rewrite V. auto.
      + intros line ps HP. apply in_map_iff in HP as (k & [= <- <-] & HK). destruct (M2 k HK) as (line & HL & E).
        destruct (K _ _ E) as (V & parts & S & F). rewrite V. split; [exact HL|]. eauto.
  Qed.
  Lemma parts_agree k parts ps toks : Forall2 (part_predicate k) parts ps ->
    (Forall2 (fun x t => accepts U x t = true) ps toks <-> Forall2 (word_agrees U c k) parts toks).
  Proof.
    intros F. revert toks. induction F as [|part x parts ps H _ IH]; intros toks; split; intros G; inversion G; subst; constructor.
    - apply (part_accepts k part x); auto.
    - apply IH. assumption.
    - apply (part_accepts k part x y H). assumption.
    - apply IH. assumption.
  Qed.
  Lemma Forall2_len {A B} (P : A -> B -> Prop) l l' : Forall2 P l l' -> length l = length l'.
  Proof. induction 1; cbn; auto. Qed.
  Lemma range_length {A} (toks : list A) i n : length (range_tokens toks (i, i + n)) <= n.
  Proof. unfold range_tokens. cbn. rewrite firstn_length. lia. Qed.

  Hypothesis SO : set_iteration set_order.
  Variables (k : kind) (lines : list str) (p : pipeline) (b : pipeline_bnf).
  Hypothesis ACT : activate_pipeline c (scheme k lines) = Ok p.
  Hypothesis BNF : pipeline_as_bnf U set_order p = Ok b.
  Notation G := (pipeline_grammar U set_order b).

  (** What the grammar derives: the lines of the dictionary. *)
  Lemma derives_lines toks i j : j <= length toks -> i <= j ->
    ((exists d, derives (accepts U) G toks (TRule 0) i j d) <->
     exists line, In line lines /\ line_agrees U c k line (range_tokens toks (i, j))).
  Proof.
    intros LE LE'. destruct (as_bnf_spec U set_order SO p b BNF) as (P & _ & _).
    destruct (scheme_productions k lines p _ ACT P) as (_ & S1 & S2). rewrite (derives_line U set_order b). split.
    - intros (line & ps & HI & E & F). destruct (S2 _ _ HI) as (HL & parts & S & PP). exists line. split; [exact HL|].
      exists parts. split; [apply split_line_words, S|]. apply (parts_agree k parts ps); auto.
    - intros (line & HL & parts & S & F). destruct (S1 _ HL) as (parts' & ps & S' & HI & PP).
      apply split_line_words in S. rewrite S in S'. injection S' as <-. exists line, ps. split; [exact HI|].
      apply (parts_agree k parts ps) in F; [|exact PP]. split; [|exact F].
      apply Forall2_len in F. unfold range_tokens in F. cbn [fst snd] in F. rewrite firstn_length, skipn_length in F. lia.
  Qed.

  Variable rel : nat -> form -> form -> bool.
  Notation match_ := (match_ (accepts U) narrow rel G).
  Notation findall := (findall (accepts U) narrow rel G).

  Lemma range_all {A} (l : list A) : range_tokens l (0, length l) = l.
  Proof. unfold range_tokens. cbn. rewrite Nat.sub_0_r. apply firstn_all. Qed.

  (** The key of a match is a line that agrees with its tokens; in the order of the
      dictionary for plain and caseless pipelines. *)
  Lemma derived_key toks i j d : derives (accepts U) G toks (TRule 0) i j d ->
    exists q line ds, d = DNode 0 q ds /\ production_key b q = Some line /\ In line lines /\
      line_agrees U c k line (range_tokens toks (i, j)).
  Proof.
    intros D. inversion D as [|r q i' j' ds HI HS]; subst. cbn in HI, HS.
    unfold production_terms in HS. apply in_seq in HI as [_ HI]. cbn in HI.
    destruct (as_bnf_spec U set_order SO p b BNF) as (P & _ & _).
    destruct (scheme_productions k lines p _ ACT P) as (_ & S1 & S2).
    destruct (nth_error (b_productions b) q) as [[line ps]|] eqn:E; [|apply nth_error_None in E; lia].
    apply (derives_preds U set_order b) in HS as [EJ F].
    destruct (S2 line ps (nth_error_In _ _ E)) as (HL & parts & S & PP).
    exists q, line, ds. unfold production_key. rewrite E. split; [reflexivity|]. split; [reflexivity|]. split; [exact HL|].
    exists parts. split; [apply split_line_words, S|]. apply (parts_agree k parts ps); auto.
  Qed.
  Lemma match_lines toks : exists fuel0, forall fuel, fuel0 <= fuel -> exists s r, match_ fuel toks = Some (Ok (s, r)) /\
    (forall m, r = Some m -> m_range m = (0, length toks) /\ exists q line ds, erase (m_root m) = DNode 0 q ds /\
       g_key G q = Some line /\ In line lines /\ line_agrees U c k line toks) /\
    (r = None -> forall line, In line lines -> ~ line_agrees U c k line toks).
  Proof.
    destruct (parse_terminates (accepts U) narrow G [0] toks false (pipeline_finite U set_order b)
      (pipeline_sound U set_order SO p b BNF) (pipeline_acyclic U set_order b)) as (fuel0 & trees & T).
    exists fuel0. intros fuel LE. specialize (T fuel LE).
    destruct (match_ fuel toks) as [r|] eqn:M.
    2:{ exfalso. unfold ParserModel.match_ in M. rewrite T in M. discriminate M. }
    assert (M' := M).
    apply (free_match_ranges (accepts U) narrow rel G toks (pipeline_free U set_order b)
      (pipeline_sound U set_order SO p b BNF) (pipeline_complete U set_order SO p b BNF) (pipeline_no_nullable U set_order SO p b BNF)
      fuel r (pipeline_start U set_order b)) in M'.
    destruct M' as [(s & m & -> & R & D)|[-> N]].
    - exists s, (Some m). split; [reflexivity|]. split; [|discriminate]. intros m' [= <-]. split; [exact R|].
      apply derived_key in D. rewrite range_all in D. exact D.
    - exists [], None. split; [reflexivity|]. split; [discriminate|]. intros _ line HL A.
      assert (exists d, derives (accepts U) G toks (TRule 0) 0 (length toks) d) as [d D].
      { apply derives_lines; [lia|lia|]. exists line. split; [exact HL|]. rewrite range_all. exact A. }
      exact (N d D).
  Qed.

  Lemma findall_lines toks : exists fuel0, forall fuel, fuel0 <= fuel -> exists s ms, findall fuel toks = Some (Ok (s, ms)) /\
    best_ranges (fun r => fst r <= snd r <= length toks /\ exists line, In line lines /\ line_agrees U c k line (range_tokens toks r))
      (map m_range ms) /\
    (forall m, In m ms -> exists q line ds, erase (m_root m) = DNode 0 q ds /\
       g_key G q = Some line /\ In line lines /\ line_agrees U c k line (range_tokens toks (m_range m))).
  Proof.
    destruct (parse_terminates (accepts U) narrow G [0] toks true (pipeline_finite U set_order b)
      (pipeline_sound U set_order SO p b BNF) (pipeline_acyclic U set_order b)) as (fuel0 & trees & T).
    exists fuel0. intros fuel LE. specialize (T fuel LE).
    destruct (findall fuel toks) as [r|] eqn:M.
    2:{ exfalso. unfold ParserModel.findall in M. rewrite T in M. discriminate M. }
    apply (free_findall_ranges (accepts U) narrow rel G toks (pipeline_free U set_order b)
      (pipeline_sound U set_order SO p b BNF) (pipeline_complete U set_order SO p b BNF) (pipeline_no_nullable U set_order SO p b BNF)) in M.
    destruct M as (s & ms & -> & BR & BD). exists s, ms. split; [reflexivity|]. split.
    2:{ intros m Hm. destruct (m_range m) as [i j] eqn:R. specialize (BD m Hm). rewrite R in BD. apply derived_key in BD. exact BD. }
    assert (EQ : forall r, (exists d, derives (accepts U) G toks (TRule 0) (fst r) (snd r) d) <->
      (fst r <= snd r <= length toks /\ exists line, In line lines /\ line_agrees U c k line (range_tokens toks r))).
    { intros [i j]. cbn [fst snd]. split.
      - intros (d & D). destruct (derives_pos (accepts U) G toks (pipeline_no_nullable U set_order SO p b BNF) _ _ _ D) as (_ & A & A').
        split; [lia|]. apply derives_lines; [lia|lia|eauto].
      - intros [A X]. apply derives_lines in X; [exact X|lia|lia]. }
    destruct BR as (B1 & B2 & B3 & B4). unfold best_ranges. split; [exact B1|]. split; [|split].
    - intros r Hr. apply EQ, B2, Hr.
    - intros S L H. apply B3; [exact L|]. intros r Hr. apply EQ, H, Hr.
    - intros S L H. apply B4; [exact L|]. intros r Hr. apply EQ, H, Hr.
  Qed.

End Lines.
