(** Texts that are continued: what the parser of a rule reports. *)
From Verif Require Import Base TokenModel EarleyModel EarleySpec TokenizerModel TaggerModel PredicateModel PipelineModel PipelineSpec PipelineProofs ParserModel ParserSpec TreeModel RuleModel RuleSpec RuleAccept RuleGrammar RuleNormalized RuleBuild RuleBfs GrammarModel GrammarSpec GrammarProofs RuleNestSpec RuleMild
  RuleTheorems TextModel TextSpec TextProofs TextTheorems PieceSpec PieceTokens AfterSpec AfterProofs AfterParser.
Open Scope nat_scope.

(** A token no predicate accepts is in nothing the rule accepts. *)
Section Foreign.
  Variable U : unicode.
  Variable set_order : list str -> list str.
  Variable c : context.
  Notation accept := (rule_accepts U set_order c).
  Variable h : rule_heap.
  Variable root : nat.
  Hypothesis built0 : built h.
  Hypothesis mild0 : harmless h root.
  Hypothesis rule0 : is_rule_at h root.
  Variable t : token.
  Hypothesis far : foreign U set_order c h root t.
  Notation judge := (accepts_active (accepts U) (activate c)).
  Notation pipe := (active_bnf (pipeline_as_bnf U set_order) (activate_pipeline c)).
  Lemma no_line x key ps : reach h root x -> nth_error h x = Some (OPipeProd key ps) -> False.
  Proof. intros R E. destruct (proj1 (built_mild h root built0 mild0 rule0) x R) as (o & E' & P & _). rewrite E in E'. injection E' as <-. discriminate. Qed.
  Lemma one_by_one_away ps ts : (forall p, In p ps -> judge p t = false) -> one_by_one judge ps ts -> ~ In t ts.
  Proof. intros F O. induction O as [|p u ps ts A O IH]; [intros []|]. intros [->|I]; [rewrite (F p (or_introl eq_refl)) in A; discriminate|apply IH; [intros q Hq; apply F; right; exact Hq|exact I]]. Qed.
  Lemma matched_away : forall r ts, matches pipe b_productions judge h r ts -> reach h root r -> ~ In t ts.
  Proof.
    assert (K : forall r o d, reach h root r -> nth_error h r = Some o -> In d (children o) -> reach h root d) by (intros; econstructor; eassumption).
    apply (matches_mind _ _ _ _ pipe b_productions judge h (fun r ts => reach h root r -> ~ In t ts) (fun r n ts => reach h root r -> ~ In t ts)
      (fun terms ts => (forall p, In (TPred p) terms -> judge p t = false) -> (forall r, In r (rule_terms terms) -> reach h root r) -> ~ In t ts)).
    all: try (intros; match goal with H : _ -> ~ In t ?ts |- ~ In t ?ts => apply H end; eapply K; [eassumption|eassumption|]; cbn; auto; fail).
    all: try (intros; intros []; fail).
    - intros p x b key ps ts E B Il M R. apply one_by_one_away with (ps := ps); [|exact M]. intros q Hq. exact (far p _ R E b key ps q B Il Hq).
    - intros p terms main ts E _ IH R. apply IH; [exact (far p _ R E)|]. intros r Hr. apply (K p _ r R E Hr).
    - intros p key ps ts E _ R. destruct (no_line p key ps R E).
    - intros r n us ts _ IH1 _ IH2 R I. apply in_app_or in I as [I|I]; [exact (IH1 R I)|exact (IH2 R I)].
    - intros p terms u ts A _ IH F C [->|I]; [rewrite (F p (or_introl eq_refl)) in A; discriminate|]. apply IH; [intros q Hq; apply F; right; exact Hq|exact C|exact I].
    - intros r terms us ts _ IH1 _ IH2 F C I. apply in_app_or in I as [I|I]; [apply IH1; [apply C; left; reflexivity|exact I]|]. apply IH2; [intros q Hq; apply F; right; exact Hq|intros q Hq; apply C; right; exact Hq|exact I].
  Qed.
  Theorem foreign_between ts rest i j : accept h root (ts ++ t :: rest) i j -> j <= length ts \/ length ts < i.
  Proof.
    intros (us & (pre & post & E & Lp & Lj) & M). assert (N := matched_away root us M (reach_refl h root)).
    destruct (le_lt_dec j (length ts)) as [L|L]; [left; exact L|]. destruct (le_lt_dec i (length ts)) as [L'|L']; [|right; exact L']. exfalso. apply N.
    apply (nth_error_In us (length ts - i)). transitivity (nth_error (ts ++ t :: rest) (length ts)); [|rewrite nth_error_app2, Nat.sub_diag; reflexivity || lia].
    rewrite E, nth_error_app2 by lia. rewrite nth_error_app1 by lia. f_equal. lia.
  Qed.
End Foreign.

Section Text.
  Variable U : unicode.
  Variable set_order : list str -> list str.
  Variable c : context.
  Hypothesis sets : set_iteration set_order.
  Variable rel : nat -> form -> form -> bool.
  Notation accept := (rule_accepts U set_order c).
  Variable fuel : nat.
  Variable h : rule_heap.
  Variable root : nat.
  Hypothesis built0 : built h.
  Hypothesis mild0 : harmless h root.
  Hypothesis rule0 : is_rule_at h root.
  Variables a w : str.
  Variables ts more : list token.
  Hypothesis tokens_a : text_tokens c a = Some (Ok ts).
  Hypothesis tokens_w : text_tokens c w = Some (Ok (ts ++ more)).

  Section Grammar.
    Variable g : grammar token predicate.
    Hypothesis made : parser_grammar U set_order c fuel h root = Some (Ok g).
    Lemma ready_at_end : last_column_ready g.
    Proof.
      destruct (built_parts U set_order c fuel h root g built0 mild0 rule0 made) as (r0 & h' & objects & H & Re & B & ->).
      intros x t. cbn. destruct (is_in x objects) eqn:Ix; [|left; reflexivity]. apply is_in_true in Ix. apply Re in Ix. destruct (B x Ix) as (o & E & Bo & _). rewrite E.
      destruct o as [| | | | | | | | | | | | | |ps a0|b ps a0| | |]; try (left; reflexivity). right. destruct Bo as [(p & Hp) F].
      assert (G : forall q, In q ps -> exists p0 rest, (match nth_error h' q with Some o => production_terms o | None => [] end) = TPred p0 :: rest).
      { intros q Hq. apply In_nth_error in Hq as (k & Hk). destruct (forall2_get _ _ _ k q F Hk) as ([key fs] & El & Eq). cbn in Eq. rewrite Eq. cbn.
        destruct (as_bnf_spec U set_order sets p b Hp) as (_ & _ & NE & _). destruct fs as [|first rest]; [destruct (NE key [] (nth_error_In _ _ El) eq_refl)|]. cbn. eauto. }
      intros q [Hq|Hq]; apply G; [exact Hq|]. apply in_flat_map in Hq as (k & _ & Hq). destruct (nth_error ps k) eqn:Ek; [|destruct Hq]. destruct Hq as [<-|[]]. apply nth_error_In in Ek. exact Ek.
    Qed.
  End Grammar.
  Lemma with_made {A} (f : grammar token predicate -> list token -> option (res A)) r : with_parser U set_order c fuel h root a f = Some (Ok r) ->
    exists g, parser_grammar U set_order c fuel h root = Some (Ok g) /\ f g ts = Some (Ok r).
  Proof. unfold with_parser. intros H. apply then_ok in H as (g & G & H). exists g. split; [exact G|]. unfold then_ in H. rewrite tokens_a in H. exact H. Qed.

  (** extract on the longer text begins with what it yields on the shorter one. *)
  Theorem text_extract_after ms s e ms' s' e' :
    parser_extract U set_order c rel fuel h root a true = Some (Ok (ms, s, e)) -> parser_extract U set_order c rel fuel h root w true = Some (Ok (ms', s', e')) ->
    match e with Some x => map shown ms' = map shown ms /\ s' = s /\ e' = Some x | None => exists rest, map shown ms' = map shown ms ++ rest end.
  Proof.
    intros E E'. unfold parser_extract in *. destruct (with_made _ _ E) as (g & G & X). rewrite (with_parser_on U set_order c fuel h root w _ g _ G tokens_w) in E'.
    destruct (extract (accepts U) narrow rel g fuel ts true) as [y|] eqn:Y; [|discriminate]. injection X as ->. destruct (extract (accepts U) narrow rel g fuel (ts ++ more) true) as [y'|] eqn:Y'; [|discriminate]. injection E' as ->.
    apply (extract_after (accepts U) narrow rel g ts more (ready_at_end g G) fuel ms s e ms' s' e' Y Y').
  Qed.
  (** findall, when nothing the rule accepts lies on both sides of the border. *)
  Theorem text_findall_after s ms s' ms' : (forall i j, accept h root (ts ++ more) i j -> j <= length ts \/ length ts <= i) ->
    parser_findall U set_order c rel fuel h root a = Some (Ok (s, ms)) -> parser_findall U set_order c rel fuel h root w = Some (Ok (s', ms')) ->
    exists first rest, ms' = first ++ rest /\ map shown first = map shown ms /\ forall x, In x rest -> length ts <= fst (m_range x).
  Proof.
    intros apart E E'. unfold parser_findall in *. destruct (with_made _ _ E) as (g & G & X). rewrite (with_parser_on U set_order c fuel h root w _ g _ G tokens_w) in E'.
    assert (US := usable U set_order c sets fuel h root g built0 mild0 rule0 G).
    apply (findall_after (accepts U) narrow rel g ts more (ready_at_end g G) fuel s ms s' ms' (proj1 US)); [|exact X|exact E'].
    intros i j d D. destruct (le_dec i (length (ts ++ more))) as [L|L]; [|right; rewrite app_length in L; lia].
    apply apart. apply (accept_iff U set_order c sets fuel h root g built0 mild0 rule0 G); [exact L|]. exists d. exact D.
  Qed.
  (** find: the same match. *)
  Theorem text_find_after s m s' m' : (forall i j, accept h root (ts ++ more) i j -> j <= length ts \/ length ts <= i) ->
    parser_find U set_order c rel fuel h root a = Some (Ok (s, Some m)) -> parser_find U set_order c rel fuel h root w = Some (Ok (s', m')) ->
    option_map shown m' = Some (shown m).
  Proof.
    intros apart E E'. apply text_find_first in E as (r & F & X), E' as (r' & F' & X'). destruct r as [[s1 ms]|]; [|destruct X]. destruct r' as [[s2 ms']|]; [|destruct m' as [m'|]; destruct X'].
    destruct X as (rest & -> & _). destruct (text_findall_after s1 (m :: rest) s2 ms' apart F F') as (first & rest' & -> & M & _).
    destruct first as [|m1 first]; [discriminate|]. cbn [map] in M. apply (f_equal (@hd_error _)) in M. cbn [hd_error] in M. destruct m' as [m'|]; [|discriminate]. destruct X' as (rest2 & X' & _). injection X' as <- _. exact M.
  Qed.
End Text.
(** A word no predicate accepts after the first text. *)
Theorem text_findall_foreign U set_order c : set_iteration set_order -> forall rel fuel h root, built h -> harmless h root -> is_rule_at h root ->
  forall a w ts t more, text_tokens c a = Some (Ok ts) -> text_tokens c w = Some (Ok (ts ++ t :: more)) -> foreign U set_order c h root t ->
  forall s ms s' ms', parser_findall U set_order c rel fuel h root a = Some (Ok (s, ms)) -> parser_findall U set_order c rel fuel h root w = Some (Ok (s', ms')) ->
  exists first rest, ms' = first ++ rest /\ map shown first = map shown ms /\ forall x, In x rest -> length ts <= fst (m_range x).
Proof.
  intros ST rel fuel h root B H R a w ts t more T T' F s ms s' ms' E E'. apply (text_findall_after U set_order c ST rel fuel h root B H R a w ts (t :: more) T T' s ms s' ms'); [|exact E|exact E'].
  intros i j A. destruct (foreign_between U set_order c h root B H R t F ts more i j A); [left; assumption|right; lia].
Qed.
