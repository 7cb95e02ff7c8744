(** The text of a chart is read back; when it can be made. *)
From Coq Require String.
From Verif Require Import FactProofs PredicateProofs FactTheorems.
From Verif Require Import Base TokenModel EarleyModel EarleySpec EarleyProofs ParserModel PredicateModel PipelineModel PipelineSpec RuleModel RuleSpec RuleBuild RuleNestSpec RuleBfs RuleBNF RuleForward RuleParser RuleBuilt RuleTheorems GrammarModel GrammarSpec GrammarProofs
  DotTextModel DotTextProofs LabelModel LabelSpec LabelProofs LabelTheorems EntrySpec EntryProofs ChartTextModel ChartTextSpec.
Import String.StringSyntax.
Open Scope nat_scope.

(** ** Words *)
Lemma digits_inside (s rest : str) : forallb (fun c => (48 <=? c) && (c <=? 57))%N%bool s = true -> ends_at (1, None) (s ++ rest) = ends_at (1, None) rest.
Proof.
  induction s as [|x s IH]; [reflexivity|]. cbn [forallb app ends_at is_outside andb]. intros H. apply andb_true_iff in H as [H1 H2]. apply andb_true_iff in H1 as [A B]. apply N.leb_le in A, B.
  assert (E : next_place (1, None) x = Some (1, None)).
  { unfold next_place. repeat match goal with |- context [N.eqb x ?n] => replace (N.eqb x n) with false by (symmetry; apply N.eqb_neq; lia) end. reflexivity. }
  rewrite E. apply IH, H2.
Qed.
Lemma range_one_word i j : one_word (range_word i j).
Proof.
  unfold one_word, range_word. change (ends_at (1, None) (digits i ++ str_of ":" ++ digits j ++ str_of "]") = Some outside).
  rewrite digits_inside by apply digits_digits. change (ends_at (1, None) (digits j ++ str_of "]") = Some outside). rewrite digits_inside by apply digits_digits. reflexivity.
Qed.
Lemma digits_colon : forall (a b x y : str), forallb (fun c => (48 <=? c) && (c <=? 57))%N%bool a = true -> forallb (fun c => (48 <=? c) && (c <=? 57))%N%bool b = true -> a ++ 58%N :: x = b ++ 58%N :: y -> a = b /\ x = y.
Proof.
  induction a as [|u a IH]; intros [|v b] x y A B E; cbn in *.
  - injection E as ->. auto.
  - injection E as <- _. apply andb_true_iff in B as [B _]. discriminate.
  - injection E as -> _. apply andb_true_iff in A as [A _]. discriminate.
  - injection E as -> E. apply andb_true_iff in A as [_ A], B as [_ B]. destruct (IH b x y A B E) as [-> ->]. auto.
Qed.
Lemma range_inj i j i' j' : range_word i j = range_word i' j' -> i = i' /\ j = j'.
Proof.
  unfold range_word. intros E. apply app_inv_head in E. cbn [app] in E. change (str_of ":" ++ ?x) with (58%N :: x) in E.
  destruct (digits_colon (digits i) (digits i') _ _ (proj2 (digits_digits i)) (proj2 (digits_digits i')) E) as [A B]. apply app_inv_tail in B. split; apply digits_inj; assumption.
Qed.
Lemma around_split before after : ~ In (str_of "$") before -> around (before ++ str_of "$" :: after) = Some (before, after).
Proof.
  induction before as [|w before IH]; intros N; cbn [app around]; [reflexivity|].
  destruct (str_eqb w (str_of "$")) eqn:E; [apply str_eqb_eq in E; exfalso; apply N; left; exact E|]. rewrite IH by (intros I; apply N; right; exact I). reflexivity.
Qed.
Lemma join_cons sep w ws : ws <> [] -> join_with sep (w :: ws) = w ++ sep ++ join_with sep ws.
Proof. destruct ws; [congruence|reflexivity]. Qed.

Section Text.
  Context {token pred : Type}.
  Variable g : grammar token pred.
  Variable toks : list token.
  Variable label : term pred -> res (option str).
  Variable token_repr : token -> str.
  Notation state := (EarleyModel.state token pred).
  Notation state_text := (state_text g label).
  Notation chart_source := (chart_source g toks label token_repr).

  Lemma labels_needed ts ls : mapM label ts = Ok ls -> forall ws, mapM needed ls = Ok ws -> Forall2 (fun t l => label t = Ok (Some l)) ts ws.
  Proof.
    intros E. apply mapM_Forall2 in E. induction E as [|t l ts ls H _ IH]; intros ws W; cbn in W; [injection W as <-; constructor|].
    destruct l as [l|]; [|discriminate]. cbn in W. destruct (mapM needed ls) as [ws'|] eqn:Ew; [|discriminate]. cbn in W. injection W as <-. constructor; [exact H|apply IH; reflexivity].
  Qed.
  Lemma mapM_app {A B} (f : A -> res B) l l' r : mapM f (l ++ l') = Ok r -> exists a b, mapM f l = Ok a /\ mapM f l' = Ok b /\ r = a ++ b.
  Proof.
    revert r. induction l as [|x l IH]; intros r E; cbn in E |- *; [exists [], r; auto|].
    destruct (f x) as [y|]; [|discriminate]. cbn in E |- *. destruct (mapM f (l ++ l')) as [r'|]; [|discriminate]. cbn in E. injection E as <-. destruct (IH r' eq_refl) as (a & b & -> & -> & ->). exists (y :: a), b. auto.
  Qed.
  Theorem state_line_read s line : state_text s = Ok line ->
    (exists name, label (TRule (s_rule s)) = Ok (Some name)) ->
    (forall t l, t = TRule (s_rule s) \/ In t (g_terms g (s_prod s)) -> label t = Ok (Some l) -> plain_label l) ->
    exists x, read_state line = Some x /\ says g label s x.
  Proof.
    intros E (name & N) P. unfold ChartTextModel.state_text in E.
    destruct (mapM label (firstn _ _)) as [before|] eqn:Eb; [|discriminate]. cbn [bind] in E. destruct (mapM label (skipn _ _)) as [after|] eqn:Ea; [|discriminate]. cbn [bind] in E.
    destruct (mapM needed _) as [ws|] eqn:Ew; [|discriminate]. cbn [bind] in E. rewrite N in E. cbn [bind] in E. injection E as <-.
    apply mapM_app in Ew as (wb & w' & Wb & W' & ->). apply mapM_app in W' as (d & wa & Wd & Wa & ->). cbn in Wd. injection Wd as <-.
    assert (Fb := labels_needed _ _ Eb _ Wb). assert (Fa := labels_needed _ _ Ea _ Wa).
    assert (Pb : Forall plain_label wb).
    { apply Forall_forall. intros l I. destruct (Forall2_right _ _ _ l Fb I) as (t & It & Lt). apply (P t l); [|exact Lt]. right. rewrite <- (firstn_skipn (s_dot s)). apply in_or_app. auto. }
    assert (Pa : Forall plain_label wa).
    { apply Forall_forall. intros l I. destruct (Forall2_right _ _ _ l Fa I) as (t & It & Lt). apply (P t l); [|exact Lt]. right. rewrite <- (firstn_skipn (s_dot s)). apply in_or_app. auto. }
    assert (Pn := P _ name (or_introl eq_refl) N).
    exists (range_word (s_start s) (s_stop s), name, wb, wa). split; [|split; [reflexivity|split; [exact N|split; assumption]]].
    set (ws := wb ++ [str_of "$"] ++ wa).
    assert (NE : ws <> []) by (unfold ws; destruct wb; discriminate).
    assert (J : str_of "[" ++ digits (s_start s) ++ str_of ":" ++ digits (s_stop s) ++ str_of "] " ++ name ++ str_of " -> " ++ join_with (str_of " ") ws =
      join_with (str_of " ") (range_word (s_start s) (s_stop s) :: name :: str_of "->" :: ws)).
    { rewrite !join_cons by (discriminate || exact NE). unfold range_word. rewrite <- !app_assoc. reflexivity. }
    match type of J with ?x = _ => change (read_state x = Some (range_word (s_start s) (s_stop s), name, wb, wa)) end.
    unfold read_state. rewrite J, words_joined; [|discriminate|].
    - rewrite str_eqb_refl. unfold ws. cbn [app]. rewrite around_split; [reflexivity|]. intros I. rewrite Forall_forall in Pb. exact (proj2 (Pb _ I) eq_refl).
    - constructor; [apply range_one_word|]. constructor; [exact (proj1 Pn)|]. constructor; [reflexivity|]. unfold ws. apply Forall_app. split; [eapply Forall_impl; [|exact Pb]; intros a [A _]; exact A|]. constructor; [reflexivity|]. eapply Forall_impl; [|exact Pa]; intros a [A _]; exact A.
  Qed.
  Lemma labels_same ts : forall ts' ls, Forall2 (fun t l => label t = Ok (Some l)) ts ls -> Forall2 (fun t l => label t = Ok (Some l)) ts' ls -> map label ts = map label ts'.
  Proof.
    induction ts as [|t ts IH]; intros ts' ls A B; inversion A; subst; inversion B; subst; [reflexivity|]. cbn [map]. f_equal; [congruence|]. eapply IH; eassumption.
  Qed.
  (** Equal lines of states say the same. *)
  Theorem lines_tell s s' line : state_text s = Ok line -> state_text s' = Ok line ->
    (forall x, x = s \/ x = s' -> (exists name, label (TRule (s_rule x)) = Ok (Some name)) /\ forall t l, t = TRule (s_rule x) \/ In t (g_terms g (s_prod x)) -> label t = Ok (Some l) -> plain_label l) ->
    s_start s = s_start s' /\ s_stop s = s_stop s' /\ label (TRule (s_rule s)) = label (TRule (s_rule s')) /\
    map label (firstn (s_dot s) (g_terms g (s_prod s))) = map label (firstn (s_dot s') (g_terms g (s_prod s'))) /\
    map label (skipn (s_dot s) (g_terms g (s_prod s))) = map label (skipn (s_dot s') (g_terms g (s_prod s'))).
  Proof.
    intros E E' H. destruct (H s (or_introl eq_refl)) as [N P], (H s' (or_intror eq_refl)) as [N' P'].
    destruct (state_line_read s line E N P) as (x & R & S1), (state_line_read s' line E' N' P') as (x' & R' & S2). rewrite R in R'. injection R' as <-. destruct x as [[[rg name] b] a].
    destruct S1 as (A1 & A2 & A3 & A4), S2 as (B1 & B2 & B3 & B4). rewrite A1 in B1. apply range_inj in B1 as [-> ->]. split; [reflexivity|]. split; [reflexivity|]. split; [congruence|]. split; eapply labels_same; eassumption.
  Qed.
  (** The lines of a chart: a column shows the last of the tokens before it. *)
  Notation shown := (fun k => match rev (firstn k toks) with [] => str_of "None" | t :: _ => token_repr t end).
  Lemma column_shown k : k <= length toks -> column_token toks token_repr k = shown k.
  Proof.
    intros L. destruct k as [|k]; [reflexivity|]. unfold column_token. destruct (nth_error toks k) as [t|] eqn:E; [|apply nth_error_None in E; lia].
    apply nth_error_split in E as (l1 & l2 & -> & <-). rewrite firstn_app, firstn_all2 by lia. replace (S (length l1) - length l1) with 1 by lia. cbn [firstn]. rewrite rev_app_distr. reflexivity.
  Qed.
  Theorem chart_lines st lines : chart_source st = Ok lines -> blocks (fun s l => state_text s = Ok l) shown (cols st) 0 (S (length toks)) lines.
  Proof.
    unfold ChartTextModel.chart_source. set (f := fun k => _).
    assert (K : forall n k bs, k + n <= S (length toks) -> mapM f (seq k n) = Ok bs -> blocks (fun s l => state_text s = Ok l) shown (cols st) k n (concat bs)).
    { induction n as [|n IH]; intros k bs Le E; cbn in E; [injection E as <-; constructor|]. destruct (f k) as [b|] eqn:Ef; [|discriminate]. cbn [bind] in E. destruct (mapM f (seq (S k) n)) as [bs'|] eqn:Eb; [|discriminate]. cbn in E. injection E as <-.
      unfold f in Ef. unfold column_source in Ef. destruct (mapM state_text (cols st k)) as [ls|] eqn:El; [|discriminate]. cbn in Ef. injection Ef as <-. cbn [concat]. rewrite column_shown by lia.
      match goal with |- blocks ?P ?T ?C _ _ _ => assert (B := a_block P T C k n ls (concat bs') (proj1 (mapM_Forall2 _ _ _) El) (IH (S k) bs' ltac:(lia) Eb)) end.
      cbn [concat app] in B |- *. rewrite <- app_assoc. exact B. }
    intros E. destruct (mapM f _) as [bs|] eqn:Eb; [|discriminate]. cbn [bind] in E. injection E as <-. apply K; [lia|exact Eb].
  Qed.
  Lemma mapM_all {A B} (f : A -> res B) l : (forall x, In x l -> exists y, f x = Ok y) -> exists r, mapM f l = Ok r.
  Proof.
    induction l as [|x l IH]; intros H; [exists []; reflexivity|]. destruct (H x (or_introl eq_refl)) as (y & E). destruct (IH (fun z I => H z (or_intror I))) as (r & Er). exists (y :: r). cbn. rewrite E. cbn. rewrite Er. reflexivity.
  Qed.
  Lemma labels_all ts : (forall t, In t ts -> exists l, label t = Ok (Some l)) -> exists ls, mapM label ts = Ok (map Some ls).
  Proof.
    induction ts as [|t ts IH]; intros H; [exists []; reflexivity|]. destruct (H t (or_introl eq_refl)) as (l & E). destruct (IH (fun z I => H z (or_intror I))) as (ls & El). exists (l :: ls). cbn. rewrite E. cbn. rewrite El. reflexivity.
  Qed.
  Lemma needed_some (ls : list str) : mapM needed (map Some ls) = Ok ls.
  Proof. induction ls as [|l ls IH]; [reflexivity|]. cbn in *. rewrite IH. reflexivity. Qed.
  Theorem chart_is_printed st : (forall k s, k <= length toks -> In s (cols st k) -> forall t, t = TRule (s_rule s) \/ In t (g_terms g (s_prod s)) -> exists l, label t = Ok (Some l)) -> exists lines, chart_source st = Ok lines.
  Proof.
    intros H. unfold ChartTextModel.chart_source. set (f := fun k : nat => _).
    destruct (mapM_all f (seq 0 (S (length toks)))) as (bs & ->); [|eexists; reflexivity]. intros k Ik. apply in_seq in Ik. unfold f, column_source.
    destruct (mapM_all state_text (cols st k)) as (ls & ->); [|eexists; reflexivity]. intros s Is. assert (Hs := H k s ltac:(lia) Is). unfold ChartTextModel.state_text.
    destruct (labels_all (firstn (s_dot s) (g_terms g (s_prod s)))) as (b & ->). { intros t It. apply Hs. right. rewrite <- (firstn_skipn (s_dot s)). apply in_or_app. auto. }
    destruct (labels_all (skipn (s_dot s) (g_terms g (s_prod s)))) as (a & ->). { intros t It. apply Hs. right. rewrite <- (firstn_skipn (s_dot s)). apply in_or_app. auto. }
    cbn [bind]. replace (map Some b ++ [Some (str_of "$")] ++ map Some a) with (map Some (b ++ [str_of "$"] ++ a)) by (rewrite !map_app; reflexivity). rewrite needed_some. cbn [bind].
    destruct (Hs _ (or_introl eq_refl)) as (n & ->). eexists. reflexivity.
  Qed.
End Text.

(** ** The rules of a parser *)
Section Parser.
  Variable U : unicode.
  Variable set_order : list str -> list str.
  Variable c : context.
  Variable label_of_pred : predicate -> res str.
  Variable label_of_interp : nat -> res str.
  Variable label_of_relation : nat -> str.
  Variable token_repr : token -> str.
  Theorem parser_chart_is_printed fuel (h : rule_heap) root toks all r : built h -> harmless h root -> is_rule_at h root ->
    (forall p, exists l, label_of_pred p = Ok l) -> (forall i, exists l, label_of_interp i = Ok l) ->
    parser_chart_text U set_order c label_of_pred label_of_interp label_of_relation token_repr fuel h root toks all = Some r -> 
    (exists e, build_rule U set_order c fuel h root = Some (Err e) /\ r = Err e) \/ exists lines, r = Ok lines.
  Proof.
    intros B F R LP LI H. unfold parser_chart_text in H. unfold parser_grammar in H. destruct (build_rule U set_order c fuel h root) as [[[x h']|e]|] eqn:Eb; cbn [then_] in H; [|injection H as <-; left; eauto|discriminate].
    right. destruct (bfs fuel h' x) as [objects|] eqn:Bf; cbn [then_] in H; [|discriminate]. 
    assert (PR : parser_rules U set_order c fuel h root = Some (Ok (bnf_rules h' objects, h'))). { unfold parser_rules. rewrite Eb. cbn [then_]. rewrite Bf. reflexivity. }
    destruct (parser_rules_ok U set_order c fuel h root _ h' B F R PR) as (x' & rest & objects' & Eb' & Er & Bf' & _ & K & G & Nm). rewrite Eb in Eb'. injection Eb' as <-. rewrite Bf in Bf'. injection Bf' as <-. clear Er rest.
    set (g := restrict objects (grammar_of (pipeline_predict U set_order) h' x)) in *.
    destruct (chart (accepts U) narrow g toks fuel all) as [st|] eqn:CH; [|discriminate]. injection H as <-.
    assert (LR : forall y, In y (bnf_rules h' objects) -> exists l, term_label label_of_pred label_of_interp label_of_relation h' (TRule y) = Ok (Some l)).
    { intros y Iy. destruct (Nm y Iy) as (n & _ & Hn). cbn [term_label]. apply (proj2 (label_named label_of_interp label_of_relation h' y n Hn)). intros i _. apply LI. }
    destruct (bfs_ok h' fuel x objects Bf) as (_ & Re & _).
    assert (PS : predict_sound g) by (apply sound0).
    assert (TE : forall y q t, In q (g_prods g y) -> In t (g_terms g q) -> match t with TRule z => In z (bnf_rules h' objects) | TPred _ => True end).
    { intros y q t Iq It. destruct t as [z|p]; [|exact Logic.I]. cbn in Iq. destruct (is_in y objects) eqn:Iy; [|destruct Iq]. apply is_in_true in Iy.
      assert (Iz := objects_closed U set_order h' x objects Re y q z Iy Iq It). apply Re in Iz, Iy. apply K. split; [exact Iz|].
      cbn in It. destruct (nth_error h' y) as [oy|] eqn:Ey; [|destruct Iq]. destruct (nth_error h' q) as [oq|] eqn:Eq; [|destruct It].
      assert (Rq : reach h' x q) by (apply (reach_step h' x y oy q Iy Ey); destruct oy; try contradiction; exact Iq).
      destruct (G q Rq) as (o & Eo & Bq & _). rewrite Eq in Eo. injection Eo as <-. destruct oq; cbn in It; try contradiction; try (apply in_map_iff in It as (w & Hw & _); discriminate).
      destruct Bq as (_ & T). destruct (T z It) as (oz & Ez & [Bz|[X _]]); [exists oz; auto|discriminate]. }
    assert (PP : forall y q i, possible g toks y q i -> In q (g_prods g y)).
    { intros y q i P. unfold possible in P. destruct (nth_error toks i) as [t|]; [apply (PS y t q P)|exact P]. }
    apply chart_is_printed. intros k s _ Is t It.
    destruct (states_are_entries (accepts U) narrow g toks all PS fuel st CH k s Is) as [_ (L & P & _)]. apply PP in P.
    assert (Iy : In (s_rule s) (bnf_rules h' objects)).
    { apply K. cbn in P. destruct (is_in (s_rule s) objects) eqn:Iy; [|destruct P]. apply is_in_true in Iy. split; [apply Re, Iy|]. destruct (nth_error h' (s_rule s)) as [o|] eqn:Eo; [|destruct P]. exists o. split; [exact Eo|]. destruct o; try contradiction; reflexivity. }
    destruct It as [->|It]; [apply LR, Iy|]. assert (Tt := TE _ _ t P It). destruct t as [z|p]; [apply LR, Tt|destruct (LP p) as (l & E); exists l; cbn; rewrite E; reflexivity].
  Qed.
End Parser.
