(** The matches findall gives lie in the text in the order in which they are listed. *)
From Verif Require Import Base TokenModel EarleyModel EarleySpec TokenizerModel TokenizerSpec TokenizerProofs TaggerModel PredicateModel PipelineModel
  TreeModel TreeSpec ParserModel ParserSpec ReportProofs AgreeProofs RuleModel GrammarModel GrammarSpec GrammarProofs TextModel TextSpec TextProofs TextTheorems PredicateProofs RuleNormalized.
Open Scope nat_scope.

Lemma in_order_map (f : token -> token) l : (forall t, t_start (f t) = t_start t /\ t_stop (f t) = t_stop t) -> in_order l -> in_order (map f l).
Proof.
  intros F O l1 a l2 b l3 E. apply map_eq_app in E as (k1 & k2 & -> & _ & E). apply map_eq_cons in E as (a' & k3 & -> & <- & E).
  apply map_eq_app in E as (k4 & k5 & -> & _ & E). apply map_eq_cons in E as (b' & k6 & -> & <- & _).
  destruct (F a') as [_ ->]. destruct (F b') as [-> _]. apply (O k1 a' k4 b' k6 eq_refl).
Qed.
Lemma text_in_order c text toks : (c_tagger c = None \/ c_tagger c = Some PassTagger) -> text_tokens c text = Some (Ok toks) -> in_order toks.
Proof.
  intros T H. unfold text_tokens in H. apply then_ok in H as (ts & H & E).
  assert (toks = ts) as -> by (destruct T as [T|T]; rewrite T in E; cbn in E; congruence).
  destruct (c_morph c) as [m|].
  - unfold morph_tokenize in H. destruct (tokenize _ _ text) as [[l|]|] eqn:Et; cbn in H; try discriminate. injection H as <-.
    apply in_order_map; [|apply (tokenize_faithful _ _ _ _ Et)]. intros t. unfold morph_token. destruct (str_eqb (t_type t) RU); split; reflexivity.
  - apply (tokenize_faithful _ _ _ _ H).
Qed.
Lemma in_order_nth l i j a b : in_order l -> i < j -> nth_error l i = Some a -> nth_error l j = Some b -> (t_stop a <= t_start b)%Z.
Proof.
  intros O L A B. apply nth_error_split in A as (l1 & l2 & -> & <-). rewrite nth_error_app2 in B by lia.
  destruct (j - length l1) as [|k] eqn:E; [lia|]. cbn in B. apply nth_error_split in B as (l3 & l4 & -> & _). apply (O l1 a l3 b l4 eq_refl).
Qed.
Lemma left_to_right_later l1 a l2 b l3 n : left_to_right n (l1 ++ a :: l2 ++ b :: l3) -> snd a <= fst b.
Proof.
  assert (H : forall l n b l', left_to_right n (l ++ b :: l') -> n <= fst b).
  { induction l as [|[i j] l IH]; intros m [x y] l'; cbn; intros (P & Q & R); [exact P|]. apply IH in R. cbn in R. lia. }
  revert n. induction l1 as [|[i j] l1 IH]; intros n; cbn; [destruct a as [i j]; cbn|]; intros (P & Q & R); [apply (H _ _ _ _ R)|apply (IH _ R)].
Qed.
Lemma in_order_two a b : (t_stop a <= t_start b)%Z -> in_order [a; b].
Proof.
  intros H [|x [|y [|z l1]]] a' l2 b' l3 E; cbn in E; injection E; intros; subst; try (destruct l2; discriminate); try discriminate.
  destruct l2 as [|y l2]; cbn in *; [congruence|]. destruct l2; discriminate.
Qed.
Section Order.
  Variable U : unicode.
  Variable set_order : list str -> list str.
  Variable c : context.
  (** Tokens that are in order stay so, whoever made them. *)
  Theorem tagged_order rel fuel h root text toks s ms : text_tokens c text = Some (Ok toks) -> in_order toks ->
    parser_findall U set_order c rel fuel h root text = Some (Ok (s, ms)) ->
    forall l1 m l2 m' l3, ms = l1 ++ m :: l2 ++ m' :: l3 -> (snd (m_span m) <= fst (m_span m'))%Z.
  Proof.
    intros Tk O H. unfold parser_findall, with_parser in H. apply then_ok in H as (g & _ & H). rewrite Tk in H. cbn [then_] in H.
    assert (L := findall_order _ _ _ _ _ _ _ _ H).
    assert (G := fun m I => findall_good (accepts U) narrow rel g toks fuel s ms m (bank_narrow U) H I).
    intros l1 m l2 m' l3 E. assert (I : In m ms /\ In m' ms) by (rewrite E; split; repeat (rewrite in_app_iff; cbn [In]); tauto). destruct I as [I I'].
    destruct (G m I) as (_ & a & b & _ & B & X & ->). destruct (G m' I') as (_ & a' & b' & A' & _ & _ & ->). cbn [fst snd].
    rewrite E in L. repeat (rewrite map_app in L; cbn [map] in L). apply left_to_right_later in L. refine (in_order_nth toks _ _ b a' O _ B A'). lia.
  Qed.
End Order.
Theorem text_order U set_order c rel fuel h root text s ms : (c_tagger c = None \/ c_tagger c = Some PassTagger) ->
  parser_findall U set_order c rel fuel h root text = Some (Ok (s, ms)) ->
  left_to_right 0 (map m_range ms) /\ (forall m, In m ms -> (0 <= fst (m_span m))%Z /\ (snd (m_span m) <= Z.of_nat (length text))%Z) /\
  forall l1 m l2 m' l3, ms = l1 ++ m :: l2 ++ m' :: l3 -> (snd (m_span m) <= fst (m_span m'))%Z.
Proof.
  intros T H. unfold parser_findall, with_parser in H. apply then_ok in H as (g & _ & H). apply then_ok in H as (toks & Tk & H).
  assert (O := text_in_order c text toks T Tk). assert (L := findall_order _ _ _ _ _ _ _ _ H). assert (F := text_faithful c text toks T Tk).
  assert (G := fun m I => findall_good (accepts U) narrow rel g toks fuel s ms m (bank_narrow U) H I).
  split; [exact L|]. split.
  - intros m I. destruct (G m I) as (_ & a & b & A & B & _ & ->). cbn [fst snd]. apply nth_error_In, F in A as (x & y & _ & -> & _). apply nth_error_In, F in B as (x' & y' & -> & _ & ->).
    rewrite !app_length. split; lia.
  - intros l1 m l2 m' l3 E. assert (I : In m ms /\ In m' ms) by (rewrite E; split; repeat (rewrite in_app_iff; cbn [In]); tauto). destruct I as [I I'].
    destruct (G m I) as (_ & a & b & _ & B & X & ->). destruct (G m' I') as (_ & a' & b' & A' & _ & _ & ->). cbn [fst snd].
    rewrite E in L. repeat (rewrite map_app in L; cbn [map] in L). apply left_to_right_later in L. refine (in_order_nth toks _ _ b a' O _ B A'). lia.
Qed.
