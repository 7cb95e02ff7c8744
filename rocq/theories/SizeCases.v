(** Rules with exponentially many readings, and a rule with one. *)
From Coq Require String.
From Verif Require Import Base TokenModel EarleyModel EarleySpec EarleyInv EarleyProofs TokenizerModel TaggerModel PredicateModel PredicateCases PipelineModel PipelineSpec PipelineTheorems TreeModel ParserModel ParserSpec
  ParserTheorems ResultProofs RuleModel RuleSpec RuleBuild GrammarModel GrammarProofs RuleNestSpec TextModel TextSpec TextTheorems Cases RuleCases RuleTheorems RuleLoopSpec LoopTheorems LoopCases PieceSpec PieceTokens PieceCases SizeSpec SizeProofs SizeUnique SizeRules.
Import String.StringSyntax.
Open Scope nat_scope.

(** ** Without relations extract yields every tree *)
Lemma all_matches accepts (constrain : predicate -> token -> token) rel g toks all fuel trees : parse accepts constrain g fuel toks all = Some trees -> relation_free g -> (forall n i j, In (n, (i, j)) trees -> i < j) ->
  exists ms s, extract accepts constrain rel g fuel toks all = Some (ms, s, None) /\ length ms = length trees.
Proof.
  intros P RF NE. unfold extract. rewrite P.
  assert (X : forall l s, incl l trees -> pristine trees s -> exists ms s', prepare_matches rel g l s = (ms, s', None) /\ length ms = length l).
  { induction l as [|t l IH]; intros s I PS; [exists [], s; split; reflexivity|]. cbn [prepare_matches].
    assert (HT : In t trees) by (apply I; left; reflexivity). assert (NT : fst (snd t) < snd (snd t)) by (destruct t as [n [i j]]; eapply NE; eauto).
    destruct (free_prepare accepts constrain rel g toks all fuel trees P t s RF PS HT NT) as (s1 & m & E & PS1 & _). rewrite E.
    destruct (IH s1) as (ms & s2 & E2 & L); [intros x Hx; apply I; right; exact Hx|exact PS1|]. rewrite E2. exists (m :: ms), s2. split; [reflexivity|]. cbn. rewrite L. reflexivity. }
  destruct (X trees [] (fun x H => H) (pristine_nil trees)) as (ms & s & E & L). exists ms, s. rewrite E. auto.
Qed.

(** ** The texts a, a a, a a a, ... *)
Fixpoint many (n : nat) : str := match n with 0 => str_of "a" | S n' => str_of "a" ++ space :: many n' end.
Definition the_a (t : token) : Prop := accepts ASCII (PEq (str_of "a")) t = true.
Lemma space_separates : separates (c_tokenizer small_context) space.
Proof. apply small_separates; [vm_compute; discriminate|intros (y & I & J); vm_compute in I; intuition congruence]. Qed.
Lemma many_tokens n : exists ts, text_tokens small_context (many n) = Some (Ok ts) /\ length ts = S n /\ forall t, In t ts -> the_a t.
Proof.
  assert (E0 : exists ts, text_tokens small_context (str_of "a") = Some (Ok ts) /\ length ts = 1 /\ forall t, In t ts -> the_a t).
  { eexists. split; [vm_compute; reflexivity|]. split; [reflexivity|]. intros t [<-|[]]. vm_compute. reflexivity. }
  induction n as [|n (ts & E & L & A)]; [exact E0|]. destruct E0 as (t0 & E0 & L0 & A0).
  exists (t0 ++ map (moved (Z.of_nat (S (length (str_of "a"))))) ts). split; [exact (text_tokens_join small_context (str_of "a") (many n) space t0 ts space_separates small_tags E0 E)|].
  split; [rewrite app_length, map_length; lia|]. intros t Ht. apply in_app_iff in Ht as [Ht|Ht]; [apply A0, Ht|]. apply in_map_iff in Ht as (u & <- & Hu). specialize (A u Hu). exact A.
Qed.

(** ** or_(rule('a'), rule('a', 'a')).repeatable() *)
Definition pairs_program : list rule_call := [CRule [W "a"]; CRule [W "a"; W "a"]; COr [1; 3]; CRepeatable 4 None None false].
Definition pairs_parser : nat * rule_heap := Eval vm_compute in parser_heap (program pairs_program) 5.
Definition pairs_grammar : grammar token predicate := data_grammar pairs_parser (reached pairs_parser).
Lemma pairs_made n : parser_grammar ASCII first_seen small_context (100 + n) (program pairs_program) 5 = Some (Ok pairs_grammar).
Proof.
  assert (E : build_rule ASCII first_seen small_context (100 + n) (program pairs_program) 5 = Some (Ok pairs_parser)) by (vm_compute; reflexivity).
  assert (E2 : bfs (100 + n) (snd pairs_parser) (fst pairs_parser) = Some (reached pairs_parser)) by (vm_compute; reflexivity).
  unfold parser_grammar. rewrite E. cbn [then_]. change (snd pairs_parser) with (snd pairs_parser) in E2. destruct pairs_parser as [r h'] eqn:EP. cbn [fst snd] in E2. rewrite E2. unfold pairs_grammar. rewrite EP. reflexivity.
Qed.
Lemma pairs_built : built (program pairs_program) /\ is_rule_at (program pairs_program) 5 /\ harmless (program pairs_program) 5 /\ loop_free (program pairs_program) 5.
Proof.
  assert (B : built (program pairs_program)) by (apply program_built; vm_compute; reflexivity). assert (K : is_rule_at (program pairs_program) 5) by (apply is_rule_atb_true; vm_compute; reflexivity).
  split; [exact B|]. split; [exact K|]. split; [apply harmlessb_true; auto|]. apply (loop_freeb_true (program pairs_program) (fun p => p)). vm_compute. reflexivity.
Qed.

Section Readings.
  Variable toks : list token.
  Hypothesis A : forall t, In t toks -> the_a t.
  Notation derives := (derives (accepts ASCII) pairs_grammar toks).
  Notation derives_seq := (derives_seq (accepts ASCII) pairs_grammar toks).
  Definition letter : term predicate := TPred (PEq (str_of "a")).
  Definition leaf_at (i : nat) : dtree predicate := DLeaf i (PEq (str_of "a")).
  Definition one_at (i : nat) : dtree predicate := DNode 53 51 [leaf_at i].
  Definition two_at (i : nat) : dtree predicate := DNode 53 52 [leaf_at i; leaf_at (S i)].
  (** true: two letters taken together; false: one by one. *)
  Fixpoint reading (l : list bool) (i : nat) : dtree predicate :=
    match l with
    | [] => DNode 56 55 [one_at i]
    | true :: l' => DNode 56 54 [two_at i; reading l' (2 + i)]
    | false :: l' => DNode 56 54 [one_at i; DNode 56 54 [one_at (S i); reading l' (2 + i)]]
    end.
  Lemma letter_derived i : i < length toks -> derives letter i (S i) (leaf_at i).
  Proof. intros L. destruct (nth_error toks i) as [t|] eqn:E; [|apply nth_error_None in E; lia]. apply (derives_pred _ _ _ _ i t E). apply A, (nth_error_In _ _ E). Qed.
  Lemma one_derived i : i < length toks -> derives (TRule 53) i (S i) (one_at i).
  Proof. intros L. apply derives_rule; [vm_compute; auto|]. change (derives_seq [letter] i (S i) [leaf_at i]). econstructor; [apply letter_derived, L|constructor]. Qed.
  Lemma two_derived i : S i < length toks -> derives (TRule 53) i (2 + i) (two_at i).
  Proof. intros L. apply derives_rule; [vm_compute; auto|]. change (derives_seq [letter; letter] i (2 + i) [leaf_at i; leaf_at (S i)]). econstructor; [apply letter_derived; lia|]. econstructor; [apply letter_derived; lia|constructor]. Qed.
  Lemma more_derived i k j d d' : derives (TRule 53) i k d -> derives (TRule 56) k j d' -> derives (TRule 56) i j (DNode 56 54 [d; d']).
  Proof. intros H H'. apply derives_rule; [vm_compute; auto|]. change (derives_seq [TRule 53; TRule 56] i j [d; d']). econstructor; [exact H|]. econstructor; [exact H'|constructor]. Qed.
  Lemma reading_derived l : forall i, 2 * length l + i < length toks -> derives (TRule 56) i (S (2 * length l + i)) (reading l i).
  Proof.
    induction l as [|b l IH]; intros i L; cbn [length reading] in *.
    - apply derives_rule; [vm_compute; auto|]. change (derives_seq [TRule 53] i (S i) [one_at i]). econstructor; [apply one_derived; lia|constructor].
    - replace (S (2 * S (length l) + i)) with (S (2 * length l + (2 + i))) by lia. destruct b.
      + eapply more_derived; [apply two_derived; lia|apply IH; lia].
      + eapply more_derived; [apply one_derived; lia|]. eapply more_derived; [apply one_derived; lia|apply IH; lia].
  Qed.
  Lemma reading_full l : forall i, no_empty_part (reading l i).
  Proof. induction l as [|[] l IH]; intros i; cbn; repeat split; try discriminate; try apply IH. Qed.
  Lemma reading_inj l : forall l' i, length l = length l' -> reading l i = reading l' i -> l = l'.
  Proof.
    induction l as [|b l IH]; intros [|b' l'] i L E; try discriminate; [reflexivity|]. injection L as L. destruct b, b'; cbn in E; try discriminate; f_equal; apply (IH l' (2 + i) L); injection E as E; exact E.
  Qed.
End Readings.
Fixpoint choices (n : nat) : list (list bool) := match n with 0 => [[]] | S n' => map (cons true) (choices n') ++ map (cons false) (choices n') end.
Lemma choices_spec n : length (choices n) = 2 ^ n /\ NoDup (choices n) /\ forall l, In l (choices n) -> length l = n.
Proof.
  induction n as [|n (L & N & F)]; cbn [choices]; [repeat split; [constructor; [intros []|constructor]|intros l [<-|[]]; reflexivity]|]. split; [rewrite app_length, !map_length, L; cbn; lia|].
  assert (M : forall b, NoDup (map (cons b) (choices n))) by (intros b; apply FinFun.Injective_map_NoDup; [intros x y E; injection E as E; exact E|exact N]).
  split.
  - assert (G : forall a b : list (list bool), NoDup a -> NoDup b -> (forall x, In x a -> ~ In x b) -> NoDup (a ++ b)).
    { intros a b Na Nb D. induction Na as [|x a X Na IH]; cbn; [exact Nb|]. constructor; [rewrite in_app_iff; intros [H|H]; [exact (X H)|exact (D x (or_introl eq_refl) H)]|]. apply IH. intros y Hy. apply D. right. exact Hy. }
    apply G; auto. intros x Hx Hy. apply in_map_iff in Hx as (u & <- & _). apply in_map_iff in Hy as (w & E & _). discriminate.
  - intros l Hl. apply in_app_iff in Hl as [Hl|Hl]; apply in_map_iff in Hl as (u & <- & Hu); cbn; rewrite (F u Hu); reflexivity.
Qed.


Lemma pairs_relations : relation_free pairs_grammar.
Proof.
  assert (H : forallb (fun o => match get_attributes o with Some a => match a_relation a with Some _ => false | None => true end | None => true end) (snd pairs_parser) = true) by (vm_compute; reflexivity).
  rewrite forallb_forall in H. intros r. unfold pairs_grammar, data_grammar, restrict, grammar_of. cbn [g_relation]. destruct (is_in r (reached pairs_parser)); [|reflexivity].
  destruct (nth_error (snd pairs_parser) r) as [o|] eqn:E; [|reflexivity]. specialize (H o (nth_error_In _ _ E)). destruct (get_attributes o) as [a|]; [|reflexivity]. destruct (a_relation a); [discriminate|reflexivity].
Qed.
Lemma pairs_spans toks t i j d : derives (accepts ASCII) pairs_grammar toks t i j d -> i < j.
Proof.
  apply nonempty_spans. intros r q Hq. apply data_prods in Hq as [Hr Hq]. vm_compute in Hr.
  repeat (destruct Hr as [<-|Hr]; [vm_compute in Hq; repeat (destruct Hq as [<-|Hq]; [vm_compute; discriminate|]); destruct Hq|]). destruct Hr.
Qed.
Lemma pairs_explode rel n : exists text toks fuel0, text_tokens small_context text = Some (Ok toks) /\ length toks = S (2 * n) /\
  forall fuel, fuel0 <= fuel -> exists ms s, parser_extract ASCII first_seen small_context rel fuel (program pairs_program) 5 text true = Some (Ok (ms, s, None)) /\ 2 ^ n <= length ms.
Proof.
  destruct (many_tokens (2 * n)) as (toks & E & L & A). exists (many (2 * n)), toks. destruct pairs_built as (B & K & H & LF).
  destruct (loop_free_grammar ASCII first_seen small_context first_seen_iterates _ _ 5 _ B K LF (pairs_made 0)) as ((rules & F) & S1 & Ac).
  destruct (grammar_usable ASCII first_seen small_context first_seen_iterates _ _ 5 _ B H K (pairs_made 0)) as (_ & _ & C).
  destruct (parse_terminates (accepts ASCII) narrow pairs_grammar rules toks true F S1 Ac) as (f0 & trees & T).
  exists (100 + f0). split; [exact E|]. split; [exact L|]. intros fuel HF. replace fuel with (100 + (fuel - 100)) by lia. assert (T' := T (100 + (fuel - 100)) ltac:(lia)).
  destruct (all_matches (accepts ASCII) narrow rel pairs_grammar toks true _ trees T' pairs_relations) as (ms & s & X & LM).
  { intros m i j Hm. destruct (parse_sound (accepts ASCII) narrow pairs_grammar _ toks true trees m i j S1 T' Hm) as (D & _). exact (pairs_spans toks _ i j _ D). }
  exists ms, s. split; [unfold parser_extract, with_parser; rewrite (pairs_made (fuel - 100)); cbn [then_]; rewrite E; cbn [then_]; rewrite X; reflexivity|].
  rewrite LM. destruct (choices_spec n) as (CL & CN & CF). rewrite <- CL. rewrite <- (map_length (fun l => (reading l 0, (0, S (2 * n)))) (choices n)). transitivity (length (map (fun t => (erase (fst t), snd t)) trees)); [|rewrite map_length; apply le_n].
  apply NoDup_incl_length.
  - assert (Y : forall ls, NoDup ls -> (forall l, In l ls -> length l = n) -> NoDup (map (fun l => (reading l 0, (0, S (2 * n)))) ls)); [|apply Y; auto].
    induction ls as [|l ls IH]; intros N Le; cbn; [constructor|]. inversion N as [|? ? N1 N2]; subst. constructor; [|apply IH; [exact N2|intros x Hx; apply Le; right; exact Hx]].
    intros Hin. apply in_map_iff in Hin as (l' & E' & Hl'). injection E' as E'. apply reading_inj in E'; [subst; contradiction|]. rewrite (Le l (or_introl eq_refl)), (Le l' (or_intror Hl')). reflexivity.
  - intros x Hx. apply in_map_iff in Hx as (l & <- & Hl). specialize (CF l Hl). assert (D := reading_derived toks A l 0 ltac:(lia)). rewrite CF, Nat.add_0_r in D.
    destruct (parse_complete (accepts ASCII) narrow pairs_grammar _ toks true trees 0 (S (2 * n)) (reading l 0) C T' D (reading_full l 0)) as (m & Hm & Em); [lia|auto|auto|].
    apply in_map_iff. exists (m, (0, S (2 * n))). split; [cbn; rewrite Em; reflexivity|exact Hm].
Qed.

(** 2 ^ n outgrows every polynomial. *)
Lemma below_power n : n < 2 ^ n.
Proof. induction n as [|n IH]; cbn; lia. Qed.
Lemma outgrows a k : exists n, a * S (2 * n) ^ k < 2 ^ n.
Proof.
  (* n = 2 ^ u with u large: S (2 n) <= 2 ^ (u + 2), a < 2 ^ a *)
  set (v := a + 4 * k + 4). exists (2 ^ (2 * v)).
  assert (H1 : S (2 * 2 ^ (2 * v)) <= 2 ^ (2 * v + 2)).
  { rewrite Nat.pow_add_r. change (2 ^ 2) with 4. assert (1 <= 2 ^ (2 * v)) by (apply Nat.neq_0_lt_0, Nat.pow_nonzero; discriminate). lia. }
  apply Nat.lt_le_trans with (2 ^ a * 2 ^ ((2 * v + 2) * k)).
  - apply Nat.le_lt_trans with (a * 2 ^ ((2 * v + 2) * k)); [apply Nat.mul_le_mono_l; rewrite (Nat.pow_mul_r 2 (2 * v + 2) k); apply Nat.pow_le_mono_l, H1|].
    apply Nat.mul_lt_mono_pos_r; [apply Nat.neq_0_lt_0, Nat.pow_nonzero; discriminate|apply below_power].
  - rewrite <- Nat.pow_add_r. apply Nat.pow_le_mono_r; [discriminate|].
    assert (H2 : v * v <= 2 ^ (2 * v)). { replace (2 * v) with (v + v) by lia. rewrite Nat.pow_add_r. assert (Q := below_power v). apply Nat.mul_le_mono; lia. }
    etransitivity; [|exact H2]. unfold v. nia.
Qed.
Lemma chart_explodes : exists U set_order c h root, set_iteration set_order /\ built h /\ is_rule_at h root /\ harmless h root /\ loop_free h root /\
  forall rel a k, exists text toks fuel0, text_tokens c text = Some (Ok toks) /\
  forall fuel, fuel0 <= fuel -> exists ms s, parser_extract U set_order c rel fuel h root text true = Some (Ok (ms, s, None)) /\ a * length toks ^ k < length ms.
Proof.
  exists ASCII, first_seen, small_context, (program pairs_program), 5. destruct pairs_built as (B & K & H & LF). split; [exact first_seen_iterates|]. split; [exact B|]. split; [exact K|]. split; [exact H|]. split; [exact LF|].
  intros rel a k. destruct (outgrows a k) as (n & O2). destruct (pairs_explode rel n) as (text & toks & f0 & E & L & X). exists text, toks, f0. split; [exact E|]. intros fuel HF. destruct (X fuel HF) as (ms & s & Y & Le).
  exists ms, s. split; [exact Y|]. rewrite L. lia.
Qed.

(** ** rule('a', 'b').repeatable(): one reading of every piece of every text *)
Definition couples_program : list rule_call := [CRule [W "a"; W "b"]; CRepeatable 1 None None false].
Definition couples_parser : nat * rule_heap := Eval vm_compute in parser_heap (program couples_program) 2.
Definition couples_grammar : grammar token predicate := data_grammar couples_parser (reached couples_parser).
Definition couples_width (r : nat) : option nat := if Nat.eqb r 31 then Some 2 else None.
Lemma couples_prods r q : In q (g_prods couples_grammar r) -> (r = 33 \/ r = 31) /\ q = 30 \/ r = 33 /\ q = 32.
Proof.
  intros Hq. apply data_prods in Hq as [Hr Hq]. vm_compute in Hr.
  repeat (destruct Hr as [<-|Hr]; [vm_compute in Hq; repeat (destruct Hq as [<-|Hq]; [lia|]); destruct Hq|]). destruct Hr.
Qed.
Lemma couples_terms : exists x y, g_terms couples_grammar 30 = [TPred x; TPred y] /\ g_terms couples_grammar 32 = [TRule 31; TRule 33].
Proof. vm_compute. eauto. Qed.
Lemma couples_widths : widths couples_grammar couples_width.
Proof.
  destruct couples_terms as (x & y & T1 & T2). intros r w q E Hq. unfold couples_width in E. destruct (Nat.eqb_spec r 31) as [->|]; [|discriminate]. injection E as <-.
  apply couples_prods in Hq as [[_ ->]|[E _]]; [|discriminate]. rewrite T1. exists [1; 1]. split; reflexivity.
Qed.
Lemma couples_open : one_open couples_grammar couples_width.
Proof.
  destruct couples_terms as (x & y & T1 & T2). intros r q a b c t u Hq E.
  assert (Z : forall v w : term predicate, [v; w] = a ++ t :: b ++ u :: c -> t = v).
  { intros v w H. destruct a as [|? [|? [|? a]]]; [injection H as; congruence|destruct b; discriminate|discriminate|discriminate]. }
  left. apply couples_prods in Hq as [[_ ->]|[_ ->]]; [rewrite T1 in E|rewrite T2 in E]; apply Z in E as ->; discriminate.
Qed.
Lemma couples_exclusive toks : exclusive (accepts ASCII) couples_grammar toks.
Proof.
  destruct couples_terms as (x & y & T1 & T2). assert (K : forall t i j d, derives (accepts ASCII) couples_grammar toks t i j d -> i < j).
  { apply nonempty_spans. intros r q Hq. apply couples_prods in Hq as [[_ ->]|[_ ->]]; [rewrite T1|rewrite T2]; discriminate. }
  assert (D1 : forall i j ds, derives_seq (accepts ASCII) couples_grammar toks (g_terms couples_grammar 30) i j ds -> j = 2 + i).
  { intros i j ds H. rewrite T1 in H. inversion H as [|? ? ? ? ? ? ? Ha Hb]; subst. inversion Hb as [|? ? ? ? ? ? ? Hc Hd]; subst. inversion Hd; subst. inversion Ha; subst. inversion Hc; subst. lia. }
  assert (D2 : forall i j ds, derives_seq (accepts ASCII) couples_grammar toks (g_terms couples_grammar 32) i j ds -> 3 + i <= j).
  { intros i j ds H. rewrite T2 in H. inversion H as [|? ? ? ? ? ? ? Ha Hb]; subst. inversion Hb as [|? ? ? ? ? ? ? Hc Hd]; subst. inversion Hd; subst. apply K in Hc.
    apply (proj1 (derives_width (accepts ASCII) couples_grammar toks couples_width couples_widths)) with (w := 2) in Ha; [lia|reflexivity]. }
  intros r q q' i j ds ds' Hq Hq' H H'. apply couples_prods in Hq as [[_ ->]|[_ ->]], Hq' as [[_ ->]|[_ ->]]; try reflexivity; [apply D1 in H; apply D2 in H'; lia|apply D2 in H; apply D1 in H'; lia].
Qed.
Lemma couples_made : parser_grammar ASCII first_seen small_context 100 (program couples_program) 2 = Some (Ok couples_grammar).
Proof. apply (grammar_data (program couples_program) 2). vm_compute. reflexivity. Qed.
Lemma couples_once : exists U set_order c fuel h root g width, set_iteration set_order /\ built h /\ is_rule_at h root /\ parser_grammar U set_order c fuel h root = Some (Ok g) /\
  widths g width /\ one_open g width /\ (forall toks, exclusive (accepts U) g toks) /\
  exists toks d, length toks = 8 /\ derives (accepts U) g toks (TRule (g_start g)) 0 8 d.
Proof.
  exists ASCII, first_seen, small_context, 100, (program couples_program), 2, couples_grammar, couples_width. split; [exact first_seen_iterates|]. split; [apply program_built; vm_compute; reflexivity|].
  split; [apply is_rule_atb_true; vm_compute; reflexivity|]. split; [exact couples_made|]. split; [exact couples_widths|]. split; [exact couples_open|]. split; [exact couples_exclusive|].
  set (toks := words ["a"; "b"; "a"; "b"; "a"; "b"; "a"; "b"]%string). exists toks.
  assert (P : forall i w t, nth_error toks i = Some t -> accepts ASCII (PEq w) t = true -> derives (accepts ASCII) couples_grammar toks (TPred (PEq w)) i (S i) (DLeaf i (PEq w))) by (intros; econstructor; eauto).
  assert (Q : forall i, i = 0 \/ i = 2 \/ i = 4 \/ i = 6 -> derives_seq (accepts ASCII) couples_grammar toks (g_terms couples_grammar 30) i (2 + i) [DLeaf i (PEq (str_of "a")); DLeaf (S i) (PEq (str_of "b"))]).
  { intros i [->|[->|[->| ->]]]; (econstructor; [eapply P; reflexivity|]; econstructor; [eapply P; reflexivity|constructor]). }
  assert (M : forall i j d, i = 0 \/ i = 2 \/ i = 4 -> derives (accepts ASCII) couples_grammar toks (TRule 33) (2 + i) j d ->
    derives (accepts ASCII) couples_grammar toks (TRule 33) i j (DNode 33 32 [DNode 31 30 [DLeaf i (PEq (str_of "a")); DLeaf (S i) (PEq (str_of "b"))]; d])).
  { intros i j d Hi Hd. apply derives_rule; [vm_compute; auto|]. destruct couples_terms as (x & y & _ & T2). rewrite T2. econstructor; [apply derives_rule; [vm_compute; auto|apply Q; lia]|]. econstructor; [exact Hd|constructor]. }
  eexists. split; [reflexivity|]. change (g_start couples_grammar) with 33. apply (M 0); [lia|]. apply (M 2); [lia|]. apply (M 4); [lia|]. apply derives_rule; [vm_compute; auto|apply (Q 6); lia].
Qed.

(** ** Small counts *)
(** The states in the last column after n letters: or_(rule('a'), rule('a', 'a')).repeatable() and rule('a').repeatable(). *)
Definition last_column (p : list rule_call) (root : nat) (n : nat) : option nat :=
  match parser_grammar ASCII first_seen small_context 100 (program p) root, text_tokens small_context (many n) with
  | Some (Ok g), Some (Ok toks) => option_map (fun st => length (cols st (length toks))) (chart (accepts ASCII) narrow g toks 1000 true)
  | _, _ => None
  end.
Definition extracted (p : list rule_call) (root : nat) (n : nat) : option nat :=
  match parser_extract ASCII first_seen small_context (fun _ _ _ => true) 1000 (program p) root (many n) true with Some (Ok (ms, _, None)) => Some (length ms) | _ => None end.
Definition many_program : list rule_call := [CRule [W "a"]; CRepeatable 1 None None false].
