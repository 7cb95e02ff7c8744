(** Quantifiers with and without a question mark. *)
From Coq Require String.
From Verif Require Import Base TokenModel RuleModel TokenizerModel PatternModel PatternSpec.
Open Scope nat_scope.

Section One.
  Variable C : alphabet.
  Variable c : N.
  Variable text : str.
  Notation body := (places C text (One (literal c))).
  Notation row i := (run (is_letter C c) (skipn i text)).
  Lemma skip_at : forall (l : str) i, skipn i l = match nth_error l i with Some x => x :: skipn (S i) l | None => [] end.
  Proof. induction l as [|y l IH]; intros [|i]; cbn [skipn nth_error]; try reflexivity. rewrite IH. reflexivity. Qed.
  Lemma one_letter i gs : body (i, gs) = if 0 <? row i then [(S i, gs)] else [].
  Proof.
    rewrite skip_at. cbn [places fst snd]. destruct (nth_error text i) as [x|]; [|reflexivity]. cbn [run in_one literal existsb in_code xorb]. rewrite orb_false_r.
    unfold is_letter. destruct (in_set _ _ x); reflexivity.
  Qed.
  Lemma row_next i k : row i = S k -> row (S i) = k.
  Proof. rewrite (skip_at text i). destruct (nth_error text i); [|discriminate]. cbn [run]. destruct (is_letter C c n); [|discriminate]. intros E. injection E as E. exact E. Qed.
  Lemma row_short i : row i <= length text.
  Proof. transitivity (length (skipn i text)); [|rewrite skipn_length; lia]. generalize (skipn i text) as l. induction l as [|x l IH]; cbn; [lia|]. destruct (is_letter C c x); lia. Qed.
  Lemma star_row greedy fuel : forall i gs, row i <= fuel ->
    map fst (star_places greedy body fuel (i, gs)) = if greedy then rev (seq i (S (row i))) else seq i (S (row i)).
  Proof.
    induction fuel as [|fuel IH]; intros i gs L; [replace (row i) with 0 by lia; destruct greedy; reflexivity|].
    cbn [star_places fst]. rewrite one_letter. destruct (row i) as [|k] eqn:R; [destruct greedy; reflexivity|]. change (0 <? S k) with true. cbn [flat_map fst].
    replace (i <? S i) with true by (symmetry; apply Nat.ltb_lt; lia). rewrite app_nil_r. specialize (IH (S i) gs). rewrite (row_next i k R) in IH. specialize (IH ltac:(lia)).
    destruct greedy; [rewrite map_app; exact (f_equal (fun l => l ++ [i]) IH)|exact (f_equal (cons i) IH)].
  Qed.
  Lemma upto_row greedy i gs : map fst (upto_places greedy body 1 (i, gs)) = if greedy then rev (seq i (S (Nat.min 1 (row i)))) else seq i (S (Nat.min 1 (row i))).
  Proof. cbn [upto_places]. rewrite one_letter. destruct (row i) as [|k]; destruct greedy; reflexivity. Qed.
End One.
Lemma letter_read (c : N) (q : str) (greedy : bool) : is_ascii_letter c = true -> forall min max, In (q, (min, max)) QUANTIFIERS ->
  re_compile (c :: q ++ if greedy then [] else str_of "?") = Some (Ok (Seq (Rep min max greedy (One (literal c))) Empty, [])).
Proof.
  intros L min max I.
  assert (K : forall s, next_symbol c s = read (SOne (literal c), s)).
  { intros s. unfold next_symbol, is_char.
    assert (N : forall x, In x [code_of "\"; code_of "["; code_of "("; code_of ")"; code_of "|"; code_of "*"; code_of "+"; code_of "?"; code_of "{"; code_of "."; code_of "^"; code_of "$"]%string -> N.eqb c x = false).
    { intros x X. apply N.eqb_neq. intros ->. cbn [In] in X. repeat (destruct X as [<-|X]; [vm_compute in L; discriminate|]). destruct X. }
    rewrite !N by (cbn [In]; tauto). reflexivity. }
  unfold re_compile. cbn [length symbols app]. rewrite K.
  destruct I as [E|[E|[E|[]]]]; injection E as <- <- <-; destruct greedy; vm_compute; reflexivity.
Qed.
Theorem lazy_or_greedy C c q min max : is_ascii_letter c = true -> In (q, (min, max)) QUANTIFIERS ->
  exists greedy lazy, alone (c :: q) greedy /\ alone (c :: q ++ str_of "?") lazy /\
  forall text i, own_matches C text lazy i = fewest_first min max i (run (is_letter C c) (skipn i text)) /\ own_matches C text greedy i = rev (own_matches C text lazy i).
Proof.
  intros L I. assert (A := letter_read c q true L min max I). assert (B := letter_read c q false L min max I). rewrite app_nil_r in A.
  eexists _, _. split; [exact A|]. split; [exact B|]. clear A B. intros text i.
  assert (F : forall g, own_matches C text (Seq (Rep min max g (One (literal c))) Empty, []) i =
    if g then rev (fewest_first min max i (run (is_letter C c) (skipn i text))) else fewest_first min max i (run (is_letter C c) (skipn i text))).
  { intros g. unfold own_matches, fewest_first. cbn [fst].
    assert (Z : forall l : list place, flat_map (places C text Empty) l = l) by (induction l as [|x l IH]; cbn in *; congruence).
    transitivity (map fst (flat_map (places C text Empty) (places C text (Rep min max g (One (literal c))) (i, [])))); [reflexivity|]. rewrite Z.
    destruct I as [E|[E|[E|[]]]]; injection E as _ <- <-; [cbn [places]; cbn [times_places]|cbn [places]; cbn [times_places]|cbn [places]; cbn [times_places]].
    - rewrite (star_row C c text g) by (assert (X := row_short C c text i); lia). rewrite Nat.add_0_r, Nat.sub_0_r. reflexivity.
    - change (match nth_error text (fst (i, [])) with Some x => _ | None => _ end) with (places C text (One (literal c)) (i, [])). rewrite one_letter.
      destruct (run (is_letter C c) (skipn i text)) as [|k] eqn:R; [destruct g; reflexivity|]. change (0 <? S k) with true. cbn [flat_map]. rewrite app_nil_r.
      rewrite (star_row C c text g) by (assert (X := row_short C c text (S i)); lia). rewrite (row_next C c text i k R). rewrite Nat.add_1_r. reflexivity.
    - rewrite (upto_row C c text g). rewrite Nat.add_0_r, Nat.sub_0_r. reflexivity. }
  split; [exact (F false)|]. rewrite (F true), (F false). reflexivity.
Qed.
