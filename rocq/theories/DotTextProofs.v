(** The text of a drawing is read back as the drawing. *)
From Coq Require String DecimalString DecimalNat DecimalFacts.
From Verif Require Import Base TokenModel EarleyModel TreeModel TreeSpec TreeProofs TreeTheorems MatchProofs RelationProofs DotModel DotProofs DotTextModel DotTextSpec.
Open Scope nat_scope.

(** ** Quoting *)
Definition escape (c : N) : str :=
  if N.eqb c 34 then [92%N; 34%N] else if N.eqb c 10 then [92%N; 110%N] else if N.eqb c 13 then [92%N; 114%N] else [c].
Lemma quote_escape v : quote v = 34%N :: flat_map escape v ++ [34%N].
Proof.
  unfold quote. cbn [app]. f_equal. f_equal. induction v as [|c v IH]; [reflexivity|]. unfold replace_char in *. cbn [flat_map]. rewrite !flat_map_app, IH. f_equal.
  unfold escape. destruct (N.eqb_spec c 34) as [->|N1]; [reflexivity|]. cbn [flat_map app]. destruct (N.eqb_spec c 10) as [->|N2]; [reflexivity|]. cbn [flat_map app]. destruct (N.eqb_spec c 13) as [->|N3]; reflexivity.
Qed.
(** Backslashes read so far without a partner. *)
Fixpoint closes (odd : bool) (v : str) : bool :=
  match v with
  | [] => negb odd
  | c :: v' => if N.eqb c 92 then closes (negb odd) v' else if N.eqb c 34 then (negb odd && closes false v')%bool else closes false v'
  end.
Definition in_mode (odd : bool) (acc : str) : mode := if odd then Escaped acc else Inside acc.
Definition half (odd : bool) : str := if odd then [92%N] else [].
Lemma word_ahead : forall s acc odd ws, words_from (in_mode odd acc) s = Some ws -> exists u ts, ws = Quoted (acc ++ u) :: ts.
Proof.
  induction s as [|c s IH]; intros acc odd ws H; [destruct odd; discriminate|]. destruct odd; cbn in H.
  - destruct (N.eqb c 34).
    + destruct (IH (acc ++ [34%N]) false ws H) as (u & ts & ->). exists (34%N :: u), ts. rewrite <- app_assoc. reflexivity.
    + destruct (N.eqb c 10); [apply (IH acc false ws H)|]. destruct (IH (acc ++ [92%N; c]) false ws H) as (u & ts & ->). exists (92%N :: c :: u), ts. rewrite <- app_assoc. reflexivity.
  - destruct (N.eqb c 34).
    + destruct (words_from (Between []) s) as [ts|]; [|discriminate]. injection H as <-. exists [], ts. rewrite app_nil_r. reflexivity.
    + destruct (N.eqb c 92); [apply (IH acc true ws H)|]. destruct (IH (acc ++ [c]) false ws H) as (u & ts & ->). exists (c :: u), ts. rewrite <- app_assoc. reflexivity.
Qed.
Lemma app_snoc {A} (a : list A) x b : (a ++ [x]) ++ b = a ++ x :: b.
Proof. rewrite <- app_assoc. reflexivity. Qed.
Lemma app_two {A} (a : list A) x y b : (a ++ [x; y]) ++ b = a ++ x :: y :: b.
Proof. rewrite <- app_assoc. reflexivity. Qed.
Lemma closed_word rest : forall v odd acc, closes odd v = true ->
  words_from (in_mode odd acc) (flat_map escape v ++ 34%N :: rest) = option_map (cons (Quoted (acc ++ half odd ++ shown v))) (words_from (Between []) rest).
Proof.
  induction v as [|c v IH]; intros odd acc C.
  - destruct odd; [discriminate|]. cbn. rewrite app_nil_r. reflexivity.
  - cbn [closes] in C. cbn [flat_map shown]. unfold escape, shown. cbn [flat_map]. fold (shown v). rewrite <- app_assoc. destruct (N.eqb_spec c 92) as [->|N0].
    + change (N.eqb 92 34) with false. change (N.eqb 92 10) with false. change (N.eqb 92 13) with false. cbn [app]. destruct odd.
      * cbn. fold escape. change (words_from (Inside (acc ++ [92%N; 92%N]))) with (words_from (in_mode false (acc ++ [92%N; 92%N]))). fold (flat_map escape v). rewrite (IH false _ C). cbn [half app]. rewrite app_two. reflexivity.
      * cbn. change (words_from (Escaped acc)) with (words_from (in_mode true acc)). rewrite (IH true _ C). reflexivity.
    + destruct (N.eqb_spec c 34) as [->|N1].
      * destruct odd; [discriminate|]. cbn in C. change (N.eqb 34 10) with false. change (N.eqb 34 13) with false. cbn. change (words_from (Inside (acc ++ [34%N]))) with (words_from (in_mode false (acc ++ [34%N]))). rewrite (IH false _ C). cbn [half app]. rewrite app_snoc. reflexivity.
      * destruct (N.eqb_spec c 10) as [->|N2]; [|destruct (N.eqb_spec c 13) as [->|N3]].
        -- destruct odd; cbn.
           ++ change (words_from (Inside ((acc ++ [92%N; 92%N]) ++ [110%N]))) with (words_from (in_mode false ((acc ++ [92%N; 92%N]) ++ [110%N]))). rewrite (IH false _ C). cbn [half app]. rewrite app_snoc, app_two. reflexivity.
           ++ change (words_from (Inside (acc ++ [92%N; 110%N]))) with (words_from (in_mode false (acc ++ [92%N; 110%N]))). rewrite (IH false _ C). cbn [half app]. rewrite app_two. reflexivity.
        -- destruct odd; cbn.
           ++ change (words_from (Inside ((acc ++ [92%N; 92%N]) ++ [114%N]))) with (words_from (in_mode false ((acc ++ [92%N; 92%N]) ++ [114%N]))). rewrite (IH false _ C). cbn [half app]. rewrite app_snoc, app_two. reflexivity.
           ++ change (words_from (Inside (acc ++ [92%N; 114%N]))) with (words_from (in_mode false (acc ++ [92%N; 114%N]))). rewrite (IH false _ C). cbn [half app]. rewrite app_two. reflexivity.
        -- destruct odd; cbn [in_mode app words_from].
           ++ apply N.eqb_neq in N1, N2. rewrite N1, N2. change (words_from (Inside (acc ++ [92%N; c]))) with (words_from (in_mode false (acc ++ [92%N; c]))). rewrite (IH false _ C). cbn [half app]. rewrite app_two. reflexivity.
           ++ apply N.eqb_neq in N1, N0. rewrite N1, N0. change (words_from (Inside (acc ++ [c]))) with (words_from (in_mode false (acc ++ [c]))). rewrite (IH false _ C). cbn [half app]. rewrite app_snoc. reflexivity.
Qed.

(** ** Odd runs of backslashes *)
Fixpoint parity (odd : bool) (v : str) : bool :=
  match v with [] => odd | c :: v' => parity (if N.eqb c 92 then negb odd else false) v' end.
Lemma parity_app : forall a b odd, parity odd (a ++ b) = parity (parity odd a) b.
Proof. induction a as [|c a IH]; intros; [reflexivity|]. cbn. apply IH. Qed.
Lemma parity_repeat : forall n odd, parity odd (repeat 92%N n) = xorb odd (Nat.odd n).
Proof. induction n as [|n IH]; intros odd; [cbn; destruct odd; reflexivity|]. cbn [repeat parity]. rewrite IH. change (N.eqb 92 92) with true. cbn. rewrite Nat.odd_succ, <- Nat.negb_odd. destruct odd, (Nat.odd n); reflexivity. Qed.
Lemma run_before : forall v, exists a n, v = a ++ repeat 92%N n /\ forall a', a <> a' ++ [92%N].
Proof.
  induction v as [|c v IH] using rev_ind; [exists [], 0; split; [reflexivity|intros [|? ?]; discriminate]|]. destruct (N.eqb_spec c 92) as [->|N0].
  - destruct IH as (a & n & -> & K). exists a, (S n). split; [|exact K]. rewrite <- app_assoc. f_equal. clear. induction n as [|n IH]; [reflexivity|]. cbn. f_equal. exact IH.
  - exists (v ++ [c]), 0. split; [rewrite app_nil_r; reflexivity|]. intros a' E. apply app_inj_tail in E as [_ E]. contradiction.
Qed.
Lemma parity_start a : (forall a', a <> a' ++ [92%N]) -> parity false a = false.
Proof.
  destruct a as [|c a _] using rev_ind; [reflexivity|]. intros K. rewrite parity_app. cbn. destruct (N.eqb_spec c 92) as [->|N0]; [destruct (K a); reflexivity|reflexivity].
Qed.
Lemma even_parity v : even_backslashes v <-> forall a b, v = a ++ b -> (b = [] \/ exists b', b = 34%N :: b') -> parity false a = false.
Proof.
  split.
  - intros H a b -> B. destruct (run_before a) as (a0 & n & -> & K). rewrite <- app_assoc in H. specialize (H _ _ _ eq_refl K B). rewrite parity_app, (parity_start _ K), parity_repeat, Bool.xorb_false_l, <- Nat.negb_even. apply Nat.even_spec in H. rewrite H. reflexivity.
  - intros H a n b -> K B. rewrite app_assoc in H. specialize (H _ _ eq_refl B). rewrite parity_app, (parity_start _ K), parity_repeat, Bool.xorb_false_l in H. apply Nat.even_spec. rewrite <- Nat.negb_odd, H. reflexivity.
Qed.
Lemma closes_parity : forall v odd, closes odd v = true <-> forall a b, v = a ++ b -> (b = [] \/ exists b', b = 34%N :: b') -> parity odd a = false.
Proof.
  induction v as [|c v IH]; intros odd.
  - split.
    + intros H [|? ?] b E B; [cbn in *; destruct odd; [discriminate|reflexivity]|discriminate].
    + intros H. specialize (H [] [] eq_refl (or_introl eq_refl)). cbn in *. rewrite H. reflexivity.
  - cbn [closes]. assert (Step : forall odd', (closes odd' v = true) -> (if N.eqb c 92 then negb odd else false) = odd' -> (c = 34%N -> odd = false) -> forall a b, c :: v = a ++ b -> (b = [] \/ exists b', b = 34%N :: b') -> parity odd a = false).
    { intros odd' C E Q [|x a] b E' B.
      - cbn in *. destruct B as [->|[b' ->]]; [discriminate|]. injection E' as -> _. auto.
      - injection E' as <- ->. cbn [parity]. rewrite E. apply (proj1 (IH odd') C a b eq_refl B). }
    assert (Back : (forall a b, c :: v = a ++ b -> (b = [] \/ exists b', b = 34%N :: b') -> parity odd a = false) -> closes (if N.eqb c 92 then negb odd else false) v = true).
    { intros H. apply IH. intros a b -> B. apply (H (c :: a) b eq_refl B). }
    destruct (N.eqb_spec c 92) as [->|N0].
    + split; [intros C; apply (Step _ C eq_refl); discriminate|exact Back].
    + destruct (N.eqb_spec c 34) as [->|N1].
      * split.
        -- intros C. apply andb_prop in C as [C1 C2]. apply (Step _ C2 eq_refl). intros _. destruct odd; [discriminate|reflexivity].
        -- intros H. rewrite (Back H). assert (K := H [] (34%N :: v) eq_refl (or_intror (ex_intro _ v eq_refl))). cbn in K. rewrite K. reflexivity.
      * split; [intros C; apply (Step _ C eq_refl); congruence|exact Back].
Qed.
Lemma even_closes v : even_backslashes v <-> closes false v = true.
Proof. rewrite even_parity, closes_parity. reflexivity. Qed.

(** A value that does not close is read as something else. *)
Lemma open_word rest : forall v odd acc ts, closes odd v = false ->
  words_from (in_mode odd acc) (flat_map escape v ++ 34%N :: rest) <> Some (Quoted (acc ++ half odd ++ shown v) :: ts).
Proof.
  assert (Read : forall s acc odd u ts, words_from (in_mode odd acc) s = Some (Quoted u :: ts) -> exists u', u = acc ++ u').
  { intros s acc odd u ts H. apply word_ahead in H as (u' & ts' & E). injection E as -> _. eauto. }
  induction v as [|c v IH]; intros odd acc ts C H.
  - destruct odd; [|discriminate]. cbn in H. change (words_from (in_mode false (acc ++ [34%N])) rest = Some (Quoted (acc ++ [92%N]) :: ts)) in H. apply Read in H as [u' E]. rewrite <- app_assoc in E. apply app_inv_head in E. discriminate.
  - cbn [closes] in C. unfold shown in H. cbn [flat_map] in H. fold (shown v) in H. rewrite <- app_assoc in H. unfold escape at 1 in H. destruct (N.eqb_spec c 92) as [->|N0].
    + change (N.eqb 92 34) with false in H. change (N.eqb 92 10) with false in H. change (N.eqb 92 13) with false in H. cbn [app] in H. destruct odd; cbn in H.
      * apply (IH false (acc ++ [92%N; 92%N]) ts C). cbn [half app in_mode]. rewrite app_two. exact H.
      * apply (IH true acc ts C). exact H.
    + destruct (N.eqb_spec c 34) as [->|N1].
      * change (N.eqb 34 10) with false in H. change (N.eqb 34 13) with false in H. destruct odd; cbn in H.
        -- change (words_from (in_mode false (acc ++ [92%N; 92%N])) (34%N :: flat_map escape v ++ 34%N :: rest) = Some (Quoted (acc ++ 92%N :: 34%N :: shown v) :: ts)) in H. apply Read in H as [u' E]. rewrite <- app_assoc in E. apply app_inv_head in E. discriminate.
        -- apply (IH false (acc ++ [34%N]) ts C). cbn [half app in_mode]. rewrite app_snoc. exact H.
      * destruct (N.eqb_spec c 10) as [->|N2]; [|destruct (N.eqb_spec c 13) as [->|N3]].
        -- destruct odd; cbn in H.
           ++ apply (IH false ((acc ++ [92%N; 92%N]) ++ [110%N]) ts C). cbn [half app in_mode]. rewrite (app_snoc (acc ++ [92%N; 92%N]) 110%N (shown v)), (app_two acc 92%N 92%N (110%N :: shown v)). exact H.
           ++ apply (IH false (acc ++ [92%N; 110%N]) ts C). cbn [half app in_mode]. rewrite app_two. exact H.
        -- destruct odd; cbn in H.
           ++ apply (IH false ((acc ++ [92%N; 92%N]) ++ [114%N]) ts C). cbn [half app in_mode]. rewrite (app_snoc (acc ++ [92%N; 92%N]) 114%N (shown v)), (app_two acc 92%N 92%N (114%N :: shown v)). exact H.
           ++ apply (IH false (acc ++ [92%N; 114%N]) ts C). cbn [half app in_mode]. rewrite app_two. exact H.
        -- apply N.eqb_neq in N0, N1, N2. destruct odd; cbn [in_mode app words_from half] in H.
           ++ rewrite N1, N2 in H. apply (IH false (acc ++ [92%N; c]) ts C). cbn [half app in_mode]. rewrite app_two. exact H.
           ++ rewrite N0, N1 in H. apply (IH false (acc ++ [c]) ts C). cbn [half app in_mode]. rewrite app_snoc. exact H.
Qed.
(** ** A quoted value is one word, and the right one, exactly when its runs of backslashes
    are even. *)
Theorem quote_read v rest ts : dot_words rest = Some ts ->
  (dot_words (quote v ++ rest) = Some (Quoted (shown v) :: ts) <-> even_backslashes v).
Proof.
  intros R. rewrite quote_escape, even_closes. unfold dot_words in *. change ((34%N :: flat_map escape v ++ [34%N]) ++ rest) with (34%N :: (flat_map escape v ++ [34%N]) ++ rest).
  rewrite <- app_assoc. cbn [app]. cbn [words_from]. change (id_char 34) with false. cbn [flush]. change (((34 =? 32) || (34 =? 10) || (34 =? 13) || (34 =? 9))%N%bool) with false. change (34 =? 34)%N with true. cbn iota. split.
  - intros H. destruct (closes false v) eqn:C; [reflexivity|]. destruct (open_word rest v false [] ts C H).
  - intros C. assert (K := closed_word rest v false [] C). cbn [half app in_mode] in K. rewrite K, R. reflexivity.
Qed.

(** ** Lines *)
Definition lexes (s : str) (ts : list word) : Prop :=
  forall rest, words_from (Between []) (s ++ rest) = option_map (app ts) (words_from (Between []) rest).
Lemma lexes_nil : lexes [] [].
Proof. intros rest. cbn [app]. destruct (words_from (Between []) rest); reflexivity. Qed.
Lemma lexes_app a b ta tb : lexes a ta -> lexes b tb -> lexes (a ++ b) (ta ++ tb).
Proof.
  intros A B rest. rewrite <- app_assoc, A, B. destruct (words_from (Between []) rest); [|reflexivity]. cbn. rewrite app_assoc. reflexivity.
Qed.
Lemma lexes_quote v : even_backslashes v -> lexes (quote v) [Quoted (shown v)].
Proof.
  intros E rest. apply even_closes in E. rewrite quote_escape. cbn [app]. rewrite <- app_assoc. cbn [app words_from]. change (id_char 34) with false. cbn [flush]. change (((34 =? 32) || (34 =? 10) || (34 =? 13) || (34 =? 9))%N%bool) with false. change (34 =? 34)%N with true. cbn iota.
  assert (K := closed_word rest v false [] E). cbn [half app in_mode] in K. rewrite K. destruct (words_from (Between []) rest); reflexivity.
Qed.
Lemma bare_from : forall k p c rest, forallb id_char k = true -> id_char c = false ->
  words_from (Between p) (k ++ c :: rest) = flush (p ++ k) (words_from (Between []) (c :: rest)).
Proof.
  induction k as [|x k IH]; intros p c rest K C.
  - cbn [app]. rewrite app_nil_r. cbn [words_from]. rewrite C. reflexivity.
  - cbn in K. apply andb_prop in K as [K1 K2]. cbn [app words_from]. rewrite K1, (IH _ _ _ K2 C), <- app_assoc. reflexivity.
Qed.
(** A bare word, followed by something else. *)
Lemma lexes_bare k c s ts : identifier k -> id_char c = false -> lexes (c :: s) ts -> lexes (k ++ c :: s) (Bare k :: ts).
Proof.
  intros [K1 K2] C L rest. rewrite <- app_assoc. cbn [app]. rewrite (bare_from _ _ _ _ K2 C). cbn [app]. change (c :: s ++ rest) with ((c :: s) ++ rest). rewrite L. destruct k; [destruct (K1 eq_refl)|]. cbn [flush]. destruct (words_from (Between []) rest); reflexivity.
Qed.
Ltac plain_text := let rest := fresh "rest" in intros rest; cbn; destruct (words_from (Between []) rest); reflexivity.
Lemma lexes_newline : lexes [10%N] [].
Proof. plain_text. Qed.

(** The words of an attribute list. *)
Fixpoint list_words (s : list (str * str)) : list word :=
  match s with
  | [] => []
  | [(k, v)] => [Bare k; Mark 61; Quoted (shown v)]
  | (k, v) :: s' => [Bare k; Mark 61; Quoted (shown v); Mark 44] ++ list_words s'
  end.
Lemma lexes_attribute k v : identifier k -> even_backslashes v -> lexes (k ++ str_of "=" ++ quote v) [Bare k; Mark 61; Quoted (shown v)].
Proof.
  intros K V. change (str_of "=" ++ quote v) with (61%N :: quote v). apply lexes_bare; [exact K|reflexivity|]. change (61%N :: quote v) with ([61%N] ++ quote v).
  apply (lexes_app _ _ [Mark 61] [Quoted (shown v)]); [plain_text|apply lexes_quote, V].
Qed.
Lemma lexes_style : forall s, safe_attributes s -> lexes (style_text s) (list_words s).
Proof.
  induction s as [|[k v] s IH]; intros A; [apply lexes_nil|]. destruct (A k v (or_introl eq_refl)) as [K V]. unfold style_text in *. destruct s as [|x s].
  - cbn [map join_with list_words fst snd]. apply lexes_attribute; assumption.
  - change (list_words ((k, v) :: x :: s)) with ([Bare k; Mark 61; Quoted (shown v)] ++ [Mark 44] ++ list_words (x :: s)).
    change (lexes ((k ++ str_of "=" ++ quote v) ++ str_of ", " ++ join_with (str_of ", ") (map (fun x => fst x ++ str_of "=" ++ quote (snd x)) (x :: s))) ([Bare k; Mark 61; Quoted (shown v)] ++ [Mark 44] ++ list_words (x :: s))).
    apply lexes_app; [apply lexes_attribute; assumption|]. apply lexes_app; [plain_text|]. apply IH. intros k' v' I. apply A. right. exact I.
Qed.
Lemma list_read : forall s rest, attribute_list (list_words s ++ Mark 93 :: rest) = Some (read_attributes (Some s), rest).
Proof.
  induction s as [|[k v] s IH]; intros rest; [reflexivity|]. destruct s as [|[k' v'] s]; [reflexivity|].
  change (list_words ((k, v) :: (k', v') :: s)) with ([Bare k; Mark 61; Quoted (shown v); Mark 44] ++ list_words ((k', v') :: s)). rewrite <- app_assoc. cbn [app attribute_list name_of]. rewrite IH. reflexivity.
Qed.

Inductive line := DefaultsLine (kind : str) (s : style) | NodeLine (name : str) (s : option style) | EdgeLine (a b : str) (s : option style).
Definition bracket (s : style) : list word := Mark 91 :: list_words s ++ [Mark 93; Mark 59].
Definition line_words (l : line) : list word :=
  match l with
  | DefaultsLine k s => Bare k :: bracket s
  | NodeLine n s => Bare n :: match s with Some s => bracket s | None => [] end
  | EdgeLine a b s => Bare a :: Arrow :: Bare b :: match s with Some s => bracket s | None => [Mark 59] end
  end.
Definition line_text (l : line) : str :=
  match l with
  | DefaultsLine k s => k ++ styled s
  | NodeLine n s => n ++ match s with Some s => styled s | None => [] end
  | EdgeLine a b s => a ++ str_of " -> " ++ b ++ match s with Some s => styled s | None => str_of ";" end
  end.
Definition line_statement (l : line) : statement :=
  match l with
  | DefaultsLine k s => Defaults k (read_attributes (Some s))
  | NodeLine n s => ANode n (read_attributes s)
  | EdgeLine a b s => AnEdge a b (read_attributes s)
  end.
Definition safe_option (s : option style) : Prop := match s with Some s => safe_attributes s | None => True end.
Definition safe_line (l : line) : Prop :=
  match l with
  | DefaultsLine k s => keyword k = true /\ identifier k /\ safe_attributes s
  | NodeLine n s => keyword n = false /\ identifier n /\ safe_option s
  | EdgeLine a b s => keyword a = false /\ identifier a /\ identifier b /\ safe_option s
  end.
Lemma lexes_styled s : safe_attributes s -> lexes (styled s) (bracket s).
Proof.
  intros A. unfold styled, bracket. change (Mark 91 :: list_words s ++ [Mark 93; Mark 59]) with ([Mark 91] ++ list_words s ++ [Mark 93; Mark 59]).
  apply lexes_app; [plain_text|]. apply lexes_app; [apply lexes_style, A|plain_text].
Qed.
Lemma lexes_end s ts : lexes s ts -> lexes (s ++ [10%N]) ts.
Proof. intros L. rewrite <- (app_nil_r ts). apply lexes_app; [exact L|apply lexes_newline]. Qed.
Lemma lexes_line l : safe_line l -> lexes (line_text l ++ [10%N]) (line_words l).
Proof.
  destruct l as [k s|n s|a b s]; cbn [safe_line line_text line_words].
  - intros (_ & K & A). rewrite <- app_assoc. change (styled s) with (32%N :: 91%N :: style_text s ++ str_of "];"). cbn [app]. apply lexes_bare; [exact K|reflexivity|].
    change (lexes (styled s ++ [10%N]) (bracket s)). apply lexes_end, lexes_styled, A.
  - intros (_ & K & A). rewrite <- app_assoc. destruct s as [s|].
    + change (styled s) with (32%N :: 91%N :: style_text s ++ str_of "];"). cbn [app]. apply lexes_bare; [exact K|reflexivity|].
      change (lexes (styled s ++ [10%N]) (bracket s)). apply lexes_end, lexes_styled, A.
    + cbn [app]. apply lexes_bare; [exact K|reflexivity|apply lexes_newline].
  - intros (_ & K & K' & A). rewrite <- app_assoc. change (str_of " -> ") with [32%N; 45%N; 62%N; 32%N]. cbn [app]. apply lexes_bare; [exact K|reflexivity|].
    rewrite <- app_assoc. match goal with |- lexes (32%N :: 45%N :: 62%N :: 32%N :: ?t) (Arrow :: ?ts) => change (lexes ([32%N; 45%N; 62%N; 32%N] ++ t) ([Arrow] ++ ts)) end.
    apply lexes_app; [plain_text|]. destruct s as [s|].
    + change (styled s) with (32%N :: 91%N :: style_text s ++ str_of "];"). cbn [app]. apply lexes_bare; [exact K'|reflexivity|].
      change (lexes (styled s ++ [10%N]) (bracket s)). apply lexes_end, lexes_styled, A.
    + change (str_of ";" ++ [10%N]) with (59%N :: [10%N]). apply lexes_bare; [exact K'|reflexivity|]. plain_text.
Qed.
Lemma lexes_lines : forall ls, Forall safe_line ls -> lexes (flat_map (fun l => line_text l ++ [10%N]) ls) (flat_map line_words ls).
Proof. intros ls F. induction F as [|l ls H F IH]; [apply lexes_nil|]. cbn [flat_map]. apply lexes_app; [apply lexes_line, H|exact IH]. Qed.

(** ** Statements *)
Definition next (ws : list word) : Prop := exists w rest, ws = w :: rest /\ (w = Mark 125 \/ exists k, w = Bare k).
Definition skip (ws : list word) : list word := match ws with Mark 59 :: r => r | r => r end.
Lemma bracket_read s rest : attributes_of (bracket s ++ rest) = Some (read_attributes (Some s), Mark 59 :: rest).
Proof. unfold bracket. cbn [app attributes_of]. rewrite <- app_assoc. cbn [app]. apply list_read. Qed.
Lemma line_read l rest : safe_line l -> next rest -> exists rest', statement_of (line_words l ++ rest) = Some (line_statement l, rest') /\ skip rest' = rest.
Proof.
  intros Sf (w & r & -> & W). destruct l as [k s|n s|a b s]; cbn [safe_line line_words] in *.
  - destruct Sf as (K & _ & _). cbn [app statement_of]. rewrite K, bracket_read. eexists. split; reflexivity.
  - destruct Sf as (K & _ & _). destruct s as [s|]; cbn [app statement_of]; rewrite K.
    + assert (E : statement_of (Bare n :: bracket s ++ w :: r) = option_map (fun x => (ANode n (fst x), snd x)) (attributes_of (bracket s ++ w :: r))) by (cbn [statement_of]; rewrite K; reflexivity).
      exists (Mark 59 :: w :: r). split; [|reflexivity]. cbn [statement_of] in E. rewrite K in E. rewrite E, bracket_read. reflexivity.
    + exists (w :: r). destruct W as [->|[k ->]]; split; reflexivity.
  - destruct Sf as (K & _). destruct s as [s|]; cbn [app statement_of name_of]; rewrite K.
    + rewrite bracket_read. eexists. split; reflexivity.
    + eexists. split; reflexivity.
Qed.
Lemma next_lines ls : next (flat_map line_words ls ++ [Mark 125]).
Proof. destruct ls as [|[k s|n s|a b s] ls]; cbn; unfold next; eauto 6. Qed.
Lemma lines_read : forall ls fuel, Forall safe_line ls -> length ls < fuel -> statements fuel (flat_map line_words ls ++ [Mark 125]) = Some (map line_statement ls).
Proof.
  induction ls as [|l ls IH]; intros [|fuel] F L; [inversion L|reflexivity|inversion L|]. inversion F as [|? ? Hl Hls]; subst. cbn [flat_map]. rewrite <- app_assoc.
  destruct (line_read l _ Hl (next_lines ls)) as (rest' & R & Sk).
  assert (E : statements (S fuel) (line_words l ++ flat_map line_words ls ++ [Mark 125]) = match statement_of (line_words l ++ flat_map line_words ls ++ [Mark 125]) with Some (s, rest) => option_map (cons s) (statements fuel (skip rest)) | None => None end) by (destruct l; reflexivity).
  rewrite E, R, Sk. cbn [length] in L. rewrite (IH fuel Hls) by lia. reflexivity.
Qed.
Lemma length_lines ls : length ls <= length (flat_map line_words ls).
Proof. induction ls as [|l ls IH]; [apply le_n|]. cbn [flat_map length]. rewrite app_length. assert (1 <= length (line_words l)) by (destruct l; cbn; lia). lia. Qed.
Lemma join_lines : forall ls last, join_with [10%N] (ls ++ [last]) = flat_map (fun l => l ++ [10%N]) ls ++ last.
Proof.
  induction ls as [|l ls IH]; intros last; [reflexivity|]. cbn [app flat_map]. rewrite <- app_assoc, <- IH. destruct (ls ++ [last]) eqn:E; [destruct ls; discriminate|]. cbn [join_with]. rewrite <- app_assoc. reflexivity.
Qed.
Lemma text_read ls : Forall safe_line ls -> read_dot (join_with [10%N] (str_of "digraph G {" :: map line_text ls ++ [str_of "}"])) = Some (map line_statement ls).
Proof.
  intros F. change (str_of "digraph G {" :: map line_text ls ++ [str_of "}"]) with ((str_of "digraph G {" :: map line_text ls) ++ [str_of "}"]). rewrite join_lines. cbn [flat_map].
  assert (E : flat_map (fun l => l ++ [10%N]) (map line_text ls) = flat_map (fun l => line_text l ++ [10%N]) ls) by (clear; induction ls as [|l ls IH]; [reflexivity|cbn; rewrite IH; reflexivity]).
  rewrite E. assert (L := lexes_app _ _ _ _ (lexes_lines ls F) (ltac:(plain_text) : lexes (str_of "}") [Mark 125])). rewrite <- app_assoc. unfold read_dot, dot_words.
  set (body := flat_map _ ls ++ str_of "}") in *. specialize (L []). rewrite app_nil_r in L. cbn [words_from flush option_map] in L. rewrite app_nil_r in L.
  change ((str_of "digraph G {" ++ [10%N]) ++ body) with (str_of "digraph G {" ++ 10%N :: body).
  assert (H : words_from (Between []) (str_of "digraph G {" ++ 10%N :: body) = option_map (app [Bare (str_of "digraph"); Bare (str_of "G"); Mark 123]) (words_from (Between []) body)) by (cbn; destruct (words_from (Between []) body); reflexivity).
  rewrite H, L. cbn [option_map app]. change (str_eqb (str_of "digraph") (str_of "digraph")) with true. cbn iota. apply lines_read; [exact F|]. rewrite app_length. assert (K := length_lines ls). cbn. lia.
Qed.

(** ** Numbers *)
Lemma str_of_inj : forall a b, str_of a = str_of b -> a = b.
Proof.
  unfold str_of. intros a b E.
  assert (L : String.list_ascii_of_string a = String.list_ascii_of_string b).
  { revert E. generalize (String.list_ascii_of_string a) (String.list_ascii_of_string b). induction l as [|x l IH]; intros [|y l'] E; try discriminate; [reflexivity|].
    cbn in E. injection E as E1 E2. f_equal; [|apply IH, E2]. rewrite <- (Ascii.ascii_N_embedding x), E1. apply Ascii.ascii_N_embedding. }
  rewrite <- (String.string_of_list_ascii_of_string a), L. apply String.string_of_list_ascii_of_string.
Qed.
Lemma to_uint_nonnil n : Nat.to_uint n <> Decimal.Nil.
Proof.
  intros E. assert (K := DecimalNat.Unsigned.to_uint_inj n 0). destruct n; [discriminate|]. assert (H := DecimalNat.Unsigned.of_to (S n)). rewrite E in H. discriminate.
Qed.
Lemma digits_inj n m : digits n = digits m -> n = m.
Proof.
  unfold digits. intros H. apply str_of_inj in H. apply DecimalNat.Unsigned.to_uint_inj. assert (E := DecimalString.NilZero.usu (Nat.to_uint n) (to_uint_nonnil n)).
  rewrite H, (DecimalString.NilZero.usu _ (to_uint_nonnil m)) in E. congruence.
Qed.
Lemma uint_digits : forall u, forallb (fun c => (48 <=? c) && (c <=? 57))%N%bool (str_of (DecimalString.NilEmpty.string_of_uint u)) = true.
Proof. unfold str_of. induction u; cbn; auto. Qed.
Lemma digits_digits n : digits n <> [] /\ forallb (fun c => (48 <=? c) && (c <=? 57))%N%bool (digits n) = true.
Proof.
  unfold digits, DecimalString.NilZero.string_of_uint. assert (K := to_uint_nonnil n). destruct (Nat.to_uint n) eqn:E; [contradiction| ..]; (split; [discriminate|rewrite <- E; apply uint_digits || apply (uint_digits (Nat.to_uint n))]).
Qed.
Lemma digits_identifier n : identifier (digits n).
Proof.
  destruct (digits_digits n) as [N D]. split; [exact N|]. rewrite forallb_forall in *. intros c I. specialize (D c I). unfold id_char. rewrite D. reflexivity.
Qed.
Lemma digits_not_keyword n : keyword (digits n) = false.
Proof.
  destruct (digits_digits n) as [N D]. destruct (digits n) as [|c s]; [contradiction|]. cbn in D. apply andb_prop in D as [D _]. apply andb_prop in D as [_ D]. apply N.leb_le in D.
  apply Bool.not_true_iff_false. intros K. unfold keyword in K. apply existsb_exists in K as (k & I & E). apply str_eqb_eq in E. subst k. cbn [In] in I.
  destruct I as [E|[E|[E|[]]]]; cbn in E; injection E as E _; subst c; lia.
Qed.
Lemma plain_closes v : forallb (fun c => negb (N.eqb c 92)) v = true -> even_backslashes v.
Proof.
  intros H. apply even_closes.  induction v as [|c v IH]; [reflexivity|]. cbn in *. apply andb_prop in H as [H1 H2]. apply Bool.negb_true_iff in H1. rewrite H1, (IH H2). destruct (N.eqb c 34); reflexivity.
Qed.
Ltac known_style := let k := fresh in let v := fresh in let I := fresh in intros k v I; cbn [In] in I;
  repeat match type of I with _ \/ _ => destruct I as [I|I] | False => destruct I end; injection I as <- <-; (split; [split; [discriminate|reflexivity]|apply plain_closes; reflexivity]).
Lemma graph_style_safe : safe_attributes graph_style. Proof. unfold graph_style. known_style. Qed.
Lemma node_style_safe : safe_attributes node_style. Proof. unfold node_style. known_style. Qed.
Lemma edge_style_safe : safe_attributes edge_style. Proof. unfold edge_style. known_style. Qed.

(** ** The text of a drawing *)
Lemma combine_maps {A B C} (f : A -> B) (g : A -> C) : forall l, combine (map f l) (map g l) = map (fun x => (f x, g x)) l.
Proof. induction l as [|x l IH]; [reflexivity|]. cbn. rewrite IH. reflexivity. Qed.
Theorem source_text_read p :
  (forall x s, In (x, Some s) (p_nodes p) -> safe_attributes s) -> (forall e s, In (e, Some s) (p_edges p) -> safe_attributes s) ->
  exists name : nat -> str,
    (forall x y, drawn (drawing_of p) x -> drawn (drawing_of p) y -> name x = name y -> x = y) /\
    read_dot (source_text p) = Some
      ([Defaults (str_of "graph") graph_style; Defaults (str_of "node") node_style; Defaults (str_of "edge") edge_style] ++
       map (fun x => ANode (name (fst x)) (read_attributes (snd x))) (p_nodes p) ++
       map (fun x => AnEdge (name (fst (fst x))) (name (snd (fst x))) (read_attributes (snd x))) (p_edges p)).
Proof.
  intros Hn He. destruct (source_numbers (drawing_of p)) as (num & Inj & E). exists (fun x => digits (num x)). split; [intros x y Dx Dy H; apply Inj; [exact Dx|exact Dy|apply digits_inj, H]|].
  unfold source_text, source_lines. rewrite E. cbn [drawing_of d_nodes d_edges]. rewrite !map_map, !combine_maps, !map_map. cbn [fst snd].
  set (ls := [DefaultsLine (str_of "graph") graph_style; DefaultsLine (str_of "node") node_style; DefaultsLine (str_of "edge") edge_style] ++
    map (fun x => NodeLine (digits (num (fst x))) (snd x)) (p_nodes p) ++ map (fun x => EdgeLine (digits (num (fst (fst x)))) (digits (num (snd (fst x)))) (snd x)) (p_edges p)).
  assert (T := text_read ls). assert (M : map line_text ls = [str_of "graph [" ++ style_text graph_style ++ str_of "];"; str_of "node [" ++ style_text node_style ++ str_of "];"; str_of "edge [" ++ style_text edge_style ++ str_of "];"] ++
    map (fun x => node_line (num (fst x)) (snd x)) (p_nodes p) ++ map (fun x => edge_line (num (fst (fst x)), num (snd (fst x))) (snd x)) (p_edges p)).
  { unfold ls. rewrite !map_app, !map_map. f_equal. }
  rewrite M in T. rewrite <- app_assoc in T. rewrite <- app_assoc in T. cbn [app] in T. cbn [app]. etransitivity; [apply T|].
  - unfold ls. apply Forall_app. split.
    + assert (D : forall k s, keyword k = true -> identifier k -> safe_attributes s -> safe_line (DefaultsLine k s)) by (intros k s K K' A; split; [exact K|split; [exact K'|exact A]]).
      constructor; [|constructor; [|constructor; [|constructor]]]; apply D; try reflexivity; try (split; [discriminate|reflexivity]); [apply graph_style_safe|apply node_style_safe|apply edge_style_safe].
    + apply Forall_app. split; apply Forall_forall; intros l I; apply in_map_iff in I as (x & <- & I); cbn [safe_line].
      * split; [apply digits_not_keyword|split; [apply digits_identifier|]]. destruct x as [x [s|]]; cbn; [apply (Hn x s I)|exact Logic.I].
      * split; [apply digits_not_keyword|split; [apply digits_identifier|split; [apply digits_identifier|]]]. destruct x as [x [s|]]; cbn; [apply (He x s I)|exact Logic.I].
  - f_equal. unfold ls. rewrite !map_app, !map_map. reflexivity.
Qed.

(** ** The text of the drawing of a tree *)
Section Tree.
  Context {pred : Type}.
  Variable g : grammar token pred.
  Variable rule_label relation_label : nat -> str.
  Lemma tree_picture_drawing fuel (root : node token pred) : option_map drawing_of (tree_picture g rule_label relation_label fuel root) = tree_drawing g fuel root.
  Proof.
    unfold tree_picture, tree_drawing. destruct (dfs_loop fuel [root]) as [items|]; [|reflexivity]. cbn [option_map]. f_equal. unfold drawing_of, draw. cbn [p_nodes p_edges]. f_equal.
    - rewrite !map_map. reflexivity.
    - rewrite map_app. f_equal.
      + induction items as [|n items IH]; [reflexivity|]. cbn [flat_map map]. rewrite map_app, IH. f_equal. cbn [fst snd]. rewrite !map_map. reflexivity.
      + unfold relation_edges, relation_lines. set (groups := fold_left _ _ _). clearbody groups. induction groups as [|x groups IH]; [reflexivity|]. cbn [flat_map]. rewrite map_app, IH, map_map. f_equal. rewrite map_id. reflexivity.
  Qed.
  Lemma relation_edges_ok items x : In x (relation_edges g relation_label items) <->
    exists a n b m c ro, items = a ++ n :: b ++ m :: c /\ relation_of g n = Some ro /\ relation_of g m = Some ro /\ x = (node_id n, node_id m, Some (relation_style relation_label ro)).
  Proof.
    unfold relation_edges. remember (fold_left _ items []) as groups eqn:E. symmetry in E. apply groups_ok in E as [_ G]. rewrite in_flat_map. split.
    - intros ([ro l] & H & K). apply G in H as [-> _]. cbn [fst snd] in K. apply in_map_iff in K as ([u v] & <- & K). apply combinations2_in in K as (p & q & r & K).
      apply grouped_split in K as (a & n & b & -> & R1 & I1 & _ & K). apply grouped_split in K as (b1 & m & c & -> & R2 & I2 & _). exists a, n, b1, m, c, ro. subst. auto.
    - intros (a & n & b & m & c & ro & -> & R1 & R2 & ->).
      assert (K : grouped g ro (a ++ n :: b ++ m :: c) = grouped g ro a ++ node_id n :: grouped g ro b ++ node_id m :: grouped g ro c).
      { rewrite grouped_app. f_equal. change (n :: b ++ m :: c) with ([n] ++ b ++ [m] ++ c). rewrite !grouped_app. unfold grouped at 1 3. cbn. rewrite R1, R2, Nat.eqb_refl. reflexivity. }
      exists (ro, grouped g ro (a ++ n :: b ++ m :: c)). split.
      + apply G. split; [reflexivity|]. rewrite K. destruct (grouped g ro a); discriminate.
      + cbn [fst snd]. apply in_map_iff. exists (node_id n, node_id m). split; [reflexivity|]. rewrite K. apply combinations2_in. eauto.
  Qed.
  Lemma safe_cons k v s : identifier k -> even_backslashes v -> safe_attributes s -> safe_attributes ((k, v) :: s).
  Proof. intros K V A k' v' [E|I]; [injection E as <- <-; auto|apply A, I]. Qed.
  Lemma safe_nil : safe_attributes [].
  Proof. intros k v []. Qed.
  Theorem tree_text_read fuel (root : node token pred) p : tree_picture g rule_label relation_label fuel root = Some p ->
    (forall q n, subtree root q = Some n -> even_backslashes (label_of rule_label n)) ->
    (forall q n ro, subtree root q = Some n -> relation_of g n = Some ro -> even_backslashes (relation_label ro)) ->
    exists items ps name related,
      map Some items = map (subtree root) ps /\ (forall q, In q ps <-> exists m, subtree root q = Some m) /\ (forall a q b q' c, ps = a ++ q :: b ++ q' :: c -> before q q') /\
      (forall n m, In n items -> In m items -> name (node_id n) = name (node_id m) -> node_id n = node_id m) /\
      (forall s, In s related <-> exists a n b m c ro, items = a ++ n :: b ++ m :: c /\ relation_of g n = Some ro /\ relation_of g m = Some ro /\
        s = AnEdge (name (node_id n)) (name (node_id m)) [(str_of "label", shown (relation_label ro)); (str_of "dir", str_of "none"); (str_of "style", str_of "dashed")]) /\
      read_dot (source_text p) = Some
        ([Defaults (str_of "graph") graph_style; Defaults (str_of "node") node_style; Defaults (str_of "edge") edge_style] ++
         map (fun n => ANode (name (node_id n)) ((str_of "label", shown (label_of rule_label n)) :: match n with
           | Leaf _ _ _ _ => []
           | Node _ r _ _ _ => [(str_of "fillcolor", match g_interp g r with Some _ => str_of "#dbdb8d" | None => str_of "#aec7e8" end)]
           end)) items ++
         flat_map (fun n => map (fun c => AnEdge (name (node_id n)) (name (node_id c)) []) (TreeModel.children n)) items ++ related).
  Proof.
    unfold tree_picture. destruct (dfs_loop fuel [root]) as [items|] eqn:B; [|discriminate]. intros H Sl Sr. injection H as <-. destruct (walk_preorder _ _ _ _ B) as (ps & P1 & P2 & P3).
    assert (Sub : forall n, In n items -> exists q, subtree root q = Some n).
    { intros n I. apply (in_map Some) in I. rewrite P1 in I. apply in_map_iff in I as (q & E & _). eauto. }
    match goal with |- context [source_text ?x] => set (pic := x) end.
    destruct (source_text_read pic) as (name & Inj & R).
    - cbn. intros x s I. apply in_map_iff in I as (n & E & I). injection E as <- <-. destruct (Sub n I) as [q Q]. specialize (Sl q n Q). destruct n as [i pos pr t|i r st l ch]; cbn [node_style_of label_of] in *.
      + apply safe_cons; [split; [discriminate|reflexivity]|exact Sl|apply safe_nil].
      + apply safe_cons; [split; [discriminate|reflexivity]|exact Sl|]. apply safe_cons; [split; [discriminate|reflexivity]| |apply safe_nil]. destruct (g_interp g r); apply plain_closes; reflexivity.
    - cbn. intros e s I. apply in_app_or in I as [I|I].
      + apply in_flat_map in I as (n & _ & I). apply in_map_iff in I as (c & E & _). discriminate.
      + apply relation_edges_ok in I as (a & n & b & m & c & ro & E & R1 & R2 & E'). injection E' as -> ->. destruct (Sub n) as [q Q]; [rewrite E; apply in_elt|]. specialize (Sr q n ro Q R1). unfold relation_style.
        repeat (apply safe_cons; [split; [discriminate|reflexivity]|first [exact Sr|apply plain_closes; reflexivity]|]). apply safe_nil.
    - exists items, ps, name, (map (fun x => AnEdge (name (fst (fst x))) (name (snd (fst x))) (read_attributes (snd x))) (relation_edges g relation_label items)).
      split; [exact P1|]. split; [exact P2|]. split; [exact P3|]. split; [|split].
      + intros n m In1 In2. apply Inj; left; cbn; rewrite map_map; cbn [fst]; apply in_map; assumption.
      + intros s. rewrite in_map_iff. split.
        * intros (x & <- & I). apply relation_edges_ok in I as (a & n & b & m & c & ro & E & R1 & R2 & ->). exists a, n, b, m, c, ro. auto.
        * intros (a & n & b & m & c & ro & E & R1 & R2 & ->). exists (node_id n, node_id m, Some (relation_style relation_label ro)). split; [reflexivity|]. apply relation_edges_ok. exists a, n, b, m, c, ro. auto.
      + rewrite R. f_equal. f_equal. cbn [p_nodes p_edges pic]. rewrite map_app, map_map. f_equal; [|f_equal].
        * apply map_ext. intros [i pos pr t|i r st l ch]; [reflexivity|]. cbn. destruct (g_interp g r); reflexivity.
        * clear. induction items as [|n items IH]; [reflexivity|]. cbn [flat_map]. rewrite map_app, IH, map_map. reflexivity.
  Qed.
End Tree.

(** A tree with one token, a backslash. *)
Theorem backslash_leaf : exists (g : grammar token unit) t p fuel label, t_value t = [92%N] /\ tree_picture g label label fuel (Node 1 0 0 0 [Leaf 0 0 tt t]) = Some p /\
  read_dot (source_text p) = None.
Proof.
  exists (mkGrammar (token := token) (pred := unit) (fun _ => []) (fun _ _ => []) (fun _ => []) (fun _ => 0) (fun _ => None) (fun _ => None) (fun _ => None) 0).
  exists (mkToken [92%N] 0 1 (str_of "OTHER") None None). eexists. exists 5, (fun _ => str_of "R0"). split; [reflexivity|]. split; vm_compute; reflexivity.
Qed.
