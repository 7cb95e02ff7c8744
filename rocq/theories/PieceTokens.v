(** Tokens of a text put together from two texts. *)
From Verif Require Import Base TokenModel TokenizerModel TokenizerSpec TaggerModel TokenizerProofs DefaultProofs PredicateModel RuleModel GrammarModel TextModel PieceSpec.
Open Scope nat_scope.

Lemma flat_map_map {A B C} (f : B -> list C) (g : A -> B) l : flat_map f (map g l) = flat_map (fun x => f (g x)) l.
Proof. induction l as [|x l IH]; [reflexivity|]. cbn. rewrite IH. reflexivity. Qed.
Lemma map_flat_map {A B C} (f : B -> C) (g : A -> list B) l : map f (flat_map g l) = flat_map (fun x => map f (g x)) l.
Proof. induction l as [|x l IH]; [reflexivity|]. cbn. rewrite map_app, IH. reflexivity. Qed.
Lemma flat_map_in {A B} (f g : A -> list B) l : (forall x, In x l -> f x = g x) -> flat_map f l = flat_map g l.
Proof. induction l as [|x l IH]; intros H; [reflexivity|]. cbn. rewrite (H x (or_introl eq_refl)), IH; [reflexivity|]. intros y I. apply H. right. exact I. Qed.

Section Join.
  Variable a b : str.
  Variable x : N.
  Notation text := (a ++ x :: b).
  Notation k := (S (length a)).

  Lemma star_same greedy (f g : nat -> list nat) len : (forall i, i <= len -> f i = g i) -> (forall i j, i <= len -> In j (f i) -> i <= j <= len) ->
    forall fuel i, i <= len -> star_ends greedy f fuel i = star_ends greedy g fuel i.
  Proof.
    intros E R. induction fuel as [|fuel IH]; intros i L; [reflexivity|]. cbn [star_ends]. rewrite <- (E i L). rewrite (flat_map_in _ (fun j => if i <? j then star_ends greedy g fuel j else [j])); [reflexivity|]. intros j J. apply R in J; [|exact L]. destruct (i <? j); [apply IH; lia|reflexivity].
  Qed.
  Lemma ends_before : forall r, unused x r -> forall i, i <= length a -> ends text r i = ends a r i.
  Proof.
    induction r as [|c|r1 IH1 r2 IH2|r1 IH1 r2 IH2|gr r IH|h]; intros H i L; cbn [ends unused] in *.
    - reflexivity.
    - destruct (Nat.eq_dec i (length a)) as [->|N].
      + rewrite nth_error_app2, Nat.sub_diag by lia. cbn. rewrite H. rewrite (proj2 (nth_error_None a (length a))) by lia. reflexivity.
      + rewrite nth_error_app1 by lia. reflexivity.
    - destruct H as [H1 H2]. rewrite IH1 by assumption. apply flat_map_in. intros j J. apply ends_range in J; [|exact L]. apply IH2; [assumption|lia].
    - destruct H as [H1 H2]. rewrite IH1, IH2 by assumption. reflexivity.
    - assert (R : forall i j, i <= length a -> In j (ends text r i) -> i <= j <= length a) by (intros i' j L' J; rewrite (IH H i' L') in J; apply (ends_range a r i' j L' J)).
      rewrite (star_fuel gr (ends text r) (length a) R (S (length text)) (S (length a)) i); [|exact L|rewrite app_length; cbn; lia|lia].
      apply (star_same gr _ _ (length a)); [apply (IH H)|exact R|exact L].
    - destruct H.
  Qed.
  Lemma star_later greedy (f g : nat -> list nat) : (forall i, f (k + i) = map (Nat.add k) (g i)) -> forall fuel i, star_ends greedy f fuel (k + i) = map (Nat.add k) (star_ends greedy g fuel i).
  Proof.
    intros E. induction fuel as [|fuel IH]; intros i; [reflexivity|]. cbn [star_ends]. rewrite E, flat_map_map. assert (X : flat_map (fun j => if k + i <? k + j then star_ends greedy f fuel (k + j) else [k + j]) (g i) = map (Nat.add k) (flat_map (fun j => if i <? j then star_ends greedy g fuel j else [j]) (g i))); [|rewrite X; destruct greedy; [rewrite map_app|]; reflexivity]. rewrite map_flat_map. apply flat_map_ext. intros j.
    replace (k + i <? k + j) with (i <? j) by (destruct (Nat.ltb_spec i j), (Nat.ltb_spec (k + i) (k + j)); try reflexivity; lia). destruct (i <? j); [apply IH|reflexivity].
  Qed.
  Lemma nth_later i : nth_error text (k + i) = nth_error b i.
  Proof. rewrite nth_error_app2 by lia. replace (k + i - length a) with (S i) by lia. reflexivity. Qed.
  Lemma ends_later : forall r, unused x r -> forall i, i <= length b -> ends text r (k + i) = map (Nat.add k) (ends b r i).
  Proof.
    induction r as [|c|r1 IH1 r2 IH2|r1 IH1 r2 IH2|gr r IH|h]; intros H i L; cbn [ends unused] in *.
    - reflexivity.
    - rewrite nth_later. destruct (nth_error b i) as [y|]; [|reflexivity]. destruct (c y); [|reflexivity]. cbn. rewrite Nat.add_succ_r. reflexivity.
    - destruct H as [H1 H2]. rewrite IH1, flat_map_map, map_flat_map by assumption. apply flat_map_in. intros j J. apply ends_range in J; [|exact L]. apply IH2; [assumption|lia].
    - destruct H as [H1 H2]. rewrite IH1, IH2, map_app by assumption. reflexivity.
    - assert (LT : length text = k + length b) by (rewrite app_length; cbn; lia).
      rewrite (star_fuel gr (ends text r) (length text) (ends_range text r) (S (length text)) (S (length b)) (k + i)); [|lia..].
      set (f := fun j => if j <=? length text then ends text r j else []). set (g := fun j => if j <=? length b then ends b r j else []).
      assert (F : star_ends gr (ends text r) (S (length b)) (k + i) = star_ends gr f (S (length b)) (k + i)).
      { apply (star_same gr _ _ (length text)); [|apply ends_range|lia]. intros j J. unfold f. destruct (Nat.leb_spec j (length text)); [reflexivity|lia]. }
      assert (G : star_ends gr (ends b r) (S (length b)) i = star_ends gr g (S (length b)) i).
      { apply (star_same gr _ _ (length b)); [|apply ends_range|lia]. intros j J. unfold g. destruct (Nat.leb_spec j (length b)); [reflexivity|lia]. }
      rewrite F, G. apply star_later. intros j. unfold f, g. replace (k + j <=? length text) with (j <=? length b) by (destruct (Nat.leb_spec j (length b)), (Nat.leb_spec (k + j) (length text)); try reflexivity; lia).
      destruct (Nat.leb_spec j (length b)); [apply (IH H j); assumption|reflexivity].
    - destruct H.
  Qed.

  Variable t : tokenizer.
  Hypothesis sep : separates t x.
  Lemma alternatives_before i : i <= length a -> alternatives t text i = alternatives t a i.
  Proof.
    intros L. unfold alternatives. destruct (tk_regexp t) as [|p ps] eqn:E; [reflexivity|]. apply flat_map_in. intros [ty r] I. rewrite ends_before; [reflexivity| |exact L]. apply (sep ty r). rewrite E. exact I.
  Qed.
  Definition later_cand (c : nat * option str) : nat * option str := (k + fst c, snd c).
  Lemma alternatives_later i : i <= length b -> alternatives t text (k + i) = map later_cand (alternatives t b i).
  Proof.
    intros L. unfold alternatives. destruct (tk_regexp t) as [|p ps] eqn:E; [reflexivity|]. rewrite map_flat_map. apply flat_map_in. intros [ty r] I. rewrite ends_later; [rewrite !map_map; reflexivity| |exact L]. apply (sep ty r). rewrite E. exact I.
  Qed.
  Lemma candidates_before must i : i <= length a -> candidates t text must i = candidates t a must i.
  Proof. intros L. unfold candidates. rewrite alternatives_before by exact L. reflexivity. Qed.
  Lemma filter_map_same {A B} (f : A -> B) (p : B -> bool) (q : A -> bool) l : (forall y, p (f y) = q y) -> filter p (map f l) = map f (filter q l).
  Proof. intros E. induction l as [|y l IH]; [reflexivity|]. cbn. rewrite E, IH. destruct (q y); reflexivity. Qed.
  Lemma candidates_later must i : i <= length b -> candidates t text must (k + i) = map later_cand (candidates t b must i).
  Proof.
    intros L. unfold candidates. rewrite alternatives_later by exact L. apply filter_map_same. intros [j ty]. unfold later_cand. cbn [fst].
    replace (k + j =? k + i) with (j =? i) by (destruct (Nat.eqb_spec j i), (Nat.eqb_spec (k + j) (k + i)); try reflexivity; lia). reflexivity.
  Qed.

  Definition later_piece (m : nat * nat * option str) : nat * nat * option str := let '(s, e, ty) := m in (k + s, k + e, ty).
  Lemma must_later (must : bool) i j : must_at must (k + i) (k + j) = must_at must i j.
  Proof. unfold must_at. f_equal. destruct (Nat.eqb_spec j i), (Nat.eqb_spec (k + j) (k + i)); try reflexivity; lia. Qed.
  Lemma lexed_later must i l : lexed t b must i l -> lexed t text must (k + i) (map later_piece l).
  Proof.
    assert (LT : length text = k + length b) by (rewrite app_length; cbn; lia).
    induction 1 as [must i L N|must i s e ty rest l R E C N _ IH].
    - constructor; [lia|]. intros j J. replace j with (k + (j - k)) by lia. rewrite must_later, candidates_later, N by lia. reflexivity.
    - cbn [map later_piece]. apply (lexed_cons t text must (k + i) (k + s) (k + e) ty (map later_cand rest)); [lia|lia| | |].
      + rewrite must_later, candidates_later, C by lia. reflexivity.
      + intros j J. replace j with (k + (j - k)) by lia. rewrite must_later, candidates_later, N by lia. reflexivity.
      + replace (k + s =? k + e) with (s =? e) by (destruct (Nat.eqb_spec s e), (Nat.eqb_spec (k + s) (k + e)); try reflexivity; lia). exact IH.
  Qed.
  (** Text before the one that is read changes nothing: the search goes on. *)
  Lemma lexed_skip must i l : i <= length a -> (forall j, i <= j <= length a -> candidates t text (must_at must i j) j = []) ->
    lexed t text false k l -> lexed t text must i l.
  Proof.
    assert (LT : length text = k + length b) by (rewrite app_length; cbn; lia).
    intros L N H. inversion H as [m0 i0 L0 N0|m0 i0 s e ty rest l' R E C N0 H']; subst.
    - constructor; [lia|]. intros j J. destruct (Nat.le_gt_cases j (length a)); [apply N; lia|]. unfold must_at. replace (j =? i) with false by (symmetry; apply Nat.eqb_neq; lia). rewrite andb_false_r. specialize (N0 j). unfold must_at in N0. cbn in N0. apply N0. lia.
    - econstructor; [lia|exact E| | |exact H'].
      + unfold must_at. replace (s =? i) with false by (symmetry; apply Nat.eqb_neq; lia). rewrite andb_false_r. unfold must_at in C. cbn in C. exact C.
      + intros j J. destruct (Nat.le_gt_cases j (length a)); [apply N; lia|]. unfold must_at. replace (j =? i) with false by (symmetry; apply Nat.eqb_neq; lia). rewrite andb_false_r. specialize (N0 j). unfold must_at in N0. cbn in N0. apply N0. lia.
  Qed.
  Lemma lexed_join must i l l' : lexed t a must i l -> lexed t b false 0 l' -> lexed t text must i (l ++ map later_piece l').
  Proof.
    assert (LT : length text = k + length b) by (rewrite app_length; cbn; lia).
    intros H H'. apply lexed_later in H'. rewrite Nat.add_0_r in H'. induction H as [must i L N|must i s e ty rest l R E C N _ IH].
    - apply lexed_skip; [exact L| |exact H']. intros j J. rewrite candidates_before by lia. apply N. exact J.
    - cbn [app]. apply (lexed_cons t text must i s e ty rest); [exact R|lia| | |exact IH].
      + rewrite candidates_before by lia. exact C.
      + intros j J. rewrite candidates_before by lia. apply N. exact J.
  Qed.
End Join.

Lemma lexed_one t text must i l : lexed t text must i l -> forall l', lexed t text must i l' -> l = l'.
Proof.
  induction 1 as [must i L N|must i s e ty rest l R E C N _ IH]; intros l' H.
  - inversion H as [|m0 i0 s e ty rest l0 R E C]; subst; [reflexivity|]. rewrite N in C by lia. discriminate.
  - inversion H as [m0 i0 L0 N0|m0 i0 s0 e0 ty0 rest0 l0 R0 E0 C0 N0 H0]; subst; [rewrite N0 in C by lia; discriminate|].
    assert (s = s0) as <- by (destruct (Nat.lt_trichotomy s s0) as [X|[X|X]]; [rewrite N0 in C by lia; discriminate|exact X|rewrite N in C0 by lia; discriminate]).
    rewrite C in C0. injection C0 as <- <- _. f_equal. apply IH, H0.
Qed.
Lemma finditer_join t a b x l l' f f' fuel : separates t x -> finditer f t a false 0 = Some l -> finditer f' t b false 0 = Some l' -> 2 * length (a ++ x :: b) + 1 <= fuel ->
  finditer fuel t (a ++ x :: b) false 0 = Some (l ++ map (later_piece a) l').
Proof.
  intros S1 H H' F. apply finditer_lexed in H; [|lia]. apply finditer_lexed in H'; [|lia].
  destruct (finditer_fuel t (a ++ x :: b) fuel false 0) as [l0 H0]; [lia|cbn [negb]; lia|]. rewrite H0. f_equal. apply finditer_lexed in H0; [|lia].
  apply (lexed_one _ _ _ _ _ H0). apply lexed_join; assumption.
Qed.
Lemma slice_before (a b : str) s e : e <= length a -> slice (a ++ b) s e = slice a s e.
Proof.
  intros E. unfold slice. destruct (Nat.le_gt_cases e s) as [L|L]; [replace (e - s) with 0 by lia; reflexivity|]. rewrite skipn_app, firstn_app. rewrite skipn_length. replace (e - s - (length a - s)) with 0 by lia. cbn. apply app_nil_r.
Qed.
Lemma slice_later (a b : str) s e : slice (a ++ b) (length a + s) (length a + e) = slice b s e.
Proof. unfold slice. rewrite skipn_app, skipn_all2 by lia. cbn. f_equal; [lia|]. f_equal. lia. Qed.
Lemma tokens_before a b l ts : (forall s e ty, In (s, e, ty) l -> e <= length a) -> mapM (make_token a) l = Ok ts -> mapM (make_token (a ++ b)) l = Ok ts.
Proof.
  revert ts. induction l as [|[[s e] ty] l IH]; intros ts B H; [exact H|]. cbn [mapM] in *.
  assert (E : make_token (a ++ b) (s, e, ty) = make_token a (s, e, ty)) by (unfold make_token; rewrite slice_before by (apply (B s e ty); left; reflexivity); reflexivity).
  rewrite E. destruct (make_token a (s, e, ty)) as [y|]; [|discriminate]. cbn [bind] in *. destruct (mapM (make_token a) l) as [ts'|] eqn:E'; [|discriminate].
  rewrite (IH ts'); [exact H| |reflexivity]. intros s' e' ty' I. apply (B s' e' ty'). right. exact I.
Qed.
Lemma tokens_later a x b l ts : mapM (make_token b) l = Ok ts -> mapM (make_token (a ++ x :: b)) (map (later_piece a) l) = Ok (map (moved (Z.of_nat (S (length a)))) ts).
Proof.
  revert ts. induction l as [|[[s e] ty] l IH]; intros ts H; cbn [mapM map] in *; [injection H as <-; reflexivity|].
  unfold make_token in H at 1. destruct ty as [ty|]; [|discriminate]. cbn [bind] in H. destruct (mapM (make_token b) l) as [ts'|] eqn:E; [|discriminate]. cbn [bind] in H. injection H as <-.
  rewrite (IH ts' eq_refl). unfold make_token, later_piece. cbn [bind map]. unfold moved at 2. cbn [t_value t_start t_stop t_type t_tag t_forms].
  replace (a ++ x :: b) with ((a ++ [x]) ++ b) by (rewrite <- app_assoc; reflexivity). replace (S (length a)) with (length (a ++ [x])) by (rewrite app_length; cbn; lia). rewrite slice_later. do 2 f_equal. f_equal; lia.
Qed.
Lemma mapM_app {A B} (f : A -> res B) l l' r r' : mapM f l = Ok r -> mapM f l' = Ok r' -> mapM f (l ++ l') = Ok (r ++ r').
Proof.
  revert r. induction l as [|y l IH]; intros r H H'; cbn [mapM app] in *; [injection H as <-; exact H'|]. destruct (f y) as [z|]; [|discriminate]. cbn [bind] in *. destruct (mapM f l) as [r0|]; [|discriminate]. cbn [bind] in H. injection H as <-. rewrite (IH r0 eq_refl H'). reflexivity.
Qed.
Lemma lexed_stop t text must i l : lexed t text must i l -> forall s e ty, In (s, e, ty) l -> e <= length text.
Proof. induction 1 as [|must i s e ty rest l R E C N _ IH]; intros s' e' ty' I; [destruct I|]. destruct I as [X|I]; [injection X as _ <- _; exact E|apply (IH _ _ _ I)]. Qed.
Lemma tokenize_join t a b x ts ts' f f' fuel : separates t x -> tokenize f t a = Some (Ok ts) -> tokenize f' t b = Some (Ok ts') -> 2 * length (a ++ x :: b) + 1 <= fuel ->
  tokenize fuel t (a ++ x :: b) = Some (Ok (ts ++ map (moved (Z.of_nat (S (length a)))) ts')).
Proof.
  unfold tokenize. intros S1 H H' F. destruct (finditer f t a false 0) as [l|] eqn:E; [|discriminate]. destruct (finditer f' t b false 0) as [l'|] eqn:E'; [|discriminate]. injection H as H. injection H' as H'.
  rewrite (finditer_join t a b x l l' f f' fuel S1 E E' F). f_equal. apply mapM_app; [|apply tokens_later, H']. apply tokens_before; [|exact H]. apply finditer_lexed in E; [|lia]. apply (lexed_stop _ _ _ _ _ E).
Qed.
Lemma morph_moved f k t : morph_token f (moved k t) = moved k (morph_token f t).
Proof. unfold morph_token. change (t_type (moved k t)) with (t_type t). destruct (str_eqb (t_type t) RU); reflexivity. Qed.
Theorem text_tokens_join c a b x ts ts' : separates (c_tokenizer c) x -> tags_apart c -> text_tokens c a = Some (Ok ts) -> text_tokens c b = Some (Ok ts') ->
  text_tokens c (a ++ x :: b) = Some (Ok (ts ++ map (moved (Z.of_nat (S (length a)))) ts')).
Proof.
  intros S1 TG. unfold text_tokens, then_.
  assert (X : forall r r', (match c_morph c with Some m => morph_tokenize (mo_call m) (2 * length a + 1) (c_tokenizer c) a | None => tokenize (2 * length a + 1) (c_tokenizer c) a end) = Some (Ok r) ->
    (match c_morph c with Some m => morph_tokenize (mo_call m) (2 * length b + 1) (c_tokenizer c) b | None => tokenize (2 * length b + 1) (c_tokenizer c) b end) = Some (Ok r') ->
    (match c_morph c with Some m => morph_tokenize (mo_call m) (2 * length (a ++ x :: b) + 1) (c_tokenizer c) (a ++ x :: b) | None => tokenize (2 * length (a ++ x :: b) + 1) (c_tokenizer c) (a ++ x :: b) end) = Some (Ok (r ++ map (moved (Z.of_nat (S (length a)))) r'))).
  { intros r r' H H'. destruct (c_morph c) as [m|].
    - unfold morph_tokenize in *. destruct (tokenize (2 * length a + 1) (c_tokenizer c) a) as [[l|]|] eqn:E; try discriminate. destruct (tokenize (2 * length b + 1) (c_tokenizer c) b) as [[l'|]|] eqn:E'; try discriminate.
      cbn [bind] in *. injection H as <-. injection H' as <-. rewrite (tokenize_join _ a b x l l' _ _ _ S1 E E') by lia. cbn [bind]. rewrite map_app, !map_map. do 3 f_equal. apply map_ext. intros tk. apply morph_moved.
    - apply (tokenize_join _ a b x r r' _ _ _ S1 H H'). lia. }
  destruct (match c_morph c with Some m => morph_tokenize (mo_call m) (2 * length a + 1) (c_tokenizer c) a | None => tokenize (2 * length a + 1) (c_tokenizer c) a end) as [[r|]|] eqn:E; try discriminate.
  destruct (match c_morph c with Some m => morph_tokenize (mo_call m) (2 * length b + 1) (c_tokenizer c) b | None => tokenize (2 * length b + 1) (c_tokenizer c) b end) as [[r'|]|] eqn:E'; try (intros; discriminate).
  intros H H'. injection H as <-. injection H' as <-. rewrite (X r r' eq_refl eq_refl). unfold tags_apart in TG. destruct (c_tagger c) as [tg|]; [rewrite TG; reflexivity|reflexivity].
Qed.

(** The default tokenizer: white space other than line ends. *)
Theorem default_separates C t x : sane C -> default_tokenizer C = Ok t -> ~ visible C x -> ~ eol_char C x -> separates t x.
Proof.
  intros SN D V E. rewrite default_is_D in D. injection D as <-. intros ty r I.
  assert (F : forall (c : N -> bool) (P : N -> Prop), (forall y, c y = true <-> P y) -> ~ P x -> c x = false) by (intros c P K N; destruct (c x) eqn:X; [destruct N; apply K; exact X|reflexivity]).
  assert (R1 : is_ru C x = false) by (apply (F _ _ (ru_iff C)); intros H; apply V, (ru_visible C SN), H). assert (R2 : is_latin C x = false) by (apply (F _ _ (latin_iff C)); intros H; apply V, (latin_visible C SN), H).
  assert (R3 : c_digit C x = false) by (destruct (c_digit C x) eqn:X; [destruct V; apply (digit_visible C SN), X|reflexivity]). assert (R4 : is_punct C x = false) by (apply (F _ _ (punct_iff C)); intros H; apply V, (punct_visible C SN), H).
  assert (R5 : is_eol C x = false) by (apply (F _ _ (eol_iff C)), E). assert (R6 : is_other C x = false) by (apply (F _ _ (other_iff C)), V).
  cbn in I. repeat (destruct I as [I|I]; [injection I as <- <-; cbn; auto|]). destruct I.
Qed.
