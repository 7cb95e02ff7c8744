(** Proofs about the default tokenizer rules. *)
From Verif Require Import Base TokenModel TokenizerModel TokenizerSpec TokenizerProofs.
Open Scope nat_scope.

Section Sets.
  Variable text : str.
  Variable c : N -> bool.
  Lemma star_set : forall fuel i, i <= length text -> length text - i < fuel ->
    exists m rest, star_ends true (ends text (RSet c)) fuel i = m :: rest /\ i <= m <= length text /\
      (forall k, i <= k < m -> exists x, nth_error text k = Some x /\ c x = true) /\
      (forall x, nth_error text m = Some x -> c x = false).
  Proof.
    induction fuel as [|fuel IH]; intros i L F; [lia|]. cbn [star_ends ends].
    destruct (nth_error text i) as [x|] eqn:E.
    - destruct (c x) eqn:CX.
      + assert (i < length text) by (apply nth_error_Some; congruence).
        destruct (IH (S i) ltac:(lia) ltac:(lia)) as (m & rest & A & B & D & G).
        cbn [flat_map]. replace (i <? S i) with true by (symmetry; apply Nat.ltb_lt; lia).
        cbn [ends] in A. rewrite A, app_nil_r. cbn [app]. exists m. eexists. split; [reflexivity|]. split; [lia|].
        split; auto. intros k K. destruct (Nat.eq_dec k i) as [->|]; [eauto|]. apply D. lia.
      + cbn [flat_map app]. exists i, []. repeat split; auto; try lia. intros y EY. congruence.
    - cbn [flat_map app]. exists i, []. repeat split; auto; try lia. intros y EY. congruence.
  Qed.
  Lemma plus_set i x : nth_error text i = Some x ->
    if c x then exists m rest, ends text (rplus (RSet c)) i = m :: rest /\ i < m <= length text /\
      (forall k, i <= k < m -> exists y, nth_error text k = Some y /\ c y = true) /\
      (forall y, nth_error text m = Some y -> c y = false)
    else ends text (rplus (RSet c)) i = [].
  Proof.
    intros E. unfold rplus. cbn [ends]. rewrite E. destruct (c x) eqn:CX; [|reflexivity].
    assert (i < length text) by (apply nth_error_Some; congruence).
    cbn [flat_map]. rewrite app_nil_r.
    destruct (star_set (S (length text)) (S i) ltac:(lia) ltac:(lia)) as (m & rest & A & B & D & G).
    exists m, rest. cbn [ends] in A. split; [exact A|]. split; [lia|]. split; auto.
    intros k K. destruct (Nat.eq_dec k i) as [->|]; [eauto|]. apply D. lia.
  Qed.
  Lemma plus_advances i j : i <= length text -> In j (ends text (rplus (RSet c)) i) -> i < j.
  Proof.
    unfold rplus. cbn [ends]. intros L H. destruct (nth_error text i) as [x|] eqn:E; [|destruct H].
    assert (i < length text) by (apply nth_error_Some; congruence).
    destruct (c x); [|destruct H]. cbn [flat_map] in H. rewrite app_nil_r in H.
    apply (star_range true _ (length text)) in H; [lia| |lia].
    intros a b LA HB. apply (ends_range text (RSet c)); auto.
  Qed.
  Lemma set_advances i j : In j (ends text (RSet c) i) -> j = S i.
  Proof.
    cbn [ends]. destruct (nth_error text i); [|intros []]. destruct (c n); [|intros []]. intros [<-|[]]. auto.
  Qed.
End Sets.

Section Default.
  Variable C : chars.

  Lemma in_set_iff ranges c : in_set C ranges c = true <->
    exists x, In x (c_folds C c) /\ exists a b, In (a, b) ranges /\ (a <= x <= b)%N.
  Proof.
    unfold in_set, in_ranges. rewrite existsb_exists. split; intros (x & A & B); exists x; split; auto.
    - apply existsb_exists in B as ([a b] & B & E). exists a, b. split; auto.
      apply andb_prop in E as [E1 E2]. apply N.leb_le in E1, E2. lia.
    - destruct B as (a & b & B & E). apply existsb_exists. exists (a, b). split; auto.
      apply andb_true_intro. split; apply N.leb_le; lia.
  Qed.
  Lemma in_chars l x : (exists a b, In (a, b) (map char l) /\ (a <= x <= b)%N) <-> In x l.
  Proof.
    split.
    - intros (a & b & H & E). apply in_map_iff in H as (y & Y & H). injection Y as <- <-. replace x with y by lia. auto.
    - intros H. exists x, x. split; [|lia]. apply in_map_iff. exists x. auto.
  Qed.
  Lemma ru_iff c : is_ru C c = true <-> ru_char C c.
  Proof.
    unfold is_ru, ru_char. rewrite in_set_iff. split; intros (x & A & B); exists x; split; auto.
    - destruct B as (a & b & [B|[B|[]]] & E); injection B as <- <-; lia.
    - destruct B as [B|B]; [exists 1072%N, 1103%N|exists 1105%N, 1105%N]; (split; [cbn; auto|lia]).
  Qed.
  Lemma latin_iff c : is_latin C c = true <-> latin_char C c.
  Proof.
    unfold is_latin, latin_char. rewrite in_set_iff. split; intros (x & A & B); exists x; split; auto.
    - destruct B as (a & b & [B|[]] & E); injection B as <- <-; lia.
    - exists 97%N, 122%N. split; [cbn; auto|lia].
  Qed.
  Lemma eol_iff c : is_eol C c = true <-> eol_char C c.
  Proof.
    unfold is_eol, eol_char. rewrite in_set_iff. split; intros (x & A & B); exists x; split; auto.
    - destruct B as (a & b & [B|[B|[]]] & E); injection B as <- <-; lia.
    - destruct B as [B|B]; [exists 10%N, 10%N|exists 13%N, 13%N]; (split; [cbn; auto|lia]).
  Qed.
  Lemma punct_iff c : is_punct C c = true <-> punct_char C c.
  Proof.
    unfold is_punct, punct_char. rewrite in_set_iff. split; intros (x & A & B); exists x; (split; [exact A|]);
      change punct_ranges with (map char (map fst punct_ranges)) in *; apply in_chars in B; exact B.
  Qed.
  Lemma other_iff c : is_other C c = true <-> visible C c.
  Proof. unfold is_other, visible. rewrite negb_true_iff. tauto. Qed.

  Definition D : tokenizer :=
    mkTokenizer (RULES C)
      [(RU, rplus (RSet (is_ru C))); (LATIN, rplus (RSet (is_latin C))); (INT, rplus (RSet (c_digit C)));
       (PUNCT, RSet (is_punct C)); (EOL, rplus (RSet (is_eol C))); (OTHER, RSet (is_other C))]
      [RU; LATIN; INT; PUNCT; EOL; OTHER].
  Lemma default_is_D : default_tokenizer C = Ok D.
  Proof. reflexivity. Qed.

  Variable text : str.

  (** What the matches at one position look like. *)
  Definition shape (s e : nat) (ty : str) : Prop :=
    (exists P, In (ty, P) (word_classes C) /\
       (forall k, s <= k < e -> exists y, nth_error text k = Some y /\ P y) /\
       (forall y, nth_error text e = Some y -> ~ P y)) \/
    ((ty = PUNCT \/ ty = OTHER) /\ e = S s).

  Lemma alternatives_advance i j ty : i <= length text -> In (j, ty) (alternatives D text i) -> i < j.
  Proof.
    intros L H. unfold alternatives in H. cbn [D tk_regexp] in H.
    apply in_flat_map in H as ([ty' r] & R & H). apply in_map_iff in H as (j' & E & H). injection E as <- _.
    destruct R as [R|[R|[R|[R|[R|[R|[]]]]]]]; injection R as _ <-;
      (apply plus_advances in H; [exact H|exact L]) || (apply set_advances in H; lia).
  Qed.
  Lemma default_candidates must i : i <= length text -> candidates D text must i = alternatives D text i.
  Proof.
    intros L. unfold candidates.
    assert (H : forall c, In c (alternatives D text i) -> negb (must && Nat.eqb (fst c) i) = true).
    { intros [j ty] H. apply alternatives_advance in H; auto. cbn [fst]. destruct (Nat.eqb_spec j i); [lia|]. rewrite andb_false_r. reflexivity. }
    induction (alternatives D text i) as [|c l IH]; [reflexivity|]. cbn [filter]. rewrite (H c (or_introl eq_refl)).
    f_equal. apply IH. intros; apply H; right; auto.
  Qed.

  Lemma alternatives_end : alternatives D text (length text) = [].
  Proof.
    assert (E : nth_error text (length text) = None) by (apply nth_error_None; lia).
    unfold alternatives. cbn [D tk_regexp flat_map]. unfold rplus. cbn [ends]. rewrite E. reflexivity.
  Qed.

  (** A rule made of one class, in front of the others. *)
  Lemma plus_block i x (c : N -> bool) (P : N -> Prop) ty rest : nth_error text i = Some x -> (forall y, c y = true <-> P y) ->
    In (ty, P) (word_classes C) ->
    if c x then exists m rest', map (fun j => (j, Some ty)) (ends text (rplus (RSet c)) i) ++ rest = (m, Some ty) :: rest' /\ i < m <= length text /\ shape i m ty
    else map (fun j => (j, Some ty)) (ends text (rplus (RSet c)) i) ++ rest = rest.
  Proof.
    intros E CP W. pose proof (plus_set text c i x E) as H. destruct (c x) eqn:CX.
    - destruct H as (m & r & A & B & G1 & G2). rewrite A. cbn [map app]. exists m. eexists. split; [reflexivity|]. split; auto.
      left. exists P. split; auto. split.
      + intros k K. destruct (G1 k K) as (y & Y1 & Y2). exists y. split; auto. apply CP. auto.
      + intros y Y HP. apply CP in HP. rewrite (G2 y Y) in HP. discriminate.
    - rewrite H. reflexivity.
  Qed.
  Lemma set_block i x (c : N -> bool) ty rest : nth_error text i = Some x -> ty = PUNCT \/ ty = OTHER ->
    if c x then exists m rest', map (fun j => (j, Some ty)) (ends text (RSet c) i) ++ rest = (m, Some ty) :: rest' /\ i < m <= length text /\ shape i m ty
    else map (fun j => (j, Some ty)) (ends text (RSet c) i) ++ rest = rest.
  Proof.
    intros E TY. cbn [ends]. rewrite E. destruct (c x); [|reflexivity]. cbn [map app].
    assert (i < length text) by (apply nth_error_Some; congruence).
    exists (S i). eexists. split; [reflexivity|]. split; [lia|]. right. auto.
  Qed.

  Lemma default_at i x : nth_error text i = Some x ->
    (exists ty m rest, alternatives D text i = (m, Some ty) :: rest /\ i < m <= length text /\
       first_class C x ty /\ shape i m ty) \/
    (alternatives D text i = [] /\ forall ty P, In (ty, P) (classes C) -> ~ P x).
  Proof.
    intros E. unfold alternatives. cbn [D tk_regexp flat_map].
    pose proof (plus_block i x (is_ru C) (ru_char C) RU) as B1.
    pose proof (plus_block i x (is_latin C) (latin_char C) LATIN) as B2.
    pose proof (plus_block i x (c_digit C) (digit_char C) INT) as B3.
    pose proof (set_block i x (is_punct C) PUNCT) as B4.
    pose proof (plus_block i x (is_eol C) (eol_char C) EOL) as B5.
    pose proof (set_block i x (is_other C) OTHER) as B6.
    specialize (fun rest => B1 rest E ru_iff ltac:(cbn; auto)).
    specialize (fun rest => B2 rest E latin_iff ltac:(cbn; auto)).
    specialize (fun rest => B3 rest E (fun y => iff_refl _) ltac:(cbn; auto)).
    specialize (fun rest => B4 rest E ltac:(auto)).
    specialize (fun rest => B5 rest E eol_iff ltac:(cbn; auto)).
    specialize (fun rest => B6 rest E ltac:(auto)).
    pose proof (ru_iff x) as I1. pose proof (latin_iff x) as I2. pose proof (punct_iff x) as I4.
    pose proof (eol_iff x) as I5. pose proof (other_iff x) as I6.
    destruct (is_ru C x).
    { left. edestruct B1 as (m & rest & A & R & SH). exists RU, m, rest. split; [exact A|]. split; auto. split; auto.
      exists [], (ru_char C). eexists. split; [reflexivity|]. split; [tauto|]. intros ? ? []. }
    rewrite B1. destruct (is_latin C x).
    { left. edestruct B2 as (m & rest & A & R & SH). exists LATIN, m, rest. split; [exact A|]. split; auto. split; auto.
      exists [(RU, ru_char C)], (latin_char C). eexists. split; [reflexivity|]. split; [tauto|].
      intros ? ? [H|[]]; injection H as _ <-; intuition congruence. }
    rewrite B2. destruct (c_digit C x) eqn:CD.
    { left. edestruct B3 as (m & rest & A & R & SH). exists INT, m, rest. split; [exact A|]. split; auto. split; auto.
      exists [(RU, ru_char C); (LATIN, latin_char C)], (digit_char C). eexists. split; [reflexivity|]. split; [exact CD|].
      intros ? ? [H|[H|[]]]; injection H as _ <-; intuition congruence. }
    assert (ND : ~ digit_char C x) by (unfold digit_char; congruence).
    rewrite B3. destruct (is_punct C x).
    { left. edestruct B4 as (m & rest & A & R & SH). exists PUNCT, m, rest. split; [exact A|]. split; auto. split; auto.
      exists [(RU, ru_char C); (LATIN, latin_char C); (INT, digit_char C)], (punct_char C). eexists. split; [reflexivity|]. split; [tauto|].
      intros ? ? [H|[H|[H|[]]]]; injection H as _ <-; try assumption; intuition congruence. }
    rewrite B4. destruct (is_eol C x).
    { left. edestruct B5 as (m & rest & A & R & SH). exists EOL, m, rest. split; [exact A|]. split; auto. split; auto.
      exists [(RU, ru_char C); (LATIN, latin_char C); (INT, digit_char C); (PUNCT, punct_char C)], (eol_char C). eexists.
      split; [reflexivity|]. split; [tauto|].
      intros ? ? [H|[H|[H|[H|[]]]]]; injection H as _ <-; try assumption; intuition congruence. }
    rewrite B5. destruct (is_other C x).
    { left. edestruct B6 as (m & rest & A & R & SH). exists OTHER, m, rest. split; [exact A|]. split; auto. split; auto.
      exists [(RU, ru_char C); (LATIN, latin_char C); (INT, digit_char C); (PUNCT, punct_char C); (EOL, eol_char C)], (visible C). eexists.
      split; [reflexivity|]. split; [tauto|].
      intros ? ? [H|[H|[H|[H|[H|[]]]]]]; injection H as _ <-; try assumption; intuition congruence. }
    rewrite B6. right. split; [reflexivity|].
    intros ? ? [H|[H|[H|[H|[H|[H|[]]]]]]]; injection H as _ <-; try assumption; intuition congruence.
  Qed.

  (** ** All matches *)
  Hypothesis SANE : sane C.

  Lemma word_class_unique ty ty' P P' y : In (ty, P) (word_classes C) -> In (ty', P') (word_classes C) ->
    P y -> P' y -> ty = ty' /\ P = P'.
  Proof.
    destruct SANE as [S1 S2 S3 S4 S5 S6 S7 S8 S9].
    intros [H|[H|[H|[H|[]]]]] [K|[K|[K|[K|[]]]]]; injection H as <- <-; injection K as <- <-; intros A B; auto; exfalso;
      solve [exact (S1 y A B)|exact (S1 y B A)|exact (S2 y A B)|exact (S2 y B A)|exact (S3 y A B)|exact (S3 y B A)
        |exact (S8 y A (S4 y B))|exact (S8 y B (S4 y A))|exact (S8 y A (S5 y B))|exact (S8 y B (S5 y A))
        |exact (S8 y A (S6 y B))|exact (S8 y B (S6 y A))].
  Qed.
  Lemma single_not_word x ty P : first_class C x PUNCT \/ first_class C x OTHER -> In (ty, P) (word_classes C) -> ~ P x.
  Proof.
    destruct SANE as [S1 S2 S3 S4 S5 S6 S7 S8 S9]. intros FC W HP.
    assert (NE : ru_char C x \/ latin_char C x \/ digit_char C x \/ eol_char C x).
    { destruct W as [H|[H|[H|[H|[]]]]]; injection H as <- <-; auto. }
    assert (G : forall b c tyx P1, (tyx = PUNCT \/ tyx = OTHER) -> classes C = b ++ (tyx, P1) :: c -> P1 x ->
      (forall ty' P', In (ty', P') b -> ~ P' x) -> False).
    { intros b c tyx P1 T E PX B. unfold classes in E.
      destruct b as [|b1 b]; [injection E as <- _ _; destruct T; discriminate|]. injection E as <- E.
      destruct b as [|b2 b]; [injection E as <- _ _; destruct T; discriminate|]. injection E as <- E.
      destruct b as [|b3 b]; [injection E as <- _ _; destruct T; discriminate|]. injection E as <- E.
      destruct b as [|b4 b].
      - injection E as _ <- _. destruct NE as [N|[N|[N|N]]].
        + exact (B RU _ (or_introl eq_refl) N).
        + exact (B LATIN _ (or_intror (or_introl eq_refl)) N).
        + exact (B INT _ (or_intror (or_intror (or_introl eq_refl))) N).
        + exact (S8 x N (S7 x PX)).
      - injection E as <- E. destruct b as [|b5 b]; [injection E as <- _ _; destruct T; discriminate|]. injection E as <- E.
        destruct b as [|b6 b]; [|destruct b; discriminate].
        destruct NE as [N|[N|[N|N]]].
        + exact (B RU _ (or_introl eq_refl) N).
        + exact (B LATIN _ (or_intror (or_introl eq_refl)) N).
        + exact (B INT _ (or_intror (or_intror (or_introl eq_refl))) N).
        + exact (B EOL _ (or_intror (or_intror (or_intror (or_intror (or_introl eq_refl))))) N). }
    destruct FC as [(b & P1 & c & E & PX & B)|(b & P1 & c & E & PX & B)].
    - exact (G b c PUNCT P1 (or_introl eq_refl) E PX B).
    - exact (G b c OTHER P1 (or_intror eq_refl) E PX B).
  Qed.

  Lemma word_in_classes ty P : In (ty, P) (word_classes C) -> In (ty, P) (classes C).
  Proof.
    unfold word_classes, classes. intros [H|[H|[H|[H|[]]]]].
    - left. exact H.
    - right. left. exact H.
    - right. right. left. exact H.
    - right. right. right. right. left. exact H.
  Qed.

  (** No class continues over position [i]. *)
  Definition boundary (i : nat) : Prop :=
    forall k y z ty P, S k = i -> nth_error text k = Some y -> nth_error text i = Some z ->
      In (ty, P) (word_classes C) -> P y -> ~ P z.

  Definition entry (m : nat * nat * option str) : Prop :=
    let '(s, e, o) := m in
    exists ty x, o = Some ty /\ s < e <= length text /\ nth_error text s = Some x /\ first_class C x ty /\ shape s e ty /\ boundary s.

  Lemma shape_boundary s e ty x : s < e <= length text -> nth_error text s = Some x -> first_class C x ty -> shape s e ty -> boundary e.
  Proof.
    intros L EX FC [(P & W & A & B)|[TY ->]] k y z ty' P' SK EY EZ W' PY PZ.
    - destruct (A k ltac:(lia)) as (y' & Y1 & Y2). rewrite EY in Y1. injection Y1 as <-.
      destruct (word_class_unique _ _ _ _ _ W W' Y2 PY) as [_ <-]. exact (B z EZ PZ).
    - injection SK as ->. rewrite EX in EY. injection EY as <-.
      eapply (single_not_word x ty' P'); eauto. destruct TY as [->| ->]; auto.
  Qed.

  Lemma lexed_default must i l : lexed D text must i l -> boundary i ->
    Forall entry l /\
    (forall k x, i <= k -> nth_error text k = Some x -> (forall s e o, In (s, e, o) l -> ~ s <= k < e) ->
       forall ty P, In (ty, P) (classes C) -> ~ P x).
  Proof.
    induction 1 as [must i L N|must i s e o rest l L1 L2 A1 A2 H IH]; intros BD.
    - split; [constructor|]. intros k x K E _.
      assert (k < length text) by (apply nth_error_Some; congruence).
      specialize (N k ltac:(lia)). rewrite default_candidates in N by lia.
      destruct (default_at k x E) as [(ty & m & rest & A & _)|[_ NC]]; [congruence|exact NC].
    - assert (SX : exists x, nth_error text s = Some x).
      { destruct (nth_error text s) eqn:E; eauto. apply nth_error_None in E. assert (s = length text) by lia. subst s.
        rewrite default_candidates in A1 by lia. rewrite alternatives_end in A1. discriminate. }
      destruct SX as [x EX].
      rewrite default_candidates in A1 by lia.
      destruct (default_at s x EX) as [(ty & m & r & A & R & FC & SH)|[A _]]; [|congruence].
      rewrite A in A1. injection A1 as -> <- _.
      assert (GAP : forall k y, i <= k < s -> nth_error text k = Some y -> forall ty P, In (ty, P) (classes C) -> ~ P y).
      { intros k y K EY. specialize (A2 k K). rewrite default_candidates in A2 by lia.
        destruct (default_at k y EY) as [(ty' & m' & r' & A' & _)|[_ NC]]; [congruence|exact NC]. }
      assert (BS : boundary s).
      { intros k y z ty' P' SK EY EZ W PY PZ. destruct (Nat.eq_dec s i) as [->|NE]; [eapply (BD k); eauto|].
        eapply (GAP k y); eauto; [lia|]. apply word_in_classes. exact W. }
      destruct (IH (shape_boundary s e ty x R EX FC SH)) as [F G].
      split.
      + constructor; auto. exists ty, x. auto 8.
      + intros k y K EY NC. destruct (Nat.lt_ge_cases k s) as [KS|KS]; [apply (GAP k y); auto|].
        destruct (Nat.lt_ge_cases k e) as [KE|KE]; [exfalso; apply (NC s e (Some ty)); [left; reflexivity|lia]|].
        apply (G k y); auto. intros s' e' o' HI. apply (NC s' e' o'). right. exact HI.
  Qed.

  Lemma default_tokens fuel ts : tokenize fuel D text = Some (Ok ts) ->
    placed text 0 ts /\
    (forall t, In t ts -> exists s e x, t_value t = slice text s e /\ t_start t = Z.of_nat s /\ t_stop t = Z.of_nat e /\ s < e <= length text /\
        nth_error text s = Some x /\ first_class C x (t_type t) /\ shape s e (t_type t) /\ boundary s) /\
    (forall k x, nth_error text k = Some x -> (forall t, In t ts -> ~ covers t k) -> forall ty P, In (ty, P) (classes C) -> ~ P x).
  Proof.
    intros H. split; [eapply tokenize_placed; eauto|]. unfold tokenize in H.
    destruct (finditer fuel D text false 0) as [l|] eqn:F; [|discriminate]. injection H as H.
    apply finditer_lexed in F; [|lia].
    destruct (lexed_default false 0 l F) as [E G]. { intros k y z ty P SK. discriminate. }
    apply mapM_forall2 in H. split.
    - clear G F. induction H as [|[[s e] o] t l ts M H IH]; intros t' [].
      + subst t'. inversion E as [|? ? EN _]; subst. cbn [entry] in EN. destruct EN as (ty & x & -> & L & EX & FC & SH & BD).
        cbn [make_token] in M. injection M as <-. cbn [t_value t_start t_stop t_type]. exists s, e, x. auto 10.
      + inversion E; subst. apply IH; auto.
    - intros k x EX NC. apply (G k x); auto; [lia|]. intros s e o HI SE.
      clear - H NC HI SE. induction H as [|[[s' e'] o'] t l ts M H IH]; [destruct HI|].
      destruct HI as [HI|HI].
      + injection HI as -> -> ->. cbn [make_token] in M. destruct o as [ty|]; [|discriminate]. injection M as <-.
        apply (NC (mkToken (slice text s e) (Z.of_nat s) (Z.of_nat e) ty None None)); [left; auto|]. unfold covers. cbn. lia.
      + apply IH; auto. intros. apply NC. right. auto.
  Qed.
End Default.

(** ** The properties *)
Lemma visible_has_class C x : visible C x -> exists ty P, In (ty, P) (classes C) /\ P x.
Proof. intros V. exists OTHER, (visible C). split; [cbn; auto 10|exact V]. Qed.

Lemma placed_unique text i ts k : placed text i ts -> (exists t, In t ts /\ covers t k) ->
  exists l1 t l2, ts = l1 ++ t :: l2 /\ covers t k /\ forall t', In t' (l1 ++ l2) -> ~ covers t' k.
Proof.
  induction 1 as [|i s e ty ts L1 L2 H IH]; intros (t & HT & CV); [destruct HT|].
  destruct HT as [<-|HT].
  - exists [], (mkToken (slice text s e) (Z.of_nat s) (Z.of_nat e) ty None None), ts. split; [reflexivity|]. split; auto.
    intros t' HT' CV'. cbn in HT'. pose proof (placed_from _ _ _ _ H HT'). unfold covers in *. cbn in *. lia.
  - destruct IH as (l1 & t1 & l2 & E & CV1 & U); [eauto|].
    exists (mkToken (slice text s e) (Z.of_nat s) (Z.of_nat e) ty None None :: l1), t1, l2. split; [rewrite E; reflexivity|]. split; auto.
    intros t' [<-|HT'] CV'.
    + pose proof (placed_from _ _ _ t1 H ltac:(rewrite E; apply in_or_app; right; left; reflexivity)). unfold covers in *. cbn in *. lia.
    + exact (U t' HT' CV').
Qed.

Lemma default_loses_nothing : forall C t text fuel ts, sane C -> default_tokenizer C = Ok t -> tokenize fuel t text = Some (Ok ts) ->
  (forall k x, nth_error text k = Some x -> visible C x ->
     exists l1 tk l2, ts = l1 ++ tk :: l2 /\ covers tk k /\ forall tk', In tk' (l1 ++ l2) -> ~ covers tk' k) /\
  (forall tk, In tk ts -> t_value tk <> []) /\
  (forall tk k x, In tk ts -> covers tk k -> nth_error text k = Some x -> ~ visible C x -> t_type tk = EOL).
Proof.
  intros C t text fuel ts SN DT H. rewrite default_is_D in DT. injection DT as <-.
  destruct (default_tokens C text SN fuel ts H) as (PL & EN & GAP). split; [|split].
  - intros k x EX V. eapply placed_unique; eauto.
    destruct (covered ts k) eqn:CV; [apply covered_iff in CV; auto|].
    exfalso. destruct (visible_has_class C x V) as (ty & P & W & PX).
    eapply (GAP k x); eauto. intros tk HT CT. assert (covered ts k = true) by (apply covered_iff; eauto). congruence.
  - intros tk HT E. destruct (EN tk HT) as (s & e & x & EV & _ & _ & L & _). rewrite E in EV.
    pose proof (proj1 (proj2 (slice_split text s e ltac:(lia)))) as LN. rewrite <- EV in LN. cbn in LN. lia.
  - intros tk k x HT CV EX NV. destruct (EN tk HT) as (s & e & x0 & EV & ES & EE & L & EX0 & FC & SH & BD).
    unfold covers in CV. rewrite ES, EE in CV. destruct SN as [S1 S2 S3 S4 S5 S6 S7 S8 S9].
    destruct SH as [(P & W & A & B)|[TY ->]].
    + destruct (A k ltac:(lia)) as (y & Y1 & Y2). rewrite EX in Y1. injection Y1 as <-.
      destruct W as [W|[W|[W|[W|[]]]]]; injection W as W <-; try (symmetry; exact W); exfalso; apply NV; auto.
    + replace k with s in * by lia. rewrite EX0 in EX. injection EX as <-.
      destruct FC as (b & P & c & EC & PX & _). exfalso. apply NV.
      assert (HI : In (t_type tk, P) (classes C)) by (rewrite EC; apply in_or_app; right; left; reflexivity).
      destruct HI as [W|[W|[W|[W|[W|[W|[]]]]]]]; injection W as W <-; rewrite <- W in TY; destruct TY as [TY|TY]; try discriminate TY; auto.
Qed.

Lemma default_shapes : forall C t text fuel ts tk, sane C -> default_tokenizer C = Ok t -> tokenize fuel t text = Some (Ok ts) -> In tk ts ->
  (exists x, hd_error (t_value tk) = Some x /\ first_class C x (t_type tk)) /\
  (forall P, In (t_type tk, P) (word_classes C) ->
     Forall P (t_value tk) /\
     (forall k x, t_stop tk = Z.of_nat k -> nth_error text k = Some x -> ~ P x) /\
     (forall k x, t_start tk = Z.of_nat (S k) -> nth_error text k = Some x -> ~ P x)) /\
  (t_type tk = PUNCT \/ t_type tk = OTHER -> length (t_value tk) = 1).
Proof.
  intros C t text fuel ts tk SN DT H HT. rewrite default_is_D in DT. injection DT as <-.
  destruct (default_tokens C text SN fuel ts H) as (PL & EN & _).
  destruct (EN tk HT) as (s & e & x & EV & ES & EE & L & EX & FC & SH & BD). rewrite EV.
  assert (LN : length (slice text s e) = e - s) by (apply (slice_split text s e); lia).
  split; [|split].
  - exists x. split; auto. pose proof (slice_nth text s e 0 ltac:(lia) ltac:(lia)) as N0. rewrite Nat.add_0_r, EX in N0.
    destruct (slice text s e); [discriminate|exact N0].
  - intros P W. destruct SH as [(P' & W' & A & B)|[TY _]].
    + assert (P = P').
      { clear - W W'. destruct W as [W|[W|[W|[W|[]]]]]; injection W as W1 W2; destruct W' as [K|[K|[K|[K|[]]]]]; injection K as K1 K2;
          rewrite <- W1 in K1; try discriminate K1; congruence. }
      subst P'. split; [|split].
      * apply Forall_forall. intros y HY. apply In_nth_error in HY as (k & HY).
        assert (k < e - s) by (rewrite <- LN; apply nth_error_Some; congruence).
        rewrite slice_nth in HY by lia. destruct (A (s + k) ltac:(lia)) as (y' & Y1 & Y2). congruence.
      * intros k y EK EY. rewrite EE in EK. replace k with e in EY by lia. apply B. exact EY.
      * intros k y EK EY PY. rewrite ES in EK. assert (SK : S k = s) by lia.
        destruct (A s ltac:(lia)) as (z & Z1 & Z2). exact (BD k y z _ _ SK EY Z1 W PY Z2).
    + exfalso. clear - W TY. destruct W as [W|[W|[W|[W|[]]]]]; injection W as W _; rewrite <- W in TY; destruct TY; discriminate.
  - intros TY. destruct SH as [(P & W & _)|[_ ->]]; [|lia].
    exfalso. clear - W TY. destruct W as [W|[W|[W|[W|[]]]]]; injection W as W _; rewrite <- W in TY; destruct TY; discriminate.
Qed.

(** ** Joining keeps the visible characters *)
Lemma squeeze_visible C keep : ~ visible C 32%N -> forall text k st gp,
  (forall j x, nth_error text j = Some x -> visible C x -> keep (k + j) = true) ->
  filter (fun c => negb (c_space C c)) (squeeze keep k st gp text) = filter (fun c => negb (c_space C c)) text.
Proof.
  intros SP. assert (S32 : c_space C 32%N = true) by (unfold visible in SP; destruct (c_space C 32%N); congruence).
  induction text as [|c text IH]; intros k st gp H; [reflexivity|]. cbn [squeeze].
  assert (H' : forall j x, nth_error text j = Some x -> visible C x -> keep (S k + j) = true).
  { intros j x E V. rewrite Nat.add_succ_comm. apply (H (S j) x); auto. }
  destruct (keep k) eqn:EK.
  - assert (E : filter (fun c => negb (c_space C c)) (if st && gp then [32%N] else []) = []).
    { destruct (st && gp); [|reflexivity]. cbn [filter]. rewrite S32. reflexivity. }
    rewrite filter_app, E. cbn [app filter]. rewrite (IH _ _ _ H'). reflexivity.
  - rewrite (IH _ _ _ H'). cbn [filter]. destruct (c_space C c) eqn:V; [reflexivity|].
    specialize (H 0 c eq_refl V). rewrite Nat.add_0_r in H. congruence.
Qed.
Lemma default_join : forall C t text fuel ts, sane C -> default_tokenizer C = Ok t -> tokenize fuel t text = Some (Ok ts) ->
  join_tokens ts = squeeze (covered ts) 0 false false text /\
  filter (fun c => negb (c_space C c)) (join_tokens ts) = filter (fun c => negb (c_space C c)) text.
Proof.
  intros C t text fuel ts SN DT H. destruct (default_loses_nothing C t text fuel ts SN DT H) as (A1 & A2 & A3).
  pose proof (join_tokens_squeeze t fuel text ts H A2) as E. split; auto. rewrite E.
  apply squeeze_visible; [apply (space_space C SN)|]. intros j x EX V. cbn [plus].
  destruct (A1 j x EX V) as (l1 & tk & l2 & -> & CV & _). apply covered_iff. exists tk. split; auto.
  apply in_or_app. right. left. reflexivity.
Qed.
