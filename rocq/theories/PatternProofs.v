(** Proofs about pattern strings. *)
From Verif Require Import Base TokenModel RuleModel TokenizerModel DotTextModel DotTextProofs PredicateProofs PatternModel PatternSpec.
From Coq Require Import Lia.
Open Scope nat_scope.

(** ** Reading symbols *)
(** What follows a pattern in the joined one. *)
Definition closes (t : str) : Prop := exists t', t = 41%N :: t'.

Lemma then_ok {A B} (x : option (res A)) (f : A -> option (res B)) b : then_ x f = Some (Ok b) -> exists a, x = Some (Ok a) /\ f a = Some (Ok b).
Proof. destruct x as [[a|e]|]; simpl; intro H; try discriminate. eauto. Qed.
Lemma hex_number_app n : forall acc s t d r, hex_number n acc s = Some (Ok (d, r)) -> hex_number n acc (s ++ t) = Some (Ok (d, r ++ t)).
Proof.
  induction n as [|n IH]; intros acc s t d r H; simpl in *.
  - inversion H; subst. destruct (r ++ t); reflexivity || (destruct s; simpl in *; reflexivity).
  - destruct s as [|c s]; [discriminate|]. simpl. destruct (hex c); [|discriminate]. apply IH. assumption.
Qed.
Lemma hex_number_short n : forall acc s d r, hex_number n acc s = Some (Ok (d, r)) -> length r <= length s.
Proof.
  induction n as [|n IH]; intros acc s d r H; simpl in *.
  - destruct s; inversion H; subst; simpl; lia.
  - destruct s as [|c s]; [discriminate|]. destruct (hex c); [|discriminate]. apply IH in H. simpl. lia.
Qed.
Lemma numbered_app c s t d r : numbered c s = Some (Ok (d, r)) -> numbered c (s ++ t) = Some (Ok (d, r ++ t)).
Proof.
  unfold numbered. destruct (is_char "x" c); [apply hex_number_app|]. destruct (is_char "u" c); [apply hex_number_app|].
  destruct (is_char "U" c || is_char "N" c)%bool; [discriminate|]. destruct (is_ascii_letter c); [discriminate|].
  intro H; inversion H; subst; reflexivity.
Qed.
Lemma numbered_short c s d r : numbered c s = Some (Ok (d, r)) -> length r <= length s.
Proof.
  unfold numbered. destruct (is_char "x" c); [apply hex_number_short|]. destruct (is_char "u" c); [apply hex_number_short|].
  destruct (is_char "U" c || is_char "N" c)%bool; [discriminate|]. destruct (is_ascii_letter c); [discriminate|].
  intro H; inversion H; subst; lia.
Qed.
Ltac inv_read H := unfold read in H; inversion H; subst; clear H.
Lemma set_escape_app s t k r : set_escape s = Some (Ok (k, r)) -> set_escape (s ++ t) = Some (Ok (k, r ++ t)) /\ length r < length s.
Proof.
  destruct s as [|c s]; [discriminate|]. simpl.
  destruct (category_of c); [intro H; inv_read H; split; [reflexivity|lia]|].
  destruct (control_of c); [intro H; inv_read H; split; [reflexivity|lia]|].
  destruct (is_char "b" c); [intro H; inv_read H; split; [reflexivity|lia]|].
  destruct (between 48 55 c); [discriminate|]. destruct (is_digit c); [discriminate|].
  intro H. apply then_ok in H. destruct H as ((d, s') & H1 & H2). inv_read H2.
  rewrite (numbered_app _ _ t _ _ H1). apply numbered_short in H1. split; [reflexivity|lia].
Qed.
Lemma set_code_app c s t k r : set_code c s = Some (Ok (k, r)) -> set_code c (s ++ t) = Some (Ok (k, r ++ t)) /\ length r <= length s.
Proof.
  unfold set_code. destruct (is_char "\" c).
  - intro H. apply (set_escape_app _ t) in H. destruct H; split; [assumption|lia].
  - intro H. inv_read H. split; [reflexivity|lia].
Qed.
Lemma set_codes_app f : forall f' first acc s t l r, set_codes f first acc s = Some (Ok (l, r)) -> f <= f' ->
  set_codes f' first acc (s ++ t) = Some (Ok (l, r ++ t)) /\ length r < length s.
Proof.
  induction f as [|f IH]; intros f' first acc s t l r H Hf; [discriminate|].
  destruct f' as [|f']; [lia|]. destruct s as [|c s]; [discriminate|]. cbn [set_codes app] in *.
  destruct (is_char "]" c && negb first)%bool.
  { inv_read H. split; [reflexivity|simpl; lia]. }
  apply then_ok in H. destruct H as ((k, s1) & H1 & H).
  apply (set_code_app _ _ t) in H1. destruct H1 as [H1 L1]. rewrite H1. cbn [then_].
  destruct s1 as [|d s2]; [discriminate|]. cbn [app].
  destruct (is_char "-" d).
  - destruct s2 as [|e s3]; [discriminate|]. cbn [app]. destruct (is_char "]" e).
    + inv_read H. split; [reflexivity|simpl in *; lia].
    + apply then_ok in H. destruct H as ((k2, s4) & H2 & H).
      apply (set_code_app _ _ t) in H2. destruct H2 as [H2 L2]. rewrite H2. cbn [then_].
      destruct k; [|discriminate]. destruct k2; [|discriminate]. destruct (_ <? _)%N; [discriminate|].
      apply (IH f' _ _ _ t) in H; [|lia]. destruct H as [H L]. split; [exact H|simpl in *; lia].
  - apply (IH f' _ _ _ t) in H; [|lia]. destruct H as [H L]. split; [exact H|simpl in *; lia].
Qed.
Lemma set_symbol_app s t x r : set_symbol s = Some (Ok (x, r)) -> set_symbol (s ++ t) = Some (Ok (x, r ++ t)) /\ length r <= length s.
Proof.
  destruct s as [|c s]; [discriminate|]. unfold set_symbol. cbn [app].
  intro H. apply then_ok in H. destruct H as ((l, r') & H1 & H2). inv_read H2.
  destruct (is_char "^" c).
  - apply (set_codes_app _ (S (length (c :: s ++ t))) _ _ _ t) in H1; [|simpl; rewrite app_length; lia].
    destruct H1 as [H1 L]. rewrite H1. split; [reflexivity|simpl in *; lia].
  - apply (set_codes_app _ (S (length (c :: s ++ t))) _ _ _ t) in H1; [|simpl; rewrite app_length; lia].
    destruct H1 as [H1 L]. change ((c :: s) ++ t) with (c :: s ++ t) in H1. rewrite H1. split; [reflexivity|simpl in *; lia].
Qed.
Lemma escape_symbol_app s t x r : closes t -> escape_symbol s = Some (Ok (x, r)) ->
  escape_symbol (s ++ t) = Some (Ok (x, r ++ t)) /\ length r <= length s.
Proof.
  intros (t' & ->) H. destruct s as [|c s]; [discriminate|]. cbn [escape_symbol app] in *.
  destruct (category_of c); [inv_read H; split; [reflexivity|simpl; lia]|].
  destruct (control_of c); [inv_read H; split; [reflexivity|simpl; lia]|].
  destruct (is_char "A" c); [inv_read H; split; [reflexivity|simpl; lia]|].
  destruct (is_char "Z" c); [inv_read H; split; [reflexivity|simpl; lia]|].
  destruct (is_char "b" c); [inv_read H; split; [reflexivity|simpl; lia]|].
  destruct (is_char "B" c); [inv_read H; split; [reflexivity|simpl; lia]|].
  destruct (is_char "0" c); [discriminate|].
  destruct (is_digit c).
  - destruct s as [|d s]; cbn [app].
    + inv_read H. split; [reflexivity|simpl; lia].
    + destruct (is_digit d); [discriminate|]. inv_read H. split; [reflexivity|simpl; lia].
  - apply then_ok in H. destruct H as ((d, s') & H1 & H2). inv_read H2.
    rewrite (numbered_app _ _ (41%N :: t') _ _ H1). apply numbered_short in H1. split; [reflexivity|simpl; lia].
Qed.
Lemma until_app stop s t a r : until stop s = Some (a, r) -> until stop (s ++ t) = Some (a, r ++ t) /\ length r < length s.
Proof.
  revert a. induction s as [|c s IH]; intros a H; [discriminate|]. simpl in *.
  destruct (N.eqb c stop); [inversion H; subst; split; [reflexivity|lia]|].
  destruct (until stop s) as [[a' r']|]; [|discriminate]. inversion H; subst.
  destruct (IH a' eq_refl) as [E L]. rewrite E. split; [reflexivity|lia].
Qed.
Lemma group_symbol_app s t x r : closes t -> group_symbol s = Some (Ok (x, r)) ->
  group_symbol (s ++ t) = Some (Ok (x, r ++ t)) /\ length r <= length s.
Proof.
  intros (t' & ->) H. destruct s as [|q s]; [inv_read H; split; [reflexivity|simpl; lia]|].
  cbn [group_symbol app] in *. destruct (is_char "?" q); [|inv_read H; split; [reflexivity|simpl; lia]].
  destruct s as [|c s]; [discriminate|]. cbn [app].
  destruct (is_char ":" c); [inv_read H; split; [reflexivity|simpl; lia]|].
  destruct (is_char "=" c); [inv_read H; split; [reflexivity|simpl; lia]|].
  destruct (is_char "!" c); [inv_read H; split; [reflexivity|simpl; lia]|].
  destruct (is_char "P" c); [|discriminate].
  destruct s as [|d s]; [discriminate|]. cbn [app].
  destruct (is_char "<" d).
  - destruct (until (code_of ">") s) as [[name rest]|] eqn:U; [|discriminate].
    apply (until_app _ _ (41%N :: t')) in U. destruct U as [U L]. rewrite U.
    apply then_ok in H. destruct H as (n & H1 & H2). rewrite H1. inv_read H2. split; [reflexivity|simpl; lia].
  - destruct (is_char "=" d); [|discriminate].
    destruct (until (code_of ")") s) as [[name rest]|] eqn:U; [|discriminate].
    apply (until_app _ _ (41%N :: t')) in U. destruct U as [U L]. rewrite U.
    apply then_ok in H. destruct H as (n & H1 & H2). rewrite H1. inv_read H2. split; [reflexivity|simpl; lia].
Qed.
Lemma number_app t : closes t -> forall s acc, number acc (s ++ t) = (fst (number acc s), snd (number acc s) ++ t).
Proof.
  intros (t' & ->). induction s as [|c s IH]; intro acc; [reflexivity|]. simpl. destruct (is_digit c); [apply IH|reflexivity].
Qed.
Lemma number_short : forall s acc, length (snd (number acc s)) <= length s.
Proof. induction s as [|c s IH]; intro acc; simpl; [lia|]. destruct (is_digit c); simpl; [specialize (IH (acc * 10 + (c - 48))%N)|]; lia. Qed.
Lemma after_app x s t : closes t -> is_char x 41%N = false -> after x (s ++ t) = match after x s with Some r => Some (r ++ t) | None => None end.
Proof. intros (t' & ->) Hx. destruct s as [|c s]; cbn [after app]; [rewrite Hx; reflexivity|]. destruct (is_char x c); reflexivity. Qed.
Lemma after_short x s r : after x s = Some r -> length r < length s.
Proof. destruct s as [|c s]; [discriminate|]. simpl. destruct (is_char x c); intro H; inversion H; subst; lia. Qed.
Lemma bounds_app s t : closes t -> bounds (s ++ t) = match bounds s with Some (p, r) => Some (p, r ++ t) | None => None end.
Proof.
  intro Ht. unfold bounds. rewrite (after_app _ _ _ Ht) by reflexivity. destruct (after "}" s); [reflexivity|].
  rewrite (number_app _ Ht). destruct (number 0 s) as [lo s1]. cbn [fst snd].
  rewrite (after_app _ _ _ Ht) by reflexivity. destruct (after "," s1) as [s2|].
  - rewrite (number_app _ Ht). destruct (number 0 s2) as [hi s3]. cbn [fst snd]. rewrite (after_app _ _ _ Ht) by reflexivity.
    destruct (after "}" s3) as [s4|]; [|reflexivity]. f_equal. f_equal. f_equal.
    destruct s2 as [|c s2]; [|reflexivity]. destruct Ht as (t' & ->). reflexivity.
  - rewrite (after_app _ _ _ Ht) by reflexivity. destruct (after "}" s1); reflexivity.
Qed.
Lemma bounds_short s p r : bounds s = Some (p, r) -> length r <= length s.
Proof.
  unfold bounds. destruct (after "}" s); [discriminate|].
  pose proof (number_short s 0%N) as L1. destruct (number 0 s) as [lo s1]. cbn [snd] in L1.
  destruct (after "," s1) as [s2|] eqn:A1.
  - apply after_short in A1. pose proof (number_short s2 0%N) as L2. destruct (number 0 s2) as [hi s3]. cbn [snd] in L2.
    destruct (after "}" s3) as [s4|] eqn:A2; [|discriminate]. apply after_short in A2. intro H; inversion H; subst. lia.
  - destruct (after "}" s1) as [s4|] eqn:A2; [|discriminate]. apply after_short in A2. intro H; inversion H; subst. lia.
Qed.
Lemma quantifier_symbol_app lo hi s t x r : closes t -> quantifier_symbol lo hi s = Some (Ok (x, r)) ->
  quantifier_symbol lo hi (s ++ t) = Some (Ok (x, r ++ t)) /\ length r <= length s.
Proof.
  intros (t' & ->) H. destruct s as [|c s]; [inv_read H; split; [reflexivity|simpl; lia]|]. cbn [quantifier_symbol app] in *.
  destruct (is_char "?" c); [inv_read H; split; [reflexivity|simpl; lia]|].
  destruct (is_char "+" c); [discriminate|]. inv_read H; split; [reflexivity|simpl; lia].
Qed.
Lemma brace_symbol_app s t x r : closes t -> brace_symbol s = Some (Ok (x, r)) ->
  brace_symbol (s ++ t) = Some (Ok (x, r ++ t)) /\ length r <= length s.
Proof.
  intros Ht H. unfold brace_symbol in *. rewrite (bounds_app _ _ Ht).
  destruct (bounds s) as [[[lo hi] rest]|] eqn:B; [|inv_read H; split; [reflexivity|lia]].
  apply bounds_short in B. destruct (_ || _)%bool; [discriminate|]. destruct (match hi with Some h => (h <? lo)%N | None => false end); [discriminate|].
  apply (quantifier_symbol_app _ _ _ _ _ _ Ht) in H. destruct H as [H L]. split; [exact H|lia].
Qed.
Lemma next_symbol_app c s t x r : closes t -> next_symbol c s = Some (Ok (x, r)) ->
  next_symbol c (s ++ t) = Some (Ok (x, r ++ t)) /\ length r <= length s.
Proof.
  intros Ht. unfold next_symbol.
  destruct (is_char "\" c); [apply escape_symbol_app; exact Ht|].
  destruct (is_char "[" c); [apply set_symbol_app|].
  destruct (is_char "(" c); [apply group_symbol_app; exact Ht|].
  destruct (is_char ")" c); [intro H; inv_read H; split; [reflexivity|lia]|].
  destruct (is_char "|" c); [intro H; inv_read H; split; [reflexivity|lia]|].
  destruct (is_char "*" c); [apply quantifier_symbol_app; exact Ht|].
  destruct (is_char "+" c); [apply quantifier_symbol_app; exact Ht|].
  destruct (is_char "?" c); [apply quantifier_symbol_app; exact Ht|].
  destruct (is_char "{" c); [apply brace_symbol_app; exact Ht|].
  destruct (is_char "." c); [intro H; inv_read H; split; [reflexivity|lia]|].
  destruct (is_char "^" c); [intro H; inv_read H; split; [reflexivity|lia]|].
  destruct (is_char "$" c); intro H; inv_read H; split; (reflexivity || lia).
Qed.
Lemma next_symbol_short c s x r : next_symbol c s = Some (Ok (x, r)) -> length r <= length s.
Proof. intro H. apply (next_symbol_app c s [41%N] x r); [exists []; reflexivity|exact H]. Qed.

Lemma symbols_fuel : forall f f' s, length s <= f -> length s <= f' -> symbols f s = symbols f' s.
Proof.
  induction f as [|f IH]; intros f' s H H'.
  - destruct s; [|simpl in H; lia]. destruct f'; reflexivity.
  - destruct s as [|c s]; [destruct f'; reflexivity|]. destruct f' as [|f']; [simpl in H'; lia|]. cbn [symbols].
    destruct (next_symbol c s) as [[[x r]|e]|] eqn:E; [|reflexivity|reflexivity]. cbn [then_].
    apply next_symbol_short in E. simpl in H, H'. rewrite (IH f' r) by lia. reflexivity.
Qed.
Definition lexed (s : str) : option (res (list symbol)) := symbols (length s) s.
Lemma lexed_cons c s : lexed (c :: s) = then_ (next_symbol c s) (fun '(x, r) => then_ (lexed r) (fun l => read (x :: l))).
Proof.
  unfold lexed. cbn [symbols length]. destruct (next_symbol c s) as [[[x r]|e]|] eqn:E; [|reflexivity|reflexivity].
  cbn [then_]. apply next_symbol_short in E. rewrite (symbols_fuel (length s) (length r) r) by lia. reflexivity.
Qed.
Definition prefixed (l : list symbol) (x : option (res (list symbol))) : option (res (list symbol)) := then_ x (fun l' => read (l ++ l')).
Lemma prefixed_cons y l x : then_ (prefixed l x) (fun l => read (y :: l)) = prefixed (y :: l) x.
Proof. destruct x as [[?|?]|]; reflexivity. Qed.
Lemma lexed_app t : closes t -> forall n s l, length s <= n -> lexed s = Some (Ok l) -> lexed (s ++ t) = prefixed l (lexed t).
Proof.
  intros Ht. induction n as [|n IH]; intros s l Hn H.
  - destruct s; [|simpl in Hn; lia]. inversion H; subst. simpl. destruct (lexed t) as [[?|?]|]; reflexivity.
  - destruct s as [|c s]; [inversion H; subst; simpl; destruct (lexed t) as [[?|?]|]; reflexivity|].
    rewrite lexed_cons in H. apply then_ok in H. destruct H as ((x, r) & H1 & H). apply then_ok in H. destruct H as (l' & H2 & H3). inv_read H3.
    pose proof (next_symbol_short _ _ _ _ H1) as L. apply (next_symbol_app _ _ t _ _ Ht) in H1. destruct H1 as [H1 _].
    cbn [app]. rewrite lexed_cons, H1. cbn [then_]. simpl in Hn. rewrite (IH r l'); [|lia|exact H2]. apply prefixed_cons.
Qed.

(** ** The joined pattern *)
Definition named_symbols (r : string_rule) (l : list symbol) : list symbol := SOpen (Capture (Some (rule_name r))) :: l ++ [SClose].
Fixpoint joined_symbols (rules : list string_rule) (ls : list (list symbol)) : list symbol :=
  match rules, ls with
  | r :: rules', l :: ls' => named_symbols r l ++ match rules' with [] => [] | _ => SBar :: joined_symbols rules' ls' end
  | _, _ => []
  end.
Definition name_char (c : N) : bool := name_start c || is_digit c.
Lemma until_name n t : forallb name_char n = true -> until (code_of ">") (n ++ str_of ">" ++ t) = Some (n, t).
Proof.
  induction n as [|c n IH]; intro H; [reflexivity|]. simpl in H. apply andb_prop in H. destruct H as [Hc H].
  change (until (code_of ">") ((c :: n) ++ str_of ">" ++ t)) with
    (if N.eqb c 62 then Some ([], n ++ str_of ">" ++ t) else match until (code_of ">") (n ++ str_of ">" ++ t) with Some (a, b) => Some (c :: a, b) | None => None end).
  destruct (N.eqb_spec c 62); [subst; discriminate Hc|]. rewrite (IH H). reflexivity.
Qed.
Lemma digits_name n : forallb name_char (digits n) = true.
Proof.
  destruct (digits_digits n) as [_ H]. rewrite forallb_forall in *. intros c Hc. specialize (H c Hc).
  unfold name_char, is_digit, between. rewrite H. apply orb_true_r.
Qed.
Lemma rule_name_chars r : forallb name_char (rule_name r) = true.
Proof. unfold rule_name. rewrite forallb_app, digits_name. reflexivity. Qed.
Lemma name_char_ascii c : name_char c = true -> (c <? 128)%N = true.
Proof.
  unfold name_char, name_start, is_ascii_letter, is_digit, between, is_char. change (code_of "_") with 95%N.
  intro H. apply N.ltb_lt.
  repeat (apply orb_prop in H; destruct H as [H|H]); try (apply andb_prop in H; destruct H as [_ H]; apply N.leb_le in H; lia).
  apply N.eqb_eq in H. lia.
Qed.
Lemma group_name_rule r : group_name (rule_name r) = read (rule_name r).
Proof.
  unfold group_name.
  assert (A : forallb (fun c => (c <? 128)%N) (rule_name r) = true).
  { pose proof (rule_name_chars r) as H. rewrite forallb_forall in *. intros c Hc. apply name_char_ascii, H, Hc. }
  rewrite A. cbn [negb]. pose proof (rule_name_chars r) as H. unfold rule_name in *.
  change (str_of "rule_" ++ digits (sr_id r)) with (114%N :: str_of "ule_" ++ digits (sr_id r)) in *. cbn [forallb] in H.
  apply andb_prop in H. destruct H as [_ H]. unfold name_char in H. rewrite H. reflexivity.
Qed.
Lemma lexed_named r l t : lexed (sr_pattern r) = Some (Ok l) -> lexed (named_pattern r ++ t) = prefixed (named_symbols r l) (lexed t).
Proof.
  intro H. unfold named_pattern. rewrite <- !app_assoc.
  change (str_of "(?P<" ++ rule_name r ++ str_of ">" ++ sr_pattern r ++ str_of ")" ++ t)
    with (40%N :: 63%N :: 80%N :: 60%N :: rule_name r ++ str_of ">" ++ sr_pattern r ++ str_of ")" ++ t).
  rewrite lexed_cons.
  change (next_symbol 40 (63%N :: 80%N :: 60%N :: rule_name r ++ str_of ">" ++ sr_pattern r ++ str_of ")" ++ t))
    with (match until (code_of ">") (rule_name r ++ str_of ">" ++ sr_pattern r ++ str_of ")" ++ t) with
          | Some (name, rest) => then_ (group_name name) (fun name => read (SOpen (Capture (Some name)), rest))
          | None => rejected end).
  rewrite (until_name _ _ (rule_name_chars r)), group_name_rule. cbn [then_ read].
  assert (Hc : closes (str_of ")" ++ t)) by (exists t; reflexivity).
  rewrite (lexed_app _ Hc (length (sr_pattern r)) _ l (le_n _) H).
  change (str_of ")" ++ t) with (41%N :: t). rewrite lexed_cons. change (next_symbol 41 t) with (@read (symbol * str) (SClose, t)). cbn [then_ read].
  unfold prefixed, named_symbols. destruct (lexed t) as [[l'|e]|]; simpl; try reflexivity. rewrite <- app_assoc. reflexivity.
Qed.
Lemma lexed_joined rules : forall ls, Forall2 (fun r l => lexed (sr_pattern r) = Some (Ok l)) rules ls ->
  lexed (joined rules) = Some (Ok (joined_symbols rules ls)).
Proof.
  induction rules as [|r rules IH]; intros ls H; inversion H as [|? l ? ls' H1 H2]; subst; [reflexivity|].
  specialize (IH ls' H2). unfold joined in *. cbn [map joined_symbols]. destruct rules as [|r' rules].
  - cbn [map join_patterns]. rewrite <- (app_nil_r (named_pattern r)), (lexed_named r l [] H1). rewrite app_nil_r.
    change (lexed []) with (@read (list symbol) []). unfold prefixed. simpl. rewrite app_nil_r. reflexivity.
  - change (join_patterns (named_pattern r :: map named_pattern (r' :: rules)))
      with (named_pattern r ++ 124%N :: join_patterns (map named_pattern (r' :: rules))).
    rewrite (lexed_named r l _ H1), lexed_cons.
    change (next_symbol 124 (join_patterns (map named_pattern (r' :: rules)))) with (@read (symbol * str) (SBar, join_patterns (map named_pattern (r' :: rules)))).
    cbn [then_ read]. rewrite IH. reflexivity.
Qed.

(** ** Groups inside other groups *)
Fixpoint shift (d : nat) (r : re) : re :=
  match r with
  | Empty => Empty | One o => One o | Anchor a => Anchor a
  | Ref k => Ref (k + d)
  | Look b r => Look b (shift d r)
  | Seq a b => Seq (shift d a) (shift d b)
  | Alt a b => Alt (shift d a) (shift d b)
  | Rep lo hi g r => Rep lo hi g (shift d r)
  | Group k r => Group (k + d) (shift d r)
  end.
Definition shift_piece (d : nat) (p : piece * re) : piece * re := (fst p, shift d (snd p)).
Definition shift_name (d : nat) (p : str * nat) : str * nat := (fst p, snd p + d).
Definition lift_opened (d : nat) (o : opened) : opened :=
  match o with OTop => ONoCapture | OCapture k => OCapture (k + d) | o => o end.
Definition lift_frame (d : nat) (f : frame) : frame := mkFrame (lift_opened d (f_opened f)) (map (shift d) (f_before f)) (map (shift_piece d) (f_last f)).
Fixpoint lift_frames (d : nat) (fs : list frame) : list frame :=
  match fs with
  | [] => []
  | f :: fs' => match fs' with
                | [] => [mkFrame (OCapture d) (map (shift d) (f_before f)) (map (shift_piece d) (f_last f))]
                | _ => lift_frame d f :: lift_frames d fs'
                end
  end.
Definition lift (d : nat) (fs : list frame) (ns : list (str * nat)) (m : reading) : reading :=
  mkReading (lift_frames d (rd_frames m) ++ fs) (rd_next m + d) (map (shift_name d) (rd_names m) ++ ns).

Lemma shift_sequence d l : forall r, shift d (fold_left (fun r p => Seq (snd p) r) l r) = fold_left (fun r p => Seq (snd p) r) (map (shift_piece d) l) (shift d r).
Proof. induction l as [|p l IH]; intro r; [reflexivity|]. simpl. rewrite IH. reflexivity. Qed.
Lemma shift_alternation d l : forall r, shift d (alternation r l) = alternation (shift d r) (map (shift d) l).
Proof. unfold alternation. induction l as [|p l IH]; intro r; [reflexivity|]. simpl. rewrite IH. reflexivity. Qed.
Lemma shift_seq d l : shift d (sequence l) = sequence (map (shift_piece d) l).
Proof. unfold sequence. apply shift_sequence. Qed.
Lemma shift_contents d o o' before last :
  contents (mkFrame o (map (shift d) before) (map (shift_piece d) last)) = shift d (contents (mkFrame o' before last)).
Proof. unfold contents. simpl. rewrite shift_alternation, shift_seq. reflexivity. Qed.
Lemma shift_wrap d o r : shift d (wrap o r) = wrap (lift_opened d o) (shift d r).
Proof. destruct o; reflexivity. Qed.

Lemma name_number_shift d ns name l :
  name_number name (map (shift_name d) l ++ ns) = match name_number name l with Some k => Some (k + d) | None => name_number name ns end.
Proof.
  induction l as [|[n k] l IH]; [reflexivity|]. cbn [map app shift_name name_number fst snd].
  destruct (str_eqb name n); [reflexivity|exact IH].
Qed.
Lemma name_number_none name l : name_number name l = None <-> ~ In name (map fst l).
Proof.
  induction l as [|[n k] l IH]; [simpl; tauto|]. cbn [name_number map fst In].
  destruct (str_eqb name n) eqn:E.
  - apply str_eqb_eq in E. subst. split; [discriminate|tauto].
  - rewrite IH. split; intros H; [|tauto]. intros [H1|H1]; [|tauto]. subst. rewrite (proj2 (str_eqb_eq name name) eq_refl) in E. discriminate.
Qed.

Lemma is_open_lift d k fs : k <> 0 -> is_open k fs = false -> is_open (k + d) (lift_frames d fs) = false.
Proof.
  intros Hk. induction fs as [|f fs IH]; [reflexivity|]. intro H. unfold is_open in *. cbn [existsb] in H.
  apply orb_false_elim in H. destruct H as [Hf H]. specialize (IH H). cbn [lift_frames]. destruct fs as [|g fs].
  - cbn [existsb f_opened]. rewrite orb_false_r. apply Nat.eqb_neq. lia.
  - change (existsb (fun f => match f_opened f with OCapture k' => Nat.eqb (k + d) k' | _ => false end) (lift_frame d f :: lift_frames d (g :: fs)))
      with ((match lift_opened d (f_opened f) with OCapture k' => Nat.eqb (k + d) k' | _ => false end) ||
            existsb (fun f => match f_opened f with OCapture k' => Nat.eqb (k + d) k' | _ => false end) (lift_frames d (g :: fs)))%bool.
    rewrite IH, orb_false_r. destruct (f_opened f); try reflexivity. cbn [lift_opened]. apply Nat.eqb_neq in Hf. apply Nat.eqb_neq. lia.
Qed.
Lemma lift_push d p r f fs : lift_frames d (push p r f :: fs) =
  match lift_frames d (f :: fs) with g :: gs => push p (shift d r) g :: gs | [] => [] end.
Proof. destruct fs; reflexivity. Qed.
Lemma lift_cons d f fs : exists g, lift_frames d (f :: fs) = g :: lift_frames d fs /\
  f_before g = map (shift d) (f_before f) /\ f_last g = map (shift_piece d) (f_last f) /\ (fs <> [] -> f_opened g = lift_opened d (f_opened f)).
Proof.
  destruct fs as [|h fs].
  - exists (mkFrame (OCapture d) (map (shift d) (f_before f)) (map (shift_piece d) (f_last f))). repeat split. congruence.
  - exists (lift_frame d f). repeat split.
Qed.
Lemma put_lift d fs ns p r m m' : put p r m = Ok m' -> put p (shift d r) (lift d fs ns m) = Ok (lift d fs ns m').
Proof.
  unfold put, lift. destruct m as [frames n names]; cbn [rd_frames rd_next rd_names].
  destruct frames as [|f frames]; [discriminate|]. intro H. inversion H; subst; clear H. cbn [rd_frames rd_next rd_names].
  rewrite lift_push. destruct (lift_cons d f frames) as (g & -> & _). reflexivity.
Qed.
Definition no_open (fs : list frame) : Prop := forall k, is_open k fs = false.
Lemma is_open_app k a b : is_open k (a ++ b) = (is_open k a || is_open k b)%bool.
Proof. apply existsb_app. Qed.
Lemma refer_lift d fs ns k m m' : no_open fs -> refer k m = Ok m' -> refer (k + d) (lift d fs ns m) = Ok (lift d fs ns m').
Proof.
  intros Hfs. unfold refer. destruct ((0 <? k) && (k <? rd_next m) && negb (is_open k (rd_frames m)))%bool eqn:E; [|discriminate].
  apply andb_prop in E. destruct E as [E E3]. apply andb_prop in E. destruct E as [E1 E2].
  apply Nat.ltb_lt in E1, E2. apply negb_true_iff in E3. intro H.
  assert (G : ((0 <? k + d) && (k + d <? rd_next (lift d fs ns m)) && negb (is_open (k + d) (rd_frames (lift d fs ns m))))%bool = true).
  { unfold lift; cbn [rd_frames rd_next]. rewrite is_open_app, Hfs, orb_false_r, (is_open_lift d k _ ltac:(lia) E3).
    rewrite (proj2 (Nat.ltb_lt 0 (k + d))) by lia. rewrite (proj2 (Nat.ltb_lt (k + d) (rd_next m + d))) by lia. reflexivity. }
  rewrite G. apply (put_lift d fs ns PItem (Ref k) m m' H).
Qed.
Definition opens (x : symbol) : list str := match x with SOpen (Capture (Some n)) => [n] | _ => [] end.
Lemma step_lift d fs ns m x m' : no_open fs -> rd_frames m <> [] -> step m x = Ok m' -> (forall k, x <> SRef k) ->
  (forall n, In n (opens x) -> ~ In n (map fst ns)) -> step (lift d fs ns m) x = Ok (lift d fs ns m').
Proof.
  intros Hfs Hne H Hx Hn. destruct x as [o|a|k|name|o| | |lo hi g]; cbn [step] in *.
  - apply (put_lift d fs ns PItem (One o)); exact H.
  - apply (put_lift d fs ns PAnchor (Anchor a)); exact H.
  - exfalso. apply (Hx k eq_refl).
  - change (rd_names (lift d fs ns m)) with (map (shift_name d) (rd_names m) ++ ns). rewrite name_number_shift.
    destruct (name_number name (rd_names m)) as [k|]; [|discriminate]. apply refer_lift; assumption.
  - destruct m as [frames n names]. unfold lift in *. cbn [rd_frames rd_next rd_names] in *.
    destruct frames as [|f frames]; [congruence|].
    destruct o as [[name|]| |b].
    + rewrite name_number_shift. destruct (name_number name names); [discriminate|].
      rewrite (proj2 (name_number_none name ns)) by (apply Hn; left; reflexivity). inversion H; subst; clear H. reflexivity.
    + inversion H; subst; clear H. reflexivity.
    + inversion H; subst; clear H. reflexivity.
    + inversion H; subst; clear H. reflexivity.
  - destruct m as [frames n names]. cbn [rd_frames rd_next rd_names lift] in *.
    destruct frames as [|f [|g frames]]; try discriminate. inversion H; subst; clear H.
    unfold lift; cbn [rd_frames rd_next rd_names].
    destruct (lift_cons d f (g :: frames)) as (f' & E & E1 & E2 & E3). rewrite E.
    rewrite lift_push. destruct (lift_cons d g frames) as (g' & E' & _). rewrite E'. cbn [app].
    f_equal. f_equal. f_equal. f_equal. rewrite E3 by discriminate. rewrite shift_wrap. f_equal.
    destruct f' as [o b l]. destruct f as [o2 b2 l2]. simpl in E1, E2 |- *. subst. apply shift_contents.
  - destruct m as [frames n names]. cbn [rd_frames rd_next rd_names lift] in *.
    destruct frames as [|f frames]; try discriminate. inversion H; subst; clear H.
    unfold lift; cbn [rd_frames rd_next rd_names]. destruct frames as [|g frames]; cbn [lift_frames f_before f_last f_opened map app]; unfold lift_frame; cbn [f_before f_last f_opened map app]; rewrite shift_seq; reflexivity.
  - destruct m as [frames n names]. cbn [rd_frames rd_next rd_names lift] in *.
    destruct frames as [|[o b [|[[| |] r] l]] frames]; try discriminate. inversion H; subst; clear H.
    unfold lift; cbn [rd_frames rd_next rd_names]. destruct frames as [|g' frames]; reflexivity.
Qed.

(** ** What reading keeps *)
Lemma step_frames m x m' : rd_frames m <> [] -> step m x = Ok m' -> rd_frames m' <> [].
Proof.
  destruct m as [frames n names]. cbn [rd_frames]. intros Hne H.
  assert (P : forall p r m', put p r (mkReading frames n names) = Ok m' -> rd_frames m' <> []).
  { intros p r m1. unfold put. cbn [rd_frames]. destruct frames; [discriminate|]. intro E; inversion E; subst. discriminate. }
  assert (R : forall k m', refer k (mkReading frames n names) = Ok m' -> rd_frames m' <> []).
  { intros k m1. unfold refer. destruct (_ && _)%bool; [apply P|discriminate]. }
  destruct x as [o|a|k|name|[[name|]| |b]| | |lo hi g]; cbn [step rd_frames rd_names rd_next] in H.
  - apply (P _ _ _ H).
  - apply (P _ _ _ H).
  - apply (R _ _ H).
  - destruct (name_number name names); [apply (R _ _ H)|discriminate].
  - destruct (name_number name names); [discriminate|]. inversion H; subst. discriminate.
  - inversion H; subst. discriminate.
  - inversion H; subst. discriminate.
  - inversion H; subst. discriminate.
  - destruct frames as [|f [|g fs]]; try discriminate. inversion H; subst. discriminate.
  - destruct frames as [|f fs]; try discriminate. inversion H; subst. discriminate.
  - destruct frames as [|[o b [|[[| |] r] l]] fs]; try discriminate. inversion H; subst. discriminate.
Qed.
(** Names: the new ones come first, their numbers are new. *)
Lemma step_names m x m' : step m x = Ok m' ->
  rd_next m <= rd_next m' /\
  (rd_names m' = rd_names m /\ opens x = [] \/ exists n, opens x = [n] /\ rd_names m' = (n, rd_next m) :: rd_names m /\ rd_next m' = S (rd_next m) /\ ~ In n (map fst (rd_names m))).
Proof.
  destruct m as [frames n names]. intro H.
  assert (P : forall p r m', put p r (mkReading frames n names) = Ok m' -> n <= rd_next m' /\ rd_names m' = names).
  { intros p r m1. unfold put. cbn [rd_frames]. destruct frames; [discriminate|]. intro E; inversion E; subst. split; [apply le_n|reflexivity]. }
  assert (R : forall k m', refer k (mkReading frames n names) = Ok m' -> n <= rd_next m' /\ rd_names m' = names).
  { intros k m1. unfold refer. destruct (_ && _)%bool; [apply P|discriminate]. }
  destruct x as [o|a|k|name|[[name|]| |b]| | |lo hi g]; cbn [step rd_frames rd_names rd_next opens] in *.
  - destruct (P _ _ _ H). auto.
  - destruct (P _ _ _ H). auto.
  - destruct (R _ _ H). auto.
  - destruct (name_number name names); [destruct (R _ _ H); auto|discriminate].
  - destruct (name_number name names) eqn:E; [discriminate|]. inversion H; subst. split; [simpl; lia|]. right. exists name.
    repeat split. apply name_number_none. exact E.
  - inversion H; subst. simpl. auto.
  - inversion H; subst. simpl. auto.
  - inversion H; subst. simpl. auto.
  - destruct frames as [|f [|g fs]]; try discriminate. inversion H; subst. auto.
  - destruct frames as [|f fs]; try discriminate. inversion H; subst. auto.
  - destruct frames as [|[o b [|[[| |] r] l]] fs]; try discriminate. inversion H; subst. auto.
Qed.
Lemma steps_app m l l' : steps m (l ++ l') = let! m' := steps m l in steps m' l'.
Proof. revert m. induction l as [|x l IH]; intro m; [reflexivity|]. cbn [app steps]. destruct (step m x); [apply IH|reflexivity]. Qed.
Lemma step_error m x e : step m x = Err e -> e = ReError.
Proof.
  destruct m as [frames n names]. intro H.
  assert (P : forall p r, put p r (mkReading frames n names) = Err e -> e = ReError).
  { intros p r. unfold put. cbn [rd_frames]. destruct frames; [|discriminate]. intro E; inversion E; reflexivity. }
  assert (R : forall k, refer k (mkReading frames n names) = Err e -> e = ReError).
  { intros k. unfold refer. destruct (_ && _)%bool; [apply P|]. intro E; inversion E; reflexivity. }
  destruct x as [o|a|k|name|[[name|]| |b]| | |lo hi g]; cbn [step rd_frames rd_names rd_next opens] in *.
  - apply (P _ _ H).
  - apply (P _ _ H).
  - apply (R _ H).
  - destruct (name_number name names); [apply (R _ H)|congruence].
  - destruct (name_number name names) eqn:E; congruence.
  - discriminate.
  - discriminate.
  - discriminate.
  - destruct frames as [|f [|g fs]]; congruence.
  - destruct frames as [|f fs]; congruence.
  - destruct frames as [|[o b [|[[| |] r] l]] fs]; congruence.
Qed.
Definition numbers_ok (m : reading) : Prop := NoDup (map snd (rd_names m)) /\ (forall k, In k (map snd (rd_names m)) -> k < rd_next m).
Lemma step_numbers m x m' : step m x = Ok m' -> numbers_ok m -> numbers_ok m'.
Proof.
  intros H [N L]. apply step_names in H. destruct H as (Hle & [[E _]|(n & _ & E & E2 & _)]); unfold numbers_ok; rewrite E.
  - split; [exact N|]. intros k Hk. specialize (L k Hk). lia.
  - cbn [map snd]. split.
    + constructor; [|exact N]. intro K. specialize (L _ K). lia.
    + intros k [Hk|Hk]; [lia|]. specialize (L k Hk). lia.
Qed.
Lemma steps_numbers l : forall m m', steps m l = Ok m' -> numbers_ok m -> numbers_ok m'.
Proof.
  induction l as [|x l IH]; intros m m' H K; cbn [steps] in H; [inversion H; subst; exact K|].
  destruct (step m x) as [m1|] eqn:E; [|discriminate]. apply (IH m1 m' H). apply (step_numbers _ _ _ E K).
Qed.
Lemma steps_frames l : forall m m', steps m l = Ok m' -> rd_frames m <> [] -> rd_frames m' <> [].
Proof.
  induction l as [|x l IH]; intros m m' H K; cbn [steps] in H; [inversion H; subst; exact K|].
  destruct (step m x) as [m1|] eqn:E; [|discriminate]. apply (IH m1 m' H). apply (step_frames _ _ _ K E).
Qed.
(** The names after reading [l]. *)
Lemma steps_names l : forall m m', steps m l = Ok m' -> map fst (rd_names m') = rev (flat_map opens l) ++ map fst (rd_names m).
Proof.
  induction l as [|x l IH]; intros m m' H; cbn [steps] in H; [inversion H; subst; reflexivity|].
  destruct (step m x) as [m1|] eqn:E; [|discriminate]. rewrite (IH m1 m' H). apply step_names in E.
  cbn [flat_map]. destruct E as (_ & [[E E1]|(n & E1 & E & _)]); rewrite E, E1; [reflexivity|].
  cbn [app map fst rev]. rewrite <- app_assoc. reflexivity.
Qed.
Lemma steps_more_names l : forall m m', steps m l = Ok m' -> incl (rd_names m) (rd_names m').
Proof.
  induction l as [|x l IH]; intros m m' H; cbn [steps] in H; [inversion H; subst; apply incl_refl|].
  destruct (step m x) as [m1|] eqn:E; [|discriminate]. apply (incl_tran (m := rd_names m1)); [|apply (IH m1 m' H)].
  apply step_names in E. destruct E as (_ & [[E _]|(n & _ & E & _)]); rewrite E; [apply incl_refl|apply incl_tl, incl_refl].
Qed.
Lemma steps_lift d fs ns l : no_open fs -> forall m m', rd_frames m <> [] -> steps m l = Ok m' -> (forall k, ~ In (SRef k) l) ->
  (forall n, In n (flat_map opens l) -> ~ In n (map fst ns)) -> steps (lift d fs ns m) l = Ok (lift d fs ns m').
Proof.
  intros Hfs. induction l as [|x l IH]; intros m m' Hne H Hr Hn; cbn [steps] in *; [inversion H; subst; reflexivity|].
  destruct (step m x) as [m1|] eqn:E; [|discriminate].
  rewrite (step_lift d fs ns m x m1 Hfs Hne E); cbn [bind].
  - apply IH; [apply (step_frames _ _ _ Hne E)|exact H|intros k K; apply (Hr k); right; exact K|]. intros n K. apply Hn. cbn [flat_map]. apply in_or_app. right. exact K.
  - intros k ->. apply (Hr k). left. reflexivity.
  - intros n K. apply Hn. cbn [flat_map]. apply in_or_app. left. exact K.
Qed.
Lemma steps_clash d fs ns l : no_open fs -> forall m m' n, rd_frames m <> [] -> steps m l = Ok m' -> (forall k, ~ In (SRef k) l) ->
  In n (flat_map opens l) -> In n (map fst ns) -> steps (lift d fs ns m) l = Err ReError.
Proof.
  intros Hfs. induction l as [|x l IH]; intros m m' n Hne H Hr Hn Hc; [destruct Hn|]. cbn [steps] in *.
  destruct (step m x) as [m1|] eqn:E; [|discriminate].
  assert (D : (forall n, In n (opens x) -> ~ In n (map fst ns)) \/ exists n, opens x = [n] /\ In n (map fst ns)).
  { destruct (opens x) as [|y [|z o]] eqn:O.
    - left. intros ? [].
    - destruct (in_dec (list_eq_dec N.eq_dec) y (map fst ns)) as [I|I]; [right; eauto|]. left. intros z [<-|[]]. exact I.
    - destruct x as [| | | |[[?|]| |]| | |]; discriminate O. }
  destruct D as [D|(y & O & I)].
  - rewrite (step_lift d fs ns m x m1 Hfs Hne E); cbn [bind]; [|intros k ->; apply (Hr k); left; reflexivity|exact D].
    cbn [flat_map] in Hn. apply in_app_or in Hn. destruct Hn as [Hn|Hn]; [exfalso; apply (D n Hn Hc)|].
    apply (IH m1 m' n); try assumption; [apply (step_frames _ _ _ Hne E)|]. intros k K. apply (Hr k). right. exact K.
  - destruct x as [| | | |[[z|]| |]| | |]; try discriminate O. inversion O; subst. cbn [step] in E |- *.
    destruct (name_number y (rd_names (lift d fs ns m))) eqn:K; [reflexivity|]. exfalso. apply name_number_none in K. apply K.
    cbn [lift rd_names]. rewrite map_app. apply in_or_app. right. exact I.
Qed.

(** ** One rule, then all rules *)
Lemma alone_inv pattern e : alone pattern e -> exists l m f, lexed pattern = Some (Ok l) /\ steps start l = Ok m /\ rd_frames m = [f] /\ e = (contents f, rd_names m).
Proof.
  unfold alone, re_compile. intro H. apply then_ok in H. destruct H as (l & H1 & H2).
  destruct (steps start l) as [m|] eqn:E; [|discriminate]. cbn [bind] in H2. unfold finish in H2.
  destruct (rd_frames m) as [|f [|g fs]] eqn:F; try discriminate. inversion H2; subst. exists l, m, f. auto.
Qed.
Definition top (before : list re) (last : list (piece * re)) (n : nat) (ns : list (str * nat)) : reading := mkReading [mkFrame OTop before last] n ns.
Lemma top_no_open before last : no_open [mkFrame OTop before last].
Proof. intro k. reflexivity. Qed.
Definition in_group (k : nat) (e : expression) : re := Group k (shift k (fst e)).
Lemma rule_steps r e l before n ns : lexed (sr_pattern r) = Some (Ok l) -> alone (sr_pattern r) e -> (forall k, ~ In (SRef k) l) ->
  (forall x, In x (rule_name r :: names_of e) -> ~ In x (map fst ns)) -> ~ In (rule_name r) (names_of e) ->
  exists n', steps (top before [] n ns) (named_symbols r l) =
    Ok (top before [(PItem, in_group n e)] n' (map (shift_name n) (snd e) ++ (rule_name r, n) :: ns)).
Proof.
  intros Hl He Hr Hx Hown. destruct (alone_inv _ _ He) as (l' & m & f & L & St & F & ->). rewrite Hl in L. inversion L; subst l'. clear L.
  assert (Hns : name_number (rule_name r) ns = None) by (apply name_number_none, Hx; left; reflexivity).
  exists (rd_next m + n).
  unfold named_symbols. cbn [steps]. cbn [step top rd_names rd_frames rd_next]. rewrite Hns. cbn [bind].
  change (mkReading [mkFrame (OCapture n) [] []; mkFrame OTop before []] (S n) ((rule_name r, n) :: ns))
    with (lift n [mkFrame OTop before []] ((rule_name r, n) :: ns) start).
  rewrite steps_app. rewrite (steps_lift n _ _ l (top_no_open _ _) start m); [|discriminate|exact St|exact Hr|].
  - cbn [bind]. unfold lift. rewrite F. cbn [lift_frames app steps step rd_frames rd_names rd_next bind f_opened wrap].
    rewrite shift_contents with (o' := f_opened f). destruct f; reflexivity.
  - intros x K [Kx|Kx].
    + cbn [fst] in Kx. subst x. apply Hown. unfold names_of. cbn [snd]. rewrite (steps_names _ _ _ St). apply in_or_app. left. apply in_rev. rewrite rev_involutive. exact K.
    + apply (Hx x); [|exact Kx]. right. unfold names_of. cbn [snd]. rewrite (steps_names _ _ _ St). apply in_or_app. left. apply in_rev. rewrite rev_involutive. exact K.
Qed.

(** A name used before: rejected. *)
Lemma rule_clash r e l before n ns : lexed (sr_pattern r) = Some (Ok l) -> alone (sr_pattern r) e -> (forall k, ~ In (SRef k) l) ->
  (exists x, In x (rule_name r :: names_of e) /\ In x (map fst ns)) \/ In (rule_name r) (names_of e) ->
  steps (top before [] n ns) (named_symbols r l) = Err ReError.
Proof.
  intros Hl He Hr Hx. destruct (alone_inv _ _ He) as (l' & m & f & L & St & F & ->). rewrite Hl in L. inversion L; subst l'. clear L.
  unfold named_symbols. cbn [steps]. cbn [step top rd_names rd_frames rd_next].
  destruct (name_number (rule_name r) ns) eqn:Hns; [reflexivity|]. cbn [bind].
  change (mkReading [mkFrame (OCapture n) [] []; mkFrame OTop before []] (S n) ((rule_name r, n) :: ns))
    with (lift n [mkFrame OTop before []] ((rule_name r, n) :: ns) start).
  assert (K : exists x, In x (flat_map opens l) /\ In x (map fst ((rule_name r, n) :: ns))).
  { assert (O : forall x, In x (names_of (contents f, rd_names m)) -> In x (flat_map opens l)).
    { intros x I. unfold names_of in I. cbn [snd] in I. rewrite (steps_names _ _ _ St), app_nil_r in I. apply in_rev. exact I. }
    destruct Hx as [(x & [I|I] & J)|I].
    - subst x. exfalso. apply name_number_none in Hns. exact (Hns J).
    - exists x. split; [apply O, I|right; exact J].
    - exists (rule_name r). split; [apply O, I|left; reflexivity]. }
  destruct K as (x & I & J).
  rewrite steps_app, (steps_clash n _ _ l (top_no_open _ _) start m x); [reflexivity|discriminate|exact St|exact Hr|exact I|exact J].
Qed.

Lemma nodup_left {A} (a b : list A) : NoDup (a ++ b) -> NoDup a.
Proof.
  induction a as [|x a IH]; intro H; [constructor|]. inversion H; subst. constructor; [|apply IH; assumption].
  intro K. apply H2. apply in_or_app. left. exact K.
Qed.
Lemma nodup_right {A} (a b : list A) : NoDup (a ++ b) -> NoDup b.
Proof. induction a as [|x a IH]; intro H; [exact H|]. inversion H; subst. apply IH. assumption. Qed.
Definition alternative (k : nat) (e : expression) : re := Seq (in_group k e) Empty.
Definition all_names (rules : list string_rule) (es : list expression) : list str := flat_map (fun '(r, e) => rule_name r :: names_of e) (combine rules es).
Lemma rules_steps rules : forall es ls r e l before n ns,
  Forall2 (fun r l => lexed (sr_pattern r) = Some (Ok l)) (r :: rules) (l :: ls) -> each_alone (r :: rules) (e :: es) -> Forall (fun l => forall k, ~ In (SRef k) l) (l :: ls) ->
  NoDup (all_names (r :: rules) (e :: es)) -> (forall x, In x (all_names (r :: rules) (e :: es)) -> ~ In x (map fst ns)) ->
  exists m before' last ks, steps (top before [] n ns) (joined_symbols (r :: rules) (l :: ls)) = Ok m /\ rd_frames m = [mkFrame OTop before' last] /\
    rev before' ++ [sequence last] = rev before ++ map (fun '(k, e) => alternative k e) (combine ks (e :: es)) /\
    Forall2 (fun k r => In (rule_name r, k) (rd_names m)) ks (r :: rules).
Proof.
  induction rules as [|r' rules IH]; intros es ls r e l before n ns Hl He Hr Hn Hx.
  - inversion Hl as [|? ? ? ? Hl1 Hl2]; subst. inversion He as [|? ? ? ? He1 He2]; subst. inversion Hl2; subst. inversion He2; subst.
    inversion Hr as [|? ? Hr1 _]; subst. unfold all_names in Hn, Hx. cbn [combine flat_map] in Hn, Hx. rewrite app_nil_r in Hn, Hx.
    destruct (rule_steps r e l before n ns Hl1 He1 Hr1 Hx ltac:(inversion Hn; assumption)) as (n' & H).
    cbn [joined_symbols]. rewrite app_nil_r. eexists; exists before, [(PItem, in_group n e)], [n]. split; [exact H|]. split; [reflexivity|].
    split; [reflexivity|]. constructor; [|constructor]. cbn [top rd_names]. apply in_or_app. right. left. reflexivity.
  - inversion Hl as [|? ? ? ? Hl1 Hl2]; subst. inversion He as [|? ? ? ? He1 He2]; subst.
    inversion Hl2 as [|? l' ? ls' Hl3 Hl4]; subst. inversion He2 as [|? e' ? es' He3 He4]; subst.
    inversion Hr as [|? ? Hr1 Hr2]; subst. unfold all_names in Hn, Hx. cbn [combine flat_map] in Hn, Hx.
    assert (N1 : NoDup (rule_name r :: names_of e)) by (apply nodup_left in Hn; exact Hn).
    destruct (rule_steps r e l before n ns Hl1 He1 Hr1) as (n' & H).
    { intros x I. apply Hx. apply in_or_app. left. exact I. }
    { inversion N1; assumption. }
    destruct (IH es' ls' r' e' l' (alternative n e :: before) n' (map (shift_name n) (snd e) ++ (rule_name r, n) :: ns) Hl2 He2 Hr2) as (m & before' & last & ks & S1 & F & B & A).
    { apply nodup_right in Hn. exact Hn. }
    { intros x I J. rewrite map_app, map_map in J. cbn [map fst] in J.
      assert (D : ~ In x (rule_name r :: names_of e)).
      { intro K. clear - Hn I K. revert Hn I K. generalize (rule_name r :: names_of e) as a. unfold all_names. intros a Hn I K.
        cbn [combine flat_map] in I. induction a as [|y a IHa]; [destruct K|]. inversion Hn as [|? ? Hy Hn']; subst.
        destruct K as [->|K]; [apply Hy, in_or_app; right; exact I|apply IHa; assumption]. }
      apply in_app_or in J. destruct J as [J|[J|J]].
      - apply D. right. exact J.
      - apply D. left. exact J.
      - apply (Hx x); [apply in_or_app; right; exact I|exact J]. }
    cbn [joined_symbols]. cbn [joined_symbols] in S1. exists m, before', last, (n :: ks).
    rewrite steps_app, H. cbn [bind steps].
    change (step (top before [(PItem, in_group n e)] n' (map (shift_name n) (snd e) ++ (rule_name r, n) :: ns)) SBar)
      with (@Ok reading (top (alternative n e :: before) [] n' (map (shift_name n) (snd e) ++ (rule_name r, n) :: ns))).
    cbn [bind]. split; [exact S1|]. split; [exact F|]. split.
    + rewrite B. cbn [rev combine map]. rewrite <- app_assoc. reflexivity.
    + constructor; [|exact A]. apply (steps_more_names _ _ _ S1). cbn [top rd_names]. apply in_or_app. right. left. reflexivity.
Qed.

(** Some name used twice: rejected. *)
Lemma rules_clash rules : forall es ls r e l before n ns,
  Forall2 (fun r l => lexed (sr_pattern r) = Some (Ok l)) (r :: rules) (l :: ls) -> each_alone (r :: rules) (e :: es) -> Forall (fun l => forall k, ~ In (SRef k) l) (l :: ls) ->
  Forall (fun e => NoDup (names_of e)) (e :: es) ->
  ~ (NoDup (all_names (r :: rules) (e :: es)) /\ (forall x, In x (all_names (r :: rules) (e :: es)) -> ~ In x (map fst ns))) ->
  steps (top before [] n ns) (joined_symbols (r :: rules) (l :: ls)) = Err ReError.
Proof.
  induction rules as [|r' rules IH]; intros es ls r e l before n ns Hl He Hr Hd Hc;
    inversion Hl as [|? ? ? ? Hl1 Hl2]; subst; inversion He as [|? ? ? ? He1 He2]; subst; inversion Hr as [|? ? Hr1 Hr2]; subst;
    inversion Hd as [|? ? Hd1 Hd2]; subst;
    (assert (D : (exists x, In x (rule_name r :: names_of e) /\ In x (map fst ns)) \/ ~ (exists x, In x (rule_name r :: names_of e) /\ In x (map fst ns)));
     [destruct (Exists_dec (fun x => In x (map fst ns)) (rule_name r :: names_of e) (fun x => in_dec (list_eq_dec N.eq_dec) x _)) as [X|X];
      rewrite Exists_exists in X; [left|right]; exact X|]);
    assert (D2 := in_dec (list_eq_dec N.eq_dec) (rule_name r) (names_of e));
    cbn [joined_symbols]; rewrite steps_app;
    (destruct D as [D|D]; [rewrite (rule_clash r e l before n ns Hl1 He1 Hr1 (or_introl D)); reflexivity|]);
    (destruct D2 as [D2|D2]; [rewrite (rule_clash r e l before n ns Hl1 He1 Hr1 (or_intror D2)); reflexivity|]).
  - exfalso. apply Hc. inversion He2; subst. unfold all_names. cbn [combine flat_map]. rewrite app_nil_r. split; [constructor; assumption|].
    intros x I J. apply D. exists x. auto.
  - inversion Hl2 as [|? l' ? ls' Hl3 Hl4]; subst. inversion He2 as [|? e' ? es' He3 He4]; subst.
    destruct (rule_steps r e l before n ns Hl1 He1 Hr1) as (n' & H); [intros x I J; apply D; exists x; auto|exact D2|].
    rewrite H. cbn [bind steps].
    change (step (top before [(PItem, in_group n e)] n' (map (shift_name n) (snd e) ++ (rule_name r, n) :: ns)) SBar)
      with (@Ok reading (top (alternative n e :: before) [] n' (map (shift_name n) (snd e) ++ (rule_name r, n) :: ns))).
    cbn [bind]. apply (IH es' ls' r' e' l'); try assumption.
    intros [N1 N2]. apply Hc. unfold all_names. cbn [combine flat_map]. fold (all_names (r' :: rules) (e' :: es')).
    change (flat_map (fun '(r0, e0) => rule_name r0 :: names_of e0) ((r', e') :: combine rules es')) with (all_names (r' :: rules) (e' :: es')).
    assert (M : forall x, In x (rule_name r :: names_of e) -> In x (map fst (map (shift_name n) (snd e) ++ (rule_name r, n) :: ns))).
    { intros x I. rewrite map_app, map_map. cbn [map fst]. apply in_or_app. destruct I as [I|I]; [right; left; exact I|left; exact I]. }
    split.
    + assert (A : NoDup (rule_name r :: names_of e)) by (constructor; assumption). revert A M. generalize (rule_name r :: names_of e) as a.
      induction a as [|y a IHa]; intros A M; [exact N1|]. inversion A; subst. cbn [app]. constructor.
      * intro K. apply in_app_or in K. destruct K as [K|K]; [contradiction|]. apply (N2 y K). apply M. left. reflexivity.
      * apply IHa; [assumption|]. intros x I. apply M. right. exact I.
    + intros x I J. apply in_app_or in I. destruct I as [I|I]; [apply D; exists x; auto|].
      apply (N2 x I). rewrite map_app. apply in_or_app. right. right. exact J.
Qed.

(** ** Matching does not depend on the numbers of groups *)
Section Places.
  Variable C : alphabet.
  Variable text : str.
  Definition shift_place (d : nat) (p : place) : place := (fst p, map (fun c => (fst c + d, snd c)) (snd p)).
  Lemma flat_map_shift d (f g : place -> list place) l : (forall p, g (shift_place d p) = map (shift_place d) (f p)) ->
    flat_map g (map (shift_place d) l) = map (shift_place d) (flat_map f l).
  Proof. intro H. induction l as [|p l IH]; [reflexivity|]. cbn [map flat_map]. rewrite H, IH, map_app. reflexivity. Qed.
  Lemma star_shift d greedy (f g : place -> list place) : (forall p, g (shift_place d p) = map (shift_place d) (f p)) ->
    forall n p, star_places greedy g n (shift_place d p) = map (shift_place d) (star_places greedy f n p).
  Proof.
    intros H. induction n as [|n IH]; intro p; [reflexivity|]. cbn [star_places]. rewrite H.
    rewrite (flat_map_shift d (fun q => if fst p <? fst q then star_places greedy f n q else [q])).
    - destruct greedy; [rewrite map_app|]; reflexivity.
    - intro q. cbn [shift_place fst]. change (fst (shift_place d p)) with (fst p). change (fst (shift_place d q)) with (fst q).
      destruct (fst p <? fst q); [apply IH|reflexivity].
  Qed.
  Lemma upto_shift d greedy (f g : place -> list place) : (forall p, g (shift_place d p) = map (shift_place d) (f p)) ->
    forall n p, upto_places greedy g n (shift_place d p) = map (shift_place d) (upto_places greedy f n p).
  Proof.
    intros H. induction n as [|n IH]; intro p; [reflexivity|]. cbn [upto_places]. rewrite H, (flat_map_shift d (upto_places greedy f n) _ _ IH).
    destruct greedy; [rewrite map_app|]; reflexivity.
  Qed.
  Lemma times_shift d (f g f' g' : place -> list place) : (forall p, g (shift_place d p) = map (shift_place d) (f p)) ->
    (forall p, g' (shift_place d p) = map (shift_place d) (f' p)) ->
    forall n p, times_places g g' n (shift_place d p) = map (shift_place d) (times_places f f' n p).
  Proof.
    intros H H'. induction n as [|n IH]; intro p; [apply H'|]. cbn [times_places]. rewrite H. apply flat_map_shift. exact IH.
  Qed.
  Lemma assoc_shift {A} d k (l : list (nat * A)) : assoc (k + d) (map (fun c => (fst c + d, snd c)) l) = assoc k l.
  Proof.
    induction l as [|[k' x] l IH]; [reflexivity|]. cbn [map assoc fst snd].
    destruct (Nat.eqb_spec k k'); destruct (Nat.eqb_spec (k + d) (k' + d)); try lia; try reflexivity; apply IH.
  Qed.
  Lemma places_shift d r : forall p, places C text (shift d r) (shift_place d p) = map (shift_place d) (places C text r p).
  Proof.
    induction r as [|o|a|k|b r IH|a IHa b IHb|a IHa b IHb|lo hi g r IH|k r IH]; intro p; cbn [shift places].
    - reflexivity.
    - cbn [shift_place fst]. destruct (nth_error text (fst p)); [destruct (in_one C o n)|]; reflexivity.
    - cbn [shift_place fst]. destruct (anchored C a text (fst p)); reflexivity.
    - unfold shift_place at 1. cbn [fst snd]. rewrite assoc_shift. destruct (assoc k (snd p)) as [[i j]|]; [|reflexivity].
      unfold shift_place; cbn [fst snd]. destruct (same_text_at _ _ _); reflexivity.
    - rewrite IH. destruct b; destruct (places C text r p) as [|q l]; reflexivity.
    - rewrite IHa. apply flat_map_shift. exact IHb.
    - rewrite IHa, IHb, map_app. reflexivity.
    - apply times_shift; [exact IH|]. destruct hi; intro q; [apply upto_shift|apply star_shift]; exact IH.
    - rewrite IH, !map_map. apply map_ext. intro q. reflexivity.
  Qed.
  Lemma places_alternation before : forall last p, places C text (alternation last before) p = flat_map (fun r => places C text r p) (rev before ++ [last]).
  Proof.
    unfold alternation. induction before as [|r before IH]; intros last p; [symmetry; apply app_nil_r|].
    cbn [fold_left rev]. rewrite IH. rewrite !flat_map_app. cbn [flat_map places]. rewrite !app_nil_r, app_assoc. reflexivity.
  Qed.
  Lemma places_alternative k e i : places C text (alternative k e) (i, []) =
    map (fun q => (fst q, (k, (i, fst q)) :: map (fun c => (fst c + k, snd c)) (snd q))) (places C text (fst e) (i, [])).
  Proof.
    unfold alternative, in_group. cbn [places]. pose proof (places_shift k (fst e) (i, [])) as P.
    change (shift_place k (i, [])) with (i, @nil (nat * (nat * nat))) in P. rewrite P, map_map. clear P. generalize (places C text (fst e) (i, [])). intro l. induction l as [|q l IH]; [reflexivity|].
    cbn [map flat_map app]. rewrite IH. reflexivity.
  Qed.
End Places.

Lemma number_name_in l k n : NoDup (map snd l) -> In (n, k) l -> number_name k l = Some n.
Proof.
  induction l as [|[n' k'] l IH]; intros N I; [destruct I|]. cbn [map snd] in N. inversion N as [|? ? N1 N2]; subst. cbn [number_name].
  destruct I as [I|I].
  - inversion I; subst. rewrite Nat.eqb_refl. reflexivity.
  - destruct (Nat.eqb_spec k k') as [->|]; [|apply IH; assumption]. exfalso. apply N1. apply (in_map snd) in I. exact I.
Qed.
Lemma lookup_name_in l n ty : NoDup (map fst l) -> In (n, ty) l -> lookup_name n l = Some ty.
Proof.
  induction l as [|[n' k'] l IH]; intros N I; [destruct I|]. cbn [map fst] in N. inversion N as [|? ? N1 N2]; subst. cbn [lookup_name].
  destruct I as [I|I].
  - inversion I; subst. rewrite (proj2 (str_eqb_eq n n) eq_refl). reflexivity.
  - destruct (str_eqb n n') eqn:E; [|apply IH; assumption]. apply str_eqb_eq in E. subst. exfalso. apply N1. apply (in_map fst) in I. exact I.
Qed.
