(** Lemmas behind PropTokenizer.v: reconfiguration, priorities, forms, cache,
    taggers, and a concrete character table. *)
From Coq Require String.
From Verif Require Import Base TokenModel TokenizerModel TokenizerSpec TokenizerProofs DefaultProofs TaggerModel.
Open Scope nat_scope.

(** ** A character table: ASCII, Russian letters, a few others *)
Definition shifted (lo hi : N) (up : bool) (d c : N) : list N :=
  if (lo <=? c)%N && (c <=? hi)%N then [if up then (c + d)%N else (c - d)%N] else [].
Definition basic_chars : chars := mkChars
  (fun c => c :: shifted 65 90 true 32 c ++ shifted 97 122 false 32 c ++
            shifted 1040 1071 true 32 c ++ shifted 1072 1103 false 32 c ++
            shifted 1025 1025 true 80 c ++ shifted 1105 1105 false 80 c ++
            shifted 8490 8490 false 8383 c ++ shifted 383 383 false 268 c)
  (fun c => in_ranges [(48, 57); (1632, 1641)]%N c)
  (fun c => in_ranges [(9, 13); (28, 32); (133, 133); (160, 160); (5760, 5760); (8192, 8202); (8232, 8233);
                       (8239, 8239); (8287, 8287); (12288, 12288)]%N c).

Lemma shifted_in lo hi up d c x : In x (shifted lo hi up d c) -> (lo <= c <= hi /\ x = if up then c + d else c - d)%N.
Proof.
  unfold shifted. destruct ((lo <=? c)%N && (c <=? hi)%N) eqn:E; [|intros []]. intros [<-|[]].
  apply andb_prop in E as [E1 E2]. apply N.leb_le in E1, E2. auto.
Qed.
Lemma basic_folds c x : In x (c_folds basic_chars c) ->
  (x = c \/ 65 <= c <= 90 /\ x = c + 32 \/ 97 <= c <= 122 /\ x = c - 32 \/ 1040 <= c <= 1071 /\ x = c + 32 \/
   1072 <= c <= 1103 /\ x = c - 32 \/ c = 1025 /\ x = 1105 \/ c = 1105 /\ x = 1025 \/ c = 8490 /\ x = 107 \/ c = 383 /\ x = 115)%N.
Proof.
  cbn [c_folds basic_chars]. intros [<-|H]; [auto|].
  repeat (apply in_app_or in H as [H|H]); apply shifted_in in H; lia.
Qed.
Lemma in_ranges_iff rs c : in_ranges rs c = true <-> exists a b, In (a, b) rs /\ (a <= c <= b)%N.
Proof.
  unfold in_ranges. rewrite existsb_exists. split.
  - intros ([a b] & H & E). apply andb_prop in E as [E1 E2]. apply N.leb_le in E1, E2. eauto.
  - intros (a & b & H & E). exists (a, b). split; auto. apply andb_true_intro. split; apply N.leb_le; lia.
Qed.
Lemma basic_digit c : digit_char basic_chars c -> (48 <= c <= 57 \/ 1632 <= c <= 1641)%N.
Proof.
  unfold digit_char. cbn [c_digit basic_chars]. rewrite in_ranges_iff.
  intros (a & b & [H|[H|[]]] & E); injection H as <- <-; lia.
Qed.
Lemma basic_space c : ~ visible basic_chars c ->
  (9 <= c <= 13 \/ 28 <= c <= 32 \/ c = 133 \/ c = 160 \/ c = 5760 \/ 8192 <= c <= 8202 \/ c = 8232 \/ c = 8233 \/ c = 8239 \/ c = 8287 \/ c = 12288)%N.
Proof.
  unfold visible. cbn [c_space basic_chars]. intros H.
  assert (E : in_ranges [(9, 13); (28, 32); (133, 133); (160, 160); (5760, 5760); (8192, 8202); (8232, 8233);
                       (8239, 8239); (8287, 8287); (12288, 12288)]%N c = true) by (destruct in_ranges; congruence).
  apply in_ranges_iff in E as (a & b & HI & L). cbn [In] in HI.
  repeat (destruct HI as [HI|HI]; [injection HI as <- <-; lia|]). destruct HI.
Qed.
Lemma basic_ru c : ru_char basic_chars c -> (1040 <= c <= 1103 \/ c = 1025 \/ c = 1105)%N.
Proof. intros (x & F & X). apply basic_folds in F. lia. Qed.
Lemma basic_latin c : latin_char basic_chars c -> (65 <= c <= 90 \/ 97 <= c <= 122 \/ c = 8490 \/ c = 383)%N.
Proof. intros (x & F & X). apply basic_folds in F. lia. Qed.
Lemma visible_dec C c : visible C c \/ ~ visible C c.
Proof. unfold visible. destruct (c_space C c); [right; congruence|left; reflexivity]. Qed.
Lemma basic_sane : sane basic_chars.
Proof.
  constructor.
  - intros c A B. apply basic_ru in A. apply basic_latin in B. lia.
  - intros c A B. apply basic_ru in A. apply basic_digit in B. lia.
  - intros c A B. apply basic_latin in A. apply basic_digit in B. lia.
  - intros c A. destruct (visible_dec basic_chars c) as [V|V]; auto. apply basic_ru in A. apply basic_space in V. lia.
  - intros c A. destruct (visible_dec basic_chars c) as [V|V]; auto. apply basic_latin in A. apply basic_space in V. lia.
  - intros c A. destruct (visible_dec basic_chars c) as [V|V]; auto. apply basic_digit in A. apply basic_space in V. lia.
  - intros c (x & F & X). destruct (visible_dec basic_chars c) as [V|V]; auto. apply basic_space in V. apply basic_folds in F. cbn [In] in X. lia.
  - intros c (x & F & X) V. apply basic_folds in F. unfold visible in V. cbn [c_space basic_chars] in V.
    assert (E : in_ranges [(9, 13); (28, 32); (133, 133); (160, 160); (5760, 5760); (8192, 8202); (8232, 8233);
                       (8239, 8239); (8287, 8287); (12288, 12288)]%N c = true); [|congruence].
    apply in_ranges_iff. exists 9%N, 13%N. split; [left; auto|lia].
  - discriminate.
Qed.

(** ** Configurations *)
Lemma compile_patterns_spec : forall rules seen ps, compile_patterns seen rules = Ok ps ->
  Forall2 (fun r p => fst p = r_type r /\ r_pattern r = Some (snd p)) rules ps.
Proof.
  induction rules as [|r rules IH]; intros seen ps H; cbn [compile_patterns] in H.
  - injection H as <-. constructor.
  - destruct (r_pattern r) as [p|] eqn:E; [|discriminate]. destruct (existsb (Nat.eqb (r_id r)) seen); [discriminate|].
    destruct (compile_patterns (r_id r :: seen) rules) as [ps'|] eqn:F; [|discriminate]. cbn [bind] in H. injection H as <-.
    constructor; eauto.
Qed.
Lemma compile_patterns_err : forall rules seen e, compile_patterns seen rules = Err e -> e = ReError.
Proof.
  induction rules as [|r rules IH]; intros seen e H; cbn [compile_patterns] in H; [discriminate|].
  destruct (r_pattern r); [|congruence]. destruct (existsb (Nat.eqb (r_id r)) seen); [congruence|].
  destruct (compile_patterns (r_id r :: seen) rules) eqn:F; [discriminate|]. cbn [bind] in H. injection H as <-. eauto.
Qed.
Lemma assert_rules_ok : forall args rs, assert_rules args = Ok rs <-> args = map Some rs.
Proof.
  induction args as [|[r|] args IH]; intros rs; cbn [assert_rules].
  - split; intros H; [injection H as <-; reflexivity|destruct rs; [reflexivity|discriminate]].
  - destruct (assert_rules args) as [rs'|e] eqn:E; cbn [bind].
    + split; intros H.
      * injection H as <-. cbn. f_equal. apply IH. reflexivity.
      * destruct rs as [|r' rs]; [discriminate|]. injection H as <- H. apply IH in H. congruence.
    + split; intros H; [discriminate|]. destruct rs as [|r' rs]; [discriminate|]. injection H as <- H. apply IH in H. discriminate.
  - split; intros H; [discriminate|]. destruct rs; discriminate.
Qed.
Lemma assert_rules_err : forall args e, assert_rules args = Err e <-> e = TypeError /\ In None args.
Proof.
  induction args as [|[r|] args IH]; intros e; cbn [assert_rules].
  - split; [discriminate|intros [_ []]].
  - destruct (assert_rules args) as [rs'|e'] eqn:E; cbn [bind].
    + split; [discriminate|]. intros [-> [H|H]]; [discriminate|].
      assert (K : Ok rs' = Err TypeError) by (apply IH; auto). discriminate.
    + split; intros H.
      * injection H as <-. destruct (proj1 (IH e') eq_refl) as [-> HI]. split; [auto|right; auto].
      * destruct H as [-> [H|H]]; [discriminate|]. assert (K : Err e' = Err TypeError) by (apply IH; auto). congruence.
  - split; intros H; [injection H as <-; split; [auto|left; auto]|destruct H as [-> _]; reflexivity].
Qed.

Lemma reset_ok t args t' : reset t args = (t', Ok tt) -> compiled t' /\ args = map Some (tk_rules t').
Proof.
  unfold reset, compile. destruct (assert_rules args) as [rules|e] eqn:A; [|intros H; discriminate H].
  destruct (compile_patterns [] rules) as [ps|e] eqn:E; cbn [bind]; intros H; [injection H as <-|discriminate H].
  apply assert_rules_ok in A. split; [|exact A]. split; [reflexivity|]. cbn. eapply compile_patterns_spec; eauto.
Qed.
Lemma reset_err t args t' e : reset t args = (t', Err e) ->
  (e = TypeError /\ t' = t) \/ (e = ReError /\ tk_regexp t' = tk_regexp t /\ tk_types t' = tk_types t /\ args = map Some (tk_rules t')).
Proof.
  unfold reset, compile. destruct (assert_rules args) as [rules|e'] eqn:A.
  - destruct (compile_patterns [] rules) as [ps|e'] eqn:E; cbn [bind]; intros H; [discriminate H|injection H as <- <-]. apply compile_patterns_err in E. apply assert_rules_ok in A. right. auto.
  - intros H. injection H as <- <-. left. apply assert_rules_err in A as [-> _]. auto.
Qed.

(** Sequences of operations on one tokenizer. *)
Lemma add_rules_ok : forall t args t', add_rules t args = (t', Ok tt) ->
  compiled t' /\ exists rs, args = map Some rs /\ tk_rules t' = rs ++ tk_rules t.
Proof.
  intros t args t' H. apply reset_ok in H as [C E]. split; auto.
  revert args E. generalize (tk_rules t'). intros l args E.
  assert (L : length args <= length l).
  { apply (f_equal (@length _)) in E. rewrite app_length, !map_length in E. lia. }
  exists (firstn (length args) l).
  assert (E1 : map Some (firstn (length args) l) = args).
  { rewrite <- firstn_map, <- E, firstn_app, Nat.sub_diag, firstn_all. cbn. apply app_nil_r. }
  assert (E2 : map Some (skipn (length args) l) = map Some (tk_rules t)).
  { rewrite <- skipn_map, <- E, skipn_app, Nat.sub_diag, skipn_all. reflexivity. }
  split; [auto|]. rewrite <- (firstn_skipn (length args) l) at 1. f_equal.
  clear - E2. revert E2. generalize (skipn (length args) l), (tk_rules t).
  induction l0 as [|a l0 IH]; intros [|b l1] E; try discriminate; [reflexivity|]. injection E as -> E. f_equal. auto.
Qed.
Lemma check_types_iff t : forall types, (check_types t types = Ok tt <-> forall ty, In ty types -> In ty (tk_types t)) /\
  (forall e, check_types t types = Err e -> e = ValueError /\ exists ty, In ty types /\ ~ In ty (tk_types t)).
Proof.
  assert (SI : forall x l, str_in x l = true <-> In x l).
  { intros x l. unfold str_in. rewrite existsb_exists. split.
    - intros (y & H & E). unfold str_eqb in E. destruct (list_eq_dec N.eq_dec x y); [subst; auto|discriminate].
    - intros H. exists x. split; auto. unfold str_eqb. destruct (list_eq_dec N.eq_dec x x); congruence. }
  induction types as [|ty types [IH1 IH2]]; cbn [check_types].
  - split; [split; [intros _ ? []|auto]|discriminate].
  - unfold check_type. destruct (str_in ty (tk_types t)) eqn:E; cbn [bind].
    + apply SI in E. split.
      * rewrite IH1. split; intros H; [intros x [<-|HX]; auto|intros; apply H; right; auto].
      * intros e H. destruct (IH2 e H) as (-> & x & A & B). split; auto. exists x. split; [right|]; auto.
    + assert (NI : ~ In ty (tk_types t)) by (intros HI; apply SI in HI; congruence). split.
      * split; [discriminate|]. intros H. destruct NI. apply H. left. auto.
      * intros e H. injection H as <-. split; auto. exists ty. split; [left|]; auto.
Qed.
Lemma remove_types_spec : forall t types, 
  ((exists ty, In ty types /\ ~ In ty (tk_types t)) -> remove_types t types = (t, Err ValueError)) /\
  (forall t', remove_types t types = (t', Ok tt) ->
     compiled t' /\ tk_rules t' = filter (fun r => negb (str_in (r_type r) types)) (tk_rules t)).
Proof.
  intros t types. destruct (check_types_iff t types) as [C1 C2]. split.
  - intros (ty & A & B). unfold remove_types. destruct (check_types t types) as [[]|e] eqn:E.
    + destruct B. apply C1; auto.
    + destruct (C2 e eq_refl) as [-> _]. reflexivity.
  - intros t' H. unfold remove_types in H. destruct (check_types t types) as [[]|e]; [|discriminate H].
    apply reset_ok in H as [C E]. split; auto.
    clear - E. revert E. generalize (tk_rules t'), (filter (fun r => negb (str_in (r_type r) types)) (tk_rules t)).
    induction l as [|a l IH]; intros [|b l1] E; try discriminate; [reflexivity|]. injection E as -> E. f_equal. auto.
Qed.

(** Removing the rules of some types leaves the tokenizer able to tokenize. *)
Lemma compile_filter f : forall rules seen seen' ps, compile_patterns seen rules = Ok ps -> incl seen' seen ->
  exists ps', compile_patterns seen' (filter f rules) = Ok ps'.
Proof.
  induction rules as [|r rules IH]; intros seen seen' ps H I; cbn [compile_patterns filter] in *; [eauto|].
  destruct (r_pattern r) as [p|] eqn:E; [|discriminate]. destruct (existsb (Nat.eqb (r_id r)) seen) eqn:S; [discriminate|].
  destruct (compile_patterns (r_id r :: seen) rules) as [ps0|] eqn:F; [|discriminate].
  assert (S' : existsb (Nat.eqb (r_id r)) seen' = false).
  { destruct (existsb (Nat.eqb (r_id r)) seen') eqn:S'; auto. apply existsb_exists in S' as (x & X1 & X2).
    assert (existsb (Nat.eqb (r_id r)) seen = true) by (apply existsb_exists; exists x; split; auto). congruence. }
  destruct (f r); cbn [compile_patterns].
  - rewrite E, S'. destruct (IH _ (r_id r :: seen') _ F) as [ps' ->]; [|cbn [bind]; eauto].
    intros x [<-|HX]; [left; auto|right; auto].
  - eapply IH; eauto. intros x HX. right. auto.
Qed.

(** ** Priorities *)
Lemma first_rule text i (f : nat * option str -> bool) : forall rules ps e ty rest,
  Forall2 (fun r p => fst p = r_type r /\ r_pattern r = Some (snd p)) rules ps ->
  filter f (flat_map (fun '(ty, p) => map (fun j => (j, Some ty)) (ends text p i)) ps) = (e, ty) :: rest ->
  exists before r after p, rules = before ++ r :: after /\ ty = Some (r_type r) /\ r_pattern r = Some p /\ In e (ends text p i) /\
    forall r' p' j, In r' before -> r_pattern r' = Some p' -> In j (ends text p' i) -> f (j, Some (r_type r')) = false.
Proof.
  intros rules ps e ty rest H. induction H as [|r [ty' p] rules ps [E1 E2] H IH]; intros F; [discriminate|].
  cbn [fst snd] in *. subst ty'. cbn [flat_map] in F. rewrite filter_app in F.
  destruct (filter f (map (fun j => (j, Some (r_type r))) (ends text p i))) as [|c l] eqn:FE.
  - cbn [app] in F. destruct (IH F) as (before & r1 & after & p1 & A1 & A2 & A3 & A4 & A5).
    exists (r :: before), r1, after, p1. split; [cbn; congruence|]. split; auto. split; auto. split; auto.
    intros r' p' j [<-|HR] EP HJ; [|eapply A5; eauto].
    rewrite E2 in EP. injection EP as <-. destruct (f (j, Some (r_type r))) eqn:FJ; auto.
    assert (K : In (j, Some (r_type r)) (filter f (map (fun j => (j, Some (r_type r))) (ends text p i)))).
    { apply filter_In. split; auto. apply in_map_iff. eauto. }
    rewrite FE in K. destruct K.
  - cbn [app] in F. injection F as -> _.
    assert (K : In (e, ty) (filter f (map (fun j => (j, Some (r_type r))) (ends text p i)))) by (rewrite FE; left; auto).
    apply filter_In in K as [K _]. apply in_map_iff in K as (j & EJ & K). injection EJ as -> <-.
    exists [], r, rules, p. repeat split; auto. intros r' p' j [].
Qed.

Lemma nil_no_match t text must k r j : compiled t -> tk_rules t <> [] -> candidates t text must k = [] ->
  In r (tk_rules t) -> k < j -> ~ matches_at text r k j.
Proof.
  intros [_ CP] NE E HR KJ (p & EP & HJ).
  assert (IP : In (r_type r, p) (tk_regexp t)).
  { clear - CP HR EP. induction CP as [|r0 [ty0 p0] rules ps [E1 E2] H IH]; [destruct HR|]. destruct HR as [->|HR].
    - cbn in *. left. congruence.
    - right. auto. }
  assert (K : In (j, Some (r_type r)) (candidates t text must k)).
  { unfold candidates. apply filter_In. split.
    - unfold alternatives. destruct (tk_regexp t) as [|q ps] eqn:ET; [destruct IP|].
      apply in_flat_map. exists (r_type r, p). split; auto. apply in_map_iff. eauto.
    - cbn [fst]. destruct (Nat.eqb_spec j k); [lia|]. rewrite andb_false_r. reflexivity. }
  rewrite E in K. destruct K.
Qed.
Lemma cons_chosen t text must i s e ty rest : compiled t -> tk_rules t <> [] ->
  candidates t text (must_at must i s) s = (e, ty) :: rest ->
  (forall k, i <= k < s -> candidates t text (must_at must i k) k = []) ->
  exists ty', ty = Some ty' /\ chosen (tk_rules t) text i s e ty'.
Proof.
  intros CT NE A1 A2. pose proof CT as [_ CP].
  assert (F := A1). unfold candidates, alternatives in F.
  destruct (tk_regexp t) as [|q ps] eqn:ET; [inversion CP; congruence|].
  destruct (first_rule text s _ (tk_rules t) (q :: ps) e ty rest CP F) as (before & r & after & p & B1 & B2 & B3 & B4 & B5).
  exists (r_type r). split; auto. split.
  - exists before, r, after. split; auto. split; auto. split; [exists p; auto|].
    intros r' j HR SJ (p' & EP & HJ). specialize (B5 r' p' j HR EP HJ). cbn [fst] in B5.
    destruct (Nat.eqb_spec j s); [lia|]. rewrite andb_false_r in B5. discriminate.
  - intros r' k j HR K KJ. eapply nil_no_match; eauto.
Qed.

Lemma lexed_chosen t text : compiled t -> tk_rules t <> [] -> forall must i l, lexed t text must i l ->
  exists ts, mapM (make_token text) l = Ok ts /\ all_chosen (tk_rules t) text i ts.
Proof.
  intros CT NE must i l H. induction H as [must i L N|must i s e o rest l L1 L2 A1 A2 H IH].
  - exists []. split; [reflexivity|]. cbn [all_chosen]. intros r k j HR K KJ. eapply nil_no_match; eauto.
  - destruct IH as (ts & M & CH). destruct (cons_chosen t text must i s e o rest CT NE A1 A2) as (ty & -> & CS).
    eexists. split; [cbn [mapM make_token bind]; rewrite M; reflexivity|]. cbn [all_chosen t_start t_stop t_type]. exists s, e. auto.
Qed.
Lemma leftmost_first : forall t text fuel r, compiled t -> tk_rules t <> [] -> tokenize fuel t text = Some r ->
  exists ts, r = Ok ts /\ all_chosen (tk_rules t) text 0 ts.
Proof.
  intros t text fuel r CT NE H. unfold tokenize in H. destruct (finditer fuel t text false 0) as [l|] eqn:F; [|discriminate].
  injection H as <-. apply finditer_lexed in F; [|lia]. eapply lexed_chosen in F; eauto.
Qed.

Lemma empty_tokenizer_raises : forall t text fuel r, tk_regexp t = [] -> tokenize fuel t text = Some r -> r = Err KeyError.
Proof.
  intros t text fuel r E H. unfold tokenize in H. destruct fuel as [|fuel]; cbn [finditer] in H.
  - unfold search in H. destruct (length text - 0); unfold candidates, alternatives in H; rewrite E in H; cbn in H; discriminate.
  - assert (SE : search t text false (length text - 0) 0 = Some (0, 0, None)).
    { unfold search. destruct (length text - 0); unfold candidates, alternatives; rewrite E; reflexivity. }
    rewrite SE in H. destruct (finditer fuel t text (Nat.eqb 0 0) 0); [|discriminate]. injection H as <-. reflexivity.
Qed.

(** ** Failed reconfiguration *)
Lemma failed_add : forall t args t' e, add_rules t args = (t', Err e) ->
  (e = TypeError /\ t' = t) \/
  (e = ReError /\ (forall fuel text, tokenize fuel t' text = tokenize fuel t text) /\ (forall ty, check_type t' ty = check_type t ty)).
Proof.
  intros t args t' e H. apply reset_err in H as [[-> ->]|(-> & E1 & E2 & _)]; [left; auto|]. right. split; auto. split.
  - intros fuel text. unfold tokenize.
    assert (SE : forall n must i, search t' text must n i = search t text must n i).
    { induction n as [|n IH]; intros must i; cbn [search]; unfold candidates, alternatives; rewrite E1; [reflexivity|].
      rewrite IH. reflexivity. }
    assert (FE : forall f must i, finditer f t' text must i = finditer f t text must i).
    { induction f as [|f IH]; intros must i; cbn [finditer]; rewrite SE; [reflexivity|].
      destruct (search t text must (length text - i) i) as [[[s e'] ty]|]; [|reflexivity]. rewrite IH. reflexivity. }
    rewrite FE. reflexivity.
  - intros ty. unfold check_type. rewrite E2. reflexivity.
Qed.
Definition bad_rule := mkRule 9 (str_of "BAD") None.
Lemma failed_add_refutes :
  exists t args t' types, new_tokenizer (map Some (RULES basic_chars)) = Ok t /\ add_rules t args = (t', Err ReError) /\
    snd (remove_types t types) = Ok tt /\ snd (remove_types t' types) = Err ReError.
Proof.
  exists (D basic_chars), [Some bad_rule]. eexists. exists [INT].
  split; [reflexivity|]. split; [reflexivity|]. split; reflexivity.
Qed.

(** ** Forms *)
Lemma morph_tokens : forall morph fuel t text r, morph_tokenize morph fuel t text = Some r ->
  exists r0, tokenize fuel t text = Some r0 /\
  match r0, r with
  | Err e, Err e' => e = e'
  | Ok l, Ok l' => Forall2 (fun a b => t_value b = t_value a /\ t_start b = t_start a /\ t_stop b = t_stop a /\ t_type b = t_type a /\
      t_tag b = None /\ t_forms b = if list_eq_dec N.eq_dec (t_type a) RU then Some (morph (t_value a)) else None) l l'
  | _, _ => False
  end.
Proof.
  intros morph fuel t text r H. unfold morph_tokenize in H. destruct (tokenize fuel t text) as [r0|] eqn:T; [|discriminate].
  injection H as <-. exists r0. split; auto. destruct r0 as [l|e]; [|reflexivity]. cbn [bind].
  assert (NF : forall a, In a l -> t_tag a = None /\ t_forms a = None).
  { unfold tokenize in T. destruct (finditer fuel t text false 0) as [ms|]; [|discriminate]. injection T as T.
    apply mapM_forall2 in T. clear - T. induction T as [|[[s e] [ty|]] a ms l M T IH]; intros x [].
    - subst x. cbn in M. injection M as <-. split; reflexivity.
    - auto.
    - cbn in M. discriminate.
    - auto. }
  clear T. induction l as [|a l IH]; [constructor|]. cbn [map]. constructor; [|apply IH; intros; apply NF; right; auto].
  destruct (NF a (or_introl eq_refl)) as [N1 N2].
  unfold morph_token, str_eqb. destruct (list_eq_dec N.eq_dec (t_type a) RU); cbn; auto 10.
Qed.

(** ** The cache *)
Section Cache.
  Variable size : nat.
  Variable raw_parse : nat -> str -> list (str * list str * nat).
  Definition cache_ok (c : cache) : Prop :=
    length c <= size /\ forall self w v, In ((self, w), v) c -> v = analyze (raw_parse self) w.
  Lemma cache_get_in k c v : cache_get k c = Some v -> In (k, v) c.
  Proof.
    induction c as [|[k' v'] c IH]; cbn [cache_get]; [discriminate|].
    destruct (key_eqb k k') eqn:E; [|right; auto]. intros H. injection H as ->. left.
    unfold key_eqb in E. apply andb_prop in E as [E1 E2]. apply Nat.eqb_eq in E1. unfold str_eqb in E2.
    destruct (list_eq_dec N.eq_dec (snd k) (snd k')); [|discriminate]. destruct k, k'; cbn in *. congruence.
  Qed.
  Lemma key_refl k : key_eqb k k = true.
  Proof. unfold key_eqb, str_eqb. rewrite Nat.eqb_refl. destruct (list_eq_dec N.eq_dec (snd k) (snd k)); [reflexivity|congruence]. Qed.
  Lemma remove_shorter k c v : cache_get k c = Some v -> length (cache_remove k c) < length c.
  Proof.
    intros H. apply cache_get_in in H. unfold cache_remove. induction c as [|e c IH]; [destruct H|]. cbn [filter].
    assert (LE : forall c0 : cache, length (filter (fun e => negb (key_eqb k (fst e))) c0) <= length c0).
    { induction c0 as [|x c0 IH0]; cbn [filter length]; [lia|]. destruct (negb (key_eqb k (fst x))); cbn [length]; lia. }
    destruct H as [->|H].
    - cbn [fst]. rewrite key_refl. cbn [negb length]. specialize (LE c). lia.
    - destruct (negb (key_eqb k (fst e))); cbn [length]; [apply IH in H; lia|]. specialize (LE c). lia.
  Qed.
  Lemma cache_step self w c : cache_ok c ->
    cache_ok (fst (cached_analyze size raw_parse self w c)) /\ snd (cached_analyze size raw_parse self w c) = analyze (raw_parse self) w.
  Proof.
    intros [L V]. unfold cached_analyze. destruct (cache_get (self, w) c) as [v|] eqn:G; cbn [fst snd].
    - assert (EV : v = analyze (raw_parse self) w) by (apply V; apply cache_get_in; auto). split; auto. split.
      + cbn [length]. apply remove_shorter in G. lia.
      + intros s' w' v' [H|H]; [injection H as <- <- <-; auto|]. apply filter_In in H as [H _]. auto.
    - split; auto. split; [apply firstn_le_length|].
      intros s' w' v' H.
      assert (H' : In ((s', w'), v') (((self, w), analyze (raw_parse self) w) :: c)).
      { rewrite <- (firstn_skipn size). apply in_or_app. left. exact H. }
      destruct H' as [H'|H']; [injection H' as <- <- <-; auto|auto].
  Qed.
  Lemma lookups_spec : forall h c, cache_ok c ->
    cache_ok (fst (lookups size raw_parse h c)) /\ snd (lookups size raw_parse h c) = map (fun '(self, w) => analyze (raw_parse self) w) h.
  Proof.
    induction h as [|[self w] h IH]; intros c OK; [split; auto|]. cbn [lookups map].
    pose proof (cache_step self w c OK) as [K1 K2]. destruct (cached_analyze size raw_parse self w c) as [c1 v]. cbn [fst snd] in *.
    specialize (IH c1 K1). destruct (lookups size raw_parse h c1) as [c2 vs]. cbn [fst snd] in *. destruct IH as [A B]. split; auto. congruence.
  Qed.
End Cache.
Lemma normal_forms_of : forall raw_parse word n,
  In n (analyze_normalized raw_parse word) <-> exists grams raw, In (n, grams, raw) (raw_parse word).
Proof.
  intros raw_parse word n. unfold analyze_normalized, analyze. rewrite map_map, in_map_iff. split.
  - intros ([[m g] r] & <- & H). exists g, r. exact H.
  - intros (g & r & H). exists (n, g, r). split; [reflexivity|exact H].
Qed.

Lemma cache_transparent : forall size raw_parse h,
  Forall2 (fun '(self, w) forms => Forall2 (fun '(normal, grams, raw) f => f_normalized f = normal /\ f_grams f = grams /\ f_raw f = raw) (raw_parse self w) forms)
    h (snd (lookups size raw_parse h [])) /\
  length (fst (lookups size raw_parse h [])) <= size.
Proof.
  intros size raw h. destruct (lookups_spec size raw h []) as [[A _] B]; [split; [cbn; lia|intros ? ? ? []]|]. split; [|exact A]. rewrite B.
  clear. induction h as [|[self w] h IH]; constructor; [|exact IH]. unfold analyze. induction (raw self w) as [|[[n g] r] l IHl]; constructor; [|exact IHl]. cbn. auto.
Qed.

(** ** Taggers *)
Lemma taggers_in_order :
  (forall tokens, tagger_call PassTagger tokens = tokens) /\
  (forall tokens, tagger_call (TaggersComposition []) tokens = tokens) /\
  (forall t ts tokens, tagger_call (TaggersComposition (t :: ts)) tokens = tagger_call (TaggersComposition ts) (tagger_call t tokens)) /\
  (forall ts tag, tagger_check (TaggersComposition ts) tag = true <-> exists t, In t ts /\ tagger_check t tag = true).
Proof.
  repeat split; try reflexivity; cbn [tagger_check]; rewrite existsb_exists; auto.
Qed.
Lemma tagging_keeps : forall t tag,
  t_value (tagged t tag) = t_value t /\ t_start (tagged t tag) = t_start t /\ t_stop (tagged t tag) = t_stop t /\
  t_type (tagged t tag) = t_type t /\ t_forms (tagged t tag) = t_forms t /\ t_tag (tagged t tag) = Some tag /\
  (forall fs, t_forms t <> None -> exists t', constrained (tagged t tag) fs = Ok t' /\ t_tag t' = Some tag /\ t_forms t' = Some fs /\
     t_value t' = t_value t /\ t_start t' = t_start t /\ t_stop t' = t_stop t /\ t_type t' = t_type t).
Proof.
  intros t tag. repeat (split; [reflexivity|]). intros fs H. unfold constrained, tagged. cbn [t_forms].
  destruct (t_forms t); [|congruence]. eexists. split; [reflexivity|]. repeat split.
Qed.

Lemma removal_works : forall args t types, new_tokenizer args = Ok t -> (forall ty, In ty types -> In ty (tk_types t)) ->
  exists t', remove_types t types = (t', Ok tt).
Proof.
  intros args t types H K. unfold new_tokenizer in H. destruct (reset (mkTokenizer [] [] []) args) as [t0 [[]|e]] eqn:R; [|discriminate].
  cbn [bind] in H. injection H as <-. unfold remove_types. destruct (check_types_iff t0 types) as [C1 _].
  rewrite (proj2 C1 K). unfold reset in R |- *. destruct (assert_rules args) as [rules|]; [|discriminate].
  unfold compile in R. destruct (compile_patterns [] rules) as [ps|] eqn:P; [|discriminate]. cbn [bind] in R. injection R as <-.
  cbn [tk_rules]. rewrite (proj2 (assert_rules_ok _ _) eq_refl).
  destruct (compile_filter (fun r => negb (str_in (r_type r) types)) rules [] [] ps P) as [ps' E]; [intros ? []|].
  unfold compile. rewrite E. cbn [bind]. eauto.
Qed.
Lemma new_compiled : forall args t, new_tokenizer args = Ok t -> compiled t /\ args = map Some (tk_rules t).
Proof.
  intros args t H. unfold new_tokenizer in H. destruct (reset (mkTokenizer [] [] []) args) as [t0 [[]|e]] eqn:R; [|discriminate].
  cbn [bind] in H. injection H as <-. apply reset_ok in R. exact R.
Qed.
Lemma empty_tokenizer_refutes : exists t t' r, new_tokenizer (map Some (RULES basic_chars)) = Ok t /\
  remove_types t (tk_types t) = (t', Ok tt) /\ tokenize 10 t' (str_of "a") = Some (Err r).
Proof. exists (D basic_chars). eexists. exists KeyError. split; [reflexivity|]. split; reflexivity. Qed.
