(** Proofs about the rules for e-mail addresses and phone numbers. *)
From Verif Require Import Base TokenModel TokenizerModel TokenizerSpec TokenizerProofs DefaultProofs TokenizerTheorems PieceSpec PieceTokens EmailSpec.
Open Scope nat_scope.

(** ** What an expression matches *)
Inductive spells : regex -> str -> Prop :=
| sp_empty : spells REmpty []
| sp_set c x : c x = true -> spells (RSet c) [x]
| sp_seq a b u v : spells a u -> spells b v -> spells (RSeq a b) (u ++ v)
| sp_left a b u : spells a u -> spells (RAlt a b) u
| sp_right a b u : spells b u -> spells (RAlt a b) u
| sp_stop g a : spells (RStar g a) []
| sp_more g a u v : spells a u -> spells (RStar g a) v -> spells (RStar g a) (u ++ v)
| sp_assert h : spells (RAssert h) [].

Lemma slice_nil text i : slice text i i = [].
Proof. unfold slice. rewrite Nat.sub_diag. reflexivity. Qed.
Lemma slice_app text i k j : i <= k <= j -> j <= length text -> slice text i j = slice text i k ++ slice text k j.
Proof.
  intros H L. unfold slice. replace (j - i) with ((k - i) + (j - k)) by lia.
  replace (skipn k text) with (skipn (k - i) (skipn i text)) by (rewrite skipn_skipn; f_equal; lia).
  generalize (skipn i text) as l, (k - i) as a, (j - k) as b. clear. intros l a. revert l. induction a as [|a IH]; intros l b; [reflexivity|].
  destruct l as [|x l]; cbn; [destruct b; reflexivity|]. f_equal. apply IH.
Qed.
Lemma slice_one text i x : nth_error text i = Some x -> slice text i (S i) = [x].
Proof.
  intros E. unfold slice. replace (S i - i) with 1 by lia. revert text E. induction i as [|i IH]; intros [|y text] E; try discriminate; cbn in *; [congruence|auto].
Qed.
Lemma star_spells g a text : (forall i j, i <= length text -> In j (ends text a i) -> spells a (slice text i j)) ->
  forall fuel i j, i <= length text -> In j (star_ends g (ends text a) fuel i) -> spells (RStar g a) (slice text i j).
Proof.
  intros B. induction fuel as [|fuel IH]; intros i j L H; cbn [star_ends] in H.
  - destruct H as [<-|[]]. rewrite slice_nil. constructor.
  - assert (X : j = i \/ In j (flat_map (fun j => if i <? j then star_ends g (ends text a) fuel j else [j]) (ends text a i))) by (destruct g; [apply in_app_or in H as [H|[<-|[]]]; auto|destruct H as [<-|H]; auto]).
    clear H. destruct X as [->|H]; [rewrite slice_nil; constructor|]. apply in_flat_map in H as (k & K & H). pose proof (ends_range _ _ _ _ L K) as R.
    destruct (i <? k) eqn:E.
    + pose proof (star_range g (ends text a) (length text) (fun x y => ends_range text a x y) fuel k j ltac:(lia) H) as R'. rewrite (slice_app text i k j); [|lia|lia]. constructor; [apply B; auto|apply IH; auto; lia].
    + destruct H as [<-|[]]. rewrite <- (app_nil_r (slice text i k)). constructor; [apply B; auto|constructor].
Qed.
Theorem ends_spells text : forall r i j, i <= length text -> In j (ends text r i) -> spells r (slice text i j).
Proof.
  induction r; intros i j L H; cbn [ends] in H.
  - destruct H as [<-|[]]. rewrite slice_nil. constructor.
  - destruct (nth_error text i) as [x|] eqn:E; [|destruct H]. destruct (c x) eqn:CX; [|destruct H]. destruct H as [<-|[]]. rewrite (slice_one _ _ _ E). constructor. exact CX.
  - apply in_flat_map in H as (k & K & H). pose proof (ends_range _ _ _ _ L K). pose proof (ends_range text r2 k j ltac:(lia) H). rewrite (slice_app text i k j); [|lia|lia]. constructor; [apply IHr1; auto|apply IHr2; auto; lia].
  - apply in_app_or in H as [H|H]; [apply sp_left|apply sp_right]; auto.
  - eapply star_spells; eauto.
  - destruct (holds text i); [|destruct H]. destruct H as [<-|[]]. rewrite slice_nil. constructor.
Qed.

Ltac inv H := inversion H; subst; clear H.
Lemma star_chars g c : forall r v, spells r v -> r = RStar g (RSet c) -> Forall (fun x => c x = true) v.
Proof.
  intros r v H. induction H; intros E; try discriminate; [constructor|]. injection E as -> ->. apply Forall_app. split; [|auto]. inv H. repeat constructor. auto.
Qed.
Lemma plus_chars c v : spells (rplus (RSet c)) v -> v <> [] /\ Forall (fun x => c x = true) v.
Proof.
  intros H. inv H. match goal with A : spells (RSet _) _, B : spells (RStar _ _) _ |- _ => inv A; apply (star_chars true c _ _) in B; [|reflexivity] end.
  split; [discriminate|]. constructor; auto.
Qed.
Lemma opt_spells a v : spells (ropt a) v -> v = [] \/ spells a v.
Proof. intros H. inv H; auto. match goal with A : spells REmpty _ |- _ => inv A end. auto. Qed.
Lemma upto_spells a : forall n v, spells (rupto n a) v -> exists ps, v = concat ps /\ length ps <= n /\ Forall (spells a) ps.
Proof.
  induction n as [|n IH]; cbn [rupto]; intros v H.
  - inv H. exists []. cbn. auto.
  - apply opt_spells in H as [->|H]; [exists []; cbn; auto with arith|]. inv H. match goal with A : spells (rupto _ _) _ |- _ => apply IH in A as (ps & -> & L & F) end.
    exists (u :: ps). cbn. split; [reflexivity|]. split; [lia|]. constructor; auto.
Qed.
Lemma times_spells a b : forall m v, spells (rtimes m a b) v -> exists ps w, v = concat ps ++ w /\ length ps = m /\ Forall (spells a) ps /\ spells b w.
Proof.
  induction m as [|m IH]; cbn [rtimes]; intros v H.
  - exists [], v. cbn. auto.
  - inv H. match goal with A : spells (rtimes _ _ _) _ |- _ => apply IH in A as (ps & w & -> & L & F & S) end.
    exists (u :: ps), w. cbn. rewrite <- app_assoc. split; [reflexivity|]. split; [lia|]. split; [constructor; auto|exact S].
Qed.

(** ** Characters *)
Section Chars.
  Variable C : chars.
  Lemma plain_iff others c : in_set C ([(97, 122); (65, 90); (48, 57)] ++ map char others)%N c = true <-> plain_char C others c.
  Proof.
    rewrite in_set_iff. unfold plain_char. split; intros (x & X & H); exists x; (split; [exact X|]).
    - destruct H as (a & b & H & E). apply in_app_or in H as [[H|[H|[H|[]]]]|H]; try (injection H as <- <-; auto).
      right. right. right. apply in_map_iff in H as (y & Y & H). injection Y as <- <-. replace x with y by lia. exact H.
    - destruct H as [H|[H|[H|H]]]; [exists 97%N, 122%N|exists 65%N, 90%N|exists 48%N, 57%N|exists x, x]; (split; [apply in_or_app; cbn; auto|lia]).
      right. apply in_map_iff. exists x. auto.
  Qed.
  Lemma name_iff c : in_set C email_name c = true <-> name_char C c.
  Proof. exact (plain_iff [95; 46; 43; 45]%N c). Qed.
  Lemma host_iff c : in_set C email_host c = true <-> host_char C c.
  Proof. exact (plain_iff [45]%N c). Qed.
  Lemma tail_iff c : in_set C email_tail c = true <-> tail_char C c.
  Proof. exact (plain_iff [45; 46]%N c). Qed.
  Lemma one_iff k c : in_set C [(k, k)] c = true <-> In k (c_folds C c).
  Proof.
    rewrite in_set_iff. split.
    - intros (x & X & a & b & [H|[]] & E). injection H as <- <-. replace k with x by lia. exact X.
    - intros H. exists k. split; [exact H|]. exists k, k. cbn. split; [auto|lia].
  Qed.
  Lemma at_iff c : in_set C (chars_of "@") c = true <-> at_char C c.
  Proof. exact (one_iff 64%N c). Qed.
  Lemma dot_iff c : in_set C (chars_of ".") c = true <-> dot_char C c.
  Proof. exact (one_iff 46%N c). Qed.
  Lemma plus_iff c : in_set C (chars_of "+") c = true <-> plus_char C c.
  Proof. exact (one_iff 43%N c). Qed.
  Lemma gap_iff c : in_set C (chars_of "-_()") c || c_space C c = true <-> gap_char C c.
  Proof.
    rewrite orb_true_iff. unfold gap_char, visible. rewrite not_false_iff_true. rewrite in_set_iff. apply or_iff_compat_r.
    split; intros (x & X & H); exists x; (split; [exact X|]); [apply (in_chars [45; 95; 40; 41]%N) in H|apply (in_chars [45; 95; 40; 41]%N)]; exact H.
  Qed.
  Lemma Forall_iff {A} (P Q : A -> Prop) l : (forall x, P x <-> Q x) -> Forall P l -> Forall Q l.
  Proof. intros E. apply Forall_impl. intros x. apply E. Qed.

  Lemma email_spells v p : r_pattern (EMAIL_RULE C) = Some p -> spells p v -> address C v.
  Proof.
    intros E H. injection E as <-. inv H. match goal with A : spells (rplus _) u |- _ => apply plus_chars in A as [N1 F1] end.
    match goal with A : spells (RSeq (RSet (in_set C (chars_of "@"))) _) _ |- _ => inv A end. match goal with A : spells (RSet _) _ |- _ => inv A end.
    match goal with A : spells (RSeq (rplus _) _) _ |- _ => inv A end. match goal with A : spells (rplus (RSet (in_set C email_host))) _ |- _ => apply plus_chars in A as [N2 F2] end.
    match goal with A : spells (RSeq (RSet (in_set C (chars_of "."))) _) _ |- _ => inv A end. match goal with A : spells (RSet _) _ |- _ => inv A end.
    match goal with A : spells (rplus (RSet (in_set C email_tail))) _ |- _ => apply plus_chars in A as [N3 F3] end.
    eexists _, _, _, _, _. split; [reflexivity|].
    split; [exact N1|]. split; [exact (Forall_iff _ _ _ name_iff F1)|]. split; [apply at_iff; assumption|]. split; [exact N2|]. split; [exact (Forall_iff _ _ _ host_iff F2)|]. split; [apply dot_iff; assumption|]. split; [exact N3|exact (Forall_iff _ _ _ tail_iff F3)].
  Qed.
  Lemma gap_spells v : spells (ropt (phone_gap C)) v -> length v <= 1 /\ Forall (gap_char C) v.
  Proof.
    intros H. apply opt_spells in H as [->|H]; [cbn; auto|]. inv H. cbn. split; [auto|]. constructor; [|constructor]. apply gap_iff. assumption.
  Qed.
  Lemma piece_spells v : spells (RSeq (ropt (phone_gap C)) (RSeq (RSet (c_digit C)) (ropt (phone_gap C)))) v -> phone_piece C v.
  Proof.
    intros H. inv H. match goal with A : spells (RSeq (RSet _) _) _ |- _ => inv A end. match goal with A : spells (RSet (c_digit C)) _ |- _ => inv A end.
    repeat match goal with A : spells (ropt _) _ |- _ => apply gap_spells in A as [? ?] end.
    eexists u, _, _. split; [reflexivity|]. split; [assumption|]. split; [assumption|]. split; [assumption|]. apply Forall_app. auto.
  Qed.
  Lemma phone_spells v p : r_pattern (PHONE_RULE C) = Some p -> spells p v -> phone C v.
  Proof.
    intros E H. injection E as <-. inv H.
    match goal with A : spells (ropt _) u, B : spells _ v0 |- _ => apply opt_spells in A; change (spells (rtimes 10 (RSeq (ropt (phone_gap C)) (RSeq (RSet (c_digit C)) (ropt (phone_gap C)))) (rupto 4 (RSeq (ropt (phone_gap C)) (RSeq (RSet (c_digit C)) (ropt (phone_gap C)))))) v0) in B; apply times_spells in B as (ps & w & -> & L & F & S) end.
    apply upto_spells in S as (qs & -> & L' & F'). exists u, (ps ++ qs). rewrite concat_app. split; [reflexivity|]. split.
    - match goal with A : _ \/ _ |- _ => destruct A as [->|A] end; [left; reflexivity|]. right. match goal with A : spells (RSet _) _ |- _ => inv A end. eexists. split; [reflexivity|]. apply plus_iff. assumption.
    - split; [rewrite app_length; lia|]. apply Forall_app. split; eapply Forall_impl; try eassumption; intros a; apply piece_spells.
  Qed.
End Chars.

(** ** Tokens of a type *)
Lemma chosen_token t : forall ts text i, all_chosen (tk_rules t) text i ts -> forall tk, In tk ts ->
  exists s e i', t_start tk = Z.of_nat s /\ t_stop tk = Z.of_nat e /\ chosen (tk_rules t) text i' s e (t_type tk).
Proof.
  induction ts as [|x ts IH]; intros text i H tk K; [destruct K|]. cbn in H. destruct H as (s & e & S & E & CH & H). destruct K as [<-|K]; [eauto 8|eauto].
Qed.
Lemma faithful_slice text tk s e : faithful text tk -> t_start tk = Z.of_nat s -> t_stop tk = Z.of_nat e -> s <= length text /\ t_value tk = slice text s e.
Proof.
  intros (a & b & -> & A & B) S E. assert (s = length a) as -> by lia. assert (e = length a + length (t_value tk)) as -> by lia.
  split; [rewrite app_length; lia|]. replace (length a) with (length a + 0) at 1 by lia. rewrite slice_later. unfold slice. cbn [skipn].
  replace (length (t_value tk) - 0) with (length (t_value tk) + 0) by lia. rewrite firstn_app_2. cbn. rewrite app_nil_r. reflexivity.
Qed.
Lemma typed_token t text fuel ts tk : compiled t -> tk_rules t <> [] -> tokenize fuel t text = Some (Ok ts) -> In tk ts ->
  exists r p, In r (tk_rules t) /\ r_type r = t_type tk /\ r_pattern r = Some p /\ spells p (t_value tk).
Proof.
  intros CT NE H K. destruct (tokenize_faithful _ _ _ _ H) as [FA _]. destruct (leftmost_first t text fuel _ CT NE H) as (ts' & E & CH). injection E as <-.
  destruct (chosen_token t ts text 0 CH tk K) as (s & e & i & S & E & ((before & r & after & R & TY & (p & P & M) & _) & _)).
  destruct (faithful_slice _ _ _ _ (FA tk K) S E) as [L ->]. exists r, p. split; [rewrite R; apply in_elt|]. split; [auto|]. split; [exact P|]. apply ends_spells; auto.
Qed.
Theorem email_tokens C t text fuel ts tk : compiled t -> (forall r, In r (tk_rules t) -> r_type r = str_of "EMAIL" -> r = EMAIL_RULE C) ->
  tokenize fuel t text = Some (Ok ts) -> In tk ts -> t_type tk = str_of "EMAIL" -> address C (t_value tk).
Proof.
  intros CT U H K T. assert (NE : tk_rules t <> []). { intros E. destruct CT as [_ CT]. rewrite E in CT. destruct (tk_regexp t) as [|q qs] eqn:EQ; [|inversion CT]. pose proof (empty_tokenizer_raises t text fuel _ EQ H). discriminate. }
  destruct (typed_token _ _ _ _ _ CT NE H K) as (r & p & R & TY & P & S). rewrite T in TY. rewrite (U r R TY) in P. exact (email_spells C _ _ P S).
Qed.
Theorem phone_tokens C t text fuel ts tk : compiled t -> (forall r, In r (tk_rules t) -> r_type r = str_of "PHONE" -> r = PHONE_RULE C) ->
  tokenize fuel t text = Some (Ok ts) -> In tk ts -> t_type tk = str_of "PHONE" -> phone C (t_value tk).
Proof.
  intros CT U H K T. assert (NE : tk_rules t <> []). { intros E. destruct CT as [_ CT]. rewrite E in CT. destruct (tk_regexp t) as [|q qs] eqn:EQ; [|inversion CT]. pose proof (empty_tokenizer_raises t text fuel _ EQ H). discriminate. }
  destruct (typed_token _ _ _ _ _ CT NE H K) as (r & p & R & TY & P & S). rewrite T in TY. rewrite (U r R TY) in P. exact (phone_spells C _ _ P S).
Qed.

(** ** Greedy runs *)
Lemma star_run c text : forall n fuel i, length text - i < fuel -> i + n <= length text ->
  (forall k, i <= k < i + n -> exists x, nth_error text k = Some x /\ c x = true) -> (forall x, nth_error text (i + n) = Some x -> c x = false) ->
  star_ends true (ends text (RSet c)) fuel i = rev (seq i (S n)).
Proof.
  induction n as [|n IH]; intros [|fuel] i F L A B; try lia; cbn [star_ends ends].
  - rewrite Nat.add_0_r in B. destruct (nth_error text i) as [x|] eqn:E; [rewrite (B x eq_refl)|]; reflexivity.
  - destruct (A i ltac:(lia)) as (x & E & CX). rewrite E, CX. cbn [flat_map]. replace (i <? S i) with true by (symmetry; apply Nat.ltb_lt; lia). rewrite app_nil_r.
    change (fun i0 : nat => match nth_error text i0 with Some x0 => if c x0 then [S i0] else [] | None => [] end) with (ends text (RSet c)).
    rewrite (IH fuel (S i)); [reflexivity|lia|lia| |].
    + intros k K. apply A. lia.
    + intros y. replace (S i + n) with (i + S n) by lia. apply B.
Qed.
Lemma plus_run c text n i : 0 < n -> i + n <= length text ->
  (forall k, i <= k < i + n -> exists x, nth_error text k = Some x /\ c x = true) -> (forall x, nth_error text (i + n) = Some x -> c x = false) ->
  ends text (rplus (RSet c)) i = rev (seq (S i) n).
Proof.
  intros N L A B. destruct n as [|n]; [lia|]. unfold rplus. cbn [ends]. destruct (A i ltac:(lia)) as (x & E & CX). rewrite E, CX. cbn [flat_map]. rewrite app_nil_r.
  apply (star_run c text n); [lia|lia| |].
  - intros k K. apply A. lia.
  - intros y. replace (S i + n) with (i + S n) by lia. apply B.
Qed.
Lemma flat_map_last {A} (f : nat -> list A) i n : (forall k, i <= k < i + n -> f k = []) -> flat_map f (rev (seq i (S n))) = f (i + n).
Proof.
  intros H. rewrite seq_S, rev_app_distr. cbn [rev app flat_map].
  enough (E : flat_map f (rev (seq i n)) = []) by (rewrite E, app_nil_r; reflexivity).
  assert (G : forall k, In k (rev (seq i n)) -> f k = []) by (intros k K; apply in_rev, in_seq in K; auto).
  revert G. generalize (rev (seq i n)). induction l as [|x l IH]; intros G; [reflexivity|]. cbn. rewrite (G x), IH; cbn; auto. intros k K. apply G. right. exact K.
Qed.
Lemma run_at (u w z : str) k : length u <= k < length u + length w -> exists x, nth_error (u ++ w ++ z) k = Some x /\ In x w.
Proof.
  intros H. rewrite nth_error_app2; [|lia]. rewrite nth_error_app1; [|lia]. destruct (nth_error w (k - length u)) as [x|] eqn:E; [exists x; split; [reflexivity|eapply nth_error_In; eauto]|apply nth_error_None in E; lia].
Qed.
Lemma nth_middle (u : str) x z : nth_error (u ++ x :: z) (length u) = Some x.
Proof. rewrite nth_error_app2, Nat.sub_diag; [reflexivity|lia]. Qed.
Lemma not_true_false b (P : Prop) : (b = true <-> P) -> ~ P -> b = false.
Proof. destruct b; intros [H _] N; [|reflexivity]. destruct N. auto. Qed.

(** ** The first end of an address *)
Lemma email_first C v p : marks_apart C -> r_pattern (EMAIL_RULE C) = Some p -> address C v -> exists rest, ends v p 0 = length v :: rest.
Proof.
  intros [MA MD] E (name & a & host & d & tail & EV & N1 & F1 & A & N2 & F2 & D & N3 & F3). injection E as <-. cbn [ends]. rewrite Forall_forall in F1, F2, F3.
  destruct (length name) as [|n] eqn:LN; [destruct name; [congruence|discriminate]|]. destruct (length host) as [|m] eqn:LH; [destruct host; [congruence|discriminate]|].
  assert (AT : nth_error v (S n) = Some a) by (rewrite EV, <- LN; apply nth_middle).
  assert (LV : length v = S n + 1 + S m + 1 + length tail) by (rewrite EV; rewrite app_length; cbn; rewrite app_length; cbn; lia).
  assert (NR : forall k, 0 <= k < 0 + S n -> exists x, nth_error v k = Some x /\ In x name) by (intros k K; rewrite EV; apply (run_at [] name (a :: host ++ d :: tail)); cbn; lia).
  assert (EV2 : v = (name ++ [a]) ++ host ++ d :: tail) by (rewrite EV, <- app_assoc; reflexivity).
  assert (LA : length (name ++ [a]) = S (S n)) by (rewrite app_length; cbn; lia).
  assert (HR : forall k, S (S n) <= k < S (S n) + S m -> exists x, nth_error v k = Some x /\ In x host) by (intros k K; rewrite EV2; apply run_at; lia).
  assert (DT : nth_error v (S (S n) + S m) = Some d). { rewrite EV2, app_assoc. replace (S (S n) + S m) with (length ((name ++ [a]) ++ host)) by (rewrite app_length; lia). apply nth_middle. }
  assert (TR : forall k, S (S n) + S m + 1 <= k < S (S n) + S m + 1 + length tail -> exists x, nth_error v k = Some x /\ In x tail).
  { intros k K. replace v with (((name ++ [a]) ++ host ++ [d]) ++ tail ++ []) by (rewrite EV2, app_nil_r, <- !app_assoc; reflexivity). apply run_at. rewrite !app_length; cbn [length]; lia. }
  change (ends v (rplus (RSet (in_set C email_name))) 0) with (ends v (rplus (RSet (in_set C email_name))) 0).
  assert (E1 : forall x, at_char C x -> in_set C email_name x = false) by (intros x X; apply (not_true_false _ _ (name_iff C x)); auto).
  assert (E2 : forall x, name_char C x -> in_set C (chars_of "@") x = false) by (intros x X; apply (not_true_false _ _ (at_iff C x)); intros Y; exact (MA x Y X)).
  assert (E3 : forall x, dot_char C x -> in_set C email_host x = false) by (intros x X; apply (not_true_false _ _ (host_iff C x)); auto).
  assert (E4 : forall x, host_char C x -> in_set C (chars_of ".") x = false) by (intros x X; apply (not_true_false _ _ (dot_iff C x)); intros Y; exact (MD x Y X)).
  set (r1 := rplus (RSet (in_set C email_name))) in *. set (r2 := rplus (RSet (in_set C email_host))) in *. set (r3 := rplus (RSet (in_set C email_tail))) in *.
  assert (R1 : ends v r1 0 = rev (seq 1 (S n))).
  { apply plus_run; [lia|lia| |].
    - intros k K. destruct (NR k K) as (x & X & Y). exists x. split; [exact X|]. apply name_iff. auto.
    - intros x X. cbn [plus] in X. rewrite AT in X. injection X as <-. auto. }
  assert (R2 : ends v r2 (S (S n)) = rev (seq (S (S (S n))) (S m))).
  { apply plus_run; [lia|lia| |].
    - intros k K. destruct (HR k K) as (x & X & Y). exists x. split; [exact X|]. apply host_iff. auto.
    - intros x X. rewrite DT in X. injection X as <-. auto. }
  assert (R3 : ends v r3 (S (S n) + S m + 1) = rev (seq (S (S (S n) + S m + 1)) (length tail))).
  { apply plus_run; [destruct tail; [congruence|cbn; lia]|lia| |].
    - intros k K. destruct (TR k K) as (x & X & Y). exists x. split; [exact X|]. apply tail_iff. auto.
    - intros x X. assert (nth_error v (S (S n) + S m + 1 + length tail) <> None) by congruence. apply nth_error_Some in H. lia. }
  rewrite R1. rewrite flat_map_last.
  2: { intros k K. destruct (NR k ltac:(lia)) as (x & X & Y). rewrite X, E2; auto. }
  replace (1 + n) with (S n) by lia. rewrite AT. replace (in_set C (chars_of "@") a) with true by (symmetry; apply at_iff, A). cbn [flat_map]. rewrite app_nil_r.
  rewrite R2, flat_map_last.
  2: { intros k K. destruct (HR k ltac:(lia)) as (x & X & Y). rewrite X, E4; auto. }
  replace (S (S (S n)) + m) with (S (S n) + S m) by lia. rewrite DT. replace (in_set C (chars_of ".") d) with true by (symmetry; apply dot_iff, D). cbn [flat_map]. rewrite app_nil_r.
  replace (S (S (S n) + S m)) with (S (S n) + S m + 1) by lia. rewrite R3. destruct (length tail) as [|l] eqn:LT; [destruct tail; [congruence|discriminate]|].
  rewrite seq_S, rev_app_distr. cbn [rev app]. eexists. f_equal. lia.
Qed.

(** ** The first end of a number *)
Section Phone.
  Variable C : chars.
  Hypothesis apart : digits_apart C.
  Let item := RSeq (ropt (phone_gap C)) (RSeq (RSet (c_digit C)) (ropt (phone_gap C))).
  Variable text : str.
  Variable from : nat.
  Hypothesis digits : forall k x, from <= k -> nth_error text k = Some x -> digit_char C x.
  Lemma no_gap k : from <= k -> ends text (ropt (phone_gap C)) k = [k].
  Proof.
    intros L. unfold ropt, phone_gap. cbn [ends]. destruct (nth_error text k) as [x|] eqn:E; [|reflexivity]. rewrite (not_true_false _ _ (gap_iff C x)); [reflexivity|]. apply apart. eauto.
  Qed.
  Lemma item_digit k : from <= k < length text -> ends text item k = [S k].
  Proof.
    intros [L K]. unfold item. change (flat_map (ends text (RSeq (RSet (c_digit C)) (ropt (phone_gap C)))) (ends text (ropt (phone_gap C)) k) = [S k]). rewrite no_gap; [|exact L]. cbn [flat_map]. rewrite app_nil_r.
    change (flat_map (ends text (ropt (phone_gap C))) (ends text (RSet (c_digit C)) k) = [S k]). cbn [ends]. destruct (nth_error text k) as [x|] eqn:E; [|apply nth_error_None in E; lia].
    rewrite (digits k x L E). cbn [flat_map]. rewrite app_nil_r. apply no_gap. lia.
  Qed.
  Lemma item_end k : length text <= k -> from <= k -> ends text item k = [].
  Proof.
    intros K L. unfold item. change (flat_map (ends text (RSeq (RSet (c_digit C)) (ropt (phone_gap C)))) (ends text (ropt (phone_gap C)) k) = []). rewrite no_gap; [|exact L]. cbn [flat_map]. rewrite app_nil_r.
    cbn [ends]. replace (nth_error text k) with (@None N) by (symmetry; apply nth_error_None; exact K). reflexivity.
  Qed.
  Lemma times_digits b : forall m k, from <= k -> k + m <= length text -> ends text (rtimes m item b) k = ends text b (k + m).
  Proof.
    induction m as [|m IH]; intros k L K; cbn [rtimes]; [rewrite Nat.add_0_r; reflexivity|].
    change (flat_map (ends text (rtimes m item b)) (ends text item k) = ends text b (k + S m)). rewrite item_digit; [|lia]. cbn [flat_map]. rewrite app_nil_r, IH; [f_equal; lia|lia|lia].
  Qed.
  Lemma upto_digits : forall n k, from <= k <= length text -> exists rest, ends text (rupto n item) k = k + Nat.min n (length text - k) :: rest.
  Proof.
    induction n as [|n IH]; intros k K; cbn [rupto]; [exists []; cbn; f_equal; lia|].
    change (exists rest, flat_map (ends text (rupto n item)) (ends text item k) ++ [k] = k + Nat.min (S n) (length text - k) :: rest).
    destruct (Nat.eq_dec k (length text)) as [->|N].
    - rewrite item_end; [|lia|lia]. exists []. cbn [flat_map app]. f_equal. lia.
    - rewrite item_digit; [|lia]. cbn [flat_map]. rewrite app_nil_r. destruct (IH (S k) ltac:(lia)) as (rest & ->). cbn [app]. eexists. f_equal. lia.
  Qed.
  Lemma between_digits k : from <= k -> k + 10 <= length text -> exists rest, ends text (rbetween 10 14 item) k = Nat.min (k + 14) (length text) :: rest.
  Proof.
    intros L K. unfold rbetween. rewrite times_digits; [|lia|lia]. destruct (upto_digits (14 - 10) (k + 10) ltac:(lia)) as (rest & E). exists rest. rewrite E. f_equal. lia.
  Qed.
End Phone.
Lemma phone_first C sign ds p : digits_apart C -> r_pattern (PHONE_RULE C) = Some p ->
  (sign = [] \/ exists c, sign = [c] /\ plus_char C c) -> Forall (digit_char C) ds -> 10 <= length ds ->
  exists rest, ends (sign ++ ds) p 0 = length sign + Nat.min 14 (length ds) :: rest.
Proof.
  intros AP E S F L. injection E as <-. rewrite Forall_forall in F.
  assert (D : forall k x, length sign <= k -> nth_error (sign ++ ds) k = Some x -> digit_char C x) by (intros k x K X; rewrite nth_error_app2 in X by exact K; apply F; eapply nth_error_In; eauto).
  set (item := RSeq (ropt (phone_gap C)) (RSeq (RSet (c_digit C)) (ropt (phone_gap C)))).
  change (exists rest, flat_map (ends (sign ++ ds) (rbetween 10 14 item)) (ends (sign ++ ds) (ropt (RSet (in_set C (chars_of "+")))) 0) = length sign + Nat.min 14 (length ds) :: rest).
  destruct (between_digits C AP (sign ++ ds) (length sign) D (length sign)) as (rest & B); [lia|rewrite app_length; lia|].
  destruct S as [->|(c & -> & PC)].
  - assert (O : ends ([] ++ ds) (ropt (RSet (in_set C (chars_of "+")))) 0 = [0]).
    { destruct ds as [|x ds]; [cbn in L; lia|]. unfold ropt. cbn [app ends nth_error]. rewrite (not_true_false _ _ (plus_iff C x)); [reflexivity|]. apply AP, F. left. reflexivity. }
    rewrite O. cbn [flat_map]. rewrite app_nil_r. exists rest. exact B.
  - assert (O : ends ([c] ++ ds) (ropt (RSet (in_set C (chars_of "+")))) 0 = [1; 0]).
    { unfold ropt. cbn [app ends nth_error]. replace (in_set C (chars_of "+") c) with true by (symmetry; apply plus_iff; exact PC). reflexivity. }
    rewrite O. cbn [flat_map]. change (length [c]) with 1 in *. unfold item. rewrite B. cbn [app]. eexists. reflexivity.
Qed.

(** ** The first token *)
Lemma filter_all {A} (l : list A) : filter (fun _ => true) l = l.
Proof. induction l; cbn; congruence. Qed.
Lemma alternatives_first text : forall before rules ps r p e rest,
  Forall2 (fun r q => fst q = r_type r /\ r_pattern r = Some (snd q)) rules ps -> (exists after, rules = before ++ r :: after) ->
  (forall r' j, In r' before -> ~ matches_at text r' 0 j) -> r_pattern r = Some p -> ends text p 0 = e :: rest ->
  exists rest', flat_map (fun '(ty, p) => map (fun j => (j, Some ty)) (ends text p 0)) ps = (e, Some (r_type r)) :: rest'.
Proof.
  induction before as [|b before IH]; intros rules ps r p e rest F (after & ->) N P E.
  - inversion F as [|? [ty q] ? ps' [T Q] F']; subst. cbn in T, Q. rewrite P in Q. injection Q as ->. cbn. rewrite E, T. cbn. eauto.
  - inversion F as [|? [ty q] ? ps' [T Q] F']; subst. cbn in T, Q. cbn [flat_map]. destruct (ends text q 0) as [|j js] eqn:EN.
    + cbn [map app]. apply (IH _ ps' r p e rest F'); eauto. intros r' j K. apply N. right. exact K.
    + destruct (N b j (or_introl eq_refl)). exists q. split; [exact Q|]. rewrite EN. left. reflexivity.
Qed.
Lemma first_search t text r p e rest : compiled t -> first_at t text r -> r_pattern r = Some p -> ends text p 0 = e :: rest ->
  forall n, search t text false n 0 = Some (0, e, Some (r_type r)).
Proof.
  intros [_ CT] (before & after & R & N) P E n. destruct (alternatives_first text before _ _ r p e rest CT (ex_intro _ after R) N P E) as (rest' & A).
  assert (X : candidates t text false 0 = (e, Some (r_type r)) :: rest').
  { unfold candidates, alternatives. cbn [andb negb]. rewrite filter_all. destruct (tk_regexp t) as [|q qs]; [discriminate|]. exact A. }
  destruct n; cbn [search]; rewrite X; reflexivity.
Qed.
Lemma end_search t text must : compiled t -> tk_rules t <> [] -> never_empty t -> search t text must 0 (length text) = None.
Proof.
  intros CT NE NV. cbn [search]. destruct (candidates t text must (length text)) as [|[j ty] rest] eqn:E; [reflexivity|]. exfalso.
  destruct (cons_chosen t text must (length text) (length text) j ty rest CT NE) as (ty' & _ & (before & r & after & R & _ & M & _) & _).
  - unfold must_at. rewrite Nat.eqb_refl, andb_true_r. exact E.
  - lia.
  - assert (IR : In r (tk_rules t)) by (rewrite R; apply in_elt). pose proof M as (p & P & J). apply ends_range in J; [|lia]. assert (j = length text) by lia. subst j. exact (NV text r _ (le_n _) IR M).
Qed.
Lemma first_token t text fuel r p e rest : compiled t -> first_at t text r -> r_pattern r = Some p -> ends text p 0 = e :: rest -> 0 < e -> 2 * length text + 1 <= fuel ->
  exists ts, tokenize fuel t text = Some (Ok (mkToken (firstn e text) 0 (Z.of_nat e) (r_type r) None None :: ts)).
Proof.
  intros CT FA P E L F. assert (NE : tk_rules t <> []) by (destruct FA as (b & a & -> & _); destruct b; discriminate).
  destruct (tokenize_terminates t text fuel F) as (x & X). destruct (leftmost_first t text fuel x CT NE X) as (ts & -> & _). unfold tokenize in *.
  destruct (finditer fuel t text false 0) as [l|] eqn:FI; [|discriminate]. destruct fuel as [|fuel]; [lia|]. cbn [finditer] in FI. rewrite (first_search t text r p e rest CT FA P E) in FI.
  destruct (finditer fuel t text (0 =? e) e) as [l'|]; [|discriminate]. injection FI as <-. injection X as X. cbn [mapM make_token bind] in X. destruct (mapM (make_token text) l') as [ts'|] eqn:ML; [|discriminate]. injection X as <-.
  exists ts'. f_equal. cbn [mapM make_token bind]. rewrite ML. unfold slice. cbn [skipn]. rewrite Nat.sub_0_r. reflexivity.
Qed.
Lemma only_token t text fuel r p rest : compiled t -> first_at t text r -> r_pattern r = Some p -> ends text p 0 = length text :: rest -> 0 < length text -> never_empty t -> 2 * length text + 1 <= fuel ->
  tokenize fuel t text = Some (Ok [mkToken text 0 (Z.of_nat (length text)) (r_type r) None None]).
Proof.
  intros CT FA P E L NV F. assert (NE : tk_rules t <> []) by (destruct FA as (b & a & -> & _); destruct b; discriminate).
  unfold tokenize. destruct fuel as [|fuel]; [lia|]. cbn [finditer]. rewrite (first_search t text r p _ rest CT FA P E).
  destruct fuel as [|fuel]; [lia|]. cbn [finditer]. rewrite Nat.sub_diag, end_search; auto. cbn [mapM make_token bind]. unfold slice. cbn [skipn]. rewrite Nat.sub_0_r, firstn_all. reflexivity.
Qed.
Theorem address_one_token C t v fuel : compiled t -> never_empty t -> first_at t v (EMAIL_RULE C) -> marks_apart C -> address C v -> 2 * length v + 1 <= fuel ->
  tokenize fuel t v = Some (Ok [mkToken v 0 (Z.of_nat (length v)) (str_of "EMAIL") None None]).
Proof.
  intros CT NV FA MA A F. destruct (email_first C v _ MA eq_refl A) as (rest & E). apply (only_token t v fuel (EMAIL_RULE C) _ rest CT FA eq_refl E); auto.
  destruct A as (name & a & host & d & tail & -> & _). rewrite app_length. cbn. lia.
Qed.
Theorem number_one_token C t sign ds fuel : compiled t -> never_empty t -> first_at t (sign ++ ds) (PHONE_RULE C) -> digits_apart C ->
  (sign = [] \/ exists c, sign = [c] /\ plus_char C c) -> Forall (digit_char C) ds -> 10 <= length ds <= 14 -> 2 * length (sign ++ ds) + 1 <= fuel ->
  tokenize fuel t (sign ++ ds) = Some (Ok [mkToken (sign ++ ds) 0 (Z.of_nat (length (sign ++ ds))) (str_of "PHONE") None None]).
Proof.
  intros CT NV FA AP S D L F. destruct (phone_first C sign ds _ AP eq_refl S D ltac:(lia)) as (rest & E). rewrite Nat.min_r in E by lia. rewrite <- app_length in E.
  apply (only_token t (sign ++ ds) fuel (PHONE_RULE C) _ rest CT FA eq_refl E); auto. rewrite app_length. lia.
Qed.
Theorem number_cut C t sign ds fuel : compiled t -> first_at t (sign ++ ds) (PHONE_RULE C) -> digits_apart C ->
  (sign = [] \/ exists c, sign = [c] /\ plus_char C c) -> Forall (digit_char C) ds -> 14 < length ds -> 2 * length (sign ++ ds) + 1 <= fuel ->
  exists ts, tokenize fuel t (sign ++ ds) = Some (Ok (mkToken (sign ++ firstn 14 ds) 0 (Z.of_nat (length sign + 14)) (str_of "PHONE") None None :: ts)).
Proof.
  intros CT FA AP S D L F. destruct (phone_first C sign ds _ AP eq_refl S D ltac:(lia)) as (rest & E). rewrite Nat.min_l in E by lia.
  destruct (first_token t (sign ++ ds) fuel (PHONE_RULE C) _ _ rest CT FA eq_refl E ltac:(lia) F) as (ts & T). exists ts. rewrite T. rewrite firstn_app_2. reflexivity.
Qed.

(** ** The default rules with these two *)
Lemma plus_not_empty c v : spells (rplus (RSet c)) v -> v <> [].
Proof. intros H. apply plus_chars in H. tauto. Qed.
Lemma known_not_empty C r p v : In r (EMAIL_RULE C :: PHONE_RULE C :: RULES C) -> r_pattern r = Some p -> spells p v -> v <> [].
Proof.
  intros [<-|[<-|H]] P S.
  - destruct (email_spells C _ _ P S) as (name & a & host & d & tail & -> & _). destruct name; discriminate.
  - destruct (phone_spells C _ _ P S) as (sign & ps & -> & _ & L & F). destruct ps as [|q ps]; [cbn in L; lia|]. inversion F as [|? ? (a & d & b & -> & _)]. destruct sign, a; discriminate.
  - cbn in H. destruct H as [<-|[<-|[<-|[<-|[<-|[<-|[]]]]]]]; injection P as <-; try exact (plus_not_empty _ _ S); inv S; discriminate.
Qed.
Theorem known_never_empty C t : incl (tk_rules t) (EMAIL_RULE C :: PHONE_RULE C :: RULES C) -> never_empty t.
Proof.
  intros I text r i L R (p & P & M). apply ends_spells in M; [|exact L]. rewrite slice_nil in M. exact (known_not_empty C r p [] (I r R) P M eq_refl).
Qed.
Lemma unused_rplus x c : c x = false -> unused x (rplus (RSet c)).
Proof. intros H. cbn. auto. Qed.
Lemma email_unused C x p : r_pattern (EMAIL_RULE C) = Some p -> ~ in_address C x -> unused x p.
Proof.
  intros E N. injection E as <-. unfold in_address in N. cbn [unused rplus]. rewrite (not_true_false _ _ (name_iff C x)), (not_true_false _ _ (at_iff C x)), (not_true_false _ _ (host_iff C x)), (not_true_false _ _ (dot_iff C x)), (not_true_false _ _ (tail_iff C x)); tauto.
Qed.
Lemma default_rules C t : default_tokenizer C = Ok t -> compiled t /\ tk_rules t = RULES C.
Proof. intros H. destruct (new_compiled _ _ H) as [A B]. split; [exact A|]. apply (f_equal (map (fun o => match o with Some r => r | None => EMAIL_RULE C end))) in B. rewrite !map_map in B. rewrite !map_id in B. auto. Qed.
Lemma Forall2_tl_rules {A B} (P : A -> B -> Prop) x y l l' : Forall2 P (x :: l) (y :: l') -> Forall2 P l l'.
Proof. intros H. inversion H. auto. Qed.
Theorem email_separates C t t' x : sane C -> default_tokenizer C = Ok t -> add_rules t [Some (EMAIL_RULE C)] = (t', Ok tt) ->
  ~ visible C x -> ~ eol_char C x -> ~ in_address C x -> separates t' x.
Proof.
  intros S D A V E N. pose proof (default_separates C t x S D V E) as SD. destruct (default_rules C t D) as [CT RT]. destruct (add_rules_ok _ _ _ A) as (CT' & rs & R1 & R2).
  destruct rs as [|r [|? ?]]; try discriminate. injection R1 as <-. destruct CT as [_ CT], CT' as [_ CT']. rewrite R2 in CT'. cbn [app] in CT'. unfold separates. destruct (tk_regexp t') as [|[ty q] ps]; [inversion CT'|]. assert (F' := Forall2_tl_rules _ _ _ _ _ CT'). assert (Q : r_pattern (EMAIL_RULE C) = Some q) by (inversion CT' as [|? ? ? ? [_ Q] _]; exact Q).
  intros ty' r' K. destruct K as [K|K].
  - injection K as <- <-. exact (email_unused C x q Q N).
  - assert (EQ : ps = tk_regexp t).
    { revert F' CT. generalize (tk_regexp t) ps (tk_rules t). intros qs ps0 rules F1. revert qs. induction F1 as [|a [u1 u2] l l' [X1 X2] F1 IH]; intros qs F2; inversion F2 as [|? [w1 w2] ? ? [Y1 Y2] F2']; subst; [reflexivity|]. cbn in *. rewrite X2 in Y2. injection Y2 as ->. rewrite (IH _ F2'). congruence. }
    subst ps. eapply SD; eauto.
Qed.
Theorem addresses_between_spaces C t t' a x v y b ts ts' f f' fuel : sane C -> marks_apart C -> default_tokenizer C = Ok t -> add_rules t [Some (EMAIL_RULE C)] = (t', Ok tt) -> address C v ->
  (forall z, z = x \/ z = y -> ~ visible C z /\ ~ eol_char C z /\ ~ in_address C z) ->
  tokenize f t' a = Some (Ok ts) -> tokenize f' t' b = Some (Ok ts') -> 2 * length (a ++ x :: v ++ y :: b) + 1 <= fuel ->
  tokenize fuel t' (a ++ x :: v ++ y :: b) =
    Some (Ok (ts ++ mkToken v (Z.of_nat (S (length a))) (Z.of_nat (S (length a) + length v)) (str_of "EMAIL") None None
                 :: map (moved (Z.of_nat (S (length a) + S (length v)))) ts')).
Proof.
  intros S MA D A AD W TA TB F. assert (SX : separates t' x) by (destruct (W x (or_introl eq_refl)) as (W1 & W2 & W3); eapply email_separates; eauto). assert (SY : separates t' y) by (destruct (W y (or_intror eq_refl)) as (W1 & W2 & W3); eapply email_separates; eauto).
  destruct (default_rules C t D) as [CT RT]. destruct (add_rules_ok _ _ _ A) as (CT' & rs & R1 & R2). destruct rs as [|r [|? ?]]; try discriminate. injection R1 as <-. rewrite RT in R2.
  assert (NV : never_empty t'). { apply (known_never_empty C). rewrite R2. intros z [<-|Z]; [left; reflexivity|right; right; exact Z]. }
  assert (FA : first_at t' v (EMAIL_RULE C)) by (exists [], (RULES C); split; [exact R2|intros r' j []]).
  pose proof (address_one_token C t' v (2 * length v + 1) CT' NV FA MA AD (le_n _)) as TV.
  pose proof (tokenize_join t' v b y _ _ _ _ (2 * length (v ++ y :: b) + 1) SY TV TB (le_n _)) as TVB.
  rewrite (tokenize_join t' a (v ++ y :: b) x _ _ _ _ fuel SX TA TVB F). f_equal. f_equal. f_equal. cbn [map app]. f_equal.
  - unfold moved. cbn [t_value t_start t_stop t_type t_tag t_forms]. f_equal; lia.
  - rewrite map_map. apply map_ext. intros tk. unfold moved. cbn [t_value t_start t_stop t_type t_tag t_forms]. f_equal; lia.
Qed.
