(** Proofs about the tokenizer. *)
From Verif Require Import Base TokenModel TokenizerModel TokenizerSpec.
Open Scope nat_scope.

(** ** Regular expressions *)
Lemma star_range greedy (body : nat -> list nat) len :
  (forall i j, i <= len -> In j (body i) -> i <= j <= len) ->
  forall fuel i j, i <= len -> In j (star_ends greedy body fuel i) -> i <= j <= len.
Proof.
  intros B. induction fuel as [|fuel IH]; intros i j L H; cbn [star_ends] in H.
  - destruct H as [<-|[]]. lia.
  - assert (X : j = i \/ In j (flat_map (fun j => if i <? j then star_ends greedy body fuel j else [j]) (body i))) by (destruct greedy; [apply in_app_or in H as [H|[<-|[]]]; auto|destruct H as [<-|H]; auto]).
    clear H. destruct X as [->|H]; [lia|]. apply in_flat_map in H as (k & K & H). pose proof (B _ _ L K).
    destruct (i <? k) eqn:E; [|destruct H as [<-|[]]; lia].
    specialize (IH k j ltac:(lia) H). lia.
Qed.
Lemma ends_range text : forall r i j, i <= length text -> In j (ends text r i) -> i <= j <= length text.
Proof.
  induction r; intros i j L H; cbn [ends] in H.
  - destruct H as [<-|[]]. lia.
  - destruct (nth_error text i) as [x|] eqn:E; [|destruct H].
    destruct (c x); [|destruct H]. destruct H as [<-|[]].
    assert (i < length text) by (apply nth_error_Some; congruence). lia.
  - apply in_flat_map in H as (k & K & H). apply IHr1 in K; [|auto]. apply IHr2 in H; lia.
  - apply in_app_or in H as [H|H]; eauto.
  - eapply star_range in H; eauto.
  - destruct (holds text i); [|destruct H]. destruct H as [<-|[]]. lia.
Qed.

(** More fuel changes nothing. *)
Lemma star_fuel greedy (body : nat -> list nat) len :
  (forall i j, i <= len -> In j (body i) -> i <= j <= len) ->
  forall f f' i, i <= len -> len - i < f -> len - i < f' -> star_ends greedy body f i = star_ends greedy body f' i.
Proof.
  intros B. induction f as [|f IH]; intros f' i L F F'; [lia|]. destruct f' as [|f']; [lia|].
  cbn [star_ends].
  assert (G : forall l, (forall j, In j l -> i <= j <= len) ->
    flat_map (fun j => if i <? j then star_ends greedy body f j else [j]) l =
    flat_map (fun j => if i <? j then star_ends greedy body f' j else [j]) l).
  { induction l as [|j l IHl]; intros HL; [reflexivity|]. cbn [flat_map]. f_equal; [|apply IHl; intros; apply HL; right; auto].
    destruct (i <? j) eqn:E; [|reflexivity]. apply Nat.ltb_lt in E. specialize (HL j (or_introl eq_refl)). apply IH; lia. }
  rewrite G; [reflexivity|]. intros j HJ. apply (B i j); auto.
Qed.

(** ** The search loop *)
Lemma alternatives_range t text i j ty : i <= length text -> In (j, ty) (alternatives t text i) -> i <= j <= length text.
Proof.
  intros L H. unfold alternatives in H. destruct (tk_regexp t) as [|p ps].
  - destruct H as [H|[]]. injection H as <- _. lia.
  - apply in_flat_map in H as ([ty' r] & _ & H). apply in_map_iff in H as (j' & E & H). injection E as <- _.
    eapply ends_range; eauto.
Qed.

Definition must_at (must : bool) (i k : nat) : bool := must && Nat.eqb k i.
Lemma search_spec t text : forall n must i, i + n = length text ->
  match search t text must n i with
  | None => forall k, i <= k <= length text -> candidates t text (must_at must i k) k = []
  | Some (s, e, ty) => i <= s <= e /\ e <= length text /\
      (exists rest, candidates t text (must_at must i s) s = (e, ty) :: rest) /\
      forall k, i <= k < s -> candidates t text (must_at must i k) k = []
  end.
Proof.
  induction n as [|n IH]; intros must i L; cbn [search].
  - assert (MI : must_at must i i = must) by (unfold must_at; rewrite Nat.eqb_refl; apply andb_true_r).
    destruct (candidates t text must i) as [|[j ty] rest] eqn:E.
    + intros k K. replace k with i by lia. rewrite MI. exact E.
    + assert (H : In (j, ty) (candidates t text must i)) by (rewrite E; left; reflexivity).
      unfold candidates in H. apply filter_In in H as [H _]. apply alternatives_range in H; [|lia].
      rewrite MI. split; [lia|]. split; [lia|]. split; [eauto|]. intros; lia.
  - assert (MI : must_at must i i = must) by (unfold must_at; rewrite Nat.eqb_refl; apply andb_true_r).
    destruct (candidates t text must i) as [|[j ty] rest] eqn:E.
    + specialize (IH false (S i) ltac:(lia)).
      assert (M : forall k, S i <= k -> must_at must i k = must_at false (S i) k).
      { intros k K. unfold must_at. cbn. destruct (Nat.eqb_spec k i); [lia|]. apply andb_false_r. }
      destruct (search t text false n (S i)) as [[[s e] ty]|].
      * destruct IH as (A1 & A2 & (rest & A3) & A4). split; [lia|]. split; [auto|].
        split; [exists rest; rewrite M; auto; lia|].
        intros k K. destruct (Nat.eq_dec k i) as [->|N]; [rewrite MI; auto|]. rewrite M by lia. apply A4. lia.
      * intros k K. destruct (Nat.eq_dec k i) as [->|N]; [rewrite MI; auto|]. rewrite M by lia. apply IH. lia.
    + assert (H : In (j, ty) (candidates t text must i)) by (rewrite E; left; reflexivity).
      unfold candidates in H. apply filter_In in H as [H _]. apply alternatives_range in H; [|lia].
      rewrite MI. split; [lia|]. split; [lia|]. split; [eauto|]. intros; lia.
Qed.

(** The list of matches, from position [i]. *)
Inductive lexed (t : tokenizer) (text : str) : bool -> nat -> list (nat * nat * option str) -> Prop :=
| lexed_nil (must : bool) (i : nat) : i <= length text ->
    (forall k, i <= k <= length text -> candidates t text (must_at must i k) k = []) -> lexed t text must i []
| lexed_cons (must : bool) (i s e : nat) ty rest l : i <= s <= e -> e <= length text ->
    candidates t text (must_at must i s) s = (e, ty) :: rest ->
    (forall k, i <= k < s -> candidates t text (must_at must i k) k = []) ->
    lexed t text (Nat.eqb s e) e l -> lexed t text must i ((s, e, ty) :: l).

Lemma finditer_lexed t text : forall fuel must i l, i <= length text ->
  finditer fuel t text must i = Some l -> lexed t text must i l.
Proof.
  induction fuel as [|fuel IH]; intros must i l L H; cbn [finditer] in H;
    pose proof (search_spec t text (length text - i) must i ltac:(lia)) as S;
    destruct (search t text must (length text - i) i) as [[[s e] ty]|]; try discriminate.
  - injection H as <-. constructor; auto.
  - destruct (finditer fuel t text (Nat.eqb s e) e) as [l'|] eqn:F; [|discriminate]. injection H as <-.
    destruct S as (A1 & A2 & (rest & A3) & A4). apply IH in F; [|lia].
    econstructor; eauto.
  - injection H as <-. constructor; auto.
Qed.

Lemma finditer_fuel t text : forall fuel (must : bool) i, i <= length text ->
  2 * (length text - i) + (if must then 0 else 1) <= fuel -> exists l, finditer fuel t text must i = Some l.
Proof.
  induction fuel as [|fuel IH]; intros must i L F; cbn [finditer];
    pose proof (search_spec t text (length text - i) must i ltac:(lia)) as S;
    destruct (search t text must (length text - i) i) as [[[s e] ty]|]; try (eexists; reflexivity).
  - destruct S as (A1 & A2 & (rest & A3) & A4).
    destruct must; [|lia]. exfalso.
    assert (H : In (e, ty) (candidates t text (must_at true i s) s)) by (rewrite A3; left; reflexivity).
    unfold candidates in H. apply filter_In in H as [_ H].
    assert (s = i) by lia. assert (e = i) by lia. subst s e. unfold must_at in H. cbn [fst] in H. rewrite Nat.eqb_refl in H. discriminate.
  - destruct S as (A1 & A2 & (rest & A3) & A4).
    assert (G : exists l, finditer fuel t text (Nat.eqb s e) e = Some l).
    { apply IH; [lia|]. destruct (Nat.eqb_spec s e) as [->|N].
      - destruct (Nat.eq_dec e i) as [->|]; [|destruct must; lia].
        destruct must; [|lia]. exfalso.
        assert (H : In (i, ty) (candidates t text (must_at true i i) i)) by (rewrite A3; left; reflexivity).
        unfold candidates in H. apply filter_In in H as [_ H]. unfold must_at in H. cbn [fst] in H. rewrite Nat.eqb_refl in H. discriminate.
      - destruct must; lia. }
    destruct G as [l ->]. eexists; reflexivity.
Qed.

(** ** Tokens of the list of matches *)
Lemma skipn_skipn {A} : forall a b (l : list A), skipn a (skipn b l) = skipn (a + b) l.
Proof.
  intros a b l. revert a l. induction b as [|b IH]; intros a l; [rewrite Nat.add_0_r; reflexivity|].
  rewrite Nat.add_succ_r. destruct l as [|x l]; [rewrite !skipn_nil; reflexivity|]. cbn [skipn]. apply IH.
Qed.
Lemma slice_split text s e : s <= e <= length text ->
  text = firstn s text ++ slice text s e ++ skipn e text /\ length (slice text s e) = e - s /\ length (firstn s text) = s.
Proof.
  intros L. unfold slice. assert (LS : length (firstn s text) = s) by (apply firstn_length_le; lia).
  split; [|split; auto].
  - rewrite <- (firstn_skipn s text) at 1. f_equal.
    rewrite <- (firstn_skipn (e - s) (skipn s text)) at 1. f_equal. rewrite skipn_skipn. f_equal. lia.
  - rewrite firstn_length_le; auto. rewrite skipn_length. lia.
Qed.
Lemma slice_nth text s e k : s <= e <= length text -> k < e - s -> nth_error (slice text s e) k = nth_error text (s + k).
Proof.
  intros L K. destruct (slice_split text s e L) as (E & L1 & L2). rewrite E at 2.
  rewrite nth_error_app2 by lia. rewrite nth_error_app1 by lia. f_equal. lia.
Qed.

Lemma mapM_forall2 {A B} (f : A -> res B) : forall l l', mapM f l = Ok l' -> Forall2 (fun a b => f a = Ok b) l l'.
Proof.
  induction l as [|a l IH]; intros l' H; cbn [mapM] in H.
  - injection H as <-. constructor.
  - destruct (f a) as [b|] eqn:E; [|discriminate]. cbn [bind] in H. destruct (mapM f l) as [bs|]; [|discriminate].
    cbn [bind] in H. injection H as <-. constructor; auto.
Qed.

(** Tokens with their positions in the text. *)
Inductive placed (text : str) : nat -> list token -> Prop :=
| placed_nil (i : nat) : i <= length text -> placed text i []
| placed_cons (i s e : nat) ty ts : i <= s <= e -> e <= length text -> placed text e ts ->
    placed text i (mkToken (slice text s e) (Z.of_nat s) (Z.of_nat e) ty None None :: ts).

Lemma lexed_placed t text : forall must i l ts, lexed t text must i l -> mapM (make_token text) l = Ok ts -> placed text i ts.
Proof.
  intros must i l ts H. revert ts. induction H as [must i L N|must i s e ty rest l L1 L2 A1 A2 H IH]; intros ts M.
  - cbn in M. injection M as <-. constructor; auto.
  - cbn [mapM make_token] in M. destruct ty as [ty|]; [|discriminate]. cbn [bind] in M.
    destruct (mapM (make_token text) l) as [ts'|]; [|discriminate]. cbn [bind] in M. injection M as <-.
    constructor; auto.
Qed.
Lemma placed_from text i ts t : placed text i ts -> In t ts -> (Z.of_nat i <= t_start t)%Z.
Proof.
  induction 1 as [|i s e ty ts L1 L2 H IH]; intros HI; [destruct HI|].
  destruct HI as [<-|HI]; cbn [t_start]; [lia|]. specialize (IH HI). lia.
Qed.
Lemma placed_faithful text i ts t : placed text i ts -> In t ts -> faithful text t.
Proof.
  induction 1 as [|i s e ty ts L1 L2 H IH]; intros HI; [destruct HI|].
  destruct HI as [<-|HI]; auto. destruct (slice_split text s e ltac:(lia)) as (E & A1 & A2).
  exists (firstn s text), (skipn e text). cbn [t_value t_start t_stop]. split; [exact E|]. split; lia.
Qed.
Lemma placed_order text i ts : placed text i ts -> in_order ts.
Proof.
  induction 1 as [|i s e ty ts L1 L2 H IH]; intros l1 a l2 b l3 E.
  - destruct l1; discriminate.
  - destruct l1 as [|x l1].
    + injection E as <- ->. cbn [t_stop]. eapply placed_from; eauto. apply in_or_app. right. left. reflexivity.
    + injection E as _ ->. eapply IH; eauto.
Qed.

Lemma tokenize_placed t fuel text ts : tokenize fuel t text = Some (Ok ts) -> placed text 0 ts.
Proof.
  unfold tokenize. intros H. destruct (finditer fuel t text false 0) as [l|] eqn:F; [|discriminate].
  injection H as H. eapply lexed_placed; eauto. eapply finditer_lexed; eauto. lia.
Qed.
Lemma tokenize_faithful : forall t fuel text ts, tokenize fuel t text = Some (Ok ts) ->
  (forall tk, In tk ts -> faithful text tk) /\ in_order ts.
Proof.
  intros t fuel text ts H. apply tokenize_placed in H. split; [intros; eapply placed_faithful; eauto|eapply placed_order; eauto].
Qed.
Lemma tokenize_terminates : forall t text fuel, 2 * length text + 1 <= fuel ->
  exists r, tokenize fuel t text = Some r.
Proof.
  intros t text fuel F. unfold tokenize. destruct (finditer_fuel t text fuel false 0) as [l ->]; [lia|cbn [Nat.mul]; lia|eauto].
Qed.

(** ** Joining *)
Lemma squeeze_ext keep keep' : forall text k st gp, (forall j, k <= j < k + length text -> keep j = keep' j) ->
  squeeze keep k st gp text = squeeze keep' k st gp text.
Proof.
  induction text as [|c text IH]; intros k st gp H; [reflexivity|]. cbn [squeeze length] in *.
  rewrite (H k) by lia. destruct (keep' k); [f_equal; f_equal|]; apply IH; intros; apply H; lia.
Qed.
Lemma squeeze_skip keep : forall l k st gp rest, (forall j, k <= j < k + length l -> keep j = false) ->
  squeeze keep k st gp (l ++ rest) = squeeze keep (k + length l) st (gp || negb (Nat.eqb (length l) 0)) rest.
Proof.
  induction l as [|c l IH]; intros k st gp rest H; cbn [app length squeeze].
  - rewrite Nat.add_0_r, orb_false_r. reflexivity.
  - rewrite (H k) by (cbn [length]; lia). rewrite IH by (intros; apply H; cbn [length] in *; lia).
    replace (S k + length l) with (k + S (length l)) by lia. cbn [Nat.eqb negb orb]. rewrite orb_true_r. reflexivity.
Qed.
Lemma squeeze_keep keep : forall l k rest, (forall j, k <= j < k + length l -> keep j = true) ->
  squeeze keep k true false (l ++ rest) = l ++ squeeze keep (k + length l) true false rest.
Proof.
  induction l as [|c l IH]; intros k rest H; cbn [app length squeeze].
  - rewrite Nat.add_0_r. reflexivity.
  - rewrite (H k) by (cbn [length]; lia). cbn. f_equal. rewrite IH by (intros; apply H; cbn [length] in *; lia). f_equal. f_equal. lia.
Qed.
Lemma squeeze_none keep : forall l k st gp, (forall j, k <= j < k + length l -> keep j = false) -> squeeze keep k st gp l = [].
Proof.
  induction l as [|c l IH]; intros k st gp H; [reflexivity|]. cbn [squeeze]. rewrite (H k) by (cbn [length]; lia).
  apply IH. intros; apply H; cbn [length] in *; lia.
Qed.

Lemma covered_iff ts k : covered ts k = true <-> exists t, In t ts /\ covers t k.
Proof.
  unfold covered, covers. rewrite existsb_exists. split; intros (t & A & B); exists t; split; auto.
  - apply andb_prop in B as [B1 B2]. lia.
  - apply andb_true_intro. split; lia.
Qed.
Lemma covered_false ts k : (forall t, In t ts -> ~ covers t k) -> covered ts k = false.
Proof. intros H. destruct (covered ts k) eqn:E; auto. apply covered_iff in E as (t & A & B). destruct (H t A B). Qed.

Lemma join_squeeze text : forall ts i prev,
  placed text i ts -> (forall t, In t ts -> t_value t <> []) -> i <= length text ->
  (forall p, prev = Some p -> p = Z.of_nat i) ->
  concat (format_tokens prev ts) =
    squeeze (covered ts) i (match prev with Some _ => true | None => false end) false (skipn i text).
Proof.
  intros ts i prev H. revert prev. induction H as [i L|i s e ty ts L1 L2 H IH]; intros prev NE LI PV.
  - cbn [format_tokens concat]. symmetry. apply squeeze_none. reflexivity.
  - cbn [format_tokens t_value t_start t_stop]. rewrite concat_app. cbn [concat].
    rewrite (IH (Some (Z.of_nat e))); [|intros; apply NE; right; auto|auto|congruence].
    set (tk := mkToken (slice text s e) (Z.of_nat s) (Z.of_nat e) ty None None).
    assert (SE : s < e).
    { destruct (Nat.eq_dec s e) as [->|]; [|lia]. exfalso. apply (NE tk); [left; reflexivity|].
      unfold tk. cbn [t_value]. unfold slice. rewrite Nat.sub_diag. reflexivity. }
    (* the text from i: gap, token, rest *)
    assert (E1 : skipn i text = slice text i s ++ slice text s e ++ skipn e text).
    { unfold slice. rewrite <- (firstn_skipn (s - i) (skipn i text)) at 1. f_equal. rewrite skipn_skipn.
      replace (s - i + i) with s by lia.
      rewrite <- (firstn_skipn (e - s) (skipn s text)) at 1. f_equal. rewrite skipn_skipn. f_equal. lia. }
    assert (LG : length (slice text i s) = s - i) by (apply (slice_split text i s); lia).
    assert (LT : length (slice text s e) = e - s) by (apply (slice_split text s e); lia).
    assert (FROM : forall t, In t ts -> (Z.of_nat e <= t_start t)%Z) by (intros; eapply placed_from; eauto).
    assert (CG : forall j, i <= j < s -> covered (tk :: ts) j = false).
    { intros j J. apply covered_false. intros t [<-|HT] CV; unfold covers in CV; cbn [tk t_start t_stop] in CV; [lia|].
      specialize (FROM t HT). lia. }
    assert (CT : forall j, s <= j < e -> covered (tk :: ts) j = true).
    { intros j J. apply covered_iff. exists tk. split; [left; auto|]. unfold covers. cbn [tk t_start t_stop]. lia. }
    assert (CR : forall j, e <= j -> covered (tk :: ts) j = covered ts j).
    { intros j J. unfold covered. cbn [existsb tk t_start t_stop].
      replace (Z.of_nat j <? Z.of_nat e)%Z with false by lia. rewrite andb_false_r. reflexivity. }
    rewrite E1, squeeze_skip by (rewrite LG; intros; apply CG; lia). rewrite LG.
    destruct (slice text s e) as [|c sl] eqn:ES; [cbn in LT; lia|]. cbn [app squeeze].
    rewrite (CT (i + (s - i))) by lia. rewrite app_comm_cons.
    cbn [length] in LT.
    rewrite squeeze_keep by (intros; apply CT; lia).
    replace (S (i + (s - i)) + length sl) with e by lia.
    rewrite (squeeze_ext (covered (tk :: ts)) (covered ts)) by (intros; apply CR; lia).
    replace (concat _) with (if match prev with Some _ => true | None => false end && (false || negb (Nat.eqb (s - i) 0)) then [32%N] else []).
    { reflexivity. }
    destruct prev as [p|]; [|reflexivity]. rewrite (PV p eq_refl). cbn [andb orb].
    destruct (Nat.eqb_spec (s - i) 0); cbn [negb].
    + replace (0 <? Z.of_nat s - Z.of_nat i)%Z with false by lia. reflexivity.
    + replace (0 <? Z.of_nat s - Z.of_nat i)%Z with true by lia. reflexivity.
Qed.
Lemma join_tokens_squeeze : forall t fuel text ts, tokenize fuel t text = Some (Ok ts) ->
  (forall tk, In tk ts -> t_value tk <> []) ->
  join_tokens ts = squeeze (covered ts) 0 false false text.
Proof.
  intros t fuel text ts H NE. apply tokenize_placed in H. unfold join_tokens.
  rewrite (join_squeeze text ts 0 None); auto; [lia|discriminate].
Qed.
