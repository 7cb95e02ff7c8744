(** The number of states of the chart and of the objects made. *)
From Verif Require Import Base EarleyModel EarleySpec EarleyInv EarleyProofs EarleyTerm SizeSpec.
Open Scope nat_scope.

Lemma grouped {A K} (dec : forall x y : K, {x = y} + {x <> y}) (f : A -> K) m : forall keys l, (forall a, In a l -> In (f a) keys) ->
  (forall k, In k keys -> length (filter (fun a => if dec (f a) k then true else false) l) <= m) -> length l <= m * length keys.
Proof.
  induction keys as [|k keys IH]; intros l H G; [destruct l as [|a l]; [cbn; lia|destruct (H a (or_introl eq_refl))]|].
  set (p := fun a => if dec (f a) k then true else false). assert (L : length l = length (filter p l) + length (filter (fun a => negb (p a)) l)).
  { clear. induction l as [|a l IH]; cbn; [reflexivity|]. destruct (p a); cbn; lia. }
  assert (length (filter p l) <= m) by (apply G; left; reflexivity).
  assert (length (filter (fun a => negb (p a)) l) <= m * length keys); [|cbn [length]; lia].
  apply IH.
  - intros a Ha. apply filter_In in Ha as [Ha N]. destruct (H a Ha) as [E|E]; [|exact E]. unfold p in N. destruct (dec (f a) k); [discriminate|congruence].
  - intros k' Hk'. etransitivity; [|apply (G k' (or_intror Hk'))]. clear. induction l as [|a l IH]; cbn; [lia|]. destruct (negb (p a)); cbn; destruct (dec (f a) k'); cbn; lia.
Qed.

Section Size.
  Context {token pred : Type}.
  Variable accepts : pred -> token -> bool.
  Variable constrain : pred -> token -> token.
  Variable g : grammar token pred.
  Variable toks : list token.
  Variable all : bool.
  Variable rules : list nat.
  Hypothesis FIN : finite_grammar g rules.
  Hypothesis PS : predict_sound g.

  Notation state := (state token pred).
  Notation cst := (cst token pred).
  Notation Inv := (Inv accepts constrain g toks).
  Notation sok := (sok accepts constrain g toks).
  Notation rules_inv := (rules_inv rules).

  (** ** Columns *)
  Definition keys (k : nat) : list (nat * nat * nat * nat) :=
    flat_map (fun r => flat_map (fun q => flat_map (fun n => map (fun i => (r, q, n, i)) (seq 0 (S k))) (seq 0 (S (length (g_terms g q))))) (g_prods g r)) rules.
  Lemma sum_cons a l : list_sum (a :: l) = a + list_sum l.
  Proof. reflexivity. Qed.
  Lemma flat_map_sum {A B} (f : A -> list B) l : length (flat_map f l) = list_sum (map (fun a => length (f a)) l).
  Proof. induction l; [reflexivity|]. cbn [flat_map map]. rewrite app_length, IHl, sum_cons. reflexivity. Qed.
  Lemma sum_const {A} (l : list A) c : list_sum (map (fun _ => c) l) = length l * c.
  Proof. induction l; [reflexivity|]. cbn [map]. rewrite sum_cons, IHl. reflexivity. Qed.
  Lemma sum_scale {A} (f : A -> nat) (l : list A) c : list_sum (map (fun a => f a * c) l) = list_sum (map f l) * c.
  Proof. induction l; [reflexivity|]. cbn [map]. rewrite !sum_cons, IHl. lia. Qed.
  Lemma keys_length k : length (keys k) = places g rules * S k.
  Proof.
    unfold keys, places. rewrite flat_map_sum, <- sum_scale. f_equal. apply map_ext. intros r. rewrite flat_map_sum, <- sum_scale. f_equal. apply map_ext. intros q.
    rewrite flat_map_sum. rewrite (map_ext _ (fun _ => S k)) by (intros; rewrite map_length, seq_length; reflexivity). rewrite sum_const, seq_length. reflexivity.
  Qed.
  Definition key_of (e : nat * nat * nat * nat * list (dtree pred)) : nat * nat * nat * nat := fst e.
  Lemma key_dec : forall x y : nat * nat * nat * nat, {x = y} + {x <> y}.
  Proof. decide equality; [apply Nat.eq_dec|]. decide equality; [apply Nat.eq_dec|]. decide equality; apply Nat.eq_dec. Qed.
  Lemma column_size m K I st k : readings accepts g toks m -> Inv K I st -> rules_inv st -> length (cols st k) <= m * (places g rules * S k).
  Proof.
    intros RD V R. rewrite <- keys_length, <- (map_length serase). apply (grouped key_dec key_of).
    - intros e He. apply in_map_iff in He as (s & <- & Hs). pose proof (inv_ok _ _ _ _ _ _ _ V _ _ Hs) as OK. pose proof (sok_prod _ _ _ _ PS _ _ OK) as Hp. pose proof (start_le _ _ _ _ _ _ OK) as Hle. destruct OK as (_ & _ & A3 & _).
      cbn. unfold keys. apply in_flat_map. exists (s_rule s). split; [apply (R _ _ Hs)|]. apply in_flat_map. exists (s_prod s). split; [exact Hp|]. apply in_flat_map. exists (s_dot s). split; [apply in_seq; lia|]. apply in_map. apply in_seq. lia.
    - intros [[[r q] n] i] Hk. unfold keys in Hk. apply in_flat_map in Hk as (r' & _ & Hk). apply in_flat_map in Hk as (q' & Hq & Hk). apply in_flat_map in Hk as (n' & _ & Hk). apply in_map_iff in Hk as (i' & E & _). injection E as -> -> -> ->.
      set (l := filter _ _). rewrite <- (map_length snd l). apply (RD r q n i k Hq).
      + assert (N : NoDup l) by (apply NoDup_filter, (inv_nodup _ _ _ _ _ _ _ V k)). assert (F : forall e, In e l -> fst e = (r, q, n, i)) by (intros e He; apply filter_In in He as [_ He]; unfold key_of in He; destruct (key_dec (fst e) (r, q, n, i)); [assumption|discriminate]).
        clearbody l. induction N as [|e l N1 N2 IH]; cbn; [constructor|]. constructor; [|apply IH; intros; apply F; right; assumption]. intros H. apply in_map_iff in H as (e' & E & H). apply N1. replace e with e'; [exact H|]. rewrite (surjective_pairing e), (surjective_pairing e'), E, (F e), (F e'); cbn; auto.
      + intros ds Hds. apply in_map_iff in Hds as (e & <- & He). apply filter_In in He as [He Hk]. apply in_map_iff in He as (s & <- & Hs). unfold key_of, serase in Hk. cbn in Hk. destruct (key_dec _ _) as [E|]; [|discriminate]. injection E as E1 E2 E3 E4. cbn.
        destruct (inv_ok _ _ _ _ _ _ _ V _ _ Hs) as (_ & _ & _ & _ & _ & A6). rewrite E2, E3, E4 in A6. apply (proj2 (node_ok_derives accepts constrain g toks PS)) in A6. exact A6.
  Qed.

  (** ** The run ends, and makes so many objects *)
  Variable B : nat.
  Hypothesis HB : forall K I st k, Inv K I st -> rules_inv st -> k <= length toks -> length (cols st k) <= B.
  Variable P : nat.
  Hypothesis HP : alternatives g toks P.
  Lemma predict_loop_fresh K r : forall prods rank (st : cst), fresh (predict_loop K r rank prods st) = length prods + fresh st.
  Proof. induction prods as [|q prods IH]; intros rank st; cbn [predict_loop]; [reflexivity|]. rewrite IH, append_fresh. cbn. lia. Qed.
  Lemma predict_fresh K r (st : cst) : fresh (predict g toks K r st) <= P + fresh st.
  Proof. unfold predict. rewrite predict_loop_fresh. unfold predicted. destruct (HP r) as [H1 H2]. destruct (nth_error toks K) as [t|] eqn:E; [specialize (H2 t (nth_error_In _ _ E))|]; lia. Qed.
  Lemma complete_loop_size K I s : completed g s = true -> K <= length toks -> forall fuel j st, Inv K I st -> rules_inv st -> In s (cols st K) -> j <= B -> B <= fuel + j ->
    exists st', complete_loop g fuel K s j st = Some st' /\ fresh st' <= fresh st + (B - j).
  Proof.
    intros C HK. induction fuel as [|fuel IH]; intros j st V R Hs Hj HF.
    - cbn [complete_loop]. replace (nth_error (expecting g (s_start s) (s_rule s) st) j) with (@None state); [eexists; split; [reflexivity|lia]|]. symmetry. apply nth_error_None. etransitivity; [apply filter_length|].
      etransitivity; [eapply HB; eauto|lia]. pose proof (start_le _ _ _ _ _ _ (inv_ok _ _ _ _ _ _ _ V _ _ Hs)). lia.
    - cbn [complete_loop]. destruct (nth_error (expecting g (s_start s) (s_rule s) st) j) as [parent|] eqn:E; [|eexists; split; [reflexivity|lia]].
      assert (j < B). { assert (j < length (expecting g (s_start s) (s_rule s) st)) by (apply nth_error_Some; congruence). assert (length (expecting g (s_start s) (s_rule s) st) <= length (cols st (s_start s))) by apply filter_length.
        assert (length (cols st (s_start s)) <= B) by (eapply HB; eauto; pose proof (start_le _ _ _ _ _ _ (inv_ok _ _ _ _ _ _ _ V _ _ Hs)); lia). lia. }
      apply expecting_in in E as [E1 E2]. assert (O : op g toks all K st (append K (advance K parent s (fresh st)) (alloc st))) by (apply op_complete; auto).
      destruct (IH (S j) (append K (advance K parent s (fresh st)) (alloc st))) as (st' & E & F); try lia.
      + eapply op_inv; eauto.
      + eapply op_rules; eauto.
      + eapply ext_in; [eapply op_ext; eauto|]; auto.
      + exists st'. split; [exact E|]. rewrite append_fresh in F. cbn in F. lia.
  Qed.
  Lemma process_size fuel K I s st : K <= length toks -> Inv K I st -> rules_inv st -> nth_error (cols st K) I = Some s -> B <= fuel ->
    exists st', process accepts constrain g toks fuel K s st = Some st' /\ fresh st' <= fresh st + (P + B + 2).
  Proof.
    intros HK V R Hn HF. unfold process. destruct (next_term g s) as [[r|p]|] eqn:E.
    - eexists. split; [reflexivity|]. pose proof (predict_fresh K r st). lia.
    - destruct (nth_error toks K) as [t|]; [|eexists; split; [reflexivity|lia]]. eexists. split; [reflexivity|]. unfold scan. destruct (accepts p t); [rewrite append_fresh; cbn; lia|lia].
    - destruct (complete_loop_size K I s ltac:(unfold EarleyModel.completed; rewrite E; reflexivity) HK fuel 0 st V R (nth_error_In _ _ Hn) ltac:(lia) ltac:(lia)) as (st' & E' & F). exists st'. split; [exact E'|]. lia.
  Qed.
  Lemma drain_size K : K <= length toks -> forall fuel I st, Inv K I st -> rules_inv st -> I <= B -> S (B + B) <= fuel + I ->
    exists st', drain accepts constrain g toks fuel K I st = Some st' /\ rules_inv st' /\ Inv (S K) 0 st' /\ fresh st' <= fresh st + (B - I) * (P + B + 2).
  Proof.
    intros HK. induction fuel as [|fuel IH]; intros I st V R HI HF; [lia|]. cbn [drain]. destruct (nth_error (cols st K) I) as [s|] eqn:E.
    - assert (I < length (cols st K)) by (apply nth_error_Some; congruence). pose proof (HB _ _ _ _ V R HK).
      destruct (process_size (S fuel) K I s st HK V R E) as (st' & PR & F); [lia|]. rewrite PR.
      destruct (IH (S I) st') as (st2 & D & R2 & V2 & F2); try lia.
      + eapply process_inv; eauto.
      + eapply process_rules; eauto.
      + exists st2. split; [exact D|]. split; [exact R2|]. split; [exact V2|]. replace (B - I) with (S (B - S I)) by lia. rewrite Nat.mul_succ_l. revert F F2. generalize ((B - S I) * (P + B + 2)). clear. lia.
    - exists st. split; [reflexivity|]. split; [exact R|]. split; [eapply Inv_next; eauto|apply Nat.le_add_r].
  Qed.
  Lemma chart_from_size fuel : S (B + B) <= fuel -> forall n k st, Inv k 0 st -> rules_inv st -> k + n <= S (length toks) ->
    exists st', chart_from accepts constrain g toks fuel all k n st = Some st' /\ rules_inv st' /\ fresh st' <= fresh st + n * (P + B * (P + B + 2)).
  Proof.
    intros HF. induction n as [|n IH]; intros k st V R L; cbn [chart_from]; [exists st; split; [reflexivity|]; split; [exact R|lia]|].
    pose proof (start_column_ops g toks all k st) as O.
    assert (F0 : fresh (start_column g toks all k st) <= P + fresh st) by (unfold start_column; destruct (Nat.eqb k 0 || all); [apply predict_fresh|lia]).
    destruct (drain_size k ltac:(lia) fuel 0 (start_column g toks all k st)) as (st' & D & R' & V' & F'); try lia.
    - eapply ops_inv; eauto.
    - eapply ops_rules; eauto.
    - rewrite D. destruct (IH (S k) st' V' R' ltac:(lia)) as (st2 & E2 & R2 & F2). exists st2. split; [exact E2|]. split; [exact R2|]. rewrite Nat.sub_0_r in F'. rewrite Nat.mul_succ_l. revert F0 F' F2. generalize (B * (P + B + 2)). clear. intros x. generalize (n * (P + x)). lia.
  Qed.
  Lemma chart_size_bound fuel : S (B + B) <= fuel -> exists st, chart accepts constrain g toks fuel all = Some st /\ rules_inv st /\ fresh st <= S (length toks) * (P + B * (P + B + 2)).
  Proof.
    intros HF. unfold chart. destruct (chart_from_size fuel HF (S (length toks)) 0 init_cst) as (st & E & R & F); [apply Inv_init|intros k s []|lia|]. exists st. split; [exact E|]. split; [exact R|]. cbn [fresh init_cst] in F. lia.
  Qed.
End Size.

Section Bounds.
  Context {token pred : Type}.
  Variable accepts : pred -> token -> bool.
  Variable constrain : pred -> token -> token.
  Theorem chart_bounded (g : grammar token pred) rules toks m p all : finite_grammar g rules -> predict_sound g -> alternatives g toks p -> readings accepts g toks m ->
    let b := m * (places g rules * S (length toks)) in
    forall fuel, 2 * b + 1 <= fuel -> exists st, chart accepts constrain g toks fuel all = Some st /\
    (forall k, k <= length toks -> length (cols st k) <= m * (places g rules * S k)) /\ fresh st <= S (length toks) * (p + b * (p + b + 2)).
  Proof.
    intros FIN PS HP RD b fuel HF.
    destruct (chart_size_bound accepts constrain g toks all rules FIN PS b) with (P := p) (fuel := fuel) as (st & E & R & F); auto.
    - intros K I st k V R Hk. etransitivity; [eapply column_size; eauto|]. unfold b. apply Nat.mul_le_mono_l, Nat.mul_le_mono_l. lia.
    - lia.
    - exists st. split; [exact E|]. split; [|exact F]. intros k _. destruct (chart_spec accepts constrain g toks all fuel st E) as (V & _). eapply column_size; eauto.
  Qed.
End Bounds.
