(** Termination of chart construction for grammars without derivation cycles. *)
From Verif Require Import Base EarleyModel EarleySpec EarleyInv EarleyProofs.

Fixpoint depth {pred} (d : dtree pred) : nat :=
  match d with
  | DLeaf _ _ => 0
  | DNode _ _ ds => S (list_max (map depth ds))
  end.

Section Term.
  Context {token pred : Type}.
  Variable accepts : pred -> token -> bool.
  Variable constrain : pred -> token -> token.
  Variable g : grammar token pred.
  Variable toks : list token.
  Variable all : bool.

  Notation state := (state token pred).
  Notation cst := (cst token pred).
  Notation node := (node token pred).
  Notation predicted := (predicted g toks).
  Notation next_term := (next_term g).
  Notation completed := (completed g).
  Notation expects := (expects g).
  Notation Inv := (Inv accepts constrain g toks).
  Notation sok := (sok accepts constrain g toks).
  Notation derives := (derives accepts g toks).
  Notation derives_seq := (derives_seq accepts g toks).
  Notation op := (op g toks all).
  Notation ops := (ops g toks all).
  Notation scan_op := (scan_op accepts constrain g toks).

  (** ** A finite universe of derivations *)
  Fixpoint enum_seq (f : term pred -> nat -> nat -> list (dtree pred))
      (ts : list (term pred)) (i j : nat) : list (list (dtree pred)) :=
    match ts with
    | [] => [[]]
    | t :: ts' =>
        flat_map (fun k => flat_map (fun d => map (cons d) (enum_seq f ts' k j)) (f t i k))
                 (seq i (S (j - i)))
    end.
  Fixpoint enum (D : nat) (t : term pred) (i j : nat) : list (dtree pred) :=
    match t with
    | TPred p => [DLeaf i p]
    | TRule r =>
        match D with
        | 0 => []
        | S D' => flat_map (fun q => map (DNode r q) (enum_seq (enum D') (g_terms g q) i j))
                           (g_prods g r)
        end
    end.

  Lemma enum_seq_in f ts i j ds : derives_seq ts i j ds ->
    (forall t a b d, In d ds -> derives t a b d -> In d (f t a b)) ->
    In ds (enum_seq f ts i j).
  Proof.
    induction 1 as [i|t ts i k j d ds Hd Hs IH]; intros F; [left; auto|].
    cbn [enum_seq]. apply in_flat_map. exists k. split.
    - apply in_seq. pose proof (proj1 (proj1 (derives_span accepts g toks) _ _ _ _ Hd)).
      pose proof (proj1 (proj2 (derives_span accepts g toks) _ _ _ _ Hs)). lia.
    - apply in_flat_map. exists d. split. apply F; simpl; auto.
      apply in_map. apply IH. intros; apply F; simpl; auto.
  Qed.

  Lemma list_max_in l x : In x l -> x <= list_max l.
  Proof.
    intros H. pose proof (proj1 (list_max_le l (list_max l)) (le_n _)) as F.
    rewrite Forall_forall in F. auto.
  Qed.

  Lemma enum_in : forall D t i j d, derives t i j d -> depth d <= D -> In d (enum D t i j).
  Proof.
    induction D as [|D IH]; intros t i j d H HD; destruct H as [p i t H1 H2|r q i j ds H1 H2];
      simpl in *; auto; try lia.
    apply in_flat_map. exists q. split; auto. apply in_map.
    apply enum_seq_in; auto. intros t a b d Hd Hder. apply IH; auto.
    assert (depth d <= list_max (map depth ds)) by (apply list_max_in; apply in_map; auto).
    lia.
  Qed.

  Lemma derives_empty :
    (forall t i j d, derives t i j d -> i = j -> nullable g t) /\
    (forall ts i j ds, derives_seq ts i j ds -> i = j -> forall t, In t ts -> nullable g t).
  Proof.
    apply derives_mutind.
    - intros; lia.
    - intros r q i j ds H1 H2 IH E. econstructor; eauto.
    - intros i _ t [].
    - intros t ts i k j d ds Hd IH1 Hs IH2 E.
      pose proof (proj1 (proj1 (derives_span accepts g toks) _ _ _ _ Hd)).
      pose proof (proj1 (proj2 (derives_span accepts g toks) _ _ _ _ Hs)).
      intros t' [<-|Ht']. apply IH1; lia. apply IH2; auto; lia.
  Qed.

  Variable rules : list nat.
  Hypothesis FIN : finite_grammar g rules.
  Hypothesis PS : predict_sound g.
  Variable level : nat -> nat.
  Hypothesis LEVEL : forall r q pre r' post,
      In q (g_prods g r) -> g_terms g q = pre ++ TRule r' :: post ->
      (forall t, In t (pre ++ post) -> nullable g t) ->
      level r' < level r.

  Definition maxlevel := list_max (map level rules).
  Definition dbound (n l : nat) := n * S maxlevel + l.

  Lemma level_max r : In r rules -> level r <= maxlevel.
  Proof. intros H. apply list_max_in. apply in_map. auto. Qed.

  Lemma depth_bound :
    (forall t i j d, derives t i j d -> forall r, t = TRule r -> In r rules ->
       depth d <= dbound (j - i) (S (level r))) /\
    (forall ts a j ds, derives_seq ts a j ds -> forall r q i pre,
       In r rules -> In q (g_prods g r) -> g_terms g q = pre ++ ts -> i <= a ->
       (a = i -> forall t, In t pre -> nullable g t) ->
       forall d, In d ds -> depth d <= dbound (j - i) (level r)).
  Proof.
    apply derives_mutind.
    - intros; discriminate.
    - intros r q i j ds Hq Hs IH r' E Hr. injection E as <-. simpl.
      assert (list_max (map depth ds) <= dbound (j - i) (level r)).
      { apply list_max_le. apply Forall_forall. intros x Hx. apply in_map_iff in Hx as (d & <- & Hd).
        eapply (IH r q i []); eauto. intros _ t []. }
      unfold dbound in *. lia.
    - intros i r q i' pre _ _ _ _ _ d [].
    - intros t ts a k j d ds Hd IH1 Hs IH2 r q i pre Hr Hq Ht Hi Hpre.
      pose proof (proj1 (proj1 (derives_span accepts g toks) _ _ _ _ Hd)) as L1.
      pose proof (proj1 (proj2 (derives_span accepts g toks) _ _ _ _ Hs)) as L2.
      intros d' [<-|Hd'].
      + destruct t as [r'|p].
        * assert (Hr' : In r' rules).
          { destruct FIN as [_ F]. eapply (F r q); eauto. rewrite Ht. apply in_or_app. right. left. auto. }
          specialize (IH1 r' eq_refl Hr').
          destruct (Nat.eq_dec (k - a) (j - i)) as [E|N].
          -- assert (a = i /\ k = j) as [-> ->] by lia.
             assert (level r' < level r).
             { eapply LEVEL; eauto. intros t Hin. apply in_app_or in Hin as [Hin|Hin]; auto.
               eapply (proj2 derives_empty); eauto. }
             unfold dbound in *. lia.
          -- pose proof (level_max r' Hr').
             assert (k - a <= (j - i) - 1) by lia.
             assert ((k - a) * S maxlevel <= ((j - i) - 1) * S maxlevel)
               by (apply Nat.mul_le_mono_r; auto).
             assert (((j - i) - 1) * S maxlevel + S maxlevel = (j - i) * S maxlevel).
             { destruct (j - i) eqn:F; [lia|]. simpl. lia. }
             unfold dbound in *. lia.
        * inversion Hd; subst. simpl. lia.
      + eapply (IH2 r q i (pre ++ [t])); eauto.
        * rewrite <- app_assoc. auto.
        * lia.
        * intros -> t' Hin. apply in_app_or in Hin as [Hin|[<-|[]]].
          -- apply Hpre; auto. lia.
          -- eapply (proj1 derives_empty); eauto. lia.
  Qed.

  (** ** States of a column *)
  Definition universe (k : nat) : list (nat * nat * nat * nat * list (dtree pred)) :=
    flat_map (fun r => flat_map (fun q => flat_map (fun dot => flat_map (fun i =>
      map (fun ds => (r, q, dot, i, ds))
          (enum_seq (enum (dbound (length toks) (S maxlevel)))
                    (firstn dot (g_terms g q)) i k))
      (seq 0 (S k))) (seq 0 (S (length (g_terms g q))))) (g_prods g r)) rules.

  Definition rules_inv (st : cst) : Prop :=
    forall k s, In s (cols st k) -> In (s_rule s) rules.

  Lemma sok_prod k s : sok k s -> In (s_prod s) (g_prods g (s_rule s)).
  Proof.
    intros (_ & _ & _ & H & _). eapply predicted_sound; eauto. eapply nth_error_In; eauto.
  Qed.

  Lemma sok_universe k s : k <= length toks -> sok k s -> In (s_rule s) rules ->
    In (serase s) (universe k).
  Proof.
    intros Hk OK Hr. pose proof (sok_prod _ _ OK) as Hp.
    destruct OK as (A1 & A2 & A3 & A4 & A5 & A6).
    unfold universe, serase.
    apply in_flat_map. exists (s_rule s). split; auto.
    apply in_flat_map. exists (s_prod s). split; auto.
    apply in_flat_map. exists (s_dot s). split; [apply in_seq; lia|].
    pose proof (proj2 (node_ok_derives accepts constrain g toks PS) _ _ _ _ A6) as D.
    pose proof (proj2 (derives_span accepts g toks) _ _ _ _ D) as (L1 & _).
    apply in_flat_map. exists (s_start s). split; [apply in_seq; lia|].
    apply in_map. apply enum_seq_in; auto.
    intros t a b d Hd Hder. apply enum_in; auto.
    (* children are derivations of rules in [rules] inside the text *)
    assert (GEN : forall ts i j ds, derives_seq ts i j ds -> j <= length toks ->
      (forall r, In (TRule r) ts -> In r rules) ->
      forall d, In d ds -> depth d <= dbound (length toks) (S maxlevel)).
    { clear - FIN LEVEL. induction 1 as [i|t ts i k j d ds Hd Hs IH]; intros Hj HR d' Hin; [destruct Hin|].
      pose proof (proj1 (proj1 (derives_span accepts g toks) _ _ _ _ Hd)) as L1.
      pose proof (proj1 (proj2 (derives_span accepts g toks) _ _ _ _ Hs)) as L2.
      destruct Hin as [<-|Hin].
      - destruct t as [r|p].
        + assert (Hr : In r rules) by (apply HR; left; auto).
          pose proof (proj1 depth_bound _ _ _ _ Hd r eq_refl Hr) as B.
          pose proof (level_max r Hr).
          assert ((k - i) * S maxlevel <= length toks * S maxlevel)
            by (apply Nat.mul_le_mono_r; lia).
          unfold dbound in *. lia.
        + inversion Hd; subst. simpl. lia.
      - apply IH; auto. intros r Hr. apply HR. right. auto. }
    eapply GEN; [exact D|auto| |exact Hd].
    intros r Hin. destruct FIN as [_ F]. eapply F; [exact Hr|exact Hp|].
    rewrite <- (firstn_skipn (s_dot s) (g_terms g (s_prod s))). apply in_or_app. auto.
  Qed.

  Lemma op_rules K I a b : Inv K I a -> op K a b -> rules_inv a -> rules_inv b.
  Proof.
    intros V O R. destruct O as [r rank q MP HN HP|s parent Hs C Hp X]; intros k y Hy;
      apply append_in in Hy as [Hy|[-> ->]]; simpl.
    - eapply R; exact Hy.
    - destruct MP as [[-> _]|(s & Hs & Hx)]; [apply FIN|].
      destruct FIN as [_ F]. eapply F; [eapply R; eauto| |].
      + eapply sok_prod. eapply inv_ok; eauto.
      + apply expects_term in Hx. eapply nth_error_In; exact Hx.
    - eapply R; exact Hy.
    - eapply R; exact Hp.
  Qed.

  Lemma scan_op_rules K I a b : scan_op K I a b -> rules_inv a -> rules_inv b.
  Proof.
    intros O R. destruct O as [s p t Hn HT Ht HA]. intros k y Hy.
    apply append_in in Hy as [Hy|[-> ->]].
    - eapply R; exact Hy.
    - simpl. eapply R. eapply nth_error_In; eauto.
  Qed.

  Lemma ops_rules K I a b : ops K a b -> Inv K I a -> rules_inv a -> rules_inv b.
  Proof.
    induction 1; auto. intros. apply IHops. eapply op_inv; eauto. eapply op_rules; eauto.
  Qed.

  Definition bound : nat := list_max (map (fun k => length (universe k)) (seq 0 (S (length toks)))).

  Lemma column_bound K I st k : Inv K I st -> rules_inv st -> k <= length toks ->
    length (cols st k) <= bound.
  Proof.
    intros V R Hk. rewrite <- (map_length serase).
    transitivity (length (universe k)).
    - apply NoDup_incl_length. eapply inv_nodup; eauto.
      intros e He. apply in_map_iff in He as (s & <- & Hs).
      apply sok_universe; auto. eapply inv_ok; eauto. eapply R; eauto.
    - apply list_max_in. apply in_map_iff. exists k. split; auto. apply in_seq. lia.
  Qed.

  Lemma start_le k s : sok k s -> s_start s <= k.
  Proof.
    intros (_ & _ & _ & _ & _ & A6). eapply (proj2 (node_ok_le accepts constrain g toks)); eauto.
  Qed.

  Lemma filter_length {A} (f : A -> bool) l : length (filter f l) <= length l.
  Proof. induction l; simpl; auto. destruct (f a); simpl; lia. Qed.

  Lemma complete_loop_some K I s : completed s = true -> K <= length toks -> forall fuel j st,
    Inv K I st -> rules_inv st -> In s (cols st K) -> bound <= fuel + j ->
    exists st', complete_loop g fuel K s j st = Some st'.
  Proof.
    intros C HK. induction fuel as [|fuel IH]; intros j st V R Hs B.
    - cbn [complete_loop].
      replace (nth_error (expecting g (s_start s) (s_rule s) st) j) with (@None state); eauto.
      symmetry. apply nth_error_None. etransitivity; [apply filter_length|].
      etransitivity; [eapply column_bound; eauto|lia].
      pose proof (start_le _ _ (inv_ok _ _ _ _ _ _ _ V _ _ Hs)). lia.
    - cbn [complete_loop].
      destruct (nth_error (expecting g (s_start s) (s_rule s) st) j) as [parent|] eqn:E; eauto.
      apply expecting_in in E as [E1 E2].
      assert (O : op K st (append K (advance K parent s (fresh st)) (alloc st)))
        by (apply op_complete; auto).
      apply IH; try lia.
      + eapply op_inv; eauto.
      + eapply op_rules; eauto.
      + eapply ext_in; [eapply op_ext; eauto|]; auto.
  Qed.

  Lemma process_some fuel K I s st : K <= length toks ->
    Inv K I st -> rules_inv st -> nth_error (cols st K) I = Some s -> bound <= fuel ->
    exists st', process accepts constrain g toks fuel K s st = Some st'.
  Proof.
    intros HK V R Hn B. unfold process.
    destruct (next_term s) as [[r|p]|] eqn:E; eauto.
    - destruct (nth_error toks K); eauto.
    - eapply complete_loop_some; eauto; try lia.
      + unfold EarleyModel.completed. rewrite E. auto.
      + eapply nth_error_In; eauto.
  Qed.

  Lemma process_rules fuel K I s st st' :
    Inv K I st -> rules_inv st -> nth_error (cols st K) I = Some s ->
    process accepts constrain g toks fuel K s st = Some st' -> rules_inv st'.
  Proof.
    intros V R Hn H. eapply process_ops with (all := all) in H as [H|H]; [| |exact Hn].
    - eapply ops_rules; eauto.
    - eapply scan_op_rules; eauto.
  Qed.

  Lemma drain_some K : K <= length toks -> forall fuel I st,
    Inv K I st -> rules_inv st -> I <= bound -> S (bound + bound) <= fuel + I ->
    exists st', drain accepts constrain g toks fuel K I st = Some st' /\ rules_inv st' /\
                Inv (S K) 0 st'.
  Proof.
    intros HK. induction fuel as [|fuel IH]; intros I st V R HI B.
    - lia.
    - cbn [drain]. destruct (nth_error (cols st K) I) as [s|] eqn:E.
      + assert (I < length (cols st K)) by (apply nth_error_Some; congruence).
        pose proof (column_bound _ _ _ _ V R HK).
        destruct (process_some (S fuel) K I s st HK V R E) as [st' P]; [lia|].
        rewrite P. apply IH; try lia.
        * eapply process_inv; eauto.
        * eapply process_rules; eauto.
      + exists st. split; [auto|]. split; [auto|]. eapply Inv_next; eauto.
  Qed.

  Definition enough_fuel : nat := S (bound + bound).

  Lemma chart_from_some fuel : enough_fuel <= fuel -> forall n k st,
    Inv k 0 st -> rules_inv st -> k + n <= S (length toks) ->
    exists st', chart_from accepts constrain g toks fuel all k n st = Some st'.
  Proof.
    intros HF. induction n as [|n IH]; intros k st V R B; cbn [chart_from]; eauto.
    pose proof (start_column_ops g toks all k st) as O.
    destruct (drain_some k ltac:(lia) fuel 0 (start_column g toks all k st))
      as (st' & D & R' & V').
    - eapply ops_inv; eauto.
    - eapply ops_rules; eauto.
    - lia.
    - unfold enough_fuel in HF. lia.
    - rewrite D. apply IH; auto. lia.
  Qed.

  Lemma chart_some fuel : enough_fuel <= fuel ->
    exists st, chart accepts constrain g toks fuel all = Some st.
  Proof.
    intros HF. unfold chart. apply chart_from_some; auto; try lia.
    - apply Inv_init.
    - intros k s [].
  Qed.
End Term.

(** ** More fuel does not change the result *)
Section Fuel.
  Context {token pred : Type}.
  Variable accepts : pred -> token -> bool.
  Variable constrain : pred -> token -> token.
  Variable g : grammar token pred.
  Variable toks : list token.

  Lemma complete_loop_fuel K s : forall fuel j st st' fuel',
    complete_loop g fuel K s j st = Some st' -> fuel <= fuel' ->
    complete_loop (token := token) (pred := pred) g fuel' K s j st = Some st'.
  Proof.
    induction fuel as [|fuel IH]; intros j st st' fuel' H L.
    - cbn [complete_loop] in H. destruct fuel'; cbn [complete_loop];
        destruct (nth_error (expecting g (s_start s) (s_rule s) st) j); congruence.
    - destruct fuel' as [|fuel']; [lia|]. cbn [complete_loop] in *.
      destruct (nth_error (expecting g (s_start s) (s_rule s) st) j); auto.
      eapply IH; eauto. lia.
  Qed.

  Lemma process_fuel K s st st' fuel fuel' :
    process accepts constrain g toks fuel K s st = Some st' -> fuel <= fuel' ->
    process accepts constrain g toks fuel' K s st = Some st'.
  Proof.
    unfold process. intros H L. destruct (next_term g s) as [[r|p]|]; auto.
    eapply complete_loop_fuel; eauto.
  Qed.

  Lemma drain_fuel K : forall fuel I st st' fuel',
    drain accepts constrain g toks fuel K I st = Some st' -> fuel <= fuel' ->
    drain accepts constrain g toks fuel' K I st = Some st'.
  Proof.
    induction fuel as [|fuel IH]; intros I st st' fuel' H L.
    - cbn [drain] in H. destruct fuel'; cbn [drain];
        destruct (nth_error (cols st K) I); congruence.
    - destruct fuel' as [|fuel']; [lia|]. cbn [drain] in *.
      destruct (nth_error (cols st K) I) as [s|]; auto.
      destruct (process accepts constrain g toks (S fuel) K s st) as [st1|] eqn:P; [|discriminate].
      rewrite (process_fuel _ _ _ _ _ _ P L). eapply IH; eauto. lia.
  Qed.

  Lemma chart_from_fuel all : forall n k st st' fuel fuel',
    chart_from accepts constrain g toks fuel all k n st = Some st' -> fuel <= fuel' ->
    chart_from accepts constrain g toks fuel' all k n st = Some st'.
  Proof.
    induction n as [|n IH]; intros k st st' fuel fuel' H L; cbn [chart_from] in *; auto.
    destruct (drain accepts constrain g toks fuel k 0 (start_column g toks all k st))
      as [st1|] eqn:D; [|discriminate].
    rewrite (drain_fuel _ _ _ _ _ _ D L). eapply IH; eauto.
  Qed.

  Lemma chart_fuel all fuel fuel' st :
    chart accepts constrain g toks fuel all = Some st -> fuel <= fuel' ->
    chart accepts constrain g toks fuel' all = Some st.
  Proof. apply chart_from_fuel. Qed.
End Fuel.
