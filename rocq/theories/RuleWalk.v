(** The walk over the forward rules ends: a pass defines each forward rule once, and makes
    few new ones. *)
From Verif Require Import Base EarleyModel RuleModel RuleSpec RuleWords RuleLike RulePass RuleOrder RuleBfs RuleEnds.
Open Scope nat_scope.

Section Walk.
  Context {pred pipe bnf : Type}.
  Notation obj := (obj pred pipe bnf).
  Notation heap := (heap pred pipe bnf).
  Notation visitor := (visitor pred pipe bnf).
  Notation state := (state pred pipe bnf).
  Notation M := (M pred pipe bnf).

  Lemma positions_count (f : obj -> bool) (h : heap) : forall n, n <= length h ->
    length (filter (fun p => match nth_error h p with Some o => f o | None => false end) (seq 0 n)) = length (filter f (firstn n h)).
  Proof.
    induction n as [|n IH]; intros L; [reflexivity|]. rewrite seq_S, filter_app, app_length, IH by lia. cbn [plus filter].
    destruct (nth_error h n) as [o|] eqn:E; [|apply nth_error_None in E; lia].
    assert (firstn (S n) h = firstn n h ++ [o]) as ->.
    { clear - E. revert h E. induction n as [|n IH]; intros [|x h] E; try discriminate; [injection E as ->; reflexivity|]. cbn. f_equal. apply (IH h E). }
    rewrite filter_app, app_length. cbn. destruct (f o); reflexivity.
  Qed.
  Lemma forwards_many (h : heap) l : NoDup l -> (forall x, In x l -> exists d, nth_error h x = Some (OForward d)) -> length l <= forwards h.
  Proof.
    intros N K. unfold forwards. rewrite <- (firstn_all h) at 1. rewrite <- positions_count by lia. apply NoDup_incl_length; [exact N|]. intros x Hx. destruct (K x Hx) as (d & E).
    apply filter_In. rewrite E. split; [|reflexivity]. apply in_seq. split; [lia|]. apply nth_error_Some. congruence.
  Qed.

  Variable more : Prop.
  Variable method : nat -> visitor -> nat -> obj -> M nat.
  Hypothesis method_safe : forall k, methods (method k).
  Hypothesis method_ends : method_ends more method.
  (** An upper bound for the number of forward rules. *)
  Variable pot : state -> nat.
  Hypothesis pot_forwards : forall s, forwards (st_heap s) <= pot s.
  Notation goes := (goes more).
  Hypothesis pot_visit : forall k fuel p (s : state) r s', fine s -> p < size s -> goes s s' -> visit (method k) fuel p s = Some (Ok (r, s')) -> pot s' <= pot s.
  Hypothesis pot_define : forall s f d d', nth_error (st_heap s) f = Some (OForward d) -> pot (mkState (setitem (st_heap s) f (OForward (Some d'))) (st_visited s)) <= pot s.

  Lemma goes_size (s s' : state) : goes s s' -> size s <= size s'.
  Proof.
    intros G. unfold size. destruct (length (st_heap s)) as [|n] eqn:E; [lia|]. destruct (nth_error (st_heap s) n) as [o|] eqn:K; [|apply nth_error_None in K; lia].
    destruct (goes_at _ _ _ G n o K) as (o' & K' & _). assert (n < length (st_heap s')) by (apply nth_error_Some; congruence). lia.
  Qed.
  Definition ready (s : state) : Prop := fine s /\ bounds (st_heap s).
  Lemma visit_ends_ready p s d : ready s -> p < size s -> ends (fun k => visit (method k) (k - d) p) s (fun r s' => goes s s' /\ ready s' /\ r < size s' /\ pot s' <= pot s).
  Proof.
    intros [F B] L. pose proof (visits_end more method method_ends (4 ^ p) p d s (deep_ordered _ (proj1 F) B p L)) as E.
    apply (ends_and _ _ _ (fun r s' => fine s' /\ r < size s' /\ exists k fuel, visit (method k) fuel p s = Some (Ok (r, s')))) in E.
    - eapply ends_post; [exact E|]. intros r s' (G & Fs & Lr & k & fuel & H). split; [exact G|]. split; [split; [exact Fs|apply (goes_bounds _ _ _ G), B]|]. split; [exact Lr|apply (pot_visit k fuel p s r s' F L G H)].
    - intros k r s' H. destruct (visit_visits (method k) (method_safe k) (k - d) (size s) p L s r s' F (le_n _) H) as (Fs & _ & Lr). split; [exact Fs|]. split; [exact Lr|]. exists k, (k - d). exact H.
  Qed.
  Lemma define_visited_ends p s : ready s -> p < size s -> ends (fun k => define_visited (method k) k p) s
    (fun _ s' => goes s s' /\ ready s' /\ (forall o, nth_error (st_heap s) p = Some o -> is_forward o = false -> s' = s) /\ pot s' <= pot s).
  Proof.
    intros R L. unfold define_visited. apply ends_bind_get. intros o E.
    assert (Stay : ends (fun _ : nat => ret tt) s (fun (_ : unit) s' => goes s s' /\ ready s' /\ (forall o, nth_error (st_heap s) p = Some o -> is_forward o = false -> s' = s) /\ pot s' <= pot s)).
    { apply ends_ret. split; [apply goes_refl|]. split; [exact R|]. split; [reflexivity|lia]. }
    destruct o as [| | | | | | | | | | |[r|]| | | | | | |]; try exact Stay. clear Stay.
    assert (Lr : r < size s) by (apply (proj1 (proj1 R) p _ r E); left; reflexivity).
    eapply ends_bind; [eapply ends_eq; [|apply (visit_ends_ready r s 0 R Lr)]; exists 0; intros k _; rewrite Nat.sub_0_r; reflexivity|].
    intros r' s1 (G & [F1 B1] & L1 & P1). unfold define. apply ends_bind_get. intros o' Eo. destruct (is_forward o') eqn:Fo; [apply ends_raise|].
    destruct (goes_at _ _ _ G p _ E) as (op & Ep & A). unfold alike in A. cbn in A. destruct op; try discriminate.
    apply ends_put. assert (G2 : goes s1 (mkState (setitem (st_heap s1) p (OForward (Some r'))) (st_visited s1))) by (apply (goes_put more s1 p _ _ Ep); reflexivity).
    split; [exact (goes_trans _ _ _ _ G G2)|]. split; [split; [|apply (goes_bounds _ _ _ G2), B1]|].
    - apply (safe_put (size s1) p (OForward (Some r')) ltac:(intros c [<-|[]]; split; [exact L1|discriminate]) s1 tt _ F1 (le_n _) eq_refl).
    - split; [intros o E' Ff; rewrite E in E'; injection E' as <-; discriminate|]. specialize (pot_define s1 p _ r' Ep). lia.
  Qed.

  Lemma walk_ends : forall a b s queue vis done P d, ready s ->
    NoDup (done ++ queue) -> (forall x, In x vis <-> In x (done ++ queue)) -> (forall x, In x (done ++ queue) -> x < size s) ->
    NoDup P -> (forall x, In x P -> In x done /\ exists d, nth_error (st_heap s) x = Some (OForward d)) ->
    pot s <= a + length P -> size s <= b + length done ->
    ends (fun k => walk_loop (k - d) (define_visited (method k) k) queue vis) s (fun _ s' => goes s s' /\ ready s').
  Proof.
    induction a as [a IHa] using (well_founded_induction lt_wf). induction b as [b IHb] using (well_founded_induction lt_wf).
    intros s [|x queue] vis done P d R N V B NP KP Pa Pb.
    { apply ends_eq with (m' := fun _ => ret tt); [exists 0; intros k _; destruct (k - d); reflexivity|]. apply ends_ret. split; [apply goes_refl|exact R]. }
    apply ends_eq with (m' := fun k => bindM (define_visited (method k) k x) (fun _ => bindM (get x) (fun o => let (queue'', visited') := enqueue (children o) queue vis in walk_loop (k - S d) (define_visited (method k) k) queue'' visited'))).
    { exists (S d). intros k L. destruct (k - d) as [|y] eqn:E; [lia|]. replace (k - S d) with y by lia. reflexivity. }
    assert (Lx : x < size s) by (apply B, in_or_app; right; left; reflexivity).
    eapply ends_bind; [apply (define_visited_ends x s R Lx)|]. intros u s1 (G1 & R1 & St & P1).
    apply ends_bind_get. intros o E. destruct (enqueue (children o) queue vis) as [queue2 vis2] eqn:En.
    destruct (enqueue_new _ _ _ _ _ En) as (new & -> & Nn & Kn & Vn & Cn).
    assert (Sz := goes_size s s1 G1).
    assert (N2 : NoDup ((done ++ [x]) ++ queue ++ new)).
    { replace ((done ++ [x]) ++ queue ++ new) with ((done ++ x :: queue) ++ new) by (rewrite <- !app_assoc; reflexivity).
      apply NoDup_app_intro; [exact N|exact Nn|]. intros y Hy K. destruct (Kn y K) as [_ K']. apply K', V, Hy. }
    assert (V2 : forall y, In y vis2 <-> In y ((done ++ [x]) ++ queue ++ new)) by (intros y; rewrite Vn, V, !in_app_iff; cbn; tauto).
    assert (B2 : forall y, In y ((done ++ [x]) ++ queue ++ new) -> y < size s1).
    { intros y Hy. rewrite <- app_assoc in Hy. cbn in Hy. rewrite app_comm_cons, app_assoc in Hy. apply in_app_or in Hy as [Hy|Hy]; [specialize (B y Hy); lia|].
      destruct (Kn y Hy) as [K _]. apply (proj1 (proj1 R1) x o y E K). }
    assert (Nx : ~ In x done) by (apply NoDup_remove_2 in N; intros K; apply N, in_or_app; left; exact K).
    assert (Old : forall y, In y P -> exists d0, nth_error (st_heap s1) y = Some (OForward d0)).
    { intros y Hy. destruct (KP y Hy) as (_ & d0 & Ey). exact (goes_forward _ _ _ _ _ G1 Ey). }
    assert (Ns : nth_error (st_heap s) x <> None) by (apply nth_error_Some; exact Lx). destruct (nth_error (st_heap s) x) as [ox|] eqn:Ex; [clear Ns|destruct Ns; reflexivity].
    destruct (is_forward ox) eqn:Fx.
    - destruct ox; try discriminate. destruct (goes_forward _ _ _ _ _ G1 Ex) as (d1 & E1).
      assert (NP2 : NoDup (x :: P)) by (constructor; [intros K; apply Nx, (KP x K)|exact NP]).
      assert (KP2 : forall y, In y (x :: P) -> In y (done ++ [x]) /\ exists d0, nth_error (st_heap s1) y = Some (OForward d0)).
      { intros y [<-|Hy]; [split; [apply in_or_app; right; left; reflexivity|eauto]|]. split; [apply in_or_app; left; apply (KP y Hy)|apply Old, Hy]. }
      pose proof (forwards_many (st_heap s1) (x :: P) NP2 (fun y Hy => proj2 (KP2 y Hy))) as Fm. cbn [length] in Fm. specialize (pot_forwards s1).
      destruct a as [|a]; [exfalso; lia|].
      eapply ends_post; [apply (IHa a (Nat.lt_succ_diag_r a) (size s1) s1 (queue ++ new) vis2 (done ++ [x]) (x :: P) (S d) R1 N2 V2 B2 NP2 KP2)|]; [cbn [length]; lia|rewrite app_length; cbn; lia|].
      intros u' s2 [G2 R2]. split; [exact (goes_trans _ _ _ _ G1 G2)|exact R2].
    - assert (s1 = s) as -> by (apply (St ox eq_refl Fx)).
      assert (Ld : length (done ++ [x]) <= size s).
      { rewrite <- (seq_length (size s) 0). apply NoDup_incl_length.
        - clear - N. rewrite (app_assoc done [x] queue : done ++ x :: queue = (done ++ [x]) ++ queue) in N. revert N. generalize (done ++ [x]). intros l. induction l as [|y l IH]; intros N; [constructor|]. inversion N; subst. constructor; [intros K; apply H1, in_or_app; left; exact K|apply IH; assumption].
        - intros y Hy. apply in_seq. split; [lia|]. apply B2, in_or_app. left. exact Hy. }
      rewrite app_length in Ld. cbn in Ld. destruct b as [|b]; [exfalso; lia|].
      apply (IHb b (Nat.lt_succ_diag_r b) s (queue ++ new) vis2 (done ++ [x]) P (S d) R N2 V2 B2 NP).
      + intros y Hy. split; [apply in_or_app; left; apply (KP y Hy)|apply (KP y Hy)].
      + exact Pa.
      + rewrite app_length. cbn. lia.
  Qed.

  (** The outcome for all large fuels. *)
  Definition settles {A} (f : nat -> option (res A)) (Q : A -> Prop) : Prop :=
    exists r, (exists N, forall n, N <= n -> f n = Some r) /\ match r with Ok a => Q a | Err _ => True end.
  Lemma run_settles h root : ordered h -> bounds h -> root < length h ->
    settles (fun n => run_visit (method n) n h root) (fun '(r, h') => ordered h' /\ bounds h' /\ r < length h').
  Proof.
    intros O B L. assert (R : ready (mkState h [])) by (split; [split; [exact O|intros p r []]|exact B]).
    assert (E : ends (fun n => transform_walk (method n) n root) (mkState h []) (fun r s => ready s /\ r < size s)).
    { unfold transform_walk. eapply ends_bind.
      - eapply ends_eq; [|apply (walk_ends (pot (mkState h [])) (length h) (mkState h []) [root] [root] [] [] 0 R)].
        + exists 0. intros k _. rewrite Nat.sub_0_r. reflexivity.
        + constructor; [intros []|constructor].
        + reflexivity.
        + intros x [<-|[]]. exact L.
        + constructor.
        + intros x [].
        + cbn. lia.
        + cbn. unfold size. cbn. lia.
      - intros u s [G Rs]. eapply ends_post; [eapply ends_eq; [|apply (visit_ends_ready root s 0 Rs)]|].
        + exists 0. intros k _. rewrite Nat.sub_0_r. reflexivity.
        + pose proof (goes_size _ _ G) as K. unfold size in *. cbn in K. lia.
        + intros r s' (_ & R' & Lr & _). auto. }
    destruct E as (r & (N & E) & K). destruct r as [[r s]|e].
    - exists (Ok (r, st_heap s)). split; [|destruct K as [[[O' _] B'] L']; auto]. exists N. intros n Ln. unfold run_visit. rewrite E by exact Ln. reflexivity.
    - exists (Err e). split; [|exact I]. exists N. intros n Ln. unfold run_visit. rewrite E by exact Ln. reflexivity.
  Qed.
End Walk.
