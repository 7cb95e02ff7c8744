(** Building a parser ends: with enough fuel the outcome is a rule or an exception, always
    the same. *)
From Verif Require Import Base EarleyModel RuleModel RuleSpec RuleWords RuleAccept RuleLike RulePass RuleMethods RuleNormal RuleNormalized RuleOrder RuleBfs RuleBNF RuleForward RuleNames RuleAsBnf RuleActivate RuleTidy
  RuleEnds RuleWalk RulePot.
Open Scope nat_scope.

Section Total.
  Context {pred pipe bnf : Type}.
  Notation obj := (obj pred pipe bnf).
  Notation heap := (heap pred pipe bnf).
  Notation visitor := (visitor pred pipe bnf).
  Notation state := (state pred pipe bnf).
  Notation M := (M pred pipe bnf).
  Variable pipe_bnf : pipe -> res bnf.
  Variable bnf_lines : bnf -> list (str * list pred).

  Lemma settles_then {A B} (f : nat -> option (res A)) (g : nat -> A -> option (res B)) P Q :
    settles f P -> (forall n a, f n = Some (Ok a) -> P a -> settles (fun n => g n a) Q) -> settles (fun n => then_ (f n) (g n)) Q.
  Proof.
    intros (r & (N & E) & K) F. destruct r as [a|e].
    - destruct (F N a (E N (le_n _)) K) as (r2 & (N2 & E2) & K2). exists r2. split; [|exact K2]. exists (Nat.max N N2). intros n L. rewrite E by lia. cbn. apply E2. lia.
    - exists (Err e). split; [|exact I]. exists N. intros n L. rewrite E by exact L. reflexivity.
  Qed.
  Lemma settles_post {A} (f : nat -> option (res A)) (P Q : A -> Prop) : settles f P -> (forall n a, f n = Some (Ok a) -> P a -> Q a) -> settles f Q.
  Proof. intros (r & (N & E) & K) F. exists r. split; [exists N; exact E|]. destruct r as [a|e]; [|exact I]. apply (F N a (E N (le_n _)) K). Qed.
  Lemma settles_eq {A} (f g : nat -> option (res A)) P : (exists N, forall n, N <= n -> f n = g n) -> settles g P -> settles f P.
  Proof. intros (N & E) (r & (N' & E') & K). exists r. split; [|exact K]. exists (Nat.max N N'). intros n L. rewrite E by lia. apply E'. lia. Qed.

  (** ** Passes that make no forward rules *)
  Definition wf (p : nat * heap) : Prop := let '(r, h) := p in ordered h /\ bounds h /\ r < length h.
  Lemma plain_settles (method : nat -> visitor -> nat -> obj -> M nat) h root : (forall k, methods (method k)) -> method_ends False method ->
    ordered h -> bounds h -> root < length h -> settles (fun n => run_visit (method n) n h root) wf.
  Proof.
    intros S E O B L. apply (run_settles False method S E (fun s => forwards (st_heap s))); auto.
    - intros k fuel p s r s' _ _ G _. destruct (goes_forwards _ _ _ G) as [[]|E0]. rewrite E0. lia.
    - intros s f d d' Ef. apply Nat.eq_le_incl. cbn [st_heap]. apply (forwards_put _ _ _ _ Ef). reflexivity.
  Qed.
  Theorem normalized_settles h root : ordered h -> bounds h -> root < length h -> settles (fun n => normalized n h root) wf.
  Proof.
    intros O B L. unfold normalized.
    eapply settles_then; [apply (plain_settles (fun _ => squash_method)); [intros _; apply squash_safe|apply squash_ends|assumption..]|]. intros _ [r1 h1] _ (O1 & B1 & L1).
    eapply settles_then; [apply (run_settles True (fun _ => replace_extended_method) (fun _ => replace_extended_safe) (replace_extended_ends True I) pot)|].
    { intros s. unfold pot. lia. }
    { intros k fuel p s r s' F Lp _ H. pose proof (spends_pot _ _ _ _ (visit_spends fuel p s r s' F Lp H)). lia. }
    { intros s f d d'. apply pot_define. }
    1-3: assumption. intros _ [r2 h2] _ (O2 & B2 & L2).
    eapply settles_then; [apply (plain_settles (fun _ => replace_or_method)); [intros _; apply replace_or_safe|apply replace_or_ends|assumption..]|]. intros _ [r3 h3] _ (O3 & B3 & L3).
    eapply settles_then; [apply (plain_settles (fun _ => replace_empty_method)); [intros _; apply replace_empty_safe|apply replace_empty_ends|assumption..]|]. intros _ [r4 h4] _ (O4 & B4 & L4).
    apply (plain_settles (fun n => flatten_method n)); [intros k; apply flatten_safe|apply flatten_ends|assumption..].
  Qed.

  (** ** Conversion to BNF *)
  Lemma lift_safe n r : r < n -> safe n (lift r : M nat) (fun n' r => r < n').
  Proof. intros L. unfold lift. eapply safe_bind; [apply safe_alloc; intros c [<-|[]]; exact L|]. intros n1 q N1 L1. apply safe_alloc. intros c [<-|[]]. exact L1. Qed.
  Lemma update_children f (o : obj) : children (update_attributes f o) = children o.
  Proof. destruct o; reflexivity. Qed.
  Lemma set_attribute_safe present update n r : r < n -> safe n (set_attribute present update r : M nat) (fun n' r => r < n').
  Proof.
    intros L. unfold set_attribute. eapply safe_bind; [apply safe_get|]. intros n1 o N1 _. destruct (get_attributes o) as [a|]; [|apply safe_raise].
    eapply safe_bind; [instantiate (1 := fun n' r => r < n'); destruct (present a); [apply lift_safe; below|apply safe_ret; intros; below]|]. intros n2 r' N2 L2.
    eapply safe_bind; [apply safe_get|]. intros n3 o' N3 [L3 K]. eapply safe_bind; [apply safe_put; rewrite update_children, update_forward; exact K|]. intros n4 u N4 _. apply safe_ret. intros n5 N5. below.
  Qed.
  Lemma wrapper_safe (V : visitor) n parents r : visits V -> r < n -> safe n (visit_WrapperRule (pred := pred) (pipe := pipe) (bnf := bnf) parents V r) (fun n' r => r < n').
  Proof.
    intros HV L. unfold visit_WrapperRule. eapply safe_bind; [apply safe_get|]. intros n1 o N1 _. destruct (is_forward o); [apply lift_safe; below|].
    eapply safe_bind; [instantiate (1 := fun _ _ => True); unfold is_shared; destruct (count_occ Nat.eq_dec parents r); [apply safe_raise|apply safe_ret; auto]|]. intros n2 shared N2 _.
    eapply safe_bind; [apply HV; below|]. intros n3 r' N3 L3. destruct shared; [apply lift_safe, L3|apply safe_ret; intros; below].
  Qed.
  Lemma bnf_safe parents : methods (bnf_method pipe_bnf bnf_lines parents).
  Proof.
    intros V n p o HV L K. assert (Base := base_safe V n p o HV L K). assert (C : forall c, In c (children o) -> c < n) by (intros c Hc; apply (K c Hc)).
    destruct o as [ps|rs|r0 rev|r0 rev|r0 rr ro|r0 m rev|r0 m rev|r0 m n' rev|r0 nm|r0 i|r0 rel|d| |pl|ps a|b ps a|ts m| |k ps]; cbn [bnf_method]; try exact Base; clear Base; try apply safe_raise.
    all: try (eapply safe_bind; [apply (safe_visits V n ps HV), Forall_forall, C|]; intros n1 ys N1 W; apply safe_alloc; cbn; apply below_children, W).
    all: try (eapply safe_bind; [apply (wrapper_safe V n parents r0 HV), C; left; reflexivity|]; intros n1 r1 N1 L1; apply set_attribute_safe, L1).
    destruct (pipe_bnf pl) as [b|e]; [|apply safe_raise]. unfold new_pipeline. eapply safe_bind.
    - apply (safe_map n _ (fun _ _ => True) (fun n x => x < n)); [|auto|intros; below|apply Forall_forall; auto]. intros n' x _ _. apply safe_alloc. intros c [].
    - intros n1 ps N1 W. apply safe_alloc. cbn. apply below_children, W.
  Qed.
  Lemma bfs_loop_more (h : heap) fuel : forall queue vis l fuel', bfs_loop fuel h queue vis = Some l -> fuel <= fuel' -> bfs_loop fuel' h queue vis = Some l.
  Proof.
    induction fuel as [|fuel IH]; intros [|x queue] vis l fuel' H L; cbn [bfs_loop] in H; try discriminate.
    1,2: destruct fuel'; exact H.
    destruct fuel' as [|fuel']; [lia|]. cbn [bfs_loop]. destruct (enqueue _ queue vis) as [q v]. destruct (bfs_loop fuel h q v) as [l1|] eqn:E; [|discriminate]. rewrite (IH q v l1 fuel' E); [exact H|lia].
  Qed.
  Definition closed (h : heap) : Prop := forall p o c, nth_error h p = Some o -> In c (children o) -> c < length h.
  Lemma ordered_closed h : ordered h -> closed h.
  Proof. intros O p o c E Hc. apply (O p o c E Hc). Qed.
  Lemma bfs_settles h root : closed h -> root < length h -> exists l, forall n, length h <= n -> bfs n h root = Some l.
  Proof. intros C L. destruct (bfs_total h (length h) root C L (le_n _)) as (l & E). exists l. intros n Ln. apply (bfs_loop_more h (length h) _ _ _ n E Ln). Qed.
  Lemma to_bnf_settles h root : ordered h -> bounds h -> root < length h -> settles (fun n => to_bnf pipe_bnf bnf_lines n h root) wf.
  Proof.
    intros O B L. destruct (bfs_settles h root (ordered_closed h O) L) as (l & E). eapply settles_eq; [exists (length h); intros n Ln; unfold to_bnf; rewrite (E n Ln); reflexivity|].
    apply (plain_settles (fun _ => bnf_method pipe_bnf bnf_lines (count_parents h l))); [intros _; apply bnf_safe|apply bnf_ends|assumption..].
  Qed.

  (** ** Passes in place *)
  Section Inplace.
    Variable act : nat -> M nat.
    Hypothesis act_stays : forall p s, closed (st_heap s) -> p < length (st_heap s) ->
      exists r, act p s = Some r /\ match r with Ok (r', s') => closed (st_heap s') /\ length (st_heap s') = length (st_heap s) /\ r' < length (st_heap s') | Err _ => True end.
    Lemma act_ends p s : closed (st_heap s) -> p < length (st_heap s) -> ends (fun _ => act p) s (fun r s' => closed (st_heap s') /\ length (st_heap s') = length (st_heap s) /\ r < length (st_heap s')).
    Proof. intros C L. destruct (act_stays p s C L) as (r & E & K). exists r. split; [exists 0; auto|]. destruct r as [[r' s']|e]; exact K. Qed.
    Lemma inplace_walk_ends : forall b s queue vis done d, closed (st_heap s) ->
      NoDup (done ++ queue) -> (forall x, In x vis <-> In x (done ++ queue)) -> (forall x, In x (done ++ queue) -> x < length (st_heap s)) ->
      length (st_heap s) <= b + length done ->
      ends (fun k => walk_loop (k - d) (fun p => bindM (act p) (fun _ => ret tt)) queue vis) s (fun _ s' => closed (st_heap s') /\ length (st_heap s') = length (st_heap s)).
    Proof.
      induction b as [|b IH]; intros s [|x queue] vis done d C N V B Lb.
      1,3: apply ends_eq with (m' := fun _ => ret tt); [exists 0; intros k _; destruct (k - d); reflexivity|]; apply ends_ret; auto.
      - exfalso. assert (K : length (done ++ x :: queue) <= length (seq 0 (length (st_heap s)))) by (apply NoDup_incl_length; [exact N|]; intros y Hy; apply in_seq; split; [lia|apply B, Hy]).
        rewrite app_length, seq_length in K. cbn in K. lia.
      - apply ends_eq with (m' := fun k => bindM (bindM (act x) (fun _ => ret tt)) (fun _ => bindM (get x) (fun o => let (queue'', visited') := enqueue (children o) queue vis in walk_loop (k - S d) (fun p => bindM (act p) (fun _ => ret tt)) queue'' visited'))).
        { exists (S d). intros k L. destruct (k - d) as [|y] eqn:E; [lia|]. replace (k - S d) with y by lia. reflexivity. }
        assert (Lx : x < length (st_heap s)) by (apply B, in_or_app; right; left; reflexivity).
        apply (ends_bind (fun _ => bindM (act x) (fun _ => ret tt)) _ s (fun _ s1 => closed (st_heap s1) /\ length (st_heap s1) = length (st_heap s)));
          [eapply ends_bind; [apply (act_ends x s C Lx)|]; cbv beta; intros r s1 (C1 & E1 & _); apply ends_ret; auto|]. intros u0 s1 [C1 E1].
        apply ends_bind_get. intros o E. destruct (enqueue (children o) queue vis) as [queue2 vis2] eqn:En. destruct (enqueue_new _ _ _ _ _ En) as (new & -> & Nn & Kn & Vn & Cn).
        eapply ends_post; [apply (IH s1 (queue ++ new) vis2 (done ++ [x]) (S d) C1)|].
        + replace ((done ++ [x]) ++ queue ++ new) with ((done ++ x :: queue) ++ new) by (rewrite <- !app_assoc; reflexivity).
          apply NoDup_app_intro; [exact N|exact Nn|]. intros y Hy K. destruct (Kn y K) as [_ K']. apply K', V, Hy.
        + intros y. rewrite Vn, V, !in_app_iff. cbn. tauto.
        + intros y Hy. rewrite <- app_assoc in Hy. cbn in Hy. rewrite app_comm_cons, app_assoc in Hy. apply in_app_or in Hy as [Hy|Hy]; [rewrite E1; apply B, Hy|].
          destruct (Kn y Hy) as [K _]. apply (C1 x o y E K).
        + rewrite app_length. cbn. lia.
        + cbv beta. intros u s2 [C2 E2]. split; [exact C2|congruence].
    Qed.
    Lemma inplace_settles h root : closed h -> root < length h -> settles (fun n => run_inplace act n h root) (fun '(r, h') => closed h' /\ length h' = length h /\ r < length h').
    Proof.
      intros C L. assert (E : ends (fun n => transform_inplace act n root) (mkState h []) (fun r s' => closed (st_heap s') /\ length (st_heap s') = length h /\ r < length (st_heap s'))).
      { unfold transform_inplace. eapply ends_bind.
        - eapply ends_eq; [|apply (inplace_walk_ends (length h) (mkState h []) [root] [root] [] 0 C)].
          + exists 0. intros k _. rewrite Nat.sub_0_r. reflexivity.
          + constructor; [intros []|constructor].
          + reflexivity.
          + intros x [<-|[]]. exact L.
          + cbn. lia.
        - cbv beta. cbn [st_heap]. intros u s [C1 E1]. eapply ends_post; [apply (act_ends root s C1); lia|]. cbv beta. intros r s' (C2 & E2 & L2). split; [exact C2|]. split; [congruence|exact L2]. }
      destruct E as (r & (N & E) & K). destruct r as [[r s]|e].
      - exists (Ok (r, st_heap s)). split; [|exact K]. exists N. intros n Ln. unfold run_inplace. rewrite E by exact Ln. reflexivity.
      - exists (Err e). split; [|exact I]. exists N. intros n Ln. unfold run_inplace. rewrite E by exact Ln. reflexivity.
    Qed.
  End Inplace.
  Lemma closed_put (h : heap) p o : closed h -> (forall c, In c (children o) -> c < length h) -> closed (setitem h p o).
  Proof.
    intros C K q x c E Hc. rewrite setitem_length. destruct (Nat.eq_dec q p) as [->|Ne]; [|rewrite setitem_other in E by auto; apply (C q x c E Hc)].
    assert (L : p < length h) by (rewrite <- (setitem_length h p o); apply nth_error_Some; congruence). rewrite setitem_same in E by exact L. injection E as <-. apply K, Hc.
  Qed.
  (** Maps that only read. *)
  Lemma map_reads {A B} (f : A -> M B) (P : B -> Prop) s : forall l, (forall x, In x l -> exists r, f x s = Some r /\ match r with Ok (y, s') => s' = s /\ P y | Err _ => True end) ->
    exists r, mapMM f l s = Some r /\ match r with Ok (ys, s') => s' = s /\ Forall P ys | Err _ => True end.
  Proof.
    induction l as [|x l IH]; intros K; cbn [mapMM]; [exists (Ok ([], s)); split; [reflexivity|]; split; [reflexivity|constructor]|].
    destruct (K x (or_introl eq_refl)) as (r & E & Kr). unfold bindM at 1. rewrite E. destruct r as [[y s1]|e]; [|exists (Err e); auto]. destruct Kr as [-> Py].
    destruct (IH (fun z Hz => K z (or_intror Hz))) as (rs & Es & Ks). unfold bindM at 1. rewrite Es. destruct rs as [[ys s1]|e]; [|exists (Err e); auto]. destruct Ks as [-> Fs].
    exists (Ok (y :: ys, s)). split; [reflexivity|]. split; [reflexivity|constructor; assumption].
  Qed.
  Lemma remove_forward_stays p (s : state) : closed (st_heap s) -> p < length (st_heap s) ->
    exists r, remove_forward_visit p s = Some r /\ match r with Ok (r', s') => closed (st_heap s') /\ length (st_heap s') = length (st_heap s) /\ r' < length (st_heap s') | Err _ => True end.
  Proof.
    intros C L. destruct (nth_error (st_heap s) p) as [o|] eqn:E; [|apply nth_error_None in E; lia]. unfold remove_forward_visit, bindM at 1. rewrite (get_eq p s o E).
    assert (Stay : exists r, ret p s = Some r /\ match r with Ok (r', s') => closed (st_heap s') /\ length (st_heap s') = length (st_heap s) /\ r' < length (st_heap s') | Err _ => True end) by (exists (Ok (p, s)); auto).
    destruct o as [| | | | | | | | | | |[d|]| | | | |ts main| |]; try exact Stay.
    - exists (Ok (d, s)). split; [reflexivity|]. split; [exact C|]. split; [reflexivity|]. apply (C p _ d E). left. reflexivity.
    - eexists. split; [reflexivity|exact I].
    - match goal with |- context [mapMM ?f ts] => destruct (map_reads f (fun t => match t with TRule r => r < length (st_heap s) | TPred _ => True end) s ts) as (r & Er & K) end.
      { intros [r|x] Ht; [|exists (Ok (TPred x, s)); auto]. assert (Lr : r < length (st_heap s)) by (apply (C p _ r E); apply rule_terms_in, Ht).
        destruct (nth_error (st_heap s) r) as [o'|] eqn:E'; [|apply nth_error_None in E'; lia]. unfold bindM. rewrite (get_eq r s o' E').
        destruct o' as [| | | | | | | | | | |[d|]| | | | | | |]; try (eexists; split; [reflexivity|]; cbn; auto; fail).
        eexists. split; [reflexivity|]. split; [reflexivity|]. apply (C r _ d E'). left. reflexivity. }
      unfold bindM at 1. rewrite Er. destruct r as [[ts' s']|e]; [|eexists; split; [reflexivity|exact I]]. destruct K as [-> F]. eexists. split; [reflexivity|]. cbn. rewrite setitem_length. split; [|auto].
      apply closed_put; [exact C|]. cbn. apply terms_below. exact F.
  Qed.

  Lemma renamed_closed (h h' : heap) : renamed_heap h h' -> closed h -> closed h'.
  Proof.
    intros [L R] C p o' c E' Hc. rewrite L. destruct (nth_error h p) as [o|] eqn:E.
    - destruct (R p o E) as (o1 & E1 & K). rewrite E' in E1. injection E1 as <-. rewrite (proj1 (renamed_children _ _ K)) in Hc. apply (C p o c E Hc).
    - apply nth_error_None in E. assert (p < length h') by (apply nth_error_Some; congruence). lia.
  Qed.
  Lemma as_bnf_settles h root : graph no_empty nothing h (reach h root) -> ordered h -> bounds h -> (exists o, nth_error h root = Some o /\ is_prod o = false) ->
    settles (fun n => as_bnf pipe_bnf bnf_lines n h root) (fun '(r, h') => closed h' /\ r < length h').
  Proof.
    intros G O B R. assert (L : root < length h) by (destruct R as (o & E & _); apply nth_error_Some; congruence). unfold as_bnf.
    eapply settles_then; [apply (to_bnf_settles h root O B L)|]. intros n [r1 h1] H1 (O1 & _ & L1). destruct (to_bnf_ok pipe_bnf bnf_lines n h root r1 h1 G O R H1) as (G1 & R1 & _).
    eapply settles_then; [apply (inplace_settles remove_forward_visit remove_forward_stays h1 r1 (ordered_closed h1 O1) L1)|]. intros n2 [r2 h2] H2 (C2 & _ & L2).
    destruct (remove_forward_ok pipe_bnf bnf_lines h1 (reach h1 r1) G1 n2 r1 r2 h2 (reach_refl h1 r1) R1 H2) as (_ & (o & E & Bo) & _). rewrite E, Bo.
    destruct (bfs_settles h2 r2 C2 L2) as (l & El). eapply settles_eq; [exists (length h2); intros k Lk; rewrite (El k Lk); reflexivity|]. eexists. split; [exists 0; reflexivity|].
    assert (Rn := generate_renamed (bnf_rules h2 l) 0 h2). split; [apply (renamed_closed h2 _ Rn C2)|]. rewrite (proj1 Rn). exact L2.
  Qed.

  (** ** Activation *)
  Variable activate_pred : pred -> res pred.
  Variable activate_pipe : pipe -> res pipe.
  Hypothesis pred_twice : forall p q, activate_pred p = Ok q -> activate_pred q = Ok q.
  Hypothesis pipe_twice : forall x y, activate_pipe x = Ok y -> activate_pipe y = Ok y.
  Lemma activate_stays p (s : state) : closed (st_heap s) -> p < length (st_heap s) ->
    exists r, activate_visit activate_pred activate_pipe p s = Some r /\ match r with Ok (r', s') => closed (st_heap s') /\ length (st_heap s') = length (st_heap s) /\ r' < length (st_heap s') | Err _ => True end.
  Proof.
    intros C L. destruct (nth_error (st_heap s) p) as [o|] eqn:E; [|apply nth_error_None in E; lia]. unfold activate_visit, bindM at 1. rewrite (get_eq p s o E).
    assert (Stay : exists r, ret p s = Some r /\ match r with Ok (r', s') => closed (st_heap s') /\ length (st_heap s') = length (st_heap s) /\ r' < length (st_heap s') | Err _ => True end) by (exists (Ok (p, s)); auto).
    destruct o as [| | | | | | | | | | | | |x| | |ts main| |]; try exact Stay.
    - unfold bindM at 1. destruct (activate_pipe x) as [y|e]; [|eexists; split; [reflexivity|exact I]]. eexists. split; [reflexivity|]. cbn. rewrite setitem_length. split; [|auto]. apply closed_put; [exact C|]. intros c [].
    - match goal with |- context [mapMM ?f ts] => destruct (map_reads f (fun t => match t with TRule r => r < length (st_heap s) | TPred _ => True end) s ts) as (r & Er & K) end.
      { intros [r|x] Ht; [exists (Ok (TRule r, s)); split; [reflexivity|]; split; [reflexivity|]; apply (C p _ r E); apply rule_terms_in, Ht|].
        destruct (activate_pred x) as [y|e]; [exists (Ok (TPred y, s)); auto|eexists; split; [reflexivity|exact I]]. }
      unfold bindM at 1. rewrite Er. destruct r as [[ts' s']|e]; [|eexists; split; [reflexivity|exact I]]. destruct K as [-> F]. eexists. split; [reflexivity|]. cbn. rewrite setitem_length. split; [|auto].
      apply closed_put; [exact C|]. cbn. apply terms_below. exact F.
  Qed.
  Lemma activated_bounds (h h' : heap) root : ordered h -> root < length h -> activated_graph activate_pred activate_pipe h h' root -> bounds h -> bounds h'.
  Proof.
    intros O L A B x o' E'. destruct (reach_dec h root O L x) as [R|N].
    - destruct (activated_back _ _ h h' root A x o' R E') as (o & E & K). assert (Bo := B x o E). inversion K; subst; try exact Bo; exact I.
    - apply (B x o'). rewrite <- (proj2 (proj2 A) x N). exact E'.
  Qed.
  Theorem parser_rule_settles h root : tidy h -> ordered h -> bounds h -> kind h root false ->
    settles (fun n => parser_rule pipe_bnf bnf_lines activate_pred activate_pipe n h root) (fun '(r, h') => closed h' /\ r < length h').
  Proof.
    intros T O B K. assert (L : root < length h) by (destruct K as (o & E & _); apply nth_error_Some; congruence). unfold parser_rule.
    eapply settles_then; [apply (inplace_settles _ activate_stays h root (ordered_closed h O) L)|]. intros n [r1 ha] H1 _.
    destruct (activate_ok activate_pred activate_pipe pred_twice pipe_twice n h root r1 ha H1) as [-> A]. destruct (activated_tidy _ _ h ha root false O T K A) as [Ta Ka].
    assert (La : root < length ha) by (destruct Ka as (o & E & _); apply nth_error_Some; congruence).
    eapply settles_then; [apply (normalized_settles ha root (activated_ordered _ _ h ha root A (reach_dec h root O L) O) (activated_bounds h ha root O L A B) La)|]. intros n2 [rn hn] H2 (On & Bn & Ln).
    destruct (normalized_tidy pipe_bnf bnf_lines n2 ha root rn hn Ta Ka H2) as [Gn Kn]. apply as_bnf_settles; auto.
  Qed.
End Total.

From Verif Require Import TokenModel PredicateModel PipelineModel PipelineSpec RuleBuild RuleBuilt GrammarModel GrammarProofs.
Section Built.
  Context {pred pipe bnf : Type}.
  Lemma sound_tidy (h : heap pred pipe bnf) : sound h -> tidy h.
  Proof. intros S p o E. destruct (S p o E) as (P & Sh & C). split; [exact P|]. split; [exact Sh|]. intros c Hc. destruct (C c Hc) as (oc & Ec & K & _). exists oc. auto. Qed.
  Lemma sound_ordered (h : heap pred pipe bnf) : sound h -> ordered h.
  Proof. intros S p x c Ex Hc. destruct (S p x Ex) as (_ & _ & C). destruct (C c Hc) as (oc & Ec & _ & L). split; [apply nth_error_Some; congruence|exact L]. Qed.
  Lemma sound_bounds (h : heap pred pipe bnf) : sound h -> bounds h.
  Proof. intros S p o E. destruct (S p o E) as (_ & Sh & _). destruct o; try exact I. exact Sh. Qed.
End Built.
Theorem construction_ends U set_order c (h : rule_heap) root : built h -> is_rule_at h root ->
  exists outcome enough, forall fuel, enough <= fuel -> parser_grammar U set_order c fuel h root = Some outcome.
Proof.
  intros B R. apply built_sound in B. assert (K : RuleTidy.kind h root false) by (apply is_rule_prod in R; exact R).
  enough (S : settles (fun n => parser_grammar U set_order c n h root) (fun _ => True)) by (destruct S as (r & (N & E) & _); exists r, N; exact E).
  unfold parser_grammar, build_rule. eapply settles_then.
  { apply (parser_rule_settles (pipeline_as_bnf U set_order) b_productions (activate c) (activate_pipeline c) (pred_twice c) (pipe_twice c) h root); [apply sound_tidy, B|apply sound_ordered, B|apply sound_bounds, B|exact K]. }
  intros n [r h'] _ [C L]. destruct (bfs_settles h' r C L) as (l & E). eapply settles_eq; [exists (length h'); intros k Lk; rewrite (E k Lk); reflexivity|]. eexists. split; [exists 0; reflexivity|exact I].
Qed.
