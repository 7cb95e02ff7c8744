(** Termination of the passes over a rule: with enough fuel every pass ends, and its
    outcome does not depend on the fuel. *)
From Verif Require Import Base EarleyModel RuleModel RuleSpec RuleWords RuleLike RulePass RuleOrder RuleBfs.
Open Scope nat_scope.

Section Ends.
  Context {pred pipe bnf : Type}.
  Notation obj := (obj pred pipe bnf).
  Notation heap := (heap pred pipe bnf).
  Notation visitor := (visitor pred pipe bnf).
  Notation state := (state pred pipe bnf).
  Notation M := (M pred pipe bnf).

  (** The outcome of a computation for all large fuels; [Q] is what holds after a success. *)
  Definition ends {A} (m : nat -> M A) (s : state) (Q : A -> state -> Prop) : Prop :=
    exists r, (exists N, forall n, N <= n -> m n s = Some r) /\ match r with Ok (a, s') => Q a s' | Err _ => True end.

  Lemma ends_bind {A B} (m : nat -> M A) (f : nat -> A -> M B) s Q Q' :
    ends m s Q -> (forall a s', Q a s' -> ends (fun n => f n a) s' Q') -> ends (fun n => bindM (m n) (f n)) s Q'.
  Proof.
    intros (r & (N & E) & K) F. destruct r as [[a s']|e].
    - destruct (F a s' K) as (r2 & (N2 & E2) & K2). exists r2. split; [|exact K2]. exists (Nat.max N N2). intros n L. unfold bindM. rewrite E by lia. apply E2. lia.
    - exists (Err e). split; [|exact I]. exists N. intros n L. unfold bindM. rewrite E by exact L. reflexivity.
  Qed.
  Lemma ends_post {A} (m : nat -> M A) s (Q Q' : A -> state -> Prop) : ends m s Q -> (forall a s', Q a s' -> Q' a s') -> ends m s Q'.
  Proof. intros (r & E & K) I. exists r. split; [exact E|]. destruct r as [[a s']|e]; auto. Qed.
  (** What is known of successes with any fuel. *)
  Lemma ends_and {A} (m : nat -> M A) s (Q Q' : A -> state -> Prop) : ends m s Q -> (forall n a s', m n s = Some (Ok (a, s')) -> Q' a s') -> ends m s (fun a s' => Q a s' /\ Q' a s').
  Proof. intros (r & (N & E) & K) H. exists r. split; [exists N; exact E|]. destruct r as [[a s']|e]; [|exact I]. split; [exact K|]. apply (H N), E. lia. Qed.
  Lemma ends_eq {A} (m m' : nat -> M A) s Q : (exists N, forall n, N <= n -> m n s = m' n s) -> ends m' s Q -> ends m s Q.
  Proof. intros (N & E) (r & (N' & E') & K). exists r. split; [|exact K]. exists (Nat.max N N'). intros n L. rewrite E by lia. apply E'. lia. Qed.
  Lemma ends_ret {A} (a : A) s (Q : A -> state -> Prop) : Q a s -> ends (fun _ => ret a) s Q.
  Proof. intros K. exists (Ok (a, s)). split; [exists 0; reflexivity|exact K]. Qed.
  Lemma ends_raise {A} e s (Q : A -> state -> Prop) : ends (fun _ => raise e) s Q.
  Proof. exists (Err e). split; [exists 0; reflexivity|exact I]. Qed.
  Lemma ends_get p s (Q : obj -> state -> Prop) : (forall o, nth_error (st_heap s) p = Some o -> Q o s) -> ends (fun _ => get p) s Q.
  Proof.
    intros K. unfold get. destruct (nth_error (st_heap s) p) as [o|] eqn:E.
    - exists (Ok (o, s)). split; [exists 0; intros; cbv beta; rewrite E; reflexivity|apply K; reflexivity].
    - exists (Err AttributeError). split; [exists 0; intros; cbv beta; rewrite E; reflexivity|exact I].
  Qed.
  Lemma ends_alloc o s (Q : nat -> state -> Prop) : Q (length (st_heap s)) (mkState (st_heap s ++ [o]) (st_visited s)) -> ends (fun _ => alloc o) s Q.
  Proof. intros K. exists (Ok (length (st_heap s), mkState (st_heap s ++ [o]) (st_visited s))). split; [exists 0; reflexivity|exact K]. Qed.
  Lemma ends_put p o s (Q : unit -> state -> Prop) : Q tt (mkState (setitem (st_heap s) p o) (st_visited s)) -> ends (fun _ => put p o) s Q.
  Proof. intros K. exists (Ok (tt, mkState (setitem (st_heap s) p o) (st_visited s))). split; [exists 0; reflexivity|exact K]. Qed.
  Lemma ends_remember p r s (Q : unit -> state -> Prop) : Q tt (mkState (st_heap s) ((p, r) :: st_visited s)) -> ends (fun _ => remember p r) s Q.
  Proof. intros K. exists (Ok (tt, mkState (st_heap s) ((p, r) :: st_visited s))). split; [exists 0; reflexivity|exact K]. Qed.
  Lemma ends_recall p s (Q : option nat -> state -> Prop) : Q (assoc p (st_visited s)) s -> ends (fun _ => recall p) s Q.
  Proof. intros K. exists (Ok (assoc p (st_visited s), s)). split; [exists 0; reflexivity|exact K]. Qed.

  Lemma ends_bind_get {B} p (f : nat -> obj -> M B) s Q : (forall o, nth_error (st_heap s) p = Some o -> ends (fun n => f n o) s Q) -> ends (fun n => bindM (get p) (f n)) s Q.
  Proof.
    intros K. apply (ends_bind (fun _ => get p) f s (fun o s' => s' = s /\ nth_error (st_heap s) p = Some o)); [apply ends_get; auto|]. intros o s' [-> E]. apply K, E.
  Qed.
  Lemma ends_bind_alloc {B} o (f : nat -> nat -> M B) s Q : ends (fun n => f n (length (st_heap s))) (mkState (st_heap s ++ [o]) (st_visited s)) Q -> ends (fun n => bindM (alloc o) (f n)) s Q.
  Proof.
    intros K. apply (ends_bind (fun _ => alloc o) f s (fun t s' => t = length (st_heap s) /\ s' = mkState (st_heap s ++ [o]) (st_visited s))); [apply ends_alloc; auto|]. intros t s' [-> ->]. exact K.
  Qed.
  Lemma ends_bind_recall {B} p (f : nat -> option nat -> M B) s Q : ends (fun n => f n (assoc p (st_visited s))) s Q -> ends (fun n => bindM (recall p) (f n)) s Q.
  Proof.
    intros K. apply (ends_bind (fun _ => recall p) f s (fun t s' => t = assoc p (st_visited s) /\ s' = s)); [apply ends_recall; auto|]. intros t s' [-> ->]. exact K.
  Qed.

  (** ** How objects change: definitions of forward rules and attributes of BNF rules *)
  Definition alike (o o' : obj) : Prop := if is_forward o then is_forward o' = true else exists f, o' = update_attributes f o.
  Lemma update_none (o : obj) : update_attributes (fun a => a) o = o.
  Proof. destruct o; reflexivity. Qed.
  Lemma alike_refl o : alike o o.
  Proof. unfold alike. destruct (is_forward o) eqn:F; [reflexivity|]. exists (fun a => a). symmetry. apply update_none. Qed.
  Lemma update_forward f (o : obj) : is_forward (update_attributes f o) = is_forward o.
  Proof. destruct o; reflexivity. Qed.
  Lemma alike_forward o o' : alike o o' -> is_forward o' = is_forward o.
  Proof. unfold alike. destruct (is_forward o) eqn:F; [auto|]. intros (f & ->). rewrite update_forward. exact F. Qed.
  Lemma alike_trans o o' o'' : alike o o' -> alike o' o'' -> alike o o''.
  Proof.
    intros A B. pose proof (alike_forward _ _ A) as F. unfold alike in *. rewrite F in B. destruct (is_forward o) eqn:E; [exact B|]. destruct A as (f & ->), B as (g & ->).
    exists (fun a => g (f a)). destruct o; reflexivity.
  Qed.
  (** Repetitions at most some number of times are at most at least once. *)
  Definition bounded (o : obj) : Prop := match o with OMax _ m _ => 1 <= m | _ => True end.
  Definition bounds (h : heap) : Prop := forall p o, nth_error h p = Some o -> bounded o.
  Definition forwards (h : heap) : nat := length (filter is_forward h).

  (** Whether the pass makes forward rules. *)
  Variable more : Prop.
  Record goes (s s' : state) : Prop := mkGoes {
    goes_at : forall p o, nth_error (st_heap s) p = Some o -> exists o', nth_error (st_heap s') p = Some o' /\ alike o o';
    goes_bounds : bounds (st_heap s) -> bounds (st_heap s');
    goes_forwards : more \/ forwards (st_heap s') = forwards (st_heap s) }.
  Lemma goes_refl s : goes s s.
  Proof. split; [|auto|auto]. intros p o E. exists o. split; [exact E|apply alike_refl]. Qed.
  Lemma goes_trans s s' s'' : goes s s' -> goes s' s'' -> goes s s''.
  Proof.
    intros A B. split.
    - intros p o E. destruct (goes_at _ _ A p o E) as (o' & E' & K). destruct (goes_at _ _ B p o' E') as (o'' & E'' & K'). exists o''. split; [exact E''|exact (alike_trans _ _ _ K K')].
    - intros K. apply (goes_bounds _ _ B), (goes_bounds _ _ A), K.
    - destruct (goes_forwards _ _ A) as [X|X]; [left; exact X|]. destruct (goes_forwards _ _ B) as [Y|Y]; [left; exact Y|right; congruence].
  Qed.
  Lemma goes_alloc s o : bounded o -> more \/ is_forward o = false -> goes s (mkState (st_heap s ++ [o]) (st_visited s)).
  Proof.
    intros B F. split; cbn.
    - intros p x E. exists x. split; [|apply alike_refl]. rewrite nth_error_app1; [exact E|]. apply nth_error_Some. congruence.
    - intros K p x E. destruct (Nat.lt_ge_cases p (length (st_heap s))) as [L|L]; [rewrite nth_error_app1 in E by exact L; exact (K p x E)|].
      rewrite nth_error_app2 in E by exact L. destruct (p - length (st_heap s)) as [|k]; [injection E as <-; exact B|destruct k; discriminate].
    - destruct F as [X|X]; [left; exact X|right]. unfold forwards. rewrite filter_app, app_length. cbn. rewrite X. cbn. lia.
  Qed.
  Lemma forwards_put (h : heap) p o o' : nth_error h p = Some o -> is_forward o' = is_forward o -> forwards (setitem h p o') = forwards h.
  Proof.
    unfold forwards. revert p. induction h as [|x h IH]; intros [|p] E F; cbn in *; try discriminate.
    - injection E as ->. rewrite F. destruct (is_forward o); reflexivity.
    - specialize (IH p E F). destruct (is_forward x); cbn; congruence.
  Qed.
  Lemma goes_put s p o o' : nth_error (st_heap s) p = Some o -> alike o o' -> goes s (mkState (setitem (st_heap s) p o') (st_visited s)).
  Proof.
    intros E A. assert (L : p < length (st_heap s)) by (apply nth_error_Some; congruence). split; cbn.
    - intros q x Eq. destruct (Nat.eq_dec q p) as [->|Ne]; [|rewrite setitem_other by auto; exists x; split; [exact Eq|apply alike_refl]].
      rewrite setitem_same by exact L. exists o'. split; [reflexivity|]. congruence.
    - intros K q x Eq. destruct (Nat.eq_dec q p) as [->|Ne]; [|rewrite setitem_other in Eq by auto; exact (K q x Eq)].
      rewrite setitem_same in Eq by exact L. injection Eq as <-. specialize (K p o E). unfold alike in A. destruct (is_forward o) eqn:F; [destruct o', o; try discriminate; exact I|].
      destruct A as (f & ->). destruct o; try discriminate; try exact I; exact K.
    - right. apply (forwards_put _ _ o); [exact E|apply alike_forward, A].
  Qed.
  Lemma goes_remember s p r : goes s (mkState (st_heap s) ((p, r) :: st_visited s)).
  Proof. split; cbn; [|auto|auto]. intros q o E. exists o. split; [exact E|apply alike_refl]. Qed.

  (** ** Depth of a rule above forward rules.  Squashing puts a bounded repetition of an optional
      rule under the optional. *)
  Definition cost (o : obj) (m : nat) : nat := match o with OMin _ _ _ | OMax _ _ _ | OMinMax _ _ _ _ => 2 * m + 2 | _ => S m end.
  Inductive deep (h : heap) : nat -> nat -> Prop :=
  | deep_forward p o n : nth_error h p = Some o -> is_forward o = true -> deep h p n
  | deep_object p o m n : nth_error h p = Some o -> is_forward o = false -> bounded o -> (forall c, In c (children o) -> deep h c m) -> cost o m <= n -> deep h p n.
  Lemma deep_le h p n n' : deep h p n -> n <= n' -> deep h p n'.
  Proof. intros D L. destruct D as [p o n E F|p o m n E F B C K]; [exact (deep_forward h p o n' E F)|]. apply (deep_object h p o m n' E F B C). lia. Qed.
  Lemma deep_goes s s' p n : goes s s' -> deep (st_heap s) p n -> deep (st_heap s') p n.
  Proof.
    intros G D. induction D as [p o n E F|p o m n E F B C IH K].
    - destruct (goes_at _ _ G p o E) as (o' & E' & A). apply (deep_forward _ p o' n E'). rewrite (alike_forward _ _ A). exact F.
    - destruct (goes_at _ _ G p o E) as (o' & E' & A). pose proof (alike_forward _ _ A) as F'. unfold alike in A. rewrite F in A. destruct A as (f & ->).
      apply (deep_object _ p _ m n E'); [congruence|destruct o; exact B| |destruct o; exact K]. intros c Hc. apply IH. destruct o; exact Hc.
  Qed.
  (** Objects that are used before they are defined only through forward rules have a depth. *)
  Lemma deep_ordered h : ordered h -> bounds h -> forall p, p < length h -> deep h p (4 ^ p).
  Proof.
    intros O B. induction p as [p IH] using (well_founded_induction lt_wf). intros L. destruct (nth_error h p) as [o|] eqn:E; [|apply nth_error_None in E; lia].
    destruct (is_forward o) eqn:F; [exact (deep_forward h p o _ E F)|]. destruct p as [|p].
    - apply (deep_object h 0 o 0 _ E F (B 0 o E)); [|].
      + intros c Hc. destruct (O 0 o c E Hc) as [_ K]. specialize (K F). lia.
      + assert (C : children o = []). { destruct (children o) as [|c l] eqn:Ec; [reflexivity|]. destruct (O 0 o c E) as [_ K]; [rewrite Ec; left; reflexivity|]. specialize (K F). lia. }
        destruct o; cbn in C |- *; try discriminate; lia.
    - apply (deep_object h (S p) o (4 ^ p) _ E F (B _ o E)).
      + intros c Hc. destruct (O (S p) o c E Hc) as [_ K]. specialize (K F). apply (deep_le h c (4 ^ c)); [apply IH; lia|]. apply Nat.pow_le_mono_r; lia.
      + assert (1 <= 4 ^ p) by (clear; induction p as [|p IH]; cbn; lia). rewrite Nat.pow_succ_r'. destruct o; cbn [cost]; lia.
  Qed.
  Lemma deep_child h p o n : deep h p n -> nth_error h p = Some o -> is_forward o = false -> bounded o /\ exists m, cost o m <= n /\ forall c, In c (children o) -> deep h c m.
  Proof. intros D E F. destruct D as [p x n Ex Fx|p x m n Ex Fx B C K]; [congruence|]. assert (x = o) as -> by congruence. split; [exact B|]. exists m. auto. Qed.
  Lemma cost_lt o m : m < cost o m.
  Proof. destruct o; cbn; lia. Qed.

  (** ** Visits *)
  Definition visit_ends (V : nat -> visitor) (s : state) (n : nat) : Prop :=
    forall q m s', m < n -> goes s s' -> deep (st_heap s') q m -> ends (fun k => V k q) s' (fun _ s'' => goes s' s'').
  Definition method_ends (method : nat -> visitor -> nat -> obj -> M nat) : Prop :=
    forall V p o n s, visit_ends V s n -> deep (st_heap s) p n -> nth_error (st_heap s) p = Some o ->
    ends (fun k => method k (V k) p o) s (fun _ s' => goes s s').
  Lemma visits_end method : method_ends method -> forall n p d s, deep (st_heap s) p n -> ends (fun k => visit (method k) (k - d) p) s (fun _ s' => goes s s').
  Proof.
    intros ME. induction n as [n IH] using (well_founded_induction lt_wf). intros p d s D.
    apply ends_eq with (m' := fun k => bindM (recall p) (fun known => match known with
      | Some r => ret r
      | None => bindM (get p) (fun o => bindM (method k (visit (method k) (k - S d)) p o) (fun r => bindM (remember p r) (fun _ => ret r))) end)).
    { exists (S d). intros k L. destruct (k - d) as [|x] eqn:E; [lia|]. replace (k - S d) with x by lia. reflexivity. }
    apply ends_bind_recall. destruct (assoc p (st_visited s)) as [r|]; [apply ends_ret, goes_refl|].
    apply ends_bind_get. intros o E.
    eapply ends_bind; [apply (ME (fun k => visit (method k) (k - S d)) p o n s); [|exact D|exact E]|].
    - intros q m s' L G Dq. apply (IH m L). exact Dq.
    - intros r s' G. eapply ends_bind; [apply ends_remember; instantiate (1 := fun _ s'' => goes s s'')|].
      + exact (goes_trans _ _ _ G (goes_remember s' p r)).
      + intros u s'' G'. apply ends_ret, G'.
  Qed.

  (** ** The methods *)
  Lemma map_ends {A B} (f : nat -> A -> M B) : forall l s, (forall x s', In x l -> goes s s' -> ends (fun k => f k x) s' (fun _ s'' => goes s' s'')) ->
    ends (fun k => mapMM (f k) l) s (fun _ s' => goes s s').
  Proof.
    induction l as [|x l IH]; intros s F; cbn [mapMM].
    - apply ends_ret, goes_refl.
    - eapply ends_bind; [apply (F x s (or_introl eq_refl) (goes_refl s))|]. intros y s1 G1.
      eapply ends_bind; [apply IH|].
      + intros z s' Hz G. apply (F z s' (or_intror Hz)). exact (goes_trans _ _ _ G1 G).
      + intros ys s2 G2. apply ends_ret. exact (goes_trans _ _ _ G1 G2).
  Qed.
  Lemma alloc_ends o s0 s : bounded o -> more \/ is_forward o = false -> goes s0 s -> ends (fun _ => alloc o) s (fun _ s' => goes s0 s').
  Proof. intros B F G. apply ends_alloc. exact (goes_trans _ _ _ G (goes_alloc s o B F)). Qed.
  Lemma child_ends V s n m q : visit_ends V s n -> m < n -> deep (st_heap s) q m -> forall s', goes s s' -> ends (fun k => V k q) s' (fun _ s'' => goes s s'').
  Proof. intros VE L D s' G. eapply ends_post; [apply (VE q m s' L G), (deep_goes s s' q m G D)|]. intros a s'' G'. exact (goes_trans _ _ _ G G'). Qed.
  Lemma term_ends V s n m t : visit_ends V s n -> m < n -> (forall r, t = TRule r -> deep (st_heap s) r m) -> forall s', goes s s' ->
    ends (fun k => visit_term (V k) t) s' (fun _ s'' => goes s' s'').
  Proof.
    intros VE L D s' G. destruct t as [r|x]; cbn; [|apply ends_ret, goes_refl].
    eapply ends_bind; [apply (VE r m s' L G), (deep_goes s s' r m G), D; reflexivity|]. intros r' s'' G'. apply ends_ret, G'.
  Qed.
  Lemma rule_terms_in ts r : In (TRule r) ts -> In r (rule_terms (pred := pred) ts).
  Proof. intros H. apply in_flat_map. exists (TRule r). split; [exact H|left; reflexivity]. Qed.
  Lemma base_ends : method_ends (fun _ => base_method).
  Proof.
    intros V p o n s VE D E. destruct (is_forward o) eqn:F; [destruct o; try discriminate; apply ends_ret, goes_refl|].
    destruct (deep_child _ _ _ _ D E F) as (B & m & C & K). assert (L : m < n) by (pose proof (cost_lt o m); lia).
    assert (One : forall r s', In r (children o) -> goes s s' -> ends (fun k => V k r) s' (fun _ s'' => goes s s'')).
    { intros r s' Hr G. apply (child_ends V s n m r VE L (K r Hr) s' G). }
    assert (Many : forall l, (forall x, In x l -> In x (children o)) -> ends (fun k => mapMM (V k) l) s (fun _ s' => goes s s')).
    { intros l I. apply map_ends. intros x s' Hx G. apply (VE x m s' L G), (deep_goes s s' x m G), K, I, Hx. }
    destruct o as [ps|rs|r0 rev|r0 rev|r0 rr ro|r0 mi rev|r0 mi rev|r0 mi ma rev|r0 nm|r0 i|r0 rel|d| |pl|ps a|b ps a|ts mi| |k ps]; cbn [base_method];
      try (apply ends_raise); try (apply ends_ret, goes_refl); try discriminate;
      try (eapply ends_bind; [apply (One r0 s (or_introl eq_refl) (goes_refl s))|]; intros r1 s1 G1; apply alloc_ends; [exact B|right; reflexivity|exact G1]);
      try (eapply ends_bind; [apply Many; auto|]; intros r1 s1 G1; apply alloc_ends; [exact I|right; reflexivity|exact G1]).
    unfold visit_Production. eapply ends_bind; [apply map_ends|].
    - intros t s' Ht G. apply (term_ends V s n m t VE L); [|exact G]. intros r ->. apply K. cbn. apply rule_terms_in, Ht.
    - intros r1 s1 G1. apply alloc_ends; [exact I|right; reflexivity|exact G1].
  Qed.

  Lemma new_ends V s n o m : visit_ends V s n -> m < n -> bounded o -> is_forward o = false -> forall s', goes s s' ->
    deep (st_heap s' ++ [o]) (length (st_heap s')) m -> ends (fun k => visit_new (V k) o) s' (fun _ s'' => goes s s'').
  Proof.
    intros VE L B F s' G D. unfold visit_new. pose proof (goes_alloc s' o B (or_intror F)) as Ga.
    apply ends_bind_alloc. eapply ends_post; [apply (VE (length (st_heap s')) m _ L (goes_trans _ _ _ G Ga)), D|].
    intros a s2 G2. exact (goes_trans _ _ _ G (goes_trans _ _ _ Ga G2)).
  Qed.
  Lemma deep_new h o m n : is_forward o = false -> bounded o -> (forall c, In c (children o) -> deep (h ++ [o]) c m) -> cost o m <= n -> deep (h ++ [o]) (length h) n.
  Proof. intros F B C K. apply (deep_object _ (length h) o m n); auto. rewrite nth_error_app2, Nat.sub_diag by lia. reflexivity. Qed.
  Lemma deep_app h o p n : deep h p n -> deep (h ++ [o]) p n.
  Proof.
    intros D. induction D as [p x n E F|p x m n E F B C IH K].
    - apply (deep_forward _ p x n); [|exact F]. rewrite nth_error_app1; [exact E|]. apply nth_error_Some. congruence.
    - apply (deep_object _ p x m n); auto. rewrite nth_error_app1; [exact E|]. apply nth_error_Some. congruence.
  Qed.
  Lemma squash_ends : method_ends (fun _ => squash_method).
  Proof.
    intros V p o n s VE D E. pose proof (base_ends V p o n s VE D E) as Base. destruct (is_forward o) eqn:F; [destruct o; try discriminate; exact Base|].
    destruct (deep_child _ _ _ _ D E F) as (B & m & C & K). assert (L : m < n) by (pose proof (cost_lt o m); lia).
    destruct o as [ps|rs|r0 rev|r0 rev|r0 rr ro|r0 mi rev|r0 mi rev|r0 mi ma rev|r0 nm|r0 i|r0 rel|d| |pl|ps a|b ps a|ts mi| |k ps]; cbn [squash_method]; try exact Base; clear Base.
    all: specialize (K r0 (or_introl eq_refl)).
    all: apply ends_bind_get; intros child Ec.
    all: assert (One : forall f : nat -> obj, bounded (f 0) -> (forall x, bounded (f x) = bounded (f 0) /\ is_forward (f x) = false) -> ends (fun k => bindM (V k r0) (fun r' => alloc (f r'))) s (fun _ s' => goes s s'))
      by (intros f Bf Ff; eapply ends_bind; [apply (child_ends V s n m r0 VE L K s (goes_refl s))|]; intros r1 s1 G1; apply alloc_ends; [destruct (Ff r1) as [-> _]; exact Bf|right; apply Ff|exact G1]).
    all: destruct (is_forward child) eqn:Fc; [destruct child; try discriminate; apply One; [exact B|split; reflexivity]|].
    all: destruct (deep_child _ _ _ _ K Ec Fc) as (Bc & mc & Cc & Kc).
    all: destruct child as [ps2|rs2|r2 rev2|r2 rev2|r2 rr2 ro2|r2 mi2 rev2|r2 mi2 rev2|r2 mi2 ma2 rev2|r2 nm2|r2 i2|r2 rel2|d2| |pl2|ps2 a2|b2 ps2 a2|ts2 mi2| |k2 ps2];
      unfold squash_bounded; try apply ends_raise; try discriminate; try (apply One; [exact B|split; reflexivity]).
    all: specialize (Kc r2 (or_introl eq_refl)); cbn [cost] in C, Cc.
    all: try (apply (new_ends V s n _ m VE L); [exact I|reflexivity|apply goes_refl|]; apply (deep_new _ _ mc); [reflexivity|exact I|intros c [<-|[]]; apply deep_app, Kc|cbn [cost]; lia]).
    all: match goal with |- ends (fun k => bindM (alloc ?o1) _) _ _ => set (t1 := o1) end.
    all: pose proof (goes_alloc s t1 B (or_intror eq_refl)) as Ga.
    all: apply ends_bind_alloc.
    all: apply (new_ends V s n _ (2 * mc + 3) VE); [lia|exact I|reflexivity|exact Ga|].
    all: apply (deep_new _ _ (2 * mc + 2)); [reflexivity|exact I| |cbn [cost]; lia]; intros c [<-|[]]; apply deep_app; cbn [st_heap].
    all: apply (deep_new _ _ mc); [reflexivity|exact B|intros c [<-|[]]; apply deep_app, Kc|cbn; lia].
  Qed.

  Lemma new_rule_ends ts s0 s : goes s0 s -> ends (fun _ => new_rule ts) s (fun _ s' => goes s0 s').
  Proof.
    intros G. unfold new_rule. apply ends_bind_alloc. apply alloc_ends; [exact I|right; reflexivity|]. apply (goes_trans _ _ _ G), goes_alloc; [exact I|right; reflexivity].
  Qed.
  Lemma define_ends f r d s0 s : nth_error (st_heap s) f = Some (OForward d) -> goes s0 s -> ends (fun _ => define f r) s (fun _ s' => goes s0 s').
  Proof.
    intros E G. unfold define. apply ends_bind_get. intros o _. destruct (is_forward o); [apply ends_raise|]. apply ends_put. apply (goes_trans _ _ _ G). apply (goes_put s f _ _ E). reflexivity.
  Qed.
  Lemma goes_forward s s' f d : goes s s' -> nth_error (st_heap s) f = Some (OForward d) -> exists d', nth_error (st_heap s') f = Some (OForward d').
  Proof. intros G E. destruct (goes_at _ _ G f _ E) as (o' & E' & A). unfold alike in A. cbn in A. destruct o'; try discriminate. eexists. exact E'. Qed.
  Lemma max_bound_ends item rev : forall count s0 s, goes s0 s -> ends (fun _ => max_bound item (S count) rev) s (fun _ s' => goes s0 s').
  Proof.
    induction count as [|count IH]; intros s0 s G.
    - apply ends_ret, G.
    - change (fun _ : nat => max_bound item (S (S count)) rev) with (fun _ : nat => bindM (max_bound (pred := pred) (pipe := pipe) (bnf := bnf) item (S count) rev) (fun rest => bindM (new_rule [item; rest]) (fun a => alloc (OOr (RuleModel.ordered rev a item))))).
      eapply ends_bind; [apply IH, G|]. intros rest s1 G1. eapply ends_bind; [apply new_rule_ends, G1|]. intros a s2 G2. apply alloc_ends; [exact I|right; reflexivity|exact G2].
  Qed.
  Section Repetitions.
    Hypothesis makes : more.
    Lemma repeatable_ends item rev s0 s : goes s0 s -> ends (fun _ => repeatable_rule item rev) s (fun _ s' => goes s0 s').
    Proof.
      intros G. unfold repeatable_rule. apply ends_bind_alloc. set (s1 := mkState (st_heap s ++ [OForward None]) (st_visited s)).
      assert (G1 : goes s s1) by (apply goes_alloc; [exact I|left; exact makes]).
      assert (E1 : nth_error (st_heap s1) (length (st_heap s)) = Some (OForward None)) by (cbn; rewrite nth_error_app2, Nat.sub_diag by lia; reflexivity).
      eapply ends_bind; [apply new_rule_ends, goes_refl|]. intros a s2 G2.
      eapply ends_bind; [apply (alloc_ends _ s1); [exact I|right; reflexivity|exact G2]|]. intros o s3 G3.
      destruct (goes_forward _ _ _ _ G3 E1) as (d & E3).
      eapply ends_bind; [apply (define_ends _ o d s0 s3 E3); exact (goes_trans _ _ _ G (goes_trans _ _ _ G1 G3))|]. intros u s4 G4. apply ends_ret, G4.
    Qed.
    Lemma repeatable_optional_ends item rr ro s0 s : goes s0 s -> ends (fun _ => repeatable_optional_rule item rr ro) s (fun _ s' => goes s0 s').
    Proof.
      intros G. unfold repeatable_optional_rule. apply ends_bind_alloc. set (s1 := mkState (st_heap s ++ [OForward None]) (st_visited s)).
      assert (G1 : goes s s1) by (apply goes_alloc; [exact I|left; exact makes]).
      assert (E1 : nth_error (st_heap s1) (length (st_heap s)) = Some (OForward None)) by (cbn; rewrite nth_error_app2, Nat.sub_diag by lia; reflexivity).
      eapply ends_bind; [apply (alloc_ends _ s1); [exact I|right; reflexivity|apply goes_refl]|]. intros a s2 G2.
      eapply ends_bind; [apply new_rule_ends, G2|]. intros b s3 G3.
      eapply ends_bind; [apply (alloc_ends _ s1); [exact I|right; reflexivity|exact G3]|]. intros o s4 G4.
      destruct (goes_forward _ _ _ _ G4 E1) as (d & E4).
      eapply ends_bind; [apply (define_ends _ o d s0 s4 E4); exact (goes_trans _ _ _ G (goes_trans _ _ _ G1 G4))|]. intros u s5 G5. apply ends_ret, G5.
    Qed.
    Lemma replace_extended_ends : method_ends (fun _ => replace_extended_method).
    Proof.
      intros V p o n s VE D E. pose proof (base_ends V p o n s VE D E) as Base. destruct (is_forward o) eqn:F; [destruct o; try discriminate; exact Base|].
      destruct (deep_child _ _ _ _ D E F) as (B & m & C & K). assert (L : m < n) by (pose proof (cost_lt o m); lia).
      destruct o as [ps|rs|r0 rev|r0 rev|r0 rr ro|r0 mi rev|r0 mi rev|r0 mi ma rev|r0 nm|r0 i|r0 rel|d| |pl|ps a|b ps a|ts mi| |k ps]; cbn [replace_extended_method]; try exact Base; clear Base.
      all: specialize (K r0 (or_introl eq_refl)).
      all: eapply ends_bind; [apply (child_ends V s n m r0 VE L K s (goes_refl s))|]; intros child s1 G1.
      - unfold optional_rule. eapply ends_bind; [apply alloc_ends; [exact I|right; reflexivity|exact G1]|]. intros a s2 G2. apply alloc_ends; [exact I|right; reflexivity|exact G2].
      - apply repeatable_ends, G1.
      - apply repeatable_optional_ends, G1.
      - eapply ends_bind; [apply repeatable_ends, G1|]. intros last s2 G2. apply new_rule_ends, G2.
      - cbn in B. destruct mi as [|mi]; [lia|]. apply max_bound_ends, G1.
      - rewrite Nat.add_1_r. eapply ends_bind; [apply max_bound_ends, G1|]. intros last s2 G2. apply new_rule_ends, G2.
    Qed.
  End Repetitions.
  Lemma replace_or_ends : method_ends (fun _ => replace_or_method).
  Proof.
    intros V p o n s VE D E. pose proof (base_ends V p o n s VE D E) as Base. destruct (is_forward o) eqn:F; [destruct o; try discriminate; exact Base|].
    destruct (deep_child _ _ _ _ D E F) as (B & m & C & K). assert (L : m < n) by (pose proof (cost_lt o m); lia).
    destruct o; cbn [replace_or_method]; try exact Base; clear Base.
    eapply ends_bind; [apply map_ends|].
    - intros r s' Hr G. eapply ends_bind; [apply (VE r m s' L G), (deep_goes s s' r m G), K, Hr|]. intros r' s2 G2. apply alloc_ends; [exact I|right; reflexivity|exact G2].
    - intros ps s1 G1. apply alloc_ends; [exact I|right; reflexivity|exact G1].
  Qed.
  Lemma replace_empty_ends : method_ends (fun _ => replace_empty_method).
  Proof.
    intros V p o n s VE D E. pose proof (base_ends V p o n s VE D E) as Base. destruct o; cbn [replace_empty_method]; try exact Base; clear Base.
    eapply ends_bind; [apply (alloc_ends _ s); [exact I|right; reflexivity|apply goes_refl]|]. intros q s1 G1. apply alloc_ends; [exact I|right; reflexivity|exact G1].
  Qed.
  Lemma flatten_term_ends V s n : visit_ends V s n -> forall m t d s', m < n -> goes s s' -> (forall r, t = TRule r -> deep (st_heap s') r m) ->
    ends (fun k => flatten_term (k - d) (V k) t) s' (fun _ s'' => goes s' s'').
  Proof.
    intros VE m. induction m as [m IH] using (well_founded_induction lt_wf). intros t d s' L G D.
    apply ends_eq with (m' := fun k => match t with
        | TPred p => ret (TPred p)
        | TRule r => bindM (get r) (fun o => match o with
            | ORule [q] => bindM (get q) (fun q' => match production_terms q' with [t'] => flatten_term (k - S d) (V k) t' | _ => visit_term (V k) t end)
            | _ => visit_term (V k) t end) end).
    { exists (S d). intros k Lk. destruct (k - d) as [|x] eqn:E; [lia|]. replace (k - S d) with x by lia. reflexivity. }
    destruct t as [r|x]; [|apply ends_ret, goes_refl]. specialize (D r eq_refl).
    assert (Default : ends (fun k => visit_term (V k) (TRule r)) s' (fun _ s'' => goes s' s'')).
    { cbn. eapply ends_bind; [apply (VE r m s' L G D)|]. intros r' s2 G2. apply ends_ret, G2. }
    apply ends_bind_get. intros o E. destruct o as [[|q [|]]| | | | | | | | | | | | | | | | | |]; try exact Default.
    apply ends_bind_get. intros q' Eq. destruct (production_terms q') as [|t' [|]] eqn:P; try exact Default.
    destruct (deep_child _ _ _ _ D E eq_refl) as (_ & m1 & C1 & K1). cbn [cost] in C1. specialize (K1 q (or_introl eq_refl)).
    destruct (is_forward q') eqn:Fq; [destruct q'; discriminate|].
    destruct (deep_child _ _ _ _ K1 Eq Fq) as (_ & m2 & C2 & K2). pose proof (cost_lt q' m2). apply (IH m2); [lia|lia|exact G|].
    intros r' ->. apply K2. destruct q'; try discriminate; cbn in P |- *; [subst; left; reflexivity|destruct terms as [|x [|y l]]; discriminate].
  Qed.
  Lemma flatten_ends : method_ends (fun k => flatten_method k).
  Proof.
    intros V p o n s VE D E. pose proof (base_ends V p o n s VE D E) as Base. destruct (is_forward o) eqn:F; [destruct o; try discriminate; exact Base|].
    destruct (deep_child _ _ _ _ D E F) as (B & m & C & K). assert (L : m < n) by (pose proof (cost_lt o m); lia).
    destruct o as [| | | | | | | | | | | | | | | |ts main| |]; cbn [flatten_method]; try exact Base; clear Base. cbn in K.
    assert (Default : ends (fun k => bindM (mapMM (flatten_term k (V k)) ts) (fun ts' => alloc (OProd ts' main))) s (fun _ s' => goes s s')).
    { eapply ends_bind; [apply map_ends|].
      - intros t s' Ht G. eapply ends_eq; [|apply (flatten_term_ends V s n VE m t 0 s' L G)].
        + exists 0. intros k _. rewrite Nat.sub_0_r. reflexivity.
        + intros r ->. apply (deep_goes s s' r m G), K, rule_terms_in, Ht.
      - intros ts' s1 G1. apply alloc_ends; [exact I|right; reflexivity|exact G1]. }
    destruct ts as [|[r|x] [|]]; try exact Default. apply ends_bind_get. intros o' E'. destruct o' as [[|q [|]]| | | | | | | | | | | | | | | | | |]; try exact Default.
    specialize (K r (or_introl eq_refl)). destruct (deep_child _ _ _ _ K E' eq_refl) as (_ & m1 & C1 & K1). cbn [cost] in C1. apply (VE q m1 s); [lia|apply goes_refl|]. apply K1. left. reflexivity.
  Qed.

  Variable pipe_bnf : pipe -> res bnf.
  Variable bnf_lines : bnf -> list (str * list pred).
  Lemma lift_ends r s0 s : goes s0 s -> ends (fun _ => lift r) s (fun _ s' => goes s0 s').
  Proof.
    intros G. unfold lift. eapply ends_bind; [apply alloc_ends; [exact I|right; reflexivity|exact G]|]. intros q s1 G1. apply alloc_ends; [exact I|right; reflexivity|exact G1].
  Qed.
  Lemma wrapper_ends V s n m r parents : visit_ends V s n -> m < n -> deep (st_heap s) r m -> ends (fun k => visit_WrapperRule parents (V k) r) s (fun _ s' => goes s s').
  Proof.
    intros VE L D. unfold visit_WrapperRule. apply ends_bind_get. intros o E. destruct (is_forward o); [apply lift_ends, goes_refl|].
    apply (ends_bind (fun _ => is_shared parents r) _ s (fun _ s' => goes s s')).
    - unfold is_shared. destruct (count_occ Nat.eq_dec parents r); [apply ends_raise|apply ends_ret, goes_refl].
    - intros shared s1 G1. eapply ends_bind; [apply (child_ends V s n m r VE L D s1 G1)|]. intros r' s2 G2. destruct shared; [apply lift_ends, G2|apply ends_ret, G2].
  Qed.
  Lemma set_attribute_ends present update r s0 s : goes s0 s -> ends (fun _ => set_attribute present update r) s (fun _ s' => goes s0 s').
  Proof.
    intros G. unfold set_attribute. apply ends_bind_get. intros o E. destruct (get_attributes o) as [a|] eqn:A; [|apply ends_raise].
    apply (ends_bind (fun _ => if present a then lift r else ret r) _ s (fun _ s' => goes s0 s')); [destruct (present a); [apply lift_ends, G|apply ends_ret, G]|].
    intros r' s1 G1. apply ends_bind_get. intros o' E'.
    apply (ends_bind (fun _ => put r' (update_attributes update o')) (fun _ _ => ret r') s1 (fun _ s' => goes s0 s')); [|intros u s2 G2; apply ends_ret, G2].
    apply ends_put. apply (goes_trans _ _ _ G1). apply (goes_put s1 r' _ _ E'). unfold alike. destruct (is_forward o') eqn:F; [rewrite update_forward; exact F|eexists; reflexivity].
  Qed.
  Lemma bnf_ends parents : method_ends (fun _ => bnf_method pipe_bnf bnf_lines parents).
  Proof.
    intros V p o n s VE D E. pose proof (base_ends V p o n s VE D E) as Base. destruct (is_forward o) eqn:F; [destruct o; try discriminate; exact Base|].
    destruct (deep_child _ _ _ _ D E F) as (B & m & C & K). assert (L : m < n) by (pose proof (cost_lt o m); lia).
    assert (Many : forall l, (forall x, In x l -> In x (children o)) -> ends (fun k => mapMM (V k) l) s (fun _ s' => goes s s')).
    { intros l I. apply map_ends. intros x s' Hx G. apply (VE x m s' L G), (deep_goes s s' x m G), K, I, Hx. }
    destruct o as [ps|rs|r0 rev|r0 rev|r0 rr ro|r0 mi rev|r0 mi rev|r0 mi ma rev|r0 nm|r0 i|r0 rel|d| |pl|ps a|b ps a|ts mi| |k ps]; cbn [bnf_method]; try exact Base; clear Base; try apply ends_raise.
    all: try (eapply ends_bind; [apply Many; auto|]; intros r1 s1 G1; apply alloc_ends; [exact I|right; reflexivity|exact G1]).
    all: try (specialize (K r0 (or_introl eq_refl)); eapply ends_bind; [apply (wrapper_ends V s n m r0 parents VE L K)|]; intros r1 s1 G1; apply set_attribute_ends, G1).
    destruct (pipe_bnf pl) as [b|e]; [|apply ends_raise]. unfold new_pipeline. eapply ends_bind; [apply map_ends|].
    - intros line s1 _ G1. apply alloc_ends; [exact I|right; reflexivity|apply goes_refl].
    - intros ps s1 G1. apply alloc_ends; [exact I|right; reflexivity|exact G1].
  Qed.
End Ends.
