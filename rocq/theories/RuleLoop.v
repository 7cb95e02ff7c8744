(** Rules without loops give grammars without derivation cycles. *)
From Verif Require Import Base EarleyModel EarleySpec SpanProofs RuleModel RuleSpec RuleKeep RuleForward RuleLoopSpec.
Open Scope nat_scope.

Section Loop.
  Context {pred pipe bnf : Type}.
  Notation obj := (obj pred pipe bnf).
  Notation heap := (heap pred pipe bnf).
  Notation M := (M pred pipe bnf).
  Notation state := (state pred pipe bnf).
  Notation visitor := (visitor pred pipe bnf).
  Variable pipe_bnf : pipe -> res bnf.
  Variable bnf_lines : bnf -> list (str * list pred).
  Hypothesis no_blank : forall x b key ps, pipe_bnf x = Ok b -> In (key, ps) (bnf_lines b) -> ps <> [].
  Variable n0 : nat.
  Variable D : nat -> Prop.
  Hypothesis later : forall p, n0 <= p -> D p.

  (** Each object has a level and a bound for whether it may be empty, chosen when it is made. *)
  Record world := mkWorld { wn : nat; lev : nat -> nat; nul : nat -> Prop }.
  Definition le_ (w w' : world) : Prop := wn w <= wn w' /\ forall p, p < wn w -> lev w' p = lev w p /\ nul w' p = nul w p.
  Definition at_ (w : world) (p k : nat) (N : Prop) : Prop := D p /\ p < wn w /\ lev w p <= k /\ (nul w p -> N).
  Definition exactly (w : world) (p k : nat) (N : Prop) : Prop := D p /\ p < wn w /\ lev w p = k /\ nul w p = N.
  Definition term_at (w : world) (t : term pred) (x : nat * Prop) : Prop := match t with TRule r => at_ w r (fst x) (snd x) | TPred _ => True end.
  Definition nulls (l : list (nat * Prop)) : Prop := Forall (fun x => snd x) l.
  Definition tight (l : list (nat * Prop)) (k : nat) (N : Prop) : Prop :=
    (nulls l -> N) /\ forall pre x post, l = pre ++ x :: post -> nulls pre -> nulls post -> fst x < k.
  (** The room needed below an object for what the passes put in its place. *)
  Definition gap (o : obj) : nat :=
    match o with
    | OPipeline _ | OEmpty => 2
    | OOr _ => 3
    | ONamed _ _ | OInterp _ _ | ORelation _ _ | OOptional _ _ => 5
    | ORepeatable _ _ | ORepOpt _ _ _ => 10
    | OMin _ _ _ => 15
    | OMax _ max _ => 5 * max + 10
    | OMinMax _ _ max _ => 5 * max + 15
    | _ => 1
    end.
  Definition desc (w : world) (o : obj) (k : nat) (N : Prop) : Prop := gap o <= k /\
    match o with
    | OProd ts _ => exists l, Forall2 (term_at w) ts l /\ tight l k N
    | OPipeProd _ ps => ps = [] -> N
    | OEmptyProd | OEmpty => N
    | OOptional r _ => N /\ at_ w r (k - gap o) N
    | ORepOpt r _ _ => N /\ at_ w r (k - gap o) False
    | ORepeatable r _ | OMin r _ _ => at_ w r (k - gap o) False
    | _ => forall c, In c (children o) -> at_ w c (k - gap o) N
    end.
  Definition good_heap (w : world) (h : heap) : Prop := n0 <= wn w /\ wn w = length h /\ forall p o, D p -> nth_error h p = Some o -> desc w o (lev w p) (nul w p).
  Definition inv (w : world) (s : state) : Prop := good_heap w (st_heap s) /\ forall p r, In (p, r) (st_visited s) -> p < wn w /\ at_ w r (lev w p) (nul w p).
  Definition keeps {A} (m : M A) (w : world) (Q : world -> A -> Prop) : Prop := forall s a s', inv w s -> m s = Some (Ok (a, s')) -> exists w', le_ w w' /\ inv w' s' /\ Q w' a.

  Lemma le_refl w : le_ w w.
  Proof. split; [lia|auto]. Qed.
  Lemma le_trans w1 w2 w3 : le_ w1 w2 -> le_ w2 w3 -> le_ w1 w3.
  Proof. intros [L1 E1] [L2 E2]. split; [lia|]. intros p Lp. destruct (E1 p Lp) as [A1 B1], (E2 p) as [A2 B2]; [lia|]. split; congruence. Qed.
  Lemma at_le w w' p k N : le_ w w' -> at_ w p k N -> at_ w' p k N.
  Proof. intros [L E] (Dp & Lp & Lk & H). destruct (E p Lp) as [A B]. split; [exact Dp|]. split; [lia|]. split; [lia|]. rewrite B. exact H. Qed.
  Lemma at_weak w p k N k' (N' : Prop) : at_ w p k N -> k <= k' -> (N -> N') -> at_ w p k' N'.
  Proof. intros (Dp & Lp & Lk & H) L W. split; [exact Dp|]. split; [exact Lp|]. split; [lia|auto]. Qed.
  Lemma exactly_le w w' p k N : le_ w w' -> exactly w p k N -> exactly w' p k N.
  Proof. intros [L E] (Dp & Lp & Lk & H). destruct (E p Lp) as [A B]. split; [exact Dp|]. split; [lia|]. split; congruence. Qed.
  Lemma exactly_at w p k N : exactly w p k N -> at_ w p k N.
  Proof. intros (Dp & Lp & Lk & H). split; [exact Dp|]. split; [exact Lp|]. split; [lia|]. rewrite H. auto. Qed.
  Lemma term_le w w' t x : le_ w w' -> term_at w t x -> term_at w' t x.
  Proof. intros L. destruct t; cbn; [apply at_le, L|auto]. Qed.
  Lemma terms_le w w' ts l : le_ w w' -> Forall2 (term_at w) ts l -> Forall2 (term_at w') ts l.
  Proof. intros L F. induction F; constructor; [apply (term_le w w' _ _ L); assumption|assumption]. Qed.
  Lemma tight_weak l k N k' (N' : Prop) : tight l k N -> k <= k' -> (N -> N') -> tight l k' N'.
  Proof. intros [A B] L W. split; [auto|]. intros pre x post E P1 P2. specialize (B pre x post E P1 P2). lia. Qed.
  Lemma desc_le w w' o k N : le_ w w' -> desc w o k N -> desc w' o k N.
  Proof.
    intros L [G H]. split; [exact G|]. destruct o; cbn in *; try exact H; try (intros c Hc; apply (at_le w w' _ _ _ L); auto); try (apply (at_le w w' _ _ _ L); exact H);
      try (destruct H as [HN H]; split; [exact HN|apply (at_le w w' _ _ _ L); exact H]).
    destruct H as (l & F & T). exists l. split; [apply (terms_le w w' _ _ L F)|exact T].
  Qed.
  Lemma desc_weak w o k N k' (N' : Prop) : desc w o k N -> k <= k' -> (N -> N') -> desc w o k' N'.
  Proof.
    intros [G H] L W. split; [lia|]. destruct o; cbn in *; auto;
      try (intros c Hc; eapply at_weak; [apply H, Hc|lia|exact W]); try (eapply at_weak; [exact H|lia|auto]);
      try (destruct H as [HN H]; split; [auto|eapply at_weak; [exact H|lia|auto]]).
    destruct H as (l & F & T). exists l. split; [exact F|eapply tight_weak; eauto].
  Qed.

  Lemma keeps_ret {A} (a : A) w (Q : world -> A -> Prop) : Q w a -> keeps (ret a) w Q.
  Proof. intros H s b s' I E. injection E as <- <-. exists w. split; [apply le_refl|auto]. Qed.
  Lemma keeps_raise {A} e w (Q : world -> A -> Prop) : keeps (raise e) w Q.
  Proof. intros s b s' I E. discriminate. Qed.
  Lemma keeps_no_fuel {A} w (Q : world -> A -> Prop) : keeps no_fuel w Q.
  Proof. intros s b s' I E. discriminate. Qed.
  Lemma keeps_bind {A B} (m : M A) (f : A -> M B) w (P : world -> A -> Prop) (Q : world -> B -> Prop) :
    keeps m w P -> (forall w' a, le_ w w' -> P w' a -> keeps (f a) w' Q) -> keeps (bindM m f) w Q.
  Proof.
    intros K1 K2 s b s' I E. unfold bindM in E. destruct (m s) as [[[a s1]|e]|] eqn:Em; try discriminate.
    destruct (K1 s a s1 I Em) as (w1 & L1 & I1 & P1). destruct (K2 w1 a L1 P1 s1 b s' I1 E) as (w2 & L2 & I2 & Q2). exists w2. split; [apply (le_trans w w1 w2 L1 L2)|auto].
  Qed.
  Lemma keeps_weaken {A} (m : M A) w (P Q : world -> A -> Prop) : keeps m w P -> (forall w' a, P w' a -> Q w' a) -> keeps m w Q.
  Proof. intros K W s a s' I E. destruct (K s a s' I E) as (w' & L & I' & H). exists w'. auto. Qed.
  Lemma keeps_get p k N w : at_ w p k N -> keeps (get p) w (fun w' o => w' = w /\ exists k' N', exactly w p k' N' /\ desc w o k' N' /\ k' <= k /\ (N' -> N)).
  Proof.
    intros (Dp & Lp & Lk & H) s o s' I E. unfold get in E. destruct (nth_error (st_heap s) p) as [o'|] eqn:Ep; [|discriminate]. injection E as <- <-. exists w. split; [apply le_refl|]. split; [exact I|]. split; [reflexivity|].
    exists (lev w p), (nul w p). split; [repeat split; assumption|]. split; [|auto]. apply (proj1 I); assumption.
  Qed.
  Lemma keeps_alloc o k N w : desc w o k N -> keeps (alloc o) w (fun w' p => exactly w' p k N).
  Proof.
    intros G s p s' I E. injection E as <- <-. destruct I as [(L & Ln & H) V].
    set (n := length (st_heap s)). set (w' := mkWorld (S n) (fun q => if q =? n then k else lev w q) (fun q => if q =? n then N else nul w q)).
    assert (Lw : le_ w w').
    { split; [cbn; subst n; lia|]. intros q Lq. cbn. destruct (Nat.eqb_spec q n) as [->|_]; [subst n; lia|auto]. }
    exists w'. split; [exact Lw|]. split.
    - split.
      + split; [cbn; subst n; lia|]. split; [cbn; rewrite app_length; cbn; subst n; lia|]. intros q o' Dq Eq. cbn [st_heap] in Eq. cbn [lev nul w'].
        destruct (Nat.lt_ge_cases q n) as [Lq|Lq].
        * rewrite nth_error_app1 in Eq by exact Lq. destruct (Nat.eqb_spec q n) as [->|_]; [lia|]. apply (desc_le w w' _ _ _ Lw). apply H; assumption.
        * rewrite nth_error_app2 in Eq by exact Lq. fold n in Eq. destruct (q - n) as [|[|i]] eqn:Ei; cbn in Eq; try discriminate. injection Eq as <-. assert (q = n) as -> by lia. rewrite Nat.eqb_refl. apply (desc_le w w' _ _ _ Lw G).
      + cbn [st_visited]. intros q r Hq. destruct (V q r Hq) as [Lq A]. split; [cbn; subst n; lia|]. cbn [lev nul w']. destruct (Nat.eqb_spec q n) as [->|_]; [subst n; lia|]. apply (at_le w w' _ _ _ Lw A).
    - split; [apply later; subst n; lia|]. cbn. fold n. rewrite Nat.eqb_refl. split; [lia|auto].
  Qed.
  Lemma keeps_new o k N w : desc w o k N -> keeps (alloc o) w (fun w' p => at_ w' p k N).
  Proof. intros H. eapply keeps_weaken; [apply keeps_alloc, H|]. intros w' a. apply exactly_at. Qed.
  Lemma keeps_put p o k N w : exactly w p k N -> desc w o k N -> keeps (put p o) w (fun w' _ => w' = w).
  Proof.
    intros (Dp & Lp & Ek & En) G s u s' I E. injection E as <- <-. exists w. split; [apply le_refl|]. split; [|reflexivity]. destruct I as [(L & Ln & H) V]. split; [|exact V].
    split; [exact L|]. split; [cbn; rewrite setitem_length; exact Ln|]. intros q o' Dq Eq. cbn in Eq. rewrite nth_setitem in Eq.
    destruct (Nat.eqb_spec q p) as [->|_]; [|apply H; assumption]. destruct (nth_error (st_heap s) p); [|discriminate]. injection Eq as <-. rewrite Ek, En. exact G.
  Qed.
  Lemma keeps_remember p r k N w : exactly w p k N -> at_ w r k N -> keeps (remember p r) w (fun w' _ => w' = w).
  Proof.
    intros (Dp & Lp & Ek & En) A s u s' I E. injection E as <- <-. exists w. split; [apply le_refl|]. split; [|reflexivity]. destruct I as [I V]. split; [exact I|]. cbn. intros q x [H|H]; [|apply (V q x H)].
    injection H as <- <-. split; [exact Lp|]. rewrite Ek, En. exact A.
  Qed.
  Lemma keeps_recall p k N w : at_ w p k N -> keeps (recall p) w (fun w' known => w' = w /\ forall r, known = Some r -> at_ w r k N).
  Proof.
    intros (Dp & Lp & Lk & W) s known s' I E. injection E as <- <-. exists w. split; [apply le_refl|]. split; [exact I|]. split; [reflexivity|]. intros r E.
    assert (In (p, r) (st_visited s)) as H.
    { revert E. generalize (st_visited s). induction l as [|[x v] l IH]; cbn; [discriminate|]. destruct (Nat.eqb_spec p x) as [->|_]; [intros E; injection E as ->; auto|auto]. }
    destruct (proj2 I p r H) as [_ A]. apply (at_weak _ _ _ _ _ _ A Lk W).
  Qed.
  Lemma forall2_mono {A X} (R R' : A -> X -> Prop) l xs : (forall a x, R a x -> R' a x) -> Forall2 R l xs -> Forall2 R' l xs.
  Proof. intros W F. induction F; constructor; auto. Qed.
  (** Each element is converted to one with the same bounds. *)
  Lemma keeps_mapMM {A B X} (R : world -> A -> X -> Prop) (S : world -> B -> X -> Prop) (f : A -> M B) :
    (forall w w' a x, le_ w w' -> R w a x -> R w' a x) -> (forall w w' b x, le_ w w' -> S w b x -> S w' b x) ->
    (forall w a x, R w a x -> keeps (f a) w (fun w' b => S w' b x)) ->
    forall l xs w, Forall2 (R w) l xs -> keeps (mapMM f l) w (fun w' l' => Forall2 (S w') l' xs).
  Proof.
    intros MR MS K l. induction l as [|a l IH]; intros xs w F; inversion F; subst; cbn [mapMM]; [apply keeps_ret; constructor|].
    eapply keeps_bind; [apply K; eassumption|]. intros w1 b L1 Sb. eapply keeps_bind; [apply IH|].
    - eapply forall2_mono; [|eassumption]. intros a' x'. apply MR, L1.
    - intros w2 l2 L2 F2. apply keeps_ret. constructor; eauto.
  Qed.
  Lemma keeps_list {A B} (f : A -> M B) (R : world -> A -> Prop) (S : world -> B -> Prop) :
    (forall w w' a, le_ w w' -> R w a -> R w' a) -> (forall w w' b, le_ w w' -> S w b -> S w' b) ->
    (forall w a, R w a -> keeps (f a) w S) ->
    forall l w, (forall a, In a l -> R w a) -> keeps (mapMM f l) w (fun w' l' => forall b, In b l' -> S w' b).
  Proof.
    intros MR MS K l. induction l as [|a l IH]; intros w F; cbn [mapMM]; [apply keeps_ret; intros b []|].
    eapply keeps_bind; [apply K, F; left; reflexivity|]. intros w1 b L1 Sb. eapply keeps_bind; [apply IH; intros a' Ha; eapply MR; [exact L1|apply F; right; exact Ha]|].
    intros w2 l2 L2 F2. apply keeps_ret. intros b' [<-|Hb]; [eapply MS; eauto|auto].
  Qed.
  Ltac up L := cbv beta in *; repeat match type of L with
    | le_ ?w ?w' => match goal with
      | H : at_ w _ _ _ |- _ => apply (at_le w w' _ _ _ L) in H
      | H : exactly w _ _ _ |- _ => apply (exactly_le w w' _ _ _ L) in H
      | H : desc w _ _ _ |- _ => apply (desc_le w w' _ _ _ L) in H
      | H : Forall2 (term_at w) _ _ |- _ => apply (terms_le w w' _ _ L) in H
      end end.
  Lemma keeps_define f r k N w : exactly w f k N -> at_ w r (k - 1) N -> 1 <= k -> keeps (define f r) w (fun w' _ => w' = w).
  Proof.
    intros F A L. eapply keeps_bind; [eapply keeps_get, A|]. intros w1 o L1 [-> _]. destruct (is_forward o); [apply keeps_raise|].
    eapply keeps_put; [exact F|]. split; [exact L|]. cbn. intros c [<-|[]]. exact A.
  Qed.

  (** ** Visits *)
  Definition visits (V : visitor) : Prop := forall w p k N, at_ w p k N -> keeps (V p) w (fun w' r => at_ w' r k N).
  Definition method_keeps (method : visitor -> nat -> obj -> M nat) : Prop :=
    forall V w p o k N, visits V -> exactly w p k N -> desc w o k N -> keeps (method V p o) w (fun w' r => at_ w' r k N).
  Lemma visit_keeps method : method_keeps method -> forall fuel, visits (visit method fuel).
  Proof.
    intros K fuel. induction fuel as [|fuel IH]; intros w p k N A; cbn [visit]; [apply keeps_no_fuel|].
    eapply keeps_bind; [eapply keeps_recall, A|]. intros w1 known _ [-> Hk]. destruct known as [r|]; [apply keeps_ret, Hk; reflexivity|].
    eapply keeps_bind; [eapply keeps_get, A|]. intros w1 o _ (-> & k' & N' & X & Do & Lk & W). eapply keeps_bind; [eapply K; eassumption|]. intros w1 r L1 Ar. up L1.
    eapply keeps_bind; [eapply keeps_remember; eassumption|]. intros w2 _ _ ->. apply keeps_ret. exact (at_weak _ _ _ _ _ _ Ar Lk W).
  Qed.
  Definition known (w : world) (p : nat) : Prop := D p /\ p < wn w.
  Lemma known_at w p : known w p -> at_ w p (lev w p) (nul w p).
  Proof. intros [H L]. repeat split; auto. Qed.
  Lemma at_known w p k N : at_ w p k N -> known w p.
  Proof. intros (H & L & _). split; assumption. Qed.
  Lemma known_le w w' p : le_ w w' -> known w p -> known w' p.
  Proof. intros [L _] [H Lp]. split; [exact H|lia]. Qed.
  Lemma desc_known w o k N c : desc w o k N -> In c (children o) -> known w c.
  Proof.
    intros [G H] Hc. destruct o; cbn in *; try (destruct Hc; fail); try (eapply at_known, H, Hc);
      try (destruct Hc as [<-|[]]; first [eapply at_known, H|eapply at_known, (proj2 H)]).
    destruct H as (l & F & _). unfold rule_terms in Hc. induction F as [|t x ts l Ht F IH]; cbn in Hc; [destruct Hc|]. apply in_app_iff in Hc as [Hc|Hc]; [|auto].
    destruct t; [|destruct Hc]. destruct Hc as [<-|[]]. eapply at_known, Ht.
  Qed.
  Lemma enqueue_in w cs : forall queue visited queue' visited', enqueue cs queue visited = (queue', visited') -> Forall (known w) cs -> Forall (known w) queue -> Forall (known w) queue'.
  Proof.
    induction cs as [|c cs IH]; intros queue visited queue' visited' E Fc Fq; cbn in E; [injection E as <- <-; exact Fq|]. inversion Fc; subst.
    destruct (is_in c visited); [apply (IH _ _ _ _ E)|apply (IH _ _ _ _ E)]; auto. apply Forall_app. auto.
  Qed.
  Lemma walk_keeps act : (forall w p, known w p -> keeps (act p) w (fun _ _ => True)) -> forall fuel queue visited w, Forall (known w) queue -> keeps (walk_loop fuel act queue visited) w (fun _ _ => True).
  Proof.
    intros K fuel. induction fuel as [|fuel IH]; intros queue visited w F; destruct queue as [|x queue]; cbn [walk_loop]; try (apply keeps_ret; exact Logic.I); [apply keeps_no_fuel|].
    inversion F as [|? ? Kx Fq]; subst. eapply keeps_bind; [apply K; assumption|]. intros w1 _ L1 _. apply (known_le _ _ _ L1) in Kx. eapply keeps_bind; [eapply keeps_get, known_at, Kx|]. intros w2 o _ (-> & k & N & _ & Do & _).
    destruct (enqueue (children o) queue visited) as [queue' visited'] eqn:E. apply IH. apply (enqueue_in w1 _ _ _ _ _ E).
    - apply Forall_forall. intros c. apply (desc_known _ _ _ _ _ Do).
    - eapply Forall_impl; [|exact Fq]. intros y. apply known_le, L1.
  Qed.
  Definition outcome_ok (w : world) (r : nat) (h : heap) : Prop := good_heap w h /\ known w r.
  Lemma run_visit_keeps method fuel h root r h' w : method_keeps method -> outcome_ok w root h -> run_visit method fuel h root = Some (Ok (r, h')) -> exists w', outcome_ok w' r h'.
  Proof.
    intros K [G Kr] E. unfold run_visit in E. destruct (transform_walk method fuel root (mkState h [])) as [[[r1 s1]|e]|] eqn:T; try discriminate. injection E as -> <-.
    assert (keeps (transform_walk method fuel root) w known) as Kt.
    { unfold transform_walk. eapply keeps_bind; [apply walk_keeps|].
      - intros w1 p Kp. unfold define_visited. eapply keeps_bind; [eapply keeps_get, known_at, Kp|]. intros w2 o _ (-> & k & N & X & Do & _). destruct o as [| | | | | | | | | | |[d|]| | | | | | |]; try (apply keeps_ret; exact Logic.I).
        destruct Do as [G1 Do]. cbn in G1, Do. assert (Ad := Do d (or_introl eq_refl)). eapply keeps_bind; [apply (visit_keeps _ K), Ad|]. intros w2 d' L2 Ad'. up L2. eapply keeps_weaken; [eapply keeps_define; eassumption|auto].
      - constructor; [exact Kr|constructor].
      - intros w1 _ L1 _. eapply keeps_weaken; [apply (visit_keeps _ K), known_at, (known_le _ _ _ L1 Kr)|]. intros w2 a. apply at_known. }
    destruct (Kt (mkState h []) r s1) as (w' & _ & I & Q); [split; [exact G|intros p q []]|exact T|]. exists w'. split; [apply I|exact Q].
  Qed.
  Lemma run_inplace_keeps act fuel h root r h' w : (forall w p, known w p -> keeps (act p) w known) -> outcome_ok w root h -> run_inplace act fuel h root = Some (Ok (r, h')) -> exists w', outcome_ok w' r h'.
  Proof.
    intros K [G Kr] E. unfold run_inplace in E. destruct (transform_inplace act fuel root (mkState h [])) as [[[r1 s1]|e]|] eqn:T; try discriminate. injection E as -> <-.
    assert (keeps (transform_inplace act fuel root) w known) as Kt.
    { unfold transform_inplace. eapply keeps_bind; [apply walk_keeps|].
      - intros w1 p Kp. eapply keeps_bind; [apply K, Kp|]. intros w2 _ _ _. apply keeps_ret. exact Logic.I.
      - constructor; [exact Kr|constructor].
      - intros w1 _ L1 _. apply K, (known_le _ _ _ L1 Kr). }
    destruct (Kt (mkState h []) r s1) as (w' & _ & I & Q); [split; [exact G|intros p q []]|exact T|]. exists w'. split; [apply I|exact Q].
  Qed.

  (** ** Methods *)
  Definition all_at (w : world) (k : nat) (N : Prop) (ps : list nat) : Prop := forall c, In c ps -> at_ w c k N.
  Lemma visit_all V ps k N w : visits V -> all_at w k N ps -> keeps (mapMM V ps) w (fun w' ps' => all_at w' k N ps').
  Proof. intros Vi A. apply (keeps_list V (fun w p => at_ w p k N) (fun w p => at_ w p k N)); [intros w1 w2 p L; apply at_le, L|intros w1 w2 p L; apply at_le, L|intros w1 p; apply Vi|exact A]. Qed.
  Lemma visit_term_keeps V w t x : visits V -> term_at w t x -> keeps (visit_term V t) w (fun w' t' => term_at w' t' x).
  Proof. intros Vi T. destruct t as [r|p]; cbn; [|apply keeps_ret; exact Logic.I]. eapply keeps_bind; [apply Vi, T|]. intros w' r' _ Dr. apply keeps_ret, Dr. Qed.
  Lemma base_keeps : method_keeps base_method.
  Proof.
    intros V w p o k N Vi X Do. assert (A := exactly_at _ _ _ _ X).
    assert (L : forall ps g (F : list nat -> obj), (forall w' l, all_at w' (k - g) N l -> desc w' (F l) k N) -> all_at w (k - g) N ps -> keeps (bindM (mapMM V ps) (fun ps' => alloc (F ps'))) w (fun w' r => at_ w' r k N)).
    { intros ps g F HF Fp. eapply keeps_bind; [apply visit_all; [exact Vi|exact Fp]|]. intros w1 ys _ Fy. apply keeps_new, HF, Fy. }
    assert (One : forall r g N' (F : nat -> obj), (forall w' r', at_ w' r' (k - g) N' -> desc w' (F r') k N) -> at_ w r (k - g) N' -> keeps (bindM (V r) (fun r' => alloc (F r'))) w (fun w' r => at_ w' r k N)).
    { intros r g N' F HF Ar. eapply keeps_bind; [apply Vi, Ar|]. intros w1 r' _ Ar'. apply keeps_new, HF, Ar'. }
    destruct Do as [G H]. destruct o; cbn [base_method]; unfold visit_Rule; try (apply keeps_ret, A); try apply keeps_raise; cbn in G, H.
    - apply (L _ 1); [|exact H]. intros w' l Al. split; [exact G|exact Al].
    - apply (L _ 3); [|exact H]. intros w' l Al. split; [exact G|exact Al].
    - eapply One; [|exact H]. intros w' r' Ar. split; [exact G|exact Ar].
    - eapply One; [|apply H; left; reflexivity]. intros w' r' Ar. split; [exact G|]. intros c [<-|[]]. exact Ar.
    - eapply One; [|apply H; left; reflexivity]. intros w' r' Ar. split; [exact G|]. intros c [<-|[]]. exact Ar.
    - eapply One; [|apply H; left; reflexivity]. intros w' r' Ar. split; [exact G|]. intros c [<-|[]]. exact Ar.
    - eapply One; [|apply H; left; reflexivity]. intros w' r' Ar. split; [exact G|]. intros c [<-|[]]. exact Ar.
    - eapply One; [|apply H; left; reflexivity]. intros w' r' Ar. split; [exact G|]. intros c [<-|[]]. exact Ar.
    - apply (L _ 1); [|exact H]. intros w' l Al. split; [exact G|exact Al].
    - apply (L _ 1); [|exact H]. intros w' l Al. split; [exact G|exact Al].
    - destruct H as (l & F & T). unfold visit_Production. eapply keeps_bind; [apply (keeps_mapMM (fun w t x => term_at w t x) (fun w t x => term_at w t x)) with (xs := l)|].
      + intros w1 w2 t x L1. apply term_le, L1.
      + intros w1 w2 t x L1. apply term_le, L1.
      + intros w1 t x. apply visit_term_keeps, Vi.
      + exact F.
      + intros w1 ts' _ F'. apply keeps_new. split; [exact G|]. exists l. auto.
  Qed.
  Lemma squash_keeps : method_keeps squash_method.
  Proof.
    intros V w p o k N Vi X Do. destruct o; cbn [squash_method]; try (apply base_keeps; assumption).
    all: destruct Do as [G H]; cbn in G, H.
    - destruct H as [HN H]. eapply keeps_bind; [eapply keeps_get, H|]. intros w1 oc _ (-> & k' & N' & Xc & [Gc Hc] & Lk & W).
      assert (Dflt : keeps (bindM (V rule) (fun r' => alloc (OOptional r' reverse))) w (fun w' r => at_ w' r k N)).
      { eapply keeps_bind; [apply Vi, H|]. intros w1 r' _ Ar. apply keeps_new. split; [exact G|]. split; assumption. }
      destruct oc; try exact Dflt; try apply keeps_raise; cbn in Gc, Hc; unfold visit_new.
      + destruct Hc as [HN' Hc]. eapply keeps_bind; [apply (keeps_new _ k N)|intros w1 t _ At; apply Vi, At]. split; [cbn; lia|]. split; [exact HN|]. eapply at_weak; [exact Hc|cbn; lia|exact W].
      + eapply keeps_bind; [apply (keeps_new _ k N)|intros w1 t _ At; apply Vi, At]. split; [cbn; lia|]. split; [exact HN|]. eapply at_weak; [exact Hc|cbn; lia|auto].
    - eapply keeps_bind; [eapply keeps_get, H|]. intros w1 oc _ (-> & k' & N' & Xc & [Gc Hc] & Lk & W).
      assert (Dflt : keeps (bindM (V rule) (fun r' => alloc (ORepeatable r' reverse))) w (fun w' r => at_ w' r k N)).
      { eapply keeps_bind; [apply Vi, H|]. intros w1 r' _ Ar. apply keeps_new. split; [exact G|exact Ar]. }
      destruct oc; try exact Dflt; try apply keeps_raise; cbn in Gc, Hc; unfold visit_new.
      + destruct (W (proj1 Hc)).
      + eapply keeps_bind; [apply (keeps_new _ k N)|intros w1 t _ At; apply Vi, At]. split; [cbn; lia|]. eapply at_weak; [exact Hc|cbn; lia|auto].
      + eapply keeps_bind; [apply (keeps_new _ k N)|intros w1 t _ At; apply Vi, At]. split; [cbn; lia|]. eapply at_weak; [exact Hc|cbn; lia|auto].
      + eapply keeps_bind; [apply (keeps_new _ k N)|intros w1 t _ At; apply Vi, At]. split; [cbn; lia|]. eapply at_weak; [apply Hc; left; reflexivity|cbn; lia|exact W].
      + eapply keeps_bind; [apply (keeps_new _ k N)|intros w1 t _ At; apply Vi, At]. split; [cbn; lia|]. eapply at_weak; [apply Hc; left; reflexivity|cbn; lia|exact W].
    - destruct H as [HN H]. eapply keeps_bind; [eapply keeps_get, H|]. intros w1 oc _ (-> & k' & N' & Xc & [Gc Hc] & Lk & W).
      assert (Dflt : keeps (bindM (V rule) (fun r' => alloc (ORepOpt r' reverse_repeatable reverse_optional))) w (fun w' r => at_ w' r k N)).
      { eapply keeps_bind; [apply Vi, H|]. intros w1 r' _ Ar. apply keeps_new. split; [exact G|]. split; assumption. }
      destruct oc; try exact Dflt; cbn in Gc, Hc; unfold visit_new; try (destruct (W (proj1 Hc)));
        (eapply keeps_bind; [apply (keeps_new _ k N)|intros w1 t _ At; apply Vi, At]; split; [cbn; lia|]; split; [exact HN|]; eapply at_weak; [first [exact Hc|apply Hc; left; reflexivity]|cbn; lia|first [exact W|auto]]).
    - eapply keeps_bind; [eapply keeps_get, H|]. intros w1 oc _ (-> & k' & N' & Xc & [Gc Hc] & Lk & W).
      assert (Dflt : keeps (bindM (V rule) (fun r' => alloc (OMin r' min reverse))) w (fun w' r => at_ w' r k N)).
      { eapply keeps_bind; [apply Vi, H|]. intros w1 r' _ Ar. apply keeps_new. split; [exact G|exact Ar]. }
      destruct oc; try exact Dflt; cbn [squash_bounded]; try apply keeps_raise; cbn in Gc, Hc; unfold visit_new.
      + destruct (W (proj1 Hc)).
      + eapply keeps_bind; [apply (keeps_new _ k N)|intros w1 t _ At; apply Vi, At]. split; [cbn; lia|]. eapply at_weak; [exact Hc|cbn; lia|auto].
    - specialize (H rule (or_introl eq_refl)). eapply keeps_bind; [eapply keeps_get, H|]. intros w1 oc _ (-> & k' & N' & Xc & [Gc Hc] & Lk & W).
      assert (Dflt : keeps (bindM (V rule) (fun r' => alloc (OMax r' max reverse))) w (fun w' r => at_ w' r k N)).
      { eapply keeps_bind; [apply Vi, H|]. intros w1 r' _ Ar. apply keeps_new. split; [exact G|]. intros c [<-|[]]. exact Ar. }
      destruct oc; try exact Dflt; cbn [squash_bounded]; try apply keeps_raise; cbn in Gc, Hc; unfold visit_new.
      + destruct Hc as [HN' Hc]. eapply keeps_bind; [apply (keeps_new _ (k - 5) N)|].
        * split; [cbn; lia|]. intros c [<-|[]]. eapply at_weak; [exact Hc|cbn; lia|exact W].
        * intros w1 t _ At. eapply keeps_bind; [apply (keeps_new _ k N)|intros w2 t2 _ At2; apply Vi, At2]. split; [cbn; lia|]. split; [exact (W HN')|]. exact At.
      + eapply keeps_bind; [apply (keeps_new _ k N)|intros w1 t _ At; apply Vi, At]. split; [cbn; lia|]. eapply at_weak; [exact Hc|cbn; lia|auto].
    - specialize (H rule (or_introl eq_refl)). eapply keeps_bind; [eapply keeps_get, H|]. intros w1 oc _ (-> & k' & N' & Xc & [Gc Hc] & Lk & W).
      assert (Dflt : keeps (bindM (V rule) (fun r' => alloc (OMinMax r' min max reverse))) w (fun w' r => at_ w' r k N)).
      { eapply keeps_bind; [apply Vi, H|]. intros w1 r' _ Ar. apply keeps_new. split; [exact G|]. intros c [<-|[]]. exact Ar. }
      destruct oc; try exact Dflt; cbn [squash_bounded]; try apply keeps_raise; cbn in Gc, Hc; unfold visit_new.
      + destruct Hc as [HN' Hc]. eapply keeps_bind; [apply (keeps_new _ (k - 5) N)|].
        * split; [cbn; lia|]. intros c [<-|[]]. eapply at_weak; [exact Hc|cbn; lia|exact W].
        * intros w1 t _ At. eapply keeps_bind; [apply (keeps_new _ k N)|intros w2 t2 _ At2; apply Vi, At2]. split; [cbn; lia|]. split; [exact (W HN')|]. exact At.
      + eapply keeps_bind; [apply (keeps_new _ k N)|intros w1 t _ At; apply Vi, At]. split; [cbn; lia|]. eapply at_weak; [exact Hc|cbn; lia|auto].
  Qed.
  Lemma new_rule_keeps w ts l k N : Forall2 (fun p x => at_ w p (fst x) (snd x)) ts l -> tight l k N -> 1 <= k -> keeps (new_rule ts) w (fun w' r => at_ w' r (k + 1) N).
  Proof.
    intros F T G. unfold new_rule. eapply keeps_bind; [apply (keeps_new _ k N)|].
    - split; [exact G|]. exists l. split; [|exact T]. clear - F. induction F; cbn; constructor; auto.
    - intros w1 q _ Aq. apply keeps_new. split; [cbn; lia|]. intros c [<-|[]]. eapply at_weak; [exact Aq|cbn; lia|auto].
  Qed.
  (** Nothing else is known about the other terms. *)
  Lemma tight_all l k (N : Prop) : (nulls l -> N) -> (forall x, In x l -> fst x < k) -> tight l k N.
  Proof. intros H B. split; [exact H|]. intros pre x post E _ _. apply B. rewrite E. apply in_app_iff. right. left. reflexivity. Qed.
  Lemma or_keeps w reverse a b k N : at_ w a k N -> at_ w b k N -> keeps (alloc (OOr (ordered reverse a b))) w (fun w' r => at_ w' r (k + 3) N).
  Proof.
    intros Aa Ab. apply keeps_new. split; [cbn; lia|]. intros c Hc. cbn in Hc. assert (c = a \/ c = b) as [->| ->] by (destruct reverse; cbn in Hc; intuition auto); (eapply at_weak; [eassumption|cbn; lia|auto]).
  Qed.
  Lemma max_bound_keeps w item reverse k N : at_ w item k N -> 1 <= k -> forall count, keeps (max_bound item count reverse) w (fun w' r => at_ w' r (k + 5 * (count - 1)) N).
  Proof.
    intros A G count. induction count as [|count IH]; cbn [max_bound]; [apply keeps_no_fuel|]. destruct count as [|count]; [apply keeps_ret; eapply at_weak; [exact A|lia|auto]|].
    eapply keeps_bind; [exact IH|]. intros w1 rest L1 Ar. up L1. set (kr := k + 5 * (S count - 1)) in *. eapply keeps_bind; [apply (new_rule_keeps _ _ [(k, N); (kr, N)] (kr + 1) N)|].
    - constructor; [exact A|]. constructor; [exact Ar|constructor].
    - apply tight_all; [intros F; inversion F; assumption|]. intros x [<-|[<-|[]]]; cbn; lia.
    - lia.
    - intros w2 a L2 Aa. up L2. eapply keeps_weaken; [apply (or_keeps w2 reverse a item (kr + 1 + 1) N Aa)|].
      + eapply at_weak; [exact A|lia|auto].
      + intros w3 r Ar3. eapply at_weak; [exact Ar3|lia|auto].
  Qed.
  Lemma repeatable_keeps w item reverse k : at_ w item k False -> 1 <= k -> keeps (repeatable_rule item reverse) w (fun w' r => at_ w' r (k + 7) False).
  Proof.
    intros A G. unfold repeatable_rule. eapply keeps_bind; [apply (keeps_alloc _ (k + 7) False); split; [cbn; lia|intros c []]|]. intros w1 temp L1 X. up L1.
    eapply keeps_bind; [apply (new_rule_keeps _ _ [(k, False); (k + 7, False)] 1 False)|].
    - constructor; [exact A|]. constructor; [apply exactly_at, X|constructor].
    - split; [intros F; inversion F; assumption|]. intros pre x post E F1 F2. destruct pre as [|y [|z pre]]; injection E as <- E.
      + subst post. apply Forall_inv in F2; destruct F2.
      + apply Forall_inv in F1; destruct F1.
      + apply Forall_inv in F1; destruct F1.
    - lia.
    - intros w2 a L2 Aa. up L2. eapply keeps_bind; [apply (or_keeps w2 reverse a item (k + 2) False)|].
      + eapply at_weak; [exact Aa|lia|auto].
      + eapply at_weak; [exact A|lia|auto].
      + intros w3 x L3 Ax. up L3. eapply keeps_bind; [eapply keeps_define; [exact X| |lia]|].
        * eapply at_weak; [exact Ax|lia|auto].
        * intros w4 _ _ ->. apply keeps_ret, exactly_at, X.
  Qed.
  Lemma in_ordered reverse (a b c : nat) : In c (ordered reverse a b) -> c = a \/ c = b.
  Proof. destruct reverse; cbn; intuition auto. Qed.
  Lemma replace_extended_keeps : method_keeps replace_extended_method.
  Proof.
    intros V w p o k N Vi X Do. destruct o; cbn [replace_extended_method]; try (apply base_keeps; assumption); destruct Do as [G H]; cbn in G, H.
    - destruct H as [HN H]. eapply keeps_bind; [apply Vi, H|]. intros w1 child L1 Ac. unfold optional_rule. eapply keeps_bind; [apply (keeps_new _ 2 N); split; [cbn; lia|exact HN]|]. intros w2 a L2 Aa. up L2.
      eapply keeps_weaken; [apply (or_keeps w2 reverse a child (k - 3) N)|].
      + eapply at_weak; [exact Aa|lia|auto].
      + eapply at_weak; [exact Ac|lia|auto].
      + intros w3 r Ar. eapply at_weak; [exact Ar|lia|auto].
    - eapply keeps_bind; [apply Vi, H|]. intros w1 child L1 Ac. eapply keeps_weaken; [apply (repeatable_keeps w1 child reverse (k - 10 + 1)); [eapply at_weak; [exact Ac|lia|auto]|lia]|].
      intros w2 r Ar. eapply at_weak; [exact Ar|lia|intros []].
    - destruct H as [HN H]. eapply keeps_bind; [apply Vi, H|]. intros w1 child L1 Ac. unfold repeatable_optional_rule. clear X. eapply keeps_bind; [apply (keeps_alloc _ k N); split; [cbn; lia|intros c []]|]. intros w2 temp L2 X. up L2.
      eapply keeps_bind; [apply (keeps_new _ 2 N); split; [cbn; lia|exact HN]|]. intros w3 a L3 Aa. up L3.
      eapply keeps_bind; [apply (new_rule_keeps _ _ [(k - 10, False); (k, N)] (k - 10 + 1) False)|].
      + constructor; [exact Ac|]. constructor; [apply exactly_at, X|constructor].
      + split; [intros F; inversion F; assumption|]. intros pre x post E F1 F2. destruct pre as [|y [|z pre]]; injection E as <- E.
        * cbn. lia.
        * apply Forall_inv in F1; destruct F1.
        * apply Forall_inv in F1; destruct F1.
      + lia.
      + intros w4 b L4 Ab. up L4. eapply keeps_bind; [apply (keeps_new _ (k - 2) N)|].
        * split; [cbn; lia|]. intros c Hc. cbn in Hc. assert (c = a \/ c = b \/ c = child) as [->|[->| ->]].
          { destruct reverse_optional; [apply in_app_iff in Hc as [Hc|[<-|[]]]|destruct Hc as [<-|Hc]]; auto; apply in_ordered in Hc; tauto. }
          -- eapply at_weak; [exact Aa|cbn; lia|auto].
          -- eapply at_weak; [exact Ab|cbn; lia|intros []].
          -- eapply at_weak; [exact Ac|cbn; lia|intros []].
        * intros w5 x L5 Ax. up L5. eapply keeps_bind; [eapply keeps_define; [exact X| |lia]|].
          -- eapply at_weak; [exact Ax|lia|auto].
          -- intros w6 _ _ ->. apply keeps_ret, exactly_at, X.
    - eapply keeps_bind; [apply Vi, H|]. intros w1 child L1 Ac. eapply keeps_bind; [apply (repeatable_keeps w1 child reverse (k - 15 + 1)); [eapply at_weak; [exact Ac|lia|auto]|lia]|].
      intros w2 last L2 Al. up L2. eapply keeps_weaken; [apply (new_rule_keeps w2 _ (repeat (k - 15, False) (min - 1) ++ [(k - 15 + 8, False)]) (k - 15 + 9) False)|].
      + apply Forall2_app; [|constructor; [eapply at_weak; [exact Al|cbn; lia|auto]|constructor]]. generalize (min - 1). intros n. induction n; cbn; constructor; auto.
      + apply tight_all; [intros F; apply Forall_app in F as [_ F]; inversion F; assumption|]. intros x Hx. apply in_app_iff in Hx as [Hx|[<-|[]]]; [apply repeat_spec in Hx as ->; cbn; lia|cbn; lia].
      + lia.
      + intros w3 r Ar. eapply at_weak; [exact Ar|lia|intros []].
    - specialize (H rule (or_introl eq_refl)). eapply keeps_bind; [apply Vi, H|]. intros w1 child L1 Ac. eapply keeps_weaken; [apply (max_bound_keeps w1 child reverse (k - (5 * max + 10) + 1) N); [eapply at_weak; [exact Ac|cbn; lia|auto]|lia]|].
      intros w2 r Ar. eapply at_weak; [exact Ar|cbn; lia|auto].
    - specialize (H rule (or_introl eq_refl)). eapply keeps_bind; [apply Vi, H|]. intros w1 child L1 Ac. set (k0 := k - (5 * max + 15) + 1). assert (Ac' : at_ w1 child k0 N) by (eapply at_weak; [exact Ac|cbn; subst k0; lia|auto]).
      eapply keeps_bind; [apply (max_bound_keeps w1 child reverse k0 N); [exact Ac'|subst k0; lia]|].
      intros w2 last L2 Al. up L2. set (k1 := k0 + 5 * (max - min + 1 - 1)) in *. assert (k0 <= k1 /\ k1 + 3 <= k) as [K1 K2] by (subst k0 k1; lia). eapply keeps_weaken; [apply (new_rule_keeps w2 _ (repeat (k0, N) (min - 1) ++ [(k1, N)]) (k1 + 1) N)|].
      + apply Forall2_app; [|constructor; [exact Al|constructor]]. generalize (min - 1). intros n. induction n; cbn; constructor; auto.
      + apply tight_all; [intros F; apply Forall_app in F as [_ F]; inversion F; assumption|]. intros x Hx. apply in_app_iff in Hx as [Hx|[<-|[]]]; [apply repeat_spec in Hx as ->; cbn; lia|cbn; lia].
      + lia.
      + intros w3 r Ar. eapply at_weak; [exact Ar|lia|auto].
  Qed.
  Lemma replace_or_keeps : method_keeps replace_or_method.
  Proof.
    intros V w p o k N Vi X Do. destruct o; cbn [replace_or_method]; try (apply base_keeps; assumption). destruct Do as [G H]; cbn in G, H.
    eapply keeps_bind; [apply (keeps_list _ (fun w r => at_ w r (k - 3) N) (fun w r => at_ w r (k - 1) N))|].
    - intros w1 w2 r L. apply at_le, L.
    - intros w1 w2 r L. apply at_le, L.
    - intros w1 r Ar. eapply keeps_bind; [apply Vi, Ar|]. intros w2 r' _ Ar'. apply keeps_new. split; [cbn; lia|]. exists [(k - 3, N)]. split; [constructor; [exact Ar'|constructor]|].
      apply tight_all; [intros F; apply Forall_inv in F; exact F|]. intros x [<-|[]]. cbn. lia.
    - exact H.
    - intros w1 ps _ F. apply keeps_new. split; [cbn; lia|exact F].
  Qed.
  Lemma replace_empty_keeps : method_keeps replace_empty_method.
  Proof.
    intros V w p o k N Vi X Do. destruct o; cbn [replace_empty_method]; try (apply base_keeps; assumption). destruct Do as [G H]; cbn in G, H.
    eapply keeps_bind; [apply (keeps_new _ 1 N); split; [cbn; lia|exact H]|]. intros w1 q _ Aq. apply keeps_new. split; [cbn; lia|]. intros c [<-|[]]. eapply at_weak; [exact Aq|cbn; lia|auto].
  Qed.
  Lemma flatten_term_keeps V : visits V -> forall fuel w t x, term_at w t x -> keeps (flatten_term fuel V t) w (fun w' t' => term_at w' t' x).
  Proof.
    intros Vi fuel. induction fuel as [|fuel IH]; intros w t x Ht; cbn [flatten_term]; [apply keeps_no_fuel|]. destruct t as [r|p]; [|apply keeps_ret; exact Logic.I].
    eapply keeps_bind; [eapply keeps_get, Ht|]. intros w1 o _ (-> & k & N & _ & [G H] & Lk & W).
    assert (Dflt : keeps (visit_term V (TRule r)) w (fun w' t' => term_at w' t' x)) by (apply visit_term_keeps; assumption).
    destruct o; try assumption. destruct productions as [|q [|]]; try assumption. cbn in G, H.
    eapply keeps_bind; [eapply keeps_get, H; left; reflexivity|]. intros w1 oq _ (-> & kq & Nq & _ & [Gq Hq] & Lq & Wq). destruct (production_terms oq) as [|t' [|]] eqn:E; try assumption. apply IH.
    destruct oq; cbn in E; try discriminate.
    - subst terms. cbn in Hq. destruct Hq as (l & F & T1 & T2). inversion F as [|? y ? ? Hy F']; subst. inversion F'; subst. destruct t' as [r'|]; [|exact Logic.I]. cbn in Hy |- *.
      eapply at_weak; [exact Hy| |].
      + specialize (T2 [] y [] eq_refl (Forall_nil _) (Forall_nil _)). lia.
      + intros Hn. apply W, Wq, T1. repeat constructor. exact Hn.
    - destruct terms as [|z l]; [discriminate|]. injection E as <- _. exact Logic.I.
  Qed.
  Lemma flatten_keeps fuel : method_keeps (flatten_method fuel).
  Proof.
    intros V w p o k N Vi X Do. destruct o; cbn [flatten_method]; try (apply base_keeps; assumption). destruct Do as [G (l & F & T)]. cbn in G.
    assert (K : keeps (bindM (mapMM (flatten_term fuel V) terms) (fun ts' => alloc (OProd ts' main))) w (fun w' r => at_ w' r k N)).
    { eapply keeps_bind; [apply (keeps_mapMM (fun w t x => term_at w t x) (fun w t x => term_at w t x)) with (xs := l)|].
      + intros w1 w2 t x L1. apply term_le, L1.
      + intros w1 w2 t x L1. apply term_le, L1.
      + intros w1 t x. apply flatten_term_keeps, Vi.
      + exact F.
      + intros w1 ts' _ F'. apply keeps_new. split; [exact G|]. exists l. auto. }
    destruct terms as [|[r|x] [|]]; try exact K. inversion F as [|? x ? ? Hx F']; subst. inversion F'; subst. destruct T as [T1 T2]. specialize (T2 [] x [] eq_refl (Forall_nil _) (Forall_nil _)).
    eapply keeps_bind; [eapply keeps_get, Hx|]. intros w1 o' _ (-> & k' & N' & _ & [G' H'] & Lk & W). destruct o'; try exact K. destruct productions as [|q [|]]; try exact K. cbn in G', H'.
    eapply keeps_weaken; [apply Vi, H'; left; reflexivity|]. intros w1 r' Ar. eapply at_weak; [exact Ar|lia|]. intros Hn. apply T1. repeat constructor. auto.
  Qed.
  Lemma normalized_keeps fuel h root r h' w : outcome_ok w root h -> normalized fuel h root = Some (Ok (r, h')) -> exists w', outcome_ok w' r h'.
  Proof.
    intros O0 H. unfold normalized, then_ in H.
    destruct (run_visit squash_method fuel h root) as [[[r1 h1]|]|] eqn:E1; try discriminate. destruct (run_visit_keeps _ _ _ _ _ _ _ squash_keeps O0 E1) as (w1 & O1).
    destruct (run_visit replace_extended_method fuel h1 r1) as [[[r2 h2]|]|] eqn:E2; try discriminate. destruct (run_visit_keeps _ _ _ _ _ _ _ replace_extended_keeps O1 E2) as (w2 & O2).
    destruct (run_visit replace_or_method fuel h2 r2) as [[[r3 h3]|]|] eqn:E3; try discriminate. destruct (run_visit_keeps _ _ _ _ _ _ _ replace_or_keeps O2 E3) as (w3 & O3).
    destruct (run_visit replace_empty_method fuel h3 r3) as [[[r4 h4]|]|] eqn:E4; try discriminate. destruct (run_visit_keeps _ _ _ _ _ _ _ replace_empty_keeps O3 E4) as (w4 & O4).
    exact (run_visit_keeps _ _ _ _ _ _ _ (flatten_keeps fuel) O4 H).
  Qed.

  Lemma lift_keeps w r k N : at_ w r k N -> keeps (lift r) w (fun w' r' => at_ w' r' (k + 2) N).
  Proof.
    intros A. unfold lift. eapply keeps_bind; [apply (keeps_new _ (k + 1) N)|].
    - split; [cbn; lia|]. exists [(k, N)]. split; [constructor; [exact A|constructor]|]. apply tight_all; [intros F; apply Forall_inv in F; exact F|]. intros x [<-|[]]. cbn. lia.
    - intros w1 q _ Aq. apply keeps_new. split; [cbn; lia|]. intros c [<-|[]]. eapply at_weak; [exact Aq|cbn; lia|auto].
  Qed.
  Lemma wrapper_keeps parents V w r k N : visits V -> at_ w r k N -> keeps (visit_WrapperRule parents V r) w (fun w' r' => at_ w' r' (k + 2) N).
  Proof.
    intros Vi A. unfold visit_WrapperRule. eapply keeps_bind; [eapply keeps_get, A|]. intros w1 o _ [-> _]. destruct (is_forward o); [apply lift_keeps, A|].
    eapply keeps_bind with (P := fun w' _ => w' = w); [unfold is_shared; destruct (count_occ Nat.eq_dec parents r); [apply keeps_raise|apply keeps_ret; reflexivity]|]. intros w1 shared _ ->.
    eapply keeps_bind; [apply Vi, A|]. intros w1 r' _ Ar. destruct shared; [apply lift_keeps, Ar|apply keeps_ret]. eapply at_weak; [exact Ar|lia|auto].
  Qed.
  Lemma desc_attributes w (o : obj) F k N : desc w o k N -> desc w (update_attributes F o) k N.
  Proof. destruct o; auto. Qed.
  Lemma set_attribute_keeps present update w r k N : at_ w r k N -> keeps (set_attribute present update r) w (fun w' r' => at_ w' r' (k + 2) N).
  Proof.
    intros A. unfold set_attribute. eapply keeps_bind; [eapply keeps_get, A|]. intros w1 o _ [-> _]. destruct (get_attributes o) as [a|]; [|apply keeps_raise].
    eapply keeps_bind with (P := fun w' r' => at_ w' r' (k + 2) N); [destruct (present a); [apply lift_keeps, A|apply keeps_ret; eapply at_weak; [exact A|lia|auto]]|]. intros w1 r' _ Ar.
    eapply keeps_bind; [eapply keeps_get, Ar|]. intros w2 o' _ (-> & k' & N' & X & Do & _). eapply keeps_bind; [eapply keeps_put; [exact X|apply desc_attributes, Do]|]. intros w2 _ _ ->. apply keeps_ret, Ar.
  Qed.
  Lemma bnf_keeps parents : method_keeps (bnf_method pipe_bnf bnf_lines parents).
  Proof.
    intros V w p o k N Vi X Do.
    assert (R : forall ps, 1 <= k -> all_at w (k - 1) N ps -> keeps (bindM (mapMM V ps) (fun ps' => alloc (OBNF ps' no_attributes))) w (fun w' r => at_ w' r k N)).
    { intros ps G F. eapply keeps_bind; [apply visit_all; [exact Vi|exact F]|]. intros w1 ps' _ F'. apply keeps_new. split; [exact G|exact F']. }
    assert (Wr : forall r present update, 5 <= k -> at_ w r (k - 5) N -> keeps (bindM (visit_WrapperRule parents V r) (set_attribute present update)) w (fun w' r => at_ w' r k N)).
    { intros r present update G Ar. eapply keeps_bind; [apply wrapper_keeps; [exact Vi|exact Ar]|]. intros w1 r' _ Ar'. eapply keeps_weaken; [apply set_attribute_keeps, Ar'|]. intros w2 r2 A2. eapply at_weak; [exact A2|lia|auto]. }
    destruct o; cbn [bnf_method]; try (apply base_keeps; assumption); try apply keeps_raise; destruct Do as [G H]; cbn in G, H; try (apply R; [exact G|exact H]);
      try (apply Wr; [exact G|apply H; left; reflexivity]).
    destruct (pipe_bnf pipeline) as [b|] eqn:E; [|apply keeps_raise]. unfold new_pipeline.
    eapply keeps_bind; [apply (keeps_list _ (fun _ line => In line (bnf_lines b)) (fun w q => at_ w q (k - 1) N))|].
    - auto.
    - intros w1 w2 q L. apply at_le, L.
    - intros w1 [key ps] Hl. apply keeps_new. split; [cbn; lia|]. cbn. intros ->. destruct (no_blank _ _ _ _ E Hl eq_refl).
    - auto.
    - intros w1 ps _ F. apply keeps_new. split; [cbn; lia|exact F].
  Qed.
  Lemma remove_forward_keeps w p : known w p -> keeps (remove_forward_visit p) w known.
  Proof.
    intros Kp. unfold remove_forward_visit. eapply keeps_bind; [eapply keeps_get, known_at, Kp|]. intros w1 o _ (-> & k & N & X & Do & _). destruct o as [| | | | | | | | | | |[d|]| | | | |ts main| |]; try (apply keeps_ret, Kp); try apply keeps_raise.
    - apply keeps_ret. apply (desc_known _ _ _ _ _ Do). left. reflexivity.
    - destruct Do as [G (l & F & T)]. eapply keeps_bind; [apply (keeps_mapMM (fun w t x => term_at w t x) (fun w t x => term_at w t x)) with (xs := l)|].
      + intros w1 w2 t x L1. apply term_le, L1.
      + intros w1 w2 t x L1. apply term_le, L1.
      + intros w1 t x Ht. destruct t as [r|y]; [|apply keeps_ret; exact Logic.I]. eapply keeps_bind; [eapply keeps_get, Ht|]. intros w2 o' _ (-> & k' & N' & _ & [G' H'] & Lk & W).
        destruct o' as [| | | | | | | | | | |[d|]| | | | | | |]; try (apply keeps_ret; exact Ht); try apply keeps_raise.
        apply keeps_ret. cbn in H' |- *. eapply at_weak; [apply H'; left; reflexivity|lia|exact W].
      + exact F.
      + intros w1 ts' L1 F'. up L1. apply (known_le _ _ _ L1) in Kp. eapply keeps_bind; [eapply keeps_put; [exact X|]|intros w2 _ _ ->; apply keeps_ret, Kp]. split; [exact G|]. exists l. auto.
  Qed.
  Lemma activate_keeps activate_pred activate_pipe w p : known w p -> keeps (activate_visit activate_pred activate_pipe p) w known.
  Proof.
    intros Kp. unfold activate_visit. eapply keeps_bind; [eapply keeps_get, known_at, Kp|]. intros w1 o _ (-> & k & N & X & Do & _). destruct o; try (apply keeps_ret, Kp).
    - unfold lift_res. destruct (activate_pipe pipeline) as [y|e]; [|eapply keeps_bind with (P := fun _ _ => False); [apply keeps_raise|intros w1 z _ []]].
      eapply keeps_bind with (P := fun w' _ => w' = w); [apply keeps_ret; reflexivity|]. intros w1 z _ ->. eapply keeps_bind; [eapply keeps_put; [exact X|]|intros w2 _ _ ->; apply keeps_ret, Kp]. exact Do.
    - destruct Do as [G (l & F & T)]. eapply keeps_bind; [apply (keeps_mapMM (fun w t x => term_at w t x) (fun w t x => term_at w t x)) with (xs := l)|].
      + intros w1 w2 t x L1. apply term_le, L1.
      + intros w1 w2 t x L1. apply term_le, L1.
      + intros w1 t x Ht. destruct t as [r|y]; [apply keeps_ret; exact Ht|]. unfold lift_res. eapply keeps_bind with (P := fun _ _ => True); [destruct (activate_pred y); [apply keeps_ret; exact Logic.I|apply keeps_raise]|]. intros w2 z _ _. apply keeps_ret. exact Logic.I.
      + exact F.
      + intros w1 ts' L1 F'. up L1. apply (known_le _ _ _ L1) in Kp. eapply keeps_bind; [eapply keeps_put; [exact X|]|intros w2 _ _ ->; apply keeps_ret, Kp]. split; [exact G|]. exists l. auto.
  Qed.
  Lemma names_keeps w rules : forall count h, good_heap w h -> good_heap w (generate_names rules count h).
  Proof.
    induction rules as [|r rules IH]; intros count h G; cbn [generate_names]; [exact G|]. destruct (nth_error h r) as [o|] eqn:E; [|auto]. destruct (get_attributes o) as [a|] eqn:Ea; [|auto]. destruct (has_name a); [auto|].
    apply IH. destruct G as (L & Ln & G). split; [exact L|]. split; [rewrite setitem_length; exact Ln|].
    intros p o' Dp Ep. rewrite nth_setitem in Ep. destruct (Nat.eqb_spec p r) as [->|_]; [|apply (G p o' Dp Ep)]. rewrite E in Ep. injection Ep as <-. apply desc_attributes, (G r o Dp E).
  Qed.
  Lemma as_bnf_keeps fuel h root r h' w : outcome_ok w root h -> as_bnf pipe_bnf bnf_lines fuel h root = Some (Ok (r, h')) -> exists w', outcome_ok w' r h'.
  Proof.
    intros O2 H.
    unfold as_bnf, to_bnf, then_ in H. destruct (bfs fuel h root) as [objects|]; [|discriminate].
    destruct (run_visit (bnf_method pipe_bnf bnf_lines (count_parents h objects)) fuel h root) as [[[r3 h3]|]|] eqn:E3; try discriminate. destruct (run_visit_keeps _ _ _ _ _ _ _ (bnf_keeps _) O2 E3) as (w3 & O3).
    destruct (run_inplace remove_forward_visit fuel h3 r3) as [[[r4 h4]|]|] eqn:E4; try discriminate. destruct (run_inplace_keeps _ _ _ _ _ _ _ remove_forward_keeps O3 E4) as (w4 & G4 & K4).
    destruct (nth_error h4 r4) as [o|]; [|discriminate]. destruct (is_bnf o); [|discriminate]. destruct (bfs fuel h4 r4) as [l|] eqn:E5; [|discriminate]. injection H as <- <-.
    exists w4. split; [|exact K4]. apply names_keeps, G4.
  Qed.
  Lemma parser_rule_keeps activate_pred activate_pipe fuel h root r h' w : outcome_ok w root h ->
    parser_rule pipe_bnf bnf_lines activate_pred activate_pipe fuel h root = Some (Ok (r, h')) -> exists w', outcome_ok w' r h'.
  Proof.
    intros O0 H. unfold parser_rule, then_ in H.
    destruct (run_inplace (activate_visit activate_pred activate_pipe) fuel h root) as [[[r1 h1]|]|] eqn:E1; try discriminate. destruct (run_inplace_keeps _ _ _ _ _ _ _ (activate_keeps _ _) O0 E1) as (w1 & O1).
    destruct (normalized fuel h1 r1) as [[[r2 h2]|]|] eqn:E2; try discriminate. destruct (normalized_keeps _ _ _ _ _ _ O1 E2) as (w2 & O2).
    exact (as_bnf_keeps _ _ _ _ _ _ O2 H).
  Qed.

  (** ** The grammar *)
  Section Grammar.
    Context {token : Type}.
    Variable bnf_predict : bnf -> token -> list nat.
    Variable w : world.
    Variable h : heap.
    Variable r : nat.
    Hypothesis ok : outcome_ok w r h.
    Lemma known_reach x : reach h r x -> known w x.
    Proof.
      intros R. induction R as [|x q o c R IH E Hc]; [apply ok|]. specialize (IH ok). eapply desc_known; [|exact Hc]. apply (proj1 ok); [apply IH|exact E].
    Qed.
    Lemma known_desc x o : known w x -> nth_error h x = Some o -> desc w o (lev w x) (nul w x).
    Proof. intros K E. apply (proj1 ok); [apply K|exact E]. Qed.
    Lemma no_loops (g : grammar token pred) : (forall x, reach h r x -> exists o, nth_error h x = Some o /\ bnf_obj pipe_bnf bnf_lines false h o) ->
      (forall x q, In q (g_prods g x) -> reach h r x /\ exists o, nth_error h x = Some o /\ is_bnf o = true /\ In q (children o)) ->
      (forall q, g_terms g q = match nth_error h q with Some o => production_terms o | None => [] end) -> acyclic g.
    Proof.
      intros Sh Hp Ht.
      assert (P : forall x q, In q (g_prods g x) -> at_ w q (lev w x - 1) (nul w x) /\ 1 <= lev w x).
      { intros x q Hq. destruct (Hp x q Hq) as (R & o & E & B & Hc). assert (K := known_reach x R). destruct (known_desc x o K E) as [G Do]. destruct o; try discriminate; split; auto. }
      assert (T : forall x q, In q (g_prods g x) -> exists o, nth_error h q = Some o /\ match o with OProd _ _ | OEmptyProd | OPipeProd _ _ => True | _ => False end).
      { intros x q Hq. destruct (Hp x q Hq) as (R & o & E & B & Hc). destruct (Sh x R) as (o' & E' & K). rewrite E in E'. injection E' as <-. destruct o; try discriminate; cbn in Hc, K.
        - destruct (K q Hc) as (oq & Eq & Kq). exists oq. split; [exact Eq|]. destruct oq; try contradiction; exact Logic.I.
        - destruct K as [_ F]. clear - F Hc. induction F as [|q' l qs ls Hl F IH]; [destruct Hc|]. destruct Hc as [<-|Hc]; [eexists; split; [exact Hl|exact Logic.I]|auto]. }
      assert (Nu : forall t, nullable g t -> forall x, term_at w t x -> snd x).
      { intros t H. induction H as [x q Hq Hn IH]. intros y (Dx & Lx & Ly & Wy). apply Wy. destruct (P x q Hq) as [(Dq & Lq & _ & Wq) _]. apply Wq.
        destruct (T x q Hq) as (o & E & So). destruct (known_desc q o (conj Dq Lq) E) as [G Do]. specialize (Ht q). rewrite E in Ht. destruct o; try contradiction; cbn in Ht, Do.
        - destruct Do as (l & F & T1 & _). apply T1. apply Forall_forall. intros z Hz. destruct (In_nth_error _ _ Hz) as (i & Ei).
          assert (exists t, nth_error terms i = Some t /\ term_at w t z) as (t & Et & At).
          { clear - F Ei. revert i Ei. induction F as [|t0 z0 ts0 l0 H0 F IH]; intros [|i] Ei; cbn in Ei; try discriminate; [injection Ei as ->; exists t0; auto|apply IH, Ei]. }
          apply (IH t); [rewrite Ht; apply (nth_error_In _ _ Et)|exact At].
        - exact Do.
        - apply Do. destruct terms as [|x0 l]; [reflexivity|]. assert (nullable g (TPred x0)) as Z by (apply Hn; rewrite Ht; left; reflexivity). inversion Z. }
      exists (lev w). intros x q pre x' post Hq Et Hn. destruct (P x q Hq) as [(Dq & Lq & Lk & _) L1]. destruct (T x q Hq) as (o & E & So). destruct (known_desc q o (conj Dq Lq) E) as [G Do].
      specialize (Ht q). rewrite E, Et in Ht. destruct o; try contradiction; cbn in Ht, Do.
      - subst terms. destruct Do as (l & F & _ & T2). apply Forall2_app_inv_l in F as (l1 & l2 & F1 & F2 & ->). inversion F2 as [|? z ? l3 Hz F3]; subst.
        assert (NN : forall ts l, Forall2 (term_at w) ts l -> (forall t, In t ts -> nullable g t) -> nulls l).
        { intros ts l F. induction F as [|t0 z0 ts0 l0 H0 F IH]; intros Hall; constructor; [apply (Nu t0 (Hall t0 (or_introl eq_refl)) z0 H0)|apply IH; intros t Hin; apply Hall; right; exact Hin]. }
        assert (fst z < lev w q) as Lz by (apply (T2 l1 z l3 eq_refl); [apply (NN pre l1 F1)|apply (NN post l3 F3)]; intros t Hin; apply Hn, in_app_iff; auto).
        destruct Hz as (_ & _ & Lx' & _). lia.
      - destruct pre; discriminate.
      - exfalso. assert (In (TRule x') (map TPred terms)) as Hin by (rewrite <- Ht; apply in_app_iff; right; left; reflexivity). apply in_map_iff in Hin as (z & Ez & _). discriminate.
    Qed.
  End Grammar.
End Loop.

(** The first levels. *)
Section Start.
  Context {pred pipe bnf : Type}.
  Notation obj := (obj pred pipe bnf).
  Notation heap := (heap pred pipe bnf).
  Variable h : heap.
  Variable root : nat.
  Hypothesis there : forall p, reach h root p -> exists o, nth_error h p = Some o /\ match o with OPipeProd _ _ => False | _ => True end.
  Variable level : nat -> nat.
  Hypothesis unrepeated : forall p o r, reach h root p -> nth_error h p = Some o -> repeated o r -> ~ can_be_empty h r.
  Hypothesis lower : forall p c, reach h root p -> may_be_just h p c -> level c < level p.
  Definition room : nat := fold_right (fun o n => gap o + n) 1 h.
  Lemma room_ok p o : nth_error h p = Some o -> gap o <= room.
  Proof.
    unfold room. intros E. apply nth_error_In in E. revert E. clear. induction h as [|x l IH]; intros E; [destruct E|]. cbn. destruct E as [->|E]; [lia|]. specialize (IH E). lia.
  Qed.
  Definition reached (p : nat) : Prop := reach h root p \/ length h <= p.
  Definition first_world : world := mkWorld (length h) (fun p => room * level p + room) (can_be_empty h).
  Lemma reached_child p o c : reach h root p -> nth_error h p = Some o -> In c (children o) -> reached c /\ c < length h.
  Proof.
    intros R E Hc. assert (Rc : reach h root c) by (eapply reach_step; eassumption). split; [left; exact Rc|]. destruct (there c Rc) as (oc & Ec & _). apply nth_error_Some. congruence.
  Qed.
  Lemma part_at p o c : reach h root p -> nth_error h p = Some o -> ~ is_production o -> In c (children o) -> at_ reached first_world c (room * level p + room - gap o) (can_be_empty h p).
  Proof.
    intros R E NP Hc. destruct (reached_child p o c R E Hc) as [Rc Lc]. split; [exact Rc|]. split; [exact Lc|].
    assert (level c < level p) as L by (apply lower; [exact R|eapply just_part; eassumption]). assert (G := room_ok p o E). split.
    - cbn. assert (room * level c + room <= room * level p) by nia. lia.
    - cbn. intros H. eapply empty_part; eassumption.
  Qed.
  Lemma first_ok : outcome_ok (length h) reached first_world root h.
  Proof.
    split; [|split; [left; constructor|cbn; destruct (there root (reach_refl h root)) as (o & E & _); apply nth_error_Some; congruence]].
    split; [cbn; lia|]. split; [reflexivity|]. intros p o [R|L] E; [|assert (p < length h) by (apply nth_error_Some; congruence); lia]. cbn [lev nul first_world]. assert (G := room_ok p o E).
    assert (Rep : forall r, In r (children o) -> repeated o r -> ~ is_production o -> at_ reached first_world r (room * level p + room - gap o) False).
    { intros r Hr Hq NP. destruct (part_at p o r R E NP Hr) as (A1 & A2 & A3 & _). split; [exact A1|]. split; [exact A2|]. split; [exact A3|]. exact (unrepeated p o r R E Hq). }
    assert (Part : ~ is_production o -> forall c, In c (children o) -> at_ reached first_world c (room * level p + room - gap o) (can_be_empty h p)) by (intros NP c Hc; apply part_at; assumption).
    split; [lia|]. destruct (there p R) as (o' & E' & Ps). rewrite E in E'. injection E' as <-.
    destruct o; cbn [is_production skippable repeated children] in *; try (apply Part; intros []); try contradiction.
    - split; [eapply empty_itself; [exact E|exact Logic.I]|]. apply Part; [intros []|left; reflexivity].
    - apply Rep; [left; reflexivity|reflexivity|intros []].
    - split; [eapply empty_itself; [exact E|exact Logic.I]|]. apply Rep; [left; reflexivity|reflexivity|intros []].
    - apply Rep; [left; reflexivity|reflexivity|intros []].
    - eapply empty_itself; [exact E|exact Logic.I].
    - set (f := fun t : term pred => match t with TRule r => (room * level r + room, can_be_empty h r) | TPred _ => (0, False) end). exists (map f terms). split; [|split].
      + assert (forall t, In t terms -> term_at reached first_world t (f t)) as K.
        { intros [r|x] Ht; [|exact Logic.I]. destruct (reached_child p _ r R E) as [Rr Lr]; [cbn; unfold rule_terms; apply in_flat_map; exists (TRule r); split; [exact Ht|left; reflexivity]|].
          split; [exact Rr|]. split; [exact Lr|]. split; [cbn; lia|cbn; auto]. }
        clear - K. induction terms as [|t ts IH]; cbn; constructor; [apply K; left; reflexivity|apply IH; intros t' Ht; apply K; right; exact Ht].
      + intros F. unfold nulls in F. rewrite Forall_map, Forall_forall in F. eapply empty_terms; [exact E| |].
        * intros x Hx. exact (F _ Hx).
        * intros r Hr. exact (F _ Hr).
      + intros pre x post Em F1 F2. apply map_eq_app in Em as (ts1 & ts2 & -> & E1 & E2). destruct ts2 as [|t ts2]; [discriminate|]. cbn in E2. injection E2 as Ex E3. subst pre post x. unfold nulls in F1, F2. rewrite Forall_map, Forall_forall in F1, F2.
        destruct t as [r|y]; cbn [f fst]; [|cbn in G; lia].
        assert (level r < level p) as L; [|assert (1 <= room) by (cbn in G; lia); nia].
        apply lower; [exact R|]. eapply just_term; [exact E| |].
        * intros x Hx. apply in_app_iff in Hx as [Hx|Hx]; [exact (F1 _ Hx)|exact (F2 _ Hx)].
        * intros r' Hr. apply in_app_iff in Hr as [Hr|Hr]; [exact (F1 _ Hr)|exact (F2 _ Hr)].
    - eapply empty_itself; [exact E|exact Logic.I].
  Qed.
End Start.
