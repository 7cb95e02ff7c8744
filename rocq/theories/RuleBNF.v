(** BNFTransformator keeps the words of a rule, attributes included. *)
From Verif Require Import Base EarleyModel RuleModel RuleSpec RuleWords RuleLike RulePass RuleMethods RuleExpand RuleNormal RuleOrder RuleBfs.
Open Scope nat_scope.

Section Kin.
  Context {pred pipe bnf : Type}.
  Notation obj := (obj pred pipe bnf).
  Notation heap := (heap pred pipe bnf).
  (** The same object, except for attributes and for definitions of forward rules. *)
  Inductive kin : obj -> obj -> Prop :=
  | kin_same o : kin o o
  | kin_forward d d' : kin (OForward d) (OForward d')
  | kin_bnf ps a a' : kin (OBNF ps a) (OBNF ps a')
  | kin_pipe b ps a a' : kin (OPipeBNF b ps a) (OPipeBNF b ps a').
  Lemma kin_trans a b c : kin a b -> kin b c -> kin a c.
  Proof. intros H H'. inversion H; subst; inversion H'; subst; constructor. Qed.
  Definition steady (h h' : heap) : Prop := forall q o, nth_error h q = Some o -> exists o', nth_error h' q = Some o' /\ kin o o'.
  Lemma steady_refl h : steady h h. Proof. intros q o E. exists o. split; [exact E|constructor]. Qed.
  Lemma steady_trans a b c : steady a b -> steady b c -> steady a c.
  Proof. intros H H' q o E. destruct (H q o E) as (o1 & E1 & K1). destruct (H' q o1 E1) as (o2 & E2 & K2). exists o2. split; [exact E2|eapply kin_trans; eassumption]. Qed.
  Lemma steady_app h t : steady h (h ++ t). Proof. intros q o E. exists o. split; [apply nth_old, E|constructor]. Qed.
  Lemma steady_set h p o o' : nth_error h p = Some o -> kin o o' -> steady h (setitem h p o').
  Proof.
    intros E K q o1 E1. destruct (Nat.eq_dec q p) as [->|N].
    - exists o'. split; [apply setitem_same, nth_error_Some; congruence|]. congruence.
    - exists o1. split; [rewrite setitem_other by auto; exact E1|constructor].
  Qed.
  (** The form of the objects of a BNF grammar. *)
  Variable n0 : nat.
  Variable R : nat -> Prop.
  Variable pipe_bnf : pipe -> res bnf.
  Variable bnf_lines : bnf -> list (str * list pred).
  Definition rule_ok (h : heap) (q : nat) : Prop := exists o, nth_error h q = Some o /\ ((is_bnf o = true /\ n0 <= q) \/ (is_forward o = true /\ R q)).
  Definition prod_ok (h : heap) (q : nat) : Prop := (exists ts m, nth_error h q = Some (OProd ts m) /\ n0 <= q) \/ (nth_error h q = Some OEmptyProd /\ R q).
  Definition bnf_node (h : heap) (o : obj) : Prop :=
    match o with
    | OBNF ps _ => forall q, In q ps -> prod_ok h q
    | OPipeBNF b ps _ => (exists x, pipe_bnf x = Ok b) /\ Forall2 (fun q l => nth_error h q = Some (OPipeProd (fst l) (snd l)) /\ n0 <= q) ps (bnf_lines b)
    | OProd ts main => (main = 0 \/ main < length ts) /\ forall r, In (TRule r) ts -> rule_ok h r
    | OPipeProd _ _ => True
    | _ => False
    end.
  Lemma rule_ok_steady h h' q : steady h h' -> rule_ok h q -> rule_ok h' q.
  Proof.
    intros S (o & E & K). destruct (S q o E) as (o' & E' & Ki). exists o'. split; [exact E'|]. destruct K as [[B N]|[F Rq]]; [left|right]; (split; [|assumption]).
    - inversion Ki; subst; try discriminate; auto.
    - inversion Ki; subst; try discriminate; auto.
  Qed.
  Lemma prod_ok_steady h h' q : steady h h' -> prod_ok h q -> prod_ok h' q.
  Proof.
    intros S [(ts & m & E & N)|[E Rq]]; destruct (S q _ E) as (o' & E' & Ki); inversion Ki; subst.
    - left. eauto.
    - right. auto.
  Qed.
  Lemma bnf_node_steady h h' o : steady h h' -> bnf_node h o -> bnf_node h' o.
  Proof.
    intros S. destruct o; cbn; auto.
    - intros K q Hq. apply (prod_ok_steady h h' q S), K, Hq.
    - intros [X F]. split; [exact X|]. clear X. induction F as [|q l qs ls [E N] F IH]; constructor; [|exact IH]. destruct (S q _ E) as (o' & E' & Ki). inversion Ki; subst. auto.
    - intros [Hm K]. split; [exact Hm|]. intros r Hr. apply (rule_ok_steady h h' r S), K, Hr.
  Qed.
  Lemma bnf_node_kin h o o' : kin o o' -> bnf_node h o -> bnf_node h o'.
  Proof. intros K. inversion K; subst; auto. Qed.
  Lemma kin_children (o o' : obj) : kin o o' -> is_forward o = false -> children o' = children o.
  Proof. intros K F. inversion K; subst; try discriminate; reflexivity. Qed.
End Kin.

Section Count.
  Context {pred pipe bnf : Type}.
  Notation obj := (obj pred pipe bnf).
  Notation heap := (heap pred pipe bnf).
  Variable h0 : heap.
  Lemma count_in (l : list nat) p : In p l -> 1 <= count_occ Nat.eq_dec l p.
  Proof. intros H. apply (count_occ_In Nat.eq_dec) in H. lia. Qed.
  (** An object counted once has one parent. *)
  Lemma parent_unique objects p a b : NoDup objects -> count_occ Nat.eq_dec (count_parents h0 objects) p = 1 ->
    In a objects -> In b objects -> In p (kids h0 a) -> In p (kids h0 b) -> a = b.
  Proof.
    unfold count_parents. intros N. induction N as [|x l Hx N IH]; intros C Ha Hb Pa Pb; [destruct Ha|].
    cbn [flat_map] in C. rewrite count_occ_app in C. fold (kids h0 x) in C.
    assert (In_l : forall y, In y l -> In p (kids h0 y) -> 1 <= count_occ Nat.eq_dec (flat_map (fun p => match nth_error h0 p with Some o => children o | None => [] end) l) p).
    { intros y Hy Py. apply count_in, in_flat_map. exists y. split; [exact Hy|exact Py]. }
    destruct Ha as [->|Ha], Hb as [->|Hb]; auto.
    - specialize (count_in _ _ Pa). specialize (In_l b Hb Pb). lia.
    - specialize (count_in _ _ Pb). specialize (In_l a Ha Pa). lia.
    - apply IH; auto. specialize (In_l a Ha Pa). lia.
  Qed.
End Count.

Section BNF.
  Context {pred pipe bnf : Type}.
  Notation obj := (obj pred pipe bnf).
  Notation heap := (heap pred pipe bnf).
  Notation visitor := (visitor pred pipe bnf).
  Notation state := (state pred pipe bnf).
  Notation M := (M pred pipe bnf).
  Variable pipe_bnf : pipe -> res bnf.
  Variable bnf_lines : bnf -> list (str * list pred).
  Notation like2 := (like2 pipe_bnf bnf_lines).
  Notation like := (like pipe_bnf bnf_lines).
  Notation open_words kd := (open_words pipe_bnf bnf_lines kd).

  Variable h0 : heap.
  Variable root : nat.
  Variable objects : list nat.
  Hypothesis objects_nodup : NoDup objects.
  Hypothesis objects_reach : forall x, In x objects <-> reach h0 root x.
  Notation R := (reach h0 root).
  Notation n0 := (length h0).
  Hypothesis graph0 : graph no_empty nothing h0 R.
  Hypothesis order0 : ordered h0.
  Notation parents := (count_parents h0 objects).
  Notation bnf_node := (bnf_node n0 R pipe_bnf bnf_lines).

  Definition wraps (o : obj) (r : nat) : Prop := match o with ONamed r' _ | OInterp r' _ | ORelation r' _ => r' = r | _ => False end.
  (** The attribute of [w] is set on what its child [p] became. *)
  Definition owner (p w : nat) : Prop :=
    R w /\ (exists o, nth_error h0 w = Some o /\ wraps o p) /\ (forall d, nth_error h0 p <> Some (OForward d)) /\ count_occ Nat.eq_dec parents p = 1.
  Definition consumed (s : state) (p : nat) : Prop := exists w r, owner p w /\ In (w, r) (st_visited s).

  Lemma wraps_child o p : wraps o p -> In p (children o).
  Proof. destruct o; cbn; try contradiction; auto. Qed.
  Lemma owner_child p w : owner p w -> In p (kids h0 w).
  Proof. intros (_ & (o & E & K) & _). unfold kids. rewrite E. apply wraps_child, K. Qed.
  Lemma owner_parent p w q : owner p w -> R q -> In p (kids h0 q) -> q = w.
  Proof.
    intros O Rq H. apply (parent_unique h0 objects p q w objects_nodup); [apply O|apply objects_reach, Rq|apply objects_reach, O|exact H|apply owner_child, O].
  Qed.
  Lemma owner_unique p w w' : owner p w -> owner p w' -> w = w'.
  Proof. intros O O'. symmetry. apply (owner_parent p w w' O); [apply O'|apply owner_child, O']. Qed.
  Lemma owner_child_unique w p p' : owner p w -> owner p' w -> p = p'.
  Proof. intros (_ & (o & E & K) & _) (_ & (o' & E' & K') & _). rewrite E in E'. injection E' as <-. destruct o; cbn in K, K'; try contradiction; congruence. Qed.
  Lemma no_owned q o : nth_error h0 q = Some o -> (forall x, ~ wraps o x) -> forall c, ~ owner c q.
  Proof. intros E N c (_ & (o' & E' & K) & _). rewrite E in E'. injection E' as <-. apply (N c K). Qed.
  (** A child of something other than a wrapper is not owned. *)
  Lemma not_owned q o c w : R q -> nth_error h0 q = Some o -> In c (children o) -> (forall x, ~ wraps o x) -> ~ owner c w.
  Proof.
    intros Rq E Hc N O. assert (Q : q = w) by (apply (owner_parent c w q O Rq); unfold kids; rewrite E; exact Hc). subst.
    destruct O as (_ & (o' & E' & K) & _). rewrite E in E'. injection E' as <-. apply (N c K).
  Qed.

  Lemma R_get p : R p -> exists o, nth_error h0 p = Some o /\ node no_empty nothing h0 R o.
  Proof. intros H. destruct (graph0 p H) as (o & E & N). eauto. Qed.
  Lemma R_lt p : R p -> p < n0.
  Proof. intros H. destruct (R_get p H) as (o & E & _). apply nth_error_Some. congruence. Qed.
  Lemma R_child p o c : R p -> nth_error h0 p = Some o -> In c (children o) -> R c /\ (is_forward o = false -> c < p).
  Proof. intros H E Hc. split; [apply (reach_step h0 root p o c H E Hc)|]. apply (order0 p o c E Hc). Qed.

  (** The result of an object. *)
  Definition result (h : heap) (p r : nat) : Prop :=
    exists o, nth_error h0 p = Some o /\
      match o with
      | OForward _ | OEmptyProd => r = p
      | OProd _ _ => n0 <= r /\ exists ts m, nth_error h r = Some (OProd ts m)
      | _ => n0 <= r /\ exists o', nth_error h r = Some o' /\ is_bnf o' = true
      end.
  Lemma result_steady h h' p r : steady h h' -> result h p r -> result h' p r.
  Proof.
    intros S (o & E & K). exists o. split; [exact E|].
    assert (B : forall A : Prop, A /\ (exists o', nth_error h r = Some o' /\ is_bnf o' = true) -> A /\ exists o', nth_error h' r = Some o' /\ is_bnf o' = true).
    { intros A [N (o' & E' & Q)]. split; [exact N|]. destruct (S r o' E') as (o2 & E2 & Ki). exists o2. split; [exact E2|]. inversion Ki; subst; try discriminate; auto. }
    destruct o; auto.
    destruct K as [N (ts & m & E')]. split; [exact N|]. destruct (S r _ E') as (o2 & E2 & Ki). inversion Ki; subst. eauto.
  Qed.
  Lemma result_old h p r : result h p r -> r < n0 -> r = p.
  Proof. intros (o & _ & K) L. destruct o; auto; destruct K as [N _]; lia. Qed.

  (** The same apart from all attributes. *)
  Definition plain2 (h : heap) (p : nat) (h' : heap) (p' : nat) : Prop :=
    same (open_words KNone all h p) (open_words KNone all h' p') /\ forall q, uses all h p q <-> uses all h' p' q.
  Lemma plain2_sym h p h' p' : plain2 h p h' p' -> plain2 h' p' h p.
  Proof. intros [A B]. split; [apply same_sym, A|intros q; symmetry; apply B]. Qed.
  Lemma plain2_trans h p h' p' h'' p'' : plain2 h p h' p' -> plain2 h' p' h'' p'' -> plain2 h p h'' p''.
  Proof. intros [A B] [A' B']. split; [eapply same_trans; eassumption|intros q; rewrite B; apply B']. Qed.
  Lemma like_plain h p h' p' : like2 all h p all h' p' -> plain2 h p h' p'.
  Proof. intros [A B]. split; [apply A|exact B]. Qed.
  Lemma plain_via h h' p r : plain2 h p h' p -> plain2 h r h' r -> plain2 h p h r -> plain2 h' p h' r.
  Proof. intros A B L. eapply plain2_trans; [apply plain2_sym, A|]. eapply plain2_trans; [exact L|exact B]. Qed.
  Lemma plain_set (h : heap) r o o' p : nth_error h r = Some o -> is_bnf o = true -> kin o o' -> plain2 h p (setitem h r o') p.
  Proof.
    intros E B K. set (h' := setitem h r o').
    assert (Er : nth_error h' r = Some o') by (apply setitem_same, nth_error_Some; congruence).
    assert (Get : forall q x, nth_error h q = Some x -> exists x', nth_error h' q = Some x' /\ is_forward x' = is_forward x /\ children x' = children x /\ forall D w, denotes pipe_bnf bnf_lines KNone D x w <-> denotes pipe_bnf bnf_lines KNone D x' w).
    { intros q x Eq. destruct (Nat.eq_dec q r) as [->|N].
      - rewrite E in Eq. injection Eq as <-. exists o'. split; [exact Er|]. destruct o; try discriminate; inversion K; subst; (split; [reflexivity|split; [reflexivity|]]); intros D w; reflexivity.
      - exists x. split; [unfold h'; rewrite setitem_other by auto; exact Eq|]. split; [reflexivity|]. split; [reflexivity|]. intros D w. reflexivity. }
    assert (Back : forall q x', nth_error h' q = Some x' -> exists x, nth_error h q = Some x).
    { intros q x' Eq. assert (L : q < length h') by (apply nth_error_Some; congruence). unfold h' in L. rewrite setitem_length in L. destruct (nth_error h q) as [x|] eqn:Ex; [eauto|apply nth_error_None in Ex; lia]. }
    split.
    - enough (Z : (forall p, included (open_words KNone all h p) (open_words KNone all h' p)) /\ (forall p, included (open_words KNone all h' p) (open_words KNone all h p))) by (intros w; split; apply Z).
      split; apply open_words_least; intros q w (x & Eq & H); apply open_words_step.
      + destruct (Get q x Eq) as (x' & E' & F & _ & D). exists x'. split; [exact E'|]. rewrite F. destruct (is_forward x && all q); [exact H|apply D, H].
      + destruct (Back q x Eq) as (x0 & E0). destruct (Get q x0 E0) as (x' & E' & F & _ & D). rewrite Eq in E'. injection E' as <-. exists x0. split; [exact E0|]. rewrite <- F.
        destruct (is_forward x && all q); [exact H|apply D, H].
    - intros q. split; intros U.
      + clear - U Get. induction U as [p d E Q|p x c q E F Hc Hq IH].
        * destruct (Get p _ E) as (x' & E' & Fx & _). destruct x'; try discriminate. apply (uses_here all h' p _ E' Q).
        * destruct (Get p _ E) as (x' & E' & Fx & Cx & _). apply (uses_child all h' p x' c q E'); [rewrite Fx; exact F|rewrite Cx; exact Hc|exact IH].
      + clear - U Get Back. induction U as [p d E Q|p x c q E F Hc Hq IH].
        * destruct (Back p _ E) as (x0 & E0). destruct (Get p _ E0) as (x' & E' & Fx & _). rewrite E in E'. injection E' as <-. destruct x0; try discriminate. apply (uses_here all h p _ E0 Q).
        * destruct (Back p _ E) as (x0 & E0). destruct (Get p _ E0) as (x' & E' & Fx & Cx & _). rewrite E in E'. injection E' as <-. apply (uses_child all h p x0 c q E0); [rewrite <- Fx; exact F|rewrite <- Cx; exact Hc|exact IH].
  Qed.

  Record inv (s : state) : Prop := {
    i_len : n0 <= length (st_heap s);
    i_old : forall p o, nth_error h0 p = Some o -> is_forward o = false -> nth_error (st_heap s) p = Some o;
    i_fwd : forall p d, nth_error h0 p = Some (OForward d) -> exists d', nth_error (st_heap s) p = Some (OForward d');
    i_kids : forall q o c, nth_error (st_heap s) q = Some o -> In c (children o) -> c < length (st_heap s);
    i_new : forall q o, n0 <= q -> nth_error (st_heap s) q = Some o -> bnf_node (st_heap s) o;
    i_key : forall p r, In (p, r) (st_visited s) -> R p /\ r < length (st_heap s);
    i_fun : forall p r r', In (p, r) (st_visited s) -> In (p, r') (st_visited s) -> r = r';
    i_pair : forall p r, In (p, r) (st_visited s) -> ~ consumed s p -> like all (st_heap s) p r /\ result (st_heap s) p r;
    i_own : forall p r w, In (p, r) (st_visited s) -> ~ consumed s p -> owner p w -> forall q o, nth_error (st_heap s) q = Some o -> ~ In r (children o);
    i_dist : forall p q r, In (p, r) (st_visited s) -> In (q, r) (st_visited s) -> ~ consumed s p -> ~ consumed s q -> p = q;
    i_words : forall p, p < n0 -> like2 none h0 p none (st_heap s) p;
    i_plain : forall p r, In (p, r) (st_visited s) -> plain2 (st_heap s) p (st_heap s) r /\ result (st_heap s) p r;
    i_closed : forall p w x, In (w, x) (st_visited s) -> owner p w -> exists r, In (p, r) (st_visited s) }.

  Lemma like_app opaque (h : heap) t p : (forall q o c, nth_error h q = Some o -> In c (children o) -> c < length h) -> p < length h ->
    like2 opaque h p opaque (h ++ t) p.
  Proof.
    intros K L. apply (closed_like pipe_bnf bnf_lines opaque h (h ++ t) (fun p => p < length h)); [|exact L].
    intros q Lq. destruct (nth_error h q) as [o|] eqn:E; [|apply nth_error_None in E; lia]. exists o. split; [reflexivity|]. split; [apply nth_old, E|].
    intros c Hc. apply (K q o c E Hc).
  Qed.
  Lemma like_set opaque (h : heap) r o' p : (forall q o c, nth_error h q = Some o -> In c (children o) -> c < length h) ->
    (forall q o, nth_error h q = Some o -> ~ In r (children o)) -> p < length h -> p <> r -> like2 opaque h p opaque (setitem h r o') p.
  Proof.
    intros K U L N. apply (closed_like pipe_bnf bnf_lines opaque h (setitem h r o') (fun p => p < length h /\ p <> r)); [|auto].
    intros q [Lq Nq]. destruct (nth_error h q) as [o|] eqn:E; [|apply nth_error_None in E; lia]. exists o. split; [reflexivity|].
    split; [rewrite setitem_other by auto; exact E|]. intros c Hc. split; [apply (K q o c E Hc)|]. intros ->. apply (U q o E Hc).
  Qed.
  Lemma like_via opaque (h h' : heap) p r : like2 opaque h p opaque h' p -> like2 opaque h r opaque h' r -> like opaque h p r -> like opaque h' p r.
  Proof. intros A B L. eapply like2_trans; [apply like2_sym, A|]. eapply like2_trans; [exact L|exact B]. Qed.

  Lemma consumed_more (s : state) h' p r q : ~ consumed (mkState h' ((p, r) :: st_visited s)) q -> ~ consumed s q /\ ~ owner q p.
  Proof.
    intros N. split.
    - intros (w & x & O & H). apply N. exists w, x. split; [exact O|right; exact H].
    - intros O. apply N. exists p, r. split; [exact O|left; reflexivity].
  Qed.

  (** ** Ends of a visit *)
  Lemma finish_alloc (s : state) p r t : inv s -> R p -> (forall x, ~ In (p, x) (st_visited s)) ->
    (forall o, In o t -> bnf_node (st_heap s ++ t) o /\ forall c, In c (children o) -> c < length (st_heap s ++ t) /\ c <> r /\
       (c < length (st_heap s) -> forall c' w, In (c', c) (st_visited s) -> ~ consumed s c' -> owner c' w -> w = p)) ->
    length (st_heap s) <= r < length (st_heap s ++ t) -> like all (st_heap s ++ t) p r -> result (st_heap s ++ t) p r ->
    (forall c, owner c p -> exists x, In (c, x) (st_visited s)) ->
    inv (mkState (st_heap s ++ t) ((p, r) :: st_visited s)).
  Proof.
    intros I Rp Np T Lr L Res Cls. set (h := st_heap s) in *. assert (St : steady h (h ++ t)) by apply steady_app.
    assert (Tget : forall q o, nth_error (h ++ t) q = Some o -> nth_error h q = Some o \/ (length h <= q /\ In o t)).
    { intros q o E. destruct (Nat.lt_ge_cases q (length h)) as [Lq|Lq]; [left; rewrite nth_error_app1 in E by exact Lq; exact E|right].
      rewrite nth_error_app2 in E by exact Lq. split; [exact Lq|]. apply nth_error_In in E. exact E. }
    constructor; cbn [st_heap st_visited].
    - rewrite app_length. specialize (i_len s I). fold h. lia.
    - intros q o E F. apply nth_old, (i_old s I q o E F).
    - intros q d E. destruct (i_fwd s I q d E) as (d' & E'). exists d'. apply nth_old, E'.
    - intros q o c E Hc. destruct (Tget q o E) as [E'|[_ Ht]]; [|apply (T o Ht), Hc]. specialize (i_kids s I q o c E' Hc). fold h. rewrite app_length. lia.
    - intros q o N E. destruct (Tget q o E) as [E'|[_ Ht]]; [|apply (T o Ht)]. apply (bnf_node_steady n0 R pipe_bnf bnf_lines h (h ++ t) o St), (i_new s I q o N E').
    - intros q x [E|Hx]; [injection E as <- <-; split; [exact Rp|lia]|]. destruct (i_key s I q x Hx) as [Rq Lx]. split; [exact Rq|]. fold h in Lx. rewrite app_length. lia.
    - intros q x x' [E|Hx] [E'|Hx'].
      + congruence.
      + injection E as <- <-. destruct (Np x' Hx').
      + injection E' as <- <-. destruct (Np x Hx).
      + apply (i_fun s I q x x' Hx Hx').
    - intros q x [E|Hx] N; [injection E as <- <-; auto|]. apply consumed_more in N as [N _]. destruct (i_pair s I q x Hx N) as [Lq Rq]. fold h in Lq, Rq.
      split; [|apply (result_steady h (h ++ t) q x St Rq)]. destruct (i_key s I q x Hx) as [Kq Lx]. fold h in Lx.
      apply (like_via all h); [apply like_app; [apply (i_kids s I)|]|apply like_app; [apply (i_kids s I)|exact Lx]|exact Lq].
      specialize (R_lt q Kq). specialize (i_len s I). fold h. lia.
    - intros q x w [E|Hx] N O z o Ez Hc.
      + injection E as <- <-. destruct (Tget z o Ez) as [E'|[_ Ht]]; [specialize (i_kids s I z o r E' Hc); fold h; lia|]. destruct (T o Ht) as [_ K]. destruct (K r Hc) as (_ & Nr & _). apply Nr. reflexivity.
      + apply consumed_more in N as [N1 N2]. destruct (Tget z o Ez) as [E'|[_ Ht]]; [apply (i_own s I q x w Hx N1 O z o E' Hc)|].
        destruct (T o Ht) as [_ K]. destruct (K x Hc) as (_ & _ & K'). destruct (i_key s I q x Hx) as [_ Lx]. specialize (K' Lx q w Hx N1 O). subst w. exact (N2 O).
    - intros q q' x [E|Hx] [E'|Hx'] N N'.
      + congruence.
      + injection E as <- <-. destruct (i_key s I q' r Hx') as [_ Lx]. fold h in Lx. lia.
      + injection E' as <- <-. destruct (i_key s I q r Hx) as [_ Lx]. fold h in Lx. lia.
      + apply consumed_more in N as [N _]. apply consumed_more in N' as [N' _]. apply (i_dist s I q q' x Hx Hx' N N').
    - intros q Lq. eapply like2_trans; [apply (i_words s I q Lq)|]. apply like_app; [apply (i_kids s I)|]. specialize (i_len s I). fold h. lia.
    - intros q x [E|Hx]; [injection E as <- <-; split; [apply like_plain, L|exact Res]|]. destruct (i_plain s I q x Hx) as [Lq Rq]. fold h in Lq, Rq.
      split; [|apply (result_steady h (h ++ t) q x St Rq)]. destruct (i_key s I q x Hx) as [Kq Lx]. fold h in Lx.
      apply (plain_via h); [apply like_plain, like_app; [apply (i_kids s I)|]|apply like_plain, like_app; [apply (i_kids s I)|exact Lx]|exact Lq].
      specialize (R_lt q Kq). specialize (i_len s I). fold h. lia.
    - intros q w x [Eq|Hx] O; [injection Eq as <- <-; destruct (Cls q O) as (y & Hy); exists y; right; exact Hy|]. destruct (i_closed s I q w x Hx O) as (y & Hy). exists y. right. exact Hy.
  Qed.

  Lemma finish_self (s : state) p o : inv s -> R p -> (forall x, ~ In (p, x) (st_visited s)) -> nth_error h0 p = Some o ->
    (is_forward o = true \/ o = OEmptyProd) -> inv (mkState (st_heap s) ((p, p) :: st_visited s)).
  Proof.
    intros I Rp Np E A.
    assert (NO : forall w, ~ owner p w).
    { intros w (Rw & (ow & Ew & K) & NF & _). destruct A as [F| ->].
      - destruct o; try discriminate. apply (NF _ E).
      - destruct (R_get w Rw) as (o' & Eo & _ & _ & C). rewrite Ew in Eo. injection Eo as <-. destruct (C p (wraps_child ow p K)) as (_ & oc & Ec & P & _).
        rewrite E in Ec. injection Ec as <-. destruct ow; try contradiction; discriminate. }
    constructor; cbn [st_heap st_visited]; try apply I.
    - intros q x [Eq|Hx]; [injection Eq as <- <-; split; [exact Rp|specialize (R_lt p Rp); specialize (i_len s I); lia]|apply (i_key s I q x Hx)].
    - intros q x x' [Eq|Hx] [Eq'|Hx'].
      + congruence.
      + injection Eq as <- <-. destruct (Np x' Hx').
      + injection Eq' as <- <-. destruct (Np x Hx).
      + apply (i_fun s I q x x' Hx Hx').
    - intros q x [Eq|Hx] N; [injection Eq as <- <-|apply consumed_more in N as [N _]; apply (i_pair s I q x Hx N)].
      split; [apply like_refl|]. exists o. split; [exact E|]. destruct A as [F| ->]; [|reflexivity]. destruct o; try discriminate. reflexivity.
    - intros q x w [Eq|Hx] N O; [injection Eq as <- <-; destruct (NO w O)|]. apply consumed_more in N as [N _]. apply (i_own s I q x w Hx N O).
    - intros q q' x [Eq|Hx] [Eq'|Hx'] N N'.
      + congruence.
      + injection Eq as <- <-. apply consumed_more in N' as [N' _]. destruct (i_pair s I q' p Hx' N') as [_ Re]. apply (result_old _ q' p Re), R_lt, Rp.
      + injection Eq' as <- <-. apply consumed_more in N as [N _]. destruct (i_pair s I q p Hx N) as [_ Re]. symmetry. apply (result_old _ q p Re), R_lt, Rp.
      + apply consumed_more in N as [N _]. apply consumed_more in N' as [N' _]. apply (i_dist s I q q' x Hx Hx' N N').
    - intros q x [Eq|Hx]; [injection Eq as <- <-|apply (i_plain s I q x Hx)].
      split; [apply like_plain, like_refl|]. exists o. split; [exact E|]. destruct A as [F| ->]; [|reflexivity]. destruct o; try discriminate. reflexivity.
    - intros q w x [Eq|Hx] O; [injection Eq as <- <-; destruct O as (_ & (ow & Ew & K) & _); rewrite E in Ew; injection Ew as <-; destruct A as [F| ->]; [destruct o; try discriminate|]; destruct K|].
      destruct (i_closed s I q w x Hx O) as (y & Hy). exists y. right. exact Hy.
  Qed.

  Lemma finish_put (s : state) p c r o o' : inv s -> R p -> (forall x, ~ In (p, x) (st_visited s)) -> owner c p -> In (c, r) (st_visited s) ->
    nth_error (st_heap s) r = Some o -> is_bnf o = true -> kin o o' -> n0 <= r ->
    like all (setitem (st_heap s) r o') p r -> result (setitem (st_heap s) r o') p r ->
    inv (mkState (setitem (st_heap s) r o') ((p, r) :: st_visited s)).
  Proof.
    intros I Rp Np Ow Hc E B Ki Nr L Res. set (h := st_heap s) in *. set (h' := setitem h r o') in *.
    assert (St : steady h h') by (apply (steady_set h r o o' E Ki)).
    assert (Nc : ~ consumed s c). { intros (w & x & O & H). rewrite (owner_unique c w p O Ow) in H. apply (Np x H). }
    assert (U : forall q x, nth_error h q = Some x -> ~ In r (children x)) by (intros q x; apply (i_own s I c r p Hc Nc Ow)).
    assert (Len : length h' = length h) by apply setitem_length.
    assert (Get : forall q x, nth_error h' q = Some x -> (q <> r /\ nth_error h q = Some x) \/ (q = r /\ x = o')).
    { intros q x Eq. destruct (Nat.eq_dec q r) as [->|N].
      - right. split; [reflexivity|]. unfold h' in Eq. rewrite setitem_same in Eq by (apply nth_error_Some; congruence). congruence.
      - left. split; [exact N|]. unfold h' in Eq. rewrite setitem_other in Eq by auto. exact Eq. }
    assert (Fo : is_forward o = false) by (destruct o; try discriminate; reflexivity).
    assert (Ch : children o' = children o) by (apply kin_children; assumption).
    assert (Old : forall q, q < n0 -> q <> r) by (intros q Lq; lia).
    assert (GetC : forall q x, nth_error h' q = Some x -> exists x', nth_error h q = Some x' /\ children x = children x').
    { intros q x Eq. destruct (Get q x Eq) as [[_ K]|[-> ->]]; eauto. }
    constructor; cbn [st_heap st_visited]; fold h h'.
    - rewrite Len. apply (i_len s I).
    - intros q x Eq F. unfold h'. rewrite setitem_other; [apply (i_old s I q x Eq F)|]. assert (q < n0) by (apply nth_error_Some; congruence). specialize (Old q H). auto.
    - intros q d Eq. destruct (i_fwd s I q d Eq) as (d' & E'). exists d'. unfold h'. rewrite setitem_other; [exact E'|]. assert (q < n0) by (apply nth_error_Some; congruence). specialize (Old q H). auto.
    - intros q x y Eq Hy. rewrite Len. destruct (GetC q x Eq) as (x' & E' & C). rewrite C in Hy. apply (i_kids s I q x' y E' Hy).
    - intros q x N Eq. apply (bnf_node_steady n0 R pipe_bnf bnf_lines h h' x St). destruct (Get q x Eq) as [[_ K]|[-> ->]]; [apply (i_new s I q x N K)|].
      apply (bnf_node_kin n0 R pipe_bnf bnf_lines h o o' Ki), (i_new s I r o N E).
    - intros q x Hx. rewrite Len. destruct Hx as [Eq|Hx]; [injection Eq as <- <-; split; [exact Rp|apply (i_key s I c r Hc)]|apply (i_key s I q x Hx)].
    - intros q x x' [Eq|Hx] [Eq'|Hx'].
      + congruence.
      + injection Eq as <- <-. destruct (Np x' Hx').
      + injection Eq' as <- <-. destruct (Np x Hx).
      + apply (i_fun s I q x x' Hx Hx').
    - intros q x [Eq|Hx] N; [injection Eq as <- <-; auto|]. apply consumed_more in N as [N1 N2]. destruct (i_pair s I q x Hx N1) as [Lq Rq]. fold h in Lq, Rq.
      destruct (i_key s I q x Hx) as [Kq Lx]. assert (Lq0 := R_lt q Kq). assert (Ln := i_len s I). fold h in Lx, Ln.
      split; [|apply (result_steady h h' q x St Rq)].
      assert (Nx : x <> r). { intros ->. apply N2. rewrite (i_dist s I q c r Hx Hc N1 Nc). exact Ow. }
      apply (like_via all h); [apply like_set; [apply (i_kids s I)|exact U|lia|apply Old, Lq0]|apply like_set; [apply (i_kids s I)|exact U|exact Lx|exact Nx]|exact Lq].
    - intros q x w Hx N O z y Ez Hy. destruct (GetC z y Ez) as (y' & E' & C). rewrite C in Hy. destruct Hx as [Eq|Hx].
      + injection Eq as <- <-. apply (U z y' E' Hy).
      + apply consumed_more in N as [N1 N2]. apply (i_own s I q x w Hx N1 O z y' E' Hy).
    - intros q q' x [Eq|Hx] [Eq'|Hx'] N N'.
      + congruence.
      + injection Eq as <- <-. apply consumed_more in N' as [N1 N2]. destruct N2. rewrite (i_dist s I q' c r Hx' Hc N1 Nc). exact Ow.
      + injection Eq' as <- <-. apply consumed_more in N as [N1 N2]. destruct N2. rewrite (i_dist s I q c r Hx Hc N1 Nc). exact Ow.
      + apply consumed_more in N as [N _]. apply consumed_more in N' as [N' _]. apply (i_dist s I q q' x Hx Hx' N N').
    - intros q Lq. eapply like2_trans; [apply (i_words s I q Lq)|]. fold h. assert (Ln := i_len s I). fold h in Ln. apply like_set; [apply (i_kids s I)|exact U|lia|apply Old, Lq].
    - intros q x [Eq|Hx]; [injection Eq as <- <-; split; [apply like_plain, L|exact Res]|]. destruct (i_plain s I q x Hx) as [Lq Rq]. fold h in Lq, Rq.
      split; [|apply (result_steady h h' q x St Rq)]. apply (plain_via h); [apply (plain_set h r o o' q E B Ki)|apply (plain_set h r o o' x E B Ki)|exact Lq].
    - intros q w x [Eq|Hx] O; [injection Eq as <- <-; rewrite (owner_child_unique p q c O Ow); exists r; right; exact Hc|].
      destruct (i_closed s I q w x Hx O) as (y & Hy). exists y. right. exact Hy.
  Qed.

  (** ** Visits *)
  Lemma forall2_weaken {A B} (P Q : A -> B -> Prop) l l' : (forall x y, P x y -> Q x y) -> Forall2 P l l' -> Forall2 Q l l'.
  Proof. intros H F. induction F; constructor; auto. Qed.
  Lemma forall2_mem {A B} (P : A -> B -> Prop) l l' : Forall2 P l l' -> Forall2 (fun x y => P x y /\ In x l) l l'.
  Proof.
    induction 1 as [|x y l l' K F IH]; constructor; [split; [exact K|left; reflexivity]|].
    eapply forall2_weaken; [|exact IH]. intros a b [H1 H2]. split; [exact H1|right; exact H2].
  Qed.
  Definition fresh (p : nat) (s : state) : Prop := forall x, ~ In (p, x) (st_visited s).
  Record grows (k : nat) (s s' : state) : Prop := {
    g_keys : exists l, st_visited s' = l ++ st_visited s /\ forall e, In e l -> fst e < k;
    g_steady : steady (st_heap s) (st_heap s');
    g_fwd : forall f d, nth_error (st_heap s) f = Some (OForward d) -> nth_error (st_heap s') f = Some (OForward d) }.
  Lemma grows_refl k s : grows k s s.
  Proof. constructor; [exists []; split; [reflexivity|intros e []]|apply steady_refl|auto]. Qed.
  Lemma grows_trans k s s1 s2 : grows k s s1 -> grows k s1 s2 -> grows k s s2.
  Proof.
    intros [(l & E & K) S F] [(l' & E' & K') S' F']. constructor; [|eapply steady_trans; eassumption|auto].
    exists (l' ++ l). split; [rewrite E', E, app_assoc; reflexivity|]. intros e He. apply in_app_or in He as [He|He]; auto.
  Qed.
  Lemma grows_le k k' s s' : k <= k' -> grows k s s' -> grows k' s s'.
  Proof. intros L [(l & E & K) S F]. constructor; auto. exists l. split; [exact E|]. intros e He. specialize (K e He). lia. Qed.
  Lemma grows_fresh p s s' : grows p s s' -> fresh p s -> fresh p s'.
  Proof.
    intros [(l & E & K) _ _] N x Hx. rewrite E in Hx. apply in_app_or in Hx as [Hx|Hx]; [|apply (N x Hx)]. specialize (K _ Hx). cbn in K. lia.
  Qed.
  Lemma grows_in k s s' e : grows k s s' -> In e (st_visited s) -> In e (st_visited s').
  Proof. intros [(l & E & K) _ _] H. rewrite E. apply in_or_app. right. exact H. Qed.
  Definition visit_ok (V : visitor) : Prop :=
    forall p s r s', inv s -> R p -> ~ consumed s p -> V p s = Some (Ok (r, s')) -> inv s' /\ grows (S p) s s' /\ In (p, r) (st_visited s').

  Lemma map_ok {A B} (f : A -> M B) (Pre : A -> Prop) (Post : list (nat * nat) -> A -> B -> Prop) p :
    (forall v l x y, Post v x y -> Post (l ++ v) x y) ->
    (forall x s y s', Pre x -> inv s -> fresh p s -> f x s = Some (Ok (y, s')) -> inv s' /\ grows p s s' /\ Post (st_visited s') x y) ->
    forall l s ys s', Forall Pre l -> inv s -> fresh p s -> mapMM f l s = Some (Ok (ys, s')) -> inv s' /\ grows p s s' /\ Forall2 (Post (st_visited s')) l ys.
  Proof.
    intros Mono F l. induction l as [|x l IH]; intros s ys s' W I N H; cbn [mapMM] in H.
    - apply ret_ok in H as [-> ->]. split; [exact I|]. split; [apply grows_refl|constructor].
    - apply bind_ok in H as (y & s1 & H1 & H). apply bind_ok in H as (ys1 & s2 & H2 & H). apply ret_ok in H as [-> ->]. inversion W as [|? ? Px Wl]; subst.
      destruct (F x s y s1 Px I N H1) as (I1 & G1 & P1). destruct (IH s1 ys1 s2 Wl I1 (grows_fresh p s s1 G1 N) H2) as (I2 & G2 & P2).
      split; [exact I2|]. split; [eapply grows_trans; eassumption|]. constructor; [|exact P2]. destruct (g_keys p s1 s2 G2) as (l' & -> & _). apply Mono, P1.
  Qed.
  Lemma child_ok V p o0 c s r s' : visit_ok V -> R p -> nth_error h0 p = Some o0 -> is_forward o0 = false -> In c (children o0) -> inv s -> fresh p s ->
    V c s = Some (Ok (r, s')) -> inv s' /\ grows p s s' /\ In (c, r) (st_visited s').
  Proof.
    intros OK Rp E F Hc I N H. destruct (R_child p o0 c Rp E Hc) as [Rc Lc]. destruct (OK c s r s' I Rc) as (I1 & G1 & K1); [|exact H|].
    - intros (w & x & O & K). assert (Q : p = w) by (apply (owner_parent c w p O Rp); unfold kids; rewrite E; exact Hc). subst w. apply (N x K).
    - split; [exact I1|]. split; [apply (grows_le (S c) p); [specialize (Lc F); lia|exact G1]|exact K1].
  Qed.
  Definition done (p : nat) (s : state) (r : nat) (s1 : state) : Prop := inv (mkState (st_heap s1) ((p, r) :: st_visited s1)) /\ grows p s s1.

  (** Results of children of something other than a wrapper are handed out freely. *)
  Lemma free (s : state) p o0 c y c' w : inv s -> R p -> nth_error h0 p = Some o0 -> In c (children o0) -> (forall x, ~ wraps o0 x) -> In (c, y) (st_visited s) ->
    In (c', y) (st_visited s) -> ~ consumed s c' -> owner c' w -> w = p.
  Proof.
    intros I Rp E Hc W Hy Hy' N O. assert (Nc : ~ consumed s c). { intros (w' & x & O' & _). apply (not_owned p o0 c w' Rp E Hc W O'). }
    rewrite <- (i_dist s I c c' y Hy Hy' Nc N) in O. destruct (not_owned p o0 c w Rp E Hc W O).
  Qed.
  Lemma child_pair (s : state) p o0 c y : inv s -> R p -> nth_error h0 p = Some o0 -> In c (children o0) -> (forall x, ~ wraps o0 x) -> In (c, y) (st_visited s) ->
    like all (st_heap s) c y /\ result (st_heap s) c y /\ y < length (st_heap s) /\ c < length (st_heap s).
  Proof.
    intros I Rp E Hc W Hy. assert (Nc : ~ consumed s c). { intros (w' & x & O' & _). apply (not_owned p o0 c w' Rp E Hc W O'). }
    destruct (i_pair s I c y Hy Nc) as [L Re]. destruct (i_key s I c y Hy) as [Rc Ly]. split; [exact L|]. split; [exact Re|]. split; [exact Ly|].
    specialize (R_lt c Rc). specialize (i_len s I). lia.
  Qed.
  Lemma result_rule h c y : result h c y -> R c -> (exists o, nth_error h0 c = Some o /\ is_prod o = false) -> (forall p d, nth_error h0 p = Some (OForward d) -> exists d', nth_error h p = Some (OForward d')) ->
    rule_ok n0 R h y.
  Proof.
    intros (o & E & K) Rc (o' & E' & P) F. rewrite E in E'. injection E' as <-.
    destruct o as [ps|rs|r0 rev|r0 rev|r0 rr ro|r0 m rev|r0 m rev|r0 m n rev|r0 n|r0 i|r0 rel|d| |pl|ps a|b ps a|ts m| |k ps]; try discriminate;
      try (lazymatch type of K with _ /\ _ => destruct K as [N (o1 & E1 & B)]; exists o1; split; [exact E1|left; auto] end).
    subst y. destruct (F c d E) as (d' & Ed). exists (OForward d'). split; [exact Ed|right; auto].
  Qed.
  Lemma result_prod (s : state) c y : inv s -> result (st_heap s) c y -> R c -> (exists o, nth_error h0 c = Some o /\ is_prod o = true) -> prod_ok n0 R (st_heap s) y.
  Proof.
    intros I (o & E & K) Rc (o' & E' & P). rewrite E in E'. injection E' as <-.
    destruct (R_get c Rc) as (o1 & E1 & Al & _). rewrite E in E1. injection E1 as <-. destruct o; try discriminate.
    - destruct K as [N (ts & m & K)]. left. eauto.
    - subst y. right. split; [apply (i_old s I c OEmptyProd E eq_refl)|exact Rc].
  Qed.
  Lemma app_kids h t : (forall q o c, nth_error h q = Some o -> In c (children o) -> c < length h) -> forall p r, p < length h -> r < length h -> like all h p r -> like all (h ++ t) p r.
  Proof. intros K p r Lp Lr L. apply (like_via all h); [apply like_app; assumption|apply like_app; assumption|exact L]. Qed.

  Lemma rule_done V p ps s r s' : visit_ok V -> R p -> nth_error h0 p = Some (ORule ps) -> inv s -> fresh p s ->
    bindM (mapMM V ps) (fun ps' => alloc (OBNF ps' no_attributes)) s = Some (Ok (r, s')) -> done p s r s'.
  Proof.
    intros OK Rp E I N H. apply bind_ok in H as (ys & s1 & H1 & H). destruct (R_get p Rp) as (o & Eo & _ & _ & Co). rewrite E in Eo. injection Eo as <-.
    destruct (map_ok V (fun c => In c ps) (fun v c y => In (c, y) v) p) with (l := ps) (s := s) (ys := ys) (s' := s1) as (I1 & G1 & F1); auto.
    { intros v l x y Hx. apply in_or_app. right. exact Hx. }
    { intros c s2 y s3 Hc I2 N2 K. apply (child_ok V p (ORule ps) c s2 y s3 OK Rp E eq_refl Hc I2 N2 K). }
    { apply Forall_forall. auto. }
    injection H as <- <-. assert (NW : forall x, ~ wraps (ORule ps : obj) x) by (intros x []). assert (N1 := grows_fresh p s s1 G1 N).
    set (h := st_heap s1) in *.
    assert (Each : forall y, In y ys -> exists c, In c ps /\ In (c, y) (st_visited s1)).
    { intros y Hy. clear - F1 Hy. induction F1 as [|c y' l l' K F IH]; [destruct Hy|]. destruct Hy as [->|Hy]; [exists c; split; [left; auto|auto]|].
      destruct (IH Hy) as (c' & A & B). exists c'. split; [right; auto|auto]. }
    split.
    2: { eapply grows_trans; [exact G1|]. constructor; cbn; [exists []; split; [reflexivity|intros e []]|apply steady_app|intros f d Ef; apply nth_old, Ef]. }
    cbn [st_heap st_visited]. apply (finish_alloc s1 p (length h) [OBNF ys no_attributes] I1 Rp N1); fold h.
    - intros o [<-|[]]. split.
      + cbn. intros q Hq. destruct (Each q Hq) as (c & Hc & Hv). destruct (child_pair s1 p _ c q I1 Rp E Hc NW Hv) as (_ & Re & _ & _).
        destruct (Co c Hc) as (Rc & oc & Ec & Pc & _). apply (prod_ok_steady n0 R h); [apply steady_app|]. apply (result_prod s1 c q I1 Re Rc). exists oc. auto.
      + cbn [children]. intros q Hq. destruct (Each q Hq) as (c & Hc & Hv). destruct (child_pair s1 p _ c q I1 Rp E Hc NW Hv) as (_ & _ & Lq & _). fold h in Lq.
        split; [rewrite app_length; lia|]. split; [lia|]. intros _ c' w. apply (free s1 p (ORule ps) c q c' w I1 Rp E Hc NW Hv).
    - rewrite app_length. cbn. lia.
    - assert (F2 : Forall2 (like all (h ++ [OBNF ys no_attributes])) ps ys).
      { assert (Z := forall2_mem _ _ _ F1).
        eapply forall2_weaken; [|exact Z]. intros c y [K Hc]. destruct (child_pair s1 p _ c y I1 Rp E Hc NW K) as (L & _ & Ly & Lc).
        apply app_kids; auto. apply (i_kids s1 I1). }
      apply (obj_like pipe_bnf bnf_lines all _ p (ORule ps) (length h) (OBNF ys no_attributes)); auto.
      + apply nth_old, (i_old s1 I1 p _ E eq_refl).
      + apply nth_new.
      + intros kd. assert (Q : same (denotes pipe_bnf bnf_lines kd (open_words kd all (h ++ [OBNF ys no_attributes])) (OBNF ys no_attributes)) (alternatives (map (open_words kd all (h ++ [OBNF ys no_attributes])) ys))).
        { intros w. destruct kd; cbn; (split; [intros (u & Hu & ->); exact Hu|intros Hu; exists w; auto]). }
        eapply same_trans; [|apply same_sym, Q]. cbn [RuleSpec.denotes]. apply same_included. split; apply alternatives_mono.
        * apply (forall2_included (like all (h ++ [OBNF ys no_attributes]))); [|exact F2]. intros x y [K _] w. apply K.
        * apply (forall2_included (fun y x => like all (h ++ [OBNF ys no_attributes]) x y)); [|apply forall2_flip, F2]. intros x y [K _] w. apply K.
      + intros q. cbn [children]. clear - F2. revert F2. generalize (h ++ [OBNF ys no_attributes]). intros hh F2. split; intros (c & Hc & U).
        * induction F2 as [|x y l l' [_ K] F IH]; [destruct Hc|]. destruct Hc as [->|Hc]; [exists y; split; [left; auto|apply K, U]|].
          destruct (IH Hc) as (z & A & B). exists z. split; [right; auto|auto].
        * induction F2 as [|x y l l' [_ K] F IH]; [destruct Hc|]. destruct Hc as [->|Hc]; [exists x; split; [left; auto|apply K, U]|].
          destruct (IH Hc) as (z & A & B). exists z. split; [right; auto|auto].
    - exists (ORule ps). split; [exact E|]. split; [apply (i_len s1 I1)|]. eexists. split; [apply nth_new|reflexivity].
    - intros c O. destruct (no_owned p _ E NW c O).
  Qed.

  Lemma alloc_grows k (s : state) t : grows k s (mkState (st_heap s ++ t) (st_visited s)).
  Proof. constructor; cbn; [exists []; split; [reflexivity|intros e []]|apply steady_app|intros f d Ef; apply nth_old, Ef]. Qed.

  Lemma prod_done V p ts main s r s' : visit_ok V -> R p -> nth_error h0 p = Some (OProd ts main) -> inv s -> fresh p s ->
    visit_Production V ts main s = Some (Ok (r, s')) -> done p s r s'.
  Proof.
    intros OK Rp E I N H. unfold visit_Production in H. apply bind_ok in H as (ys & s1 & H1 & H). destruct (R_get p Rp) as (o & Eo & _ & Sh & Co). rewrite E in Eo. injection Eo as <-.
    destruct (map_ok (visit_term V) (fun t => In t ts) (fun v => like_term (fun c y => In (c, y) v)) p) with (l := ts) (s := s) (ys := ys) (s' := s1) as (I1 & G1 & F1); auto.
    { intros v l [x|x] [y|y] Hx; cbn in *; auto. apply in_or_app. right. exact Hx. }
    { intros [c|x] s2 y s3 Hc I2 N2 K; cbn [visit_term] in K.
      - apply bind_ok in K as (c' & s4 & K1 & K). apply ret_ok in K as [-> ->]. apply (child_ok V p (OProd ts main) c s2 c' s4 OK Rp E eq_refl (in_rule_terms c ts Hc) I2 N2 K1).
      - apply ret_ok in K as [-> ->]. split; [exact I2|]. split; [apply grows_refl|reflexivity]. }
    { apply Forall_forall. auto. }
    injection H as <- <-. assert (NW : forall x, ~ wraps (OProd ts main : obj) x) by (intros x []). assert (N1 := grows_fresh p s s1 G1 N).
    set (h := st_heap s1) in *. assert (Z := forall2_mem _ _ _ F1).
    assert (Each : forall y, In (TRule y) ys -> exists c, In (TRule c) ts /\ In (c, y) (st_visited s1)).
    { intros y Hy. destruct (forall2_in _ _ _ _ (forall2_flip _ _ _ Z) Hy) as (t & _ & K & Ht). destruct t as [c|x]; [|destruct K]. exists c. auto. }
    split; [|eapply grows_trans; [exact G1|apply alloc_grows]].
    cbn [st_heap st_visited]. apply (finish_alloc s1 p (length h) [OProd ys main] I1 Rp N1); fold h.
    - intros o [<-|[]]. split.
      + cbn. split; [assert (Len : length ys = length ts) by (clear - F1; induction F1; cbn; auto); rewrite Len; exact Sh|].
        intros q Hq. destruct (Each q Hq) as (c & Hc & Hv). destruct (child_pair s1 p _ c q I1 Rp E (in_rule_terms c ts Hc) NW Hv) as (_ & Re & _ & _).
        destruct (Co c (in_rule_terms c ts Hc)) as (Rc & oc & Ec & Pc & _). apply (rule_ok_steady n0 R h); [apply steady_app|]. apply (result_rule h c q Re Rc); [exists oc; auto|apply (i_fwd s1 I1)].
      + cbn [children]. intros q Hq. unfold rule_terms in Hq. apply in_flat_map in Hq as ([q'|x] & Hq & K); [|destruct K]. destruct K as [->|[]].
        destruct (Each q Hq) as (c & Hc & Hv). destruct (child_pair s1 p _ c q I1 Rp E (in_rule_terms c ts Hc) NW Hv) as (_ & _ & Lq & _). fold h in Lq.
        split; [rewrite app_length; lia|]. split; [lia|]. intros _ c' w. apply (free s1 p (OProd ts main) c q c' w I1 Rp E (in_rule_terms c ts Hc) NW Hv).
    - rewrite app_length. cbn. lia.
    - apply (prod_like pipe_bnf bnf_lines all (h ++ [OProd ys main]) p ts (length h) ys main); [apply nth_old, (i_old s1 I1 p _ E eq_refl)|apply nth_new|].
      eapply forall2_weaken; [|exact Z]. intros [c|x] [y|y] [K Hc]; cbn in K; try contradiction; [|subst; apply term_like_refl].
      apply like_term_like. destruct (child_pair s1 p _ c y I1 Rp E (in_rule_terms c ts Hc) NW K) as (L & _ & Ly & Lc). apply app_kids; auto. apply (i_kids s1 I1).
    - exists (OProd ts main). split; [exact E|]. split; [apply (i_len s1 I1)|]. eexists _, _. apply nth_new.
    - intros c O. destruct (no_owned p _ E NW c O).
  Qed.

  (** Pipelines. *)
  Lemma lines_alloc (ls : list (str * list pred)) : forall (s : state) qs s', mapMM (fun line => alloc (OPipeProd (fst line) (snd line))) ls s = Some (Ok (qs, s')) ->
    s' = mkState (st_heap s ++ map (fun l => OPipeProd (fst l) (snd l)) ls) (st_visited s) /\ qs = seq (length (st_heap s)) (length ls).
  Proof.
    induction ls as [|l ls IH]; intros s qs s' H; cbn [mapMM] in H.
    - apply ret_ok in H as [-> ->]. cbn. rewrite app_nil_r. destruct s; auto.
    - apply bind_ok in H as (q & s1 & H1 & H). injection H1 as <- <-. apply bind_ok in H as (qs1 & s2 & H2 & H). apply ret_ok in H as [-> ->].
      destruct (IH _ _ _ H2) as [-> ->]. cbn. rewrite <- app_assoc, app_length. cbn. rewrite Nat.add_1_r. auto.
  Qed.
  Lemma lines_get {A B} (f : A -> B) (ls : list A) : forall (h t : list B), Forall2 (fun q l => nth_error (h ++ map f ls ++ t) q = Some (f l)) (seq (length h) (length ls)) ls.
  Proof.
    induction ls as [|l ls IH]; intros h t; cbn [seq length]; constructor.
    - cbn. apply nth_new.
    - specialize (IH (h ++ [f l]) t). rewrite app_length in IH. cbn in IH. rewrite Nat.add_1_r, <- app_assoc in IH. exact IH.
  Qed.
  Lemma pipeline_done p pl b s r s' : R p -> nth_error h0 p = Some (OPipeline pl) -> pipe_bnf pl = Ok b -> inv s -> fresh p s ->
    new_pipeline bnf_lines b s = Some (Ok (r, s')) -> done p s r s'.
  Proof.
    intros Rp E Eb I N H. unfold new_pipeline in H. apply bind_ok in H as (qs & s1 & H1 & H). destruct (lines_alloc _ _ _ _ H1) as [-> ->]. injection H as <- <-. cbn [st_heap st_visited].
    set (h := st_heap s). set (ps := map (fun l => OPipeProd (fst l) (snd l)) (bnf_lines b)). set (qs := seq (length h) (length (bnf_lines b))).
    set (o := OPipeBNF b qs no_attributes). rewrite <- app_assoc. set (h' := h ++ ps ++ [o]).
    assert (Lp : length ps = length (bnf_lines b)) by apply map_length.
    assert (Er : nth_error h' (length (h ++ ps)) = Some o) by (unfold h'; rewrite app_assoc; apply nth_new).
    assert (Get : Forall2 (fun q l => nth_error h' q = Some (OPipeProd (fst l) (snd l))) qs (bnf_lines b)) by apply (lines_get (fun l => OPipeProd (fst l) (snd l)) (bnf_lines b) h [o]).
    assert (Inq : forall q, In q qs -> length h <= q < length h + length (bnf_lines b)) by (intros q Hq; apply in_seq in Hq; exact Hq).
    assert (Lh : length h' = length h + length (bnf_lines b) + 1) by (unfold h'; rewrite !app_length, Lp; cbn; lia).
    assert (Ep : nth_error h' p = Some (OPipeline pl)) by (apply nth_old, (i_old s I p _ E eq_refl)).
    split; [|apply (alloc_grows p s (ps ++ [o]))]. cbn [st_heap st_visited].
    apply (finish_alloc s p (length (h ++ ps)) (ps ++ [o]) I Rp N); fold h; fold h'.
    - intros x Hx. apply in_app_or in Hx as [Hx|[<-|[]]].
      + unfold ps in Hx. apply in_map_iff in Hx as (l & <- & _). split; [exact Logic.I|intros c []].
      + split.
        * cbn. split; [exists pl; exact Eb|]. assert (Z := forall2_mem _ _ _ Get). eapply forall2_weaken; [|exact Z]. intros q l [K Hq]. split; [exact K|]. specialize (Inq q Hq). specialize (i_len s I). fold h. lia.
        * cbn [children]. intros c Hc. specialize (Inq c Hc). rewrite app_length, Lp, Lh. split; [lia|]. split; [lia|]. intros Lc. lia.
    - rewrite app_length, Lp, Lh. lia.
    - apply (obj_like pipe_bnf bnf_lines all h' p (OPipeline pl) (length (h ++ ps)) o Ep Er eq_refl eq_refl).
      + intros kd. cbn [RuleSpec.denotes]. assert (Dq : forall q l, nth_error h' q = Some (OPipeProd (fst l) (snd l)) -> same (open_words kd all h' q) (line (fst l) (snd l))).
        { intros q l Eq. apply (open_words_obj pipe_bnf bnf_lines kd all h' q _ Eq eq_refl). }
        intros w. unfold o. cbn [RuleSpec.denotes]. split.
        * intros (b' & key & x & Eb' & Hin & Hl). rewrite Eb in Eb'. injection Eb' as <-. exists w. split; [|destruct kd; reflexivity].
          destruct (forall2_in _ _ _ _ (forall2_flip _ _ _ (forall2_mem _ _ _ Get)) Hin) as (q & _ & Eq & Hq). exists q. split; [exact Hq|]. apply (Dq q _ Eq), Hl.
        * intros (u & (q & Hq & Hu) & Ew). assert (w = u) by (destruct kd; exact Ew). subst u.
          destruct (forall2_in _ _ _ _ Get Hq) as (l & Hl & Eq). exists b, (fst l), (snd l). split; [exact Eb|]. split; [destruct l; exact Hl|]. apply (Dq q l Eq), Hu.
      + intros q. cbn [children]. split; [intros (c & [] & _)|]. intros (c & Hc & U). destruct (forall2_in _ _ _ _ Get Hc) as (l & Hl & Eq).
        apply (proj1 (uses_obj all h' c _ q Eq eq_refl)) in U; destruct U as (x & [] & _).
    - exists (OPipeline pl). split; [exact E|]. split; [specialize (i_len s I); fold h; rewrite app_length; lia|]. exists o. split; [exact Er|reflexivity].
    - intros c O. destruct (no_owned p _ E) with (c := c); [intros x []|exact O].
  Qed.

  (** ** Wrappers *)
  Lemma set_last {A} (h : list A) a b c : setitem (h ++ [a; b]) (S (length h)) c = h ++ [a; c].
  Proof. induction h as [|x h IH]; cbn; [reflexivity|]. f_equal. exact IH. Qed.
  Section Wrapper.
    Variable present : attributes -> bool.
    Variable update : attributes -> attributes.
    Variable sh : kind -> option attribute.
    Hypothesis present_no : present no_attributes = false.
    Hypothesis update_no : forall kd, shown kd (update no_attributes) = sh kd.
    Hypothesis update_ok : forall kd a, present a = false -> (shown kd a = None /\ shown kd (update a) = sh kd) \/ (sh kd = None /\ shown kd (update a) = shown kd a).
    Variable p c : nat.
    Variable o0 : obj.
    Hypothesis Rp : R p.
    Hypothesis E0 : nth_error h0 p = Some o0.
    Hypothesis W0 : wraps o0 c.
    Hypothesis D0 : forall kd D, denotes pipe_bnf bnf_lines kd D o0 = around (sh kd) (D c).

    Lemma o0_children : children o0 = [c]. Proof. destruct o0; cbn in W0; try contradiction; subst; reflexivity. Qed.
    Lemma o0_forward : is_forward o0 = false. Proof. destruct o0; cbn in W0; try contradiction; reflexivity. Qed.
    Lemma o0_result h r : n0 <= r -> (exists o', nth_error h r = Some o' /\ is_bnf o' = true) -> result h p r.
    Proof. intros N K. exists o0. split; [exact E0|]. destruct o0; cbn in W0; try contradiction; auto. Qed.

    (** A new rule with the attribute over [x]. *)
    Lemma lifted_inv (s : state) x : inv s -> fresh p s -> x < length (st_heap s) -> rule_ok n0 R (st_heap s) x -> like all (st_heap s) c x ->
      (forall c' w, In (c', x) (st_visited s) -> ~ consumed s c' -> owner c' w -> w = p) ->
      (owner c p -> exists x, In (c, x) (st_visited s)) ->
      inv (mkState (st_heap s ++ [OProd [TRule x] 0; OBNF [length (st_heap s)] (update no_attributes)]) ((p, S (length (st_heap s))) :: st_visited s)).
    Proof.
      intros I N Lx Rx L Fr Cls. set (h := st_heap s) in *. set (t := [OProd [TRule x] 0; OBNF [length h] (update no_attributes)]). set (h' := h ++ t).
      assert (Eq : nth_error h' (length h) = Some (OProd [TRule x] 0)) by apply nth_new.
      assert (Er : nth_error h' (S (length h)) = Some (OBNF [length h] (update no_attributes))).
      { unfold h', t. change [OProd [TRule x] 0; OBNF [length h] (update no_attributes)] with ([OProd [TRule x] 0] ++ [OBNF [length h] (update no_attributes)] : heap). rewrite app_assoc.
        replace (S (length h)) with (length (h ++ [OProd [TRule x] 0])) by (rewrite app_length; cbn; lia). apply nth_new. }
      assert (Lh : length h' = S (S (length h))) by (unfold h', t; rewrite app_length; cbn; lia). assert (Ln := i_len s I). fold h in Ln.
      apply (finish_alloc s p (S (length h)) t I Rp N); fold h; fold h'.
      - intros o [<-|[<-|[]]]; (split; [cbn|cbn [children]]).
        + split; [left; reflexivity|]. intros r [K|[]]. injection K as <-. apply (rule_ok_steady n0 R h h' x); [apply steady_app|exact Rx].
        + intros q [<-|[]]. split; [lia|]. split; [lia|]. intros _. exact Fr.
        + intros q [<-|[]]. left. eexists _, _. split; [exact Eq|exact Ln].
        + intros q [<-|[]]. split; [lia|]. split; [lia|]. intros K. lia.
      - lia.
      - assert (Lc : like all h' c x).
        { assert (Rc : R c) by (apply (R_child p o0 c Rp E0); rewrite o0_children; left; reflexivity). specialize (R_lt c Rc). intros Lc. apply app_kids; [apply (i_kids s I)|fold h; lia|exact Lx|exact L]. }
        assert (Lq := through_prod pipe_bnf bnf_lines all h' (length h) x Eq).
        apply (obj_like pipe_bnf bnf_lines all h' p o0 (S (length h)) _ (nth_old h t p o0 (i_old s I p o0 E0 o0_forward)) Er); [rewrite o0_forward; reflexivity|reflexivity| |].
        + intros kd. rewrite D0. cbn [RuleSpec.denotes map]. rewrite update_no.
          assert (Q : same (open_words kd all h' c) (alternatives [open_words kd all h' (length h)])).
          { eapply same_trans; [|apply same_sym, alternatives_one]. eapply same_trans; [apply Lc|apply same_sym, Lq]. }
          intros w. split; (intros (u & Hu & ->); exists u; split; [apply Q, Hu|reflexivity]).
        + intros q. rewrite o0_children. cbn [children]. split; (intros (y & [<-|[]] & U); eexists; (split; [left; reflexivity|])).
          * apply Lq, Lc, U.
          * apply Lc, Lq, U.
      - apply o0_result; [lia|]. eexists. split; [exact Er|reflexivity].
      - intros c' O. assert (Q : c' = c). { destruct O as (_ & (o' & E' & K) & _). rewrite E0 in E'. injection E' as <-. destruct o0; cbn in K, W0; try contradiction; congruence. }
        subst c'. apply Cls, O.
    Qed.
    (** The attribute on [r] itself. *)
    Lemma put_inv (s : state) r o a : inv s -> fresh p s -> owner c p -> In (c, r) (st_visited s) -> nth_error (st_heap s) r = Some o -> get_attributes o = Some a -> present a = false ->
      inv (mkState (setitem (st_heap s) r (update_attributes update o)) ((p, r) :: st_visited s)).
    Proof.
      intros I N Ow Hc Er Ea Pa. set (h := st_heap s) in *. set (o' := update_attributes update o). set (h' := setitem h r o').
      assert (B : is_bnf o = true) by (destruct o; try discriminate; reflexivity).
      assert (Nc : ~ consumed s c). { intros (w & x & O & H). rewrite (owner_unique c w p O Ow) in H. apply (N x H). }
      destruct (i_pair s I c r Hc Nc) as [L Re]. fold h in L, Re. destruct (i_key s I c r Hc) as [Rc Lr]. fold h in Lr.
      assert (Nr : n0 <= r).
      { destruct Re as (oc & Ec & K). destruct oc; try (apply K); subst r.
        - destruct Ow as (_ & _ & NF & _). destruct (NF _ Ec).
        - assert (Z := i_old s I c OEmptyProd Ec eq_refl). fold h in Z. rewrite Er in Z. injection Z as ->. discriminate. }
      assert (Ki : kin o o') by (unfold o'; destruct o; try discriminate; constructor).
      assert (U : forall q x, nth_error h q = Some x -> ~ In r (children x)) by (intros q x; apply (i_own s I c r p Hc Nc Ow)).
      assert (Er' : nth_error h' r = Some o') by (apply setitem_same, Lr).
      assert (Ln := i_len s I). fold h in Ln. assert (Lc := R_lt c Rc). assert (Lp := R_lt p Rp).
      assert (Fo : is_forward o = false) by (destruct o; try discriminate; reflexivity). assert (Fo' : is_forward o' = false) by (unfold o'; destruct o; try discriminate; reflexivity).
      assert (Co : forall q, In q (children o) -> q < length h /\ q <> r).
      { intros q Hq. split; [apply (i_kids s I r o q Er Hq)|]. intros ->. apply (U r o Er Hq). }
      apply (finish_put s p c r o o' I Rp N Ow Hc Er B Ki Nr); fold h; fold h'; [|apply o0_result; [exact Nr|exists o'; split; [exact Er'|unfold o'; destruct o; try discriminate; reflexivity]]].
      assert (Ep : nth_error h' p = Some o0) by (unfold h'; rewrite setitem_other by lia; apply (i_old s I p o0 E0 o0_forward)).
      assert (Set1 : forall q, q < length h -> q <> r -> like2 all h q all h' q) by (intros q Lq Nq; apply like_set; [apply (i_kids s I)|exact U|exact Lq|exact Nq]).
      apply (obj_like pipe_bnf bnf_lines all h' p o0 r o' Ep Er'); [rewrite o0_forward; reflexivity|rewrite Fo'; reflexivity| |].
      - intros kd. rewrite D0.
        assert (Wc : same (open_words kd all h' c) (denotes pipe_bnf bnf_lines kd (open_words kd all h') o)).
        { eapply same_trans; [apply same_sym, (proj1 (Set1 c ltac:(lia) ltac:(lia)))|]. eapply same_trans; [apply L|].
          eapply same_trans; [apply (open_words_obj pipe_bnf bnf_lines kd all h r o Er Fo)|]. apply denotes_same. intros q Hq. apply (Set1 q); apply (Co q Hq). }
        assert (Body : exists body, denotes pipe_bnf bnf_lines kd (open_words kd all h') o = around (shown kd a) body /\ denotes pipe_bnf bnf_lines kd (open_words kd all h') o' = around (shown kd (update a)) body).
        { unfold o'. destruct o; try discriminate; cbn in Ea; injection Ea as ->; eexists; cbn; eauto. }
        destruct Body as (body & B1 & B2). rewrite B2. rewrite B1 in Wc. clear B1 B2.
        assert (Q : same (around (sh kd) (open_words kd all h' c)) (around (sh kd) (around (shown kd a) body))) by (intros w; split; (intros (u & Hu & ->); exists u; split; [apply Wc, Hu|reflexivity])).
        eapply same_trans; [exact Q|]. destruct (update_ok kd a Pa) as [[K1 K2]|[K1 K2]]; rewrite K1, K2; intros w; split.
        + intros (u & (v & Hv & ->) & ->). exists v. split; [exact Hv|reflexivity].
        + intros (u & Hu & ->). exists u. split; [exists u; split; [exact Hu|reflexivity]|reflexivity].
        + intros (u & Hu & ->). exact Hu.
        + intros Hw. exists w. split; [exact Hw|reflexivity].
      - intros q. rewrite o0_children. rewrite (kin_children o o' Ki Fo). split.
        + intros (y & [<-|[]] & Uy). apply (proj2 (Set1 c ltac:(lia) ltac:(lia))) in Uy. apply L in Uy. apply (uses_obj all h r o q Er) in Uy as (z & Hz & Uz); [|rewrite Fo; reflexivity].
          exists z. split; [exact Hz|]. apply (Set1 z); [apply (Co z Hz)|apply (Co z Hz)|exact Uz].
        + intros (z & Hz & Uz). exists c. split; [left; reflexivity|]. apply (proj2 (Set1 c ltac:(lia) ltac:(lia))). apply L. apply (uses_obj all h r o q Er); [rewrite Fo; reflexivity|].
          exists z. split; [exact Hz|]. apply (Set1 z); [apply (Co z Hz)|apply (Co z Hz)|exact Uz].
    Qed.

    Lemma lift_state (s : state) x : lift x s = Some (Ok (S (length (st_heap s)), mkState (st_heap s ++ [OProd [TRule x] 0; OBNF [length (st_heap s)] no_attributes]) (st_visited s))).
    Proof. unfold lift, bindM, alloc. cbn. rewrite <- app_assoc, app_length. cbn. rewrite Nat.add_1_r. reflexivity. Qed.
    Lemma nth_last {A} (h : list A) a b : nth_error (h ++ [a; b]) (S (length h)) = Some b.
    Proof. induction h; cbn; auto. Qed.
    Lemma set_lifted (s : state) x : set_attribute present update (S (length (st_heap s))) (mkState (st_heap s ++ [OProd [TRule x] 0; OBNF [length (st_heap s)] no_attributes]) (st_visited s)) =
      Some (Ok (S (length (st_heap s)), mkState (st_heap s ++ [OProd [TRule x] 0; OBNF [length (st_heap s)] (update no_attributes)]) (st_visited s))).
    Proof.
      unfold set_attribute, bindM. rewrite (get_eq _ (mkState _ _) _ (nth_last _ _ _)). cbn [get_attributes]. rewrite present_no. cbv beta iota. unfold ret at 1. rewrite (get_eq _ (mkState _ _) _ (nth_last _ _ _)). unfold put. cbn [st_heap st_visited update_attributes]. rewrite set_last. reflexivity.
    Qed.
    Lemma set_present (s : state) x o a : nth_error (st_heap s) x = Some o -> get_attributes o = Some a -> present a = true -> set_attribute present update x s =
      Some (Ok (S (length (st_heap s)), mkState (st_heap s ++ [OProd [TRule x] 0; OBNF [length (st_heap s)] (update no_attributes)]) (st_visited s))).
    Proof.
      intros E A P. unfold set_attribute, bindM. rewrite (get_eq x s o E), A, P. rewrite lift_state. cbv beta iota. rewrite (get_eq _ (mkState _ _) _ (nth_last _ _ _)). unfold put. cbn [st_heap st_visited update_attributes]. rewrite set_last. reflexivity.
    Qed.
    Lemma set_absent (s : state) x o a : nth_error (st_heap s) x = Some o -> get_attributes o = Some a -> present a = false -> set_attribute present update x s =
      Some (Ok (x, mkState (setitem (st_heap s) x (update_attributes update o)) (st_visited s))).
    Proof. intros E A P. unfold set_attribute, bindM. rewrite (get_eq x s o E), A, P. cbn. rewrite (get_eq x s o E). reflexivity. Qed.

    Lemma wrapper_done V s r s' : visit_ok V -> inv s -> fresh p s -> bindM (visit_WrapperRule parents V c) (set_attribute present update) s = Some (Ok (r, s')) -> done p s r s'.
    Proof.
      intros OK I N H. apply bind_ok in H as (x & s1 & H1 & H). unfold visit_WrapperRule in H1. apply bind_ok in H1 as (oc & s2 & H2 & H1). apply get_ok in H2 as [Ec ->].
      assert (Hc : In c (children o0)) by (rewrite o0_children; left; reflexivity).
      destruct (R_child p o0 c Rp E0 Hc) as [Rc Lc]. destruct (R_get c Rc) as (oc0 & Ec0 & _). destruct (R_get p Rp) as (o1 & E1 & _ & _ & Co). rewrite E0 in E1. injection E1 as <-.
      destruct (Co c Hc) as (_ & oc1 & Ec1 & Pc & _). rewrite Ec0 in Ec1. injection Ec1 as <-.
      assert (Pc' : is_prod oc0 = false) by (rewrite Pc; destruct o0; cbn in W0; try contradiction; reflexivity). clear Pc.
      assert (Lc0 := R_lt c Rc). assert (Ln := i_len s I).
      assert (G : forall s1 : state, grows p s s1 -> forall x, grows p s (mkState (st_heap s1 ++ [OProd [TRule x] 0; OBNF [length (st_heap s1)] (update no_attributes)]) (st_visited s1))).
      { intros s3 G3 y. eapply grows_trans; [exact G3|apply alloc_grows]. }
      destruct (is_forward oc) eqn:Fc.
      - (* the child is a forward rule *)
        rewrite lift_state in H1. injection H1 as <- <-. rewrite set_lifted in H. injection H as <- <-. split; [|apply G, grows_refl]. cbn [st_heap st_visited].
        assert (F0 : is_forward oc0 = true).
        { destruct (is_forward oc0) eqn:F0; [reflexivity|]. rewrite (i_old s I c oc0 Ec0 F0) in Ec. injection Ec as <-. congruence. }
        apply lifted_inv; auto.
        + lia.
        + exists oc. split; [exact Ec|right; auto].
        + apply like_refl.
        + intros c' w K Nc O. destruct (i_pair s I c' c K Nc) as [_ Re]. rewrite <- (result_old _ c' c Re Lc0) in O.
          destruct O as (_ & _ & NF & _). destruct oc0; try discriminate. destruct (NF _ Ec0).
        + intros O. destruct O as (_ & _ & NF & _). destruct oc0; try discriminate. destruct (NF _ Ec0).
      - assert (F0 : is_forward oc0 = false).
        { destruct oc0; try reflexivity. destruct (i_fwd s I c _ Ec0) as (d' & K). rewrite Ec in K. injection K as ->. discriminate. }
        apply bind_ok in H1 as (shared & s2 & H2 & H1). unfold is_shared in H2.
        destruct (count_occ Nat.eq_dec parents c) as [|n] eqn:Cn; [discriminate|]. apply ret_ok in H2 as [-> ->].
        apply bind_ok in H1 as (y & s3 & H3 & H1).
        destruct (child_ok V p o0 c s y s3 OK Rp E0 o0_forward Hc I N H3) as (I3 & G3 & K3). assert (N3 := grows_fresh p s s3 G3 N).
        assert (Only : forall w, owner c w -> w = p). { intros w O. symmetry. apply (owner_parent c w p O Rp). unfold kids. rewrite E0. exact Hc. }
        assert (Nc : ~ consumed s3 c). { intros (w & z & O & Hz). rewrite (Only w O) in Hz. apply (N3 z Hz). }
        destruct (i_pair s3 I3 c y K3 Nc) as [L3 Re3]. destruct (i_key s3 I3 c y K3) as [_ Ly].
        assert (Rule : rule_ok n0 R (st_heap s3) y) by (apply (result_rule (st_heap s3) c y Re3 Rc); [exists oc0; auto|apply (i_fwd s3 I3)]).
        assert (Mine : forall c' w, In (c', y) (st_visited s3) -> ~ consumed s3 c' -> owner c' w -> w = p).
        { intros c' w K N' O. rewrite (i_dist s3 I3 c' c y K K3 N' Nc) in O. apply Only, O. }
        destruct n as [|n]; cbn [Nat.ltb Nat.leb] in H1.
        + (* not shared *)
          apply ret_ok in H1 as [-> ->].
          assert (Ow : owner c p). { split; [exact Rp|]. split; [exists o0; auto|]. split; [|exact Cn]. intros d K. rewrite Ec0 in K. injection K as ->. discriminate. }
          destruct Re3 as (oc1 & Ec1 & K). rewrite Ec0 in Ec1. injection Ec1 as <-.
          assert (B : exists o', nth_error (st_heap s3) y = Some o' /\ is_bnf o' = true) by (destruct oc0; try discriminate; apply K). destruct B as (o' & Ey & B).
          assert (A : exists a, get_attributes o' = Some a) by (destruct o'; try discriminate; eexists; reflexivity). destruct A as (a & A).
          destruct (present a) eqn:Pa.
          * rewrite (set_present s3 y o' a Ey A Pa) in H. injection H as <- <-. split; [|apply G, G3]. cbn [st_heap st_visited]. apply lifted_inv; eauto.
          * rewrite (set_absent s3 y o' a Ey A Pa) in H. injection H as <- <-. split; [cbn [st_heap st_visited]; apply (put_inv s3 y o' a); auto|].
            eapply grows_trans; [exact G3|]. constructor; cbn; [exists []; split; [reflexivity|intros e []]|apply (steady_set _ y o'); [exact Ey|destruct o'; try discriminate; constructor]|].
            intros f d Ef. rewrite setitem_other; [exact Ef|]. intros ->. rewrite Ey in Ef. injection Ef as ->. discriminate.
        + (* shared *)
          rewrite lift_state in H1. injection H1 as <- <-. rewrite set_lifted in H. injection H as <- <-. split; [|apply G, G3]. cbn [st_heap st_visited]. apply lifted_inv; eauto.
    Qed.
  End Wrapper.

  Notation method := (bnf_method pipe_bnf bnf_lines parents).
  Lemma method_done V p o s r s' : visit_ok V -> R p -> inv s -> fresh p s -> nth_error (st_heap s) p = Some o -> method V p o s = Some (Ok (r, s')) -> done p s r s'.
  Proof.
    intros OK Rp I N E H. destruct (R_get p Rp) as (o0 & E0 & Al & _ & _).
    destruct (is_forward o0) eqn:F0.
    { destruct o0; try discriminate. destruct (i_fwd s I p _ E0) as (d' & E'). rewrite E in E'. injection E' as ->. cbn in H. apply ret_ok in H as [-> ->].
      split; [|apply grows_refl]. apply (finish_self s p _ I Rp N E0). left. reflexivity. }
    rewrite (i_old s I p o0 E0 F0) in E. injection E as <-.
    destruct o0 as [ps|rs|r0 rev|r0 rev|r0 rr ro|r0 m rev|r0 m rev|r0 m n rev|r0 n|r0 i|r0 rel|d| |pl|ps a|b ps a|ts m| |k ps]; try discriminate; cbn [bnf_method] in H.
    - apply (rule_done V p ps s r s' OK Rp E0 I N H).
    - apply (wrapper_done (fun a => match a_name a with Some (_ :: _) => true | _ => false end) (fun a => mkAttributes (Some n) (a_interp a) (a_relation a)) (fun kd => shown_name kd n)) with (c := r0) (o0 := ONamed r0 n) (V := V); auto; try reflexivity.
      + intros []; reflexivity.
      + intros kd [nm ai ar] P. destruct kd; cbn in *; [left|right; auto|right; auto|right; auto]. destruct nm as [[|x nm]|]; try discriminate; auto.
    - apply (wrapper_done (fun a => match a_interp a with Some _ => true | None => false end) (fun a => mkAttributes (a_name a) (Some i) (a_relation a)) (fun kd => shown_interp kd i)) with (c := r0) (o0 := OInterp r0 i) (V := V); auto; try reflexivity.
      + intros []; reflexivity.
      + intros kd [nm ai ar] P. destruct kd; cbn in *; [right; auto|left|right; auto|right; auto]. destruct ai; try discriminate; auto.
    - apply (wrapper_done (fun a => match a_relation a with Some _ => true | None => false end) (fun a => mkAttributes (a_name a) (a_interp a) (Some rel)) (fun kd => shown_relation kd rel)) with (c := r0) (o0 := ORelation r0 rel) (V := V); auto; try reflexivity.
      + intros []; reflexivity.
      + intros kd [nm ai ar] P. destruct kd; cbn in *; [right; auto|right; auto|left|right; auto]. destruct ar; try discriminate; auto.
    - destruct (pipe_bnf pl) as [b|e] eqn:Eb; [|discriminate]. apply (pipeline_done p pl b s r s' Rp E0 Eb I N H).
    - apply (prod_done V p ts m s r s' OK Rp E0 I N H).
    - cbn in H. apply ret_ok in H as [-> ->]. split; [|apply grows_refl]. apply (finish_self s p _ I Rp N E0). right. reflexivity.
  Qed.

  Lemma assoc_none {B} k (l : list (nat * B)) : assoc k l = None -> forall x, ~ In (k, x) l.
  Proof.
    induction l as [|[a b] l IH]; intros H x; [intros []|]. cbn in H. destruct (Nat.eqb k a) eqn:E; [discriminate|]. intros [K|K]; [|apply (IH H x K)].
    injection K as -> _. rewrite Nat.eqb_refl in E. discriminate.
  Qed.
  Lemma visit_visit_ok fuel : visit_ok (visit method fuel).
  Proof.
    induction fuel as [|fuel IH]; intros p s r s' I Rp Nc H; [discriminate|]. cbn [visit] in H. apply bind_ok in H as (known & s1 & H1 & H). injection H1 as <- <-.
    destruct (assoc p (st_visited s)) as [x|] eqn:A.
    - apply ret_ok in H as [-> ->]. split; [exact I|]. split; [apply grows_refl|apply assoc_in, A].
    - apply bind_ok in H as (o & s1 & H1 & H). apply get_ok in H1 as [E ->]. apply bind_ok in H as (x & s1 & H1 & H). apply bind_ok in H as (u & s2 & H2 & H). injection H2 as <- <-.
      apply ret_ok in H as [-> ->]. destruct (method_done _ p o s x s1 IH Rp I (assoc_none p _ A) E H1) as [I1 [(l & El & Kl) S1 F1]].
      split; [exact I1|]. split; [|left; reflexivity]. constructor; cbn; [|exact S1|exact F1]. exists ((p, x) :: l). rewrite El. split; [reflexivity|].
      intros e [<-|He]; [cbn; lia|]. specialize (Kl e He). lia.
  Qed.

  (** ** Definitions of forward rules *)
  Lemma define_done (s : state) f d r : inv s -> R f -> nth_error h0 f = Some (OForward (Some d)) -> nth_error (st_heap s) f = Some (OForward (Some d)) -> In (d, r) (st_visited s) ->
    inv (mkState (setitem (st_heap s) f (OForward (Some r))) (st_visited s)).
  Proof.
    intros I Rf E0 E Hd. set (h := st_heap s) in *. set (h' := setitem h f (OForward (Some r))).
    assert (St : steady h h') by (apply (steady_set h f _ _ E); constructor).
    assert (Hc : In d (children (OForward (Some d) : obj))) by (left; reflexivity).
    assert (NW : forall x, ~ wraps (OForward (Some d) : obj) x) by (intros x []).
    destruct (child_pair s f _ d r I Rf E0 Hc NW Hd) as (L & Re & Lr & Ld). fold h in L, Re, Lr, Ld.
    assert (Len : length h' = length h) by apply setitem_length.
    assert (Get : forall q x, nth_error h' q = Some x -> (q <> f /\ nth_error h q = Some x) \/ (q = f /\ x = OForward (Some r))).
    { intros q x Eq. destruct (Nat.eq_dec q f) as [->|N].
      - right. split; [reflexivity|]. unfold h' in Eq. rewrite setitem_same in Eq by (apply nth_error_Some; congruence). congruence.
      - left. split; [exact N|]. unfold h' in Eq. rewrite setitem_other in Eq by auto. exact Eq. }
    assert (Op : forall q, like2 all h q all h' q) by (intros q; apply (redefine_opaque pipe_bnf bnf_lines all h f (Some d) (Some r) E eq_refl)).
    constructor; cbn [st_heap st_visited]; fold h h'.
    - rewrite Len. apply (i_len s I).
    - intros q o Eq F. unfold h'. rewrite setitem_other; [apply (i_old s I q o Eq F)|]. intros ->. rewrite E0 in Eq. injection Eq as <-. discriminate.
    - intros q d' Eq. destruct (Nat.eq_dec q f) as [->|N]; [eexists; apply setitem_same, nth_error_Some; congruence|].
      destruct (i_fwd s I q d' Eq) as (d2 & E2). exists d2. unfold h'. rewrite setitem_other by auto. exact E2.
    - intros q o c Eq Hq. rewrite Len. destruct (Get q o Eq) as [[_ K]|[-> ->]]; [apply (i_kids s I q o c K Hq)|]. destruct Hq as [<-|[]]. exact Lr.
    - intros q o N Eq. apply (bnf_node_steady n0 R pipe_bnf bnf_lines h h' o St). destruct (Get q o Eq) as [[_ K]|[-> ->]]; [apply (i_new s I q o N K)|]. specialize (R_lt f Rf). lia.
    - rewrite Len. apply (i_key s I).
    - apply (i_fun s I).
    - intros q x Hx N. destruct (i_pair s I q x Hx N) as [Lq Rq]. split; [|apply (result_steady h h' q x St Rq)]. apply (like_via all h); [apply Op|apply Op|exact Lq].
    - intros q x w Hx N O z o Ez Hz. destruct (Get z o Ez) as [[_ K]|[-> ->]]; [apply (i_own s I q x w Hx N O z o K Hz)|]. destruct Hz as [->|[]].
      assert (Nd : ~ consumed s d). { intros (w' & y & O' & _). apply (not_owned f _ d w' Rf E0 Hc NW O'). }
      rewrite (i_dist s I q d x Hx Hd N Nd) in O. apply (not_owned f _ d w Rf E0 Hc NW O).
    - apply (i_dist s I).
    - intros q Lq. eapply like2_trans; [apply (i_words s I q Lq)|]. fold h. apply (redefine_like pipe_bnf bnf_lines all none h f d r); [discriminate|reflexivity|exact E|exact L].
    - intros q x Hx. destruct (i_plain s I q x Hx) as [Lq Rq]. split; [|apply (result_steady h h' q x St Rq)]. apply (plain_via h); [apply like_plain, Op|apply like_plain, Op|exact Lq].
    - apply (i_closed s I).
  Qed.

  (** ** The walk *)
  Definition known (s : state) (x : nat) : Prop := x < length (st_heap s) /\ (n0 <= x \/ R x).
  Definition untouched (s : state) (f : nat) : Prop := nth_error (st_heap s) f = nth_error h0 f.
  Definition good (h : heap) (r : nat) : Prop := exists o, nth_error h r = Some o /\ is_bnf o = true /\ n0 <= r.
  Definition settled (s : state) (x : nat) : Prop := forall r, nth_error (st_heap s) x = Some (OForward (Some r)) -> good (st_heap s) r.
  Lemma good_steady h h' r : steady h h' -> good h r -> good h' r.
  Proof. intros S (o & E & B & N). destruct (S r o E) as (o' & E' & K). exists o'. split; [exact E'|]. split; [|exact N]. inversion K; subst; try discriminate; auto. Qed.

  Lemma define_visited_done fuel x (s : state) u s' : inv s -> known s x -> (forall d, nth_error h0 x = Some (OForward d) -> untouched s x) ->
    define_visited method fuel x s = Some (Ok (u, s')) ->
    inv s' /\ (forall f d, f <> x -> nth_error (st_heap s) f = Some (OForward d) -> nth_error (st_heap s') f = Some (OForward d)) /\
    steady (st_heap s) (st_heap s') /\ settled s' x.
  Proof.
    intros I [Lx Kx] Un H. unfold define_visited in H. apply bind_ok in H as (o & s1 & H1 & H). apply get_ok in H1 as [E ->].
    assert (Triv : (forall r, o <> OForward (Some r)) -> u = tt /\ s' = s -> inv s' /\ (forall f d, f <> x -> nth_error (st_heap s) f = Some (OForward d) -> nth_error (st_heap s') f = Some (OForward d)) /\
      steady (st_heap s) (st_heap s') /\ settled s' x).
    { intros N [_ ->]. split; [exact I|]. split; [auto|]. split; [apply steady_refl|]. intros r K. rewrite E in K. injection K as ->. destruct (N r eq_refl). }
    destruct o as [| | | | | | | | | | |[r|]| | | | | | |]; try (apply Triv; [discriminate|]; apply ret_ok in H; exact H). clear Triv.
    apply bind_ok in H as (r' & s1 & H1 & H).
    assert (Rx : R x). { destruct Kx as [N|K]; [|exact K]. destruct (i_new s I x _ N E). }
    assert (E0 : nth_error h0 x = Some (OForward (Some r))).
    { destruct (R_get x Rx) as (o0 & E0 & _). destruct (is_forward o0) eqn:F0.
      - destruct o0; try discriminate. rewrite <- (Un _ E0). exact E.
      - rewrite (i_old s I x o0 E0 F0) in E. injection E as ->. discriminate. }
    assert (Hc : In r (children (OForward (Some r) : obj))) by (left; reflexivity).
    assert (NW : forall y, ~ wraps (OForward (Some r) : obj) y) by (intros y []).
    destruct (R_child x _ r Rx E0 Hc) as [Rr _].
    destruct (visit_visit_ok fuel r s r' s1 I Rr) as (I1 & G1 & K1); [|exact H1|].
    { intros (w & y & O & _). apply (not_owned x _ r w Rx E0 Hc NW O). }
    unfold define in H. apply bind_ok in H as (o' & s2 & H2 & H). apply get_ok in H2 as [E' ->]. destruct (is_forward o') eqn:F'; [discriminate|].
    injection H as <- <-. assert (Ex := g_fwd _ s s1 G1 x _ E).
    split; [apply (define_done s1 x r r' I1 Rx E0 Ex K1)|]. cbn [st_heap].
    split; [intros f d N Ef; rewrite setitem_other by auto; apply (g_fwd _ s s1 G1 f d Ef)|].
    assert (St : steady (st_heap s1) (setitem (st_heap s1) x (OForward (Some r')))) by (apply (steady_set _ x _ _ Ex); constructor).
    split; [eapply steady_trans; [apply (g_steady _ s s1 G1)|exact St]|].
    intros r2 K. cbn [st_heap] in K. rewrite setitem_same in K by (apply nth_error_Some; congruence). injection K as <-.
    destruct (child_pair s1 x _ r r' I1 Rx E0 Hc NW K1) as (_ & Re & _ & _).
    destruct (graph0 x Rx) as (ox & Eox & _ & _ & Cx). rewrite E0 in Eox. injection Eox as <-. destruct (Cx r Hc) as (_ & oc & Ec & Pc & _).
    apply (good_steady (st_heap s1)); [exact St|]. destruct (result_rule (st_heap s1) r r' Re Rr) as (o2 & E2 & [[B N]|[F _]]); [exists oc; auto|apply (i_fwd s1 I1)|exists o2; auto|].
    rewrite E' in E2. injection E2 as <-. congruence.
  Qed.
  Lemma kids_known (s : state) x o c : inv s -> known s x -> nth_error (st_heap s) x = Some o -> In c (children o) -> (is_forward o = true -> settled s x) -> known s c.
  Proof.
    intros I [Lx Kx] E Hc Se. split; [apply (i_kids s I x o c E Hc)|]. destruct Kx as [N|Rx].
    - specialize (i_new s I x o N E). destruct o; cbn in *; try contradiction.
      + intros K. destruct (K c Hc) as [(ts & m & _ & Nc)|[_ Rc]]; auto.
      + intros F. destruct (forall2_in _ _ _ _ (proj2 F) Hc) as (l & _ & _ & Nc). left. exact Nc.
      + intros [_ K]. apply in_flat_map in Hc as ([y|y] & Hy & Z); [|destruct Z]. destruct Z as [->|[]]. destruct (K c Hy) as (oc & _ & [[_ Nc]|[_ Rc]]); auto.
    - destruct (R_get x Rx) as (o0 & E0 & _). destruct (is_forward o0) eqn:F0.
      + destruct o0; try discriminate. destruct (i_fwd s I x _ E0) as (d' & E'). rewrite E in E'. injection E' as ->. destruct d' as [r|]; [|destruct Hc]. destruct Hc as [<-|[]].
        destruct (Se eq_refl r E) as (o1 & _ & _ & N). left. exact N.
      + rewrite (i_old s I x o0 E0 F0) in E. injection E as <-. right. apply (R_child x o0 c Rx E0 Hc).
  Qed.
  Lemma reach_holds (P : nat -> Prop) (h : heap) r x : P r -> (forall x o c, P x -> nth_error h x = Some o -> In c (children o) -> P c) -> reach h r x -> P x.
  Proof. intros P0 PS H. induction H; eauto. Qed.
  Lemma kin_back (h h' : heap) x r : steady h h' -> x < length h -> nth_error h' x = Some (OForward r) -> exists d, nth_error h x = Some (OForward d).
  Proof.
    intros S L E. destruct (nth_error h x) as [o|] eqn:Eo; [|apply nth_error_None in Eo; lia]. destruct (S x o Eo) as (o' & E' & K). rewrite E in E'. injection E' as <-.
    inversion K; subst; eauto.
  Qed.
  Lemma walk_done fuel' : forall fuel queue vis (s : state) u s', inv s -> NoDup queue ->
    (forall x, In x queue -> In x vis) -> (forall x, In x vis -> known s x) ->
    (forall f d, nth_error h0 f = Some (OForward d) -> (In f vis -> In f queue) -> untouched s f) ->
    (forall x, In x vis -> In x queue \/ (settled s x /\ forall o c, nth_error (st_heap s) x = Some o -> In c (children o) -> In c vis)) ->
    walk_loop fuel (define_visited method fuel') queue vis s = Some (Ok (u, s')) ->
    inv s' /\ exists vis', (forall x, In x vis -> In x vis') /\
      forall x, In x vis' -> known s' x /\ settled s' x /\ forall o c, nth_error (st_heap s') x = Some o -> In c (children o) -> In c vis'.
  Proof.
    induction fuel as [|fuel IH]; intros [|x queue] vis s u s' I ND Q Kn Un Cl H; cbn [walk_loop] in H; try discriminate.
    1,2: apply ret_ok in H as [_ ->]; split; [exact I|]; exists vis; split; [auto|]; intros x Hx; destruct (Cl x Hx) as [[]|K]; split; [apply Kn, Hx|exact K].
    apply bind_ok in H as (v & s1 & H1 & H). apply bind_ok in H as (o & s2 & H2 & H). apply get_ok in H2 as [E ->].
    destruct (enqueue (children o) queue vis) as [queue2 vis2] eqn:En. destruct (enqueue_new _ _ _ _ _ En) as (new & -> & Nn & Kw & Vn & Cn).
    inversion ND as [|? ? Nx NDq]; subst. assert (Kx : known s x) by (apply Kn, Q; left; reflexivity).
    destruct (define_visited_done fuel' x s v s1 I Kx) as (I1 & F1 & S1 & Se1); [|exact H1|].
    { intros d E0. apply (Un x d E0). left. reflexivity. }
    assert (Len : length (st_heap s) <= length (st_heap s1)).
    { destruct (Nat.le_gt_cases (length (st_heap s)) (length (st_heap s1))) as [L|L]; [exact L|].
      destruct (nth_error (st_heap s) (length (st_heap s1))) as [y|] eqn:Ey; [|apply nth_error_None in Ey; lia]. destruct (S1 _ _ Ey) as (y' & E' & _).
      assert (length (st_heap s1) < length (st_heap s1)) by (apply nth_error_Some; congruence). lia. }
    assert (Kn1 : forall y, known s y -> known s1 y) by (intros y [Ly Ky]; split; [lia|exact Ky]).
    destruct (IH (queue ++ new) vis2 s1 u s' I1) as (I2 & vis' & V1 & V2); auto.
    - apply NoDup_app_intro; [exact NDq|exact Nn|]. intros y Hy K. destruct (Kw y K) as [_ K']. apply K', Q. right. exact Hy.
    - intros y Hy. apply Vn. apply in_app_or in Hy as [Hy|Hy]; [left; apply Q; right; exact Hy|right; exact Hy].
    - intros y Hy. apply Vn in Hy as [Hy|Hy]; [apply Kn1, Kn, Hy|]. apply (kids_known s1 x o y I1 (Kn1 x Kx) E); [apply (Kw y Hy)|intros _; exact Se1].
    - intros f d E0 K. destruct (Nat.eq_dec f x) as [->|Nf].
      + exfalso. assert (Hx : In x vis2) by (apply Vn; left; apply Q; left; reflexivity). specialize (K Hx). apply in_app_or in K as [K|K]; [exact (Nx K)|].
        destruct (Kw x K) as [_ K']. apply K', Q. left. reflexivity.
      + assert (U0 : untouched s f).
        { apply (Un f d E0). intros Hf. assert (Hf2 : In f vis2) by (apply Vn; left; exact Hf). specialize (K Hf2). apply in_app_or in K as [K|K]; [right; exact K|].
          destruct (Kw f K) as [_ K']. destruct (K' Hf). }
        unfold untouched in *. rewrite E0 in *. apply (F1 f d Nf U0).
    - intros y Hy. apply Vn in Hy as [Hy|Hy]; [|left; apply in_or_app; right; exact Hy]. destruct (Nat.eq_dec y x) as [->|Ny].
      + right. split; [exact Se1|]. intros o' c E' Hc. rewrite E in E'. injection E' as <-. apply Cn, Hc.
      + destruct (Cl y Hy) as [[->|Hq]|[Sy Cy]]; [destruct Ny; reflexivity|left; apply in_or_app; left; exact Hq|right].
        destruct (Kn y Hy) as [Ly _]. split.
        * intros r Er. destruct (kin_back _ _ y _ S1 Ly Er) as (d & Ed). rewrite (F1 y d Ny Ed) in Er. injection Er as ->. apply (good_steady (st_heap s)); [exact S1|]. apply Sy, Ed.
        * intros o' c E' Hc. destruct (nth_error (st_heap s) y) as [oy|] eqn:Ey; [|apply nth_error_None in Ey; lia]. apply Vn. left. apply (Cy oy c eq_refl).
          destruct (is_forward oy) eqn:Fy; [destruct oy; try discriminate; rewrite (F1 y _ Ny Ey) in E'; injection E' as <-; exact Hc|].
          destruct (S1 y oy Ey) as (o2 & E2 & K2). rewrite E' in E2. injection E2 as <-. rewrite <- (kin_children oy o' K2 Fy). exact Hc.
    - split; [exact I2|]. exists vis'. split; [intros y Hy; apply V1, Vn; left; exact Hy|exact V2].
  Qed.

  Definition final_node (h : heap) (o : obj) : Prop :=
    bnf_node h o \/ o = OEmptyProd \/ o = OForward None \/ exists r, o = OForward (Some r) /\ good h r.
  Hypothesis root_rule : exists o, nth_error h0 root = Some o /\ is_prod o = false.

  Theorem transform_ok fuel r h' : run_visit method fuel h0 root = Some (Ok (r, h')) ->
    (forall x, reach h' r x -> exists o, nth_error h' x = Some o /\ final_node h' o) /\
    same (open_words KNone none h0 root) (open_words KNone none h' r) /\
    ((forall w, ~ owner root w) -> like2 none h0 root none h' r) /\ rule_ok n0 R h' r /\ (forall p o, nth_error h0 p = Some o -> is_forward o = false -> nth_error h' p = Some o).
  Proof.
    intros H. unfold run_visit in H. set (s0 := mkState h0 []) in *. destruct (transform_walk method fuel root s0) as [[[r1 s2]|e]|] eqn:T; try discriminate. injection H as -> <-.
    unfold transform_walk in T. apply bind_ok in T as (u & s1 & T1 & T2).
    assert (Rr : R root) by constructor.
    assert (I0 : inv s0).
    { constructor; cbn.
      - lia.
      - auto.
      - intros p d E. exists d. exact E.
      - intros q o c E Hc. apply (order0 q o c E Hc).
      - intros q o N E. assert (q < n0) by (apply nth_error_Some; congruence). lia.
      - intros p q [].
      - intros p q q' [].
      - intros p q [].
      - intros p q w [].
      - intros p q q' [].
      - intros p Lp. apply like2_refl.
      - intros p q [].
      - intros p q w []. }
    destruct (walk_done fuel fuel [root] [root] s0 u s1 I0) as (I1 & vis & V1 & V2); auto.
    { constructor; [intros []|constructor]. }
    { intros x [<-|[]]. split; [apply R_lt, Rr|right; exact Rr]. }
    { intros f d _ _. reflexivity. }
    assert (V : inv s2 /\ grows (S root) s1 s2 /\ In (root, r) (st_visited s2)).
    { destruct fuel as [|fuel]; [discriminate|]. destruct (assoc root (st_visited s1)) as [x|] eqn:A.
      - cbn [visit] in T2. apply bind_ok in T2 as (known & s3 & H1 & T2). injection H1 as <- <-. rewrite A in T2. apply ret_ok in T2 as [-> ->].
        split; [exact I1|]. split; [apply grows_refl|apply assoc_in, A].
      - apply (visit_visit_ok (S fuel) root s1 r s2 I1 Rr); [|exact T2]. intros (w & x & O & Hx). destruct (i_closed s1 I1 root w x Hx O) as (y & Hy). apply (assoc_none root _ A y Hy). }
    destruct V as (I2 & G2 & K2). destruct (i_plain s2 I2 root r K2) as [L2 Re2]. set (h2 := st_heap s2) in *.
    assert (Rule : rule_ok n0 R h2 r) by (apply (result_rule h2 root r Re2 Rr); [exact root_rule|apply (i_fwd s2 I2)]).
    assert (Back : forall x, In x vis -> forall o, nth_error h2 x = Some o -> exists o1, nth_error (st_heap s1) x = Some o1 /\ children o1 = children o /\ (is_forward o = true -> o1 = o)).
    { intros x Hx o E. destruct (V2 x Hx) as ([Lx _] & _). destruct (nth_error (st_heap s1) x) as [o1|] eqn:E1; [|apply nth_error_None in E1; lia]. exists o1. split; [reflexivity|].
      destruct (is_forward o1) eqn:F1.
      - destruct o1; try discriminate. assert (Z := g_fwd _ s1 s2 G2 x _ E1). fold h2 in Z. rewrite E in Z. injection Z as ->. auto.
      - destruct (g_steady _ s1 s2 G2 x o1 E1) as (o2 & E2 & K). fold h2 in E2. rewrite E in E2. injection E2 as <-. split; [symmetry; apply kin_children; assumption|].
        intros F. inversion K; subst; auto; discriminate. }
    assert (Vcl : forall x o c, In x vis -> nth_error h2 x = Some o -> In c (children o) -> In c vis).
    { intros x o c Hx E Hc. destruct (Back x Hx o E) as (o1 & E1 & C1 & _). destruct (V2 x Hx) as (_ & _ & K). apply (K o1 c E1). rewrite C1. exact Hc. }
    assert (Vse : forall x d, In x vis -> nth_error h2 x = Some (OForward (Some d)) -> good h2 d).
    { intros x d Hx E. destruct (Back x Hx _ E) as (o1 & E1 & _ & K). rewrite (K eq_refl) in E1. destruct (V2 x Hx) as (_ & Se & _).
      apply (good_steady (st_heap s1)); [apply (g_steady _ s1 s2 G2)|apply Se, E1]. }
    assert (Vuse : forall x q, uses all h2 x q -> In x vis -> In q vis).
    { intros x q U. induction U as [x d E Q|x o c q E F Hc Hq IH]; intros Hx; [exact Hx|]. apply IH. apply (Vcl x o c Hx E Hc). }
    assert (Hroot : In root vis) by (apply V1; left; reflexivity).
    assert (K : forall x, reach h2 r x -> exists o, nth_error h2 x = Some o /\ (n0 <= x \/ is_forward o = true \/ o = OEmptyProd) /\ (In x vis \/ forall q, uses all h2 x q -> In q vis)).
    { intros x Rx. apply (reach_holds (fun x => exists o, nth_error h2 x = Some o /\ (n0 <= x \/ is_forward o = true \/ o = OEmptyProd) /\ (In x vis \/ forall q, uses all h2 x q -> In q vis)) h2 r x); [| |exact Rx]; clear x Rx.
      - destruct Rule as (o & E & B). exists o. split; [exact E|]. split; [destruct B as [[_ N]|[F _]]; auto|]. right. intros q U. apply (Vuse root q); [|exact Hroot]. apply L2, U.
      - intros x o c IH E Hc. destruct IH as (o' & E' & Cx & Ux). rewrite E in E'. injection E' as <-.
        assert (Uc : is_forward o = false -> In c vis \/ forall q, uses all h2 c q -> In q vis).
        { intros Fo. destruct Ux as [Vx|Ux]; [left; apply (Vcl x o c Vx E Hc)|right]. intros q U. apply Ux. apply (uses_child all h2 x o c q E); [rewrite Fo; reflexivity|exact Hc|exact U]. }
        destruct (is_forward o) eqn:Fo.
        + destruct o as [| | | | | | | | | | |[d|]| | | | | | |]; try discriminate; [|destruct Hc]. destruct Hc as [->|[]].
          assert (Vx : In x vis). { destruct Ux as [Vx|Ux]; [exact Vx|]. apply Ux. apply (uses_here all h2 x _ E). reflexivity. }
          destruct (Vse x c Vx E) as (o1 & E1 & _ & N1). exists o1. split; [exact E1|]. split; [left; exact N1|left; apply (Vcl x _ c Vx E); left; reflexivity].
        + destruct Cx as [N|[F| ->]]; [|discriminate|destruct Hc]. assert (Nd := i_new s2 I2 x o N E). fold h2 in Nd.
          assert (Cc : exists oc, nth_error h2 c = Some oc /\ (n0 <= c \/ is_forward oc = true \/ oc = OEmptyProd)).
          { destruct o; cbn in Nd, Hc; try contradiction.
            - destruct (Nd c Hc) as [(ts & m & Ec & Nc)|[Ec _]]; eexists; (split; [exact Ec|auto]).
            - destruct (forall2_in _ _ _ _ (proj2 Nd) Hc) as (l & _ & Ec & Nc). eexists. split; [exact Ec|auto].
            - destruct Nd as [_ Nd]. apply in_flat_map in Hc as ([y|y] & Hy & Z); [|destruct Z]. destruct Z as [->|[]]. destruct (Nd c Hy) as (oc & Ec & [[_ Nc]|[F _]]); exists oc; auto. }
          destruct Cc as (oc & Ec & Cc). exists oc. split; [exact Ec|]. split; [exact Cc|apply Uc; reflexivity]. }
    split; [|split; [|split; [|split; [exact Rule|]]]].
    - intros x Rx. destruct (K x Rx) as (o & E & Cx & Ux). exists o. split; [exact E|]. unfold final_node. destruct (is_forward o) eqn:Fo.
      + destruct o as [| | | | | | | | | | |[d|]| | | | | | |]; try discriminate; [|auto]. right. right. right. exists d. split; [reflexivity|].
        apply (Vse x d); [|exact E]. destruct Ux as [Vx|Ux]; [exact Vx|]. apply Ux. apply (uses_here all h2 x _ E). reflexivity.
      + destruct Cx as [N|[F|F]]; [left; apply (i_new s2 I2 x o N E)|discriminate|auto].
    - eapply same_trans; [apply (i_words s2 I2 root (R_lt root Rr))|]. apply (same_fewer pipe_bnf bnf_lines KNone all none h2 root r); [discriminate|apply L2].
    - intros Free. assert (Nr : ~ consumed s2 root) by (intros (w & x & O & _); apply (Free w O)).
      eapply like2_trans; [apply (i_words s2 I2 root (R_lt root Rr))|]. apply (like_fewer pipe_bnf bnf_lines all none h2 root r); [discriminate|apply (i_pair s2 I2 root r K2 Nr)].
    - intros p o E F. apply (i_old s2 I2 p o E F).
  Qed.
End BNF.
