(** SquashExtendedTransformator on rules with harmless nested quantifiers. *)
From Verif Require Import Base EarleyModel RuleModel RuleSpec RuleBuild RuleNestSpec RuleWords RuleLike RulePass RuleMethods RuleCount RuleOpen.
Open Scope nat_scope.

Section Stacks.
  Context {pred pipe bnf : Type}.
  Notation obj := (obj pred pipe bnf).
  Notation heap := (heap pred pipe bnf).
  Definition known (sort : obj -> bool) : Prop := forall o, sort o = true -> quantifier o = true.
  Lemma loose_known : known loose. Proof. intros o. destruct o; try discriminate; reflexivity. Qed.
  Lemma bounded_known : known bounded. Proof. intros o. destruct o; try discriminate; reflexivity. Qed.
  Lemma stack_map sort (h h' : heap) p : (forall x o, nth_error h x = Some o -> if quantifier o then nth_error h' x = Some o else exists o', nth_error h' x = Some o' /\ quantifier o' = false) ->
    known sort -> stack sort h p -> stack sort h' p.
  Proof.
    intros H K S. induction S as [p o E Q|p o c E So Ch S IH].
    - specialize (H p o E). rewrite Q in H. destruct H as (o' & E' & Q'). apply (stack_end sort h' p o' E' Q').
    - specialize (H p o E). rewrite (K o So) in H. apply (stack_more sort h' p o c H So Ch IH).
  Qed.
  Lemma mild_map (h h' : heap) p : (forall x o, nth_error h x = Some o -> if quantifier o then nth_error h' x = Some o else exists o', nth_error h' x = Some o' /\ quantifier o' = false) ->
    mild h p -> mild h' p.
  Proof.
    intros H M. induction M as [p S|p S|p r rev E M IH].
    - apply mild_loose, (stack_map _ h h' p H loose_known S).
    - apply mild_bounded, (stack_map _ h h' p H bounded_known S).
    - apply (mild_optional h' p r rev); [exact (H p _ E)|exact IH].
  Qed.
  Lemma old_objects (h : heap) t x o : nth_error h x = Some o -> if quantifier o then nth_error (h ++ t) x = Some o else exists o', nth_error (h ++ t) x = Some o' /\ quantifier o' = false.
  Proof. intros E. destruct (quantifier o) eqn:Q; [apply nth_old, E|exists o; split; [apply nth_old, E|exact Q]]. Qed.
  Lemma stack_inv sort (h : heap) p o : stack sort h p -> nth_error h p = Some o -> quantifier o = true -> exists c, children o = [c] /\ sort o = true /\ stack sort h c.
  Proof.
    intros S E Q. destruct S as [p o' E' Q'|p o' c E' So Ch S]; rewrite E in E'; injection E' as <-; [congruence|]. eauto.
  Qed.
  Lemma mild_inv (h : heap) p o : mild h p -> nth_error h p = Some o -> (match o with OOptional _ _ => False | _ => True end) -> stack loose h p \/ stack bounded h p.
  Proof. intros M E N. destruct M as [p S|p S|p r rev E' M]; auto. rewrite E in E'. injection E' as ->. destruct N. Qed.
  Lemma mild_under (h : heap) p r rev : mild h p -> nth_error h p = Some (OOptional r rev) -> mild h r.
  Proof.
    intros M E. destruct M as [p S|p S|p r' rev' E' M].
    - destruct (stack_inv _ h p _ S E eq_refl) as (c & Ch & _ & S'). injection Ch as <-. apply mild_loose, S'.
    - destruct (stack_inv _ h p _ S E eq_refl) as (c & _ & K & _). discriminate.
    - rewrite E in E'. injection E' as <- <-. exact M.
  Qed.
  Lemma flat_mild (h : heap) p o : nth_error h p = Some o -> (quantifier o = true -> exists c oc, children o = [c] /\ nth_error h c = Some oc /\ quantifier oc = false) -> mild h p.
  Proof.
    intros E H. destruct (quantifier o) eqn:Q; [|apply mild_loose, (stack_end loose h p o E Q)]. destruct (H eq_refl) as (c & oc & Ch & Ec & Qc).
    destruct (loose o) eqn:L; [apply mild_loose, (stack_more loose h p o c E L Ch), (stack_end loose h c oc Ec Qc)|].
    apply mild_bounded, (stack_more bounded h p o c E); [destruct o; try discriminate; reflexivity|exact Ch|apply (stack_end bounded h c oc Ec Qc)].
  Qed.
End Stacks.

Section Squash.
  Context {pred pipe bnf : Type}.
  Notation obj := (obj pred pipe bnf).
  Notation heap := (heap pred pipe bnf).
  Notation M := (M pred pipe bnf).
  Notation state := (state pred pipe bnf).
  Notation visitor := (visitor pred pipe bnf).
  Variable pipe_bnf : pipe -> res bnf.
  Variable bnf_lines : bnf -> list (str * list pred).
  Notation open kd := (open pipe_bnf bnf_lines kd).
  Notation closed kd := (closed pipe_bnf bnf_lines kd).
  Variable n0 : nat.
  Variable G : nat -> Prop.
  Notation dom := (dom (pred := pred) (pipe := pipe) (bnf := bnf) n0 G).

  (** With all forward rules left open. *)
  Definition alike_in (h : heap) (p : nat) (h' : heap) (p' : nat) : Prop := forall kd E, same (open kd E h p) (open kd E h' p').
  Lemma alike_in_trans h p h' p' h'' p'' : alike_in h p h' p' -> alike_in h' p' h'' p'' -> alike_in h p h'' p''.
  Proof. intros A B kd E. eapply same_trans; [apply A|apply B]. Qed.
  Lemma alike_in_sym h p h' p' : alike_in h p h' p' -> alike_in h' p' h p.
  Proof. intros A kd E. apply same_sym, A. Qed.

  Record pair (h : heap) (p r : nat) : Prop := {
    pair_dom : dom h r;
    pair_form : forall o, nth_error h p = Some o -> exists o', nth_error h r = Some o' /\ is_prod o' = is_prod o /\ quantifier o' = quantifier o;
    pair_loose : stack loose h p -> stack loose h r;
    pair_bounded : stack bounded h p -> stack bounded h r;
    pair_alike : alike_in h p h r }.
  Record heap_inv (h : heap) : Prop := {
    inv_size : n0 <= length h;
    inv_graph : graph plain nothing h (dom h);
    inv_mild : forall p, dom h p -> mild h p }.
  Record inv (s : state) : Prop := {
    inv_heap : heap_inv (st_heap s);
    inv_visited : forall p r, In (p, r) (st_visited s) -> dom (st_heap s) p /\ pair (st_heap s) p r }.

  Lemma alike_app h t p : heap_inv h -> dom h p -> alike_in h p (h ++ t) p.
  Proof.
    intros I D kd E. apply open_closed with (G := dom h); [|exact D]. intros q Dq. destruct (inv_graph h I q Dq) as (o & Eq & _ & _ & C).
    exists o. split; [exact Eq|]. split; [|intros c Hc; apply (C c Hc)]. exists o. split; [apply nth_old, Eq|]. destruct (is_forward o) eqn:F; auto.
  Qed.
  Lemma stack_back sort h t p : heap_inv h -> dom h p -> stack sort (h ++ t) p -> stack sort h p.
  Proof.
    intros I D S. remember (h ++ t) as h1. induction S as [p o E Q|p o c E So Ch S IH]; subst h1; destruct (inv_graph h I p D) as (o1 & E1 & _ & _ & C);
      rewrite (nth_old h t p o1 E1) in E; injection E as ->.
    - apply (stack_end sort h p o E1 Q).
    - apply (stack_more sort h p o c E1 So Ch). apply IH. apply (C c). rewrite Ch. left. reflexivity.
  Qed.
  Lemma stack_app sort h t p : known sort -> stack sort h p -> stack (pred := pred) (pipe := pipe) (bnf := bnf) sort (h ++ t) p.
  Proof. intros K. apply stack_map; [apply old_objects|exact K]. Qed.
  Lemma pair_app h t p r : heap_inv h -> dom h p -> pair h p r -> pair (h ++ t) p r.
  Proof.
    intros I Dp [D F L B A]. constructor.
    - apply dom_app, D.
    - intros o E. destruct (dom_get n0 G h p Dp) as (o1 & E1). rewrite (nth_old h t p o1 E1) in E. injection E as <-.
      destruct (F o1 E1) as (o' & E' & K). exists o'. split; [apply nth_old, E'|exact K].
    - intros S. apply stack_app; [apply loose_known|]. apply L, (stack_back _ h t p I Dp S).
    - intros S. apply stack_app; [apply bounded_known|]. apply B, (stack_back _ h t p I Dp S).
    - eapply alike_in_trans; [apply alike_in_sym, alike_app; eassumption|]. eapply alike_in_trans; [exact A|apply alike_app; eassumption].
  Qed.
  Lemma node_app h t (o : obj) : node plain nothing h (dom h) o -> node plain nothing (h ++ t) (dom (h ++ t)) o.
  Proof.
    intros (A & S & C). split; [exact A|]. split; [exact S|]. intros c Hc. destruct (C c Hc) as (D & oc & E & K).
    split; [apply dom_app, D|]. exists oc. split; [apply nth_old, E|exact K].
  Qed.
  (** A new object. *)
  Lemma inv_new s o : inv s -> node plain nothing (st_heap s) (dom (st_heap s)) o -> mild (st_heap s ++ [o]) (length (st_heap s)) -> inv (mkState (st_heap s ++ [o]) (st_visited s)).
  Proof.
    intros [I V] N Mi. set (h := st_heap s) in *. constructor.
    - cbn. constructor.
      + rewrite app_length. pose proof (inv_size h I). lia.
      + intros p [L D]. destruct (Nat.lt_ge_cases p (length h)) as [L'|L'].
        * destruct (inv_graph h I p (conj L' D)) as (x & E & K). exists x. split; [apply nth_old, E|apply node_app, K].
        * rewrite app_length in L. cbn in L. replace p with (length h) by lia. exists o. split; [apply nth_new|apply node_app, N].
      + intros p [L D]. destruct (Nat.lt_ge_cases p (length h)) as [L'|L'].
        * apply (mild_map h _ p (old_objects h [o])), (inv_mild h I p (conj L' D)).
        * rewrite app_length in L. cbn in L. replace p with (length h) by lia. exact Mi.
    - intros p r H. destruct (V p r H) as [D P]. cbn. split; [apply dom_app, D|apply pair_app; auto].
  Qed.
  Lemma new_dom s (o : obj) : inv s -> dom (st_heap s ++ [o]) (length (st_heap s)).
  Proof. intros I. split; [rewrite app_length; cbn; lia|right; apply (inv_size _ (inv_heap s I))]. Qed.

  (** ** Visiting *)
  Definition keeps (s : state) (p r : nat) (s' : state) : Prop := ext s s' /\ inv s' /\ pair (st_heap s') p r.
  Definition visit_ok (V : visitor) : Prop :=
    forall p s r s', inv s -> dom (st_heap s) p -> V p s = Some (Ok (r, s')) -> keeps s p r s'.
  Definition method_ok (method : visitor -> nat -> obj -> M nat) : Prop :=
    forall V, visit_ok V -> forall p o s r s', inv s -> dom (st_heap s) p -> nth_error (st_heap s) p = Some o ->
    method V p o s = Some (Ok (r, s')) -> keeps s p r s'.
  Lemma ext_dom s s' p : ext s s' -> dom (st_heap s) p -> dom (st_heap s') p.
  Proof. intros [t ->]. apply dom_app. Qed.

  Section Method.
    Variable method : visitor -> nat -> obj -> M nat.
    Hypothesis ok : method_ok method.
    Lemma visit_visit_ok fuel : visit_ok (visit method fuel).
    Proof.
      induction fuel as [|fuel IH]; intros p s r s' I D H; [discriminate|]. cbn [visit] in H.
      apply bind_ok in H as (known & s1 & H1 & H). unfold recall in H1. injection H1 as <- <-.
      destruct (assoc p (st_visited s)) as [r0|] eqn:A.
      - apply ret_ok in H as [-> ->]. split; [apply ext_refl|]. split; [exact I|]. apply (inv_visited s I), assoc_in, A.
      - apply bind_ok in H as (o & s1 & H1 & H). apply get_ok in H1 as [E ->].
        apply bind_ok in H as (r1 & s1 & H1 & H). apply bind_ok in H as (u & s2 & H2 & H). apply ret_ok in H as [-> ->].
        unfold remember in H2. injection H2 as <- <-.
        destruct (ok _ IH p o s r1 s1 I D E H1) as (X & I1 & P). split; [exact X|]. split; [|exact P].
        constructor; [apply I1|]. cbn. intros p' r' [K|K]; [|apply I1, K]. injection K as <- <-. split; [apply (ext_dom s s1 p X D)|exact P].
    Qed.

    (** Redefinition of forward rules. *)
    Record moved (s s' : state) : Prop := {
      moved_size : length (st_heap s) <= length (st_heap s');
      moved_get : forall p o, nth_error (st_heap s) p = Some o -> is_forward o = false -> nth_error (st_heap s') p = Some o;
      moved_forward : forall p d, nth_error (st_heap s) p = Some (OForward d) -> exists d', nth_error (st_heap s') p = Some (OForward d');
      moved_words : forall kd p, dom (st_heap s) p -> same (closed kd (st_heap s) p) (closed kd (st_heap s') p) }.
    Lemma moved_refl s : moved s s.
    Proof. constructor; eauto. intros kd p _. apply same_refl. Qed.
    Lemma moved_dom s s' p : moved s s' -> dom (st_heap s) p -> dom (st_heap s') p.
    Proof. intros Mv [L D]. split; [|exact D]. pose proof (moved_size s s' Mv). lia. Qed.
    Lemma moved_trans s s1 s2 : moved s s1 -> moved s1 s2 -> moved s s2.
    Proof.
      intros A B. constructor.
      - pose proof (moved_size _ _ A). pose proof (moved_size _ _ B). lia.
      - intros p o E F. apply (moved_get _ _ B p o); [|exact F]. apply (moved_get _ _ A p o E F).
      - intros p d E. destruct (moved_forward _ _ A p d E) as (d' & E'). apply (moved_forward _ _ B p d' E').
      - intros kd p D. eapply same_trans; [apply (moved_words _ _ A kd p D)|]. apply (moved_words _ _ B). apply (moved_dom _ _ _ A D).
    Qed.
    Lemma ext_moved s s' : inv s -> ext s s' -> moved s s'.
    Proof.
      intros I [t E]. constructor; rewrite E.
      - rewrite app_length. lia.
      - intros p o H _. apply nth_old, H.
      - intros p d H. exists d. apply nth_old, H.
      - intros kd p D. assert (Sm := closed_same pipe_bnf bnf_lines kd (fun _ => false) (st_heap s) (st_heap s ++ t) (dom (st_heap s))).
        intros w. split; apply erased_mono; intros u; apply Sm; try exact D; intros q Dq; destruct (inv_graph _ (inv_heap s I) q Dq) as (o & Eq & _ & _ & C);
          (exists o; split; [exact Eq|split; [apply nth_old, Eq|intros c Hc; apply (C c Hc)]]).
    Qed.
    Lemma redefine_inv s f r r' : inv s -> dom (st_heap s) f -> nth_error (st_heap s) f = Some (OForward (Some r)) -> pair (st_heap s) r r' ->
      let s' := mkState (setitem (st_heap s) f (OForward (Some r'))) (st_visited s) in inv s' /\ moved s s'.
    Proof.
      intros I Df Ef P s'. set (h := st_heap s) in *. set (h' := setitem h f (OForward (Some r'))).
      assert (Lf : f < length h) by (apply Df).
      assert (Eh : st_heap s' = h') by reflexivity.
      assert (Ef' : nth_error h' f = Some (OForward (Some r'))) by (apply setitem_same, Lf).
      assert (Eo : forall q, q <> f -> nth_error h' q = nth_error h q) by (intros q N; apply setitem_other; auto).
      assert (Len : length h' = length h) by apply setitem_length.
      destruct (inv_graph h (inv_heap s I) f Df) as (of & E1 & Nf). rewrite Ef in E1. injection E1 as <-.
      destruct Nf as (Af & _ & Cf). destruct (Cf r (or_introl eq_refl)) as (Dr & or & Er & Kr & _).
      assert (Dh : forall q, dom h' q <-> dom h q) by (intros q; unfold RulePass.dom; rewrite Len; tauto).
      assert (Fh : forall q o, nth_error h q = Some o -> exists o1, nth_error h' q = Some o1 /\ is_prod o1 = is_prod o /\ quantifier o1 = quantifier o /\ (is_forward o = false -> o1 = o) /\ is_forward o1 = is_forward o).
      { intros q o E. destruct (Nat.eq_dec q f) as [->|N].
        - rewrite Ef in E. injection E as <-. eexists. split; [exact Ef'|]. cbn. repeat split; auto. discriminate.
        - rewrite (Eo q N). exists o. auto 10. }
      assert (Fh' : forall q o1, nth_error h' q = Some o1 -> exists o, nth_error h q = Some o /\ is_prod o1 = is_prod o /\ quantifier o1 = quantifier o /\ (is_forward o = false -> o1 = o) /\ is_forward o1 = is_forward o).
      { intros q o1 E. destruct (nth_error h q) as [o|] eqn:E'; [|apply nth_error_None in E'; assert (nth_error h' q = None) by (apply nth_error_None; lia); congruence].
        destruct (Fh q o E') as (o2 & E2 & K). rewrite E in E2. injection E2 as <-. exists o. auto. }
      assert (Qh : forall q o, nth_error h q = Some o -> if quantifier o then nth_error h' q = Some o else exists o', nth_error h' q = Some o' /\ quantifier o' = false).
      { intros q o E. destruct (Fh q o E) as (o1 & E1 & _ & K & K' & _). destruct (quantifier o) eqn:Q; [|eauto]. rewrite K' in E1; [exact E1|]. destruct o; try discriminate; reflexivity. }
      assert (Qh' : forall q o, nth_error h' q = Some o -> if quantifier o then nth_error h q = Some o else exists o', nth_error h q = Some o' /\ quantifier o' = false).
      { intros q o E. destruct (Fh' q o E) as (o1 & E1 & _ & K & K' & K2). destruct (quantifier o) eqn:Q; [|eauto]. rewrite K'; [exact E1|]. rewrite <- K2. destruct o; try discriminate; reflexivity. }
      assert (Nd : forall o, node plain nothing h (dom h) o -> node plain nothing h' (dom h') o).
      { intros o (A & S & C). split; [exact A|]. split; [exact S|]. intros c Hc. destruct (C c Hc) as (Dc & oc & Ec & K1 & K2).
        split; [apply Dh, Dc|]. destruct (Fh c oc Ec) as (o1 & Ec' & X1 & _). exists o1. split; [exact Ec'|]. split; [congruence|discriminate]. }
      assert (La : forall q, alike_in h q h' q).
      { intros q kd E. assert (K : forall n p, same (level pipe_bnf bnf_lines kd E h n p) (level pipe_bnf bnf_lines kd E h' n p)).
        { induction n as [|n IH]; intros p; [intros w; reflexivity|]. cbn [level]. destruct (Nat.eq_dec p f) as [->|N]; [rewrite Ef, Ef'; intros w; reflexivity|]. rewrite (Eo p N).
          destruct (nth_error h p) as [o|]; [|intros w; reflexivity]. destruct (is_forward o); [intros w; reflexivity|]. intros w. split; apply says_in; intros c _ v; apply IH. }
        intros w. split; intros (n & H); exists n; apply K, H. }
      assert (Pr : forall x y, pair h x y -> pair h' x y).
      { intros x y [D F L B A]. constructor.
        - apply Dh, D.
        - intros o E. destruct (Fh' x o E) as (o1 & E1 & X1 & X2 & _). destruct (F o1 E1) as (o2 & E2 & Y1 & Y2).
          destruct (Fh y o2 E2) as (o3 & E3 & Z1 & Z2 & _). exists o3. split; [exact E3|]. split; congruence.
        - intros S. apply (stack_map _ h h' y Qh loose_known), L, (stack_map _ h' h x Qh' loose_known S).
        - intros S. apply (stack_map _ h h' y Qh bounded_known), B, (stack_map _ h' h x Qh' bounded_known S).
        - eapply alike_in_trans; [apply alike_in_sym, La|]. eapply alike_in_trans; [exact A|apply La]. }
      destruct (pair_form h r r' P or Er) as (o2 & E2 & X1 & X2).
      split.
      - constructor.
        + rewrite Eh. constructor.
          * rewrite Len. apply (inv_size h (inv_heap s I)).
          * intros q Dq. apply Dh in Dq. destruct (Nat.eq_dec q f) as [->|N].
            -- eexists. split; [exact Ef'|]. split; [reflexivity|]. split; [exact Logic.I|].
               intros c [<-|[]]. split; [apply Dh, (pair_dom h r r' P)|]. destruct (Fh r' o2 E2) as (o3 & E3 & Z1 & Z2 & _).
               exists o3. split; [exact E3|]. split; [cbn; cbn in Kr; congruence|discriminate].
            -- destruct (inv_graph h (inv_heap s I) q Dq) as (o & E & N'). exists o. split; [rewrite (Eo q N); exact E|apply Nd, N'].
          * intros q Dq. apply (mild_map h h' q Qh), (inv_mild h (inv_heap s I)), Dh, Dq.
        + rewrite Eh. intros p q Hq. destruct (inv_visited s I p q Hq) as [D Q]. split; [apply Dh, D|apply Pr, Q].
      - constructor; rewrite Eh; fold h.
        + rewrite Len. lia.
        + intros q o E F. destruct (Fh q o E) as (o1 & E1 & _ & _ & K & _). rewrite (K F) in E1. exact E1.
        + intros q d E. destruct (Fh q _ E) as (o1 & E1 & _ & _ & _ & K). destruct o1; try discriminate. eauto.
        + intros kd q _. apply (closed_redefine pipe_bnf bnf_lines kd h f r r' Ef). intros E. apply (pair_alike h r r' P).
    Qed.
    Lemma define_visited_ok fuel p s u s' : inv s -> dom (st_heap s) p -> define_visited method fuel p s = Some (Ok (u, s')) -> inv s' /\ moved s s'.
    Proof.
      intros I D H. unfold define_visited in H. apply bind_ok in H as (o & s1 & H1 & H). apply get_ok in H1 as [E ->].
      destruct o as [| | | | | | | | | | |[r|]| | | | | | |]; try (apply ret_ok in H as [_ ->]; split; [exact I|apply moved_refl]).
      apply bind_ok in H as (r' & s1 & H1 & H). unfold define in H. apply bind_ok in H as (o' & s2 & H2 & H). apply get_ok in H2 as [E' ->].
      destruct (is_forward o') eqn:F'; [discriminate|]. unfold put in H. injection H as _ <-.
      destruct (inv_graph _ (inv_heap s I) p D) as (of & Ef & _ & _ & Cf). rewrite E in Ef. injection Ef as <-.
      destruct (Cf r (or_introl eq_refl)) as (Dr & _).
      destruct (visit_visit_ok fuel r s r' s1 I Dr H1) as (X & I1 & P).
      destruct (redefine_inv s1 p r r' I1 (ext_dom s s1 p X D) (ext_get s s1 p _ X E) P) as (I2 & M2). split; [exact I2|].
      eapply moved_trans; [apply ext_moved; eassumption|exact M2].
    Qed.
    Lemma walk_ok fuel' : forall fuel queue vis s u s', inv s -> (forall x, In x queue -> dom (st_heap s) x) ->
      walk_loop fuel (define_visited method fuel') queue vis s = Some (Ok (u, s')) -> inv s' /\ moved s s'.
    Proof.
      induction fuel as [|fuel IH]; intros [|x queue] vis s u s' I D H; cbn [walk_loop] in H; try discriminate.
      1,2: apply ret_ok in H as [_ ->]; split; [exact I|apply moved_refl].
      apply bind_ok in H as (v & s1 & H1 & H). apply bind_ok in H as (o & s2 & H2 & H). apply get_ok in H2 as [E ->].
      destruct (enqueue (children o) queue vis) as [queue2 vis2] eqn:En.
      destruct (enqueue_spec _ _ _ _ _ En) as (_ & _ & _ & _ & A5).
      assert (Dx : dom (st_heap s) x) by (apply D; left; auto).
      destruct (define_visited_ok fuel' x s v s1 I Dx H1) as (I1 & M1).
      destruct (inv_graph _ (inv_heap s1 I1) x (moved_dom s s1 x M1 Dx)) as (o' & E' & _ & _ & Co). rewrite E in E'. injection E' as <-.
      destruct (IH queue2 vis2 s1 u s') as (I2 & M2); auto.
      - intros y Hy. destruct (A5 y Hy) as [K|K]; [apply (moved_dom s s1 y M1), D; right; exact K|apply (Co y K)].
      - split; [exact I2|eapply moved_trans; eassumption].
    Qed.
  End Method.

  (** ** Copies *)
  Lemma child_dom s p o c : inv s -> dom (st_heap s) p -> nth_error (st_heap s) p = Some o -> In c (children o) -> dom (st_heap s) c.
  Proof. intros I D E Hc. destruct (inv_graph _ (inv_heap s I) p D) as (o1 & E1 & _ & _ & Co). rewrite E in E1. injection E1 as <-. apply (Co c Hc). Qed.
  Lemma mapMM_ok {A B} (f : A -> M B) (Pre : heap -> A -> Prop) (Post : heap -> A -> B -> Prop) :
    (forall h t x, Pre h x -> Pre (h ++ t) x) ->
    (forall h t x y, heap_inv h -> Pre h x -> Post h x y -> Post (h ++ t) x y) ->
    (forall x s y s', inv s -> Pre (st_heap s) x -> f x s = Some (Ok (y, s')) -> ext s s' /\ inv s' /\ Post (st_heap s') x y) ->
    forall l s ys s', inv s -> Forall (Pre (st_heap s)) l -> mapMM f l s = Some (Ok (ys, s')) ->
    ext s s' /\ inv s' /\ Forall2 (Post (st_heap s')) l ys.
  Proof.
    intros Up Uq F. induction l as [|x l IH]; intros s ys s' I P H; cbn [mapMM] in H.
    - apply ret_ok in H as [-> ->]. split; [apply ext_refl|]. split; [exact I|constructor].
    - inversion P as [|? ? Px Pl]; subst. apply bind_ok in H as (y & s1 & H1 & H). apply bind_ok in H as (ys' & s2 & H2 & H). apply ret_ok in H as [-> ->].
      destruct (F x s y s1 I Px H1) as (X1 & I1 & Q1).
      assert (Pl1 : Forall (Pre (st_heap s1)) l) by (destruct X1 as [t ->]; revert Pl; apply Forall_impl; intros; auto).
      destruct (IH s1 ys' s2 I1 Pl1 H2) as (X2 & I2 & Q2). split; [eapply ext_trans; eassumption|]. split; [exact I2|].
      constructor; [|exact Q2]. assert (Px1 : Pre (st_heap s1) x) by (destruct X1 as [t ->]; auto).
      destruct X2 as [t ->]. apply Uq; [apply I1|exact Px1|exact Q1].
  Qed.
  Lemma visits_ok V : visit_ok V -> forall l s ys s', inv s -> Forall (dom (st_heap s)) l -> mapMM V l s = Some (Ok (ys, s')) ->
    ext s s' /\ inv s' /\ Forall2 (pair (st_heap s')) l ys.
  Proof.
    intros OK. apply mapMM_ok.
    - intros h t x. apply dom_app.
    - intros h t x y I D P. apply pair_app; assumption.
    - intros x s y s' I D H. apply (OK x s y s' I D H).
  Qed.
  Definition term_dom (h : heap) (t : term pred) : Prop := match t with TRule r => dom h r | TPred _ => True end.
  Lemma terms_ok V : visit_ok V -> forall l s ys s', inv s -> Forall (term_dom (st_heap s)) l -> mapMM (visit_term V) l s = Some (Ok (ys, s')) ->
    ext s s' /\ inv s' /\ Forall2 (like_term (pair (st_heap s'))) l ys.
  Proof.
    intros OK. apply (mapMM_ok (visit_term V) term_dom (fun h => like_term (pair h))).
    - intros h t [r|p]; cbn; [apply dom_app|auto].
    - intros h t [r|p] [r'|p'] I D P; cbn in *; auto. apply pair_app; assumption.
    - intros [r|p] s y s' I D H; cbn [visit_term] in H.
      + apply bind_ok in H as (r' & s1 & H1 & H). apply ret_ok in H as [-> ->]. apply (OK r s r' s1 I D H1).
      + apply ret_ok in H as [-> ->]. split; [apply ext_refl|]. split; [exact I|reflexivity].
  Qed.
  Lemma says_copy kd (R : nat -> nat -> Prop) (D D' : nat -> language) (o o' : obj) : copy R o o' -> (forall c c', R c c' -> included (D c) (D' c')) ->
    included (says pipe_bnf bnf_lines kd D o) (says pipe_bnf bnf_lines kd D' o').
  Proof.
    intros C H.
    assert (O : forall ps ps', Forall2 R ps ps' -> included (one_of D ps) (one_of D' ps')).
    { intros ps ps' F w (q & Hq & W). clear C. induction F as [|x y l l' K F IH]; [destruct Hq|]. destruct Hq as [->|Hq]; [exists y; split; [left; reflexivity|apply (H q y K w W)]|].
      destruct (IH Hq) as (z & Hz & Wz). exists z. split; [right; exact Hz|exact Wz]. }
    assert (Q : forall (Q : nat -> Prop) r r', R r r' -> included (counts Q (D r)) (counts Q (D' r'))) by (intros Q r r' K; exact (counts_mono Q (D r) (D' r') (H r r' K))).
    destruct C; cbn [says]; try (apply Q; assumption); try (apply O; assumption); try (apply around_mono, H; assumption).
    intros w K. revert ts' H0. induction K as [|p ts w K IH|r ts u w Hu K IH]; intros ts' F; inversion F as [|t t' l l' T F']; subst.
    - constructor.
    - destruct t'; cbn in T; [contradiction|]. subst. constructor. auto.
    - destruct t'; cbn in T; [|contradiction]. constructor; [apply (H r _ T u Hu)|auto].
  Qed.
  Lemma copy_sorts R (o o' : obj) : copy R o o' -> plain o' = plain o /\ quantifier o' = quantifier o /\ loose o' = loose o /\ bounded o' = bounded o /\
    (quantifier o = true -> exists c c', children o = [c] /\ children o' = [c'] /\ R c c') /\ (forall r rev, o = OOptional r rev -> exists r', o' = OOptional r' rev /\ R r r').
  Proof.
    destruct 1; cbn; repeat split; auto; try discriminate; try (intros _; do 2 eexists; repeat split; assumption); intros ? ? E; try discriminate. injection E as <- <-. eauto.
  Qed.
  Lemma alloc_copy s p o o' r s' : inv s -> dom (st_heap s) p -> nth_error (st_heap s) p = Some o ->
    copy (pair (st_heap s)) o o' -> alloc o' s = Some (Ok (r, s')) -> keeps s p r s'.
  Proof.
    intros I D E C H. unfold alloc in H. injection H as <- <-. set (h := st_heap s) in *.
    destruct (inv_graph h (inv_heap s I) p D) as (o1 & E1 & A & Sh & Co). rewrite E in E1. injection E1 as <-.
    destruct (copy_form _ _ _ C) as (P1 & P2 & P3 & P4). destruct (copy_sorts _ _ _ C) as (S1 & S2 & S3 & S4 & S5 & S6).
    assert (Nd : node plain nothing h (dom h) o').
    { split; [congruence|]. split; [apply P3, Sh|]. intros c' Hc'. destruct (copy_children _ _ _ c' (copy_flip _ _ _ C) Hc') as (c & Hc & Q).
      destruct (Co c Hc) as (Dc & oc & Ec & X1 & _). destruct (pair_form h c c' Q oc Ec) as (oc' & Ec' & Y1 & _). split; [apply (pair_dom h c c' Q)|].
      exists oc'. split; [exact Ec'|]. split; [congruence|discriminate]. }
    assert (St : forall sort : obj -> bool, known sort -> sort o' = sort o -> (forall c c', pair h c c' -> stack sort h c -> stack sort h c') -> stack sort h p -> stack sort (h ++ [o']) (length h)).
    { intros sort K Es Hs S. destruct (quantifier o) eqn:Q; [|apply (stack_end sort _ _ o'); [apply nth_new|congruence]].
      destruct (stack_inv sort h p o S E Q) as (c & Ch & So & Sc). destruct (S5 eq_refl) as (c1 & c' & Ch1 & Ch' & Pc). rewrite Ch in Ch1. injection Ch1 as <-.
      apply (stack_more sort _ _ o' c'); [apply nth_new|congruence|exact Ch'|]. apply stack_app; [exact K|]. apply (Hs c c' Pc Sc). }
    assert (Mi : mild (h ++ [o']) (length h)).
    { destruct (inv_mild h (inv_heap s I) p D) as [p S|p S|p r rev E' Mr].
      - apply mild_loose, (St loose loose_known S3); [|exact S]. intros c c' Pc. apply (pair_loose h c c' Pc).
      - apply mild_bounded, (St bounded bounded_known S4); [|exact S]. intros c c' Pc. apply (pair_bounded h c c' Pc).
      - rewrite E in E'. injection E' as ->. destruct (S6 r rev eq_refl) as (r' & -> & Pr). apply (mild_optional _ _ r' rev); [apply nth_new|].
        apply (mild_map h _ r' (old_objects h _)), (inv_mild h (inv_heap s I)), (pair_dom h r r' Pr). }
    assert (I' := inv_new s o' I Nd Mi). split; [exists [o']; reflexivity|]. split; [exact I'|]. cbn [st_heap]. fold h.
    constructor.
    - apply (new_dom s o' I).
    - intros o2 E2. rewrite (nth_old h [o'] p o E) in E2. injection E2 as <-. exists o'. split; [apply nth_new|]. auto.
    - intros S. apply (St loose loose_known S3); [|apply (stack_back _ h [o'] p (inv_heap s I) D S)]. intros c c' Pc. apply (pair_loose h c c' Pc).
    - intros S. apply (St bounded bounded_known S4); [|apply (stack_back _ h [o'] p (inv_heap s I) D S)]. intros c c' Pc. apply (pair_bounded h c c' Pc).
    - intros kd E0. destruct (copy_forward _ _ _ C) as [F F'].
      eapply same_trans; [apply (open_obj pipe_bnf bnf_lines kd E0 _ p o (nth_old h [o'] p o E) F)|].
      eapply same_trans; [|apply same_sym, (open_obj pipe_bnf bnf_lines kd E0 _ (length h) o' (nth_new h o' []) F')].
      assert (C' : copy (fun x y => same (open kd E0 (h ++ [o']) x) (open kd E0 (h ++ [o']) y)) o o').
      { revert C. apply copy_in. intros c c' Hc Pc. apply (pair_alike _ _ _ (pair_app h [o'] c c' (inv_heap s I) (proj1 (Co c Hc)) Pc)). }
      intros w. split; revert w.
      + apply (says_copy kd _ _ _ o o' C'). intros c c' Pc v. apply Pc.
      + apply (says_copy kd _ _ _ o' o (copy_flip _ _ _ C')). intros c c' Pc v. apply Pc.
  Qed.
  Lemma children_dom s p o : inv s -> dom (st_heap s) p -> nth_error (st_heap s) p = Some o -> Forall (dom (st_heap s)) (children o).
  Proof. intros I D E. apply Forall_forall. intros c Hc. apply (child_dom s p o c I D E Hc). Qed.
  Lemma terms_dom s p ts main : inv s -> dom (st_heap s) p -> nth_error (st_heap s) p = Some (OProd ts main) -> Forall (term_dom (st_heap s)) ts.
  Proof.
    intros I D E. apply Forall_forall. intros [r|q] Hr; [|exact Logic.I]. apply (child_dom s p _ r I D E). apply in_rule_terms, Hr.
  Qed.
  Lemma self_keeps s p : inv s -> dom (st_heap s) p -> keeps s p p s.
  Proof.
    intros I D. split; [apply ext_refl|]. split; [exact I|]. constructor; auto.
    - intros o E. eauto.
    - intros kd E. apply same_refl.
  Qed.
  Lemma visit_copy V s p o r (f : nat -> obj) q s' : visit_ok V -> inv s -> dom (st_heap s) p -> nth_error (st_heap s) p = Some o -> children o = [r] ->
    (forall (R : nat -> nat -> Prop) (r' : nat), R r r' -> copy R o (f r')) ->
    bindM (V r) (fun r' => alloc (f r')) s = Some (Ok (q, s')) -> keeps s p q s'.
  Proof.
    intros OK I D E Ch C H. apply bind_ok in H as (r' & s1 & H1 & H).
    assert (Dr : dom (st_heap s) r) by (apply (child_dom s p o r I D E); rewrite Ch; left; reflexivity).
    destruct (OK r s r' s1 I Dr H1) as (X & I1 & Q).
    destruct (alloc_copy s1 p o (f r') q s' I1 (ext_dom s s1 p X D) (ext_get s s1 p o X E) (C _ r' Q) H) as (X2 & I2 & Q2).
    split; [eapply ext_trans; eassumption|]. auto.
  Qed.
  Lemma base_ok V s p o r s' : visit_ok V -> inv s -> dom (st_heap s) p -> nth_error (st_heap s) p = Some o -> plain o = true ->
    base_method V p o s = Some (Ok (r, s')) -> keeps s p r s'.
  Proof.
    intros OK I D E Pl H.
    assert (Self : ret p s = Some (Ok (r, s')) -> keeps s p r s') by (intros K; apply ret_ok in K as [-> ->]; apply self_keeps; assumption).
    destruct o as [ps|rs|r0 rev|r0 rev|r0 rr ro|r0 m rev|r0 m rev|r0 m n rev|r0 n|r0 i|r0 rel|d| |pl|ps a|b ps a|ts m| |k ps]; cbn [base_method] in H; try discriminate; try (apply Self; exact H).
    - apply bind_ok in H as (ps' & s1 & H1 & H). destruct (visits_ok V OK ps s ps' s1 I (children_dom s p _ I D E) H1) as (X & I1 & F).
      assert (K : copy (pair (st_heap s1)) (ORule ps : obj) (ORule ps')) by (constructor; exact F).
      destruct (alloc_copy s1 p _ _ r s' I1 (ext_dom s s1 p X D) (ext_get s s1 p _ X E) K H) as (X2 & I2 & Q2). split; [eapply ext_trans; eassumption|]. auto.
    - apply bind_ok in H as (ps' & s1 & H1 & H). destruct (visits_ok V OK rs s ps' s1 I (children_dom s p _ I D E) H1) as (X & I1 & F).
      assert (K : copy (pair (st_heap s1)) (OOr rs : obj) (OOr ps')) by (constructor; exact F).
      destruct (alloc_copy s1 p _ _ r s' I1 (ext_dom s s1 p X D) (ext_get s s1 p _ X E) K H) as (X2 & I2 & Q2). split; [eapply ext_trans; eassumption|]. auto.
    - eapply (visit_copy V s p _ r0 (fun r' => OMin r' m rev)); eauto. intros; constructor; assumption.
    - eapply (visit_copy V s p _ r0 (fun r' => OMax r' m rev)); eauto. intros; constructor; assumption.
    - eapply (visit_copy V s p _ r0 (fun r' => OMinMax r' m n rev)); eauto. intros; constructor; assumption.
    - eapply (visit_copy V s p _ r0 (fun r' => ONamed r' n)); eauto. intros; constructor; assumption.
    - eapply (visit_copy V s p _ r0 (fun r' => OInterp r' i)); eauto. intros; constructor; assumption.
    - eapply (visit_copy V s p _ r0 (fun r' => ORelation r' rel)); eauto. intros; constructor; assumption.
    - unfold visit_Production in H. apply bind_ok in H as (ts' & s1 & H1 & H). destruct (terms_ok V OK ts s ts' s1 I (terms_dom s p ts m I D E) H1) as (X & I1 & F).
      assert (K : copy (pair (st_heap s1)) (OProd ts m : obj) (OProd ts' m)) by (constructor; exact F).
      destruct (alloc_copy s1 p _ _ r s' I1 (ext_dom s s1 p X D) (ext_get s s1 p _ X E) K H) as (X2 & I2 & Q2). split; [eapply ext_trans; eassumption|]. auto.
  Qed.

  (** ** Objects that are made to be visited *)
  Lemma quant_plain (o : obj) : quantifier o = true -> plain o = true /\ is_prod o = false /\ has_prods o = false /\ is_forward o = false /\ exists c, children o = [c].
  Proof. destruct o; try discriminate; intros _; cbn; eauto 10. Qed.
  Lemma says_quant kd D (o : obj) c : quantifier o = true -> children o = [c] -> says pipe_bnf bnf_lines kd D o = counts (count o) (D c).
  Proof. destruct o; try discriminate; intros _ E; injection E as <-; reflexivity. Qed.
  Lemma open_quant kd E0 h p (o : obj) c : nth_error h p = Some o -> quantifier o = true -> children o = [c] -> same (open kd E0 h p) (counts (count o) (open kd E0 h c)).
  Proof.
    intros E Q Ch. rewrite <- (says_quant kd _ o c Q Ch). apply (open_obj pipe_bnf bnf_lines kd E0 h p o E), quant_plain, Q.
  Qed.
  Lemma open_twice kd E0 h p (o : obj) c oc g : nth_error h p = Some o -> quantifier o = true -> children o = [c] -> nth_error h c = Some oc -> quantifier oc = true -> children oc = [g] ->
    same (open kd E0 h p) (counts (fun n => exists k, count o k /\ sums (count oc) k n) (open kd E0 h g)).
  Proof.
    intros E Q Ch Ec Qc Chc. eapply same_trans; [apply (open_quant kd E0 h p o c E Q Ch)|]. intros w. rewrite (counts_same _ _ _ (open_quant kd E0 h c oc g Ec Qc Chc) w). apply counts_counts.
  Qed.
  Lemma pair_trans h p q r : pair h p q -> pair h q r -> pair h p r.
  Proof.
    intros A B. constructor.
    - apply (pair_dom _ _ _ B).
    - intros o E. destruct (pair_form _ _ _ A o E) as (o1 & E1 & X1 & X2). destruct (pair_form _ _ _ B o1 E1) as (o2 & E2 & Y1 & Y2). exists o2. split; [exact E2|]. split; congruence.
    - intros S. apply (pair_loose _ _ _ B), (pair_loose _ _ _ A), S.
    - intros S. apply (pair_bounded _ _ _ B), (pair_bounded _ _ _ A), S.
    - eapply alike_in_trans; [apply A|apply B].
  Qed.
  Lemma draft V s p o d c r s' : visit_ok V -> inv s -> dom (st_heap s) p -> nth_error (st_heap s) p = Some o -> quantifier o = true ->
    quantifier d = true -> shape d -> children d = [c] -> dom (st_heap s) c -> (forall oc, nth_error (st_heap s) c = Some oc -> is_prod oc = false) ->
    mild (st_heap s ++ [d]) (length (st_heap s)) ->
    (stack loose (st_heap s) p -> stack loose (st_heap s ++ [d]) (length (st_heap s))) ->
    (stack bounded (st_heap s) p -> stack bounded (st_heap s ++ [d]) (length (st_heap s))) ->
    (forall kd E0, same (open kd E0 (st_heap s) p) (counts (count d) (open kd E0 (st_heap s) c))) ->
    visit_new V d s = Some (Ok (r, s')) -> keeps s p r s'.
  Proof.
    intros OK I D E Q Qd Sd Ch Dc Pc Mi SL SB Al H. unfold visit_new in H. apply bind_ok in H as (t & s1 & H1 & H). unfold alloc in H1. injection H1 as <- <-.
    set (h := st_heap s) in *. destruct (quant_plain d Qd) as (Pl & P0 & H0 & F0 & _). destruct (quant_plain o Q) as (_ & P1 & _).
    assert (Nd : node plain nothing h (dom h) d).
    { split; [exact Pl|]. split; [exact Sd|]. rewrite Ch. intros x [<-|[]]. split; [exact Dc|]. destruct (dom_get n0 G h c Dc) as (oc & Ec). exists oc. split; [exact Ec|].
      split; [rewrite H0; apply Pc, Ec|discriminate]. }
    assert (I1 := inv_new s d I Nd Mi). fold h in I1.
    destruct (OK (length h) _ r s' I1 (new_dom s d I) H) as (X & I2 & P). split; [refine (ext_trans s _ s' _ X); exists [d]; reflexivity|]. split; [exact I2|].
    apply (pair_trans _ p (length h) r); [|exact P]. destruct X as [t ->]. cbn [st_heap]. apply pair_app; [apply I1|apply dom_app, D|]. constructor.
    - apply (new_dom s d I).
    - intros o1 E1. rewrite (nth_old h [d] p o E) in E1. injection E1 as <-. exists d. split; [apply nth_new|]. split; congruence.
    - intros S. apply SL, (stack_back _ h [d] p (inv_heap s I) D S).
    - intros S. apply SB, (stack_back _ h [d] p (inv_heap s I) D S).
    - intros kd E0. eapply same_trans; [apply same_sym, alike_app; [apply I|exact D]|]. eapply same_trans; [apply Al|].
      eapply same_trans; [|apply same_sym, (open_quant kd E0 _ _ d c (nth_new h d []) Qd Ch)]. intros w. apply counts_same. apply alike_app; [apply I|exact Dc].
  Qed.
  Lemma quant_child s p o c : inv s -> dom (st_heap s) p -> nth_error (st_heap s) p = Some o -> quantifier o = true -> children o = [c] ->
    shape o /\ dom (st_heap s) c /\ forall oc, nth_error (st_heap s) c = Some oc -> is_prod oc = false.
  Proof.
    intros I D E Q Ch. destruct (inv_graph _ (inv_heap s I) p D) as (o1 & E1 & _ & Sh & Co). rewrite E in E1. injection E1 as <-. split; [exact Sh|].
    destruct (Co c) as (Dc & oc & Ec & P & _); [rewrite Ch; left; reflexivity|]. split; [exact Dc|]. intros oc' Ec'. rewrite Ec in Ec'. injection Ec' as <-. rewrite P. apply quant_plain, Q.
  Qed.
  (** One quantifier in place of two. *)
  Lemma merge V s p o r child r' d q s' : visit_ok V -> inv s -> dom (st_heap s) p -> nth_error (st_heap s) p = Some o -> quantifier o = true -> children o = [r] ->
    nth_error (st_heap s) r = Some child -> quantifier child = true -> children child = [r'] ->
    quantifier d = true -> shape d -> children d = [r'] -> loose d = true -> bounded o && bounded child = false ->
    (stack loose (st_heap s) r' \/ mild (st_heap s) r' /\ exists rev, d = OOptional r' rev) ->
    (forall n, (exists k, count o k /\ sums (count child) k n) <-> count d n) ->
    visit_new V d s = Some (Ok (q, s')) -> keeps s p q s'.
  Proof.
    intros OK I D E Q Ch Ec Qc Chc Qd Sd Chd Ld B Mi Ct H. set (h := st_heap s) in *.
    destruct (quant_child s p o r I D E Q Ch) as (_ & Dr & _). destruct (quant_child s r child r' I Dr Ec Qc Chc) as (_ & Dr' & Pr').
    assert (St : stack loose h r' -> stack loose (h ++ [d]) (length h)).
    { intros S. apply (stack_more loose _ _ d r'); [apply nth_new|exact Ld|exact Chd|]. apply stack_app; [apply loose_known|exact S]. }
    apply (draft V s p o d r' q s'); auto.
    - destruct Mi as [S|(M & rev & ->)]; [apply mild_loose, St, S|]. apply (mild_optional _ _ r' rev); [apply nth_new|]. apply (mild_map h _ r' (old_objects h _) M).
    - intros S. apply St. destruct (stack_inv _ h p o S E Q) as (c & Ch1 & _ & S1). rewrite Ch in Ch1. injection Ch1 as <-.
      destruct (stack_inv _ h r child S1 Ec Qc) as (c & Ch2 & _ & S2). rewrite Chc in Ch2. injection Ch2 as <-. exact S2.
    - intros S. exfalso. destruct (stack_inv _ h p o S E Q) as (c & Ch1 & B1 & S1). rewrite Ch in Ch1. injection Ch1 as <-.
      destruct (stack_inv _ h r child S1 Ec Qc) as (c & Ch2 & B2 & S2). rewrite B1, B2 in B. discriminate.
    - intros kd E0. eapply same_trans; [apply (open_twice kd E0 h p o r child r' E Q Ch Ec Qc Chc)|]. intros w. apply counts_sets, Ct.
  Qed.
  Lemma loose_one (o : obj) : loose o = true -> shape o -> count o 1.
  Proof.
    destruct o; try discriminate; cbn; intros L S; try exact Logic.I; try lia; apply Nat.leb_le in L; try lia.
  Qed.
  Lemma count_low (o : obj) n : quantifier o = true -> (match o with OOptional _ _ | ORepOpt _ _ _ => False | _ => True end) -> count o n -> 1 <= n.
  Proof. destruct o; try discriminate; cbn; intros _ K; try destruct K; lia. Qed.
  Lemma count_between (o : obj) n k : loose o = true -> bounded o = true -> shape o -> count o k -> 1 <= n <= k -> count o n.
  Proof. destruct o; try discriminate; cbn; intros L _ S; try apply Nat.leb_le in L; lia. Qed.
  (** A bounded optional rule becomes an optional bounded one. *)
  Lemma swap V s p o r rev' r' (b : nat -> obj) q s' : visit_ok V -> inv s -> dom (st_heap s) p -> o = b r -> nth_error (st_heap s) p = Some o ->
    (forall x, children (b x) = [x] /\ bounded (b x) = true /\ loose (b x) = loose o /\ (shape (b x) <-> shape o) /\ forall n, count (b x) n <-> count o n) ->
    nth_error (st_heap s) r = Some (OOptional r' rev') ->
    bindM (alloc (b r')) (fun t => visit_new V (OOptional t rev')) s = Some (Ok (q, s')) -> keeps s p q s'.
  Proof.
    intros OK I D Eo E B Ec H. set (h := st_heap s) in *.
    assert (Q : quantifier o = true) by (rewrite Eo; apply bounded_known, B). assert (Ch : children o = [r]) by (rewrite Eo; apply B).
    assert (Bo : bounded o = true) by (rewrite Eo; apply B).
    destruct (quant_child s p o r I D E Q Ch) as (Sh & Dr & _). destruct (quant_child s r _ r' I Dr Ec eq_refl eq_refl) as (_ & Dr' & Pr').
    assert (Mp : stack loose h p).
    { destruct (mild_inv h p o (inv_mild h (inv_heap s I) p D) E) as [S|S]; [rewrite Eo; destruct (b r) eqn:Eb; auto; destruct (B r) as (_ & K & _); rewrite Eb in K; discriminate|exact S|].
      destruct (stack_inv _ h p o S E Q) as (c & Ch1 & _ & S1). rewrite Ch in Ch1. injection Ch1 as <-. destruct (stack_inv _ h r _ S1 Ec eq_refl) as (c & _ & K & _). discriminate. }
    destruct (stack_inv _ h p o Mp E Q) as (c & Ch1 & Lo & S1). rewrite Ch in Ch1. injection Ch1 as <-.
    destruct (stack_inv _ h r _ S1 Ec eq_refl) as (c & Ch2 & _ & S2). injection Ch2 as <-.
    apply bind_ok in H as (t & s1 & H1 & H). unfold alloc in H1. injection H1 as <- <-. fold h in H.
    destruct (B r') as (B1 & B2 & B3 & B4 & B5). assert (Qb : quantifier (b r') = true) by (apply bounded_known, B2). destruct (quant_plain _ Qb) as (Plb & Pb & Hb & Fb & _).
    assert (St : stack loose (h ++ [b r']) (length h)).
    { apply (stack_more loose _ _ (b r') r'); [apply nth_new|congruence|exact B1|]. apply stack_app; [apply loose_known|exact S2]. }
    assert (I1 : inv (mkState (h ++ [b r']) (st_visited s))).
    { apply (inv_new s (b r') I); [|apply mild_loose, St]. split; [exact Plb|]. split; [apply B4, Sh|]. rewrite B1. intros x [<-|[]]. split; [exact Dr'|].
      destruct (dom_get n0 G h r' Dr') as (oc & Eoc). exists oc. split; [exact Eoc|]. split; [rewrite Hb; apply Pr', Eoc|discriminate]. }
    assert (K : keeps (mkState (h ++ [b r']) (st_visited s)) p q s').
    { apply (draft V _ p o (OOptional (length h) rev') (length h) q s'); auto; cbn [st_heap].
      - apply dom_app, D.
      - apply nth_old, E.
      - exact Logic.I.
      - apply (new_dom s _ I).
      - intros oc Eoc. rewrite nth_new in Eoc. injection Eoc as <-. exact Pb.
      - apply mild_loose. apply (stack_more loose _ _ (OOptional (length h) rev') (length h)); [apply nth_new|reflexivity|reflexivity|]. apply stack_app; [apply loose_known|exact St].
      - intros _. apply (stack_more loose _ _ (OOptional (length h) rev') (length h)); [apply nth_new|reflexivity|reflexivity|]. apply stack_app; [apply loose_known|exact St].
      - intros S. exfalso. destruct (stack_inv _ _ p o S (nth_old h _ p o E) Q) as (c & Ch1 & _ & S3). rewrite Ch in Ch1. injection Ch1 as <-.
        destruct (stack_inv _ _ r _ S3 (nth_old h _ r _ Ec) eq_refl) as (c & _ & X & _). discriminate.
      - intros kd E0. eapply same_trans; [apply (open_twice kd E0 _ p o r _ r' (nth_old h _ p o E) Q Ch (nth_old h _ r _ Ec) eq_refl eq_refl)|].
        intros w. rewrite (counts_same _ _ _ (open_quant kd E0 _ _ (b r') r' (nth_new h (b r') []) Qb B1) w), counts_counts. apply counts_sets. intros n. cbn [count]. split.
        + intros (k & Ck & Sk). apply sums_maybe in Sk. destruct n as [|n]; [exists 0; split; [lia|constructor]|]. exists 1. split; [lia|]. apply sums_one, B5.
          apply (count_between o (S n) k Lo Bo Sh Ck). lia.
        + intros (k & Ck & Sk). destruct k as [|[|k]]; [|apply sums_one, B5 in Sk|lia].
          * inversion Sk; subst. exists 1. split; [apply loose_one; assumption|apply sums_maybe; lia].
          * exists n. split; [exact Sk|apply sums_maybe; lia]. }
    destruct K as (X & K). split; [refine (ext_trans s _ s' _ X); exists [b r']; reflexivity|exact K].
  Qed.

  Lemma squash_ok : method_ok squash_method.
  Proof.
    intros V OK p o s q s' I D E H. set (h := st_heap s) in *.
    destruct (inv_graph h (inv_heap s I) p D) as (o1 & E1 & Pl & Sh & Co). rewrite E in E1. injection E1 as <-.
    assert (Base : base_method V p o s = Some (Ok (q, s')) -> keeps s p q s') by (intros K; eapply base_ok; eauto).
    assert (Mp := inv_mild h (inv_heap s I) p D).
    assert (Two : forall c oc c', quantifier o = true -> children o = [c] -> nth_error h c = Some oc -> quantifier oc = true -> children oc = [c'] -> stack loose h p ->
      loose o = true /\ loose oc = true /\ shape oc /\ stack loose h c').
    { intros c oc c' Q Ch Ec Qc Chc S. destruct (stack_inv _ h p o S E Q) as (x & X & Lo & S1). rewrite Ch in X. injection X as <-.
      destruct (stack_inv _ h c oc S1 Ec Qc) as (x & X & Lc & S2). rewrite Chc in X. injection X as <-.
      destruct (quant_child s p o c I D E Q Ch) as (_ & Dc & _). destruct (quant_child s c oc c' I Dc Ec Qc Chc) as (Sc & _). auto. }
    assert (Bd : forall c oc, quantifier o = true -> children o = [c] -> nth_error h c = Some oc -> quantifier oc = true -> bounded o && bounded oc = false ->
      (match o with OOptional _ _ => False | _ => True end) -> stack loose h p).
    { intros c oc Q Ch Ec Qc B N. destruct (mild_inv h p o Mp E N) as [S|S]; [exact S|]. exfalso. destruct (stack_inv _ h p o S E Q) as (x & X & Lo & S1). rewrite Ch in X. injection X as <-.
      destruct (stack_inv _ h c oc S1 Ec Qc) as (x & X & Lc & S2). rewrite Lo, Lc in B. discriminate. }
    destruct o as [ps|rs|r0 rev|r0 rev|r0 rr ro|r0 m rev|r0 m rev|r0 m n rev|r0 n|r0 i|r0 rel|d| |pl|ps a|b ps a|ts m| |k ps]; cbn [squash_method] in H; try (apply Base; exact H);
      (apply bind_ok in H as (child & s1 & H1 & H); apply get_ok in H1 as [Ec ->]; fold h in Ec).
    - (* Optional *)
      assert (Cp : bindM (V r0) (fun r' => alloc (OOptional r' rev)) s = Some (Ok (q, s')) -> keeps s p q s').
      { intros K. eapply (visit_copy V s p _ r0 (fun r' => OOptional r' rev)); eauto. intros; constructor; assumption. }
      assert (Mr := mild_under h p r0 rev Mp E).
      destruct child as [ps|rs|r1 rev1|r1 rev1|r1 rr1 ro1|r1 m1 rev1|r1 m1 rev1|r1 m1 n1 rev1|r1 n1|r1 i1|r1 rel1|d1| |pl1|ps1 a1|b1 ps1 a1|ts1 m1| |k1 ps1]; try (apply Cp; exact H); try discriminate.
      + apply (merge V s p _ r0 _ r1 (OOptional r1 rev) q s' OK I D E eq_refl eq_refl Ec eq_refl eq_refl); auto.
        * right. split; [apply (mild_under h r0 r1 rev1 Mr Ec)|eauto].
        * intros n. cbn [count]. split; [intros (k & A & B); apply sums_maybe in B; lia|intros A; exists 1; split; [lia|apply sums_maybe; lia]].
      + apply (merge V s p _ r0 _ r1 (ORepOpt r1 rev1 rev) q s' OK I D E eq_refl eq_refl Ec eq_refl eq_refl); auto.
        * left. destruct (mild_inv h r0 _ Mr Ec Logic.I) as [S|S]; destruct (stack_inv _ h r0 _ S Ec eq_refl) as (x & X & L & S1); [injection X as <-; exact S1|discriminate].
        * intros n. cbn [count]. split; [auto|]. intros _. destruct n as [|n]; [exists 0; split; [lia|constructor]|]. exists 1. split; [lia|apply sums_one; cbn; lia].
    - (* Repeatable *)
      assert (Cp : bindM (V r0) (fun r' => alloc (ORepeatable r' rev)) s = Some (Ok (q, s')) -> keeps s p q s').
      { intros K. eapply (visit_copy V s p _ r0 (fun r' => ORepeatable r' rev)); eauto. intros; constructor; assumption. }
      assert (One : forall r1, quantifier child = true -> children child = [r1] -> (match child with OOptional _ _ | ORepOpt _ _ _ => False | _ => True end) ->
        visit_new V (ORepeatable r1 rev) s = Some (Ok (q, s')) -> keeps s p q s').
      { intros r1 Qc Chc N K. destruct (Two r0 child r1 eq_refl eq_refl Ec Qc Chc (Bd r0 child eq_refl eq_refl Ec Qc eq_refl Logic.I)) as (_ & Lc & Sc & S1).
        apply (merge V s p _ r0 _ r1 (ORepeatable r1 rev) q s' OK I D E eq_refl eq_refl Ec Qc Chc); auto. intros n. cbn [count]. split.
        - intros (k & A & B). apply sums_low in B; [lia|]. intros x. apply count_low; assumption.
        - intros A. exists n. split; [exact A|apply sums_ones, loose_one; assumption]. }
      destruct child as [ps|rs|r1 rev1|r1 rev1|r1 rr1 ro1|r1 m1 rev1|r1 m1 rev1|r1 m1 n1 rev1|r1 n1|r1 i1|r1 rel1|d1| |pl1|ps1 a1|b1 ps1 a1|ts1 m1| |k1 ps1];
        try (apply Cp; exact H); try discriminate; try (apply (One r1 eq_refl eq_refl Logic.I H)).
      destruct (Two r0 _ r1 eq_refl eq_refl Ec eq_refl eq_refl (Bd r0 _ eq_refl eq_refl Ec eq_refl eq_refl Logic.I)) as (_ & _ & _ & S1).
      apply (merge V s p _ r0 _ r1 (ORepOpt r1 rev rev1) q s' OK I D E eq_refl eq_refl Ec eq_refl eq_refl); auto.
      intros n. cbn [count]. split; [auto|]. intros _. exists (S n). split; [lia|apply sums_maybe; lia].
    - (* RepeatableOptional *)
      assert (Cp : bindM (V r0) (fun r' => alloc (ORepOpt r' rr ro)) s = Some (Ok (q, s')) -> keeps s p q s').
      { intros K. eapply (visit_copy V s p _ r0 (fun r' => ORepOpt r' rr ro)); eauto. intros; constructor; assumption. }
      assert (One : forall r1, quantifier child = true -> children child = [r1] -> visit_new V (ORepOpt r1 rr ro) s = Some (Ok (q, s')) -> keeps s p q s').
      { intros r1 Qc Chc K. destruct (Two r0 child r1 eq_refl eq_refl Ec Qc Chc (Bd r0 child eq_refl eq_refl Ec Qc eq_refl Logic.I)) as (_ & Lc & Sc & S1).
        apply (merge V s p _ r0 _ r1 (ORepOpt r1 rr ro) q s' OK I D E eq_refl eq_refl Ec Qc Chc); auto. intros n. cbn [count]. split; [auto|].
        intros _. exists n. split; [exact Logic.I|apply sums_ones, loose_one; assumption]. }
      destruct child as [ps|rs|r1 rev1|r1 rev1|r1 rr1 ro1|r1 m1 rev1|r1 m1 rev1|r1 m1 n1 rev1|r1 n1|r1 i1|r1 rel1|d1| |pl1|ps1 a1|b1 ps1 a1|ts1 m1| |k1 ps1];
        try (apply Cp; exact H); apply (One r1 eq_refl eq_refl H).
    - (* Min *)
      assert (Cp : bindM (V r0) (fun r' => alloc (OMin r' m rev)) s = Some (Ok (q, s')) -> keeps s p q s').
      { intros K. eapply (visit_copy V s p _ r0 (fun r' => OMin r' m rev)); eauto. intros; constructor; assumption. }
      destruct child as [ps|rs|r1 rev1|r1 rev1|r1 rr1 ro1|r1 m1 rev1|r1 m1 rev1|r1 m1 n1 rev1|r1 n1|r1 i1|r1 rel1|d1| |pl1|ps1 a1|b1 ps1 a1|ts1 m1| |k1 ps1]; try (apply Cp; exact H); try discriminate.
      + apply (swap V s p _ r0 rev1 r1 (fun x => OMin x m rev) q s' OK I D eq_refl E); [|exact Ec|exact H]. intros x. cbn. repeat split; auto.
      + cbn [squash_bounded] in H. destruct (Two r0 _ r1 eq_refl eq_refl Ec eq_refl eq_refl (Bd r0 _ eq_refl eq_refl Ec eq_refl eq_refl Logic.I)) as (Lo & _ & _ & S1).
        apply (merge V s p _ r0 _ r1 (ORepeatable r1 rev1) q s' OK I D E eq_refl eq_refl Ec eq_refl eq_refl eq_refl Logic.I eq_refl eq_refl eq_refl (or_introl S1)); [|exact H]. intros x. split.
        * intros (k & A & B). apply sums_low in B; [apply count_low in A; [cbn; lia|reflexivity|exact Logic.I]|auto].
        * intros A. exists 1. split; [apply loose_one; assumption|apply sums_one, A].
    - (* Max *)
      assert (Cp : bindM (V r0) (fun r' => alloc (OMax r' m rev)) s = Some (Ok (q, s')) -> keeps s p q s').
      { intros K. eapply (visit_copy V s p _ r0 (fun r' => OMax r' m rev)); eauto. intros; constructor; assumption. }
      destruct child as [ps|rs|r1 rev1|r1 rev1|r1 rr1 ro1|r1 m1 rev1|r1 m1 rev1|r1 m1 n1 rev1|r1 n1|r1 i1|r1 rel1|d1| |pl1|ps1 a1|b1 ps1 a1|ts1 m1| |k1 ps1]; try (apply Cp; exact H); try discriminate.
      + apply (swap V s p _ r0 rev1 r1 (fun x => OMax x m rev) q s' OK I D eq_refl E); [|exact Ec|exact H]. intros x. cbn. repeat split; auto; lia.
      + cbn [squash_bounded] in H. destruct (Two r0 _ r1 eq_refl eq_refl Ec eq_refl eq_refl (Bd r0 _ eq_refl eq_refl Ec eq_refl eq_refl Logic.I)) as (Lo & _ & _ & S1).
        apply (merge V s p _ r0 _ r1 (ORepeatable r1 rev1) q s' OK I D E eq_refl eq_refl Ec eq_refl eq_refl eq_refl Logic.I eq_refl eq_refl eq_refl (or_introl S1)); [|exact H]. intros x. split.
        * intros (k & A & B). apply sums_low in B; [apply count_low in A; [cbn; lia|reflexivity|exact Logic.I]|auto].
        * intros A. exists 1. split; [apply loose_one; assumption|apply sums_one, A].
    - (* MinMax *)
      assert (Cp : bindM (V r0) (fun r' => alloc (OMinMax r' m n rev)) s = Some (Ok (q, s')) -> keeps s p q s').
      { intros K. eapply (visit_copy V s p _ r0 (fun r' => OMinMax r' m n rev)); eauto. intros; constructor; assumption. }
      destruct child as [ps|rs|r1 rev1|r1 rev1|r1 rr1 ro1|r1 m1 rev1|r1 m1 rev1|r1 m1 n1 rev1|r1 n1|r1 i1|r1 rel1|d1| |pl1|ps1 a1|b1 ps1 a1|ts1 m1| |k1 ps1]; try (apply Cp; exact H); try discriminate.
      + apply (swap V s p _ r0 rev1 r1 (fun x => OMinMax x m n rev) q s' OK I D eq_refl E); [|exact Ec|exact H]. intros x. cbn. repeat split; auto; lia.
      + cbn [squash_bounded] in H. destruct (Two r0 _ r1 eq_refl eq_refl Ec eq_refl eq_refl (Bd r0 _ eq_refl eq_refl Ec eq_refl eq_refl Logic.I)) as (Lo & _ & _ & S1).
        apply (merge V s p _ r0 _ r1 (ORepeatable r1 rev1) q s' OK I D E eq_refl eq_refl Ec eq_refl eq_refl eq_refl Logic.I eq_refl eq_refl eq_refl (or_introl S1)); [|exact H]. intros x. split.
        * intros (k & A & B). apply sums_low in B; [apply count_low in A; [cbn; lia|reflexivity|exact Logic.I]|auto].
        * intros A. exists 1. split; [apply loose_one; assumption|apply sums_one, A].
  Qed.
End Squash.

Section Pass.
  Context {pred pipe bnf : Type}.
  Notation obj := (obj pred pipe bnf).
  Notation heap := (heap pred pipe bnf).
  Variable pipe_bnf : pipe -> res bnf.
  Variable bnf_lines : bnf -> list (str * list pred).
  Notation closed kd := (closed pipe_bnf bnf_lines kd).

  Theorem squash_pass fuel (h : heap) root (G : nat -> Prop) r h' :
    graph plain nothing h G -> G root -> (forall p, G p -> mild h p) -> run_visit squash_method fuel h root = Some (Ok (r, h')) ->
    graph plain nothing h' (reach h' r) /\
    (forall kd, same (closed kd h root) (closed kd h' r)) /\
    (forall kd p, G p -> same (closed kd h p) (closed kd h' p)) /\
    (forall p o, nth_error h p = Some o -> is_forward o = false -> nth_error h' p = Some o) /\
    (forall o, nth_error h root = Some o -> exists o', nth_error h' r = Some o' /\ is_prod o' = is_prod o).
  Proof.
    intros Gr Groot Gm H. set (n0 := length h). set (s0 := mkState h []).
    unfold run_visit in H. fold s0 in H. destruct (transform_walk squash_method fuel root s0) as [[[r1 s2]|e]|] eqn:T; try discriminate.
    injection H as -> <-. unfold transform_walk in T. apply bind_ok in T as (u & s1 & T1 & T2).
    assert (Bound : forall p, G p -> p < length h).
    { intros p Gp. destruct (Gr p Gp) as (o & E & _). apply nth_error_Some. congruence. }
    assert (D0 : forall p, dom n0 G h p <-> G p).
    { intros p. split; [intros [L [K|K]]; [exact K|unfold n0 in K; lia]|intros K; split; [apply Bound, K|left; exact K]]. }
    assert (I0 : inv pipe_bnf bnf_lines n0 G s0).
    { constructor; [constructor; cbn|intros p q []].
      - reflexivity.
      - intros p Dp. destruct (Gr p (proj1 (D0 p) Dp)) as (o & E & A & S & C). exists o. split; [exact E|]. split; [exact A|]. split; [exact S|].
        intros c Hc. destruct (C c Hc) as [Gc K]. split; [apply D0, Gc|exact K].
      - intros p Dp. apply Gm, D0, Dp. }
    destruct (walk_ok pipe_bnf bnf_lines n0 G squash_method (squash_ok pipe_bnf bnf_lines n0 G) fuel fuel [root] [root] s0 u s1 I0) as (I1 & M1); auto.
    { intros x [<-|[]]. apply D0, Groot. }
    assert (Dr : dom n0 G (st_heap s1) root) by (apply (moved_dom pipe_bnf bnf_lines n0 G s0 s1 root M1), D0, Groot).
    destruct (visit_visit_ok pipe_bnf bnf_lines n0 G squash_method (squash_ok pipe_bnf bnf_lines n0 G) fuel root s1 r s2 I1 Dr T2) as (X & I2 & P).
    assert (M2 := moved_trans pipe_bnf bnf_lines n0 G _ _ _ M1 (ext_moved pipe_bnf bnf_lines n0 G s1 s2 I1 X)).
    assert (W : forall kd p, G p -> same (closed kd h p) (closed kd (st_heap s2) p)) by (intros kd p Gp; apply (moved_words _ _ _ _ _ _ M2), D0, Gp).
    split; [|split; [|split; [exact W|split]]].
    - assert (K : forall x, reach (st_heap s2) r x -> dom n0 G (st_heap s2) x).
      { intros x Rx. remember r as r0 eqn:Er. assert (Dr0 : dom n0 G (st_heap s2) r0) by (subst r0; apply P). clear Er P T2 T1 I1 Dr M1 M2 X W. induction Rx as [|r0 x o c Rx IH E Hc]; [exact Dr0|].
        specialize (IH Dr0). destruct (inv_graph _ _ _ (inv_heap _ _ _ _ _ I2) x IH) as (o' & E' & _ & _ & Co). rewrite E in E'. injection E' as <-. apply (Co c Hc). }
      intros x Rx. destruct (inv_graph _ _ _ (inv_heap _ _ _ _ _ I2) x (K x Rx)) as (o & E & A & S & C). exists o. split; [exact E|]. split; [exact A|]. split; [exact S|].
      intros c Hc. destruct (C c Hc) as (_ & K'). split; [apply (reach_step (st_heap s2) r x o c Rx E Hc)|exact K'].
    - intros kd. eapply same_trans; [apply W, Groot|]. eapply same_trans; [apply closed_open|]. eapply same_trans; [apply (pair_alike _ _ _ _ _ _ _ P)|]. apply same_sym, closed_open.
    - intros p o E F. apply (moved_get _ _ _ _ _ _ M2 p o E F).
    - intros o E. assert (E1 : exists o1, nth_error (st_heap s2) root = Some o1 /\ is_prod o1 = is_prod o).
      { destruct (is_forward o) eqn:F; [destruct o; try discriminate; destruct (moved_forward _ _ _ _ _ _ M2 root _ E) as (d' & E'); eexists; split; [exact E'|reflexivity]|].
        exists o. split; [apply (moved_get _ _ _ _ _ _ M2 root o E F)|reflexivity]. }
      destruct E1 as (o1 & E1 & X1). destruct (pair_form _ _ _ _ _ _ _ P o1 E1) as (o2 & E2 & X2 & _). exists o2. split; [exact E2|congruence].
  Qed.
End Pass.
