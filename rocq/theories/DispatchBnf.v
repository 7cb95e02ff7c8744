(** What as_bnf accepts when the rule has not been normalized before. *)
From Verif Require Import Base SpanProofs TokenModel EarleyModel RuleModel DispatchModel DispatchSpec.
Open Scope nat_scope.

Section Accepts.
  Context {pred pipe bnf : Type}.
  Notation obj := (obj pred pipe bnf).
  Notation heap := (heap pred pipe bnf).
  Notation state := (state pred pipe bnf).
  Notation M := (M pred pipe bnf).
  Notation visitor := (visitor pred pipe bnf).
  Variable pipe_bnf : pipe -> res bnf.
  Variable bnf_lines : bnf -> list (str * list pred).
  Variable parents : list nat.
  Variable h0 : heap.
  Variable D : nat -> Prop.
  Hypothesis D_closed : forall p o c, D p -> nth_error h0 p = Some o -> In c (children o) -> D c.
  Hypothesis D_plain : forall p, D p -> exists o, nth_error h0 p = Some o /\ is_bnf o = false /\ is_forward o = false.

  Definition key (p : nat) (s : state) : Prop := assoc p (st_visited s) <> None.
  Definition rejected (o : obj) : Prop :=
    match o with OOr _ | OEmpty | OOptional _ _ | ORepeatable _ _ | ORepOpt _ _ _ => True | _ => False end.
  Record inv (s : state) : Prop := {
    inv_heap : forall p o, D p -> nth_error h0 p = Some o -> nth_error (st_heap s) p = Some o;
    inv_keys : forall p o, D p -> nth_error h0 p = Some o -> key p s -> ~ rejected o /\ forall c, In c (children o) -> key c s
  }.
  Definition grows (s s' : state) : Prop := forall p, key p s -> key p s'.
  (** The computation keeps the invariant and does not forget. *)
  Definition keeps {A} (x : M A) : Prop := forall s a s', inv s -> x s = Some (Ok (a, s')) -> inv s' /\ grows s s'.
  Definition good_visitor (v : visitor) : Prop :=
    forall p, D p -> forall s a s', inv s -> v p s = Some (Ok (a, s')) -> inv s' /\ grows s s' /\ key p s'.

  Lemma grows_refl s : grows s s.
  Proof. intros p H; exact H. Qed.
  Lemma grows_trans s s' s'' : grows s s' -> grows s' s'' -> grows s s''.
  Proof. intros H H' p K. apply H', H, K. Qed.

  Lemma keeps_bind {A B} (x : M A) (f : A -> M B) : keeps x -> (forall a, keeps (f a)) -> keeps (bindM x f).
  Proof.
    intros Hx Hf s b s' I0 E. unfold bindM in E. destruct (x s) as [[[a s1] | e] |] eqn:E1; try discriminate.
    destruct (Hx _ _ _ I0 E1) as [I1 G1]. destruct (Hf _ _ _ _ I1 E) as [I2 G2].
    split; [exact I2 | eapply grows_trans; eassumption].
  Qed.
  Lemma keeps_ret {A} (a : A) : keeps (ret a).
  Proof. intros s b s' I0 E. injection E as _ <-. split; [exact I0 | apply grows_refl]. Qed.
  Lemma keeps_raise {A} e : keeps (raise (A := A) e).
  Proof. intros s b s' I0 E. discriminate. Qed.
  Lemma keeps_get p : keeps (get p).
  Proof.
    intros s b s' I0 E. unfold get in E. destruct (nth_error (st_heap s) p); [| discriminate]. injection E as _ <-.
    split; [exact I0 | apply grows_refl].
  Qed.
  Lemma keeps_alloc (o : obj) : keeps (alloc o).
  Proof.
    intros s b s' I0 E. injection E as _ <-. split; [| intros p K; exact K].
    constructor; [| exact (inv_keys _ I0)]. cbn. intros p o' Hp Ep. rewrite nth_error_app1.
    - apply (inv_heap _ I0); assumption.
    - apply nth_error_Some. rewrite (inv_heap _ I0 _ _ Hp Ep). discriminate.
  Qed.
  Lemma keeps_map {A B} (f : A -> M B) l : (forall x, In x l -> keeps (f x)) -> keeps (mapMM f l).
  Proof.
    induction l as [| x l IH]; intros H; cbn [mapMM]; [apply keeps_ret |].
    apply keeps_bind; [apply H; left; reflexivity |]. intros y. apply keeps_bind; [| intros ys; apply keeps_ret].
    apply IH. intros x' Hx. apply H. right. exact Hx.
  Qed.
  Lemma keeps_visit v p : good_visitor v -> D p -> keeps (v p).
  Proof. intros G Hp s a s' I0 E. destruct (G p Hp s a s' I0 E) as (I1 & G1 & _). split; assumption. Qed.
  Lemma keeps_lift r : keeps (lift r).
  Proof. unfold lift. apply keeps_bind; [apply keeps_alloc |]. intros q. apply keeps_alloc. Qed.
  Lemma keeps_shared r : keeps (is_shared (pred := pred) (pipe := pipe) (bnf := bnf) parents r).
  Proof. unfold is_shared. destruct (count_occ Nat.eq_dec parents r); [apply keeps_raise | apply keeps_ret]. Qed.

  (** Attributes are set on BNF rules, which are new. *)
  Lemma keeps_set present update r : keeps (set_attribute (pred := pred) (pipe := pipe) (bnf := bnf) present update r).
  Proof.
    assert (P : forall r', keeps (bindM (get r') (fun o' =>
      match get_attributes o' with None => raise AttributeError | Some _ => bindM (put r' (update_attributes update o')) (fun _ => ret r') end))).
    { intros r' s a s' I0 E. unfold bindM at 1 in E. destruct (get r' s) as [[[o s1] | e] |] eqn:G; try discriminate.
      unfold get in G. destruct (nth_error (st_heap s) r') as [o' |] eqn:Er; [| discriminate]. injection G as -> <-.
      destruct (get_attributes o) as [at_ |] eqn:At; [| discriminate]. injection E as _ <-.
      split; [| intros p K; exact K]. constructor; [| exact (inv_keys _ I0)]. cbn. intros p op Hp Ep.
      destruct (Nat.eq_dec p r') as [-> | N].
      - exfalso. destruct (D_plain _ Hp) as (o2 & E2 & B2 & _). assert (op = o2) by congruence. subst o2.
        rewrite (inv_heap _ I0 _ _ Hp Ep) in Er. injection Er as <-. destruct op; discriminate.
      - rewrite setitem_other by auto. apply (inv_heap _ I0); assumption. }
    intros s a s' I0 E. unfold set_attribute in E. unfold bindM at 1 in E.
    destruct (get r s) as [[[o s1] | e] |] eqn:G; try discriminate.
    destruct (keeps_get _ _ _ _ I0 G) as [I1 G1].
    destruct (get_attributes o) as [at_ |] eqn:At; [| discriminate].
    unfold bindM at 1 in E.
    destruct ((if present at_ then lift r else ret r) s1) as [[[r' s2] | e] |] eqn:L; try discriminate.
    assert (K2 : inv s2 /\ grows s1 s2) by (destruct (present at_); [exact (keeps_lift _ _ _ _ I1 L) | exact (keeps_ret _ _ _ _ I1 L)]).
    destruct K2 as [I2 G2].
    destruct (P r' s2 a s' I2) as [I3 G3].
    - unfold bindM at 1 in E. unfold bindM at 1. destruct (get r' s2) as [[[o' s3] | e] |] eqn:Gr; try discriminate.
      destruct (get_attributes o') eqn:At'; [exact E |]. exfalso.
      assert (at_ = at_ /\ get_attributes o' <> None) as [_ N]; [| congruence]. split; [reflexivity |].
      unfold get in Gr, G. destruct (nth_error (st_heap s2) r') as [x |] eqn:Ex; [| discriminate]. injection Gr as -> <-.
      destruct (nth_error (st_heap s) r) as [y |] eqn:Ey; [| discriminate]. injection G as -> <-.
      destruct (present at_).
      + unfold lift, bindM, alloc in L. cbn in L. injection L as <- <-. cbn in Ex.
        rewrite nth_error_app2 in Ex by (rewrite app_length; cbn; lia).
        rewrite app_length in Ex. cbn in Ex. rewrite Nat.sub_diag in Ex. injection Ex as <-. discriminate.
      + injection L as <- <-. assert (o' = o) by congruence. subst o'. congruence.
    - split; [exact I3 |]. eapply grows_trans; [exact G1 |]. eapply grows_trans; eassumption.
  Qed.

  (** ** What has been visited after a method *)
  Definition after {A} (x : M A) (P : state -> Prop) : Prop :=
    forall s a s', inv s -> x s = Some (Ok (a, s')) -> inv s' /\ grows s s' /\ P s'.
  Lemma after_bind {A B} (x : M A) (f : A -> M B) (P : state -> Prop) :
    (forall s s', P s -> grows s s' -> P s') -> after x P -> (forall a, keeps (f a)) -> after (bindM x f) P.
  Proof.
    intros Mono Hx Hf s b s' I0 E. unfold bindM in E. destruct (x s) as [[[a s1] | e] |] eqn:E1; try discriminate.
    destruct (Hx _ _ _ I0 E1) as (I1 & G1 & P1). destruct (Hf _ _ _ _ I1 E) as [I2 G2].
    split; [exact I2 |]. split; [eapply grows_trans; eassumption | eapply Mono; eassumption].
  Qed.
  Lemma before_bind {A B} (x : M A) (f : A -> M B) P : keeps x -> (forall a, after (f a) P) -> after (bindM x f) P.
  Proof.
    intros Hx Hf s b s' I0 E. unfold bindM in E. destruct (x s) as [[[a s1] | e] |] eqn:E1; try discriminate.
    destruct (Hx _ _ _ I0 E1) as (I1 & G1). destruct (Hf _ _ _ _ I1 E) as (I2 & G2 & P2).
    split; [exact I2 |]. split; [eapply grows_trans; eassumption | exact P2].
  Qed.
  Definition all_keys (l : list nat) (s : state) : Prop := forall c, In c l -> key c s.
  Lemma all_keys_mono l s s' : all_keys l s -> grows s s' -> all_keys l s'.
  Proof. intros H G c Hc. apply G, H, Hc. Qed.
  Lemma after_one v r : good_visitor v -> D r -> after (v r) (all_keys [r]).
  Proof.
    intros Gv Hr s a s' I0 E. destruct (Gv r Hr s a s' I0 E) as (I1 & G1 & K1). split; [exact I1 |]. split; [exact G1 |].
    intros c [<- | []]. exact K1.
  Qed.
  Lemma after_map {A B} (f : A -> M B) (targets : A -> list nat) l :
    (forall x, In x l -> after (f x) (all_keys (targets x))) -> after (mapMM f l) (all_keys (flat_map targets l)).
  Proof.
    induction l as [| x l IH]; intros H; cbn [mapMM flat_map].
    - intros s a s' I0 E. injection E as _ <-. split; [exact I0 |]. split; [apply grows_refl | intros c []].
    - intros s a s' I0 E. unfold bindM at 1 in E. destruct (f x s) as [[[y s1] | e] |] eqn:E1; try discriminate.
      destruct (H x (or_introl eq_refl) _ _ _ I0 E1) as (I1 & G1 & K1).
      unfold bindM at 1 in E. destruct (mapMM f l s1) as [[[ys s2] | e] |] eqn:E2; try discriminate.
      destruct (IH (fun x' Hx => H x' (or_intror Hx)) _ _ _ I1 E2) as (I2 & G2 & K2). injection E as _ <-.
      split; [exact I2 |]. split; [eapply grows_trans; eassumption |].
      intros c Hc. apply in_app_or in Hc. destruct Hc as [Hc | Hc]; [apply G2, K1, Hc | apply K2, Hc].
  Qed.
  Lemma after_visits v l : good_visitor v -> (forall c, In c l -> D c) -> after (mapMM v l) (all_keys l).
  Proof.
    intros Gv Hl. assert (E : flat_map (fun c => [c]) l = l) by (induction l as [| c l IH]; [reflexivity | cbn; f_equal; apply IH; intros; apply Hl; right; assumption]).
    rewrite <- E at 2. apply after_map. intros x Hx. apply after_one; auto.
  Qed.
  Lemma after_wrapper v r : good_visitor v -> D r -> after (visit_WrapperRule parents v r) (all_keys [r]).
  Proof.
    intros Gv Hr s a s' I0 E. unfold visit_WrapperRule in E. unfold bindM at 1 in E.
    destruct (get r s) as [[[o s1] | e] |] eqn:G; try discriminate.
    unfold get in G. destruct (D_plain _ Hr) as (o0 & E0 & _ & F0). rewrite (inv_heap _ I0 _ _ Hr E0) in G.
    injection G as <- <-. rewrite F0 in E. revert s a s' I0 E.
    apply before_bind; [apply keeps_shared |]. intros sh.
    apply after_bind; [intros ? ?; apply all_keys_mono | apply after_one; assumption |].
    intros r'. destruct sh; [apply keeps_lift | apply keeps_ret].
  Qed.

  Lemma method_after v p o : good_visitor v -> D p -> nth_error h0 p = Some o ->
    after (bnf_method pipe_bnf bnf_lines parents v p o) (fun s => ~ rejected o /\ all_keys (children o) s).
  Proof.
    intros Gv Hp Ep. assert (Ch : forall c, In c (children o) -> D c) by (intros c Hc; eapply D_closed; eassumption).
    destruct (D_plain _ Hp) as (o0 & E0 & B0 & F0). assert (o0 = o) by congruence. subst o0.
    assert (Split : forall x : M nat, ~ rejected o -> after x (all_keys (children o)) -> after x (fun s => ~ rejected o /\ all_keys (children o) s)).
    { intros x N H s a s' I0 E. destruct (H s a s' I0 E) as (I1 & G1 & K1). split; [exact I1 |]. split; [exact G1 | split; assumption]. }
    destruct o; try discriminate B0; try discriminate F0; cbn [bnf_method base_method];
      try (intros s a s' I0 E; discriminate E);
      (apply Split; [intros [] |]); cbn [children] in *.
    - apply after_bind; [intros ? ?; apply all_keys_mono | apply after_visits; assumption | intros; apply keeps_alloc].
    - apply after_bind; [intros ? ?; apply all_keys_mono | apply after_one; [assumption | apply Ch; left; reflexivity] | intros; apply keeps_alloc].
    - apply after_bind; [intros ? ?; apply all_keys_mono | apply after_one; [assumption | apply Ch; left; reflexivity] | intros; apply keeps_alloc].
    - apply after_bind; [intros ? ?; apply all_keys_mono | apply after_one; [assumption | apply Ch; left; reflexivity] | intros; apply keeps_alloc].
    - apply after_bind; [intros ? ?; apply all_keys_mono | apply after_wrapper; [assumption | apply Ch; left; reflexivity] | intros; apply keeps_set].
    - apply after_bind; [intros ? ?; apply all_keys_mono | apply after_wrapper; [assumption | apply Ch; left; reflexivity] | intros; apply keeps_set].
    - apply after_bind; [intros ? ?; apply all_keys_mono | apply after_wrapper; [assumption | apply Ch; left; reflexivity] | intros; apply keeps_set].
    - assert (K : keeps (match pipe_bnf pipeline with Ok b => new_pipeline bnf_lines b | Err e => raise e end)).
      { destruct (pipe_bnf pipeline) as [b | e]; [| apply keeps_raise]. unfold new_pipeline.
        apply keeps_bind; [apply keeps_map; intros; apply keeps_alloc | intros; apply keeps_alloc]. }
      intros s a s' I0 E. destruct (K s a s' I0 E) as [I1 G1]. split; [exact I1 |]. split; [exact G1 | intros c []].
    - unfold visit_Production. apply after_bind; [intros ? ?; apply all_keys_mono | | intros; apply keeps_alloc].
      unfold rule_terms. apply after_map. intros t Ht. destruct t as [r | x]; cbn [visit_term].
      + apply after_bind; [intros ? ?; apply all_keys_mono | apply after_one; [assumption |] | intros; apply keeps_ret].
        apply Ch. unfold rule_terms. apply in_flat_map. exists (TRule r). split; [exact Ht | left; reflexivity].
      + intros s a s' I0 E. injection E as _ <-. split; [exact I0 |]. split; [apply grows_refl | intros c []].
    - intros s a s' I0 E. injection E as _ <-. split; [exact I0 |]. split; [apply grows_refl | intros c []].
    - intros s a s' I0 E. injection E as _ <-. split; [exact I0 |]. split; [apply grows_refl | intros c []].
  Qed.

  Lemma visit_good : forall n, good_visitor (visit (bnf_method pipe_bnf bnf_lines parents) n).
  Proof.
    induction n as [| n IH]; intros p Hp s a s' I0 E; [discriminate |]. cbn [visit] in E. unfold bindM at 1, recall in E.
    destruct (assoc p (st_visited s)) as [r |] eqn:A.
    - injection E as _ <-. split; [exact I0 |]. split; [apply grows_refl |]. unfold key. rewrite A. discriminate.
    - destruct (D_plain _ Hp) as (o & Eo & _). unfold bindM at 1, get in E. rewrite (inv_heap _ I0 _ _ Hp Eo) in E.
      unfold bindM at 1 in E.
      destruct (bnf_method pipe_bnf bnf_lines parents (visit (bnf_method pipe_bnf bnf_lines parents) n) p o s) as [[[r s1] | e] |] eqn:Em; try discriminate.
      destruct (method_after _ p o IH Hp Eo _ _ _ I0 Em) as (I1 & G1 & N1 & K1). injection E as _ <-.
      assert (G2 : grows s1 (mkState (st_heap s1) ((p, r) :: st_visited s1))).
      { intros q K. unfold key in *. cbn. destruct (Nat.eqb q p); [discriminate | exact K]. }
      split.
      + constructor; [exact (inv_heap _ I1) |]. intros q oq Hq Eq Kq. unfold key in Kq. cbn in Kq.
        destruct (Nat.eqb q p) eqn:Q.
        * apply Nat.eqb_eq in Q. subst q. assert (oq = o) by congruence. subst oq.
          split; [exact N1 |]. intros c Hc. apply G2, K1, Hc.
        * destruct (inv_keys _ I1 _ _ Hq Eq Kq) as [N C]. split; [exact N |]. intros c Hc. apply G2, C, Hc.
      + split; [eapply grows_trans; eassumption |]. unfold key. cbn. rewrite Nat.eqb_refl. discriminate.
  Qed.
End Accepts.

Section Rejects.
  Context {pred pipe bnf : Type}.
  Notation heap := (heap pred pipe bnf).
  Variable pipe_bnf : pipe -> res bnf.
  Variable bnf_lines : bnf -> list (str * list pred).

  (** Without forward rules the walk before the visit does nothing. *)
  Lemma walk_nothing (h0 : heap) (D : nat -> Prop) m n :
    (forall p o c, D p -> nth_error h0 p = Some o -> In c (children o) -> D c) ->
    (forall p, D p -> exists o, nth_error h0 p = Some o /\ is_bnf o = false /\ is_forward o = false) ->
    forall k queue visited u s s', st_heap s = h0 -> (forall x, In x queue -> D x) ->
      walk_loop k (define_visited m n) queue visited s = Some (Ok (u, s')) -> s' = s.
  Proof.
    intros Cl Pl. induction k as [| k IH]; intros queue visited u s s' Hh Hq E; destruct queue as [| x queue]; cbn [walk_loop] in E;
      try discriminate; try (injection E as _ <-; reflexivity).
    destruct (Pl x (Hq x (or_introl eq_refl))) as (o & Eo & _ & Fo).
    assert (Act : define_visited m n x s = Some (Ok (tt, s))).
    { unfold define_visited, bindM, get. rewrite Hh, Eo. destruct o; try discriminate Fo; reflexivity. }
    unfold bindM at 1 in E. rewrite Act in E. unfold bindM, get in E. rewrite Hh, Eo in E.
    destruct (enqueue (children o) queue visited) as [q' v'] eqn:En. eapply IH; [exact Hh | | exact E].
    intros y Hy. assert (Sub : forall cs q v q1 v1, enqueue cs q v = (q1, v1) -> forall y, In y q1 -> In y q \/ In y cs).
    { clear. induction cs as [| c cs IH]; intros q v q1 v1 E y Hy; cbn in E.
      - injection E as <- _. left. exact Hy.
      - destruct (is_in c v).
        + destruct (IH _ _ _ _ E y Hy) as [H | H]; [left; exact H | right; right; exact H].
        + destruct (IH _ _ _ _ E y Hy) as [H | H]; [| right; right; exact H].
          apply in_app_or in H. destruct H as [H | [<- | []]]; [left; exact H | right; left; reflexivity]. }
    destruct (Sub _ _ _ _ _ En y Hy) as [H | H]; [apply Hq; right; exact H |].
    eapply Cl; [apply Hq; left; reflexivity | exact Eo | exact H].
  Qed.

  Lemma to_bnf_rejects : forall fuel (h : heap) root r h',
    (forall p, part_of h root p -> exists o, nth_error h p = Some o /\ is_bnf o = false /\ is_forward o = false) ->
    to_bnf pipe_bnf bnf_lines fuel h root = Some (Ok (r, h')) ->
    forall p o, part_of h root p -> nth_error h p = Some o -> not_normal o -> with_bounds o.
  Proof.
    intros fuel h root r h' Pl E p o Hp Ep N. unfold to_bnf in E. destruct (bfs fuel h root) as [objects |]; [| discriminate].
    unfold run_visit, transform_walk in E. set (m := bnf_method pipe_bnf bnf_lines (count_parents h objects)) in *.
    unfold bindM at 1 in E. destruct (walk fuel (define_visited m fuel) root (mkState h [])) as [[[u s1] | e] |] eqn:W; try discriminate.
    assert (Cl : forall q oq c, part_of h root q -> nth_error h q = Some oq -> In c (children oq) -> part_of h root c)
      by (intros q oq c Hq Eq Hc; eapply part_child; eassumption).
    unfold walk in W. eapply (walk_nothing h (part_of h root)) in W; [| exact Cl | exact Pl | reflexivity |
      intros x [<- | []]; constructor]. subst s1.
    destruct (visit m fuel root (mkState h [])) as [[[r1 s2] | e] |] eqn:V; try discriminate.
    assert (I0 : inv h (part_of h root) (mkState h [])).
    { constructor; [intros; assumption |]. intros q oq _ _ K. exfalso. apply K. reflexivity. }
    destruct (visit_good pipe_bnf bnf_lines (count_parents h objects) h (part_of h root) Cl Pl fuel root (part_root h root) _ _ _ I0 V)
      as (I1 & _ & K1).
    assert (All : forall q, part_of h root q -> key q s2).
    { intros q Hq. induction Hq as [| q oq c Hq IH Eq Hc]; [exact K1 |].
      destruct (inv_keys _ _ _ I1 q oq Hq Eq IH) as [_ C]. apply C. exact Hc. }
    destruct (inv_keys _ _ _ I1 p o Hp Ep (All p Hp)) as [R _].
    destruct o; cbn in *; tauto.
  Qed.
End Rejects.
