(** Two runs of a pass, with different keys in the visited dictionary. *)
From Verif Require Import Base EarleyModel SpanModel RuleModel RuleSpec RuleBuild RuleAddr.
Open Scope nat_scope.

Section Sim.
  Context {pred pipe bnf : Type}.
  Notation obj := (obj pred pipe bnf).
  Notation heap := (heap pred pipe bnf).
  Notation M := (M pred pipe bnf).
  Notation state := (state pred pipe bnf).
  Notation visitor := (visitor pred pipe bnf).
  Variable pipe_bnf : pipe -> res bnf.
  Variable bnf_lines : bnf -> list (str * list pred).
  Variable addr : nat -> nat.
  (** The objects visited, and what is known of the heap. *)
  Variable V : nat -> Prop.
  Variable Inv : heap -> Prop.
  Hypothesis distinct : forall p q, V p -> V q -> addr p = addr q -> p = q.
  Hypothesis inv_alloc : forall h o, Inv h -> Inv (h ++ [o]).
  Hypothesis inv_define : forall h f r, Inv h -> Inv (setitem h f (OForward (Some r))).
  Definition seen (p : nat) (o : obj) : Prop := exists h, Inv h /\ nth_error h p = Some o.
  Hypothesis closed : forall p o, V p -> seen p o -> is_forward o = false -> forall c, In c (children o) -> V c.

  Definition related (s s' : state) : Prop :=
    st_heap s = st_heap s' /\ Inv (st_heap s) /\ forall p, V p -> assoc (addr p) (st_visited s') = assoc p (st_visited s).
  Definition sim {A} (m m' : M A) : Prop := forall s s', related s s' ->
    match m s, m' s' with
    | Some (Ok (a, t)), Some (Ok (a', t')) => a = a' /\ related t t'
    | Some (Err e), Some (Err e') => e = e'
    | None, None => True
    | _, _ => False
    end.

  Lemma sim_ret {A} (a : A) : sim (ret a) (ret a).
  Proof. intros s s' R. cbn. auto. Qed.
  Lemma sim_raise {A} e : sim (raise (A := A) e) (raise e).
  Proof. intros s s' R. reflexivity. Qed.
  Lemma sim_no_fuel {A} : sim (no_fuel (A := A)) no_fuel.
  Proof. intros s s' R. exact I. Qed.
  Lemma sim_bind {A B} (m m' : M A) (f f' : A -> M B) : sim m m' -> (forall a, sim (f a) (f' a)) -> sim (bindM m f) (bindM m' f').
  Proof.
    intros S1 S2 s s' R. unfold bindM. specialize (S1 s s' R). destruct (m s) as [[[a t]|e]|], (m' s') as [[[a' t']|e']|]; try (destruct S1; fail); try exact S1.
    destruct S1 as [<- R1]. apply S2. exact R1.
  Qed.
  Lemma sim_alloc o : sim (alloc o) (alloc o).
  Proof. intros s s' (E & J & R). cbn. rewrite <- E. split; [reflexivity|]. split; [reflexivity|]. split; [apply inv_alloc, J|exact R]. Qed.
  Lemma sim_get {B} p (f f' : obj -> M B) : (forall o, seen p o -> sim (f o) (f' o)) -> sim (bindM (get p) f) (bindM (get p) f').
  Proof.
    intros S s s' R. pose proof R as (E & J & _). unfold bindM, get. rewrite <- E. destruct (nth_error (st_heap s) p) as [o|] eqn:Eo; [|reflexivity].
    apply S; [|exact R]. exists (st_heap s). auto.
  Qed.
  Lemma sim_put p o : (forall h, Inv h -> Inv (setitem h p o)) -> sim (put p o) (put p o).
  Proof. intros P s s' (E & J & R). cbn. rewrite <- E. split; [reflexivity|]. split; [reflexivity|]. split; [apply P, J|exact R]. Qed.
  Lemma sim_recall {B} p (f f' : option nat -> M B) : V p -> (forall known, sim (f known) (f' known)) -> sim (bindM (recall p) f) (bindM (recall (addr p)) f').
  Proof. intros Vp S s s' R. pose proof R as (_ & _ & A). unfold bindM, recall. rewrite (A p Vp). apply S, R. Qed.
  Lemma sim_define f r : sim (define f r) (define f r).
  Proof.
    unfold define. apply sim_get. intros o _. destruct (is_forward o); [apply sim_raise|]. apply sim_put. intros h. apply inv_define.
  Qed.
  Lemma sim_mapMM {A B} (f f' : A -> M B) l : (forall x, In x l -> sim (f x) (f' x)) -> sim (mapMM f l) (mapMM f' l).
  Proof.
    induction l as [|x l IH]; intros S; cbn; [apply sim_ret|]. apply sim_bind; [apply S; left; reflexivity|]. intros y. apply sim_bind; [apply IH; intros z Hz; apply S; right; exact Hz|]. intros ys. apply sim_ret.
  Qed.

  Definition method_sim (method : visitor -> nat -> obj -> M nat) : Prop :=
    forall v v' p o, (forall c, V c -> sim (v c) (v' c)) -> V p -> seen p o -> sim (method v p o) (method v' p o).
  Lemma sim_visit method : method_sim method -> forall fuel p, V p -> sim (visit method fuel p) (visit_at addr method fuel p).
  Proof.
    intros S fuel. induction fuel as [|fuel IH]; intros p Vp; cbn; [apply sim_no_fuel|].
    assert (K : sim (bindM (get p) (fun o => bindM (method (visit method fuel) p o) (fun r => bindM (remember p r) (fun _ => ret r))))
      (bindM (get p) (fun o => bindM (method (visit_at addr method fuel) p o) (fun r => bindM (remember (addr p) r) (fun _ => ret r))))).
    { apply sim_get. intros o So. apply sim_bind; [apply S; [intros c Vc; apply IH, Vc|exact Vp|exact So]|]. intros r. apply sim_bind; [|intros _; apply sim_ret].
      intros s s' (E & J & A). cbn. split; [reflexivity|]. split; [exact E|]. split; [exact J|]. intros q Vq. cbn.
      destruct (Nat.eqb_spec q p) as [->|N]; [rewrite Nat.eqb_refl; reflexivity|]. destruct (Nat.eqb_spec (addr q) (addr p)) as [K|_]; [destruct (N (distinct q p Vq Vp K))|]. apply A, Vq. }
    apply sim_recall; [exact Vp|]. intros [r|]; [apply sim_ret|exact K].
  Qed.

  (** ** The methods *)
  Definition term_in (t : term pred) : Prop := match t with TRule r => V r | TPred _ => True end.
  Lemma closed_terms p ts main : V p -> seen p (OProd ts main) -> forall t, In t ts -> term_in t.
  Proof.
    intros Vp So t Ht. destruct t as [r|x]; [|exact I]. apply (closed p _ Vp So eq_refl). cbn. apply in_flat_map. exists (TRule r). split; [exact Ht|left; reflexivity].
  Qed.
  Lemma sim_term v v' t : (forall c, V c -> sim (v c) (v' c)) -> term_in t -> sim (visit_term v t) (visit_term v' t).
  Proof. intros S T. destruct t as [r|x]; cbn; [|apply sim_ret]. apply sim_bind; [apply S, T|]. intros r'. apply sim_ret. Qed.

  Ltac child := match goal with
    | S : (forall c, V c -> sim _ _), Vp : V ?p, So : seen ?p _ |- sim (_ _) (_ _) => apply S; apply (closed p _ Vp So eq_refl); cbn; auto
    end.
  Lemma base_sim : method_sim base_method.
  Proof.
    intros v v' p o S Vp So. destruct o; cbn [base_method]; try apply sim_ret; try apply sim_raise.
    all: try (apply sim_bind; [child|intros r; apply sim_alloc]).
    all: try (apply sim_bind; [apply sim_mapMM; intros x Hx; child|intros r; apply sim_alloc]).
    apply sim_bind; [|intros ts; apply sim_alloc]. apply sim_mapMM. intros t Ht. apply sim_term; [exact S|]. apply (closed_terms p terms main Vp So t Ht).
  Qed.

  (** Either temporaries are visited too, or none are made. *)
  Hypothesis temporaries : (forall p, V p) \/
    forall p o c oc, V p -> seen p o -> quantifier o = true -> In c (children o) -> seen c oc -> quantifier oc = false.
  Lemma sim_new v v' o : (forall p, V p) -> (forall c, V c -> sim (v c) (v' c)) -> sim (visit_new v o) (visit_new v' o).
  Proof. intros All S. apply sim_bind; [apply sim_alloc|]. intros t. apply S, All. Qed.
  Lemma squash_sim : method_sim squash_method.
  Proof.
    intros v v' p o S Vp So. destruct (quantifier o) eqn:Q; [|destruct o; try discriminate; apply base_sim; auto].
    assert (C : forall c oc, In c (children o) -> seen c oc -> (forall p, V p) \/ quantifier oc = false).
    { intros c oc Hc Sc. destruct temporaries as [All|T]; [left; exact All|right]. apply (T p o c oc Vp So Q Hc Sc). }
    destruct o; try discriminate; cbn [squash_method]; apply sim_get; intros oc Sc; specialize (C _ oc (or_introl eq_refl) Sc); destruct oc;
      try (apply sim_bind; [child|intros r; apply sim_alloc]); try apply sim_raise; cbn [squash_bounded]; try apply sim_raise.
    all: try (destruct C as [All|C]; [|discriminate C]; apply (sim_new v v' _ All S)).
    all: destruct C as [All|C]; [|discriminate C]. all: apply sim_bind; [apply sim_alloc|intros t; apply (sim_new v v' _ All S)].
  Qed.

  Lemma sim_new_rule ts : sim (RuleModel.new_rule ts) (RuleModel.new_rule ts).
  Proof. apply sim_bind; [apply sim_alloc|]. intros q. apply sim_alloc. Qed.
  Lemma sim_max_bound item reverse : forall count, sim (max_bound item count reverse) (max_bound item count reverse).
  Proof.
    induction count as [|count IH]; [apply sim_no_fuel|]. cbn [max_bound]. destruct count as [|count]; [apply sim_ret|]. apply sim_bind; [exact IH|]. intros rest. apply sim_bind; [apply sim_new_rule|]. intros a. apply sim_alloc.
  Qed.
  Lemma sim_repeatable item reverse : sim (repeatable_rule item reverse) (repeatable_rule item reverse).
  Proof.
    unfold repeatable_rule. apply sim_bind; [apply sim_alloc|]. intros temp. apply sim_bind; [apply sim_new_rule|]. intros a. apply sim_bind; [apply sim_alloc|]. intros o. apply sim_bind; [apply sim_define|]. intros _. apply sim_ret.
  Qed.
  Lemma replace_extended_sim : method_sim replace_extended_method.
  Proof.
    intros v v' p o S Vp So. destruct o; try (apply base_sim; assumption); cbn [replace_extended_method]; (apply sim_bind; [child|intros r]).
    - apply sim_bind; [apply sim_alloc|]. intros a. apply sim_alloc.
    - apply sim_repeatable.
    - unfold repeatable_optional_rule. apply sim_bind; [apply sim_alloc|]. intros temp. apply sim_bind; [apply sim_alloc|]. intros a. apply sim_bind; [apply sim_new_rule|]. intros b. apply sim_bind; [apply sim_alloc|]. intros q. apply sim_bind; [apply sim_define|]. intros _. apply sim_ret.
    - apply sim_bind; [apply sim_repeatable|]. intros last. apply sim_new_rule.
    - apply sim_max_bound.
    - apply sim_bind; [apply sim_max_bound|]. intros last. apply sim_new_rule.
  Qed.
  Lemma replace_or_sim : method_sim replace_or_method.
  Proof.
    intros v v' p o S Vp So. destruct o; try (apply base_sim; assumption); cbn [replace_or_method]. apply sim_bind; [|intros ps; apply sim_alloc].
    apply sim_mapMM. intros r Hr. apply sim_bind; [child|]. intros r'. apply sim_alloc.
  Qed.
  Lemma replace_empty_sim : method_sim replace_empty_method.
  Proof.
    intros v v' p o S Vp So. destruct o; try (apply base_sim; assumption); cbn [replace_empty_method]. apply sim_bind; [apply sim_alloc|]. intros q. apply sim_alloc.
  Qed.
  Lemma flatten_term_sim v v' : (forall c, V c -> sim (v c) (v' c)) -> forall fuel t, term_in t -> sim (flatten_term fuel v t) (flatten_term fuel v' t).
  Proof.
    intros S fuel. induction fuel as [|fuel IH]; intros t T; cbn; [apply sim_no_fuel|]. destruct t as [r|x]; [|apply sim_ret]. apply sim_get. intros o So.
    assert (Default : sim (visit_term v (TRule r)) (visit_term v' (TRule r))) by (apply sim_term; assumption).
    destruct o as [[|q [|]]| | | | | | | | | | | | | | | | | |]; try exact Default. apply sim_get. intros q' Sq. destruct (production_terms q') as [|t' [|]] eqn:P; try exact Default.
    apply IH. assert (V q) as Vq by (apply (closed r _ T So eq_refl); left; reflexivity). destruct q'; try discriminate; cbn in P.
    - subst. apply (closed_terms q _ _ Vq Sq). left. reflexivity.
    - destruct terms; [discriminate|]. injection P as <- _. exact I.
  Qed.
  Lemma flatten_sim fuel : method_sim (flatten_method fuel).
  Proof.
    intros v v' p o S Vp So. destruct o as [| | | | | | | | | | | | | | | |ts main| |]; try (apply base_sim; assumption). cbn [flatten_method].
    assert (Default : sim (bindM (mapMM (flatten_term fuel v) ts) (fun ts' => alloc (OProd ts' main))) (bindM (mapMM (flatten_term fuel v') ts) (fun ts' => alloc (OProd ts' main)))).
    { apply sim_bind; [|intros ts'; apply sim_alloc]. apply sim_mapMM. intros t Ht. apply flatten_term_sim; [exact S|]. apply (closed_terms p ts main Vp So t Ht). }
    destruct ts as [|[r|x] [|]]; try exact Default. apply sim_get. intros o' So'. destruct o' as [[|q [|]]| | | | | | | | | | | | | | | | | |]; try exact Default.
    apply S. assert (V r) as Vr by (apply (closed_terms p _ _ Vp So (TRule r)); left; reflexivity). apply (closed r _ Vr So' eq_refl). left. reflexivity.
  Qed.
  (** Attributes are put on objects made by the pass. *)
  Hypothesis inv_attributes : forall h p o f, Inv h -> nth_error h p = Some o -> is_bnf o = true -> Inv (setitem h p (update_attributes f o)).
  Lemma lift_sim r : sim (lift r) (lift r).
  Proof. apply sim_bind; [apply sim_alloc|]. intros q. apply sim_alloc. Qed.
  Lemma wrapper_sim parents v v' r : (forall c, V c -> sim (v c) (v' c)) -> V r -> sim (visit_WrapperRule parents v r) (visit_WrapperRule parents v' r).
  Proof.
    intros S Vr. unfold visit_WrapperRule. apply sim_get. intros o _. destruct (is_forward o); [apply lift_sim|]. apply sim_bind; [unfold is_shared; destruct (count_occ Nat.eq_dec parents r); [apply sim_raise|apply sim_ret]|].
    intros shared. apply sim_bind; [apply S, Vr|]. intros r'. destruct shared; [apply lift_sim|apply sim_ret].
  Qed.
  Lemma set_attribute_sim present update r : sim (set_attribute present update r) (set_attribute present update r).
  Proof.
    unfold set_attribute. apply sim_get. intros o _. destruct (get_attributes o) as [a|]; [|apply sim_raise]. apply sim_bind; [destruct (present a); [apply lift_sim|apply sim_ret]|]. intros r'.
    intros s s' Rl. pose proof Rl as (E & J & R). unfold bindM, get. rewrite <- E. destruct (nth_error (st_heap s) r') as [o'|] eqn:Eo; [|reflexivity]. cbn. rewrite <- E. split; [reflexivity|]. split; [reflexivity|]. split; [|exact R].
    cbn. destruct (is_bnf o') eqn:B; [apply inv_attributes; assumption|]. assert (update_attributes update o' = o') as -> by (destruct o'; try reflexivity; discriminate). clear - J Eo.
    replace (setitem (st_heap s) r' o') with (st_heap s); [exact J|]. clear J. generalize dependent r'. induction (st_heap s) as [|x h IH]; intros [|p] E; cbn in *; try discriminate; [congruence|]. f_equal. apply IH, E.
  Qed.
  Lemma bnf_sim parents : method_sim (bnf_method pipe_bnf bnf_lines parents).
  Proof.
    intros v v' p o S Vp So. destruct o; try (apply base_sim; assumption); cbn [bnf_method]; try apply sim_raise.
    all: try (apply sim_bind; [apply sim_mapMM; intros x Hx; child|intros r; apply sim_alloc]).
    1-3: (apply sim_bind; [apply wrapper_sim; [exact S|apply (closed p _ Vp So eq_refl); left; reflexivity]|intros r; apply set_attribute_sim]).
    destruct (pipe_bnf pipeline) as [b|e]; [|apply sim_raise]. unfold new_pipeline. apply sim_bind; [|intros ps; apply sim_alloc]. apply sim_mapMM. intros x _. apply sim_alloc.
  Qed.
End Sim.
