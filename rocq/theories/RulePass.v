(** What a pass of a RuleTransformator preserves. *)
From Verif Require Import Base EarleyModel RuleModel RuleSpec RuleWords RuleLike.
Open Scope nat_scope.

Section Graphs.
  Context {pred pipe bnf : Type}.
  Notation obj := (obj pred pipe bnf).
  Notation heap := (heap pred pipe bnf).
  Definition is_prod (o : obj) : bool := match o with OProd _ _ | OEmptyProd | OPipeProd _ _ => true | _ => false end.
  Definition has_prods (o : obj) : bool := match o with ORule _ | OBNF _ _ | OPipeBNF _ _ _ => true | _ => false end.
  Definition atomic (o : obj) : bool := match o with OForward _ | OEmpty | OPipeline _ | OEmptyProd => true | _ => false end.
  Definition shape (o : obj) : Prop :=
    match o with
    | OProd ts main => main = 0 \/ main < length ts
    | OMin _ m _ => 1 <= m
    | OMax _ m _ => 1 <= m
    | OMinMax _ m n _ => 1 <= m /\ m <= n
    | _ => True
    end.
  Definition is_quant (o : obj) : bool :=
    match o with OOptional _ _ | ORepeatable _ _ | ORepOpt _ _ _ | OMin _ _ _ | OMax _ _ _ | OMinMax _ _ _ _ => true | _ => false end.
  Definition node (allowed special : obj -> bool) (h : heap) (G : nat -> Prop) (o : obj) : Prop :=
    allowed o = true /\ shape o /\
    forall c, In c (children o) -> G c /\ exists oc, nth_error h c = Some oc /\ is_prod oc = has_prods o /\ (special o = true -> special oc = false).
  Definition graph (allowed special : obj -> bool) (h : heap) (G : nat -> Prop) : Prop :=
    forall p, G p -> exists o, nth_error h p = Some o /\ node allowed special h G o.
End Graphs.

Section Monad.
  Context {pred pipe bnf : Type}.
  Notation M := (M pred pipe bnf).
  Notation state := (state pred pipe bnf).
  Lemma bind_ok {A B} (x : M A) (f : A -> M B) s b s' : bindM x f s = Some (Ok (b, s')) ->
    exists a s1, x s = Some (Ok (a, s1)) /\ f a s1 = Some (Ok (b, s')).
  Proof. unfold bindM. destruct (x s) as [[[a s1]|e]|]; try discriminate. intros H. exists a, s1. auto. Qed.
  Lemma get_ok p (s : state) o s' : get p s = Some (Ok (o, s')) -> nth_error (st_heap s) p = Some o /\ s' = s.
  Proof. unfold get. destruct (nth_error (st_heap s) p) as [o'|]; [|discriminate]. intros H. injection H as -> ->. auto. Qed.
  Lemma get_eq p (s : state) o : nth_error (st_heap s) p = Some o -> get p s = Some (Ok (o, s)).
  Proof. unfold get. intros ->. reflexivity. Qed.
  Lemma ret_ok {A} (a : A) (s : state) b s' : ret a s = Some (Ok (b, s')) -> b = a /\ s' = s.
  Proof. unfold ret. intros H. injection H as -> ->. auto. Qed.
  Lemma nth_new {A} (h : list A) o t : nth_error (h ++ o :: t) (length h) = Some o.
  Proof. rewrite nth_error_app2 by lia. rewrite Nat.sub_diag. reflexivity. Qed.
  Lemma nth_old {A} (h t : list A) p o : nth_error h p = Some o -> nth_error (h ++ t) p = Some o.
  Proof. intros E. rewrite nth_error_app1; [exact E|]. apply nth_error_Some. congruence. Qed.
End Monad.
Ltac inv_bind H := apply bind_ok in H; destruct H as (? & ? & ? & H).

Section Pass.
  Context {pred pipe bnf : Type}.
  Notation obj := (obj pred pipe bnf).
  Notation heap := (heap pred pipe bnf).
  Notation M := (M pred pipe bnf).
  Notation state := (state pred pipe bnf).
  Notation visitor := (visitor pred pipe bnf).
  Variable pipe_bnf : pipe -> res bnf.
  Variable bnf_lines : bnf -> list (str * list pred).
  Notation like := (like pipe_bnf bnf_lines).
  Notation like2 := (like2 pipe_bnf bnf_lines).
  Variables allowed produced special : obj -> bool.
  Hypothesis produced_allowed : forall o, produced o = true -> allowed o = true.
  Hypothesis produced_forward : forall d, produced (OForward d) = true.
  Hypothesis special_forward : forall d, special (OForward d) = false.
  Variable n0 : nat.
  Variable G : nat -> Prop.

  Definition old (p : nat) : bool := p <? n0.
  Definition all (p : nat) : bool := true.
  Definition dom (h : heap) (p : nat) : Prop := p < length h /\ (G p \/ n0 <= p).
  Definition clean (h : heap) (p : nat) : Prop := n0 <= p \/ exists o, nth_error h p = Some o /\ atomic o = true /\ produced o = true.

  Record pair (h : heap) (p r : nat) : Prop := {
    pair_dom : dom h r;
    pair_clean : clean h r;
    pair_form : forall o, nth_error h p = Some o -> exists o', nth_error h r = Some o' /\ is_prod o' = is_prod o /\ special o' = special o;
    pair_old : like old h p r;
    pair_all : clean h p -> like all h p r }.

  Record heap_inv (h : heap) : Prop := {
    inv_size : n0 <= length h;
    inv_graph : graph allowed special h (dom h);
    inv_new : forall p o, n0 <= p -> nth_error h p = Some o -> produced o = true /\ forall c, In c (children o) -> clean h c }.
  Record inv (s : state) : Prop := {
    inv_heap : heap_inv (st_heap s);
    inv_visited : forall p r, In (p, r) (st_visited s) -> dom (st_heap s) p /\ pair (st_heap s) p r }.

  Definition ext (s s' : state) : Prop := exists t, st_heap s' = st_heap s ++ t.
  Lemma ext_refl s : ext s s. Proof. exists []. symmetry. apply app_nil_r. Qed.
  Lemma ext_trans s s1 s2 : ext s s1 -> ext s1 s2 -> ext s s2.
  Proof. intros [t E] [t' E']. exists (t ++ t'). rewrite E', E, app_assoc. reflexivity. Qed.
  Lemma ext_get s s' p o : ext s s' -> nth_error (st_heap s) p = Some o -> nth_error (st_heap s') p = Some o.
  Proof. intros [t ->]. apply nth_old. Qed.

  Lemma dom_get h p : dom h p -> exists o, nth_error h p = Some o.
  Proof. intros [L _]. destruct (nth_error h p) eqn:E; [eauto|]. apply nth_error_None in E. lia. Qed.
  Lemma dom_app h t p : dom h p -> dom (h ++ t) p.
  Proof. intros [L D]. split; [rewrite app_length; lia|exact D]. Qed.
  Lemma clean_app h t p : clean h p -> clean (h ++ t) p.
  Proof. intros [N|(o & E & A)]; [left; exact N|right; exists o; split; [apply nth_old, E|exact A]]. Qed.
  Lemma clean_app_inv h t p : p < length h -> clean (h ++ t) p -> clean h p.
  Proof. intros L [N|(o & E & A)]; [left; exact N|right; exists o; split; [rewrite nth_error_app1 in E by lia; exact E|exact A]]. Qed.

  (** Extending the heap changes nothing for what is there. *)
  Lemma like_app opaque h t p : heap_inv h -> dom h p -> like2 opaque h p opaque (h ++ t) p.
  Proof.
    intros I D. apply closed_like with (G := dom h); [|exact D]. intros q Dq. destruct (inv_graph h I q Dq) as (o & E & _ & _ & C).
    exists o. split; [exact E|]. split; [apply nth_old, E|]. intros c Hc. apply (C c Hc).
  Qed.
  Lemma like_app2 opaque h t p r : heap_inv h -> dom h p -> dom h r -> like opaque h p r -> like opaque (h ++ t) p r.
  Proof.
    intros I Dp Dr L. eapply like2_trans; [apply like2_sym, like_app; assumption|]. eapply like2_trans; [exact L|]. apply like_app; assumption.
  Qed.
  Lemma pair_app h t p r : heap_inv h -> dom h p -> pair h p r -> pair (h ++ t) p r.
  Proof.
    intros I Dp [D C F O A]. constructor.
    - apply dom_app, D.
    - apply clean_app, C.
    - intros o E. destruct (dom_get h p Dp) as (o1 & E1). rewrite (nth_old h t p o1 E1) in E. injection E as <-.
      destruct (F o1 E1) as (o' & E' & K). exists o'. split; [apply nth_old, E'|exact K].
    - apply like_app2; assumption.
    - intros Cp. apply like_app2; try assumption. apply A. destruct Dp as [L _]. apply (clean_app_inv h t p L Cp).
  Qed.

  Lemma node_app h t (o : obj) : node allowed special h (dom h) o -> node allowed special (h ++ t) (dom (h ++ t)) o.
  Proof.
    intros (A & S & C). split; [exact A|]. split; [exact S|]. intros c Hc. destruct (C c Hc) as (D & oc & E & K).
    split; [apply dom_app, D|]. exists oc. split; [apply nth_old, E|exact K].
  Qed.
  Lemma heap_inv_app h t : heap_inv h ->
    (forall o, In o t -> produced o = true /\ node allowed special (h ++ t) (dom (h ++ t)) o /\ forall c, In c (children o) -> clean (h ++ t) c) ->
    heap_inv (h ++ t).
  Proof.
    intros I H. constructor.
    - rewrite app_length. pose proof (inv_size h I). lia.
    - intros p [L D]. destruct (Nat.lt_ge_cases p (length h)) as [L'|L'].
      + destruct (inv_graph h I p (conj L' D)) as (o & E & N). exists o. split; [apply nth_old, E|apply node_app, N].
      + destruct (nth_error (h ++ t) p) as [o|] eqn:E; [|apply nth_error_None in E; lia].
        exists o. split; [reflexivity|]. rewrite nth_error_app2 in E by lia. apply (H o (nth_error_In _ _ E)).
    - intros p o N E. destruct (Nat.lt_ge_cases p (length h)) as [L'|L'].
      + rewrite nth_error_app1 in E by lia. destruct (inv_new h I p o N E) as [P C]. split; [exact P|]. intros c Hc. apply clean_app, C, Hc.
      + rewrite nth_error_app2 in E by lia. destruct (H o (nth_error_In _ _ E)) as (P & _ & C). auto.
  Qed.
  Lemma inv_app s t : inv s -> heap_inv (st_heap s ++ t) -> inv (mkState (st_heap s ++ t) (st_visited s)).
  Proof.
    intros [I V] I'. constructor; [exact I'|]. intros p r H. destruct (V p r H) as [D P]. cbn. split; [apply dom_app, D|apply pair_app; auto].
  Qed.
  Lemma new_dom h t p : n0 <= length h -> length h <= p -> p < length (h ++ t) -> dom (h ++ t) p.
  Proof. intros A B C. split; [exact C|right; lia]. Qed.
  Lemma new_clean h t p : n0 <= length h -> length h <= p -> clean (h ++ t) p.
  Proof. intros A B. left. lia. Qed.

  (** ** Visiting *)
  Definition keeps (s : state) (p r : nat) (s' : state) : Prop := ext s s' /\ inv s' /\ pair (st_heap s') p r.
  Definition visit_ok (V : visitor) : Prop :=
    forall p s r s', inv s -> dom (st_heap s) p -> V p s = Some (Ok (r, s')) -> keeps s p r s'.
  Definition method_ok (method : visitor -> nat -> obj -> M nat) : Prop :=
    forall V, visit_ok V -> forall p o s r s', inv s -> dom (st_heap s) p -> nth_error (st_heap s) p = Some o ->
    method V p o s = Some (Ok (r, s')) -> keeps s p r s'.

  Lemma ext_dom s s' p : ext s s' -> dom (st_heap s) p -> dom (st_heap s') p.
  Proof. intros [t ->]. apply dom_app. Qed.
  Lemma ext_pair s s' p r : inv s -> ext s s' -> dom (st_heap s) p -> pair (st_heap s) p r -> pair (st_heap s') p r.
  Proof. intros I [t ->] D P. apply pair_app; [apply inv_heap, I|exact D|exact P]. Qed.

  Lemma assoc_in {B} k (l : list (nat * B)) v : assoc k l = Some v -> In (k, v) l.
  Proof.
    induction l as [|[k' v'] l IH]; cbn; [discriminate|]. destruct (Nat.eqb k k') eqn:E; [|auto].
    apply Nat.eqb_eq in E as ->. intros H. injection H as ->. auto.
  Qed.

  Section Method.
    Variable method : visitor -> nat -> obj -> M nat.
    Hypothesis ok : method_ok method.
    Lemma visit_visit_ok fuel : visit_ok (visit method fuel).
    Proof.
      induction fuel as [|fuel IH]; intros p s r s' I D H; [discriminate|]. cbn [visit] in H.
      apply bind_ok in H as (known & s1 & H1 & H). unfold recall in H1. injection H1 as <- <-.
      destruct (assoc p (st_visited s)) as [r0|] eqn:A.
      - apply ret_ok in H as [-> ->]. split; [apply ext_refl|]. split; [exact I|]. apply (inv_visited s I), assoc_in, A.
      - apply bind_ok in H as (o & s1 & H1 & H). apply get_ok in H1 as [E ->].
        apply bind_ok in H as (r1 & s1 & H1 & H). apply bind_ok in H as (u & s2 & H2 & H). apply ret_ok in H as [-> ->].
        unfold remember in H2. injection H2 as <- <-.
        destruct (ok _ IH p o s r1 s1 I D E H1) as (X & I1 & P). split; [exact X|]. split; [|exact P].
        constructor; [apply I1|]. cbn. intros p' r' [K|K]; [|apply I1, K]. injection K as <- <-. split; [apply (ext_dom s s1 p X D)|exact P].
    Qed.

    (** Redefinition of forward rules. *)
    Definition none (p : nat) : bool := false.
    (** What stays when forward rules are redefined. *)
    Record moved (s s' : state) : Prop := {
      moved_size : length (st_heap s) <= length (st_heap s');
      moved_get : forall p o, nth_error (st_heap s) p = Some o -> is_forward o = false -> nth_error (st_heap s') p = Some o;
      moved_forward : forall p d, nth_error (st_heap s) p = Some (OForward d) -> exists d', nth_error (st_heap s') p = Some (OForward d') /\ (d = None <-> d' = None);
      moved_words : forall p, dom (st_heap s) p -> like2 none (st_heap s) p none (st_heap s') p }.
    Lemma moved_refl s : moved s s.
    Proof. constructor; auto; [intros p d H; exists d; split; [exact H|tauto]|]. intros p _. apply like2_refl. Qed.
    Lemma moved_dom s s' p : moved s s' -> dom (st_heap s) p -> dom (st_heap s') p.
    Proof. intros M [L D]. split; [|exact D]. pose proof (moved_size s s' M). lia. Qed.
    Lemma moved_trans s s1 s2 : moved s s1 -> moved s1 s2 -> moved s s2.
    Proof.
      intros A B. constructor.
      - pose proof (moved_size _ _ A). pose proof (moved_size _ _ B). lia.
      - intros p o E F. apply (moved_get _ _ B p o); [|exact F]. apply (moved_get _ _ A p o E F).
      - intros p d E. destruct (moved_forward _ _ A p d E) as (d' & E' & K). destruct (moved_forward _ _ B p d' E') as (d'' & E'' & K').
        exists d''. split; [exact E''|]. rewrite K. exact K'.
      - intros p D. eapply like2_trans; [apply (moved_words _ _ A p D)|]. apply (moved_words _ _ B). apply (moved_dom _ _ _ A D).
    Qed.
    Lemma ext_moved s s' : inv s -> ext s s' -> moved s s'.
    Proof.
      intros I [t E]. constructor; rewrite E.
      - rewrite app_length. lia.
      - intros p o H _. apply nth_old, H.
      - intros p d H. exists d. split; [apply nth_old, H|tauto].
      - intros p D. apply like_app; [apply I|exact D].
    Qed.

    Lemma nth_set (h : heap) f o p : f < length h -> nth_error (setitem h f o) p = if Nat.eqb p f then Some o else nth_error h p.
    Proof.
      intros L. destruct (Nat.eqb p f) eqn:E; [apply Nat.eqb_eq in E as ->; apply setitem_same, L|].
      apply Nat.eqb_neq in E. apply setitem_other. auto.
    Qed.
    Lemma redefine_inv s f r r' o' : inv s -> dom (st_heap s) f -> nth_error (st_heap s) f = Some (OForward (Some r)) ->
      pair (st_heap s) r r' -> nth_error (st_heap s) r' = Some o' ->
      let s' := mkState (setitem (st_heap s) f (OForward (Some r'))) (st_visited s) in
      inv s' /\ moved s s' /\ clean (st_heap s') r'.
    Proof.
      intros I Df Ef P Er' s'. set (h := st_heap s) in *. set (h' := setitem h f (OForward (Some r'))).
      assert (Lf : f < length h) by (apply Df).
      assert (Eh : st_heap s' = h') by reflexivity.
      assert (Ef' : nth_error h' f = Some (OForward (Some r'))) by (apply setitem_same, Lf).
      assert (Eo : forall q, q <> f -> nth_error h' q = nth_error h q) by (intros q N; apply setitem_other; auto).
      assert (Len : length h' = length h) by apply setitem_length.
      destruct (inv_graph h (inv_heap s I) f Df) as (of & E1 & Nf). rewrite Ef in E1. injection E1 as <-.
      destruct Nf as (Af & _ & Cf). destruct (Cf r (or_introl eq_refl)) as (Dr & or & Er & Kr & _).
      assert (Dh : forall q, dom h' q <-> dom h q) by (intros q; unfold dom; rewrite Len; tauto).
      assert (Fh : forall q o, nth_error h q = Some o -> exists o1, nth_error h' q = Some o1 /\ is_prod o1 = is_prod o /\ special o1 = special o /\ (is_forward o = false -> o1 = o) /\ is_forward o1 = is_forward o).
      { intros q o E. destruct (Nat.eq_dec q f) as [->|N].
        - rewrite Ef in E. injection E as <-. eexists. split; [exact Ef'|]. cbn. rewrite !special_forward. repeat split; auto. discriminate.
        - rewrite (Eo q N). exists o. auto 10. }
      assert (Fh' : forall q o1, nth_error h' q = Some o1 -> exists o, nth_error h q = Some o /\ is_prod o1 = is_prod o /\ special o1 = special o /\ (is_forward o = false -> o1 = o) /\ is_forward o1 = is_forward o).
      { intros q o1 E. destruct (nth_error h q) as [o|] eqn:E'; [|apply nth_error_None in E'; assert (nth_error h' q = None) by (apply nth_error_None; lia); congruence].
        destruct (Fh q o E') as (o2 & E2 & K). rewrite E in E2. injection E2 as <-. exists o. auto. }
      assert (Cl : forall q, clean h' q <-> clean h q).
      { intros q. unfold clean. split; (intros [N|(o & E & A & B)]; [left; exact N|right]).
        - destruct (Fh' q o E) as (o2 & E2 & _ & _ & K & K'). exists o2. split; [exact E2|]. destruct (is_forward o2) eqn:F2; [|rewrite <- (K eq_refl); auto].
          destruct o2; try discriminate. split; [reflexivity|apply produced_forward].
        - destruct (Fh q o E) as (o2 & E2 & _ & _ & K & K'). exists o2. split; [exact E2|]. destruct (is_forward o) eqn:F2; [|rewrite (K eq_refl); auto].
          destruct o2; try discriminate. split; [reflexivity|apply produced_forward]. }
      assert (Nd : forall o, node allowed special h (dom h) o -> node allowed special h' (dom h') o).
      { intros o (A & S & C). split; [exact A|]. split; [exact S|]. intros c Hc. destruct (C c Hc) as (Dc & oc & Ec & K1 & K2).
        split; [apply Dh, Dc|]. destruct (Fh c oc Ec) as (o1 & Ec' & X1 & X2 & _). exists o1. split; [exact Ec'|]. rewrite X1, X2. auto. }
      (* words with everything opaque, with old ones opaque *)
      assert (La : forall q, like2 all h q all h' q) by (intros q; apply (redefine_opaque pipe_bnf bnf_lines all h f _ (Some r') Ef eq_refl)).
      assert (Sub : forall q, old q = true -> all q = true) by reflexivity.
      assert (Lo : forall q, like2 old h q old h' q).
      { intros q. destruct (old f) eqn:Of; [apply (redefine_opaque pipe_bnf bnf_lines old h f _ (Some r') Ef Of)|].
        apply (redefine_like pipe_bnf bnf_lines all old h f r r' Sub eq_refl Ef). apply (pair_all h r r' P).
        apply (inv_new h (inv_heap s I) f _ (proj1 (Nat.ltb_ge f n0) Of) Ef). left. reflexivity. }
      assert (Ln : forall q, like2 none h q none h' q).
      { intros q. destruct (old f) eqn:Of.
        - apply (redefine_like pipe_bnf bnf_lines old none h f r r'); [discriminate|exact Of|exact Ef|apply (pair_old h r r' P)].
        - apply (redefine_like pipe_bnf bnf_lines all none h f r r'); [discriminate|reflexivity|exact Ef|]. apply (pair_all h r r' P).
          apply (inv_new h (inv_heap s I) f _ (proj1 (Nat.ltb_ge f n0) Of) Ef). left. reflexivity. }
      assert (Lpa : forall x y, like all h x y -> like all h' x y).
      { intros x y L. eapply like2_trans; [apply like2_sym, La|]. eapply like2_trans; [exact L|apply La]. }
      assert (Lpo : forall x y, like old h x y -> like old h' x y).
      { intros x y L. eapply like2_trans; [apply like2_sym, Lo|]. eapply like2_trans; [exact L|apply Lo]. }
      assert (Pr : forall x y, pair h x y -> pair h' x y).
      { intros x y [D C F O A]. constructor; [apply Dh, D|apply Cl, C| |apply Lpo, O|intros C'; apply Lpa, A, Cl, C'].
        intros o E. destruct (Fh' x o E) as (o1 & E1 & X1 & X2 & _). destruct (F o1 E1) as (o2 & E2 & Y1 & Y2).
        destruct (Fh y o2 E2) as (o3 & E3 & Z1 & Z2 & _). exists o3. split; [exact E3|]. split; congruence. }
      destruct (pair_form h r r' P or Er) as (o2 & E2 & X1 & X2). rewrite Er' in E2. injection E2 as <-.
      split; [|split].
      - constructor.
        + rewrite Eh. constructor.
          * rewrite Len. apply (inv_size h (inv_heap s I)).
          * intros q Dq. apply Dh in Dq. destruct (Nat.eq_dec q f) as [->|N].
            -- eexists. split; [exact Ef'|]. split; [apply produced_allowed, produced_forward|]. split; [exact Logic.I|].
               intros c [<-|[]]. split; [apply Dh, (pair_dom h r r' P)|]. destruct (Fh r' o' Er') as (o3 & E3 & Z1 & Z2 & _).
               exists o3. split; [exact E3|]. split; [cbn; cbn in Kr; congruence|]. rewrite special_forward. discriminate.
            -- destruct (inv_graph h (inv_heap s I) q Dq) as (o & E & N'). exists o. split; [rewrite (Eo q N); exact E|apply Nd, N'].
          * intros q o N E. destruct (Nat.eq_dec q f) as [->|N'].
            -- rewrite Ef' in E. injection E as <-. split; [apply produced_forward|]. intros c [<-|[]]. apply Cl, (pair_clean h r r' P).
            -- rewrite (Eo q N') in E. destruct (inv_new h (inv_heap s I) q o N E) as [A C]. split; [exact A|]. intros c Hc. apply Cl, C, Hc.
        + rewrite Eh. intros p q Hq. destruct (inv_visited s I p q Hq) as [D Q]. split; [apply Dh, D|apply Pr, Q].
      - constructor; rewrite Eh; fold h.
        + rewrite Len. lia.
        + intros q o E F. destruct (Fh q o E) as (o1 & E1 & _ & _ & K & _). rewrite (K F) in E1. exact E1.
        + intros q d E. destruct (Nat.eq_dec q f) as [->|N].
          * rewrite Ef in E. injection E as <-. eexists. split; [exact Ef'|]. split; discriminate.
          * rewrite (Eo q N). exists d. split; [exact E|tauto].
        + intros q _. apply Ln.
      - rewrite Eh. apply Cl, (pair_clean h r r' P).
    Qed.

    Definition settled (h : heap) (p : nat) : Prop := exists o, nth_error h p = Some o /\ forall r, o = OForward (Some r) -> clean h r.
    (** [define_visited] changes at most the forward rule it is called for. *)
    Definition only (p : nat) (s s' : state) : Prop :=
      forall q o, q <> p -> nth_error (st_heap s) q = Some o -> nth_error (st_heap s') q = Some o.
    Lemma define_visited_ok fuel p s u s' : inv s -> dom (st_heap s) p -> define_visited method fuel p s = Some (Ok (u, s')) ->
      inv s' /\ moved s s' /\ only p s s' /\ settled (st_heap s') p.
    Proof.
      intros I D H. unfold define_visited in H. apply bind_ok in H as (o & s1 & H1 & H). apply get_ok in H1 as [E ->].
      assert (Triv : (forall r, o <> OForward (Some r)) -> ret tt s = Some (Ok (u, s')) -> inv s' /\ moved s s' /\ only p s s' /\ settled (st_heap s') p).
      { intros N K. apply ret_ok in K as [_ ->]. split; [exact I|]. split; [apply moved_refl|]. split; [intros q o' _ K; exact K|].
        exists o. split; [exact E|]. intros r K. destruct (N r K). }
      destruct o as [| | | | | | | | | | |[r|]| | | | | | |]; try (apply Triv; [discriminate|exact H]). clear Triv.
      apply bind_ok in H as (r' & s1 & H1 & H). unfold define in H. apply bind_ok in H as (o' & s2 & H2 & H). apply get_ok in H2 as [E' ->].
      destruct (is_forward o') eqn:F'; [discriminate|]. unfold put in H. injection H as _ <-.
      destruct (inv_graph _ (inv_heap s I) p D) as (of & Ef & _ & _ & Cf). rewrite E in Ef. injection Ef as <-.
      destruct (Cf r (or_introl eq_refl)) as (Dr & _).
      destruct (visit_visit_ok fuel r s r' s1 I Dr H1) as (X & I1 & P).
      assert (D1 : dom (st_heap s1) p) by (apply (ext_dom s s1 p X D)).
      assert (E1 : nth_error (st_heap s1) p = Some (OForward (Some r))) by (apply (ext_get s s1 p _ X E)).
      destruct (redefine_inv s1 p r r' o' I1 D1 E1 P E') as (I2 & M2 & C2). split; [exact I2|]. split; [|split].
      - eapply moved_trans; [apply ext_moved; eassumption|exact M2].
      - intros q oq N Eq. cbn. rewrite setitem_other by auto. apply (ext_get s s1 q oq X Eq).
      - eexists. split; [cbn; apply setitem_same, D1|]. intros r2 K. injection K as <-. exact C2.
    Qed.
    Lemma settled_only s s' p q : inv s -> inv s' -> only p s s' -> moved s s' -> q <> p -> settled (st_heap s) q -> settled (st_heap s') q.
    Proof.
      intros I I' O Mv N (o & E & C). exists o. split; [apply (O q o N E)|]. intros r Er. destruct (C r Er) as [K|(o1 & E1 & A1 & P1)]; [left; exact K|right].
      destruct (is_forward o1) eqn:F1.
      - destruct o1; try discriminate. destruct (moved_forward s s' Mv r _ E1) as (d' & E' & _). eexists. split; [exact E'|]. split; [reflexivity|apply produced_forward].
      - exists o1. split; [apply (moved_get s s' Mv r o1 E1 F1)|auto].
    Qed.

    Lemma is_in_spec p l : is_in p l = true <-> In p l.
    Proof.
      unfold is_in. rewrite existsb_exists. split; [intros (x & H & E); apply Nat.eqb_eq in E as ->; exact H|intros H; exists p; split; [exact H|apply Nat.eqb_refl]].
    Qed.
    Lemma enqueue_spec cs : forall queue visited queue' visited', enqueue cs queue visited = (queue', visited') ->
      (forall x, In x queue -> In x queue') /\ (forall x, In x visited -> In x visited') /\
      (forall x, In x cs -> In x visited') /\
      (forall x, In x visited' -> In x visited \/ (In x queue' /\ In x cs)) /\
      (forall x, In x queue' -> In x queue \/ In x cs).
    Proof.
      induction cs as [|c cs IH]; intros queue visited queue' visited' H; cbn in H.
      - injection H as <- <-. repeat split; auto. intros x [].
      - destruct (is_in c visited) eqn:E.
        + destruct (IH _ _ _ _ H) as (A & B & C & D & F). apply is_in_spec in E. repeat split; auto.
          * intros x [->|Hx]; auto.
          * intros x Hx. destruct (D x Hx) as [K|[K1 K2]]; [auto|right; split; [auto|right; auto]].
          * intros x Hx. destruct (F x Hx); [auto|right; right; auto].
        + destruct (IH _ _ _ _ H) as (A & B & C & D & F). repeat split.
          * intros x Hx. apply A, in_or_app. auto.
          * intros x Hx. apply B. right. auto.
          * intros x [->|Hx]; [apply B; left; auto|auto].
          * intros x Hx. destruct (D x Hx) as [[->|K]|[K1 K2]]; [|auto|right; split; [auto|right; auto]].
            right. split; [apply A, in_or_app; right; left; auto|left; auto].
          * intros x Hx. destruct (F x Hx) as [K|K]; [|right; right; auto]. apply in_app_or in K as [K|[->|[]]]; [auto|right; left; auto].
    Qed.

    Lemma walk_ok fuel' : forall fuel queue vis s u s', inv s ->
      (forall x, In x queue -> In x vis) -> (forall x, In x vis -> dom (st_heap s) x) ->
      (forall x, In x vis -> In x queue \/ (settled (st_heap s) x /\ forall o c, nth_error (st_heap s) x = Some o -> In c (children o) -> In c vis)) ->
      walk_loop fuel (define_visited method fuel') queue vis s = Some (Ok (u, s')) ->
      inv s' /\ moved s s' /\ exists vis', (forall x, In x vis -> In x vis') /\
        forall x, In x vis' -> dom (st_heap s') x /\ settled (st_heap s') x /\ forall o c, nth_error (st_heap s') x = Some o -> In c (children o) -> In c vis'.
    Proof.
      induction fuel as [|fuel IH]; intros [|x queue] vis s u s' I Q D C H; cbn [walk_loop] in H; try discriminate.
      1,2: apply ret_ok in H as [_ ->]; split; [exact I|]; split; [apply moved_refl|]; exists vis; split; [auto|]; intros x Hx; destruct (C x Hx) as [[]|K]; split; [apply D, Hx|exact K].
      apply bind_ok in H as (v & s1 & H1 & H). apply bind_ok in H as (o & s2 & H2 & H). apply get_ok in H2 as [E ->].
      destruct (enqueue (children o) queue vis) as [queue2 vis2] eqn:En.
      destruct (enqueue_spec _ _ _ _ _ En) as (A1 & A2 & A3 & A4 & A5).
      assert (Dx : dom (st_heap s) x) by (apply D, Q; left; auto).
      destruct (define_visited_ok fuel' x s v s1 I Dx H1) as (I1 & M1 & O1 & S1).
      destruct (inv_graph _ (inv_heap s1 I1) x (moved_dom s s1 x M1 Dx)) as (o' & E' & _ & _ & Co). rewrite E in E'. injection E' as <-.
      destruct (IH queue2 vis2 s1 u s') as (I2 & M2 & vis' & V1 & V2); auto.
      - intros y Hy. destruct (A5 y Hy) as [K|K]; [apply A2, Q; right; auto|apply A3, K].
      - intros y Hy. destruct (A4 y Hy) as [K|[_ K]]; [apply (moved_dom s s1 y M1), D, K|apply (Co y K)].
      - intros y Hy. destruct (A4 y Hy) as [K|[K _]]; [|left; exact K]. destruct (Nat.eq_dec y x) as [->|N].
        + right. split; [exact S1|]. intros o2 c E2 Hc. rewrite E in E2. injection E2 as <-. apply A3, Hc.
        + destruct (C y K) as [[->|Hq]|[Sy Cy]]; [destruct N; reflexivity|left; apply A1, Hq|right].
          split; [apply (settled_only s s1 x y I I1 O1 M1 N Sy)|]. intros o2 c E2 Hc.
          destruct (dom_get _ _ (D y K)) as (o3 & E3). rewrite (O1 y o3 N E3) in E2. injection E2 as <-. apply A2, (Cy o3 c E3 Hc).
      - split; [exact I2|]. split; [eapply moved_trans; eassumption|]. exists vis'. split; [intros y Hy; apply V1, A2, Hy|exact V2].
    Qed.
  End Method.

End Pass.

Section Run.
  Context {pred pipe bnf : Type}.
  Notation obj := (obj pred pipe bnf).
  Notation heap := (heap pred pipe bnf).
  Notation visitor := (visitor pred pipe bnf).
  Variable pipe_bnf : pipe -> res bnf.
  Variable bnf_lines : bnf -> list (str * list pred).
  Variables allowed produced special : obj -> bool.
  Hypothesis produced_allowed : forall o, produced o = true -> allowed o = true.
  Hypothesis produced_forward : forall d, produced (OForward d) = true.
  Hypothesis special_forward : forall d, special (OForward d) = false.
  Variable method : visitor -> nat -> obj -> M pred pipe bnf nat.
  Hypothesis ok : forall n0 G, method_ok pipe_bnf bnf_lines allowed produced special n0 G method.

  Theorem pass_ok fuel (h : heap) root (G : nat -> Prop) r h' :
    graph allowed special h G -> G root -> run_visit method fuel h root = Some (Ok (r, h')) ->
    graph produced special h' (reach h' r) /\
    like2 pipe_bnf bnf_lines none h root none h' r /\
    (forall p, G p -> like2 pipe_bnf bnf_lines none h p none h' p) /\
    (forall p o, nth_error h p = Some o -> is_forward o = false -> nth_error h' p = Some o) /\
    (forall o, nth_error h root = Some o -> exists o', nth_error h' r = Some o' /\ is_prod o' = is_prod o).
  Proof.
    intros Gr Groot H. set (n0 := length h). set (s0 := mkState h []).
    unfold run_visit in H. fold s0 in H. destruct (transform_walk method fuel root s0) as [[[r1 s2]|e]|] eqn:T; try discriminate.
    injection H as -> <-. unfold transform_walk in T. apply bind_ok in T as (u & s1 & T1 & T2).
    assert (Bound : forall p, G p -> p < length h).
    { intros p Gp. destruct (Gr p Gp) as (o & E & _). apply nth_error_Some. congruence. }
    assert (D0 : forall p, dom n0 G h p <-> G p).
    { intros p. split; [intros [L [K|K]]; [exact K|unfold n0 in K; lia]|intros K; split; [apply Bound, K|left; exact K]]. }
    assert (I0 : inv pipe_bnf bnf_lines allowed produced special n0 G s0).
    { constructor; [constructor; cbn|intros p q []].
      - reflexivity.
      - intros p Dp. destruct (Gr p (proj1 (D0 p) Dp)) as (o & E & A & S & C). exists o. split; [exact E|]. split; [exact A|]. split; [exact S|].
        intros c Hc. destruct (C c Hc) as [Gc K]. split; [apply D0, Gc|exact K].
      - intros p o N E. assert (p < length h) by (apply nth_error_Some; congruence). unfold n0 in N. lia. }
    destruct (walk_ok pipe_bnf bnf_lines allowed produced special produced_allowed produced_forward special_forward n0 G method (ok n0 G) fuel fuel [root] [root] s0 u s1 I0)
      as (I1 & M1 & vis & V1 & V2); auto.
    { intros x [<-|[]]. cbn. apply D0, Groot. }
    assert (Dr : dom n0 G (st_heap s1) root) by (apply V2, V1; left; auto).
    destruct (visit_visit_ok pipe_bnf bnf_lines allowed produced special n0 G method (ok n0 G) fuel root s1 r s2 I1 Dr T2) as (X & I2 & P).
    set (h1 := st_heap s1) in *. set (h2 := st_heap s2) in *.
    assert (M2 := ext_moved pipe_bnf bnf_lines allowed produced special n0 G s1 s2 I1 X). fold h1 h2 in M2.
    assert (M02 := moved_trans pipe_bnf bnf_lines n0 G _ _ _ M1 M2).
    assert (Vget : forall x o, In x vis -> nth_error h2 x = Some o -> nth_error h1 x = Some o).
    { intros x o Hx E. destruct (dom_get n0 G _ _ (proj1 (V2 x Hx))) as (o1 & E1). assert (Z := ext_get s1 s2 x o1 X E1). fold h2 in Z. fold h1 in E1. congruence. }
    assert (Vcl : forall x o c, In x vis -> nth_error h2 x = Some o -> In c (children o) -> In c vis).
    { intros x o c Hx E Hc. destruct (V2 x Hx) as (_ & _ & K). apply (K o c (Vget x o Hx E) Hc). }
    assert (Vuse : forall x q, uses (old n0) h2 x q -> In x vis -> In q vis).
    { intros x q U. induction U as [x d E Q|x o c q E F Hc Hq IH]; intros Hx; [exact Hx|]. apply IH. apply (Vcl x o c Hx E Hc). }
    assert (K : forall x, reach h2 r x -> dom n0 G h2 x /\ clean produced n0 h2 x /\ (In x vis \/ forall q, uses (old n0) h2 x q -> In q vis)).
    { intros x Rx. induction Rx as [|r x o c Rx IH E Hc].
      - split; [apply P|]. split; [apply P|]. right. intros q U. apply (Vuse root q); [|apply V1; left; auto].
        apply (pair_old _ _ _ _ _ _ _ _ _ P), U.
      - destruct (IH T2 P) as (Dx & Cx & Ux). clear IH.
        destruct (inv_graph _ _ _ _ _ _ (inv_heap _ _ _ _ _ _ _ _ I2) x Dx) as (o' & E' & _ & _ & Co).
        fold h2 in E', Co. rewrite E in E'. injection E' as <-. destruct (Co c Hc) as (Dc & _). split; [exact Dc|].
        destruct (Nat.lt_ge_cases x n0) as [L|L].
        + destruct Cx as [N|(o1 & E1 & A1 & P1)]; [lia|]. rewrite E in E1. injection E1 as <-.
          destruct o as [| | | | | | | | | | |[d|]| | | | | | |]; try discriminate; try (destruct Hc; fail). destruct Hc as [->|[]].
          assert (Vx : In x vis).
          { destruct Ux as [K|K]; [exact K|]. apply K. apply (uses_here (old n0) h2 x _ E). apply Nat.ltb_lt, L. }
          destruct (V2 x Vx) as (_ & (o1 & E1 & Se) & _). assert (E2 := Vget x _ Vx E). fold h1 in E1. rewrite E2 in E1. injection E1 as <-.
          split; [destruct X as [t Et]; unfold h2; rewrite Et; apply clean_app, Se; reflexivity|]. left. apply (Vcl x _ c Vx E). left. reflexivity.
        + destruct (inv_new _ _ _ _ _ _ (inv_heap _ _ _ _ _ _ _ _ I2) x o L E) as [_ Cn]. split; [apply Cn, Hc|].
          destruct Ux as [Vx|Ux]; [left; apply (Vcl x o c Vx E Hc)|right]. intros q U. apply Ux. apply (uses_child (old n0) h2 x o c q E); auto.
          unfold old. replace (x <? n0) with false by (symmetry; apply Nat.ltb_ge, L). apply andb_false_r. }
    split; [|split; [|split; [|split]]].
    - intros x Rx. destruct (K x Rx) as (Dx & Cx & _). destruct (inv_graph _ _ _ _ _ _ (inv_heap _ _ _ _ _ _ _ _ I2) x Dx) as (o & E & A & S & C).
      exists o. split; [exact E|]. split; [|split; [exact S|]].
      + destruct Cx as [N|(o1 & E1 & _ & P1)]; [apply (inv_new _ _ _ _ _ _ (inv_heap _ _ _ _ _ _ _ _ I2) x o N E)|]. fold h2 in E. congruence.
      + intros c Hc. destruct (C c Hc) as [_ Kc]. split; [apply (reach_step h2 r x o c Rx E Hc)|exact Kc].
    - eapply like2_trans; [apply (moved_words _ _ _ _ _ _ M02 root), D0, Groot|]. apply (like_fewer pipe_bnf bnf_lines (old n0) none h2 root r); [discriminate|].
      apply (pair_old _ _ _ _ _ _ _ _ _ P).
    - intros p Gp. apply (moved_words _ _ _ _ _ _ M02 p), D0, Gp.
    - intros p o E F. apply (moved_get _ _ _ _ _ _ M02 p o E F).
    - intros o E. assert (Eo : exists o1, nth_error h2 root = Some o1 /\ is_prod o1 = is_prod o).
      { destruct (is_forward o) eqn:F; [|exists o; split; [apply (moved_get _ _ _ _ _ _ M02 root o E F)|reflexivity]].
        destruct o as [| | | | | | | | | | |d| | | | | | |]; try discriminate. destruct (moved_forward _ _ _ _ _ _ M02 root d E) as (d' & E' & _). eexists. split; [exact E'|reflexivity]. }
      destruct Eo as (o1 & E1 & P1). destruct (pair_form _ _ _ _ _ _ _ _ _ P o1 E1) as (o' & E' & Q & _). exists o'. split; [exact E'|congruence].
  Qed.
End Run.
