(** The passes of Rule.normalized raise nothing on rules whose forward rules are defined by
    rules that do not become forward rules. *)
From Verif Require Import Base EarleyModel RuleModel RuleSpec RuleWords RuleLike RulePass RuleMethods RuleNormal RuleNormalized RuleOrder RuleEnds RuleBuild RuleUsableSpec RuleQuiet.
Open Scope nat_scope.

Section Usable.
  Context {pred pipe bnf : Type}.
  Notation obj := (obj pred pipe bnf).
  Notation heap := (heap pred pipe bnf).
  Notation visitor := (visitor pred pipe bnf).
  Notation state := (state pred pipe bnf).
  Notation M := (M pred pipe bnf).
  (** The pipelines that can be converted. *)
  Variable P : pipe -> Prop.
  Definition sort (cls : obj -> bool) (o : obj) : Prop := cls o = true /\ forall x, o = OPipeline x -> P x.
  Definition ready (cls : obj -> bool) (h : heap) (root : nat) : Prop :=
    forall p, reach h root p -> exists o, nth_error h p = Some o /\ sort cls o /\ o <> OForward None /\ forall d, o = OForward (Some d) -> solid h d.

  Definition free (o oc : obj) : Prop := True.
  Definition never (o : obj) : bool := false.
  Notation easy cls := (fun (_ : nat) o => sort cls o).

  Lemma ready_fits cls (side : obj -> obj -> Prop) h root : ready cls h root ->
    (forall p o c oc, reach h root p -> nth_error h p = Some o -> In c (children o) -> nth_error h c = Some oc -> side o oc) -> fits (easy cls) side (length h) (reach h root) h.
  Proof.
    intros R Si. split; [lia|]. intros p o L E. assert (Rp : reach h root p) by (destruct L as [L|L]; [exact L|]; assert (p < length h) by (apply nth_error_Some; congruence); lia).
    destruct (R p Rp) as (o' & E' & S & N & D). rewrite E in E'. injection E' as <-. split; [exact S|]. split; [exact N|]. split; [|split; [exact D|intros c oc; apply (Si p o c oc Rp E)]].
    intros c Hc. assert (Rc := reach_step h root p o c Rp E Hc). split; [left; exact Rc|]. destruct (R c Rc) as (oc & Ec & _). apply nth_error_Some. congruence.
  Qed.
  Lemma fits_ready cls cls' side n0 G special h r : fits (easy cls) side n0 G h -> lv n0 G h r -> graph cls' special h (reach h r) -> ready cls' h r.
  Proof.
    intros [_ F] L Gr p Rp. assert (Lp : lv n0 G h p).
    { induction Rp as [|r p x c Rp IH E Hc]; [exact L|]. destruct (F p x (proj1 (IH L Gr)) E) as (_ & _ & C & _). apply C, Hc. }
    destruct (Gr p Rp) as (o & E & Co & _). exists o. split; [exact E|]. destruct (F p o (proj1 Lp) E) as ([_ Sp] & N & _ & D & _). split; [split; [exact Co|exact Sp]|]. auto.
  Qed.

  Lemma easy_forward cls : (forall d, cls (OForward d) = true) -> forall (p : nat) d, sort cls (OForward (Some d)).
  Proof. intros H p d. split; [apply H|discriminate]. Qed.
  Lemma easy_update cls : (forall f o, cls (update_attributes f o) = cls o) -> forall (p : nat) f o, sort cls o -> sort cls (update_attributes f o).
  Proof. intros H p f o [A B]. split; [rewrite H; exact A|]. intros x E. apply B. destruct o; try discriminate. exact E. Qed.
  Lemma easy_again cls : (forall o o' : obj, same_tag o o' -> cls o' = cls o) -> forall (p q : nat) o o', same_tag o o' -> sort cls o -> sort cls o'.
  Proof. intros H p q o o' T [A B]. split; [rewrite (H o o' T); exact A|]. intros x ->. destruct o; destruct T. Qed.
  Lemma alike_const {A} (f : obj -> A) : (forall d d', f (OForward d) = f (OForward d')) -> (forall g o, f (update_attributes g o) = f o) -> forall o o', alike o o' -> f o' = f o.
  Proof. intros F U o o' K. unfold alike in K. destruct (is_forward o) eqn:Fo; [destruct o, o'; try discriminate; apply F|]. destruct K as (g & ->). apply U. Qed.

  (** ** Squashing, without nested quantifiers *)
  Section Squash.
    Variable n0 : nat.
    Variable G : nat -> Prop.
    Definition apart (o oc : obj) : Prop := is_quant o = true -> is_quant oc = false.
    Definition single (o : obj) : bool := negb (is_quant o).
    Notation quiet := (quiet (easy plain) apart single single n0 G).
    Lemma single_alike o o' : alike o o' -> single o' = single o.
    Proof. apply alike_const; [reflexivity|intros g [] ; reflexivity]. Qed.
    Lemma apart_alike o oc oc' : alike oc oc' -> apart o oc -> apart o oc'.
    Proof. intros K A Q. specialize (A Q). assert (S := single_alike oc oc' K). unfold single in S. rewrite A in S. destruct (is_quant oc'); [discriminate|reflexivity]. Qed.
    Lemma single_tag o o' : same_tag o o' -> single o' = single o.
    Proof. destruct o, o'; intros []; reflexivity. Qed.
    Lemma squash_quiet : method_quiet (easy plain) apart single single n0 G squash_method.
    Proof.
      assert (Pl : forall o o' : obj, same_tag o o' -> plain o' = plain o) by (intros o o'; destruct o, o'; intros []; reflexivity).
      assert (Again : forall o o' oc oc' : obj, same_tag o o' -> apart o oc -> (single oc = true -> single oc' = true) -> apart o' oc').
      { intros o o' oc oc' T A S Q. assert (Q' := single_tag o o' T). unfold single in *. rewrite Q in Q'. destruct (is_quant o) eqn:Qo; [|discriminate]. rewrite (A Qo) in S. specialize (S eq_refl). destruct (is_quant oc'); [discriminate|reflexivity]. }
      assert (Kept : forall o o' : obj, same_tag o o' \/ o = o' -> single o = true -> single o' = true) by (intros o o' [T| ->] S; [rewrite (single_tag o o' T)|]; exact S).
      intros V p o s HV L E. apply quiet_calm. intros C. destruct (proj2 (proj1 C) p o (proj1 L) E) as ([Po _] & _ & Ch & _ & Si).
      assert (Base : raising o = false -> quiet (base_method V p o) s (given single single n0 G p)).
      { intros Ra. apply (base_quiet (easy plain) apart single single n0 G) ; eauto using single_alike, apart_alike, (easy_again plain Pl). }
      assert (One : forall f r0, children o = [r0] -> (forall x, children (f x) = [x] /\ same_tag o (f x)) -> (forall x, firm (f x) = false -> firm o = false /\ forall m rev, o = OMax r0 m rev -> f x = OMax x m rev) ->
        quiet (bindM (V r0) (fun r => alloc (f r))) s (given single single n0 G p)).
      { intros f r0 C0 F Soft. apply (one_quiet (easy plain) apart single single n0 G) with (o := o); eauto using single_alike, apart_alike, (easy_again plain Pl). }
      destruct o as [ps|rs|r0 rev|r0 rev|r0 rr ro|r0 m rev|r0 m rev|r0 m n' rev|r0 nm|r0 i|r0 rl|d| |pl|ps a|b ps a|ts m| |k ps]; cbn [squash_method]; try (apply Base; reflexivity);
        (apply quiet_bind_get; [apply (Ch r0); left; reflexivity|]; intros child Ec; assert (Q := Si r0 child (or_introl eq_refl) Ec eq_refl); destruct child; try discriminate;
         (apply One; [reflexivity|intros x; split; [reflexivity|cbn; auto]|cbn; intros x Fx; split; [exact Fx|congruence]])).
    Qed.
  End Squash.

  (** ** Replacing quantifiers *)
  Section Plain.
    Variable cls : obj -> bool.
    Hypothesis cls_plain : forall o, cls o = true -> plain o = true.
    Hypothesis cls_forward : forall d, cls (OForward d) = true.
    Hypothesis cls_update : forall f o, cls (update_attributes f o) = cls o.
    Hypothesis cls_again : forall o o' : obj, same_tag o o' -> cls o' = cls o.
    Hypothesis cls_rule : forall ps, cls (ORule ps) = true.
    Hypothesis cls_prod : forall ts m, cls (OProd ts m) = true.
    Variable n0 : nat.
    Variable G : nat -> Prop.
    Notation quiet := (quiet (easy cls) free never never n0 G).
    Notation lv := (lv n0 G).
    Notation given := (given never never n0 G).
    Notation visits_quiet := (visits_quiet (easy cls) free never never n0 G).
    Notation calm := (calm (easy cls) free never never n0 G).
    Lemma never_alike (o o' : obj) : alike o o' -> never o' = never o. Proof. reflexivity. Qed.
    Lemma plain_base V p (o : obj) s : visits_quiet V -> raising o = false -> lv (st_heap s) p -> nth_error (st_heap s) p = Some o -> quiet (base_method V p o) s (given p).
    Proof.
      intros HV Ra L E. apply quiet_calm. intros C. destruct (proj2 (proj1 C) p o (proj1 L) E) as ([Po _] & _).
      apply (base_quiet (easy cls) free never never n0 G); auto; try (intros; exact I); try exact (easy_again cls cls_again).
    Qed.
    Lemma plain_alloc (o : obj) s : cls o = true -> is_forward o = false -> (forall x, o <> OPipeline x) -> (forall c, In c (children o) -> lv (st_heap s) c) -> quiet (alloc o) s (placed n0 G o).
    Proof. 
      intros Co F N C. apply (quiet_alloc (easy cls) free never never n0 G); auto; try (intros; exact I).
      intros q _. split; [exact Co|]. intros x K. destruct (N x K).
     Qed.
    Lemma plain_given p o o' r (s s' : state) : grows (st_heap s) (st_heap s') -> nth_error (st_heap s) p = Some o -> firm o' = true -> placed n0 G o' r s' -> given p r s'.
    Proof. intros A E F K. apply (placed_given never never n0 G) with (o := o) (o' := o') (s := s); auto. Qed.
    Lemma new_rule_quiet ts s : (forall c, In c ts -> lv (st_heap s) c) -> quiet (RuleModel.new_rule ts) s (fun r s' => exists q, placed n0 G (ORule [q]) r s').
    Proof.
      intros L. unfold RuleModel.new_rule. eapply quiet_bind; [apply plain_alloc; [apply cls_prod|reflexivity|discriminate|]|].
      - cbn. rewrite rule_terms_map. exact L.
      - intros q s1 C1 A1 [Lq Eq]. eapply quiet_post; [apply (plain_alloc (ORule [q])); [apply cls_rule|reflexivity|discriminate|intros c [<-|[]]; exact Lq]|]. intros r s2 _ _ K. exists q. exact K.
    Qed.
    Lemma in_ordered rev (a b c : nat) : In c (RuleModel.ordered rev a b) -> c = a \/ c = b.
    Proof. destruct rev; cbn; intuition. Qed.
    Section Extended.
      Hypothesis cls_or : forall rs, cls (OOr rs) = true.
      Hypothesis cls_empty : cls OEmpty = true.
      (** Several objects together. *)
      Lemma grown (s : state) t : calm s -> (forall i o, nth_error t i = Some o -> fit (easy cls) free n0 G (st_heap s ++ t) (length (st_heap s) + i) o) ->
        calm (mkState (st_heap s ++ t) (st_visited s)).
      Proof. intros C F. apply (calm_heap (easy cls) free never never n0 G never_alike never_alike); [exact C|apply grows_app|]. apply fits_app; [intros; exact I|apply C|exact F]. Qed.
      Lemma new_lv (s : state) (t : heap) i : calm s -> i < length t -> lv (st_heap s ++ t) (length (st_heap s) + i).
      Proof. intros [[N _] _] L. split; [right; lia|rewrite app_length; lia]. Qed.
      Lemma fit_new h p (o : obj) : cls o = true -> is_forward o = false -> (forall x, o <> OPipeline x) -> (forall c, In c (children o) -> lv h c) -> fit (easy cls) free n0 G h p o.
      Proof.
        intros Co F N C. split; [split; [exact Co|intros x K; destruct (N x K)]|]. split; [intros ->; discriminate|]. split; [exact C|]. split; [intros d ->; discriminate|intros; exact I].
      Qed.
      Lemma fit_forward h p d : lv h d -> solid h d -> fit (easy cls) free n0 G h p (OForward (Some d)).
      Proof.
        intros L S. split; [split; [apply cls_forward|discriminate]|]. split; [discriminate|]. split; [intros c [<-|[]]; exact L|]. split; [intros d' K; injection K as <-; exact S|intros; exact I].
      Qed.
      Lemma nth_new_at (s : state) (t : heap) i : nth_error (st_heap s ++ t) (length (st_heap s) + i) = nth_error t i.
      Proof. rewrite nth_error_app2 by lia. f_equal. lia. Qed.
      Lemma repeatable_quiet item rev s : lv (st_heap s) item -> quiet (repeatable_rule item rev) s (fun r s' => lv (st_heap s') r).
      Proof.
        intros L C. rewrite repeatable_effect. set (n := length (st_heap s)). set (t := [OForward (Some (n + 3)); OProd [TRule item; TRule n] 0; ORule [n + 1]; OOr (RuleModel.ordered rev (n + 2) item)]).
        assert (Ln : forall i, i < 4 -> lv (st_heap s ++ t) (n + i)) by (intros i Li; apply (new_lv s t i C Li)). assert (L0 := Ln 0 ltac:(lia)). rewrite Nat.add_0_r in L0.
        assert (Li : lv (st_heap s ++ t) item) by (apply (lv_grows n0 G _ _ item (grows_app _ _) L)).
        split; [|split; [apply grows_app|exact L0]]. apply grown; [exact C|]. intros [|[|[|[|[|i]]]]] o Eo; try discriminate Eo; injection Eo as <-.
        - apply fit_forward; [apply Ln; lia|]. apply (solid_here _ _ (OOr (RuleModel.ordered rev (n + 2) item))); [apply (nth_new_at s t 3)|reflexivity].
        - apply fit_new; [apply cls_prod|reflexivity|discriminate|]. intros c [<-|[<-|[]]]; assumption.
        - apply fit_new; [apply cls_rule|reflexivity|discriminate|]. intros c [<-|[]]. apply Ln. lia.
        - apply fit_new; [apply cls_or|reflexivity|discriminate|]. cbn. intros c Hc. apply in_ordered in Hc as [->| ->]; [apply Ln; lia|exact Li].
      Qed.
      Lemma repeatable_optional_quiet item rr ro s : lv (st_heap s) item -> quiet (repeatable_optional_rule item rr ro) s (fun r s' => lv (st_heap s') r).
      Proof.
        intros L C. rewrite repeatable_optional_effect. set (n := length (st_heap s)). set (alts := if ro then _ else _).
        set (t := [OForward (Some (n + 4)); OEmpty; OProd [TRule item; TRule n] 0; ORule [n + 2]; OOr alts]).
        assert (Ln : forall i, i < 5 -> lv (st_heap s ++ t) (n + i)) by (intros i Li; apply (new_lv s t i C Li)). assert (L0 := Ln 0 ltac:(lia)). rewrite Nat.add_0_r in L0.
        assert (Li : lv (st_heap s ++ t) item) by (apply (lv_grows n0 G _ _ item (grows_app _ _) L)).
        split; [|split; [apply grows_app|exact L0]]. apply grown; [exact C|]. intros [|[|[|[|[|[|i]]]]]] o Eo; try discriminate Eo; injection Eo as <-.
        - apply fit_forward; [apply Ln; lia|]. apply (solid_here _ _ (OOr alts)); [apply (nth_new_at s t 4)|reflexivity].
        - apply fit_new; [apply cls_empty|reflexivity|discriminate|intros c []].
        - apply fit_new; [apply cls_prod|reflexivity|discriminate|]. intros c [<-|[<-|[]]]; assumption.
        - apply fit_new; [apply cls_rule|reflexivity|discriminate|]. intros c [<-|[]]. apply Ln. lia.
        - apply fit_new; [apply cls_or|reflexivity|discriminate|]. cbn. unfold alts. intros c Hc. assert (Hc' : c = n + 1 \/ c = n + 3 \/ c = item).
          { destruct ro; [apply in_app_or in Hc as [Hc|[<-|[]]]; [apply in_ordered in Hc; tauto|auto]|destruct Hc as [<-|Hc]; [auto|apply in_ordered in Hc; tauto]]. }
          destruct Hc' as [->|[->| ->]]; [apply Ln; lia|apply Ln; lia|exact Li].
      Qed.
      Lemma optional_quiet item rev s : lv (st_heap s) item -> quiet (optional_rule item rev) s (fun r s' => exists alts, placed n0 G (OOr alts) r s').
      Proof.
        intros L. unfold optional_rule. eapply quiet_bind; [apply (plain_alloc OEmpty); [apply cls_empty|reflexivity|discriminate|intros c []]|]. intros a s1 C1 A1 [La _].
        eapply quiet_post; [apply plain_alloc; [apply cls_or|reflexivity|discriminate|]|intros r s2 _ _ K; eexists; exact K]. cbn. intros c Hc. apply in_ordered in Hc as [->| ->]; [exact La|apply (lv_grows n0 G _ _ item A1 L)].
      Qed.
      Lemma max_bound_quiet item rev : forall count s, lv (st_heap s) item -> quiet (max_bound item count rev) s (fun r s' => lv (st_heap s') r /\ ((count = 1 /\ r = item) \/ exists alts, placed n0 G (OOr alts) r s')).
      Proof.
        induction count as [|[|count] IH]; intros s L; cbn [max_bound]; [apply quiet_no_fuel|apply quiet_ret; auto|].
        change (quiet (bindM (max_bound item (S count) rev) (fun rest => bindM (RuleModel.new_rule [item; rest]) (fun a => alloc (OOr (RuleModel.ordered rev a item))))) s (fun r s' => lv (st_heap s') r /\ ((S (S count) = 1 /\ r = item) \/ exists alts, placed n0 G (OOr alts) r s'))).
        eapply quiet_bind; [apply IH, L|]. cbv beta. intros rest s1 C1 A1 [L1 _]. assert (Li := lv_grows n0 G _ _ item A1 L).
        eapply quiet_bind; [apply new_rule_quiet; intros c [<-|[<-|[]]]; assumption|]. cbv beta. intros a s2 C2 A2 (q & La & _). assert (Li2 := lv_grows n0 G _ _ item A2 Li).
        eapply quiet_post; [apply plain_alloc; [apply cls_or|reflexivity|discriminate|]|]. { cbn. intros c Hc. apply in_ordered in Hc as [->| ->]; assumption. }
        intros r s3 _ _ K. split; [apply K|]. right. eexists. exact K.
      Qed.
      Lemma given_vague p o r (s s' : state) : grows (st_heap s) (st_heap s') -> nth_error (st_heap s) p = Some o -> (forall h o', alike o o' -> nth_error h p = Some o' -> ~ solid h p) -> lv (st_heap s') r -> given p r s'.
      Proof.
        intros A E N L. split; [exact L|]. split; [|discriminate]. intros S. destruct (A p o E) as (o' & E' & K). destruct (N _ o' K E' S).
      Qed.
      Lemma replace_extended_quiet : method_quiet (easy cls) free never never n0 G replace_extended_method.
      Proof.
        intros V p o s HV L E. apply quiet_calm. intros C. destruct (proj2 (proj1 C) p o (proj1 L) E) as ([Po _] & _ & Ch & _).
        assert (Base := fun Ra => plain_base V p o s HV Ra L E).
        assert (Vague : (forall ps a, o <> OBNF ps a) -> (forall b ps a, o <> OPipeBNF b ps a) -> (forall m r rev, o <> OMax r m rev) -> firm o = false -> forall r (s' : state), grows (st_heap s) (st_heap s') -> lv (st_heap s') r -> given p r s').
        { intros N1 N2 N3 F r s' A Lr. apply (given_vague p o r s s' A E); [|exact Lr]. intros h o' K E' S. assert (Fo := firm_alike _ _ K). rewrite F in Fo.
          destruct S as [p o2 E2 F2|p x rev E2 S]; rewrite E' in E2; injection E2 as ->; [congruence|]. unfold alike in K. destruct (is_forward o) eqn:Fw; [discriminate|]. destruct K as (f & K). destruct o; try discriminate K. cbn in K. destruct (N3 _ _ _ eq_refl). }
        destruct o as [ps|rs|r0 rev|r0 rev|r0 rr ro|r0 m rev|r0 m rev|r0 m n' rev|r0 nm|r0 i|r0 rl|d| |pl|ps a|b ps a|ts m| |k ps]; cbn [replace_extended_method]; try (apply Base; reflexivity);
          (assert (L0 : lv (st_heap s) r0) by (apply Ch; left; reflexivity)); (eapply quiet_bind; [apply (HV r0 s L0)|]; intros child s1 C1 A1 Gc; assert (Lc := proj1 Gc)).
        - eapply quiet_post; [apply (optional_quiet child rev s1 Lc)|]. cbv beta. intros r s2 C2 A2 (alts & K). apply (plain_given p _ (OOr alts) r s s2 (grows_trans _ _ _ A1 A2) E eq_refl K).
        - eapply quiet_post; [apply (repeatable_quiet child rev s1 Lc)|]. cbv beta. intros r s2 C2 A2 Lr. apply Vague; try discriminate; [reflexivity|exact (grows_trans _ _ _ A1 A2)|exact Lr].
        - eapply quiet_post; [apply (repeatable_optional_quiet child rr ro s1 Lc)|]. cbv beta. intros r s2 C2 A2 Lr. apply Vague; try discriminate; [reflexivity|exact (grows_trans _ _ _ A1 A2)|exact Lr].
        - eapply quiet_bind; [apply (repeatable_quiet child rev s1 Lc)|]. cbv beta. intros last s2 C2 A2 Ll. eapply quiet_post; [apply new_rule_quiet|].
          + intros c Hc. apply in_app_or in Hc as [Hc|[<-|[]]]; [|exact Ll]. apply repeat_spec in Hc as ->. apply (lv_grows n0 G _ _ child A2 Lc).
          + cbv beta. intros r s3 C3 A3 (q & K). apply (plain_given p _ (ORule [q]) r s s3 (grows_trans _ _ _ (grows_trans _ _ _ A1 A2) A3) E eq_refl K).
        - eapply quiet_post; [apply (max_bound_quiet child rev m s1 Lc)|]. cbv beta. intros r s2 C2 A2 [Lr [[-> ->]|(alts & K)]].
          + assert (A := grows_trans _ _ _ A1 A2). assert (G2 : given r0 child s2) by (apply (given_grows (easy cls) free never never n0 G never_alike never_alike r0 child s1 s2 C1 A2); [apply (lv_grows n0 G _ _ r0 A1 L0)|exact Gc]).
            split; [exact Lr|]. split; [|discriminate]. intros S. apply (proj1 (proj2 G2)). destruct (A p _ E) as (o' & E' & K). apply alike_same in K; [|reflexivity|discriminate|discriminate]. subst o'.
            destruct S as [p o2 E2 F2|p x rv E2 S]; rewrite E' in E2; injection E2 as E2; [subst o2; discriminate|]. subst x. exact S.
          + apply (plain_given p _ (OOr alts) r s s2 (grows_trans _ _ _ A1 A2) E eq_refl K).
        - eapply quiet_bind; [apply (max_bound_quiet child rev (n' - m + 1) s1 Lc)|]. cbv beta. intros last s2 C2 A2 [Ll _]. eapply quiet_post; [apply new_rule_quiet|].
          + intros c Hc. apply in_app_or in Hc as [Hc|[<-|[]]]; [|exact Ll]. apply repeat_spec in Hc as ->. apply (lv_grows n0 G _ _ child A2 Lc).
          + cbv beta. intros r s3 C3 A3 (q & K). apply (plain_given p _ (ORule [q]) r s s3 (grows_trans _ _ _ (grows_trans _ _ _ A1 A2) A3) E eq_refl K).
      Qed.
    End Extended.

    (** ** Replacing alternatives and empty rules, flattening *)
    Hypothesis no_raising : forall o, cls o = true -> raising o = false.
    Lemma replace_or_quiet : method_quiet (easy cls) free never never n0 G replace_or_method.
    Proof.
      intros V p o s HV L E. apply quiet_calm. intros C. destruct (proj2 (proj1 C) p o (proj1 L) E) as ([Po _] & _ & Ch & _).
      assert (Base := plain_base V p o s HV (no_raising o Po) L E). destruct o; cbn [replace_or_method]; try exact Base.
      eapply quiet_bind.
      - apply (quiet_map (easy cls) free never never n0 G _ (fun x s => lv (st_heap s) x) (fun _ q s => lv (st_heap s) q)).
        + intros x t Lx. eapply quiet_bind; [apply (HV x t Lx)|]. intros r' t1 _ _ [Lr _]. eapply quiet_post; [apply (plain_alloc (OProd [TRule r'] 0)); [apply cls_prod|reflexivity|discriminate|intros c [<-|[]]; exact Lr]|]. intros q t2 _ _ [Lq _]. exact Lq.
        + intros x t t' _ A. apply (lv_grows n0 G _ _ x A).
        + intros x y t t' _ A _. apply (lv_grows n0 G _ _ y A).
        + exact Ch.
      - cbv beta. intros qs s1 C1 A1 F. eapply quiet_post; [apply (plain_alloc (ORule qs)); [apply cls_rule|reflexivity|discriminate|]|].
        + intros c Hc. destruct (forall2_right _ _ _ c F Hc) as (x & _ & K). exact K.
        + intros r s2 _ A2 K. apply (plain_given p _ (ORule qs) r s s2 (grows_trans _ _ _ A1 A2) E eq_refl K).
    Qed.
    Lemma replace_empty_quiet : cls OEmptyProd = true -> method_quiet (easy cls) free never never n0 G replace_empty_method.
    Proof.
      intros Ce V p o s HV L E. apply quiet_calm. intros C. destruct (proj2 (proj1 C) p o (proj1 L) E) as ([Po _] & _).
      assert (Base := plain_base V p o s HV (no_raising o Po) L E). destruct o; cbn [replace_empty_method]; try exact Base.
      eapply quiet_bind; [apply (plain_alloc OEmptyProd); [exact Ce|reflexivity|discriminate|intros c []]|]. intros q s1 C1 A1 [Lq _].
      eapply quiet_post; [apply (plain_alloc (ORule [q])); [apply cls_rule|reflexivity|discriminate|intros c [<-|[]]; exact Lq]|].
      intros r s2 _ A2 K. apply (plain_given p _ (ORule [q]) r s s2 (grows_trans _ _ _ A1 A2) E eq_refl K).
    Qed.
  End Plain.

  (** ** Flattening *)
  Section Flatten.
    Variable n0 : nat.
    Variable G : nat -> Prop.
    Definition parts (o oc : obj) : Prop := has_prods o = true -> is_prod oc = true.
    Notation cls := (no_empty (pred := pred) (pipe := pipe) (bnf := bnf)).
    Notation quiet := (quiet (easy cls) parts is_prod is_prod n0 G).
    Notation lv := (lv n0 G).
    Notation given := (given is_prod is_prod n0 G).
    Notation visits_quiet := (visits_quiet (easy cls) parts is_prod is_prod n0 G).
    Lemma prod_alike (o o' : obj) : alike o o' -> is_prod o' = is_prod o.
    Proof. apply alike_const; [reflexivity|intros g []; reflexivity]. Qed.
    Lemma parts_alike o oc oc' : alike oc oc' -> parts o oc -> parts o oc'.
    Proof. intros K A Q. rewrite (prod_alike oc oc' K). auto. Qed.
    Lemma prod_tag (o o' : obj) : same_tag o o' -> is_prod o' = is_prod o /\ has_prods o' = has_prods o /\ cls o' = cls o.
    Proof. destruct o, o'; intros []; auto. Qed.
    Lemma flat_base V p (o : obj) s : visits_quiet V -> lv (st_heap s) p -> nth_error (st_heap s) p = Some o -> quiet (base_method V p o) s (given p).
    Proof.
      intros HV L E. apply quiet_calm. intros C. destruct (proj2 (proj1 C) p o (proj1 L) E) as ([Po _] & _).
      apply (base_quiet (easy cls) parts is_prod is_prod n0 G parts_alike prod_alike prod_alike); auto; try exact (easy_again cls (fun o o' T => proj2 (proj2 (prod_tag o o' T)))).
      - intros o1 o2 oc oc' T A B Q. rewrite (proj1 (proj2 (prod_tag o1 o2 T))) in Q. auto.
      - intros o1 o2 [T| ->] Q; [rewrite (proj1 (prod_tag o1 o2 T))|]; exact Q.
      - destruct o; try discriminate; reflexivity.
      - destruct o; try discriminate; reflexivity.
    Qed.
    Definition term_fine (t : term pred) (s : state) : Prop := match t with TRule r => lv (st_heap s) r | TPred _ => True end.
    Lemma term_fine_grows t (s s' : state) : grows (st_heap s) (st_heap s') -> term_fine t s -> term_fine t s'.
    Proof. destruct t as [r|x]; cbn; [intros A; apply (lv_grows n0 G _ _ r A)|auto]. Qed.
    Lemma children_terms (o : obj) r : In (TRule r) (production_terms o) -> In r (children o).
    Proof. destruct o; cbn; try tauto; try (intros K; apply rule_terms_of, K); intros K; apply in_map_iff in K as (x & K & _); discriminate. Qed.
    Lemma flatten_term_quiet V k : visits_quiet V -> forall t s, term_fine t s -> quiet (flatten_term k V t) s term_fine.
    Proof.
      intros HV. assert (Vt : forall t s, term_fine t s -> quiet (visit_term V t) s term_fine).
      { intros [r|x] s L; cbn [visit_term]; [|apply quiet_ret; exact I]. eapply quiet_bind; [apply (HV r s L)|]. intros r' s1 _ _ [Lr _]. apply quiet_ret. exact Lr. }
      induction k as [|k IH]; intros t s L; cbn [flatten_term]; [apply quiet_no_fuel|]. destruct t as [r|x]; [|apply quiet_ret; exact I].
      apply quiet_calm. intros C. apply quiet_bind_get; [apply L|]. intros o E. destruct (proj2 (proj1 C) r o (proj1 L) E) as (_ & _ & Ch & _).
      destruct o as [[|q [|q2 ps]]| | | | | | | | | | | | | | | | | |]; try (apply Vt; exact L).
      assert (Lq : lv (st_heap s) q) by (apply Ch; left; reflexivity). apply quiet_bind_get; [apply Lq|]. intros o' E'. destruct (proj2 (proj1 C) q o' (proj1 Lq) E') as (_ & _ & Chq & _).
      destruct (production_terms o') as [|t' [|t2 ts]] eqn:Et; try (apply Vt; exact L). apply IH. destruct t' as [r'|x']; [|exact I]. apply Chq, children_terms. rewrite Et. left. reflexivity.
    Qed.
    Lemma flatten_quiet k : method_quiet (easy cls) parts is_prod is_prod n0 G (flatten_method k).
    Proof.
      intros V p o s HV L E. apply quiet_calm. intros C. destruct (proj2 (proj1 C) p o (proj1 L) E) as ([Po _] & _ & Ch & _).
      assert (Base := flat_base V p o s HV L E). destruct o as [| | | | | | | | | | | | | | | |ts m| |]; cbn [flatten_method]; try exact Base. clear Base.
      assert (Default : quiet (bindM (mapMM (flatten_term k V) ts) (fun ts' => alloc (OProd ts' m))) s (given p)).
      { eapply quiet_bind.
        - apply (quiet_map (easy cls) parts is_prod is_prod n0 G _ term_fine (fun _ t s => term_fine t s)).
          + intros t s1 Lt. apply (flatten_term_quiet V k HV t s1 Lt).
          + intros t s1 s2 _ A. apply (term_fine_grows t s1 s2 A).
          + intros t0 t s1 s2 _ A _. apply (term_fine_grows t s1 s2 A).
          + intros [r|x] Ht; [|exact I]. apply Ch. cbn. apply rule_terms_of, Ht.
        - cbv beta. intros ts' s1 C1 A1 F. eapply quiet_post; [apply (quiet_alloc (easy cls) parts is_prod is_prod n0 G parts_alike prod_alike prod_alike (OProd ts' m))|].
          + intros q _. split; [reflexivity|discriminate].
          + reflexivity.
          + cbn. intros c Hc. apply rule_terms_of in Hc. destruct (forall2_right _ _ _ _ F Hc) as (x & _ & K). exact K.
          + intros c oc _ _ Q. discriminate.
          + intros r s2 _ A2 K. apply (placed_given is_prod is_prod n0 G prod_alike p _ (OProd ts' m) r s s2 (grows_trans _ _ _ A1 A2) E eq_refl (fun _ => eq_refl) K). }
      destruct ts as [|[r|x] [|t2 ts]]; try exact Default. assert (Lr : lv (st_heap s) r) by (apply Ch; left; reflexivity). apply quiet_bind_get; [apply Lr|]. intros o' E'.
      destruct o' as [[|q [|q2 ps]]| | | | | | | | | | | | | | | | | |]; try exact Default. destruct (proj2 (proj1 C) r _ (proj1 Lr) E') as (_ & _ & Chr & _ & Sr).
      assert (Lq : lv (st_heap s) q) by (apply Chr; left; reflexivity). assert (exists oq, nth_error (st_heap s) q = Some oq) as (oq & Eq) by (destruct (nth_error (st_heap s) q) eqn:X; [eauto|]; apply nth_error_None in X; destruct Lq; lia).
      assert (Pq := Sr q oq (or_introl eq_refl) Eq eq_refl).
      eapply quiet_post; [apply (HV q s Lq)|]. intros r' s1 C1 A1 [Lr' [R1 R2]]. destruct (A1 q oq Eq) as (oq' & Eq' & K). assert (Pq' : is_prod oq' = true) by (rewrite (prod_alike _ _ K); exact Pq).
      split; [exact Lr'|]. split; [|intros o _ _; apply (R2 oq' Eq' Pq')]. intros _. apply R1. apply (solid_here _ _ oq' Eq'). destruct oq'; try discriminate; reflexivity.
    Qed.
  End Flatten.

  (** ** Rule.normalized *)
  Definition unraised {A} (x : option (res A)) (Q : A -> Prop) : Prop := match x with Some (Ok a) => Q a | Some (Err _) => False | None => True end.
  Lemma unraised_then {A B} (x : option (res A)) (f : A -> option (res B)) (Q : A -> Prop) (Q' : B -> Prop) : unraised x Q -> (forall a, x = Some (Ok a) -> Q a -> unraised (f a) Q') -> unraised (then_ x f) Q'.
  Proof. destruct x as [[a|e]|]; cbn; intros H F; [apply (F a eq_refl H)|exact H|exact I]. Qed.
  Variable pipe_bnf : pipe -> res bnf.
  Variable bnf_lines : bnf -> list (str * list pred).
  Lemma graph_side cls special (side : obj -> obj -> Prop) (h : heap) root : graph cls special h (reach h root) ->
    (forall o oc, is_prod oc = has_prods o -> (special o = true -> special oc = false) -> side o oc) ->
    forall p o c oc, reach h root p -> nth_error h p = Some o -> In c (children o) -> nth_error h c = Some oc -> side o oc.
  Proof.
    intros Gr Si p o c oc Rp E Hc Ec. destruct (Gr p Rp) as (o' & E' & _ & _ & C). rewrite E in E'. injection E' as <-. destruct (C c Hc) as (_ & oc' & Ec' & K1 & K2). rewrite Ec in Ec'. injection Ec' as <-. auto.
  Qed.
  (** One pass. *)
  Lemma pass_quiet cls produced special (side : obj -> obj -> Prop) (mark : obj -> bool) method fuel (h : heap) root :
    (forall o, produced o = true -> cls o = true) -> (forall d, produced (OForward d) = true) -> (forall d, special (OForward d) = false) ->
    (forall n0 G, method_ok pipe_bnf bnf_lines cls produced special n0 G method) ->
    (forall n0 G, method_quiet (easy cls) side mark mark n0 G method) ->
    (forall o oc, is_prod oc = has_prods o -> (special o = true -> special oc = false) -> side o oc) ->
    (forall d oc, side (OForward d) oc) -> (forall o oc oc', alike oc oc' -> side o oc -> side o oc') -> (forall o o', alike o o' -> mark o' = mark o) ->
    ready cls h root -> graph cls special h (reach h root) ->
    unraised (run_visit method fuel h root) (fun a => ready produced (snd a) (fst a) /\ graph produced special (snd a) (reach (snd a) (fst a)) /\ grows h (snd a)).
  Proof.
    intros PA PF SF OK Q Si SFw SA MA R Gr.
    assert (L : lv (length h) (reach h root) h root) by (split; [left; apply reach_refl|]; destruct (R root (reach_refl h root)) as (o & E & _); apply nth_error_Some; congruence).
    assert (CF : forall (p d : nat), sort cls (OForward (Some d))) by (intros _ d; split; [apply PA, PF|discriminate]).
    assert (X := run_quiet (easy cls) side mark mark (length h) (reach h root) CF SFw SA MA MA method (Q _ _) fuel h root (ready_fits cls side h root R (graph_side cls special side h root Gr Si)) L).
    assert (Y := pass_ok pipe_bnf bnf_lines cls produced special PA PF SF method OK fuel h root (reach h root)).
    destruct (run_visit method fuel h root) as [[[r h']|e]|]; cbn; [|exact X|exact I]. destruct X as (F & Lr & A & _). destruct (Y r h' Gr (reach_refl h root) eq_refl) as (Gr' & _).
    split; [|split; [exact Gr'|exact A]]. apply (fits_ready cls produced side _ _ special h' r F Lr Gr').
  Qed.
  Lemma free_alike (o oc oc' : obj) : alike oc oc' -> free o oc -> free o oc'. Proof. auto. Qed.
  Lemma tag_plain (o o' : obj) : same_tag o o' -> plain o' = plain o. Proof. destruct o, o'; intros []; reflexivity. Qed.
  Lemma tag_no_quant (o o' : obj) : same_tag o o' -> no_quant o' = no_quant o. Proof. destruct o, o'; intros []; reflexivity. Qed.
  Lemma tag_no_or (o o' : obj) : same_tag o o' -> no_or o' = no_or o. Proof. destruct o, o'; intros []; reflexivity. Qed.
  Theorem normalized_quiet fuel (h : heap) root : ready plain h root -> graph plain is_quant h (reach h root) ->
    unraised (normalized fuel h root) (fun a => ready no_empty (snd a) (fst a) /\ graph no_empty nothing (snd a) (reach (snd a) (fst a)) /\ grows h (snd a)).
  Proof.
    intros R Gr. unfold normalized.
    eapply unraised_then; [apply (pass_quiet plain plain is_quant apart single squash_method fuel h root (fun _ e => e) (fun _ => eq_refl) (fun _ => eq_refl) (squash_ok pipe_bnf bnf_lines) squash_quiet);
      [intros o oc _ K; exact K|intros d oc K; discriminate|intros o oc oc'; apply apart_alike|apply single_alike|exact R|exact Gr]|].
    cbv beta. intros (r1 & h1) _ (R1 & G1 & A1). cbn [fst snd] in *. apply (graph_nothing plain is_quant) in G1.
    eapply unraised_then; [apply (pass_quiet plain no_quant nothing free never replace_extended_method fuel h1 r1 no_quant_plain (fun _ => eq_refl) (fun _ => eq_refl) (replace_extended_ok pipe_bnf bnf_lines));
      [intros n0 G; apply replace_extended_quiet; auto using tag_plain|intros; exact I|intros; exact I|apply free_alike|reflexivity|exact R1|exact G1]|].
    cbv beta. intros (r2 & h2) _ (R2 & G2 & A2). cbn [fst snd] in *.
    eapply unraised_then; [apply (pass_quiet no_quant no_or nothing free never replace_or_method fuel h2 r2 no_or_quant (fun _ => eq_refl) (fun _ => eq_refl) (replace_or_ok pipe_bnf bnf_lines));
      [intros n0 G; apply replace_or_quiet; auto using tag_no_quant; intros []; intros K; try discriminate; reflexivity|intros; exact I|intros; exact I|apply free_alike|reflexivity|exact R2|exact G2]|].
    cbv beta. intros (r3 & h3) _ (R3 & G3 & A3). cbn [fst snd] in *.
    eapply unraised_then; [apply (pass_quiet no_or no_empty nothing free never replace_empty_method fuel h3 r3 no_empty_or (fun _ => eq_refl) (fun _ => eq_refl) (replace_empty_ok pipe_bnf bnf_lines));
      [intros n0 G; apply replace_empty_quiet; auto using tag_no_or; intros []; intros K; try discriminate; reflexivity|intros; exact I|intros; exact I|apply free_alike|reflexivity|exact R3|exact G3]|].
    cbv beta. intros (r4 & h4) _ (R4 & G4 & A4). cbn [fst snd] in *.
    assert (X := pass_quiet no_empty no_empty nothing parts is_prod (flatten_method fuel) fuel h4 r4 (fun _ e => e) (fun _ => eq_refl) (fun _ => eq_refl) (fun n0 G => flatten_ok pipe_bnf bnf_lines n0 G fuel) (fun n0 G => flatten_quiet n0 G fuel)).
    destruct (run_visit (flatten_method fuel) fuel h4 r4) as [[[r5 h5]|e]|]; cbn in *; [|apply X|exact I]; try exact R4; try exact G4; try exact prod_alike; try (intros d oc K; discriminate); try (intros o oc oc'; apply parts_alike); try (intros o oc K _ Q; congruence).
    destruct X as (R5 & G5 & A5); try exact R4; try exact G4; try exact prod_alike; try (intros d oc K; discriminate); try (intros o oc oc'; apply parts_alike); try (intros o oc K _ Q; congruence).
    split; [exact R5|]. split; [exact G5|]. exact (grows_trans _ _ _ A1 (grows_trans _ _ _ A2 (grows_trans _ _ _ A3 (grows_trans _ _ _ A4 A5)))).
  Qed.
End Usable.
