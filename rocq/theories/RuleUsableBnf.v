(** Building a parser raises nothing on usable rules. *)
From Verif Require Import Base EarleyModel RuleModel RuleSpec RuleWords RuleLike RulePass RuleMethods RuleNormal RuleNormalized RuleOrder RuleBfs RuleEnds RuleBuild RuleUsableSpec RuleQuiet RuleUsable.
From Verif Require RuleBNF.
Open Scope nat_scope.

Section Convert.
  Context {pred pipe bnf : Type}.
  Notation obj := (obj pred pipe bnf).
  Notation heap := (heap pred pipe bnf).
  Notation visitor := (visitor pred pipe bnf).
  Notation state := (state pred pipe bnf).
  Notation M := (M pred pipe bnf).
  Variable pipe_bnf : pipe -> res bnf.
  Variable bnf_lines : bnf -> list (str * list pred).
  Definition converts (x : pipe) : Prop := exists b, pipe_bnf x = Ok b.
  Definition wrapper (o : obj) : bool := match o with ONamed _ _ | OInterp _ _ | ORelation _ _ => true | _ => false end.
  Definition convertible (o : obj) : bool := negb (is_quant o) && match o with OOr _ | OEmpty => false | _ => true end.

  (** ** BNFTransformator *)
  Section Pass.
    Variable parents : list nat.
    Variable n0 : nat.
    Variable G : nat -> Prop.
    Definition counted (p : nat) (o : obj) : Prop := sort converts convertible o /\ (wrapper o = true -> forall c, In c (children o) -> In c parents).
    Definition wrapping (o oc : obj) : Prop := wrapper o = true -> is_prod oc = false.
    Definition whole (o : obj) : bool := negb (is_prod o) && negb (is_forward o).
    Notation quiet := (quiet counted wrapping whole is_bnf n0 G).
    Notation lv := (lv n0 G).
    Notation given := (given whole is_bnf n0 G).
    Notation visits_quiet := (visits_quiet counted wrapping whole is_bnf n0 G).
    Notation calm := (calm counted wrapping whole is_bnf n0 G).
    Lemma whole_alike (o o' : obj) : alike o o' -> whole o' = whole o.
    Proof. apply alike_const; [reflexivity|intros g []; reflexivity]. Qed.
    Lemma bnf_alike (o o' : obj) : alike o o' -> is_bnf o' = is_bnf o.
    Proof. apply alike_const; [reflexivity|intros g []; reflexivity]. Qed.
    Lemma wrapping_alike o oc oc' : alike oc oc' -> wrapping o oc -> wrapping o oc'.
    Proof. intros K A W. rewrite (prod_alike _ _ K). auto. Qed.
    Lemma conv_alloc (o : obj) s : convertible o = true -> wrapper o = false -> is_forward o = false -> (forall x, o <> OPipeline x) -> (forall c, In c (children o) -> lv (st_heap s) c) -> quiet (alloc o) s (placed n0 G o).
    Proof.
      intros Co W F N C. apply (quiet_alloc counted wrapping whole is_bnf n0 G wrapping_alike whole_alike bnf_alike); [|exact F|exact C|intros c oc _ _ K; congruence].
      intros q _. split; [split; [exact Co|intros x K; destruct (N x K)]|congruence].
    Qed.
    Definition bnf_at (r : nat) (s : state) : Prop := lv (st_heap s) r /\ exists o, nth_error (st_heap s) r = Some o /\ is_bnf o = true.
    Lemma lift_quiet r s : lv (st_heap s) r -> quiet (lift r) s bnf_at.
    Proof.
      intros L. unfold lift. eapply quiet_bind; [apply (conv_alloc (OProd [TRule r] 0)); try reflexivity; [discriminate|intros c [<-|[]]; exact L]|]. intros q s1 C1 A1 [Lq _].
      eapply quiet_post; [apply (conv_alloc (OBNF [q] no_attributes)); try reflexivity; [discriminate|intros c [<-|[]]; exact Lq]|]. intros r' s2 _ _ [Lr Er]. split; [exact Lr|]. eexists. split; [exact Er|reflexivity].
    Qed.
    Lemma put_calm (s : state) r o f : calm s -> lv (st_heap s) r -> nth_error (st_heap s) r = Some o -> is_bnf o = true ->
      calm (mkState (setitem (st_heap s) r (update_attributes f o)) (st_visited s)) /\ grows (st_heap s) (setitem (st_heap s) r (update_attributes f o)).
    Proof.
      intros C L E B. assert (Lh : r < length (st_heap s)) by apply L. set (h := st_heap s) in *.
      assert (A : grows h (setitem h r (update_attributes f o))).
      { intros q x Ex. destruct (Nat.eq_dec q r) as [->|Ne]; [|rewrite setitem_other by auto; exists x; split; [exact Ex|apply alike_refl]].
        rewrite setitem_same by exact Lh. rewrite E in Ex. injection Ex as <-. eexists. split; [reflexivity|]. unfold alike. destruct o; try discriminate; cbn; eauto. }
      split; [|exact A]. apply (calm_heap counted wrapping whole is_bnf n0 G whole_alike bnf_alike s _ C A). destruct (proj1 C) as [N F]. fold h in N, F. split; [rewrite setitem_length; exact N|].
      intros q x Lq Ex. destruct (Nat.eq_dec q r) as [->|Ne].
      - rewrite setitem_same in Ex by exact Lh. injection Ex as <-. destruct (F r o Lq E) as (Al & N1 & Ch & D & Si). split; [|split; [|split; [|split]]].
        + destruct o; try discriminate; (split; [split; [reflexivity|discriminate]|discriminate]).
        + destruct o; discriminate.
        + intros c Hc. apply (lv_grows n0 G _ _ c A), Ch. destruct o; try discriminate; exact Hc.
        + intros d. destruct o; discriminate.
        + intros c oc _ _ W. destruct o; discriminate.
      - rewrite setitem_other in Ex by auto. apply (fit_grows counted wrapping n0 G wrapping_alike h _ q x A), (F q x Lq Ex).
    Qed.
    Lemma set_attribute_quiet present update r s : bnf_at r s -> quiet (set_attribute present update r) s bnf_at.
    Proof.
      intros [L (o & E & B)]. unfold set_attribute. apply quiet_bind_get; [apply L|]. intros o' E'. rewrite E in E'. injection E' as <-.
      assert (exists a, get_attributes o = Some a) as (a & Ea) by (destruct o; try discriminate; cbn; eauto). rewrite Ea.
      eapply (quiet_bind counted wrapping whole is_bnf n0 G) with (Q := bnf_at).
      { destruct (present a); [apply lift_quiet, L|apply quiet_ret]. split; [exact L|eauto]. }
      intros r' s1 C1 A1 [Lr (o2 & E2 & B2)]. apply quiet_bind_get; [apply Lr|]. intros o3 E3. rewrite E2 in E3. injection E3 as <-. intros _. unfold bindM, put, ret. cbn.
      destruct (put_calm s1 r' o2 update C1 Lr E2 B2) as [C2 A2]. split; [exact C2|]. split; [exact A2|]. split; [apply (lv_grows n0 G _ _ r' A2 Lr)|]. cbn. rewrite setitem_same by apply Lr.
      eexists. split; [reflexivity|]. destruct o2; try discriminate; reflexivity.
    Qed.
    Lemma bnf_given p o r (s s' : state) : grows (st_heap s) (st_heap s') -> nth_error (st_heap s) p = Some o -> bnf_at r s' -> given p r s'.
    Proof. intros A E [L (o' & E' & B)]. apply (placed_given whole is_bnf n0 G whole_alike p o o' r s s' A E); [destruct o'; try discriminate; reflexivity|auto|split; [exact L|exact E']]. Qed.
    Lemma wrapper_quiet V c s : visits_quiet V -> lv (st_heap s) c -> In c parents -> (forall oc, nth_error (st_heap s) c = Some oc -> is_prod oc = false) -> quiet (visit_WrapperRule parents V c) s bnf_at.
    Proof.
      intros HV L Hp Np. unfold visit_WrapperRule. apply quiet_bind_get; [apply L|]. intros oc Ec. destruct (is_forward oc) eqn:F; [apply lift_quiet, L|].
      assert (exists b, is_shared (pred := pred) (pipe := pipe) (bnf := bnf) parents c = ret b) as (b & ->).
      { unfold is_shared. assert (K := RuleBNF.count_in parents c Hp). destruct (count_occ Nat.eq_dec parents c); [lia|]. eauto. }
      eapply (quiet_bind counted wrapping whole is_bnf n0 G) with (Q := fun b' s' => b' = b /\ s' = s); [intros C; cbn; split; [exact C|split; [apply grows_refl|auto]]|].
      intros b' s0 _ _ [-> ->]. eapply quiet_bind; [apply (HV c s L)|]. intros r s1 C1 A1 (Lr & _ & R). destruct (A1 c oc Ec) as (oc' & Ec' & K).
      destruct (R oc' Ec') as (o' & Eo & Bo). { rewrite (whole_alike _ _ K). unfold whole. rewrite F, (Np oc Ec). reflexivity. }
      destruct b; [apply lift_quiet, Lr|apply quiet_ret]. split; [exact Lr|eauto].
    Qed.
    Lemma bnf_quiet : method_quiet counted wrapping whole is_bnf n0 G (bnf_method pipe_bnf bnf_lines parents).
    Proof.
      intros V p o s HV L E. apply quiet_calm. intros C. destruct (proj2 (proj1 C) p o (proj1 L) E) as (([Co Pi] & Cp) & No & Ch & So & Si).
      assert (Rule : forall ps, children o = ps -> quiet (bindM (mapMM V ps) (fun ps' => alloc (OBNF ps' no_attributes))) s (given p)).
      { intros ps Eps. rewrite Eps in Ch. eapply quiet_bind; [apply (visit_all counted wrapping whole is_bnf n0 G whole_alike bnf_alike V ps s HV Ch)|]. cbv beta. intros ys s1 C1 A1 F.
        eapply quiet_post; [apply (conv_alloc (OBNF ys no_attributes)); try reflexivity; [discriminate|]|].
        - intros c Hc. destruct (forall2_right _ _ _ c F Hc) as (x & _ & K & _). exact K.
        - intros r s2 _ A2 [Lr Er]. apply (bnf_given p o r s s2 (grows_trans _ _ _ A1 A2) E). split; [exact Lr|]. eexists. split; [exact Er|reflexivity]. }
      assert (Self : whole o = false -> quiet (ret p) s (given p)).
      { intros W. apply quiet_ret, given_self; [exact L|]. intros x Ex Bx. rewrite E in Ex. injection Ex as <-. congruence. }
      assert (Wrap : wrapper o = true -> forall c present update, children o = [c] -> quiet (bindM (visit_WrapperRule parents V c) (set_attribute present update)) s (given p)).
      { intros W c present update Ec. assert (Hc : In c (children o)) by (rewrite Ec; left; reflexivity).
        eapply quiet_bind; [apply (wrapper_quiet V c s HV (Ch c Hc) (Cp W c Hc)); intros oc Eoc; apply (Si c oc Hc Eoc W)|]. intros r s1 C1 A1 B1. eapply quiet_post; [apply (set_attribute_quiet present update r s1 B1)|].
        intros r2 s2 _ A2 B2. apply (bnf_given p o r2 s s2 (grows_trans _ _ _ A1 A2) E B2). }
      destruct o as [ps|rs|r0 rev|r0 rev|r0 rr ro|r0 m rev|r0 m rev|r0 m n' rev|r0 nm|r0 i|r0 rl|d| |pl|ps a|b ps a|ts m| |k ps]; try discriminate Co; cbn [bnf_method base_method]; try (apply Rule; reflexivity); try (apply Self; reflexivity); try (apply Wrap; reflexivity).
      - destruct (Pi pl eq_refl) as (b & ->). unfold new_pipeline. eapply quiet_bind.
        + apply (quiet_map counted wrapping whole is_bnf n0 G _ (fun _ _ => True) (fun _ q s => lv (st_heap s) q)); auto.
          * intros [key xs] t _. eapply quiet_post; [apply (conv_alloc (OPipeProd key xs)); try reflexivity; [discriminate|intros c []]|]. intros q t1 _ _ [Lq _]. exact Lq.
          * intros x y t t' _ A _. apply (lv_grows n0 G _ _ y A).
        + cbv beta. intros qs s1 C1 A1 F. eapply quiet_post; [apply (conv_alloc (OPipeBNF b qs no_attributes)); try reflexivity; [discriminate|]|].
          * intros c Hc. destruct (forall2_right _ _ _ c F Hc) as (x & _ & K). exact K.
          * intros r s2 _ A2 [Lr Er]. apply (bnf_given p _ r s s2 (grows_trans _ _ _ A1 A2) E). split; [exact Lr|]. eexists. split; [exact Er|reflexivity].
      - unfold visit_Production. eapply quiet_bind; [apply (terms_quiet counted wrapping whole is_bnf n0 G whole_alike bnf_alike V ts s HV); intros r Ht; apply Ch; cbn; apply rule_terms_of, Ht|].
        cbv beta. intros ts' s1 C1 A1 F. eapply quiet_post; [apply (conv_alloc (OProd ts' m)); try reflexivity; [discriminate|]|].
        + cbn. intros c Hc. apply rule_terms_of in Hc. destruct (forall2_right _ _ _ _ F Hc) as (t & _ & (r & _ & K & _)). exact K.
        + intros r s2 _ A2 K. apply (placed_given whole is_bnf n0 G whole_alike p _ (OProd ts' m) r s s2 (grows_trans _ _ _ A1 A2) E eq_refl); [discriminate|exact K].
    Qed.
  End Pass.

  (** Closed sets of objects without undefined forward rules. *)
  Definition defined (h : heap) (G : nat -> Prop) : Prop := forall p, G p -> exists o, nth_error h p = Some o /\ o <> OForward None /\ forall c, In c (children o) -> G c.
  Lemma to_bnf_quiet fuel (h : heap) root : ready converts no_empty h root -> graph no_empty nothing h (reach h root) ->
    unraised (to_bnf pipe_bnf bnf_lines fuel h root) (fun a => exists G, defined (snd a) G /\ G (fst a)).
  Proof.
    intros R Gr. unfold to_bnf. destruct (bfs fuel h root) as [objects|] eqn:B; [|exact I]. destruct (bfs_ok h fuel root objects B) as (_ & Re & _).
    set (parents := count_parents h objects).
    assert (F : fits (counted parents) wrapping (length h) (reach h root) h).
    { split; [lia|]. intros p o Lp E. assert (Rp : reach h root p) by (destruct Lp as [Lp|Lp]; [exact Lp|]; assert (p < length h) by (apply nth_error_Some; congruence); lia).
      destruct (R p Rp) as (o' & E' & [So Pi] & No & D). rewrite E in E'. injection E' as <-. destruct (Gr p Rp) as (o' & E' & _ & _ & K). rewrite E in E'. injection E' as <-.
      split; [split; [split; [destruct o; try discriminate; reflexivity|exact Pi]|]|].
      - intros _ c Hc. unfold parents, count_parents. apply in_flat_map. exists p. split; [apply Re, Rp|]. rewrite E. exact Hc.
      - split; [exact No|]. split; [|split; [exact D|]].
        + intros c Hc. assert (Rc := reach_step h root p o c Rp E Hc). split; [left; exact Rc|]. destruct (R c Rc) as (oc & Ec & _). apply nth_error_Some. congruence.
        + intros c oc Hc Ec W. destruct (K c Hc) as (_ & oc' & Ec' & Kc & _). rewrite Ec in Ec'. injection Ec' as <-. rewrite Kc. destruct o; try discriminate; reflexivity. }
    assert (L : lv (length h) (reach h root) h root) by (split; [left; apply reach_refl|]; destruct (R root (reach_refl h root)) as (o & E & _); apply nth_error_Some; congruence).
    assert (CF : forall p d : nat, counted parents p (OForward (Some d))) by (intros p d; split; [split; [reflexivity|discriminate]|discriminate]).
    assert (WF : forall d (oc : obj), wrapping (OForward d) oc) by (intros d oc K; discriminate).
    assert (X := run_quiet (counted parents) wrapping whole is_bnf (length h) (reach h root) CF WF wrapping_alike whole_alike bnf_alike _ (bnf_quiet parents (length h) (reach h root)) fuel h root F L).
    destruct (run_visit (bnf_method pipe_bnf bnf_lines parents) fuel h root) as [[[r h']|e]|]; cbn; [|exact X|exact I]. destruct X as (F' & Lr & _). exists (lv (length h) (reach h root) h'). split; [|exact Lr].
    intros p [Lp Bp]. destruct (nth_error h' p) as [o|] eqn:E; [|apply nth_error_None in E; lia]. exists o. split; [reflexivity|]. destruct (proj2 F' p o Lp E) as (_ & N & Ch & _). split; [exact N|exact Ch].
  Qed.

  (** ** Transformations in place *)
  Section Inplace.
    Variable act : nat -> M nat.
    (** Conditions on heaps kept by the action. *)
    Variable fine : heap -> Prop.
    Variable G : nat -> Prop.
    Hypothesis fine_get : forall h p, fine h -> G p -> exists o, nth_error h p = Some o /\ forall c, In c (children o) -> G c.
    Hypothesis act_fine : forall p s, fine (st_heap s) -> G p -> unraised (act p s) (fun '(r, s') => fine (st_heap s') /\ G r).
    Lemma inplace_walk : forall fuel queue vis (s : state), fine (st_heap s) -> (forall x, In x queue -> G x) -> unraised (walk_loop fuel (fun p => bindM (act p) (fun _ => ret tt)) queue vis s) (fun '(_, s') => fine (st_heap s')).
    Proof.
      induction fuel as [|fuel IH]; intros [|x queue] vis s F Q; cbn [walk_loop]; try exact F; try exact I. assert (Gx : G x) by (apply Q; left; reflexivity).
      assert (X := act_fine x s F Gx). unfold bindM at 1. unfold bindM at 1. destruct (act x s) as [[[r s1]|e]|]; cbn in *; [|exact X|exact I]. destruct X as [F1 _].
      unfold bindM, get. destruct (fine_get (st_heap s1) x F1 Gx) as (o & E & Ch). rewrite E. destruct (enqueue (children o) queue vis) as [q v] eqn:En.
      destruct (enqueue_spec _ _ _ _ _ En) as (_ & _ & _ & _ & A5). apply (IH q v s1 F1). intros y Hy. destruct (A5 y Hy) as [K|K]; [apply Q; right; exact K|apply Ch, K].
    Qed.
    Lemma inplace_quiet fuel h root : fine h -> G root -> unraised (run_inplace act fuel h root) (fun '(r, h') => fine h' /\ G r).
    Proof.
      intros F R. unfold run_inplace, transform_inplace, walk. assert (X := inplace_walk fuel [root] [root] (mkState h []) F (fun x H => match H with or_introl e => eq_ind root G R x e | or_intror K => match K with end end)).
      unfold bindM at 1. destruct (walk_loop fuel _ [root] [root] (mkState h [])) as [[[u s1]|e]|]; cbn in *; [|exact X|exact I]. assert (Y := act_fine root s1 X R). destruct (act root s1) as [[[r s2]|e]|]; exact Y.
    Qed.
  End Inplace.
  Lemma map_unraised {A B} (f : A -> M B) (Q : B -> Prop) (s : state) : forall l, (forall x, In x l -> exists y, f x s = Some (Ok (y, s)) /\ Q y) -> exists ys, mapMM f l s = Some (Ok (ys, s)) /\ Forall Q ys.
  Proof.
    induction l as [|x l IH]; intros H; cbn [mapMM]; [exists []; split; [reflexivity|constructor]|]. destruct (H x (or_introl eq_refl)) as (y & E & Qy). destruct (IH (fun z K => H z (or_intror K))) as (ys & E' & F).
    exists (y :: ys). split; [|constructor; assumption]. unfold bindM. rewrite E, E'. reflexivity.
  Qed.
  Lemma remove_forward_quiet fuel (h : heap) (G : nat -> Prop) root : defined h G -> G root -> unraised (run_inplace remove_forward_visit fuel h root) (fun _ => True).
  Proof.
    intros D R. assert (X := inplace_quiet remove_forward_visit (fun h => defined h G) G). enough (Y : unraised (run_inplace remove_forward_visit fuel h root) (fun '(r, h') => defined h' G /\ G r)) by (destruct (run_inplace remove_forward_visit fuel h root) as [[[r h']|e]|]; [exact I|exact Y|exact I]).
    apply X; [| |exact D|exact R]; clear.
    - intros h p D Gp. destruct (D p Gp) as (o & E & _ & Ch). eauto.
    - intros p s D Gp. destruct (D p Gp) as (o & E & N & Ch). unfold remove_forward_visit, bindM at 1, get. rewrite E.
      destruct o as [ps|rs|r0 rev|r0 rev|r0 rr ro|r0 m rev|r0 m rev|r0 m n' rev|r0 nm|r0 i|r0 rl|[d|]| |pl|ps a|b ps a|ts m| |k ps]; try (cbn; split; [exact D|exact Gp]); [cbn; split; [exact D|apply Ch; left; reflexivity]|destruct (N eq_refl)|].
      unfold bindM at 1. match goal with |- context [mapMM ?f ts s] => destruct (map_unraised f (fun t => match t with TRule r => G r | TPred _ => True end) s ts) as (ts' & Em & F) end.
      + intros [r|x] Ht; [|exists (TPred x); split; [reflexivity|exact I]]. assert (Gr : G r) by (apply Ch; cbn; apply rule_terms_of, Ht). destruct (D r Gr) as (o' & E' & N' & Ch'). unfold bindM. rewrite E'.
        destruct o' as [| | | | | | | | | | |[d|]| | | | | | |]; try (eexists; split; [reflexivity|exact Gr]); [|destruct (N' eq_refl)]. eexists. split; [reflexivity|]. apply Ch'. left. reflexivity.
      + rewrite Em. cbn. split; [|exact Gp]. assert (Lp : p < length (st_heap s)) by (apply nth_error_Some; congruence). intros q Gq. destruct (Nat.eq_dec q p) as [->|Ne]; [|rewrite setitem_other by auto; apply D, Gq].
        rewrite setitem_same by exact Lp. eexists. split; [reflexivity|]. split; [discriminate|]. cbn. intros c Hc. apply rule_terms_of in Hc. rewrite Forall_forall in F. apply (F _ Hc).
  Qed.
  Theorem as_bnf_quiet fuel (h : heap) root : ready converts no_empty h root -> graph no_empty nothing h (reach h root) -> unraised (as_bnf pipe_bnf bnf_lines fuel h root) (fun _ => True).
  Proof.
    intros R Gr. unfold as_bnf. eapply unraised_then; [apply (to_bnf_quiet fuel h root R Gr)|]. intros [r1 h1] _ (G & D & Gr1). cbn [fst snd] in *.
    eapply unraised_then; [apply (remove_forward_quiet fuel h1 G r1 D Gr1)|]. intros [r2 h2] _ _. destruct (nth_error h2 r2) as [o|]; [|exact I]. destruct (is_bnf o); [|exact I]. destruct (bfs fuel h2 r2); exact I.
  Qed.

  (** ** Activation *)
  Variable activate_pred : pred -> res pred.
  Variable activate_pipe : pipe -> res pipe.
  Hypothesis pred_twice : forall p q, activate_pred p = Ok q -> activate_pred q = Ok q.
  Hypothesis pipe_twice : forall x y, activate_pipe x = Ok y -> activate_pipe y = Ok y.
  Definition activates (o : obj) : Prop :=
    match o with
    | OProd ts _ => forall x, In (TPred x) ts -> exists y, activate_pred x = Ok y
    | OPipeline x => exists y, activate_pipe x = Ok y /\ converts y
    | _ => True
    end.
  Lemma activate_quiet fuel (h : heap) root : (forall p, reach h root p -> exists o, nth_error h p = Some o /\ activates o) -> unraised (run_inplace (activate_visit activate_pred activate_pipe) fuel h root) (fun _ => True).
  Proof.
    intros U. set (G := reach h root). set (fine := fun h : heap => forall p, G p -> exists o, nth_error h p = Some o /\ activates o /\ forall c, In c (children o) -> G c).
    enough (Y : unraised (run_inplace (activate_visit activate_pred activate_pipe) fuel h root) (fun '(r, h') => fine h' /\ G r)) by (destruct (run_inplace _ fuel h root) as [[[r h']|e]|]; [exact I|exact Y|exact I]).
    assert (F0 : fine h) by (intros p Gp; destruct (U p Gp) as (o & E & A); exists o; split; [exact E|split; [exact A|intros c Hc; apply (reach_step h root p o c Gp E Hc)]]).
    assert (R0 : G root) by apply reach_refl. apply (inplace_quiet _ fine G); [| |exact F0|exact R0]; clear U F0 R0.
    - intros h1 p F Gp. destruct (F p Gp) as (o & E & _ & Ch). eauto.
    - intros p s F Gp. destruct (F p Gp) as (o & E & A & Ch). assert (Lp : p < length (st_heap s)) by (apply nth_error_Some; congruence).
      assert (Put : forall o', activates o' -> (forall c, In c (children o') -> G c) -> fine (setitem (st_heap s) p o')).
      { intros o' A' Ch' q Gq. destruct (Nat.eq_dec q p) as [->|Ne]; [|rewrite setitem_other by auto; apply F, Gq]. rewrite setitem_same by exact Lp. exists o'. auto. }
      unfold activate_visit, bindM at 1, get. rewrite E.
      destruct o as [ps|rs|r0 rev|r0 rev|r0 rr ro|r0 m rev|r0 m rev|r0 m n' rev|r0 nm|r0 i|r0 rl|d| |pl|ps a|b ps a|ts m| |k ps]; try (cbn; split; [exact F|exact Gp]).
      + destruct A as (y & Ey & Cy). unfold bindM. rewrite Ey. cbn. split; [|exact Gp]. apply Put; [exists y; split; [apply (pipe_twice pl y Ey)|exact Cy]|intros c []].
      + unfold bindM at 1. match goal with |- context [mapMM ?f ts s] => destruct (map_unraised f (fun t => match t with TRule r => G r | TPred y => activate_pred y = Ok y end) s ts) as (ts' & Em & Fo) end.
        * intros [r|x] Ht; [exists (TRule r); split; [reflexivity|apply Ch; cbn; apply rule_terms_of, Ht]|]. destruct (A x Ht) as (y & Ey). exists (TPred y). unfold bindM. rewrite Ey. split; [reflexivity|apply (pred_twice x y Ey)].
        * rewrite Em. cbn. split; [|exact Gp]. rewrite Forall_forall in Fo. apply Put; [intros y Hy; exists y; apply (Fo _ Hy)|]. cbn. intros c Hc. apply rule_terms_of in Hc. apply (Fo _ Hc).
  Qed.
End Convert.

From Verif Require Import TokenModel PredicateModel PipelineModel PipelineSpec RuleBuilt RuleAccept RuleActivate RuleParser RuleTotal GrammarModel GrammarProofs.
Section Usable.
  Variable U : unicode.
  Variable set_order : list str -> list str.
  Variable c : context.
  Notation P := (converts (pipeline_as_bnf U set_order)).
  Lemma usable_activates (h : rule_heap) root : source h root -> usable U set_order c h root -> forall p, reach h root p -> exists o, nth_error h p = Some o /\ activates (pipeline_as_bnf U set_order) (activate c) (activate_pipeline c) o.
  Proof.
    intros (Gr & _) Us p R. destruct (Gr p R) as (o & E & _). exists o. split; [exact E|]. assert (K := Us p o R E). destruct o; try exact I; [|exact K]. destruct K as (y & b & Ey & Eb). exists y. split; [exact Ey|exists b; exact Eb].
  Qed.
  Lemma solid_activated (h h' : rule_heap) root p : activated_graph (activate c) (activate_pipeline c) h h' root -> reach h root p -> solid h p -> solid h' p.
  Proof.
    intros A R S. induction S as [p o E F|p r rev E S IH]; destruct (proj1 (proj2 A) p _ R E) as (o' & E' & K).
    - apply (solid_here h' p o' E'). inversion K; subst; try exact F; reflexivity.
    - inversion K; subst. apply (solid_once h' p r rev E'), IH. apply (reach_step h root p _ r R E). left. reflexivity.
  Qed.
  Lemma usable_ready (h h' : rule_heap) root : source h root -> usable U set_order c h root -> activated_graph (activate c) (activate_pipeline c) h h' root -> ready P plain h' root.
  Proof.
    intros S Us A p R. apply (activated_reach _ _ h h' root A) in R. destruct S as (Gr & _). destruct (Gr p R) as (o & E & Po & _). destruct (proj1 (proj2 A) p o R E) as (o' & E' & K). exists o'. split; [exact E'|].
    destruct (activated_class _ _ o o' K) as (K1 & _). assert (Uo := Us p o R E). split; [split; [congruence|]|split].
    - intros x ->. inversion K; subst; [|contradiction]. destruct Uo as (y & b & Ey & Eb). exists b. congruence.
    - intros ->. inversion K; subst. destruct Uo as (r & Er & _). discriminate.
    - intros d ->. inversion K; subst. destruct Uo as (r & Er & So). injection Er as ->. apply (solid_activated h h' root r A); [|exact So]. apply (reach_step h root p _ r R E). left. reflexivity.
  Qed.
  Lemma usable_quiet fuel (h : rule_heap) root : source h root -> usable U set_order c h root -> unraised (build_rule U set_order c fuel h root) (fun _ => True).
  Proof.
    intros S Us. unfold build_rule, parser_rule. eapply unraised_then; [apply (activate_quiet (pipeline_as_bnf U set_order) (activate c) (activate_pipeline c) (pred_twice c) (pipe_twice c) fuel h root (usable_activates h root S Us))|].
    intros [r1 ha] H1 _. destruct (activate_ok (activate c) (activate_pipeline c) (pred_twice c) (pipe_twice c) fuel h root r1 ha H1) as [-> A]. assert (Sa := source_activated _ _ h ha root S A).
    eapply unraised_then; [apply (normalized_quiet P (pipeline_as_bnf U set_order) b_productions fuel ha root (usable_ready h ha root S Us A) (proj1 Sa))|].
    cbv beta. intros [rn hn] _ (Rn & Gn & _). cbn [fst snd] in *. apply (as_bnf_quiet (pipeline_as_bnf U set_order) b_productions fuel hn rn Rn Gn).
  Qed.
  Theorem construction_succeeds (h : rule_heap) root : built h -> flat h root -> is_rule_at h root -> usable U set_order c h root ->
    exists g enough, forall fuel, enough <= fuel -> parser_grammar U set_order c fuel h root = Some (Ok g).
  Proof.
    intros B F R Us. destruct (construction_ends U set_order c h root B R) as ([g|e] & enough & E); [exists g, enough; exact E|]. specialize (E enough (le_n _)). exfalso.
    assert (Q := usable_quiet enough h root (built_source h root B F R) Us). unfold parser_grammar in E. destruct (build_rule U set_order c enough h root) as [[[r h']|e']|]; cbn in E; [|exact Q|discriminate]. destruct (bfs enough h' r); discriminate.
  Qed.
End Usable.

(** ** A case *)
From Verif Require Import PredicateCases Cases RuleCases.
Fixpoint solidb (n : nat) (h : rule_heap) (p : nat) : bool :=
  match n with
  | O => false
  | S n' => match nth_error h p with Some (OMax r 1 _) => solidb n' h r | Some o => firm o | None => false end
  end.
Lemma solidb_true n h p : solidb n h p = true -> solid h p.
Proof.
  revert p. induction n as [|n IH]; intros p; cbn; [discriminate|]. destruct (nth_error h p) as [o|] eqn:E; [|discriminate].
  destruct o as [ps|rs|r0 rev|r0 rev|r0 rr ro|r0 m rev|r0 m rev|r0 m n' rev|r0 nm|r0 i|r0 rl|d| |pl|ps a|b ps a|ts m| |k ps]; try (intros F; apply (solid_here h p _ E F)).
  destruct m as [|[|m]]; try (intros F; apply (solid_here h p _ E F)). intros F. apply (solid_once h p r0 rev E), IH, F.
Qed.
Definition usable_objb (U : unicode) (set_order : list str -> list str) (c : context) (h : rule_heap) (o : obj predicate pipeline pipeline_bnf) : bool :=
  match o with
  | OForward d => match d with Some r => solidb (length h) h r | None => false end
  | OProd ts _ => forallb (fun t => match t with TPred x => match activate c x with Ok _ => true | Err _ => false end | TRule _ => true end) ts
  | OPipeline x => match activate_pipeline c x with Ok y => match pipeline_as_bnf U set_order y with Ok _ => true | Err _ => false end | Err _ => false end
  | _ => true
  end.
Lemma usableb_true U set_order c h root : forallb (usable_objb U set_order c h) h = true -> usable U set_order c h root.
Proof.
  intros F p o _ E. rewrite forallb_forall in F. specialize (F o (nth_error_In _ _ E)). destruct o as [ps|rs|r0 rev|r0 rev|r0 rr ro|r0 m rev|r0 m rev|r0 m n' rev|r0 nm|r0 i|r0 rl|d| |pl|ps a|b ps a|ts m| |k ps]; try exact I; cbn in *.
  - destruct d as [r|]; [|discriminate]. exists r. split; [reflexivity|apply (solidb_true _ _ _ F)].
  - destruct (activate_pipeline c pl) as [y|e]; [|discriminate]. destruct (pipeline_as_bnf U set_order y) as [b|e] eqn:E2; [|discriminate]. exists y, b. auto.
  - intros x Hx. rewrite forallb_forall in F. specialize (F _ Hx). cbn in F. destruct (activate c x) as [y|e]; [eauto|discriminate].
Qed.
