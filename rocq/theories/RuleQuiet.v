(** Passes over rules raise nothing when every forward rule met is defined by a rule that
    does not itself become a forward rule. *)
From Verif Require Import Base EarleyModel RuleModel RuleSpec RuleWords RuleLike RulePass RuleMethods RuleOrder RuleEnds RuleBuild RuleUsableSpec.
Open Scope nat_scope.

(** A rule that the passes do not turn into a forward rule. *)
Section Solid.
  Context {pred pipe bnf : Type}.
  Notation obj := (obj pred pipe bnf).
  Notation heap := (heap pred pipe bnf).
  Lemma solid_not_forward (h : heap) p o : solid h p -> nth_error h p = Some o -> is_forward o = false.
  Proof. intros S E. destruct S as [p o' E' F|p r rev E' _]; rewrite E in E'; injection E' as ->; [destruct o'; try discriminate; reflexivity|reflexivity]. Qed.

  Definition grows (h h' : heap) : Prop := forall p o, nth_error h p = Some o -> exists o', nth_error h' p = Some o' /\ alike o o'.
  Lemma grows_refl h : grows h h.
  Proof. intros p o E. exists o. split; [exact E|apply alike_refl]. Qed.
  Lemma grows_trans h h' h'' : grows h h' -> grows h' h'' -> grows h h''.
  Proof. intros A B p o E. destruct (A p o E) as (o' & E' & L). destruct (B p o' E') as (o'' & E'' & L'). exists o''. split; [exact E''|exact (alike_trans _ _ _ L L')]. Qed.
  Lemma grows_length h h' : grows h h' -> length h <= length h'.
  Proof.
    intros A. destruct (length h) as [|n] eqn:L; [lia|]. destruct (nth_error h n) as [o|] eqn:E; [|apply nth_error_None in E; lia]. destruct (A n o E) as (o' & E' & _).
    assert (n < length h') by (apply nth_error_Some; congruence). lia.
  Qed.
  Lemma grows_app h t : grows h (h ++ t).
  Proof. intros p o E. exists o. split; [apply nth_old, E|apply alike_refl]. Qed.
  Lemma alike_same (o o' : obj) : alike o o' -> is_forward o = false -> (forall ps a, o <> OBNF ps a) -> (forall b ps a, o <> OPipeBNF b ps a) -> o' = o.
  Proof. unfold alike. intros A F N1 N2. rewrite F in A. destruct A as (f & ->). destruct o; try reflexivity; [destruct (N1 _ _ eq_refl)|destruct (N2 _ _ _ eq_refl)]. Qed.
  Lemma firm_alike (o o' : obj) : alike o o' -> firm o' = firm o.
  Proof. unfold alike. destruct (is_forward o) eqn:F; [destruct o, o'; try discriminate; reflexivity|]. intros (f & ->). destruct o; reflexivity. Qed.
  Lemma solid_grows (h : heap) h' p : grows h h' -> solid h p -> solid h' p.
  Proof.
    intros A S. induction S as [p o E F|p r rev E S IH].
    - destruct (A p o E) as (o' & E' & L). apply (solid_here h' p o' E'). rewrite (firm_alike _ _ L). exact F.
    - destruct (A p _ E) as (o' & E' & L). apply alike_same in L; [|reflexivity|discriminate|discriminate]. subst o'. apply (solid_once h' p r rev E' IH).
  Qed.
End Solid.

Section Quiet.
  Context {pred pipe bnf : Type}.
  Notation obj := (obj pred pipe bnf).
  Notation heap := (heap pred pipe bnf).
  Notation visitor := (visitor pred pipe bnf).
  Notation state := (state pred pipe bnf).
  Notation M := (M pred pipe bnf).
  (** The objects of the pass, conditions on an object and a child of it, and on an object
      and the result of visiting it. *)
  Variable allowed : nat -> obj -> Prop.
  Variable side : obj -> obj -> Prop.
  Variables before after : obj -> bool.
  Variable n0 : nat.
  Variable G : nat -> Prop.
  Hypothesis allowed_forward : forall p d, allowed p (OForward (Some d)).
  Hypothesis allowed_update : forall p f o, allowed p o -> allowed p (update_attributes f o).
  Hypothesis side_forward : forall d oc, side (OForward d) oc.
  Hypothesis side_update : forall f o oc, side o oc -> side (update_attributes f o) oc.
  Hypothesis side_alike : forall o oc oc', alike oc oc' -> side o oc -> side o oc'.
  Hypothesis before_alike : forall o o', alike o o' -> before o' = before o.
  Hypothesis after_alike : forall o o', alike o o' -> after o' = after o.

  Definition live (p : nat) : Prop := G p \/ n0 <= p.
  Definition lv (h : heap) (p : nat) : Prop := live p /\ p < length h.
  Definition fit (h : heap) (p : nat) (o : obj) : Prop :=
    allowed p o /\ o <> OForward None /\ (forall c, In c (children o) -> lv h c) /\ (forall d, o = OForward (Some d) -> solid h d) /\
    (forall c oc, In c (children o) -> nth_error h c = Some oc -> side o oc).
  Definition rel (h : heap) (p r : nat) : Prop :=
    (solid h p -> solid h r) /\ (forall o, nth_error h p = Some o -> before o = true -> exists o', nth_error h r = Some o' /\ after o' = true).
  Definition fits (h : heap) : Prop := n0 <= length h /\ forall p o, live p -> nth_error h p = Some o -> fit h p o.
  Definition calm (s : state) : Prop :=
    fits (st_heap s) /\ forall p r, In (p, r) (st_visited s) -> lv (st_heap s) p /\ lv (st_heap s) r /\ rel (st_heap s) p r.

  Definition quiet {A} (x : M A) (s : state) (Q : A -> state -> Prop) : Prop :=
    calm s -> match x s with Some (Ok (a, s')) => calm s' /\ grows (st_heap s) (st_heap s') /\ Q a s' | Some (Err _) => False | None => True end.

  Lemma lv_grows h h' p : grows h h' -> lv h p -> lv h' p.
  Proof. intros A [L B]. split; [exact L|]. apply grows_length in A. lia. Qed.
  Lemma solid_back h h' p : grows h h' -> fits h -> lv h p -> solid h' p -> solid h p.
  Proof.
    intros A F L S. induction S as [p o' E' Fo|p r rev E' S IH]; destruct (nth_error h p) as [o|] eqn:E; try (apply nth_error_None in E; destruct L; lia); destruct (A p o E) as (o2 & E2 & K); rewrite E' in E2; injection E2 as <-.
    - apply (solid_here h p o E). rewrite <- (firm_alike _ _ K). exact Fo.
    - assert (o = OMax r 1 rev) as ->.
      { unfold alike in K. destruct (is_forward o) eqn:Fw; [discriminate|]. destruct K as (f & K). destruct o; try discriminate. cbn in K. congruence. }
      apply (solid_once h p r rev E). apply IH. destruct F as [_ F]. destruct (F p _ (proj1 L) E) as (_ & _ & C & _). apply C. left. reflexivity.
  Qed.
  Lemma rel_grows h h' p r : grows h h' -> fits h -> lv h p -> lv h r -> rel h p r -> rel h' p r.
  Proof.
    intros A F Lp Lr [R1 R2]. split.
    - intros S. apply (solid_grows h h' r A), R1, (solid_back h h' p A F Lp S).
    - intros o' E' B. destruct (nth_error h p) as [o|] eqn:E; [|apply nth_error_None in E; destruct Lp; lia]. destruct (A p o E) as (o2 & E2 & K). rewrite E' in E2. injection E2 as <-.
      rewrite (before_alike _ _ K) in B. destruct (R2 o eq_refl B) as (x & Ex & Ax). destruct (A r x Ex) as (x' & Ex' & Kx). exists x'. split; [exact Ex'|]. rewrite (after_alike _ _ Kx). exact Ax.
  Qed.
  Lemma fit_grows h h' p o : grows h h' -> fit h p o -> fit h' p o.
  Proof.
    intros A (Al & N & C & S & Si). split; [exact Al|]. split; [exact N|]. split; [intros c Hc; apply (lv_grows h h' c A), C, Hc|]. split; [intros d E; apply (solid_grows h h' d A), S, E|].
    intros c oc Hc Ec. destruct (C c Hc) as [_ L]. destruct (nth_error h c) as [x|] eqn:Ex; [|apply nth_error_None in Ex; lia]. destruct (A c x Ex) as (x' & Ex' & K). rewrite Ec in Ex'. injection Ex' as <-.
    apply (side_alike o x oc K), (Si c x Hc Ex).
  Qed.
  (** Replacing the heap by one that extends it and is fit. *)
  Lemma calm_heap s h' : calm s -> grows (st_heap s) h' -> fits h' -> calm (mkState h' (st_visited s)).
  Proof.
    intros [F V] A F'. split; [exact F'|]. cbn. intros p r Hin. destruct (V p r Hin) as (Lp & Lr & R). split; [apply (lv_grows _ _ p A Lp)|]. split; [apply (lv_grows _ _ r A Lr)|]. apply (rel_grows _ _ p r A F Lp Lr R).
  Qed.

  Lemma quiet_bind {A B} (x : M A) (f : A -> M B) s Q Q' : quiet x s Q -> (forall a s', calm s' -> grows (st_heap s) (st_heap s') -> Q a s' -> quiet (f a) s' Q') -> quiet (bindM x f) s Q'.
  Proof.
    intros X F C. specialize (X C). unfold bindM. destruct (x s) as [[[a s1]|e]|]; [|exact X|exact I]. destruct X as (C1 & A1 & Qa). specialize (F a s1 C1 A1 Qa C1).
    destruct (f a s1) as [[[b s2]|e]|]; [|exact F|exact I]. destruct F as (C2 & A2 & Qb). split; [exact C2|]. split; [exact (grows_trans _ _ _ A1 A2)|exact Qb].
  Qed.
  Lemma quiet_post {A} (x : M A) s (Q Q' : A -> state -> Prop) : quiet x s Q -> (forall a s', calm s' -> grows (st_heap s) (st_heap s') -> Q a s' -> Q' a s') -> quiet x s Q'.
  Proof. intros X F C. specialize (X C). destruct (x s) as [[[a s1]|e]|]; [|exact X|exact I]. destruct X as (C1 & A1 & Qa). auto. Qed.
  Lemma quiet_ret {A} (a : A) s (Q : A -> state -> Prop) : Q a s -> quiet (ret a) s Q.
  Proof. intros K C. cbn. split; [exact C|]. split; [apply grows_refl|exact K]. Qed.
  Lemma quiet_no_fuel {A} s (Q : A -> state -> Prop) : quiet no_fuel s Q.
  Proof. intros C. exact I. Qed.
  Lemma quiet_calm {A} (x : M A) s Q : (calm s -> quiet x s Q) -> quiet x s Q.
  Proof. intros H C. exact (H C C). Qed.
  Lemma quiet_get p s : p < length (st_heap s) -> quiet (get p) s (fun o s' => s' = s /\ nth_error (st_heap s) p = Some o).
  Proof. intros L C. destruct (nth_error (st_heap s) p) as [o|] eqn:E; [|apply nth_error_None in E; lia]. rewrite (get_eq p s o E). split; [exact C|]. split; [apply grows_refl|auto]. Qed.
  Lemma quiet_bind_get {B} p (f : obj -> M B) s Q : p < length (st_heap s) -> (forall o, nth_error (st_heap s) p = Some o -> quiet (f o) s Q) -> quiet (bindM (get p) f) s Q.
  Proof. intros L F. eapply quiet_bind; [apply quiet_get, L|]. cbv beta. intros o s' _ _ [-> E]. apply F, E. Qed.
  (** Several new objects at once. *)
  Lemma fits_app h t : fits h -> (forall i o, nth_error t i = Some o -> fit (h ++ t) (length h + i) o) -> fits (h ++ t).
  Proof.
    intros [N F] T. split; [rewrite app_length; lia|]. intros p o L E. destruct (Nat.lt_ge_cases p (length h)) as [Lp|Lp].
    - rewrite nth_error_app1 in E by exact Lp. apply (fit_grows h _ p o (grows_app h t)), (F p o L E).
    - rewrite nth_error_app2 in E by exact Lp. replace p with (length h + (p - length h)) by lia. apply (T _ o E).
  Qed.
  Definition placed (o : obj) (r : nat) (s' : state) : Prop := lv (st_heap s') r /\ nth_error (st_heap s') r = Some o.
  Lemma quiet_alloc (o : obj) s : (forall q, n0 <= q -> allowed q o) -> is_forward o = false -> (forall c, In c (children o) -> lv (st_heap s) c) ->
    (forall c oc, In c (children o) -> nth_error (st_heap s) c = Some oc -> side o oc) -> quiet (alloc o) s (placed o).
  Proof.
    intros Al F C Si K. cbn. destruct K as [[N K] V]. assert (Fh : fits (st_heap s ++ [o])).
    { apply fits_app; [split; assumption|]. intros [|[|i]] x E; try discriminate. injection E as <-. split; [apply Al; lia|]. split; [intros ->; discriminate|].
      split; [intros c Hc; apply (lv_grows _ _ c (grows_app _ _)), C, Hc|]. split; [intros d ->; discriminate|]. intros c oc Hc Ec. destruct (C c Hc) as [_ L]. rewrite nth_error_app1 in Ec by exact L. apply (Si c oc Hc Ec). }
    split; [apply calm_heap; [split; [split|]; assumption|apply grows_app|exact Fh]|]. split; [apply grows_app|]. split; [split; [right; exact N|cbn; rewrite app_length; cbn; lia]|apply nth_new].
  Qed.

  Definition given (p : nat) (r : nat) (s' : state) : Prop := lv (st_heap s') r /\ rel (st_heap s') p r.
  Definition visits_quiet (V : visitor) : Prop := forall p s, lv (st_heap s) p -> quiet (V p) s (given p).
  Definition method_quiet (method : visitor -> nat -> obj -> M nat) : Prop :=
    forall V p o s, visits_quiet V -> lv (st_heap s) p -> nth_error (st_heap s) p = Some o -> quiet (method V p o) s (given p).

  (** A new object as the result. *)
  Lemma placed_given p o o' r s s' : grows (st_heap s) (st_heap s') -> nth_error (st_heap s) p = Some o -> firm o' = true -> (before o = true -> after o' = true) -> placed o' r s' -> given p r s'.
  Proof.
    intros A E F B [L E']. split; [exact L|]. split; [intros _; apply (solid_here _ r o' E' F)|]. intros x Ex Bx. destruct (A p o E) as (x' & Ex' & Kx). rewrite Ex in Ex'. injection Ex' as <-.
    rewrite (before_alike _ _ Kx) in Bx. exists o'. auto.
  Qed.
  Lemma given_self p s : lv (st_heap s) p -> (forall o, nth_error (st_heap s) p = Some o -> before o = true -> after o = true) -> given p p s.
  Proof. intros L B. split; [exact L|]. split; [auto|]. intros o E Bo. exists o. auto. Qed.
  Lemma given_grows p r s s' : calm s -> grows (st_heap s) (st_heap s') -> lv (st_heap s) p -> given p r s -> given p r s'.
  Proof. intros C A Lp [Lr R]. split; [apply (lv_grows _ _ r A Lr)|apply (rel_grows _ _ p r A (proj1 C) Lp Lr R)]. Qed.

  Lemma quiet_map {A B} (f : A -> M B) (P : A -> state -> Prop) (R : A -> B -> state -> Prop) :
    (forall x s, P x s -> quiet (f x) s (R x)) -> (forall x s s', calm s -> grows (st_heap s) (st_heap s') -> P x s -> P x s') ->
    (forall x y s s', calm s -> grows (st_heap s) (st_heap s') -> P x s -> R x y s -> R x y s') ->
    forall l s, (forall x, In x l -> P x s) -> quiet (mapMM f l) s (fun ys s' => Forall2 (fun x y => R x y s') l ys).
  Proof.
    intros F KP KR. induction l as [|x l IH]; intros s H; cbn [mapMM]; [apply quiet_ret; constructor|]. apply quiet_calm. intros C.
    eapply quiet_bind; [apply F, H; left; reflexivity|]. intros y s1 C1 A1 R1. eapply quiet_bind; [apply IH; intros z Hz; apply (KP z s s1 C A1), H; right; exact Hz|]. cbv beta.
    intros ys s2 C2 A2 Rs. apply quiet_ret. constructor; [|exact Rs]. apply (KR x y s1 s2 C1 A2); [apply (KP x s s1 C A1), H; left; reflexivity|exact R1].
  Qed.
  Lemma visit_all V l s : visits_quiet V -> (forall x, In x l -> lv (st_heap s) x) -> quiet (mapMM V l) s (fun ys s' => Forall2 (fun x y => given x y s') l ys).
  Proof.
    intros HV L. apply (quiet_map V (fun x s => lv (st_heap s) x) (fun x y s => given x y s)); [exact (fun x t K => HV x t K)|intros x t t' _ A; apply (lv_grows _ _ x A)| |exact L].
    intros x y t t' C A Lx Gx. apply (given_grows x y t t' C A Lx Gx).
  Qed.
  Lemma forall2_right {A B} (R : A -> B -> Prop) l l' y : Forall2 R l l' -> In y l' -> exists x, In x l /\ R x y.
  Proof. induction 1 as [|x z l l' K F IH]; intros []; [subst z; exists x; split; [left; reflexivity|exact K]|]. destruct (IH H) as (x' & Hx & Kx). exists x'. split; [right; exact Hx|exact Kx]. Qed.

  Definition term_given (t t' : term pred) (s : state) : Prop := match t' with TRule r' => exists r, t = TRule r /\ given r r' s | TPred _ => True end.
  Definition term_lv (t : term pred) (s : state) : Prop := match t with TRule r => lv (st_heap s) r | TPred _ => True end.
  Lemma rule_terms_of ts r : In r (rule_terms (pred := pred) ts) <-> In (TRule r) ts.
  Proof.
    unfold rule_terms. rewrite in_flat_map. split.
    - intros ([q|x] & Ht & K); [|destruct K]. destruct K as [<-|[]]. exact Ht.
    - intros Ht. exists (TRule r). split; [exact Ht|left; reflexivity].
  Qed.
  Lemma terms_quiet V ts s : visits_quiet V -> (forall r, In (TRule r) ts -> lv (st_heap s) r) -> quiet (mapMM (visit_term V) ts) s (fun ts' s' => Forall2 (fun t t' => term_given t t' s') ts ts').
  Proof.
    intros HV L. apply (quiet_map (visit_term V) term_lv term_given).
    - intros [r|x] t Kt; cbn; [|apply quiet_ret; exact I]. eapply quiet_bind; [apply (HV r t Kt)|]. intros r' t1 _ _ Gr. apply quiet_ret. exists r. auto.
    - intros [r|x] t t' _ A; cbn; [apply (lv_grows _ _ r A)|auto].
    - intros t0 [r|x] t t' Ct A Pt; cbn; [|auto]. intros (r0 & -> & Gr). exists r0. split; [reflexivity|]. apply (given_grows r0 r t t' Ct A Pt Gr).
    - intros [r|x] Ht; cbn; [|exact I]. apply L, Ht.
  Qed.

  (** ** The methods of RuleTransformator *)
  Definition same_tag (o o' : obj) : Prop :=
    match o, o' with
    | ORule _, ORule _ | OOr _, OOr _ | OMin _ _ _, OMin _ _ _ | OMinMax _ _ _ _, OMinMax _ _ _ _ | ONamed _ _, ONamed _ _
    | OInterp _ _, OInterp _ _ | ORelation _ _, ORelation _ _ | OProd _ _, OProd _ _ => True
    | OMax _ m _, OMax _ m' _ => m = m'
    | ORepeatable _ _, ORepeatable _ _ | OOptional _ _, OOptional _ _ | ORepOpt _ _ _, ORepOpt _ _ _ => True
    | _, _ => False
    end.
  Section Base.
    Hypothesis allowed_again : forall p q o o', same_tag o o' -> allowed p o -> allowed q o'.
    Hypothesis side_again : forall o o' oc oc', same_tag o o' -> side o oc -> (before oc = true -> after oc' = true) -> side o' oc'.
    Hypothesis kept : forall o o', same_tag o o' \/ o = o' -> before o = true -> after o' = true.
    (** A copy over visited children. *)
    Lemma copy_quiet p (o o' : obj) s s' : calm s -> lv (st_heap s) p -> nth_error (st_heap s) p = Some o -> grows (st_heap s) (st_heap s') -> same_tag o o' -> firm o' = true ->
      (forall c, In c (children o') -> exists b, In b (children o) /\ given b c s') -> quiet (alloc o') s' (given p).
    Proof.
      intros C L E A T F K. destruct (proj2 (proj1 C) p o (proj1 L) E) as (Al & N & Ch & _ & Si). eapply quiet_post; [apply quiet_alloc|].
      - intros q _. apply (allowed_again p q o o' T Al).
      - destruct o, o'; try destruct T; reflexivity.
      - intros c Hc. destruct (K c Hc) as (b & _ & Lc & _). exact Lc.
      - intros c oc Hc Ec. destruct (K c Hc) as (b & Hb & Lc & Rc). destruct (Ch b Hb) as [_ Lb]. destruct (nth_error (st_heap s) b) as [ob|] eqn:Eb; [|apply nth_error_None in Eb; lia].
        destruct (A b ob Eb) as (ob' & Eb' & Kb). apply (side_again o o' ob oc T (Si b ob Hb Eb)). intros Bb. rewrite <- (before_alike _ _ Kb) in Bb. destruct (proj2 Rc ob' Eb' Bb) as (x & Ex & Ax). congruence.
      - intros r s2 C2 A2 Pl. apply (placed_given p o o' r s s2); [exact (grows_trans _ _ _ A A2)|exact E|exact F|apply kept; left; exact T|exact Pl].
    Qed.
    (** A copy that may become a forward rule later; then so may the original. *)
    Lemma soft_copy_quiet p (o o' : obj) s s' r0 r1 : calm s -> lv (st_heap s) p -> nth_error (st_heap s) p = Some o -> grows (st_heap s) (st_heap s') -> same_tag o o' ->
      children o = [r0] -> children o' = [r1] -> given r0 r1 s' -> (firm o' = false -> forall h, solid h p -> nth_error h p = Some o -> (exists rev rev', o = OMax r0 1 rev /\ o' = OMax r1 1 rev')) -> quiet (alloc o') s' (given p).
    Proof.
      intros C L E A T C0 C1 K Soft. destruct (firm o') eqn:F.
      - apply (copy_quiet p o o' s s' C L E A T F). rewrite C0, C1. intros c [<-|[]]. exists r0. split; [left; reflexivity|exact K].
      - destruct (proj2 (proj1 C) p o (proj1 L) E) as (Al & N & Ch & _ & Si). apply quiet_calm. intros C'. eapply quiet_post; [apply quiet_alloc|].
        + intros q _. apply (allowed_again p q o o' T Al).
        + destruct o, o'; try destruct T; reflexivity.
        + rewrite C1. intros c [<-|[]]. apply K.
        + rewrite C1. intros c oc [<-|[]] Ec. assert (Hb : In r0 (children o)) by (rewrite C0; left; reflexivity). destruct (Ch r0 Hb) as [_ Lb]. destruct (nth_error (st_heap s) r0) as [ob|] eqn:Eb; [|apply nth_error_None in Eb; lia].
          destruct (A r0 ob Eb) as (ob' & Eb' & Kb). apply (side_again o o' ob oc T (Si r0 ob Hb Eb)). intros Bb. rewrite <- (before_alike _ _ Kb) in Bb. destruct (proj2 (proj2 K) ob' Eb' Bb) as (x & Ex & Ax). congruence.
        + intros r s2 C2 A2 [Lr Er]. split; [exact Lr|]. assert (A3 := grows_trans _ _ _ A A2). split.
          * intros S. assert (S0 := solid_back _ _ p A3 (proj1 C) L S). destruct (Soft eq_refl (st_heap s) S0 E) as (rev & rev' & -> & ->).
            apply (solid_once _ r r1 rev' Er). assert (K2 : given r0 r1 s2) by (apply (given_grows r0 r1 s' s2 C' A2); [apply (lv_grows _ _ r0 A), Ch; left; reflexivity|exact K]).
            apply (proj1 (proj2 K2)), (solid_grows _ _ r0 A3). inversion S0 as [? x Ex Fx|? x rv Ex Sx]; subst; rewrite E in Ex; injection Ex as <-; [discriminate|]. exact Sx.
          * intros x Ex Bx. destruct (A3 p o E) as (x' & Ex' & Kx). rewrite Ex in Ex'. injection Ex' as <-. rewrite (before_alike _ _ Kx) in Bx. exists o'. split; [exact Er|]. apply (kept o o'); [left; exact T|exact Bx].
    Qed.
    Lemma production_quiet V p ts m s : visits_quiet V -> lv (st_heap s) p -> nth_error (st_heap s) p = Some (OProd ts m) -> quiet (visit_Production V ts m) s (given p).
    Proof.
      intros HV L E. apply quiet_calm. intros C. destruct (proj2 (proj1 C) p _ (proj1 L) E) as (_ & _ & Ch & _). unfold visit_Production.
      eapply quiet_bind; [apply (terms_quiet V ts s HV); intros r Ht; apply Ch; cbn; apply rule_terms_of, Ht|].
      cbv beta. intros ts' s1 C1 A1 F. apply (copy_quiet p (OProd ts m) (OProd ts' m) s s1 C L E A1 I eq_refl). cbn. intros c Hc. apply rule_terms_of in Hc. destruct (forall2_right _ _ _ _ F Hc) as (t & Ht & (r & -> & Gr)).
      exists r. split; [apply rule_terms_of, Ht|exact Gr].
    Qed.
    Definition raising (o : obj) : bool := match o with OOptional _ _ | ORepeatable _ _ | ORepOpt _ _ _ => true | _ => false end.
    Lemma one_quiet V p (o : obj) (f : nat -> obj) s r0 : visits_quiet V -> lv (st_heap s) p -> nth_error (st_heap s) p = Some o -> children o = [r0] -> (forall x, children (f x) = [x] /\ same_tag o (f x)) ->
      (forall x, firm (f x) = false -> firm o = false /\ forall m rev, o = OMax r0 m rev -> f x = OMax x m rev) -> quiet (bindM (V r0) (fun r => alloc (f r))) s (given p).
    Proof.
      intros HV L E C0 F Soft. apply quiet_calm. intros C. destruct (proj2 (proj1 C) p o (proj1 L) E) as (_ & _ & Ch & _). assert (L0 : lv (st_heap s) r0) by (apply Ch; rewrite C0; left; reflexivity).
      eapply quiet_bind; [apply (HV r0 s L0)|]. intros r s1 C1 A1 Gr. destruct (F r) as [Cf Tf]. apply (soft_copy_quiet p o (f r) s s1 r0 r C L E A1 Tf C0 Cf Gr).
      intros Ff h S Eh. destruct (Soft r Ff) as [Fo Fm]. destruct S as [p o1 E1 F1|p x rev E1 S]; rewrite Eh in E1; injection E1 as ->; [congruence|]. cbn in C0. injection C0 as ->. exists rev, rev. split; [reflexivity|apply Fm; reflexivity].
    Qed.
    Lemma base_quiet V p (o : obj) s : visits_quiet V -> plain o = true -> raising o = false -> lv (st_heap s) p -> nth_error (st_heap s) p = Some o -> quiet (base_method V p o) s (given p).
    Proof.
      intros HV Pl Ra L E. apply quiet_calm. intros C. destruct (proj2 (proj1 C) p o (proj1 L) E) as (_ & _ & Ch & _).
      destruct o as [ps|rs|r0 rev|r0 rev|r0 rr ro|r0 m rev|r0 m rev|r0 m n' rev|r0 nm|r0 i|r0 rl|d| |pl|ps a|b ps a|ts m| |k ps]; cbn [base_method]; try discriminate;
        try (apply quiet_ret, given_self; [exact L|]; intros x Ex Bx; apply (kept x x); [right; reflexivity|exact Bx]);
        try (apply (one_quiet V p _ _ s r0 HV L E); [reflexivity|intros x; split; [reflexivity|cbn; auto]|cbn; intros x Fx; split; [exact Fx|congruence]]).
      - unfold visit_Rule. eapply quiet_bind; [apply (visit_all V ps s HV Ch)|]. cbv beta. intros ys s1 C1 A1 F. apply (copy_quiet p (ORule ps) (ORule ys) s s1 C L E A1 I eq_refl). intros c Hc. apply (forall2_right _ _ _ c F Hc).
      - eapply quiet_bind; [apply (visit_all V rs s HV Ch)|]. cbv beta. intros ys s1 C1 A1 F. apply (copy_quiet p (OOr rs) (OOr ys) s s1 C L E A1 I eq_refl). intros c Hc. apply (forall2_right _ _ _ c F Hc).
      - apply (production_quiet V p ts m s HV L E).
    Qed.
  End Base.

  (** ** A pass *)
  Section Run.
    Variable method : visitor -> nat -> obj -> M nat.
    Hypothesis method_ok : method_quiet method.
    Lemma visit_quiet fuel : visits_quiet (visit method fuel).
    Proof.
      induction fuel as [|fuel IH]; intros p s L; cbn [visit]; [apply quiet_no_fuel|]. intros C. unfold bindM at 1. unfold recall. cbn [RuleModel.recall].
      destruct (assoc p (st_visited s)) as [r0|] eqn:A.
      - cbn. split; [exact C|]. split; [apply grows_refl|]. destruct (proj2 C p r0 (assoc_in _ _ _ A)) as (_ & L0 & R0). split; assumption.
      - revert C. change (quiet (bindM (get p) (fun o => bindM (method (visit method fuel) p o) (fun r => bindM (remember p r) (fun _ => ret r)))) s (given p)).
        apply quiet_bind_get; [apply L|]. intros o E. eapply quiet_bind; [apply (method_ok (visit method fuel) p o s IH L E)|]. intros r s1 C1 A1 [Lr R]. intros _. cbn.
        split; [split; [apply C1|]|split; [apply grows_refl|split; assumption]]. cbn. intros q x [Eq|Hin]; [|apply (proj2 C1 q x Hin)]. injection Eq as <- <-. split; [apply (lv_grows _ _ p A1 L)|]. split; assumption.
    Qed.
    Lemma fits_define h f d r : fits h -> live f -> nth_error h f = Some (OForward d) -> lv h r -> solid h r -> fits (setitem h f (OForward (Some r))) /\ grows h (setitem h f (OForward (Some r))).
    Proof.
      intros [N F] Lf Ef Lr S. assert (Lh : f < length h) by (apply nth_error_Some; congruence).
      assert (A : grows h (setitem h f (OForward (Some r)))).
      { intros q x E. destruct (Nat.eq_dec q f) as [->|Ne]; [|rewrite setitem_other by auto; exists x; split; [exact E|apply alike_refl]].
        rewrite setitem_same by exact Lh. rewrite Ef in E. injection E as <-. eexists. split; [reflexivity|]. reflexivity. }
      split; [|exact A]. split; [rewrite setitem_length; exact N|]. intros q x Lq E. destruct (Nat.eq_dec q f) as [->|Ne].
      - rewrite setitem_same in E by exact Lh. injection E as <-. split; [apply allowed_forward|]. split; [discriminate|]. split; [intros c [<-|[]]; apply (lv_grows _ _ r A Lr)|].
        split; [intros d' Ed; injection Ed as <-; apply (solid_grows _ _ r A S)|]. intros c oc _ _. apply side_forward.
      - rewrite setitem_other in E by auto. apply (fit_grows h _ q x A), (F q x Lq E).
    Qed.
    Lemma define_quiet fuel p s : lv (st_heap s) p -> quiet (define_visited method fuel p) s (fun _ _ => True).
    Proof.
      intros L. apply quiet_calm. intros C. unfold define_visited. apply quiet_bind_get; [apply L|]. intros o E. destruct (proj2 (proj1 C) p o (proj1 L) E) as (_ & _ & Ch & So & _).
      destruct o as [| | | | | | | | | | |[d|]| | | | | | |]; try (apply quiet_ret; exact I).
      eapply quiet_bind; [apply (visit_quiet fuel d s), Ch; left; reflexivity|]. intros r s1 C1 A1 [Lr R]. unfold define. apply quiet_bind_get; [apply Lr|]. intros o Er.
      assert (Sr : solid (st_heap s1) r) by (apply R, (solid_grows _ _ d A1), So; reflexivity). rewrite (solid_not_forward _ r o Sr Er).
      destruct (A1 p _ E) as (o1 & E1 & K1). unfold alike in K1. cbn in K1. destruct o1 as [| | | | | | | | | | |d1| | | | | | |]; try discriminate.
      destruct (fits_define (st_heap s1) p d1 r (proj1 C1) (proj1 L) E1 Lr Sr) as [F2 A2]. intros _. cbn. split; [apply calm_heap; assumption|]. split; [exact A2|exact I].
    Qed.
    Lemma walk_quiet fuel k : forall queue vis s, (forall x, In x queue -> lv (st_heap s) x) -> quiet (walk_loop k (define_visited method fuel) queue vis) s (fun _ _ => True).
    Proof.
      induction k as [|k IH]; intros [|x queue] vis s L; cbn [walk_loop]; try (apply quiet_ret; exact I); [apply quiet_no_fuel|]. assert (Lx : lv (st_heap s) x) by (apply L; left; reflexivity).
      eapply quiet_bind; [apply (define_quiet fuel x s Lx)|]. intros u s1 C1 A1 _. apply quiet_bind_get; [apply (lv_grows _ _ x A1 Lx)|]. intros o E. destruct (enqueue (children o) queue vis) as [q v] eqn:En.
      destruct (enqueue_spec _ _ _ _ _ En) as (_ & _ & _ & _ & A5). apply IH. intros y Hy. destruct (A5 y Hy) as [K|K]; [apply (lv_grows _ _ y A1), L; right; exact K|].
      destruct (proj2 (proj1 C1) x o (proj1 Lx) E) as (_ & _ & Ch & _). apply Ch, K.
    Qed.
    Theorem run_quiet fuel h root : fits h -> lv h root ->
      match run_visit method fuel h root with Some (Ok (r, h')) => fits h' /\ lv h' r /\ grows h h' /\ rel h' root r | Some (Err _) => False | None => True end.
    Proof.
      intros F L. unfold run_visit. assert (X : quiet (transform_walk method fuel root) (mkState h []) (given root)).
      { unfold transform_walk. eapply quiet_bind; [apply walk_quiet; intros x [<-|[]]; exact L|]. intros u s1 _ A1 _. apply (visit_quiet fuel root s1), (lv_grows _ _ root A1 L). }
      specialize (X (conj F (fun p r (K : In (p, r) []) => match K with end))). destruct (transform_walk method fuel root (mkState h [])) as [[[r s]|e]|]; [|exact X|exact I].
      destruct X as (C & A & Lr & R). split; [apply C|]. auto.
    Qed.
  End Run.
End Quiet.
