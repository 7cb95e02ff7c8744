(** RemoveForwardTransformator keeps the words of a rule and leaves no forward rules. *)
From Verif Require Import Base EarleyModel RuleModel RuleSpec RuleWords RuleLike RulePass RuleMethods RuleExpand RuleNormal RuleOrder RuleBfs RuleBNF.
Open Scope nat_scope.

Section Forward.
  Context {pred pipe bnf : Type}.
  Notation obj := (obj pred pipe bnf).
  Notation heap := (heap pred pipe bnf).
  Notation state := (state pred pipe bnf).
  Variable pipe_bnf : pipe -> res bnf.
  Variable bnf_lines : bnf -> list (str * list pred).
  Notation like2 := (like2 pipe_bnf bnf_lines).
  Notation open_words kd := (open_words pipe_bnf bnf_lines kd).

  (** A BNF grammar, with ([fw]) or without forward rules. *)
  Definition bnf_obj (fw : bool) (h : heap) (o : obj) : Prop :=
    match o with
    | OBNF ps _ => forall q, In q ps -> exists oq, nth_error h q = Some oq /\ match oq with OProd _ _ | OEmptyProd => True | _ => False end
    | OPipeBNF b ps _ => (exists x, pipe_bnf x = Ok b) /\ Forall2 (fun q l => nth_error h q = Some (OPipeProd (fst l) (snd l))) ps (bnf_lines b)
    | OProd ts main => (main = 0 \/ main < length ts) /\
        forall r, In (TRule r) ts -> exists o', nth_error h r = Some o' /\ (is_bnf o' = true \/ (fw = true /\ is_forward o' = true))
    | OPipeProd _ _ | OEmptyProd => True
    | OForward None => fw = true
    | OForward (Some d) => fw = true /\ exists o', nth_error h d = Some o' /\ is_bnf o' = true
    | _ => False
    end.
  Definition bnf_graph (fw : bool) (h : heap) (G : nat -> Prop) : Prop :=
    forall x, G x -> exists o, nth_error h x = Some o /\ bnf_obj fw h o /\ forall c, In c (children o) -> G c.

  (** Terms that are forward rules may have been replaced by the definitions. *)
  Inductive followed (h : heap) : term pred -> term pred -> Prop :=
  | followed_same t : followed h t t
  | followed_def f r t : nth_error h f = Some (OForward (Some r)) -> followed h (TRule r) t -> followed h (TRule f) t.
  Definition near_obj (h : heap) (o o' : obj) : Prop :=
    o' = o \/ exists ts ts' m, o = OProd ts m /\ o' = OProd ts' m /\ Forall2 (followed h) ts ts'.
  Definition near (h h' : heap) : Prop :=
    length h' = length h /\ forall p o, nth_error h p = Some o -> exists o', nth_error h' p = Some o' /\ near_obj h o o'.

  Lemma near_refl h : near h h.
  Proof. split; [reflexivity|]. intros p o E. exists o. split; [exact E|left; reflexivity]. Qed.
  Lemma near_get h h' p o' : near h h' -> nth_error h' p = Some o' -> exists o, nth_error h p = Some o /\ near_obj h o o'.
  Proof.
    intros [L N] E. destruct (nth_error h p) as [o|] eqn:Eo.
    - destruct (N p o Eo) as (o2 & E2 & K). rewrite E in E2. injection E2 as <-. eauto.
    - apply nth_error_None in Eo. assert (p < length h') by (apply nth_error_Some; congruence). lia.
  Qed.
  Lemma near_class h o o' : near_obj h o o' -> is_bnf o' = is_bnf o /\ is_forward o' = is_forward o /\ is_prod o' = is_prod o.
  Proof. intros [->|(ts & ts' & m & -> & -> & _)]; auto. Qed.
  Lemma near_forward h h' f d : near h h' -> nth_error h' f = Some (OForward d) <-> nth_error h f = Some (OForward d).
  Proof.
    intros N. split; intros E.
    - destruct (near_get h h' f _ N E) as (o & Eo & [<-|(ts & ts' & m & _ & K & _)]); [exact Eo|discriminate].
    - destruct (proj2 N f _ E) as (o & Eo & [->|(ts & ts' & m & K & _)]); [exact Eo|discriminate].
  Qed.
  Lemma followed_trans h t u v : followed h t u -> followed h u v -> followed h t v.
  Proof. intros H K. induction H; [exact K|]. econstructor; eauto. Qed.
  Lemma forall2_length {A B} (P : A -> B -> Prop) l l' : Forall2 P l l' -> length l = length l'.
  Proof. intros F. induction F; cbn; congruence. Qed.
  Lemma forall2_trans {A B C} (P : A -> B -> Prop) (Q : B -> C -> Prop) (S : A -> C -> Prop) l1 l2 l3 :
    (forall a b c, P a b -> Q b c -> S a c) -> Forall2 P l1 l2 -> Forall2 Q l2 l3 -> Forall2 S l1 l3.
  Proof. intros K F. revert l3. induction F; intros l3 G; inversion G; subst; constructor; eauto. Qed.

  (** The words are the same. *)
  Lemma near_words h h' kd p : near h h' -> same (open_words kd none h p) (open_words kd none h' p).
  Proof.
    intros N. enough (K : (forall p, included (open_words kd none h p) (open_words kd none h' p)) /\ (forall p, included (open_words kd none h' p) (open_words kd none h p))).
    { intros w. split; apply K. }
    assert (T : forall h0 t t', (h0 = h \/ h0 = h') -> followed h t t' -> same (denotes_term (open_words kd none h0) t) (denotes_term (open_words kd none h0) t')).
    { intros h0 t t' Q Fo. induction Fo as [t|f r t E _ IH]; [apply same_refl|]. eapply same_trans; [|exact IH]. cbn.
      apply (open_words_forward pipe_bnf bnf_lines kd none h0 f r); [|reflexivity]. destruct Q as [->| ->]; [exact E|apply (near_forward h h' f _ N), E]. }
    split.
    - apply open_words_least. intros q w (o & E & H). unfold none in H. rewrite andb_false_r in H.
      destruct (proj2 N q o E) as (o' & E' & K). destruct (is_forward o) eqn:F.
      + destruct o as [| | | | | | | | | | |[d|]| | | | | | |]; try discriminate; [|destruct H]. apply (open_words_forward pipe_bnf bnf_lines kd none h' q d); [apply (near_forward h h' q _ N), E|reflexivity|exact H].
      + apply (open_words_obj pipe_bnf bnf_lines kd none h' q o' E'); [destruct (near_class _ _ _ K) as (_ & -> & _); exact F|].
        destruct K as [->|(ts & ts' & m & -> & -> & Fo)]; [exact H|]. cbn in *. revert H. apply sequence_mono.
        clear - Fo T. induction Fo as [|t t' ts ts' Ft _ IH]; cbn; constructor; auto. intros x Hx. apply (T h' t t' (or_intror eq_refl) Ft), Hx.
    - apply open_words_least. intros q w (o' & E' & H). unfold none in H. rewrite andb_false_r in H.
      destruct (near_get h h' q o' N E') as (o & E & K). destruct (is_forward o) eqn:F.
      + destruct o as [| | | | | | | | | | |[d|]| | | | | | |]; try discriminate; destruct K as [->|(ts & ts' & m & Q & _)]; try discriminate; [|destruct H].
        apply (open_words_forward pipe_bnf bnf_lines kd none h q d E eq_refl). exact H.
      + apply (open_words_obj pipe_bnf bnf_lines kd none h q o E F).
        destruct K as [->|(ts & ts' & m & -> & -> & Fo)]; [exact H|]. cbn in *. revert H. apply sequence_mono.
        clear - Fo T. induction Fo as [|t t' ts ts' Ft _ IH]; cbn; constructor; auto. intros x Hx. apply (T h t t' (or_introl eq_refl) Ft), Hx.
  Qed.
  Lemma near_like h h' p : near h h' -> like2 none h p none h' p.
  Proof.
    intros N. split; [intros kd; apply near_words, N|]. intros q. split; intros U; apply uses_target in U as [K _]; discriminate.
  Qed.

  (** One object. *)
  Lemma terms_ok : forall (ts : list (term pred)) (s : state) ts' s',
    mapMM (fun t => match t with
                    | TRule r => bindM (get r) (fun o' => match o' with OForward None => raise TypeError | OForward (Some r') => ret (TRule r') | _ => ret (TRule r) end)
                    | TPred p => ret (TPred p)
                    end) ts s = Some (Ok (ts', s')) ->
    s' = s /\ Forall2 (fun t t' => (t' = t /\ forall r, t = TRule r -> exists o, nth_error (st_heap s) r = Some o /\ is_forward o = false) \/
                               exists f r, t = TRule f /\ t' = TRule r /\ nth_error (st_heap s) f = Some (OForward (Some r))) ts ts'.
  Proof.
    induction ts as [|t ts IH]; intros s ts' s' H; cbn [mapMM] in H.
    - apply ret_ok in H as [-> ->]. auto.
    - apply bind_ok in H as (t1 & s1 & H1 & H). apply bind_ok in H as (ts1 & s2 & H2 & H). apply ret_ok in H as [-> ->].
      assert (K : s1 = s /\ ((t1 = t /\ forall r, t = TRule r -> exists o, nth_error (st_heap s) r = Some o /\ is_forward o = false) \/
                               exists f r, t = TRule f /\ t1 = TRule r /\ nth_error (st_heap s) f = Some (OForward (Some r)))).
      { destruct t as [r|p]; [|apply ret_ok in H1 as [-> ->]; split; [reflexivity|left; split; [reflexivity|discriminate]]].
        apply bind_ok in H1 as (o & s3 & H3 & H1). apply get_ok in H3 as [E ->].
        destruct (is_forward o) eqn:F; [destruct o as [| | | | | | | | | | |[d|]| | | | | | |]; try discriminate; apply ret_ok in H1 as [-> ->]; split; [reflexivity|]; right; eauto|].
        assert (H4 : ret (TRule r) s = Some (Ok (t1, s1))) by (destruct o; try discriminate; exact H1). apply ret_ok in H4 as [-> ->]. split; [reflexivity|]. left. split; [reflexivity|].
        intros r' Q. injection Q as <-. eauto. }
      destruct K as [-> K]. destruct (IH _ _ _ H2) as [-> F]. split; [reflexivity|]. constructor; assumption.
  Qed.
  Variable h0 : heap.
  Variable G : nat -> Prop.
  Hypothesis graph0 : bnf_graph true h0 G.

  (** What the walk leaves behind at an object. *)
  Definition cleared (h : heap) (x : nat) : Prop :=
    forall ts m, nth_error h x = Some (OProd ts m) -> forall r, In (TRule r) ts -> exists o, nth_error h r = Some o /\ is_bnf o = true.
  Lemma near_G h x o c : near h0 h -> G x -> nth_error h x = Some o -> In c (children o) -> G c.
  Proof.
    intros N Gx E Hc. destruct (near_get h0 h x o N E) as (o0 & E0 & K). destruct (graph0 x Gx) as (o1 & E1 & _ & C). rewrite E0 in E1. injection E1 as <-.
    destruct K as [->|(ts & ts' & m & -> & -> & F)]; [apply C, Hc|]. cbn in Hc. apply in_flat_map in Hc as ([r|p] & Ht & Hr); [|destruct Hr]. destruct Hr as [->|[]].
    destruct (forall2_in _ _ _ _ (forall2_flip _ _ _ F) Ht) as (t & Hin & Ft). cbn in Ft.
    assert (T : match t with TRule f => G f | TPred _ => True end). { destruct t as [f|p]; [|exact I]. apply C. cbn. apply in_rule_terms, Hin. }
    clear - Ft T graph0. remember (TRule c) as tc eqn:Q. induction Ft as [t|f r t Ef _ IH]; [subst t; exact T|].
    apply IH; [exact Q|]. destruct (graph0 f T) as (of & Eo & _ & C). rewrite Ef in Eo. injection Eo as <-. apply C. left. reflexivity.
  Qed.
  Lemma act_ok x (s : state) r s' : near h0 (st_heap s) -> G x -> remove_forward_visit x s = Some (Ok (r, s')) ->
    near h0 (st_heap s') /\ cleared (st_heap s') x /\ (forall y, y <> x -> nth_error (st_heap s') y = nth_error (st_heap s) y) /\
    ((exists d, nth_error (st_heap s) x = Some (OForward (Some d)) /\ r = d) \/ (r = x /\ exists o, nth_error (st_heap s) x = Some o /\ is_forward o = false)).
  Proof.
    intros N Gx H. unfold remove_forward_visit in H. apply bind_ok in H as (o & s1 & H1 & H). apply get_ok in H1 as [E ->].
    destruct (near_get h0 (st_heap s) x o N E) as (o0 & E0 & K0). destruct (graph0 x Gx) as (o1 & E1 & B & C). rewrite E0 in E1. injection E1 as <-.
    destruct (is_forward o) eqn:F.
    { destruct o as [| | | | | | | | | | |[d|]| | | | | | |]; try discriminate. apply ret_ok in H as [-> ->]. split; [exact N|]. split; [intros ts m E2; congruence|]. split; [auto|]. left. eauto. }
    destruct (match o with OProd _ _ => true | _ => false end) eqn:P.
    2: { assert (H' : ret x s = Some (Ok (r, s'))) by (destruct o; try discriminate; exact H). apply ret_ok in H' as [-> ->]. split; [exact N|].
         split; [intros ts m E2; rewrite E in E2; injection E2 as ->; discriminate|]. split; [auto|]. right. eauto. }
    destruct o as [| | | | | | | | | | | | | | | |ts m| |]; try discriminate. apply bind_ok in H as (ts' & s1 & H1 & H). apply bind_ok in H as (u & s2 & H2 & H). apply ret_ok in H as [-> ->].
    apply terms_ok in H1 as [-> Fo]. injection H2 as <- <-. cbn [st_heap].
    assert (Fw : Forall2 (followed h0) ts ts').
    { revert Fo. apply forall2_weaken. intros t t' [[-> _]|(f & r & -> & -> & Ef)]; [constructor|]. apply (followed_def h0 f r); [apply (near_forward h0 (st_heap s) f _ N), Ef|constructor]. }
    assert (Lx : x < length (st_heap s)) by (apply nth_error_Some; congruence).
    assert (N' : near h0 (setitem (st_heap s) x (OProd ts' m))).
    { split; [rewrite setitem_length; apply N|]. intros p o Ep. destruct (Nat.eq_dec p x) as [->|Ne].
      - rewrite setitem_same by exact Lx. exists (OProd ts' m). split; [reflexivity|]. rewrite E0 in Ep. injection Ep as <-. right.
        destruct K0 as [<-|(ts0 & ts1 & m0 & -> & Q & F0)]; [exists ts, ts', m; auto|]. injection Q as -> ->. exists ts0, ts', m0. split; [reflexivity|]. split; [reflexivity|].
        eapply forall2_trans; [|exact F0|exact Fw]. apply followed_trans.
      - rewrite setitem_other by auto. apply N, Ep. }
    split; [exact N'|]. split; [|split; [intros y Hy; apply setitem_other; auto|right; eauto]].
    intros ts2 m2 E2 r Hr. rewrite setitem_same in E2 by exact Lx. injection E2 as <- <-.
    assert (Rule : forall q, In (TRule q) ts -> exists oq, nth_error h0 q = Some oq /\ (is_bnf oq = true \/ is_forward oq = true) /\ G q).
    { intros q Hq. assert (Gq : G q) by (apply (near_G (st_heap s) x _ q N Gx E); apply in_rule_terms, Hq).
      destruct K0 as [<-|(ts0 & ts1 & m0 & -> & Q & F0)].
      - destruct B as [_ B]. destruct (B q Hq) as (oq & Eq & Bq). exists oq. split; [exact Eq|]. split; [tauto|exact Gq].
      - injection Q as -> ->. destruct B as [_ B]. destruct (forall2_in _ _ _ _ (forall2_flip _ _ _ F0) Hq) as (t & Hin & Ft). cbn in Ft.
        assert (T : match t with TRule f => G f /\ exists oq, nth_error h0 f = Some oq /\ (is_bnf oq = true \/ is_forward oq = true) | TPred _ => True end).
        { destruct t as [f|p]; [|exact I]. split; [apply C; cbn; apply in_rule_terms, Hin|]. destruct (B f Hin) as (oq & Eq & Bq). exists oq. split; [exact Eq|tauto]. }
        clear - Ft T graph0. remember (TRule q) as tq eqn:Qq. induction Ft as [t|f r t Ef _ IH]; [subst t; destruct T as [T1 (oq & T2)]; exists oq; tauto|]. subst t.
        apply IH; [reflexivity|]. destruct T as [T _]. destruct (graph0 f T) as (of & Eo & Bf & C). rewrite Ef in Eo. injection Eo as <-. cbn in Bf. destruct Bf as (_ & od & Ed & Bd).
        split; [apply C; left; reflexivity|]. exists od. auto. }
    assert (Keep : forall q oq, nth_error h0 q = Some oq -> is_bnf oq = true -> exists o, nth_error (setitem (st_heap s) x (OProd ts' m)) q = Some o /\ is_bnf o = true).
    { intros q oq Eq Bq. destruct (proj2 N' q oq Eq) as (o' & E' & K'). exists o'. split; [exact E'|]. destruct (near_class _ _ _ K') as (-> & _). exact Bq. }
    destruct (forall2_in _ _ _ _ (forall2_flip _ _ _ Fo) Hr) as (t & Hin & Ft). cbn in Ft. destruct Ft as [[Q Kt]|(f & r' & -> & Q & Ef)].
    - subst t. destruct (Rule r Hin) as (oq & Eq & Bq & _). destruct (Kt r eq_refl) as (o2 & Eo2 & F2).
      destruct (near_get h0 (st_heap s) r o2 N Eo2) as (o3 & Eo3 & K3). rewrite Eq in Eo3. injection Eo3 as <-. destruct (near_class _ _ _ K3) as (_ & Cf & _).
      destruct Bq as [Bq|Bq]; [apply (Keep r oq Eq Bq)|congruence].
    - injection Q as <-. destruct (Rule f Hin) as (of & Eo & _ & Gf). apply (near_forward h0 (st_heap s) f _ N) in Ef. destruct (graph0 f Gf) as (of' & Ef' & Bf & _).
      rewrite Ef in Ef'. injection Ef' as <-. destruct Bf as (_ & od & Ed & Bd). apply (Keep r od Ed Bd).
  Qed.

  Lemma remove_walk : forall fuel queue vis (s : state) u s', near h0 (st_heap s) -> (forall x, In x queue -> In x vis) -> (forall x, In x vis -> G x) ->
    (forall x, In x vis -> In x queue \/ (cleared (st_heap s) x /\ forall o c, nth_error (st_heap s) x = Some o -> In c (children o) -> In c vis)) ->
    walk_loop fuel (fun p => bindM (remove_forward_visit p) (fun _ => ret tt)) queue vis s = Some (Ok (u, s')) ->
    near h0 (st_heap s') /\ exists vis', (forall x, In x vis -> In x vis') /\
      forall x, In x vis' -> G x /\ cleared (st_heap s') x /\ forall o c, nth_error (st_heap s') x = Some o -> In c (children o) -> In c vis'.
  Proof.
    induction fuel as [|fuel IH]; intros [|x queue] vis s u s' N Q Gv Cl H; cbn [walk_loop] in H; try discriminate.
    1,2: apply ret_ok in H as [_ ->]; split; [exact N|]; exists vis; split; [auto|]; intros x Hx; destruct (Cl x Hx) as [[]|K]; split; [apply Gv, Hx|exact K].
    apply bind_ok in H as (v & s1 & H1 & H). apply bind_ok in H1 as (r & s1' & H1 & Hr). apply ret_ok in Hr as [_ ->].
    apply bind_ok in H as (o & s2 & H2 & H). apply get_ok in H2 as [E ->].
    destruct (enqueue (children o) queue vis) as [queue2 vis2] eqn:En. destruct (enqueue_new _ _ _ _ _ En) as (new & -> & Nn & Kw & Vn & Cn).
    assert (Gx : G x) by (apply Gv, Q; left; reflexivity).
    destruct (act_ok x s r s1' N Gx H1) as (N1 & Cx & Un & _).
    destruct (IH (queue ++ new) vis2 s1' u s' N1) as (N2 & vis' & V1 & V2); auto.
    - intros y Hy. apply Vn. apply in_app_or in Hy as [Hy|Hy]; [left; apply Q; right; exact Hy|right; exact Hy].
    - intros y Hy. apply Vn in Hy as [Hy|Hy]; [apply Gv, Hy|]. apply (near_G (st_heap s1') x o y N1 Gx E), (Kw y Hy).
    - intros y Hy. apply Vn in Hy as [Hy|Hy]; [|left; apply in_or_app; right; exact Hy]. destruct (Nat.eq_dec y x) as [->|Ny].
      + right. split; [exact Cx|]. intros o' c E' Hc. rewrite E in E'. injection E' as <-. apply Cn, Hc.
      + destruct (Cl y Hy) as [[->|Hq]|[Sy Cy]]; [destruct Ny; reflexivity|left; apply in_or_app; left; exact Hq|right]. split.
        * intros ts m Ey q Hq. rewrite (Un y Ny) in Ey. destruct (Sy ts m Ey q Hq) as (oq & Eq & Bq).
          destruct (near_get h0 (st_heap s) q oq N Eq) as (o0 & E0 & K0). destruct (proj2 N1 q o0 E0) as (o1 & E1 & K1).
          exists o1. split; [exact E1|]. destruct (near_class _ _ _ K0) as (B0 & _). destruct (near_class _ _ _ K1) as (B1 & _). congruence.
        * intros o' c E' Hc. rewrite (Un y Ny) in E'. apply Vn. left. apply (Cy o' c E' Hc).
    - split; [exact N2|]. exists vis'. split; [intros y Hy; apply V1, Vn; left; exact Hy|exact V2].
  Qed.

  Theorem remove_forward_ok fuel root r h' : G root -> (exists o, nth_error h0 root = Some o /\ is_prod o = false) ->
    run_inplace remove_forward_visit fuel h0 root = Some (Ok (r, h')) ->
    bnf_graph false h' (reach h' r) /\ (exists o, nth_error h' r = Some o /\ is_bnf o = true) /\ like2 none h0 root none h' r /\ near h0 h'.
  Proof.
    intros Gr (oR & ER & PR) H. unfold run_inplace, transform_inplace in H.
    destruct (bindM (walk fuel (fun p => bindM (remove_forward_visit p) (fun _ => ret tt)) root) (fun _ => remove_forward_visit root) (mkState h0 [])) as [[[r1 s2]|e]|] eqn:T; try discriminate.
    injection H as -> <-. apply bind_ok in T as (u & s1 & T1 & T2). unfold walk in T1.
    destruct (remove_walk fuel [root] [root] (mkState h0 []) u s1 (near_refl h0)) as (N1 & vis & V1 & V2); auto.
    { intros x [<-|[]]. exact Gr. }
    assert (Vr : In root vis) by (apply V1; left; reflexivity).
    destruct (proj2 N1 root oR ER) as (o1 & E1 & K1). destruct (near_class _ _ _ K1) as (_ & _ & P1). rewrite PR in P1.
    assert (S2 : s2 = s1).
    { unfold remove_forward_visit in T2. unfold bindM in T2 at 1. rewrite (get_eq root s1 o1 E1) in T2. destruct o1 as [| | | | | | | | | | |[d|]| | | | | | |]; try discriminate; apply ret_ok in T2 as [_ ->]; reflexivity. }
    destruct (act_ok root s1 r s2 N1 Gr T2) as (_ & _ & _ & Kr). subst s2. set (h1 := st_heap s1) in *.
    assert (Rr : In r vis /\ (exists o, nth_error h1 r = Some o /\ is_bnf o = true) /\ like2 none h1 root none h1 r).
    { destruct Kr as [(d & Ed & ->)|(-> & o & Eo & F)].
      - destruct (V2 root Vr) as (_ & _ & C). split; [apply (C _ d Ed); left; reflexivity|]. split.
        + assert (E0 := proj1 (near_forward h0 h1 root _ N1) Ed). destruct (graph0 root Gr) as (o & Eo & B & _). rewrite E0 in Eo. injection Eo as <-. destruct B as (_ & od & Eod & Bd).
          destruct (proj2 N1 d od Eod) as (o' & E' & K'). exists o'. split; [exact E'|]. destruct (near_class _ _ _ K') as (-> & _). exact Bd.
        + split; [intros kd; apply open_words_forward; [exact Ed|reflexivity]|]. intros q. split; intros U; apply uses_target in U as [K _]; discriminate.
      - split; [exact Vr|]. split; [|apply like2_refl]. rewrite E1 in Eo. injection Eo as <-. exists o1. split; [exact E1|].
        destruct (graph0 root Gr) as (o & Eo & B & _). rewrite ER in Eo. injection Eo as <-.
        destruct K1 as [->|(ts & ts' & m & -> & -> & _)]; [|discriminate]. destruct oR; cbn in B, F, PR |- *; try contradiction; try discriminate; reflexivity. }
    destruct Rr as (Vr' & Br & Lr). split; [|split; [exact Br|split; [|exact N1]]].
    2: { eapply like2_trans; [apply near_like, N1|exact Lr]. }
    assert (K : forall x, reach h1 r x -> In x vis /\ exists o, nth_error h1 x = Some o /\ is_forward o = false).
    { intros x Rx. apply (reach_holds (fun x => In x vis /\ exists o, nth_error h1 x = Some o /\ is_forward o = false) h1 r x); [| |exact Rx]; clear x Rx.
      - split; [exact Vr'|]. destruct Br as (o & Eo & Bo). exists o. split; [exact Eo|]. destruct o; try discriminate; reflexivity.
      - intros x o c (Vx & o' & E' & F') E Hc. rewrite E in E'. injection E' as <-. destruct (V2 x Vx) as (Gx & Cx & Chx). split; [apply (Chx o c E Hc)|].
        destruct (near_get h0 h1 x o N1 E) as (o0 & E0 & K0). destruct (graph0 x Gx) as (o2 & E2 & B & _). rewrite E0 in E2. injection E2 as <-.
        assert (Up : forall q oq, nth_error h0 q = Some oq -> is_forward oq = false -> exists o, nth_error h1 q = Some o /\ is_forward o = false).
        { intros q oq Eq Fq. destruct (proj2 N1 q oq Eq) as (o3 & E3 & K3). exists o3. split; [exact E3|]. destruct (near_class _ _ _ K3) as (_ & -> & _). exact Fq. }
        destruct (match o with OProd _ _ => true | _ => false end) eqn:P.
        + destruct o as [| | | | | | | | | | | | | | | |ts m| |]; try discriminate. cbn in Hc. apply in_flat_map in Hc as ([y|y] & Hy & Z); [|destruct Z]. destruct Z as [->|[]].
          destruct (Cx ts m E c Hy) as (oc & Ec & Bc). exists oc. split; [exact Ec|]. destruct oc; try discriminate; reflexivity.
        + destruct K0 as [->|(ts & ts' & m & -> & -> & _)]; [|discriminate]. destruct o0; cbn in B, Hc, F', P; try contradiction; try discriminate.
          * destruct (B c Hc) as (oq & Eq & Bq). apply (Up c oq Eq). destruct oq; try contradiction; reflexivity.
          * destruct (forall2_in _ _ _ _ (proj2 B) Hc) as (l & _ & Ec). apply (Up c _ Ec eq_refl). }
    intros x Rx. destruct (K x Rx) as (Vx & o & E & F). exists o. split; [exact E|]. split; [|intros c Hc; apply (reach_step h1 r x o c Rx E Hc)].
    destruct (V2 x Vx) as (Gx & Cx & _). destruct (near_get h0 h1 x o N1 E) as (o0 & E0 & K0). destruct (graph0 x Gx) as (o2 & E2 & B & _). rewrite E0 in E2. injection E2 as <-.
    destruct K0 as [->|(ts & ts' & m & -> & -> & Fo)].
    - destruct o0; cbn in *; try contradiction; try discriminate; auto.
      + intros q Hq. destruct (B q Hq) as (oq & Eq & Bq). destruct (proj2 N1 q oq Eq) as (o3 & E3 & [->|(ts & ts' & m & -> & -> & _)]); eauto.
      + split; [apply (proj1 B)|]. destruct B as [_ B]. revert B. apply forall2_weaken. intros q l Eq. destruct (proj2 N1 q _ Eq) as (o3 & E3 & [->|(ts & ts' & m & Q & _)]); [exact E3|discriminate].
      + destruct B as [Bm _]. split; [exact Bm|]. intros q Hq. destruct (Cx _ _ E q Hq) as (oq & Eq & Bq). eauto.
    - cbn in *. destruct B as [Bm _]. split; [rewrite <- (forall2_length _ _ _ Fo); exact Bm|]. intros q Hq. destruct (Cx _ _ E q Hq) as (oq & Eq & Bq). eauto.
  Qed.
End Forward.
