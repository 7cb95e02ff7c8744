(** Values of facts after assignment and merging; JSON; spans. *)
From Verif Require Import Base TokenModel EarleyModel TreeModel PredicateModel PredicateProofs ParserModel ResultProofs
  InterpModel InterpSpec FactProofs.

Lemma mapM_Forall2 {A B} (f : A -> res B) l l' : mapM f l = Ok l' <-> Forall2 (fun x y => f x = Ok y) l l'.
Proof.
  revert l'. induction l as [|x l IH]; intros l'; cbn [mapM].
  - split; [intros [= <-]; constructor|]. intros H. inversion H. reflexivity.
  - split.
    + destruct (f x) as [y|e] eqn:E; cbn [bind]; [|discriminate]. destruct (mapM f l) as [ys|e] eqn:El; cbn [bind]; [|discriminate].
      intros [= <-]. constructor; auto. apply IH. reflexivity.
    + intros H. inversion H as [|? y ? ys Hx Hl]; subst. rewrite Hx. cbn [bind]. apply IH in Hl. rewrite Hl. reflexivity.
Qed.
Lemma mapM_app {A B} (f : A -> res B) a b : mapM f (a ++ b) = let! x := mapM f a in let! y := mapM f b in Ok (x ++ y).
Proof.
  induction a as [|x a IH]; cbn [mapM app bind].
  - destruct (mapM f b); reflexivity.
  - rewrite IH. destruct (f x); cbn [bind]; [|reflexivity]. destruct (mapM f a); cbn [bind]; [|reflexivity].
    destruct (mapM f b); reflexivity.
Qed.

(** Looking a key up after converting every slot. *)
Lemma mapM_get {B C} (h : str -> B -> res C) (l : list (str * B)) l' :
  mapM (fun p => let '(k, s) := p in let! v := h k s in Ok (k, v)) l = Ok l' ->
  map fst l' = map fst l /\
  forall k, match sdict_get k l with
            | Some s => exists v, h k s = Ok v /\ sdict_get k l' = Some v
            | None => sdict_get k l' = None
            end.
Proof.
  revert l'. induction l as [|[k0 s] l IH]; intros l'; cbn [mapM].
  - intros [= <-]. split; [reflexivity|]. reflexivity.
  - destruct (h k0 s) as [v|e] eqn:E; cbn [bind]; [|discriminate].
    destruct (mapM _ l) as [vs|e]; cbn [bind]; [|discriminate]. intros [= <-].
    destruct (IH vs eq_refl) as [K G]. split; [cbn; congruence|]. intros k. cbn [sdict_get].
    destruct (str_eqb k k0) eqn:Ek; [|apply G]. apply str_eqb_eq in Ek as ->. eauto.
Qed.

Section Values.
  Variable schemes : nat -> scheme.
  Variable subclass : nat -> nat -> bool.
  Notation normalized_result := (normalized_result schemes).
  Notation normalized_fact := (normalized_fact schemes).
  Notation normalized_slot := (normalized_slot schemes).
  Notation json_result := (json_result schemes).
  Notation json_fact := (json_fact schemes).
  Notation json_slot := (json_slot schemes).
  Notation call_fact := (call_fact schemes subclass).
  Notation keys sc := (map fst (schemes sc)).

  Definition default_of (d : option decl) : pyval :=
    match d with Some (Plain d) => d | Some Repeatable => VList [] | None => VNone end.

  Lemma fact_init_spec sc kwargs values : fact_init schemes sc kwargs = Ok values ->
    (forall k v, In (k, v) kwargs -> str_in k (keys sc) = true) /\
    (forall k, sdict_get k values = if str_in k (keys sc)
       then Some (match sdict_get k kwargs with Some v => v | None => default_of (get_decl k (schemes sc)) end) else None) /\
    NoDup (map fst values).
  Proof.
    unfold fact_init. destruct (forallb _ kwargs) eqn:F; [|discriminate]. intros [= <-]. split.
    { intros k v H. rewrite forallb_forall in F. apply (F (k, v)). auto. }
    clear F.
    set (val := fun k => match sdict_get k kwargs with Some v => v | None => default_of (get_decl k (schemes sc)) end).
    assert (G : forall l acc, NoDup (map fst acc) ->
      (forall k, sdict_get k (fold_left (fun acc k => sdict_set k (val k) acc) l acc) = if str_in k l then Some (val k) else sdict_get k acc) /\
      NoDup (map fst (fold_left (fun acc k => sdict_set k (val k) acc) l acc))).
    { induction l as [|x l IH]; intros acc N; cbn [fold_left]; [split; auto|].
      destruct (IH (sdict_set x (val x) acc) (set_nodup _ _ _ N)) as [A B]. split; [|auto].
      intros k. rewrite A, get_set. unfold str_in. cbn [existsb]. destruct (str_eqb k x) eqn:E; cbn [orb]; [|reflexivity].
      apply str_eqb_eq in E as ->. destruct (existsb _ l); reflexivity. }
    destruct (G (keys sc) [] ltac:(constructor)) as [A B]. split; [exact A|exact B].
  Qed.

  Lemma normalized_fact_spec sc rep chg attrs v : normalized_fact (mkFact sc rep chg attrs) = Ok v ->
    exists values, v = VFact sc values (mkFact sc rep chg attrs) /\ NoDup (map fst values) /\
    (forall k s, sdict_get k attrs = Some s -> get_decl k (schemes sc) <> None /\
       exists x, normalized_slot (str_in k rep) (str_in k chg) s = Ok x /\ sdict_get k values = Some x) /\
    (forall k, sdict_get k attrs = None -> sdict_get k values = if str_in k (keys sc) then Some (default_of (get_decl k (schemes sc))) else None).
  Proof.
    cbn [InterpModel.normalized_fact]. destruct (mapM _ attrs) as [kwargs|e] eqn:E; cbn [bind]; [|discriminate].
    destruct (fact_init schemes sc kwargs) as [values|e] eqn:Ei; cbn [bind]; [|discriminate]. intros [= <-].
    apply (mapM_get (fun k s => normalized_slot (str_in k rep) (str_in k chg) s)) in E as [K G].
    apply fact_init_spec in Ei as (A & B & N). exists values. split; [reflexivity|]. split; [auto|]. split.
    - intros k s Hs. specialize (G k). rewrite Hs in G. destruct G as (x & Hx & Hk).
      specialize (B k). rewrite (A k x (get_in _ _ _ Hk)), Hk in B.
      split; [|eauto]. intros D. specialize (A k x (get_in _ _ _ Hk)). rewrite get_decl_keys, D in A. discriminate.
    - intros k Hs. specialize (G k). rewrite Hs in G. rewrite B, G. reflexivity.
  Qed.

  Definition no_part_sets sc k items : Prop := forall i, In i items -> part_sets subclass sc k i = false.

  Lemma touches_split sc k items : assigned subclass sc k items = [] -> no_part_sets sc k items ->
    existsb (touches subclass sc k) items = false.
  Proof.
    intros A P. induction items as [|i items IH]; [reflexivity|]. cbn [existsb]. unfold assigned in A. cbn [flat_map] in A.
    apply app_eq_nil in A as [Ai A]. rewrite IH; [|exact A|intros j Hj; apply P; right; auto]. rewrite orb_false_r.
    specialize (P i (or_introl eq_refl)). destruct i as [t|[ts key|f|v a|v inp]]; try reflexivity; cbn in *; auto.
    destruct (subclass sc (a_fact a) && str_eqb k (a_name a)); [discriminate|reflexivity].
  Qed.

  (** ** C39 *)
  Lemma plain_default sc items f v k d : call_fact sc items = Ok (RFact f) -> normalized_fact f = Ok v ->
    get_decl k (schemes sc) = Some (Plain d) -> assigned subclass sc k items = [] -> no_part_sets sc k items ->
    value_attr k v = Some d.
  Proof.
    intros C N D A P. apply call_fact_spec in C as (rep & chg & attrs & [= ->] & _ & R & _ & G & _).
    apply normalized_fact_spec in N as (values & Ev & _ & S & _). subst v. cbn [value_attr].
    specialize (G k). rewrite effect_untouched in G by (apply touches_split; auto). rewrite D in G. cbn [initial] in G.
    destruct (S _ _ G) as (_ & x & Hx & Ex). rewrite Ex. rewrite R, D in Hx. cbn in Hx. congruence.
  Qed.

  Lemma plain_last_assigned sc before r a after f v k d :
    call_fact sc (before ++ IResult (RAttr r a) :: after) = Ok (RFact f) -> normalized_fact f = Ok v ->
    get_decl k (schemes sc) = Some (Plain d) -> subclass sc (a_fact a) = true -> a_name a = k ->
    assigned subclass sc k after = [] -> no_part_sets sc k after ->
    exists y, normalized_result r = Ok y /\ value_attr k v = Some y.
  Proof.
    intros C N D Sa <- A P. apply call_fact_spec in C as (rep & chg & attrs & [= ->] & _ & R & _ & G & _).
    apply normalized_fact_spec in N as (values & Ev & _ & S & _). subst v. cbn [value_attr].
    specialize (G (a_name a)). rewrite fold_left_app in G. cbn [fold_left] in G.
    rewrite effect_untouched in G by (apply touches_split; auto). cbn [effect] in G. rewrite Sa, str_eqb_refl in G. cbn [andb] in G.
    rewrite D in G. cbn [is_rep] in G. destruct (S _ _ G) as (_ & x & Hx & Ex). rewrite Ex. rewrite R, D in Hx. cbn in Hx. eauto.
  Qed.

  Lemma repeatable_all sc items f v k : call_fact sc items = Ok (RFact f) -> normalized_fact f = Ok v ->
    get_decl k (schemes sc) = Some Repeatable -> no_part_sets sc k items ->
    exists ys, mapM normalized_result (assigned subclass sc k items) = Ok ys /\ value_attr k v = Some (VList ys).
  Proof.
    intros C N D P. apply call_fact_spec in C as (rep & chg & attrs & [= ->] & _ & R & _ & G & _).
    apply normalized_fact_spec in N as (values & Ev & _ & S & _). subst v. cbn [value_attr].
    specialize (G k). rewrite D in G. cbn [initial is_rep] in G.
    rewrite effect_assigned in G. 2:{ destruct (existsb _ items) eqn:E; auto. apply existsb_exists in E as (i & Hi & E). rewrite P in E; auto. }
    cbn [app] in G. destruct (S _ _ G) as (_ & x & Hx & Ex). rewrite Ex. rewrite R, D in Hx. cbn [is_rep InterpModel.normalized_slot] in Hx.
    destruct (mapM _ _) as [ys|e]; cbn [bind] in Hx; [|discriminate]. injection Hx as <-. eauto.
  Qed.

  (** ** C40 *)
  Definition built (f : ifact) : Prop := exists items, call_fact (fact_class f) items = Ok (RFact f).

  Lemma plain_last_part sc before part after f v pv k d : kinds_agree schemes subclass ->
    call_fact sc (before ++ IResult (RFact part) :: after) = Ok (RFact f) -> normalized_fact f = Ok v ->
    get_decl k (schemes sc) = Some (Plain d) -> built part -> normalized_fact part = Ok pv ->
    part_sets subclass sc k (IResult (RFact part)) = true -> assigned subclass sc k after = [] -> no_part_sets sc k after ->
    exists y, value_attr k pv = Some y /\ value_attr k v = Some y.
  Proof.
    intros K C N D [items Bu] Np Ps A P. cbn [part_sets] in Ps. apply andb_true_iff in Ps as [Hs Hc].
    apply call_fact_spec in C as (rep & chg & attrs & [= ->] & _ & R & _ & G & _).
    apply call_fact_spec in Bu as (rep' & chg' & attrs' & Ep & _ & R' & _ & G' & X'). cbn [fact_class] in *.
    destruct part as [sc' rep0 chg0 attrs0]. injection Ep as <- <- <-. cbn [fact_class changed] in *.
    apply normalized_fact_spec in N as (values & Ev & _ & S & _). subst v. cbn [value_attr].
    apply normalized_fact_spec in Np as (values' & Ev & _ & S' & _). subst pv. cbn [value_attr].
    specialize (G k). rewrite fold_left_app in G. cbn [fold_left] in G.
    rewrite effect_untouched in G by (apply touches_split; auto). cbn [effect] in G. rewrite Hs, Hc in G. cbn [andb] in G.
    destruct (sdict_get k attrs0) as [s|] eqn:E.
    - destruct (S _ _ G) as (_ & x & Hx & Ex). rewrite Ex. destruct (S' _ _ E) as (_ & x' & Hx' & Ex'). rewrite Ex'.
      assert (str_in k rep = str_in k rep0) as Er.
      { rewrite R, R'. destruct (K sc sc' k Hs) as [K1 K2]. unfold repeatable_attr in *.
        destruct (is_rep (get_decl k (schemes sc))) eqn:E1, (is_rep (get_decl k (schemes sc'))) eqn:E2; auto.
        - destruct (get_decl k (schemes sc)) as [[]|]; try discriminate.
        - destruct (get_decl k (schemes sc')) as [[]|]; try discriminate. rewrite K1 in D by auto. discriminate. }
      rewrite Er in Hx. destruct s; cbn in Hx, Hx'; destruct (str_in k rep0); try discriminate; exists x; split; congruence.
    - exfalso. apply (X' k); auto.
  Qed.

  Lemma repeatable_last_part sc before part after f v pv k : kinds_agree schemes subclass ->
    call_fact sc (before ++ IResult (RFact part) :: after) = Ok (RFact f) -> normalized_fact f = Ok v ->
    get_decl k (schemes sc) = Some Repeatable -> built part -> normalized_fact part = Ok pv ->
    part_sets subclass sc k (IResult (RFact part)) = true -> no_part_sets sc k after ->
    exists l ys, value_attr k pv = Some (VList l) /\ mapM normalized_result (assigned subclass sc k after) = Ok ys /\
      value_attr k v = Some (VList (l ++ ys)).
  Proof.
    intros K C N D [items Bu] Np Ps P. cbn [part_sets] in Ps. apply andb_true_iff in Ps as [Hs Hc].
    apply call_fact_spec in C as (rep & chg & attrs & [= ->] & _ & R & _ & G & _).
    apply call_fact_spec in Bu as (rep' & chg' & attrs' & Ep & _ & R' & _ & _ & X'). cbn [fact_class] in *.
    destruct part as [sc' rep0 chg0 attrs0]. injection Ep as <- <- <-. cbn [fact_class changed] in *.
    apply normalized_fact_spec in N as (values & Ev & _ & S & _). subst v. cbn [value_attr].
    apply normalized_fact_spec in Np as (values' & Ev & _ & S' & _). subst pv. cbn [value_attr].
    assert (D' : get_decl k (schemes sc') = Some Repeatable). { apply (K sc sc' k Hs). exact D. }
    specialize (G k). rewrite fold_left_app in G. cbn [fold_left] in G. rewrite D in G. cbn [is_rep effect] in G. rewrite Hs, Hc in G. cbn [andb] in G.
    destruct (sdict_get k attrs0) as [s|] eqn:E; [|exfalso; apply (X' k); auto].
    destruct (S' _ _ E) as (_ & x' & Hx' & Ex'). rewrite R', D' in Hx'. cbn [is_rep InterpModel.normalized_slot] in Hx'.
    destruct s as [l| |]; cbn in Hx'; try discriminate. destruct (mapM _ l) as [ys|e] eqn:El; cbn [bind] in Hx'; [|discriminate]. injection Hx' as <-.
    rewrite effect_assigned in G. 2:{ destruct (existsb _ after) eqn:Ea; auto. apply existsb_exists in Ea as (i & Hi & Ea). rewrite P in Ea; auto. }
    destruct (S _ _ G) as (_ & x & Hx & Ex). rewrite R, D in Hx. cbn [is_rep InterpModel.normalized_slot] in Hx.
    rewrite mapM_app, El in Hx. cbn [bind] in Hx. destruct (mapM _ (assigned _ _ _ _)) as [zs|e]; cbn [bind] in Hx; [|discriminate].
    injection Hx as <-. exists ys, zs. auto.
  Qed.

  (** ** Items of other classes are ignored *)
  Lemma only_relevant sc items : call_fact sc items = call_fact sc (filter (relevant subclass sc) items).
  Proof.
    unfold InterpModel.call_fact. f_equal. generalize (Ok (new_fact schemes sc)).
    induction items as [|i items IH]; intros r; [reflexivity|]. cbn [fold_left filter].
    destruct (relevant subclass sc i) eqn:E; [cbn [fold_left]; apply IH|]. rewrite IH. f_equal.
    destruct r as [f|e]; [|reflexivity]. cbn [fact_item bind].
    destruct i as [t|[ts key|[sc' rep' ochg oattrs]|v a|v inp]]; try reflexivity; cbn in E; rewrite E; reflexivity.
  Qed.
End Values.
