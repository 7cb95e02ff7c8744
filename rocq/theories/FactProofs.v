(** Facts about partial facts: assignment, merging, normalized values, JSON, spans. *)
From Verif Require Import Base TokenModel EarleyModel TreeModel PredicateModel PredicateProofs ParserModel ResultProofs
  InterpModel InterpSpec.

Lemma str_eqb_refl k : str_eqb k k = true.
Proof. apply str_eqb_eq. reflexivity. Qed.
Lemma str_eqb_neq a b : str_eqb a b = false <-> a <> b.
Proof.
  split.
  - intros H E. apply str_eqb_eq in E. congruence.
  - intros H. destruct (str_eqb a b) eqn:E; auto. apply str_eqb_eq in E. contradiction.
Qed.

Lemma get_set_same {B} k (v : B) l : sdict_get k (sdict_set k v l) = Some v.
Proof.
  induction l as [|[k' v'] l IH]; cbn; [rewrite str_eqb_refl; auto|].
  destruct (str_eqb k k') eqn:E; cbn; rewrite E; auto.
Qed.
Lemma get_set_other {B} k k' (v : B) l : k <> k' -> sdict_get k (sdict_set k' v l) = sdict_get k l.
Proof.
  intros N. induction l as [|[a b] l IH]; cbn.
  - apply str_eqb_neq in N. rewrite N. auto.
  - destruct (str_eqb k' a) eqn:E; cbn; destruct (str_eqb k a) eqn:E'; auto.
    apply str_eqb_eq in E, E'. congruence.
Qed.
Lemma get_set {B} k k' (v : B) l : sdict_get k (sdict_set k' v l) = if str_eqb k k' then Some v else sdict_get k l.
Proof.
  destruct (str_eqb k k') eqn:E.
  - apply str_eqb_eq in E as ->. apply get_set_same.
  - apply get_set_other. apply str_eqb_neq. auto.
Qed.
Lemma set_keys {B} k (v : B) l : map fst (sdict_set k v l) = if str_in k (map fst l) then map fst l else map fst l ++ [k].
Proof.
  induction l as [|[k' v'] l IH]; [reflexivity|]. cbn [sdict_set map]. unfold str_in in *. cbn [existsb fst].
  destruct (str_eqb k k'); cbn [map fst orb]; [reflexivity|]. rewrite IH. destruct (existsb _ _); reflexivity.
Qed.
Lemma str_in_add k k' l : str_in k (set_add k' l) = str_eqb k k' || str_in k l.
Proof.
  unfold set_add. destruct (str_in k' l) eqn:E.
  - destruct (str_eqb k k') eqn:E'; [|reflexivity]. apply str_eqb_eq in E' as ->. rewrite E. reflexivity.
  - unfold str_in. rewrite existsb_app. cbn. rewrite orb_false_r. apply orb_comm.
Qed.
Lemma get_keys {B} k (l : list (str * B)) : str_in k (map fst l) = match sdict_get k l with Some _ => true | None => false end.
Proof.
  induction l as [|[k' v] l IH]; [reflexivity|]. unfold str_in in *. cbn. destruct (str_eqb k k'); auto.
Qed.
Lemma get_in {B} k (v : B) l : sdict_get k l = Some v -> In (k, v) l.
Proof.
  induction l as [|[k' v'] l IH]; cbn; [discriminate|]. destruct (str_eqb k k') eqn:E.
  - apply str_eqb_eq in E as ->. intros [= ->]. auto.
  - auto.
Qed.
Lemma in_get {B} k (v : B) l : NoDup (map fst l) -> In (k, v) l -> sdict_get k l = Some v.
Proof.
  induction l as [|[k' v'] l IH]; cbn; [intros _ []|]. intros N. inversion N as [|? ? H N']; subst.
  intros [[= -> ->]|I].
  - rewrite str_eqb_refl. auto.
  - destruct (str_eqb k k') eqn:E; auto. apply str_eqb_eq in E as ->. exfalso. apply H.
    apply in_map_iff. exists (k', v). auto.
Qed.
Lemma set_nodup {B} k (v : B) l : NoDup (map fst l) -> NoDup (map fst (sdict_set k v l)).
Proof.
  intros N. rewrite set_keys. destruct (str_in k (map fst l)) eqn:E; auto.
  apply NoDup_app_intro; [auto|repeat constructor; intros []|].
  intros x Hx [<-|[]]. assert (str_in k (map fst l) = true) by (apply str_in_In; auto). congruence.
Qed.
Lemma nodup_get {B} (l : list (str * B)) k v : NoDup (map fst l) -> (In (k, v) l <-> sdict_get k l = Some v).
Proof. intros N. split; [apply in_get; auto|apply get_in]. Qed.

Section Facts.
  Variable schemes : nat -> scheme.
  Variable subclass : nat -> nat -> bool.
  Notation keys sc := (map fst (schemes sc)).

  Lemma get_decl_keys k (s : scheme) : str_in k (map fst s) = match get_decl k s with Some _ => true | None => false end.
  Proof.
    induction s as [|[k' d] s IH]; [reflexivity|]. unfold str_in in *. cbn.
    rewrite IH. destruct (get_decl k s); [apply orb_true_r|]. rewrite orb_false_r. destruct (str_eqb k k'); reflexivity.
  Qed.

  Definition initial (d : option decl) : option slot :=
    match d with
    | Some Repeatable => Some (SList [])
    | Some (Plain v) => Some (SDefault v)
    | None => None
    end.
  Definition is_rep (d : option decl) : bool := match d with Some Repeatable => true | _ => false end.

  Lemma new_fact_spec sc : exists rep attrs, new_fact schemes sc = mkFact sc rep [] attrs /\
    (forall k, str_in k rep = is_rep (get_decl k (schemes sc))) /\
    (forall k, sdict_get k attrs = initial (get_decl k (schemes sc))) /\ NoDup (map fst attrs).
  Proof.
    unfold new_fact.
    set (step := fun acc k => match get_decl k (schemes sc) with
        | Some Repeatable => (set_add k (fst acc), sdict_set k (SList []) (snd acc))
        | Some (Plain d) => (fst acc, sdict_set k (SDefault d) (snd acc))
        | None => acc
        end).
    assert (G : forall l rep attrs, NoDup (map fst attrs) ->
      let (rep', attrs') := fold_left step l (rep, attrs) in
      (forall k, str_in k rep' = str_in k rep || (str_in k l && is_rep (get_decl k (schemes sc)))) /\
      (forall k, sdict_get k attrs' = if str_in k l then match initial (get_decl k (schemes sc)) with Some x => Some x | None => sdict_get k attrs end
                                      else sdict_get k attrs) /\ NoDup (map fst attrs')).
    { induction l as [|x l IH]; intros rep attrs N; cbn [fold_left].
      - repeat split; intros; auto. cbn. rewrite orb_false_r. reflexivity.
      - unfold step at 2. cbn [fst snd]. destruct (get_decl x (schemes sc)) as [[d|]|] eqn:E.
        + specialize (IH rep (sdict_set x (SDefault d) attrs) (set_nodup _ _ _ N)).
          cbn [fst snd]. destruct (fold_left step l _) as [rep' attrs']. destruct IH as (A & B & C).
          split; [|split; auto]; intros k; unfold str_in in *; cbn [existsb].
          * rewrite A. destruct (str_eqb k x) eqn:Ek; [|reflexivity]. apply str_eqb_eq in Ek as ->. rewrite E. cbn. rewrite !andb_false_r. reflexivity.
          * rewrite B, get_set. destruct (str_eqb k x) eqn:Ek; cbn [orb].
            -- apply str_eqb_eq in Ek as ->. rewrite E. cbn. destruct (existsb _ l); reflexivity.
            -- reflexivity.
        + specialize (IH (set_add x rep) (sdict_set x (SList []) attrs) (set_nodup _ _ _ N)).
          cbn [fst snd]. destruct (fold_left step l _) as [rep' attrs']. destruct IH as (A & B & C).
          split; [|split; auto]; intros k.
          * rewrite A, str_in_add. unfold str_in. cbn [existsb].
            destruct (str_eqb k x) eqn:Ek; cbn [orb andb]; [|reflexivity]. apply str_eqb_eq in Ek as ->. rewrite E. cbn. rewrite orb_true_r. reflexivity.
          * rewrite B, get_set. unfold str_in. cbn [existsb]. destruct (str_eqb k x) eqn:Ek; cbn [orb].
            -- apply str_eqb_eq in Ek as ->. rewrite E. cbn. destruct (existsb _ l); reflexivity.
            -- reflexivity.
        + specialize (IH rep attrs N). destruct (fold_left step l _) as [rep' attrs']. destruct IH as (A & B & C).
          split; [|split; auto]; intros k; unfold str_in in *; cbn [existsb].
          * rewrite A. destruct (str_eqb k x) eqn:Ek; [|reflexivity]. apply str_eqb_eq in Ek as ->. rewrite E. cbn. rewrite !andb_false_r. reflexivity.
          * rewrite B. destruct (str_eqb k x) eqn:Ek; cbn [orb]; [|reflexivity]. apply str_eqb_eq in Ek as ->. rewrite E. cbn. destruct (existsb _ l); reflexivity. }
    specialize (G (keys sc) [] [] ltac:(constructor)). destruct (fold_left step _ _) as [rep attrs]. destruct G as (A & B & C).
    exists rep, attrs. split; [reflexivity|]. split; [|split; auto]; intros k.
    - rewrite A, get_decl_keys. cbn [str_in existsb orb]. destruct (get_decl k (schemes sc)); reflexivity.
    - rewrite B, get_decl_keys. destruct (get_decl k (schemes sc)) as [[]|]; reflexivity.
  Qed.

  (** What an item does to the slot of [k]. *)
  Definition effect (sc : nat) (rep : bool) (k : str) (cur : option slot) (i : item) : option slot :=
    match i with
    | IResult (RAttr v a) =>
        if subclass sc (a_fact a) && str_eqb k (a_name a) then
          if rep then match cur with Some (SList l) => Some (SList (l ++ [v])) | _ => cur end else Some (SResult v)
        else cur
    | IResult (RFact (mkFact sc' _ chg attrs)) =>
        if subclass sc' sc && str_in k chg then sdict_get k attrs else cur
    | _ => cur
    end.
  Definition touches (sc : nat) (k : str) (i : item) : bool :=
    match i with
    | IResult (RAttr v a) => subclass sc (a_fact a) && str_eqb k (a_name a)
    | IResult (RFact f) => subclass (fact_class f) sc && changed k f
    | _ => false
    end.

  Lemma set_spec k v sc rep chg attrs f : fact_set k v (mkFact sc rep chg attrs) = Ok f ->
    exists attrs', f = mkFact sc rep (set_add k chg) attrs' /\
      (forall k', sdict_get k' attrs' = if str_eqb k' k then (if str_in k rep then match sdict_get k attrs with Some (SList l) => Some (SList (l ++ [v])) | x => x end else Some (SResult v)) else sdict_get k' attrs) /\
      (NoDup (map fst attrs) -> NoDup (map fst attrs')) /\ sdict_get k attrs' <> None.
  Proof.
    unfold fact_set. destruct (str_in k rep).
    - destruct (sdict_get k attrs) as [[l|?|?]|] eqn:E; try discriminate. intros [= <-].
      eexists. split; [reflexivity|]. split; [intros; apply get_set|]. split; [apply set_nodup|]. rewrite get_set_same. discriminate.
    - intros [= <-]. eexists. split; [reflexivity|]. split; [intros; apply get_set|]. split; [apply set_nodup|]. rewrite get_set_same. discriminate.
  Qed.

  Lemma merge_spec sc' rep' ochg oattrs sc rep chg attrs f : fact_merge (mkFact sc' rep' ochg oattrs) (mkFact sc rep chg attrs) = Ok f ->
    exists chg' attrs', f = mkFact sc rep chg' attrs' /\
      (forall k, str_in k chg' = str_in k chg || str_in k ochg) /\
      (forall k, sdict_get k attrs' = if str_in k ochg then sdict_get k oattrs else sdict_get k attrs) /\
      (forall k, str_in k ochg = true -> sdict_get k oattrs <> None) /\
      (NoDup (map fst attrs) -> NoDup (map fst attrs')).
  Proof.
    unfold fact_merge. revert chg attrs.
    set (step := fun (acc : res ifact) k => let! f := acc in match sdict_get k oattrs with
          | Some s => match f with mkFact sc rep chg attrs => Ok (mkFact sc rep (set_add k chg) (sdict_set k s attrs)) end
          | None => Err KeyError end).
    assert (Err : forall l e, fold_left step l (Err e) = Err e). { induction l; cbn; auto. }
    induction ochg as [|x l IH]; intros chg attrs; cbn [fold_left].
    - intros [= <-]. exists chg, attrs. split; [reflexivity|]. split; [intros; cbn; rewrite orb_false_r; auto|].
      split; [auto|]. split; [discriminate|auto].
    - unfold step at 2. cbn [bind]. destruct (sdict_get x oattrs) as [s|] eqn:E; [|rewrite Err; discriminate].
      intros H. apply IH in H as (chg' & attrs' & -> & A & B & C & D). exists chg', attrs'. split; [reflexivity|].
      split; [|split; [|split]].
      + intros k. rewrite A, str_in_add. unfold str_in. cbn [existsb]. destruct (str_eqb k x), (existsb (str_eqb k) chg); reflexivity.
      + intros k. rewrite B, get_set. unfold str_in. cbn [existsb]. destruct (str_eqb k x) eqn:Ek; cbn [orb]; [|reflexivity].
        apply str_eqb_eq in Ek as ->. rewrite E. destruct (existsb _ l); reflexivity.
      + intros k. unfold str_in. cbn [existsb]. destruct (str_eqb k x) eqn:Ek; cbn [orb]; [|apply C].
        apply str_eqb_eq in Ek as ->. congruence.
      + intros N. apply D, set_nodup, N.
  Qed.

  Lemma fold_err sc items e : fold_left (fact_item subclass sc) items (Err e) = Err e.
  Proof. induction items; cbn; auto. Qed.

  Lemma fold_spec sc : forall items rep chg attrs f,
    fold_left (fact_item subclass sc) items (Ok (mkFact sc rep chg attrs)) = Ok f ->
    exists chg' attrs', f = mkFact sc rep chg' attrs' /\
      (forall k, str_in k chg' = str_in k chg || existsb (touches sc k) items) /\
      (forall k, sdict_get k attrs' = fold_left (effect sc (str_in k rep) k) items (sdict_get k attrs)) /\
      (NoDup (map fst attrs) -> NoDup (map fst attrs')) /\
      ((forall k, str_in k chg = true -> sdict_get k attrs <> None) -> forall k, str_in k chg' = true -> sdict_get k attrs' <> None).
  Proof.
    induction items as [|i items IH]; intros rep chg attrs f; cbn [fold_left].
    - intros [= <-]. exists chg, attrs. split; [reflexivity|]. split; [intros; cbn; rewrite orb_false_r; auto|]. auto.
    - assert (Skip : fact_item subclass sc (Ok (mkFact sc rep chg attrs)) i = Ok (mkFact sc rep chg attrs) ->
        (forall k cur, effect sc (str_in k rep) k cur i = cur) -> (forall k, touches sc k i = false) ->
        fold_left (fact_item subclass sc) items (fact_item subclass sc (Ok (mkFact sc rep chg attrs)) i) = Ok f ->
        exists chg' attrs', f = mkFact sc rep chg' attrs' /\
          (forall k, str_in k chg' = str_in k chg || existsb (touches sc k) (i :: items)) /\
          (forall k, sdict_get k attrs' = fold_left (effect sc (str_in k rep) k) items (effect sc (str_in k rep) k (sdict_get k attrs) i)) /\
          (NoDup (map fst attrs) -> NoDup (map fst attrs')) /\
          ((forall k, str_in k chg = true -> sdict_get k attrs <> None) -> forall k, str_in k chg' = true -> sdict_get k attrs' <> None)).
      { intros -> He Ht H. apply IH in H as (chg' & attrs' & -> & A & B & C). exists chg', attrs'. split; [reflexivity|].
        split; [intros k; cbn [existsb]; rewrite Ht; apply A|]. split; [intros k; rewrite He; apply B|auto]. }
      destruct i as [t|[ts key|[sc' rep' ochg oattrs]|v a|v inp]]; try (apply Skip; reflexivity).
      + cbn [fact_item bind]. destruct (subclass sc' sc) eqn:Es.
        2:{ intros H. apply Skip; cbn [fact_item bind effect touches fact_class]; intros; rewrite ?Es; auto. }
        intros H. destruct (fact_merge _ _) as [f1|e] eqn:Em; [|rewrite fold_err in H; discriminate].
        apply merge_spec in Em as (chg1 & attrs1 & -> & A1 & B1 & E1 & D1).
        apply IH in H as (chg' & attrs' & -> & A & B & C & E). exists chg', attrs'. split; [reflexivity|].
        split; [|split; [|split; [auto|]]].
        3:{ intros I. apply E. intros k Hk. rewrite A1 in Hk. rewrite B1. destruct (str_in k ochg) eqn:Eo; [auto|]. apply I. rewrite orb_false_r in Hk. auto. }
        all: intros k.
        * rewrite A, A1. cbn. rewrite Es. cbn. rewrite orb_assoc. reflexivity.
        * rewrite B, B1. cbn [effect]. rewrite Es. cbn [andb]. reflexivity.
      + cbn [fact_item bind]. destruct (subclass sc (a_fact a)) eqn:Es.
        2:{ intros H. apply Skip; cbn [fact_item bind effect touches fact_class]; intros; rewrite ?Es; auto. }
        intros H. destruct (fact_set _ _ _) as [f1|e] eqn:Em; [|rewrite fold_err in H; discriminate].
        apply set_spec in Em as (attrs1 & -> & B1 & D1 & E1).
        apply IH in H as (chg' & attrs' & -> & A & B & C & E). exists chg', attrs'. split; [reflexivity|].
        split; [|split; [|split; [auto|]]].
        3:{ intros I. apply E. intros k Hk. rewrite str_in_add in Hk. destruct (str_eqb k (a_name a)) eqn:Ek; [apply str_eqb_eq in Ek as ->; auto|].
            rewrite B1, Ek. apply I. auto. }
        all: intros k.
        * rewrite A, str_in_add. cbn. rewrite Es. cbn.
          destruct (str_eqb k (a_name a)), (str_in k chg); reflexivity.
        * rewrite B, B1. f_equal. cbn [effect]. rewrite Es. cbn [andb].
          destruct (str_eqb k (a_name a)) eqn:Ek; [|reflexivity]. apply str_eqb_eq in Ek as ->.
          destruct (str_in (a_name a) rep); [|reflexivity]. destruct (sdict_get _ attrs) as [[]|]; reflexivity.
  Qed.

  (** The slot of [k] after all items. *)
  Lemma call_fact_spec sc items r : call_fact schemes subclass sc items = Ok r ->
    exists rep chg attrs, r = RFact (mkFact sc rep chg attrs) /\ NoDup (map fst attrs) /\
      (forall k, str_in k rep = is_rep (get_decl k (schemes sc))) /\
      (forall k, str_in k chg = existsb (touches sc k) items) /\
      (forall k, sdict_get k attrs = fold_left (effect sc (is_rep (get_decl k (schemes sc))) k) items (initial (get_decl k (schemes sc)))) /\
      (forall k, str_in k chg = true -> sdict_get k attrs <> None).
  Proof.
    unfold call_fact. destruct (new_fact_spec sc) as (rep & attrs & -> & A & B & N).
    destruct (fold_left _ _ _) as [f|e] eqn:E; cbn [bind]; [|discriminate]. intros [= <-].
    apply fold_spec in E as (chg' & attrs' & -> & A' & B' & N' & E'). exists rep, chg', attrs'.
    split; [reflexivity|]. split; [auto|]. split; [auto|]. split; [intros; rewrite A'; reflexivity|].
    split; [|apply E'; discriminate]. intros k. rewrite B', A, B. reflexivity.
  Qed.

  (** Plain attributes: the last item that touches [k] decides. *)
  Lemma effect_plain_untouched sc k items : existsb (touches sc k) items = false ->
    forall cur, fold_left (effect sc false k) items cur = cur.
  Proof.
    induction items as [|i items IH]; intros H cur; [reflexivity|]. cbn [existsb] in H. apply orb_false_iff in H as [Hi H].
    cbn [fold_left]. rewrite IH by auto. destruct i as [t|[ts key|[sc' rep' ochg oattrs]|v a|v inp]]; try reflexivity; cbn in Hi |- *; rewrite Hi; reflexivity.
  Qed.
  Lemma effect_untouched sc rep k items : existsb (touches sc k) items = false ->
    forall cur, fold_left (effect sc rep k) items cur = cur.
  Proof.
    induction items as [|i items IH]; intros H cur; [reflexivity|]. cbn [existsb] in H. apply orb_false_iff in H as [Hi H].
    cbn [fold_left]. rewrite IH by auto. destruct i as [t|[ts key|[sc' rep' ochg oattrs]|v a|v inp]]; try reflexivity; cbn in Hi |- *; rewrite Hi; reflexivity.
  Qed.
  (** Repeatable attributes: values are appended to the current list. *)
  Lemma effect_assigned sc k items : existsb (part_sets subclass sc k) items = false ->
    forall l, fold_left (effect sc true k) items (Some (SList l)) = Some (SList (l ++ assigned subclass sc k items)).
  Proof.
    induction items as [|i items IH]; intros H l; cbn [fold_left assigned flat_map]; [rewrite app_nil_r; reflexivity|].
    cbn [existsb] in H. apply orb_false_iff in H as [Hi H]. unfold assigned in IH.
    destruct i as [t|[ts key|[sc' rep' ochg oattrs]|v a|v inp]]; cbn [effect app]; try (apply IH; auto).
    - cbn in Hi. rewrite Hi. apply IH; auto.
    - destruct (subclass sc (a_fact a) && str_eqb k (a_name a)); [|apply IH; auto].
      rewrite IH by auto. rewrite <- app_assoc. reflexivity.
  Qed.
End Facts.
