(** Proofs about fact classes. *)
From Coq Require String.
From Verif Require Import Base TokenModel InterpModel InterpSpec PredicateProofs FactProofs FactTheorems ClassModel ClassSpec.
From Coq Require Import Lia.
Open Scope nat_scope.

Definition key_text (k : key) : str := match k with KStr s => s | KOther _ => [] end.
Lemma proper_text K : proper K -> map KStr (map key_text (names K)) = names K.
Proof.
  intro P. unfold proper in P. induction (names K) as [|k l IH]; [reflexivity|]. cbn [map].
  destruct (P k (or_introl eq_refl)) as (s & d & -> & _). cbn [key_text]. rewrite IH; [reflexivity|]. intros k I. apply P. right. exact I.
Qed.
Lemma scheme_keys K : proper K -> map fst (scheme_of K) = map key_text (names K).
Proof.
  intro P. unfold scheme_of, proper in *. induction (names K) as [|k l IH]; [reflexivity|]. cbn [flat_map map].
  destruct (P k (or_introl eq_refl)) as (s & d & -> & E). rewrite E. cbn [app map fst key_text]. rewrite IH; [reflexivity|]. intros k I. apply P. right. exact I.
Qed.
Lemma scheme_in K s d : In (s, d) (scheme_of K) <-> named s K /\ find s K = Some (MAttr d).
Proof.
  unfold scheme_of, named. rewrite in_flat_map. split.
  - intros ([s'|n] & I & H); [|destruct H]. destruct (find s' K) as [[]|] eqn:E; try (destruct H; fail). destruct H as [H|[]]. injection H as -> ->. auto.
  - intros [I E]. exists (KStr s). split; [exact I|]. rewrite E. left. reflexivity.
Qed.
Lemma get_decl_in k d (l : scheme) : get_decl k l = Some d -> In (k, d) l.
Proof.
  induction l as [|[k' d'] l IH]; [discriminate|]. cbn [get_decl]. destruct (get_decl k l) as [x|]; [intro H; right; apply IH; exact H|].
  destruct (str_eqb k k') eqn:E; [|discriminate]. apply str_eqb_eq in E as ->. intro H. injection H as ->. left. reflexivity.
Qed.
Lemma scheme_decl K s : proper K -> get_decl s (scheme_of K) = if key_in s (names K) then match find s K with Some (MAttr d) => Some d | _ => None end else None.
Proof.
  intro P. destruct (get_decl s (scheme_of K)) as [d|] eqn:E.
  - apply get_decl_in, scheme_in in E as [N E]. rewrite E. replace (key_in s (names K)) with true; [reflexivity|]. symmetry. unfold key_in. apply existsb_exists.
    exists (KStr s). split; [exact N|apply str_eqb_refl].
  - destruct (key_in s (names K)) eqn:I; [|reflexivity]. unfold key_in in I. apply existsb_exists in I as ([s'|n] & I & H); [|discriminate].
    apply str_eqb_eq in H as <-. destruct (P _ I) as (s' & d & H & F). injection H as <-. exfalso.
    pose proof (get_decl_keys s (scheme_of K)) as G. rewrite E in G. assert (In s (map fst (scheme_of K))) as J by (apply in_map_iff; exists (s, d); split; [reflexivity|apply scheme_in; split; [exact I|exact F]]).
    unfold str_in in G. rewrite <- not_true_iff_false in G. apply G. apply existsb_exists. exists s. split; [exact J|apply str_eqb_refl].
Qed.
Lemma key_in_iff s l : key_in s l = true <-> In (KStr s) l.
Proof.
  unfold key_in. rewrite existsb_exists. split.
  - intros ([s'|n] & I & H); [|discriminate]. apply str_eqb_eq in H as <-. exact I.
  - intro I. exists (KStr s). split; [exact I|apply str_eqb_refl].
Qed.

(** ** The partial fact *)
Definition start_step (K : klass) (acc : res (list str * list (str * slot))) (k : key) : res (list str * list (str * slot)) :=
  let! p := acc in
  match k with
  | KOther _ => Err TypeError
  | KStr s =>
      match find s K with
      | Some (MAttr Repeatable) => Ok (set_add s (fst p), sdict_set s (SList []) (snd p))
      | Some (MAttr (Plain d)) => Ok (fst p, sdict_set s (SDefault d) (snd p))
      | _ => Err AttributeError
      end
  end.
Lemma start_step_err K l e : fold_left (start_step K) l (Err e) = Err e.
Proof. induction l as [|k l IH]; [reflexivity|exact IH]. Qed.
Lemma start_fact_iff K sc : (exists f, start_fact K sc = Ok f) <-> proper K.
Proof.
  unfold start_fact, proper. change (fold_left _ (names K) (Ok ([], []))) with (fold_left (start_step K) (names K) (Ok ([], []))). generalize (@nil str, @nil (str * slot)).
  induction (names K) as [|k l IH]; intro p.
  - cbn. split; [intros _ k []|eauto].
  - cbn [fold_left]. destruct k as [s|n].
    + cbn [start_step bind]. destruct (find s K) as [[]|] eqn:F; try (rewrite start_step_err; cbn [bind]; split; [intros [f H]; discriminate|
        intro H; destruct (H _ (or_introl eq_refl)) as (s' & d' & E & F'); injection E as <-; congruence]).
      destruct d as [v|].
      * rewrite IH. split; intros H k I; [destruct I as [<-|I]; [eauto|apply H; exact I]|apply H; right; exact I].
      * rewrite IH. split; intros H k I; [destruct I as [<-|I]; [eauto|apply H; exact I]|apply H; right; exact I].
    + cbn [start_step bind]. rewrite start_step_err. cbn [bind]. split; [intros [f H]; discriminate|]. intro H. destruct (H _ (or_introl eq_refl)) as (s' & d' & E & F'). discriminate.
Qed.
Lemma start_fact_error K sc e : start_fact K sc = Err e -> e = TypeError \/ e = AttributeError.
Proof.
  unfold start_fact. change (fold_left _ (names K) (Ok ([], []))) with (fold_left (start_step K) (names K) (Ok ([], []))). generalize (@nil str, @nil (str * slot)).
  induction (names K) as [|k l IH]; intro p; [discriminate|]. cbn [fold_left]. destruct k as [s|n].
  - cbn [start_step bind]. destruct (find s K) as [[]|]; try (rewrite start_step_err; cbn [bind]; intro H; injection H as <-; auto).
    destruct d; apply IH.
  - cbn [start_step bind]. rewrite start_step_err. cbn [bind]. intro H. injection H as <-. auto.
Qed.
Lemma start_fact_same schemes K sc : proper K -> schemes sc = scheme_of K -> start_fact K sc = Ok (new_fact schemes sc).
Proof.
  intros P E. unfold start_fact, new_fact. rewrite E, scheme_keys by exact P.
  change (fold_left _ (names K) (Ok ([], []))) with (fold_left (start_step K) (names K) (Ok ([], []))).
  set (step := fun acc k => match get_decl k (scheme_of K) with
        | Some Repeatable => (set_add k (fst acc), sdict_set k (SList []) (snd acc))
        | Some (Plain d) => (fst acc, sdict_set k (SDefault d) (snd acc))
        | None => acc
        end).
  assert (G : forall l p, incl l (names K) -> fold_left (start_step K) l (Ok p) = Ok (fold_left step (map key_text l) p)).
  { induction l as [|k l IH]; intros p I; [reflexivity|]. cbn [fold_left map]. assert (Ik : In k (names K)) by (apply I; left; reflexivity).
    destruct (P _ Ik) as (s & d & -> & F). cbn [start_step bind key_text]. rewrite F. unfold step at 2. rewrite scheme_decl, F by exact P.
    rewrite (proj2 (key_in_iff s (names K)) Ik). destruct d; apply IH; intros x J; apply I; right; exact J. }
  rewrite G by apply incl_refl. cbn [bind]. destruct (fold_left step _ _) as [rep attrs]. reflexivity.
Qed.

(** ** The instance *)
Definition construct_step (K : klass) (kwargs : list (str * pyval)) (acc : res instance) (k : key) : res instance :=
  let! o := acc in
  match k with
  | KOther _ => Err TypeError
  | KStr s =>
      let! v := match sdict_get s kwargs with Some v => Ok v | None => default_value K o s end in
      assign K s (DValue v) o
  end.
Lemma construct_step_err K kwargs l e : fold_left (construct_step K kwargs) l (Err e) = Err e.
Proof. induction l as [|k l IH]; [reflexivity|exact IH]. Qed.
Lemma assign_attr K s d v o : find s K = Some (MAttr d) -> assign K s v o = Ok (sdict_set s v o).
Proof. intro F. unfold assign. rewrite F. reflexivity. Qed.
(** All attributes given. *)
Lemma construct_given K kwargs : proper K -> ~ In SELF (map fst kwargs) -> (forall s, In s (map fst kwargs) <-> named s K) ->
  exists o, construct K kwargs = Ok o /\ forall s, sdict_get s o = option_map DValue (sdict_get s kwargs).
Proof.
  intros P S A. unfold construct.
  assert (E : str_in SELF (map fst kwargs) = false).
  { apply not_true_iff_false. unfold str_in. intro H. apply existsb_exists in H as (x & I & H). apply str_eqb_eq in H as <-. contradiction. }
  rewrite E. clear E.
  assert (E : forallb (fun p => key_in (fst p) (names K)) kwargs = true).
  { apply forallb_forall. intros [s v] I. apply key_in_iff. apply A. apply in_map_iff. exists (s, v). auto. }
  rewrite E. clear E. cbn [negb]. change (fold_left _ (names K) (Ok [])) with (fold_left (construct_step K kwargs) (names K) (Ok [])).
  assert (G : forall l o, incl l (names K) -> exists o', fold_left (construct_step K kwargs) l (Ok o) = Ok o' /\
            forall s, sdict_get s o' = if key_in s l then option_map DValue (sdict_get s kwargs) else sdict_get s o).
  { induction l as [|k l IH]; intros o I; [exists o; split; reflexivity|]. cbn [fold_left]. assert (Ik : In k (names K)) by (apply I; left; reflexivity).
    destruct (P _ Ik) as (s & d & -> & F). cbn [construct_step bind].
    destruct (sdict_get s kwargs) as [v|] eqn:Ev.
    2: { exfalso. pose proof (get_keys s kwargs) as G. rewrite Ev in G. apply not_true_iff_false in G. apply G. unfold str_in. apply existsb_exists.
         exists s. split; [apply A; exact Ik|apply str_eqb_refl]. }
    cbn [bind]. rewrite (assign_attr K s d _ _ F). destruct (IH (sdict_set s (DValue v) o)) as (o' & H & R); [intros x J; apply I; right; exact J|].
    exists o'. split; [exact H|]. intro t. rewrite R, get_set. unfold key_in. cbn [existsb]. fold (key_in t l). destruct (str_eqb t s) eqn:Et; [|reflexivity].
    apply str_eqb_eq in Et as ->. rewrite Ev. destruct (key_in s l); reflexivity. }
  destruct (G (names K) [] (incl_refl _)) as (o & H & R). exists o. split; [exact H|]. intro s. rewrite R. destruct (key_in s (names K)) eqn:Ek; [reflexivity|].
  destruct (sdict_get s kwargs) as [v|] eqn:Ev; [|reflexivity]. exfalso. apply not_true_iff_false in Ek. apply Ek. apply key_in_iff, A. apply in_map_iff. exists (s, v).
  split; [reflexivity|apply get_in; exact Ev].
Qed.

Lemma forallb_ext' {A} (f g : A -> bool) l : (forall x, f x = g x) -> forallb f l = forallb g l.
Proof. intro H. induction l as [|x l IH]; [reflexivity|]. cbn [forallb]. rewrite H, IH. reflexivity. Qed.
Lemma normalized_fact_eq schemes sc rep chg attrs : normalized_fact schemes (mkFact sc rep chg attrs) =
  let! kwargs := mapM (fun p => let '(k, s) := p in let! v := normalized_slot schemes (str_in k rep) (str_in k chg) s in Ok (k, v)) attrs in
  let! values := fact_init schemes sc kwargs in Ok (VFact sc values (mkFact sc rep chg attrs)).
Proof. reflexivity. Qed.
(** Facts made by the parser. *)
Section Parsed.
  Variable schemes : nat -> scheme.
  Variable subclass : nat -> nat -> bool.
  Variable K : klass.
  Variable sc : nat.
  Hypothesis P : proper K.
  Hypothesis Hs : schemes sc = scheme_of K.

  Lemma called_keys items rep chg attrs : call_fact schemes subclass sc items = Ok (RFact (mkFact sc rep chg attrs)) -> forall s, named s K -> In s (map fst attrs).
  Proof.
    intros C s N. apply call_fact_spec in C as (rep' & chg' & attrs' & E & _ & _ & B & A & D). injection E as <- <- <-.
    assert (G : sdict_get s attrs <> None).
    { destruct (str_in s chg) eqn:Ec; [apply D; exact Ec|]. rewrite A. rewrite B in Ec. rewrite effect_untouched by exact Ec.
      rewrite Hs, scheme_decl by exact P. rewrite (proj2 (key_in_iff s (names K)) N). destruct (P _ N) as (s' & d & E & F). injection E as <-. rewrite F. destruct d; discriminate. }
    destruct (sdict_get s attrs) as [x|] eqn:E; [|congruence]. apply get_in in E. apply in_map_iff. exists (s, x). auto.
  Qed.
  Lemma instance_shows items f v : call_fact schemes subclass sc items = Ok (RFact f) -> normalized_fact schemes f = Ok v ->
    ~ named SELF K -> named RAW K \/ find RAW K = Some (MValue VNone) ->
    exists o, instance_of schemes K f = Ok o /\ read_name schemes K o RAW = Ok (FRaw f) /\
      (forall s, named s K -> s <> RAW -> exists x, value_attr s v = Some x /\ read_name schemes K o s = Ok (FValue x)) /\
      (find AS_JSON K = Some MJson -> read_name schemes K o AS_JSON = let! j := value_json schemes v in Ok (FValue j)) /\
      (find SPANS K = Some MSpans -> read_name schemes K o SPANS = let! l := value_spans v in Ok (FSpans l)).
  Proof.
    intros C V NS FR. destruct f as [sc' rep chg attrs]. pose proof C as C'. apply call_fact_spec in C' as (rep' & chg' & attrs' & E & _). injection E as -> _ _ _. clear rep' chg' attrs'.
    pose proof (called_keys _ _ _ _ C) as Keys. cbn [normalized_fact] in V. unfold instance_of.
    change (fix normalized_slot (rep chg : bool) (s : slot) {struct s} : res pyval := _) with (normalized_slot schemes) in V.
    destruct (mapM _ attrs) as [kwargs|] eqn:M; cbn [bind] in V |- *; [|discriminate].
    destruct (fact_init schemes sc kwargs) as [values|] eqn:I; cbn [bind] in V; [|discriminate]. injection V as <-.
    apply (mapM_get (fun k s => normalized_slot schemes (str_in k rep) (str_in k chg) s)) in M as [Kk _].
    apply fact_init_spec in I as (A & B & _).
    assert (Kn : forall s, In s (map fst kwargs) <-> named s K).
    { intro s. split.
      - intro J. apply in_map_iff in J as ([s' x] & <- & J). apply A in J. rewrite Hs, scheme_keys in J by exact P.
        unfold str_in in J. apply existsb_exists in J as (y & J & Ey). apply str_eqb_eq in Ey. cbn [fst] in *. subst y. unfold named. rewrite <- (proper_text K P). apply in_map. exact J.
      - intro N. rewrite Kk. apply Keys. exact N. }
    destruct (construct_given K kwargs P) as (o & Ho & R); [intro J; apply NS, Kn, J|exact Kn|]. rewrite Ho. cbn [bind].
    assert (FR' : find RAW K = Some (MValue VNone) \/ exists d, find RAW K = Some (MAttr d)).
    { destruct FR as [N|FR]; [|auto]. destruct (P _ N) as (s' & d & E & F). injection E as <-. eauto. }
    unfold assign. exists (sdict_set RAW (DRaw (mkFact sc rep chg attrs)) o). split; [destruct FR' as [->|[d ->]]; reflexivity|].
    split; [|split; [|split]].
    - unfold read_name, plain_read. rewrite get_set_same. destruct FR' as [->|[d ->]]; reflexivity.
    - intros s N NR. destruct (P _ N) as (s' & d & E & F). injection E as <-.
      assert (Es : str_in s (map fst (schemes sc)) = true).
      { rewrite get_decl_keys, Hs, scheme_decl, F by exact P. rewrite (proj2 (key_in_iff s (names K)) N). reflexivity. }
      destruct (sdict_get s kwargs) as [x|] eqn:Ex.
      + exists x. cbn [value_attr]. rewrite B, Es, Ex. split; [reflexivity|]. unfold read_name. rewrite F. unfold plain_read. rewrite get_set_other by congruence.
        rewrite R, Ex. reflexivity.
      + exfalso. pose proof (get_keys s kwargs) as G. rewrite Ex in G. apply not_true_iff_false in G. apply G. unfold str_in. apply existsb_exists. exists s. split; [apply Kn; exact N|apply str_eqb_refl].
    - intro F. unfold read_name. rewrite F. unfold plain_read. rewrite get_set_same. reflexivity.
    - intro F. unfold read_name. rewrite F. unfold plain_read. rewrite get_set_same. cbn [value_spans found_value]. destruct (spans_fact _); reflexivity.
  Qed.
  Lemma instance_self items f v : call_fact schemes subclass sc items = Ok (RFact f) -> normalized_fact schemes f = Ok v -> named SELF K -> instance_of schemes K f = Err TypeError.
  Proof.
    intros C V N. destruct f as [sc' rep chg attrs]. pose proof C as C'. apply call_fact_spec in C' as (rep' & chg' & attrs' & E & _). injection E as -> _ _ _. clear rep' chg' attrs'.
    pose proof (called_keys _ _ _ _ C SELF N) as Keys. cbn [normalized_fact] in V. unfold instance_of.
    change (fix normalized_slot (rep chg : bool) (s : slot) {struct s} : res pyval := _) with (normalized_slot schemes) in V.
    destruct (mapM _ attrs) as [kwargs|] eqn:M; cbn [bind] in V |- *; [|discriminate].
    apply (mapM_get (fun k s => normalized_slot schemes (str_in k rep) (str_in k chg) s)) in M as [Kk _].
    unfold construct. replace (str_in SELF (map fst kwargs)) with true; [reflexivity|]. symmetry. rewrite Kk. unfold str_in. apply existsb_exists. exists SELF. split; [exact Keys|apply str_eqb_refl].
  Qed.
  Lemma instance_error items f e : call_fact schemes subclass sc items = Ok (RFact f) -> normalized_fact schemes f = Err e -> ~ named SELF K -> instance_of schemes K f = Err e \/ instance_of schemes K f = Err TypeError /\ str_in SELF (match f with mkFact _ _ _ attrs => map fst attrs end) = true.
  Proof.
    intros C V N. destruct f as [sc' rep chg attrs]. pose proof C as C'. apply call_fact_spec in C' as (rep' & chg' & attrs' & E & _). injection E as -> _ _ _. clear rep' chg' attrs'.
    cbn [normalized_fact] in V. unfold instance_of.
    change (fix normalized_slot (rep chg : bool) (s : slot) {struct s} : res pyval := _) with (normalized_slot schemes) in V.
    destruct (mapM _ attrs) as [kwargs|] eqn:M; cbn [bind] in V |- *; [|left; injection V as ->; reflexivity].
    apply (mapM_get (fun k s => normalized_slot schemes (str_in k rep) (str_in k chg) s)) in M as [Kk _].
    unfold fact_init in V. destruct (forallb _ kwargs) eqn:Fb; cbn [bind] in V; [discriminate|]. injection V as <-.
    unfold construct. rewrite <- Kk. destruct (str_in SELF (map fst kwargs)); [right; split; reflexivity|left].
    replace (forallb (fun p => key_in (fst p) (names K)) kwargs) with false; [reflexivity|]. rewrite <- Fb. apply forallb_ext'. intros [s x]. cbn [fst].
    rewrite get_decl_keys, Hs, scheme_decl by exact P. destruct (key_in s (names K)) eqn:Ek; [|reflexivity]. apply key_in_iff in Ek.
    destruct (P _ Ek) as (s' & d & E & F). injection E as <-. rewrite F. reflexivity.
  Qed.
End Parsed.
(** No KeyError when subclasses have the attributes of their classes. *)
Section Agree.
  Variable schemes : nat -> scheme.
  Variable subclass : nat -> nat -> bool.
  Hypothesis N : names_agree schemes subclass.
  Lemma called_declared sc items f : items_declared schemes items -> call_fact schemes subclass sc items = Ok (RFact f) ->
    sets_declared schemes f /\ (values_normalize schemes f -> exists v, normalized_fact schemes f = Ok v).
  Proof.
    intros I C. apply call_fact_spec in C as (rep & chg & attrs & E & _ & _ & B & A & D). injection E as ->.
    assert (T : forall k items, get_decl k (schemes sc) = None -> items_declared schemes items -> existsb (touches subclass sc k) items = false).
    { clear - N. intros k items G I. apply not_true_iff_false. intro H. apply existsb_exists in H as (i & J & H). destruct i as [t|r]; [discriminate|].
      apply I in J. destruct r as [ts key|f|v a|v inp]; try discriminate; cbn [touches] in H; apply andb_true_iff in H as [Hs Hk].
      - apply (proj2 (N _ _ Hs k)) in G. exact (J k Hk G).
      - apply str_eqb_eq in Hk. subst k. apply (proj1 (N _ _ Hs _)) in G. exact (J G). }
    split.
    - intros k H. cbn [changed fact_class] in *. intro G. rewrite B, (T k items G I) in H. discriminate.
    - intro V. rewrite normalized_fact_eq.
      assert (L : forall l, (forall k s, In (k, s) l -> exists v, normalized_slot schemes (str_in k rep) (str_in k chg) s = Ok v) ->
        exists l', mapM (fun p => let '(k, s) := p in let! v := normalized_slot schemes (str_in k rep) (str_in k chg) s in Ok (k, v)) l = Ok l').
      { induction l as [|[k s] l IH]; intro H; cbn [mapM]; [eauto|]. destruct (H k s (or_introl eq_refl)) as [v ->]. cbn [bind].
        destruct IH as [l' ->]; [intros; eapply H; right; eauto|]. cbn [bind]. eauto. }
      destruct (L attrs V) as [kwargs M]. rewrite M. cbn [bind]. apply (mapM_get (fun k s => normalized_slot schemes (str_in k rep) (str_in k chg) s)) in M as [Kk _].
      unfold fact_init. replace (forallb _ kwargs) with true; [cbn [bind]; eauto|]. symmetry. apply forallb_forall. intros [k x] J. rewrite get_decl_keys. cbn [fst].
      destruct (get_decl k (schemes sc)) eqn:G; [reflexivity|]. exfalso.
      assert (J' : In k (map fst attrs)). { rewrite <- Kk. apply in_map_iff. exists (k, x). auto. }
      specialize (A k). rewrite effect_untouched in A by (apply T; auto). rewrite G in A. pose proof (get_keys k attrs) as Gk. rewrite A in Gk.
      apply not_true_iff_false in Gk. apply Gk. unfold str_in. apply existsb_exists. exists k. split; [exact J'|apply str_eqb_refl].
  Qed.
End Agree.

(** ** Classes made by [fact] *)
Definition fact_step (shown_key : nat -> str) (cls : members) (item : declared) : members :=
  let '(k, d) := prepared item in
  let cls := match sdict_get ATTRIBUTES cls with
             | Some (MNames ks) => sdict_set ATTRIBUTES (MNames (ks ++ [k])) cls
             | _ => cls
             end in
  sdict_set (key_str shown_key k) (MAttr d) cls.
Lemma not_attributes s : underscored s = false -> s <> ATTRIBUTES.
Proof. intros U ->. discriminate U. Qed.
Lemma fact_members_of shown_key l : string_names l -> forall cls ks, sdict_get ATTRIBUTES cls = Some (MNames ks) ->
  let d := fold_left (fact_step shown_key) l cls in
  sdict_get ATTRIBUTES d = Some (MNames (ks ++ map (fun x => fst (prepared x)) l)) /\
  (forall s, s <> ATTRIBUTES -> sdict_get s d = match last_declared s l with Some x => Some (MAttr x) | None => sdict_get s cls end).
Proof.
  induction l as [|x l IH]; intros S cls ks H; cbn [fold_left map last_declared].
  - rewrite app_nil_r. auto.
  - inversion S as [|? ? (s0 & E & U) S']; subst. destruct (prepared x) as [k0 d0] eqn:Ep. cbn [fst snd] in *. subst k0.
    pose proof (not_attributes _ U) as NA.
    destruct (IH S' (fact_step shown_key cls x) (ks ++ [KStr s0])) as [A B].
    { unfold fact_step. rewrite Ep, H. cbn [key_str]. rewrite get_set_other by congruence. apply get_set_same. }
    split; [rewrite A, <- app_assoc; reflexivity|]. intros s Ns. rewrite B by exact Ns. destruct (last_declared s l); [reflexivity|].
    unfold fact_step. rewrite Ep, H. cbn [key_str]. rewrite get_set. destruct (str_eqb s s0) eqn:Es; [reflexivity|]. apply get_set_other. congruence.
Qed.
Lemma declared_last s l : In (KStr s) (map (fun x => fst (prepared x)) l) -> exists d, last_declared s l = Some d.
Proof.
  induction l as [|x l IH]; cbn [map In last_declared]; [contradiction|]. intros [E|J].
  - destruct (last_declared s l); [eauto|]. rewrite E, str_eqb_refl. eauto.
  - destruct (IH J) as [d ->]. eauto.
Qed.
Lemma fact_class shown_key g l : elements g = Ok l -> string_names l ->
  exists d, fact shown_key g = Ok d /\ names [d] = map (fun x => fst (prepared x)) l /\ proper [d] /\
    (forall s x, last_declared s l = Some x -> find s [d] = Some (MAttr x)) /\
    (forall s, last_declared s l = None -> underscored s = false -> find s [d] = own_member s).
Proof.
  intros E S. unfold fact. rewrite E. cbn [bind]. fold (fact_step shown_key).
  change (fun cls item => let '(k, d) := prepared item in _) with (fact_step shown_key).
  destruct (fact_members_of shown_key l S [(ATTRIBUTES, MNames []); (RAW, MValue VNone)] []) as [A B]; [reflexivity|].
  set (d := fold_left _ l _) in *. exists d. split; [reflexivity|].
  assert (N : names [d] = map (fun x => fst (prepared x)) l). { unfold names. cbn [find]. rewrite A. reflexivity. }
  assert (L : forall s x, last_declared s l = Some x -> s <> ATTRIBUTES).
  { clear - S. induction l as [|y l IH]; cbn [last_declared]; [discriminate|]. inversion S as [|? ? (s0 & E & U) S']; subst. intros s x. destruct (last_declared s l) eqn:El.
    - intros _. eauto.
    - rewrite E. destruct (str_eqb s s0) eqn:Es; [|discriminate]. intros _. apply str_eqb_eq in Es as ->. apply not_attributes, U. }
  assert (F : forall s x, last_declared s l = Some x -> find s [d] = Some (MAttr x)).
  { intros s x H. cbn [find]. rewrite B by eauto. rewrite H. reflexivity. }
  split; [exact N|]. split; [|split; [exact F|]].
  - intros k J. rewrite N in J. pose proof J as J'. apply in_map_iff in J' as (y & Ey & Jy).
    apply (proj1 (Forall_forall _ _) S) in Jy as (s & Es & _). rewrite Es in Ey. subst k. destruct (declared_last s l J) as [x H]. eauto.
  - intros s H U. cbn [find]. rewrite B by (apply not_attributes, U). rewrite H. pose proof (not_attributes _ U) as NA.
    unfold fact_members, own_member. cbn [sdict_get]. destruct (str_eqb s ATTRIBUTES) eqn:Ea; [apply str_eqb_eq in Ea; contradiction|].
    fold AS_JSON SPANS RAW. destruct (str_eqb s RAW) eqn:Er; [apply str_eqb_eq in Er as ->; reflexivity|]. cbn [sdict_get].
    destruct (str_eqb s AS_JSON); [reflexivity|]. destruct (str_eqb s SPANS); reflexivity.
Qed.
(** A class statement that adds members only. *)
Lemma adds_only_same u K : adds_only u K -> names (u :: K) = names K /\ (forall s, named s K \/ In s [AS_JSON; SPANS; RAW] -> find s (u :: K) = find s K).
Proof.
  intro A. split.
  - unfold names. cbn [find]. destruct (sdict_get ATTRIBUTES u) as [m|] eqn:E; [|reflexivity]. apply A in E as [U _]. discriminate U.
  - intros s H. cbn [find]. destruct (sdict_get s u) as [m|] eqn:E; [|reflexivity]. apply A in E as (_ & B & C). destruct H; contradiction.
Qed.
Lemma adds_only_proper u K : adds_only u K -> proper K -> proper (u :: K).
Proof.
  intros A P k J. destruct (adds_only_same u K A) as [N F]. rewrite N in J. destruct (P k J) as (s & d & -> & H). exists s, d. split; [reflexivity|]. rewrite F; auto.
Qed.
(** A class statement that takes the name of an attribute for something else. *)
Lemma taken_name u K s m sc : named s K -> sdict_get ATTRIBUTES u = None -> sdict_get s u = Some m -> (forall d, m <> MAttr d) ->
  forall f, start_fact (u :: K) sc <> Ok f.
Proof.
  intros N U S M f H. assert (P : proper (u :: K)) by (apply (start_fact_iff _ sc); eauto).
  assert (N' : named s (u :: K)). { unfold named, names in *. cbn [find]. rewrite U. exact N. }
  destruct (P _ N') as (s' & d & E & F). injection E as <-. cbn [find] in F. rewrite S in F. injection F as ->. exact (M d eq_refl).
Qed.

(** ** Programs *)
Lemma flat_map_ext_in' {A B} (f g : A -> list B) l : (forall x, In x l -> f x = g x) -> flat_map f l = flat_map g l.
Proof. induction l as [|x l IH]; intro H; [reflexivity|]. cbn [flat_map]. rewrite H by (left; reflexivity). rewrite IH; [reflexivity|]. intros; apply H; right; auto. Qed.
Lemma find_app s l K : (forall d, In d l -> sdict_get s d = None) -> find s (l ++ K) = find s K.
Proof.
  induction l as [|d l IH]; intro H; [reflexivity|]. cbn [app find]. rewrite H by (left; reflexivity). apply IH. intros; apply H; right; auto.
Qed.
Section Programs.
  Variable P : program.
  Hypothesis S : single_inheritance P.
  Hypothesis M : made_by_fact P.
  (** A class declared by [fact] is the last of every order it is in. *)
  Lemma declaring_last sc b : declaring P b -> In b (pr_order P sc) -> exists l, pr_order P sc = l ++ [b] /\ forall c, In c l -> ~ declaring P c.
  Proof.
    intros D J. destruct (S sc) as [N T]. destruct (T b J) as [l E]. rewrite (M b D) in E. exists l. split; [exact E|].
    intros c Jc Dc. destruct (T c) as [l' E']. { rewrite E. apply in_or_app. auto. }
    rewrite (M c Dc) in E'. rewrite E in E'. apply app_inj_tail in E' as [_ <-].
    rewrite E in N. apply NoDup_remove_2 in N. apply N. rewrite app_nil_r. exact Jc.
  Qed.
  Lemma base_names sc b : declaring P b -> is_subclass P sc b = true -> names (class_of P sc) = names (class_of P b).
  Proof.
    intros D J. unfold is_subclass in J. apply existsb_exists in J as (b' & J & E). apply Nat.eqb_eq in E. subst b'.
    destruct (declaring_last sc b D J) as (l & E & H). unfold names, class_of. rewrite E, (M b D), map_app, find_app; [reflexivity|].
    intros d Jd. apply in_map_iff in Jd as (c & <- & Jc). specialize (H c Jc). unfold declaring in H. destruct (sdict_get ATTRIBUTES (pr_own P c)); [exfalso; apply H; discriminate|reflexivity].
  Qed.
  Lemma subclass_names sc sc' b : declaring P b -> is_subclass P sc b = true -> is_subclass P sc' sc = true -> names (class_of P sc') = names (class_of P sc).
  Proof.
    intros D J J'. rewrite (base_names sc b D J). apply base_names; [exact D|]. unfold is_subclass in *. apply existsb_exists in J as (b' & J & E). apply Nat.eqb_eq in E. subst b'.
    apply existsb_exists in J' as (c & J' & E). apply Nat.eqb_eq in E. subst c.
    destruct (S sc') as [_ T]. destruct (T sc J') as [l E]. apply existsb_exists. exists b. split; [|apply Nat.eqb_refl]. rewrite E. apply in_or_app. auto.
  Qed.
  Hypothesis B : below_facts P.
  Hypothesis A : attributes_kept P.
  Lemma base_scheme sc b : declaring P b -> is_subclass P sc b = true -> proper (class_of P sc) /\ schemes_of P sc = schemes_of P b.
  Proof.
    intros D J. pose proof (base_names sc b D J) as N. unfold is_subclass in J. apply existsb_exists in J as (b' & J & E). apply Nat.eqb_eq in E. subst b'.
    destruct (declaring_last sc b D J) as (l & E & H).
    assert (F : forall s, named s (class_of P b) -> find s (class_of P sc) = find s (class_of P b)).
    { intros s Ns. unfold class_of. rewrite E, (M b D), map_app. apply find_app. intros d Jd. apply in_map_iff in Jd as (c & <- & Jc).
      apply (proj2 (A c)); [apply H, Jc|]. unfold named. rewrite (base_names c b D); [exact Ns|]. destruct (S sc) as [Nd T]. destruct (T c) as [l' E'].
      { rewrite E. apply in_or_app. auto. }
      unfold is_subclass. apply existsb_exists. exists b. split; [|apply Nat.eqb_refl]. rewrite E in E'.
      destruct (pr_order P c) as [|x t] eqn:Ec.
      - exfalso. destruct (B c) as (b' & _ & Jb'). unfold is_subclass in Jb'. rewrite Ec in Jb'. discriminate.
      - pose proof (app_removelast_last x (l := x :: t) ltac:(discriminate)) as R. rewrite R in E'. rewrite app_assoc in E'. apply app_inj_tail in E' as [_ ->]. rewrite R at 2. apply in_or_app. right. left. reflexivity. }
    split.
    - intros k0 Jk. rewrite N in Jk. destruct (proj1 (A b) D k0 Jk) as (s & d & -> & Fs). exists s, d. split; [reflexivity|]. rewrite F; auto.
    - unfold schemes_of, scheme_of. rewrite N. apply flat_map_ext_in'. intros k0 Jk. destruct k0 as [s|n]; [|reflexivity]. rewrite F by exact Jk. reflexivity.
  Qed.
  Lemma schemes_below sc sc' : is_subclass P sc' sc = true -> schemes_of P sc' = schemes_of P sc.
  Proof.
    intro J. destruct (B sc) as (b & D & Jb). rewrite (proj2 (base_scheme sc b D Jb)). apply base_scheme; [exact D|].
    unfold is_subclass in *. apply existsb_exists in Jb as (b' & Jb & E). apply Nat.eqb_eq in E. subst b'.
    apply existsb_exists in J as (c & J & E). apply Nat.eqb_eq in E. subst c.
    destruct (S sc') as [_ T]. destruct (T sc J) as [l E]. apply existsb_exists. exists b. split; [|apply Nat.eqb_refl]. rewrite E. apply in_or_app. auto.
  Qed.
  Lemma programs_agree : (forall sc, proper (class_of P sc)) /\ kinds_agree (schemes_of P) (is_subclass P) /\ names_agree (schemes_of P) (is_subclass P).
  Proof.
    split; [intro sc; destruct (B sc) as (b & D & Jb); apply (base_scheme sc b D Jb)|]. split.
    - intros sc sc' k0 J. unfold repeatable_attr. rewrite (schemes_below sc sc' J). reflexivity.
    - intros sc sc' J k0. rewrite (schemes_below sc sc' J). reflexivity.
  Qed.
End Programs.

(** ** Facts made by hand *)
Lemma construct_hand K kwargs : proper K -> NoDup (names K) -> ~ In SELF (map fst kwargs) -> (forall s, In s (map fst kwargs) -> named s K) ->
  exists o, construct K kwargs = Ok o /\ (forall s, named s K -> exists v, hand_value K kwargs s = Some v /\ sdict_get s o = Some (DValue v)) /\
    (forall s, ~ named s K -> sdict_get s o = None).
Proof.
  intros P N S A. unfold construct. replace (str_in SELF (map fst kwargs)) with false.
  2:{ symmetry. apply not_true_iff_false. intro H. apply S. unfold str_in in H. apply existsb_exists in H as (y & J & E). apply str_eqb_eq in E. subst y. exact J. }
  replace (forallb _ kwargs) with true.
  2:{ symmetry. apply forallb_forall. intros [s v] J. cbn [fst]. apply key_in_iff, A. apply in_map_iff. exists (s, v). auto. }
  cbn [negb]. change (fun acc k0 => let! o := acc in _) with (construct_step K kwargs).
  assert (G : forall l o, NoDup l -> (forall k, In k l -> In k (names K)) -> (forall s, In (KStr s) l -> sdict_get s o = None) ->
    exists o', fold_left (construct_step K kwargs) l (Ok o) = Ok o' /\
      (forall s, In (KStr s) l -> exists v, hand_value K kwargs s = Some v /\ sdict_get s o' = Some (DValue v)) /\
      (forall s, ~ In (KStr s) l -> sdict_get s o' = sdict_get s o)).
  { induction l as [|k l IH]; intros o Nd I Z; cbn [fold_left].
    - exists o. split; [reflexivity|]. split; [intros ? []|auto].
    - inversion Nd as [|? ? Nk Nd']; subst. destruct (P k (I k (or_introl eq_refl))) as (s & d & -> & F).
      assert (V : exists v, hand_value K kwargs s = Some v /\ construct_step K kwargs (Ok o) (KStr s) = Ok (sdict_set s (DValue v) o)).
      { unfold hand_value, construct_step. cbn [bind]. destruct (sdict_get s kwargs) as [v|].
        - exists v. split; [reflexivity|]. cbn [bind]. apply (assign_attr _ _ d), F.
        - unfold default_value. rewrite F, (Z s (or_introl eq_refl)). destruct d; eexists; (split; [reflexivity|]); cbn [bind]; eapply assign_attr, F. }
      destruct V as (v & Hv & ->). destruct (IH (sdict_set s (DValue v) o)) as (o' & E & B & C); auto.
      + intros; apply I; right; auto.
      + intros s' J. rewrite get_set_other; [apply Z; right; exact J|]. intros ->. contradiction.
      + exists o'. split; [exact E|]. split.
        * intros s' [E'|J]; [injection E' as <-|auto]. exists v. split; [exact Hv|]. rewrite C by exact Nk. apply get_set_same.
        * intros s' J. rewrite C by (intro; apply J; right; auto). apply get_set_other. intros ->. apply J. left. reflexivity. }
  destruct (G (names K) [] N (fun k J => J) (fun s _ => eq_refl)) as (o & E & B & C). exists o. auto.
Qed.
Lemma hand_made_json schemes K kwargs o : construct K kwargs = Ok o -> proper K -> NoDup (names K) -> ~ named RAW K -> find RAW K = Some (MValue VNone) ->
  (find AS_JSON K = Some MJson -> read_name schemes K o AS_JSON = Err AttributeError) /\
  (find SPANS K = Some MSpans -> read_name schemes K o SPANS = Err AttributeError).
Proof.
  intros C P N R F. assert (A : forall s, In s (map fst kwargs) -> named s K).
  { intros s J. unfold construct in C. destruct (str_in SELF (map fst kwargs)); [discriminate|].
    destruct (forallb (fun p => key_in (fst p) (names K)) kwargs) eqn:Fb; [|discriminate]. rewrite forallb_forall in Fb. apply in_map_iff in J as ([s' v] & <- & J).
    apply Fb in J. apply key_in_iff. exact J. }
  assert (S : ~ In SELF (map fst kwargs)).
  { intro J. unfold construct in C. replace (str_in SELF (map fst kwargs)) with true in C; [discriminate|]. symmetry. unfold str_in. apply existsb_exists. exists SELF. split; [exact J|apply str_eqb_refl]. }
  destruct (construct_hand K kwargs P N S A) as (o' & E & _ & Z). rewrite E in C. injection C as ->.
  split; intro H; unfold read_name; rewrite H; unfold plain_read; rewrite Z by exact R; rewrite F; reflexivity.
Qed.

(** Facts of a program. *)
Lemma program_facts P sc items f : single_inheritance P -> made_by_fact P -> below_facts P -> attributes_kept P ->
  items_declared (schemes_of P) items -> call_fact (schemes_of P) (is_subclass P) sc items = Ok (RFact f) -> values_normalize (schemes_of P) f ->
  ~ named SELF (class_of P sc) -> named RAW (class_of P sc) \/ find RAW (class_of P sc) = Some (MValue VNone) ->
  exists v o, normalized_fact (schemes_of P) f = Ok v /\ instance_of (schemes_of P) (class_of P sc) f = Ok o /\
    (forall s, named s (class_of P sc) -> s <> RAW -> exists x, value_attr s v = Some x /\ read_name (schemes_of P) (class_of P sc) o s = Ok (FValue x)) /\
    (find AS_JSON (class_of P sc) = Some MJson -> read_name (schemes_of P) (class_of P sc) o AS_JSON = let! j := value_json (schemes_of P) v in Ok (FValue j)) /\
    (find SPANS (class_of P sc) = Some MSpans -> read_name (schemes_of P) (class_of P sc) o SPANS = let! l := value_spans v in Ok (FSpans l)).
Proof.
  intros S M B A I C V NS R. destruct (programs_agree P S M B A) as (Pr & _ & N).
  destruct (called_declared _ _ N _ _ _ I C) as [_ H]. destruct (H V) as [v Hv]. exists v.
  destruct (instance_shows (schemes_of P) (is_subclass P) (class_of P sc) sc (Pr sc) eq_refl items f v C Hv NS R) as (o & Ho & _ & H1 & H2 & H3). exists o. auto.
Qed.
Lemma program_self P sc items f v : proper (class_of P sc) -> call_fact (schemes_of P) (is_subclass P) sc items = Ok (RFact f) ->
  normalized_fact (schemes_of P) f = Ok v -> named SELF (class_of P sc) -> instance_of (schemes_of P) (class_of P sc) f = Err TypeError.
Proof. intros Pr C V N. exact (instance_self (schemes_of P) (is_subclass P) (class_of P sc) sc Pr eq_refl items f v C V N). Qed.
Lemma program_raw P sc items f v : proper (class_of P sc) -> call_fact (schemes_of P) (is_subclass P) sc items = Ok (RFact f) ->
  normalized_fact (schemes_of P) f = Ok v -> ~ named SELF (class_of P sc) -> named RAW (class_of P sc) ->
  exists o, instance_of (schemes_of P) (class_of P sc) f = Ok o /\ read_name (schemes_of P) (class_of P sc) o RAW = Ok (FRaw f).
Proof.
  intros Pr C V N R. destruct (instance_shows (schemes_of P) (is_subclass P) (class_of P sc) sc Pr eq_refl items f v C V N (or_introl R)) as (o & Ho & Hr & _). eauto.
Qed.
Lemma letters_class shown_key s : exists d, fact shown_key (GString s) = Ok d /\ proper [d] /\ names [d] = map (fun c => KStr [c]) s.
Proof.
  destruct (fact_class shown_key (GString s) _ eq_refl) as (d & F & N & P & _).
  - apply Forall_forall. intros x J. apply in_map_iff in J as (c & <- & _). exists [c]. split; reflexivity.
  - exists d. split; [exact F|]. split; [exact P|]. rewrite N, map_map. reflexivity.
Qed.
Lemma repeatable_default s v : match repeatable (DScheme (KStr s) (Plain v)) with
  | Ok x => v = VNone /\ prepared x = (KStr s, Repeatable)
  | Err e => v <> VNone /\ e = ValueError
  end.
Proof. destruct v; cbn; split; try reflexivity; discriminate. Qed.
Lemma property_not_made K kwargs s : named s K -> find s K = Some MProperty -> forall o, construct K kwargs <> Ok o.
Proof.
  intros N F o. unfold construct. destruct (str_in SELF (map fst kwargs)); [discriminate|]. destruct (negb _); [discriminate|].
  change (fun acc k0 => let! o := acc in _) with (construct_step K kwargs). unfold named in N. apply in_split in N as (l1 & l2 & E). rewrite E, fold_left_app. cbn [fold_left].
  assert (H : exists e, construct_step K kwargs (fold_left (construct_step K kwargs) l1 (Ok [])) (KStr s) = Err e).
  { destruct (fold_left _ l1 _) as [o1|e]; [|exists e; reflexivity]. unfold construct_step. cbn [bind]. unfold default_value, assign. rewrite F. destruct (sdict_get s kwargs); eexists; reflexivity. }
  destruct H as [e ->]. rewrite construct_step_err. discriminate.
Qed.
