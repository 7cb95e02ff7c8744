(** Proofs about arguments of predicates. *)
From Verif Require Import Base TokenModel TokenizerModel TaggerModel PredicateModel PredicateProofs GivenModel GivenSpec.
From Coq Require Import Lia.
Open Scope nat_scope.

Lemma existsb_strings s l : existsb (equals s) (strings l) = str_in s l.
Proof. unfold strings, str_in. induction l as [|x l IH]; [reflexivity|]. cbn [map existsb equals]. rewrite IH. reflexivity. Qed.
Lemma mapM_lowered U l : mapM (lowered U) (strings l) = Ok (map (u_lower U) l).
Proof. unfold strings. induction l as [|x l IH]; [reflexivity|]. cbn [map mapM lowered bind]. rewrite IH. reflexivity. Qed.
Lemma mapM_normal wrong c m l : c_morph c = Some m -> mapM (normal_forms wrong c) (strings l) = Ok (map (mo_normalized m) l).
Proof.
  intro H. unfold strings. induction l as [|x l IH]; [reflexivity|]. cbn [map mapM]. unfold normal_forms at 1, get_morph. rewrite H. cbn [bind]. rewrite IH. reflexivity.
Qed.
Lemma dictionary_strings wrong c l : (let! ls := mapM (normal_forms wrong c) (strings l) in Ok (OTyped (PDictionary (concat ls)))) =
  (let! q := PredicateModel.activate c (SDictionary l) in Ok (OTyped q)).
Proof.
  cbn [PredicateModel.activate]. destruct l as [|x l]; [reflexivity|].
  destruct (c_morph c) as [m|] eqn:E.
  - rewrite (mapM_normal wrong c m _ E). unfold get_morph. rewrite E. cbn [bind]. rewrite <- flat_map_concat_map. reflexivity.
  - cbn [strings map mapM]. unfold normal_forms at 1, get_morph. rewrite E. reflexivity.
Qed.
Lemma checked_strings t l : checked_types (tk_types t) (strings l) = (let! _ := check_types t l in Ok l).
Proof.
  unfold strings. induction l as [|x l IH]; [reflexivity|]. cbn [map checked_types in_strings bind check_types]. unfold check_type.
  destruct (str_in x (tk_types t)); [|reflexivity]. rewrite IH. cbn [bind]. destruct (check_types t l); reflexivity.
Qed.
Lemma documented_ok U wrong m v p : documented U m v p -> exists o, make U m v = Ok o /\ forall c,
  match PredicateModel.activate c p with
  | Ok q => exists o', activated wrong c o = (Ok o', o) /\ forall t, judged U o' t = (call U q t, o')
  | Err e => activated wrong c o = (Err e, o)
  end.
Proof.
  intro D. destruct D; cbn [make].
  - eexists; split; [reflexivity|]. intro c. cbn [PredicateModel.activate]. eexists; split; [reflexivity|]. intro t. reflexivity.
  - eexists; split; [reflexivity|]. intro c. cbn [PredicateModel.activate]. eexists; split; [reflexivity|]. intro t. reflexivity.
  - eexists; split; [reflexivity|]. intro c. cbn [PredicateModel.activate]. eexists; split; [reflexivity|]. intro t. reflexivity.
  - eexists; split; [reflexivity|]. intro c. cbn [PredicateModel.activate]. eexists; split; [reflexivity|]. intro t. reflexivity.
  - eexists; split; [reflexivity|]. intro c. cbn [caseless PredicateModel.activate]. eexists; split; [reflexivity|]. intro t. reflexivity.
  - eexists; split; [reflexivity|]. intro c. cbn [PredicateModel.activate]. eexists; split; [reflexivity|]. intro t. cbn [judged contains call]. rewrite existsb_strings. reflexivity.
  - eexists; split; [reflexivity|]. intro c. cbn [PredicateModel.activate]. eexists; split; [reflexivity|]. intro t. cbn [judged contains call]. rewrite existsb_strings. reflexivity.
  - cbn [iterate bind]. rewrite mapM_lowered. eexists; split; [reflexivity|]. intro c. unfold in_caseless. cbn [PredicateModel.activate]. eexists; split; [reflexivity|]. intro t. reflexivity.
  - cbn [iterate bind]. rewrite mapM_lowered. eexists; split; [reflexivity|]. intro c. unfold in_caseless. cbn [PredicateModel.activate]. eexists; split; [reflexivity|]. intro t. reflexivity.
  - eexists; split; [reflexivity|]. intro c. cbn [PredicateModel.activate activated]. unfold normal_forms. destruct (get_morph c); cbn [bind]; [|reflexivity].
    eexists; split; [reflexivity|]. intro t. reflexivity.
  - eexists; split; [reflexivity|]. intro c. unfold activated. cbn [iterate bind looped]. rewrite dictionary_strings.
    destruct (PredicateModel.activate c (SDictionary l)); cbn [bind]; [|reflexivity]. eexists; split; [reflexivity|]. intro t. reflexivity.
  - eexists; split; [reflexivity|]. intro c. unfold activated. cbn [iterate bind looped]. rewrite dictionary_strings.
    destruct (PredicateModel.activate c (SDictionary l)); cbn [bind]; [|reflexivity]. eexists; split; [reflexivity|]. intro t. reflexivity.
  - eexists; split; [reflexivity|]. intro c. cbn [PredicateModel.activate activated]. destruct (get_morph c) as [m|]; cbn [bind]; [|reflexivity].
    destruct (check_gram m s); cbn [bind]; [|reflexivity]. eexists; split; [reflexivity|]. intro t. reflexivity.
  - eexists; split; [reflexivity|]. intro c. cbn [PredicateModel.activate activated in_strings bind]. unfold check_type.
    destruct (str_in s (tk_types (c_tokenizer c))); cbn [bind]; [|reflexivity]. eexists; split; [reflexivity|]. intro t. reflexivity.
  - eexists; split; [reflexivity|]. intro c. cbn [PredicateModel.activate activated]. destruct (c_tagger c) as [tg|]; [|reflexivity].
    eexists; split; [reflexivity|]. intro t. cbn [judged call]. destruct (t_tag t); reflexivity.
  - eexists; split; [reflexivity|]. intro c. cbn [PredicateModel.activate truthy check_types bind activated]. eexists; split; [reflexivity|]. intro t. reflexivity.
  - eexists; split; [reflexivity|]. intro c. cbn [PredicateModel.activate truthy]. unfold activated. change [AStr s] with (strings [s]). rewrite checked_strings.
    destruct (check_types (c_tokenizer c) [s]) as [u|]; cbn [bind]; [|reflexivity]. eexists; split; [reflexivity|]. intro t. reflexivity.
  - eexists; split; [reflexivity|]. intro c. cbn [PredicateModel.activate truthy]. destruct l as [|x l].
    + cbn [strings map activated check_types bind]. eexists; split; [reflexivity|]. intro t. reflexivity.
    + unfold activated. change (strings (x :: l)) with (AStr x :: strings l). cbv iota. change (AStr x :: strings l) with (strings (x :: l)). rewrite checked_strings.
      destruct (check_types (c_tokenizer c) (x :: l)) as [u|]; cbn [bind]; [|reflexivity]. eexists; split; [reflexivity|]. intro t. reflexivity.
Qed.

Lemma contains_same s v : is_iterator v = false -> snd (contains s v) = v.
Proof. destruct v; try reflexivity. discriminate. Qed.
Lemma judged_same U o t : holds_iterator o = false -> snd (judged U o t) = o.
Proof. destruct o; try reflexivity. cbn [holds_iterator judged]. intro H. destruct (contains (t_value t) v) as [r v'] eqn:E. apply (contains_same (t_value t)) in H. rewrite E in H. cbn in H. subst. reflexivity. Qed.
Lemma judge_all_each U o ts : holds_iterator o = false -> judge_all U o ts = map (fun t => fst (judged U o t)) ts.
Proof.
  intro H. induction ts as [|t ts IH]; [reflexivity|]. cbn [judge_all map]. pose proof (judged_same U o t H) as E. destruct (judged U o t) as [r o']. cbn in E. subst. rewrite IH. reflexivity.
Qed.
Lemma activated_same wrong c o : holds_iterator o = false -> snd (activated wrong c o) = o.
Proof. destruct o; try reflexivity. cbn [holds_iterator activated snd]. intro H. f_equal. destruct v; try reflexivity. discriminate. Qed.

Lemma starts_with_iff a b : starts_with a b = true <-> exists y, b = a ++ y.
Proof.
  revert b. induction a as [|x a IH]; intro b; [cbn; split; [eauto|reflexivity]|]. destruct b as [|y b]; cbn [starts_with].
  - split; [discriminate|]. intros (z & E). discriminate.
  - rewrite andb_true_iff, IH, N.eqb_eq. split.
    + intros [-> (z & ->)]. exists z. reflexivity.
    + intros (z & E). inversion E; subst. eauto.
Qed.
Lemma substring_iff a b : substring a b = true <-> exists x y, b = x ++ a ++ y.
Proof.
  induction b as [|c b IH]; cbn [substring]; rewrite orb_true_iff, starts_with_iff.
  - split; [intros [(y & E)|]; [exists [], y; exact E|discriminate]|]. intros (x & y & E). left. destruct x; [exists y; exact E|discriminate].
  - rewrite IH. split.
    + intros [(y & E)|(x & y & ->)]; [exists [], y; exact E|exists (c :: x), y; reflexivity].
    + intros (x & y & E). destruct x as [|d x]; [left; exists y; exact E|]. inversion E; subst. right. eauto.
Qed.
Lemma in_string U b t : fst (judged U (OIn (AStr b)) t) = Ok true <-> exists x y, b = x ++ t_value t ++ y.
Proof. cbn. rewrite <- substring_iff. split; [intro H; inversion H; reflexivity|intros ->; reflexivity]. Qed.
Lemma search_iterator_iff s l : fst (search_iterator s l) = true <-> In (AStr s) l.
Proof.
  induction l as [|v l IH]; [cbn; split; [discriminate|intros []]|]. cbn [search_iterator]. destruct (equals s v) eqn:E.
  - destruct v; try discriminate E. apply str_eqb_eq in E. subst. cbn. tauto.
  - rewrite IH. cbn [In]. split; [tauto|]. intros [->|I]; [|exact I]. cbn in E. rewrite (proj2 (str_eqb_eq s s) eq_refl) in E. discriminate.
Qed.
Lemma search_iterator_rest s l : (~ In (AStr s) l /\ search_iterator s l = (false, [])) \/
  exists x y, l = x ++ AStr s :: y /\ ~ In (AStr s) x /\ search_iterator s l = (true, y).
Proof.
  induction l as [|v l IH]; [left; split; [intros []|reflexivity]|]. cbn [search_iterator]. destruct (equals s v) eqn:E.
  - right. destruct v; try discriminate E. apply str_eqb_eq in E. subst. exists [], l. repeat split. intros [].
  - assert (N : AStr s <> v) by (intros <-; cbn in E; rewrite (proj2 (str_eqb_eq s s) eq_refl) in E; discriminate).
    destruct IH as [[I H]|(x & y & -> & I & H)].
    + left. split; [|exact H]. intros [K|K]; [congruence|contradiction].
    + right. exists (v :: x), y. repeat split; [|exact H]. intros [K|K]; [congruence|contradiction].
Qed.
(** An iterator goes forward only: the values of the accepted tokens come in its order. *)
Lemma in_order_app x ss l : in_order ss l -> in_order ss (x ++ l).
Proof. intro H. induction x as [|v x IH]; [exact H|]. cbn. apply order_skip. exact IH. Qed.
Lemma iterator_forward U ts : forall l, in_order (accepted_values ts (judge_all U (OIn (AIter l)) ts)) l.
Proof.
  induction ts as [|t ts IH]; intro l; [constructor|]. cbn [judge_all judged contains].
  destruct (search_iterator_rest (t_value t) l) as [[I H]|(x & y & -> & I & H)]; rewrite H; unfold accepted_values; cbn [combine filter snd map fst].
  - specialize (IH []). unfold accepted_values in IH. inversion IH as [l0 H1 H2| |]. constructor.
  - apply in_order_app. apply order_take. apply IH.
Qed.

Lemma eq_wrong U v t : is_string v = false -> judged U (OEq v) t = (Ok false, OEq v).
Proof. destruct v; try discriminate; reflexivity. Qed.
Lemma length_wrong U v t : is_number v = false -> judged U (OLengthEq v) t = (Ok false, OLengthEq v).
Proof. destruct v; try discriminate; reflexivity. Qed.
Lemma tag_wrong U v t : is_string v = false -> judged U (OTagged v) t = (Ok false, OTagged v).
Proof. intro H. cbn [judged]. destruct (t_tag t); destruct v; try discriminate H; reflexivity. Qed.
Lemma silent_wrong U wrong m v o : (m = MEq \/ m = MTag) /\ is_string v = false \/ m = MLengthEq /\ is_number v = false -> make U m v = Ok o ->
  forall c, (m = MTag -> c_tagger c <> None) -> exists o', activated wrong c o = (Ok o', o) /\ forall t, judged U o' t = (Ok false, o').
Proof.
  intros [[[->| ->] H]|[-> H]] M c G; inversion M; subst; cbn [activated].
  - eexists; split; [reflexivity|]. intro t. apply eq_wrong. exact H.
  - destruct (c_tagger c) as [tg|]; [|destruct (G eq_refl eq_refl)]. eexists; split; [reflexivity|]. intro t. apply tag_wrong. exact H.
  - eexists; split; [reflexivity|]. intro t. apply length_wrong. exact H.
Qed.
Lemma compares_wrong U v t o : In o [OGte v; OLte v] -> is_number v = false ->
  fst (judged U o t) = if str_eqb (t_type t) INT then match u_int U (t_value t) with Some _ => Err TypeError | None => Err ValueError end else Ok false.
Proof. intros [<-|[<-|[]]] H; cbn [judged fst]; unfold compared; destruct (str_eqb (t_type t) INT); try reflexivity; destruct (u_int U (t_value t)); try reflexivity; destruct v; try discriminate H; reflexivity. Qed.
Lemma in_wrong U v t : is_container v = false -> fst (judged U (OIn v) t) = Err TypeError.
Proof. destruct v; try discriminate; reflexivity. Qed.
Lemma caseless_wrong U v : is_string v = false -> make U MCaseless v = Err AttributeError.
Proof. destruct v; try discriminate; reflexivity. Qed.
Lemma in_caseless_wrong U v : (is_container v = false -> make U MInCaseless v = Err TypeError) /\
  (forall l, iterate v = Ok l -> existsb (fun x => negb (is_string x)) l = true -> make U MInCaseless v = Err AttributeError).
Proof.
  split; [destruct v; try discriminate; reflexivity|]. intros l H K. cbn [make]. rewrite H. cbn [bind].
  assert (G : mapM (lowered U) l = Err AttributeError).
  { clear H. induction l as [|x l IH]; [discriminate|]. cbn [existsb] in K. cbn [mapM]. destruct x; try reflexivity. cbn [is_string negb orb] in K. cbn [lowered bind]. rewrite (IH K). reflexivity. }
  rewrite G. reflexivity.
Qed.
Lemma schemes_wrong wrong c m v o : c_morph c = Some m -> is_string v = false -> In o [OGram v; OType v; ONormalized v] ->
  exists e, fst (activated wrong c o) = Err e /\ (o <> ONormalized v -> e = match v with ASeq _ => TypeError | _ => ValueError end).
Proof.
  intros H S [<-|[<-|[<-|[]]]]; cbn [activated fst]; unfold normal_forms, get_morph; rewrite ?H; cbn [bind]; destruct v; try discriminate S; cbn; eexists; split; try reflexivity; intro N; (auto || congruence).
Qed.
Lemma dictionary_wrong wrong c m v : c_morph c = Some m ->
  (is_container v = false -> fst (activated wrong c (ODictionary v)) = Err TypeError) /\
  (forall x z w, iterate v = Ok (strings x ++ z :: w) -> is_string z = false -> fst (activated wrong c (ODictionary v)) = Err (wrong z)).
Proof.
  intro Hm. split; [destruct v; try discriminate; reflexivity|]. intros x z w Hl Hz.
  cbn [activated fst]. rewrite Hl. cbn [bind].
  assert (G : mapM (normal_forms wrong c) (strings x ++ z :: w) = Err (wrong z)).
  { clear Hl. unfold strings. induction x as [|s x IH]; cbn [map app mapM]; unfold normal_forms at 1, get_morph; rewrite Hm; cbn [bind].
    - destruct z; try discriminate Hz; reflexivity.
    - rewrite IH. reflexivity. }
  rewrite G. reflexivity.
Qed.
(** A string instead of a list of words: its letters. *)
Lemma dictionary_letters wrong c m s : c_morph c = Some m ->
  activated wrong c (ODictionary (AStr s)) = (Ok (OTyped (PDictionary (flat_map (fun x => mo_normalized m [x]) s))), ODictionary (AStr s)).
Proof.
  intro H. cbn [activated iterate bind looped]. assert (E : map (fun x => AStr [x]) s = strings (map (fun x => [x]) s)) by (unfold strings; rewrite map_map; reflexivity).
  rewrite E, (mapM_normal wrong c m _ H). cbn [bind]. rewrite map_map, <- flat_map_concat_map. reflexivity.
Qed.
(** A second parser made of the same rule gets what is left of the iterator. *)
Lemma left_over_spec {A} (body : arg -> res A) l :
  match mapM body l with
  | Ok _ => left_over body l = []
  | Err e => exists x z, l = x ++ z :: left_over body l /\ body z = Err e
  end.
Proof.
  induction l as [|v l IH]; [reflexivity|]. cbn [mapM left_over]. destruct (body v) as [a|e] eqn:E; cbn [bind].
  - destruct (mapM body l) as [y|e]; cbn [bind]; [exact IH|]. destruct IH as (x & z & E' & B). exists (v :: x), z. split; [cbn; congruence|exact B].
  - exists [], v. split; [reflexivity|exact E].
Qed.
Lemma dictionary_again wrong c l : exists l', snd (activated wrong c (ODictionary (AIter l))) = ODictionary (AIter l') /\
  match fst (activated wrong c (ODictionary (AIter l))) with
  | Ok _ => l' = []
  | Err _ => exists x z, l = x ++ z :: l'
  end.
Proof.
  exists (left_over (normal_forms wrong c) l). split; [reflexivity|]. pose proof (left_over_spec (normal_forms wrong c) l) as H. cbn [activated fst iterate bind].
  destruct (mapM (normal_forms wrong c) l); cbn [bind]; [exact H|]. destruct H as (x & z & E & _). eauto.
Qed.
(** Types of a custom predicate that are no strings. *)
Lemma custom_wrong U wrong f v o c : make U (MCustom f) v = Ok o -> match v with ANone | AStr _ => False | ASeq l => existsb (fun x => negb (is_string x)) l = true | _ => True end ->
  fst (activated wrong c o) = Err ValueError \/ fst (activated wrong c o) = Err TypeError.
Proof.
  assert (G : forall T l, existsb (fun x => negb (is_string x)) l = true -> checked_types T l = Err ValueError \/ checked_types T l = Err TypeError).
  { intros T l. induction l as [|x l IH]; [discriminate|]. cbn [existsb]. intro H. cbn [checked_types]. destruct x; cbn [in_strings bind]; auto.
    destruct (str_in s T); auto. cbn [is_string negb orb] in H. destruct (IH H) as [-> | ->]; cbn [bind]; auto. }
  cbn [make]. intros M H. injection M as <-.
  assert (K : forall l, existsb (fun x => negb (is_string x)) l = true -> fst (activated wrong c (OCustom f (Some l))) = Err ValueError \/ fst (activated wrong c (OCustom f (Some l))) = Err TypeError).
  { intros l L. destruct l as [|x l]; [discriminate|]. unfold activated. cbn [fst]. destruct (G (tk_types (c_tokenizer c)) _ L) as [-> | ->]; cbn [bind]; auto. }
  destruct v; try destruct H; apply K; (reflexivity || assumption).
Qed.
(** True and False count as 1 and 0. *)
Lemma booleans_count U (b : bool) t : let n := AInt (if b then 1%Z else 0%Z) in
  fst (judged U (OLengthEq (ABool b)) t) = fst (judged U (OLengthEq n) t) /\ fst (judged U (OGte (ABool b)) t) = fst (judged U (OGte n) t) /\ fst (judged U (OLte (ABool b)) t) = fst (judged U (OLte n) t).
Proof. repeat split. Qed.
Lemma in_caseless_letters U (s : str) : make U MInCaseless (AStr s) = Ok (OTyped (PInCaseless (map (fun x => u_lower U [x]) s))).
Proof.
  cbn [make iterate bind]. assert (E : map (fun x : N => AStr [x]) s = strings (map (fun x : N => [x]) s)) by (unfold strings; rewrite map_map; reflexivity).
  rewrite E, mapM_lowered. cbn [bind]. rewrite map_map. reflexivity.
Qed.
