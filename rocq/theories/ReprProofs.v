(** Proofs about printing rules. *)
From Coq Require String.
From Verif Require Import Base TokenModel EarleyModel PredicateModel PipelineModel RuleModel RuleSpec RuleBuild RuleOrder ArgProofs GrammarModel DotTextModel LabelModel WrittenSpec WrittenProofs ReprModel ReprSpec.
Import String.StringSyntax.
Open Scope nat_scope.

(** ** Lists of texts *)
Lemma all_texts_some {A} (f : A -> option str) l : (forall x, In x l -> exists s, f x = Some s) -> exists ts, all_texts f l = Some ts.
Proof.
  induction l as [|x l IH]; intros H; [exists []; reflexivity|]. destruct (H x (or_introl eq_refl)) as (s & E). destruct IH as (ts & T); [intros y I; apply H; right; exact I|]. exists (s :: ts). change (match f x, all_texts f l with Some s, Some r => Some (s :: r) | _, _ => None end = Some (s :: ts)). rewrite E, T. reflexivity.
Qed.
Lemma all_texts_each {A} (f : A -> option str) l ts : all_texts f l = Some ts <-> Forall2 (fun x s => f x = Some s) l ts.
Proof.
  revert ts. induction l as [|x l IH]; intros ts; cbn [all_texts].
  - split; [intros E; injection E as <-; constructor|intros F; inversion F; reflexivity].
  - fold (all_texts f). split.
    + intros E. destruct (f x) as [s|] eqn:F; [|discriminate]. destruct (all_texts f l) as [r|] eqn:R; [|discriminate]. injection E as <-. constructor; [exact F|apply IH; reflexivity].
    + intros F. inversion F as [|? s ? r F1 F2]; subst. rewrite F1. apply IH in F2. rewrite F2. reflexivity.
Qed.
Lemma Forall2_in_left {A B} (R : A -> B -> Prop) l l' x : Forall2 R l l' -> In x l -> exists y, R x y.
Proof. intros F. induction F as [|a b l l' H F IH]; intros []; [subst; eauto|auto]. Qed.

Definition item_points (i : shown_item) : list nat := match i with SText _ => [] | SObject x => [x] end.
Definition shown_points (v : shown) : list nat := match v with ShowOne i => item_points i | ShowList l => flat_map item_points l end.
Definition points (fields : list (str * shown)) : list nat := flat_map (fun f => shown_points (snd f)) fields.
Lemma flat_map_one {A B} (f : A -> B) l : flat_map (fun x => [f x]) l = map f l.
Proof. induction l as [|x l IH]; [reflexivity|]. cbn. rewrite IH. reflexivity. Qed.
Lemma points_objects l : flat_map item_points (map SObject l) = l.
Proof. induction l as [|x l IH]; [reflexivity|]. cbn. rewrite IH. reflexivity. Qed.

Section Repr.
  Variable pred_repr : predicate -> str.
  Variable pipeline_repr : pipeline -> str.
  Variable interp_repr : nat -> str.
  Variable relation_repr : nat -> str.
  Variable str_repr : str -> str.
  Variable h : rule_heap.
  Notation shape := (shape pred_repr pipeline_repr interp_repr relation_repr str_repr).
  Notation repr := (repr_rule pred_repr pipeline_repr interp_repr relation_repr str_repr h).
  Definition prints (x : nat) (s : str) : Prop := exists fuel, repr fuel x = Some s.

  Lemma points_shape o : points (snd (shape o)) = children o.
  Proof.
    destruct o; unfold points; cbn [ReprModel.shape snd flat_map bnf_fields shown_points item_points Show Point children app]; rewrite ?points_objects, ?app_nil_r; try reflexivity.
    - destruct rule; reflexivity.
    - induction terms as [|[r|p] ts IH]; cbn; [reflexivity|f_equal; exact IH|exact IH].
    - induction terms as [|p ts IH]; cbn; [reflexivity|exact IH].
  Qed.
  Lemma item_text_some print i : (forall y, In y (item_points i) -> exists s, print y = Some s) -> exists s, item_text print i = Some s.
  Proof. destruct i as [s|x]; cbn; [eauto|]. intros H. apply H. left. reflexivity. Qed.
  Lemma shown_text_some print v : (forall y, In y (shown_points v) -> exists s, print y = Some s) -> exists s, shown_text print v = Some s.
  Proof.
    destruct v as [i|l]; cbn [shown_text shown_points]; intros H; [apply item_text_some, H|].
    destruct (all_texts_some (item_text print) l) as (ts & E); [|rewrite E; eexists; reflexivity]. intros i I. apply item_text_some. intros y J. apply H. apply in_flat_map. eauto.
  Qed.
  Lemma fields_some print fields : (forall y, In y (points fields) -> exists s, print y = Some s) -> exists ts, field_texts print fields = Some ts.
  Proof. intros H. apply all_texts_some. intros f I. apply shown_text_some. intros y J. apply H. apply in_flat_map. eauto. Qed.
  Lemma fields_print print fields ts y : field_texts print fields = Some ts -> In y (points fields) -> exists s, print y = Some s.
  Proof.
    unfold field_texts. rewrite all_texts_each. intros F I. apply in_flat_map in I as (f & If & Iy). destruct (Forall2_in_left _ _ _ _ F If) as (s & S). destruct (snd f) as [i|l]; cbn [shown_text shown_points] in *.
    - destruct i as [t|x]; [destruct Iy|]. destruct Iy as [->|[]]. exists s. exact S.
    - destruct (all_texts (item_text print) l) as [r|] eqn:R; [|discriminate]. apply all_texts_each in R. apply in_flat_map in Iy as (i & Ii & Iy). destruct (Forall2_in_left _ _ _ _ R Ii) as (t & T). destruct i as [u|x]; [destruct Iy|]. destruct Iy as [->|[]]. exists t. exact T.
  Qed.
  Lemma repr_step fuel x : repr (S fuel) x =
    match nth_error h x with
    | None => Some []
    | Some (OForward (Some _)) => Some (str_of "ForwardRule(...)")
    | Some (OForward None) => Some (str_of "ForwardRule()")
    | Some o => option_map (fun ts => record_text (fst (shape o)) (combine (map fst (snd (shape o))) ts)) (field_texts (repr fuel) (snd (shape o)))
    end.
  Proof. cbn [repr_rule]. destruct (nth_error h x) as [o|]; [|reflexivity]. destruct o; try reflexivity. Qed.
  Lemma repr_object fuel x o : nth_error h x = Some o -> is_forward o = false ->
    repr (S fuel) x = option_map (fun ts => record_text (fst (shape o)) (combine (map fst (snd (shape o))) ts)) (field_texts (repr fuel) (snd (shape o))).
  Proof. intros E F. rewrite repr_step, E. destruct o; try reflexivity. discriminate. Qed.
  Lemma shown_mono (p q : nat -> option str) v s : (forall x s, p x = Some s -> q x = Some s) -> shown_text p v = Some s -> shown_text q v = Some s.
  Proof.
    intros H. assert (K : forall i s, item_text p i = Some s -> item_text q i = Some s) by (intros [t|x] s'; cbn; auto). destruct v as [i|l]; cbn [shown_text]; [apply K|].
    destruct (all_texts (item_text p) l) as [r|] eqn:R; [|discriminate]. intros E. apply all_texts_each in R. assert (R' : all_texts (item_text q) l = Some r); [|rewrite R'; exact E]. apply all_texts_each. clear - R K. induction R; constructor; auto.
  Qed.
  Lemma fields_mono (p q : nat -> option str) fields ts : (forall x s, p x = Some s -> q x = Some s) -> field_texts p fields = Some ts -> field_texts q fields = Some ts.
  Proof. intros H. unfold field_texts. rewrite !all_texts_each. intros F. induction F; constructor; [eapply shown_mono; eauto|assumption]. Qed.
  Lemma repr_mono fuel : forall x s, repr fuel x = Some s -> repr (S fuel) x = Some s.
  Proof.
    induction fuel as [|fuel IH]; intros x s E; [discriminate|]. rewrite repr_step in E |- *. destruct (nth_error h x) as [o|]; [|exact E].
    assert (K : option_map (fun ts => record_text (fst (shape o)) (combine (map fst (snd (shape o))) ts)) (field_texts (repr fuel) (snd (shape o))) = Some s ->
      option_map (fun ts => record_text (fst (shape o)) (combine (map fst (snd (shape o))) ts)) (field_texts (repr (S fuel)) (snd (shape o))) = Some s).
    { destruct (field_texts (repr fuel) (snd (shape o))) as [ts|] eqn:T; [|discriminate]. rewrite (fields_mono _ _ _ _ IH T). auto. }
    destruct o; try exact (K E). destruct rule; exact E.
  Qed.
  Lemma repr_more fuel fuel' x s : fuel <= fuel' -> repr fuel x = Some s -> repr fuel' x = Some s.
  Proof. intros L E. induction L as [|m L IH]; [exact E|]. apply repr_mono, IH. Qed.
  Lemma prints_once x s s' : prints x s -> prints x s' -> s = s'.
  Proof. intros (f & E) (f' & E'). apply (repr_more _ (Nat.max f f')) in E; [|lia]. apply (repr_more _ (Nat.max f f')) in E'; [|lia]. congruence. Qed.

  (** ** When printing ends *)
  Lemma shows_prints fuel x y s : repr fuel x = Some s -> shows h x y -> exists fuel' t, fuel' < fuel /\ repr fuel' y = Some t.
  Proof.
    intros E (o & Eo & F & I). destruct fuel as [|fuel]; [discriminate|]. rewrite (repr_object _ _ _ Eo F) in E. destruct (field_texts (repr fuel) (snd (shape o))) as [ts|] eqn:T; [|discriminate].
    rewrite <- points_shape in I. destruct (fields_print _ _ _ _ T I) as (t & P). exists fuel, t. auto.
  Qed.
  Lemma inside_prints fuel x y s : repr fuel x = Some s -> inside h x y -> exists fuel' t, fuel' <= fuel /\ repr fuel' y = Some t.
  Proof.
    intros E I. induction I as [|y z I IH S]; [eauto|]. destruct IH as (f & t & L & P). destruct (shows_prints _ _ _ _ P S) as (f' & t' & L' & P'). exists f', t'. split; [lia|exact P'].
  Qed.
  Lemma circular_never fuel : forall x, circular h x -> repr fuel x = None.
  Proof.
    induction fuel as [fuel IH] using lt_wf_ind. intros x (y & S & I). destruct (repr fuel x) as [s|] eqn:E; [|reflexivity]. destruct (shows_prints _ _ _ _ E S) as (f & t & L & P). destruct (inside_prints _ _ _ _ P I) as (f' & t' & L' & P').
    rewrite (IH f') in P'; [discriminate|lia|exists y; auto].
  Qed.
  Lemma inside_trans x y z : inside h x y -> inside h y z -> inside h x z.
  Proof. intros A B. induction B as [|u v B IH S]; [exact A|]. apply (inside_more h x u v); [exact IH|exact S]. Qed.
  Lemma shows_inside x y : shows h x y -> inside h x y.
  Proof. intros S. apply (inside_more h x x y); [constructor|exact S]. Qed.
  (** Objects not on the list. *)
  Definition others (v : list nat) : nat := length (filter (fun i => negb (is_in i v)) (seq 0 (length h))).
  Lemma is_in_spec x l : is_in x l = true <-> In x l.
  Proof. unfold is_in. rewrite existsb_exists. split; [intros (y & I & E); apply Nat.eqb_eq in E as ->; exact I|intros I; exists x; split; [exact I|apply Nat.eqb_refl]]. Qed.
  Lemma others_less x v : x < length h -> ~ In x v -> others (x :: v) < others v.
  Proof.
    intros L N. unfold others. assert (I : In x (seq 0 (length h))) by (apply in_seq; lia). assert (D := seq_NoDup (length h) 0). revert I D. generalize (seq 0 (length h)) as l.
    assert (Qi : forall i, is_in i (x :: v) = ((i =? x) || is_in i v)%bool) by reflexivity.
    assert (M : forall l, length (filter (fun i => negb (is_in i (x :: v))) l) <= length (filter (fun i => negb (is_in i v)) l)).
    { induction l as [|i l IH]; [auto|]. cbn [filter]. rewrite Qi. destruct (i =? x); cbn [orb negb]; destruct (is_in i v); cbn [negb length]; lia. }
    induction l as [|i l IH]; intros I D; [destruct I|]. cbn [filter]. rewrite Qi. destruct I as [->|I].
    - rewrite Nat.eqb_refl. cbn [orb negb]. destruct (is_in x v) eqn:E; [apply is_in_spec in E; contradiction|]. cbn [negb length]. specialize (M l). lia.
    - inversion D as [|? ? Ni D']; subst. specialize (IH I D'). destruct (i =? x) eqn:Ex; [apply Nat.eqb_eq in Ex as ->; contradiction|]. cbn [orb]. destruct (is_in i v); cbn [negb length]; lia.
  Qed.
  Definition above (v : list nat) (x : nat) : Prop := forall y, In y v -> exists z, shows h y z /\ inside h z x.
  Lemma above_in v x : above v x -> In x v -> circular h x.
  Proof. intros A I. destruct (A x I) as (z & S & K). exists z. auto. Qed.
  Lemma above_shows v x y : above v x -> shows h x y -> above (x :: v) y.
  Proof.
    intros A S z [<-|I]; [exists y; split; [exact S|constructor]|]. destruct (A z I) as (u & S' & K). exists u. split; [exact S'|]. apply (inside_more h u x y); [exact K|exact S].
  Qed.
  Lemma not_circular_prints fuel : forall v x, others v < fuel -> above v x -> (forall y, inside h x y -> ~ circular h y) -> exists s, repr fuel x = Some s.
  Proof.
    induction fuel as [|fuel IH]; intros v x L A N; [lia|]. rewrite repr_step. destruct (nth_error h x) as [o|] eqn:E; [|eauto]. destruct (is_forward o) eqn:F; [destruct o; try discriminate; destruct rule; eauto|].
    assert (K : exists ts, field_texts (repr fuel) (snd (shape o)) = Some ts).
    { apply fields_some. intros y I. rewrite points_shape in I. assert (S : shows h x y) by (exists o; auto). apply (IH (x :: v)).
      - assert (others (x :: v) < others v); [|lia]. apply others_less; [apply nth_error_Some; congruence|]. intros J. apply (N x); [constructor|apply (above_in v); assumption].
      - apply above_shows; assumption.
      - intros z Z. apply N. apply (inside_trans x y z); [apply shows_inside, S|exact Z]. }
    destruct K as (ts & K). rewrite K. destruct o; try (eexists; reflexivity). destruct rule; eauto.
  Qed.
  Theorem printing_ends x : (exists s, prints x s) <-> forall y, inside h x y -> ~ circular h y.
  Proof.
    split.
    - intros (s & fuel & E) y I C. destruct (inside_prints _ _ _ _ E I) as (f & t & _ & P). rewrite (circular_never f y C) in P. discriminate.
    - intros N. destruct (not_circular_prints (S (others [])) [] x) as (s & E); [lia|intros y []|exact N|]. exists s. exists (S (others [])). exact E.
  Qed.
  Theorem printing_never_ends x y : inside h x y -> circular h y -> forall fuel, repr fuel x = None.
  Proof. intros I C fuel. destruct (repr fuel x) as [s|] eqn:E; [|reflexivity]. destruct (inside_prints _ _ _ _ E I) as (f & t & _ & P). rewrite (circular_never f y C) in P. discriminate. Qed.
  Lemma ordered_shows x y : ordered h -> shows h x y -> y < x.
  Proof. intros O (o & E & F & I). apply (O x o y E I), F. Qed.
  Lemma ordered_inside x y : ordered h -> inside h x y -> y <= x.
  Proof. intros O I. induction I as [|y z I IH S]; [lia|]. apply (ordered_shows _ _ O) in S. lia. Qed.
  Theorem written_rules_print x : built h -> exists s, prints x s.
  Proof.
    intros B. apply built_ordered in B. apply printing_ends. intros y _ (z & S & I). apply (ordered_shows _ _ B) in S. apply (ordered_inside _ _ B) in I. lia.
  Qed.

  (** ** What is printed *)
  Notation object_prints := (object_prints pred_repr pipeline_repr interp_repr relation_repr str_repr prints).
  Lemma all_prints xs ts : Forall2 prints xs ts -> exists fuel, Forall2 (fun x s => repr fuel x = Some s) xs ts.
  Proof.
    intros F. induction F as [|x s xs ts (f & E) F (f' & IH)]; [exists 0; constructor|]. exists (Nat.max f f'). constructor; [apply (repr_more f); [lia|exact E]|].
    clear - IH. induction IH; constructor; [apply (repr_more f'); [lia|assumption]|assumption].
  Qed.
  Lemma fuel_prints fuel xs ts : Forall2 (fun x s => repr fuel x = Some s) xs ts -> Forall2 prints xs ts.
  Proof. intros F. induction F; constructor; [exists fuel; assumption|assumption]. Qed.
  Lemma list_written l s : python_list l s <-> s = list_text l.
  Proof.
    unfold python_list, list_text. split; [intros (i & L & ->); apply listed_join in L as ->; reflexivity|]. intros ->. eexists. split; [apply listed_join; reflexivity|reflexivity].
  Qed.
  Lemma objects_text fuel ps ts : all_texts (item_text (repr fuel)) (map SObject ps) = Some ts <-> Forall2 (fun x s => repr fuel x = Some s) ps ts.
  Proof.
    rewrite all_texts_each. revert ts. induction ps as [|p ps IH]; intros ts; cbn [map]; [split; intros F; inversion F; constructor|]. split; intros F; inversion F; subst; constructor; try assumption; apply IH; assumption.
  Qed.
  Lemma texts_texts print (l : list str) : all_texts (item_text print) (map SText l) = Some l.
  Proof. apply all_texts_each. induction l; constructor; [reflexivity|assumption]. Qed.
  Lemma terms_text fuel ts ss : all_texts (item_text (repr fuel)) (map (show_term pred_repr) ts) = Some ss <-> Forall2 (term_prints pred_repr (fun x s => repr fuel x = Some s)) ts ss.
  Proof.
    rewrite all_texts_each. revert ss. induction ts as [|t ts IH]; intros ss; cbn [map]; [split; intros F; inversion F; constructor|]. split; intros F; inversion F as [|? s ? ss' F1 F2]; subst; (constructor; [|apply IH; assumption]).
    - destruct t; cbn in *; congruence.
    - destruct t; cbn in *; congruence.
  Qed.
  Lemma terms_prints ts ss : Forall2 (term_prints pred_repr prints) ts ss <-> exists fuel, Forall2 (term_prints pred_repr (fun x s => repr fuel x = Some s)) ts ss.
  Proof.
    split.
    - intros F. induction F as [|t s ts ss H F (f' & IH)]; [exists 0; constructor|]. destruct t as [r|p]; cbn in H.
      + destruct H as (f & E). exists (Nat.max f f'). constructor; [apply (repr_more f); [lia|exact E]|]. clear - IH. induction IH as [|[r|p] u ts us K F IH]; constructor; try assumption. apply (repr_more f'); [lia|exact K].
      + exists f'. constructor; [exact H|exact IH].
    - intros (f & F). induction F as [|[r|p] u ts us K F IH]; constructor; try assumption. exists f. exact K.
  Qed.
  (** Wrappers: one object, then texts. *)
  Definition text_fields (rest : list (str * str)) : list (str * shown) := map (fun f => (fst f, Show (snd f))) rest.
  Lemma rest_texts print rest : all_texts (fun f => shown_text print (snd f)) (text_fields rest) = Some (map snd rest).
  Proof. apply all_texts_each. induction rest as [|[k s] rest IH]; constructor; [reflexivity|exact IH]. Qed.
  Lemma combine_fields rest : combine (map fst (text_fields rest)) (map snd rest) = rest.
  Proof. induction rest as [|[k s] rest IH]; [reflexivity|]. cbn. f_equal. exact IH. Qed.
  Definition keyed (f : str * str) : str := fst f ++ str_of "=" ++ snd f.
  Lemma wrapper_texts fuel class r rest s : option_map (fun ts => record_text class (combine (map fst ((str_of "rule", Point r) :: text_fields rest)) ts)) (field_texts (repr fuel) ((str_of "rule", Point r) :: text_fields rest)) = Some s <->
    exists inner, repr fuel r = Some inner /\ called class ((str_of "rule=" ++ inner) :: map keyed rest) s.
  Proof.
    unfold field_texts. cbn [all_texts]. fold (all_texts (fun f : str * shown => shown_text (repr fuel) (snd f))). rewrite rest_texts. cbn [snd shown_text Point item_text]. destruct (repr fuel r) as [inner|].
    - cbn [option_map map fst combine]. rewrite combine_fields. unfold record_text. cbn [map fst snd]. fold keyed. split.
      + intros E. injection E as <-. exists inner. split; [reflexivity|]. apply called_text. reflexivity.
      + intros (i & E & C). injection E as <-. apply called_text in C as ->. reflexivity.
    - split; [discriminate|]. intros (i & E & _). discriminate.
  Qed.
  Lemma wrapper_object x o class r rest texts s : nth_error h x = Some o -> is_forward o = false -> shape o = (class, (str_of "rule", Point r) :: text_fields rest) -> map keyed rest = texts ->
    prints x s <-> wrapper_prints prints class r texts s.
  Proof.
    intros E F Sh T. subst texts. split.
    - intros (fuel & P). destruct fuel as [|fuel]; [discriminate|]. rewrite (repr_object _ _ _ E F), Sh in P. cbn [fst snd] in P. apply wrapper_texts in P as (i & P & C). exists i. split; [exists fuel; exact P|exact C].
    - intros (i & (fuel & P) & C). exists (S fuel). rewrite (repr_object _ _ _ E F), Sh. cbn [fst snd]. apply wrapper_texts. exists i. auto.
  Qed.
  (** A list of objects, then texts. *)
  Lemma list_texts fuel class key items rest s : option_map (fun ts => record_text class (combine (map fst ((key, ShowList items) :: text_fields rest)) ts)) (field_texts (repr fuel) ((key, ShowList items) :: text_fields rest)) = Some s <->
    exists texts inner, all_texts (item_text (repr fuel)) items = Some texts /\ python_list texts inner /\ called class (keyed (key, inner) :: map keyed rest) s.
  Proof.
    unfold field_texts. cbn [all_texts]. fold (all_texts (fun f : str * shown => shown_text (repr fuel) (snd f))). rewrite rest_texts. cbn [snd shown_text]. destruct (all_texts (item_text (repr fuel)) items) as [texts|].
    - cbn [option_map map fst combine]. rewrite combine_fields. unfold record_text. cbn [map]. fold keyed. split.
      + intros E. injection E as <-. exists texts, (list_text texts). split; [reflexivity|]. split; [apply list_written; reflexivity|]. apply called_text. reflexivity.
      + intros (ts & i & E & L & C). injection E as <-. apply list_written in L as ->. apply called_text in C as ->. reflexivity.
    - split; [discriminate|]. intros (ts & i & E & _). discriminate.
  Qed.
  Lemma list_object x o class key ps rest first texts s : nth_error h x = Some o -> is_forward o = false -> shape o = (class, (key, ShowList (map SObject ps)) :: text_fields rest) -> first = key ++ str_of "=" -> map keyed rest = texts ->
    prints x s <-> exists ts inner, Forall2 prints ps ts /\ python_list ts inner /\ called class ((first ++ inner) :: texts) s.
  Proof.
    intros E F Sh -> <-. assert (A : forall i : str, (key ++ str_of "=") ++ i = keyed (key, i)) by (intros i; unfold keyed; rewrite <- app_assoc; reflexivity). split.
    - intros (fuel & P). destruct fuel as [|fuel]; [discriminate|]. rewrite (repr_object _ _ _ E F), Sh in P. cbn [fst snd] in P. apply list_texts in P as (ts & i & P & L & C). exists ts, i. rewrite A. split; [apply (fuel_prints fuel), objects_text, P|auto].
    - intros (ts & i & P & L & C). apply all_prints in P as (fuel & P). exists (S fuel). rewrite (repr_object _ _ _ E F), Sh. cbn [fst snd]. apply list_texts. exists ts, i. rewrite A in C. split; [apply objects_text, P|auto].
  Qed.
  Theorem what_is_printed x o s : nth_error h x = Some o -> prints x s <-> object_prints o s.
  Proof.
    intros E. destruct o; cbn [ReprSpec.object_prints].
    - apply (list_object x _ (str_of "Rule") (str_of "productions") productions [] _ [] s E); reflexivity.
    - apply (list_object x _ (str_of "OrRule") (str_of "rules") rules [] _ [] s E); reflexivity.
    - apply (wrapper_object x _ _ rule [(str_of "reverse", python_bool reverse)] _ s E); try reflexivity. destruct reverse; reflexivity.
    - apply (wrapper_object x _ _ rule [(str_of "reverse", python_bool reverse)] _ s E); try reflexivity. destruct reverse; reflexivity.
    - apply (wrapper_object x _ _ rule [(str_of "reverse_repeatable", python_bool reverse_repeatable); (str_of "reverse_optional", python_bool reverse_optional)] _ s E); try reflexivity. destruct reverse_repeatable, reverse_optional; reflexivity.
    - apply (wrapper_object x _ _ rule [(str_of "min", digits min); (str_of "reverse", python_bool reverse)] _ s E); try reflexivity. destruct reverse; reflexivity.
    - apply (wrapper_object x _ _ rule [(str_of "max", digits max); (str_of "reverse", python_bool reverse)] _ s E); try reflexivity. destruct reverse; reflexivity.
    - apply (wrapper_object x _ _ rule [(str_of "min", digits min); (str_of "max", digits max); (str_of "reverse", python_bool reverse)] _ s E); try reflexivity. destruct reverse; reflexivity.
    - apply (wrapper_object x _ _ rule [(str_of "name", str_repr name)] _ s E); reflexivity.
    - apply (wrapper_object x _ _ rule [(str_of "interpretator", interp_repr interpretator)] _ s E); reflexivity.
    - apply (wrapper_object x _ _ rule [(str_of "relation", relation_repr relation)] _ s E); reflexivity.
    - split.
      + intros (fuel & P). destruct fuel as [|fuel]; [discriminate|]. rewrite repr_step, E in P. destruct rule; injection P as <-; reflexivity.
      + intros K. exists 1. rewrite repr_step, E. destruct rule; subst s; reflexivity.
    - split.
      + intros (fuel & P). destruct fuel as [|fuel]; [discriminate|]. rewrite repr_step, E in P. injection P as <-. reflexivity.
      + intros ->. exists 1. rewrite repr_step, E. reflexivity.
    - split.
      + intros (fuel & P). destruct fuel as [|fuel]; [discriminate|]. rewrite repr_step, E in P. injection P as <-. reflexivity.
      + intros ->. exists 1. rewrite repr_step, E. reflexivity.
    - apply (list_object x _ (str_of "BNFRule") (str_of "productions") productions [(str_of "name", or_none str_repr (a_name a)); (str_of "interpretator", or_none interp_repr (a_interp a)); (str_of "relation", or_none relation_repr (a_relation a))] _ _ s E); reflexivity.
    - apply (list_object x _ _ (str_of "productions") productions [(str_of "name", or_none str_repr (a_name a)); (str_of "interpretator", or_none interp_repr (a_interp a)); (str_of "relation", or_none relation_repr (a_relation a))] _ _ s E); try reflexivity. cbn [ReprModel.shape]. destruct (b_kind rule); reflexivity.
    - assert (Sh : shape (OProd terms main) = (str_of "Production", (str_of "terms", ShowList (map (show_term pred_repr) terms)) :: text_fields [(str_of "main", digits main)])) by reflexivity. split.
      + intros (fuel & P). destruct fuel as [|fuel]; [discriminate|]. rewrite (repr_object _ _ _ E eq_refl), Sh in P. cbn [fst snd] in P. apply list_texts in P as (ts & i & P & L & C). exists ts, i. split; [apply terms_prints; exists fuel; apply terms_text, P|]. split; [exact L|exact C].
      + intros (ts & i & P & L & C). apply terms_prints in P as (fuel & P). exists (S fuel). rewrite (repr_object _ _ _ E eq_refl), Sh. cbn [fst snd]. apply list_texts. exists ts, i. split; [apply terms_text, P|]. split; [exact L|exact C].
    - split.
      + intros (fuel & P). destruct fuel as [|fuel]; [discriminate|]. rewrite repr_step, E in P. injection P as <-. reflexivity.
      + intros ->. exists 1. rewrite repr_step, E. reflexivity.
    - assert (Tx : forall print, all_texts (item_text print) (map (fun p => SText (pred_repr p)) terms) = Some (map pred_repr terms)) by (intros print; rewrite <- (map_map pred_repr SText); apply texts_texts).
      assert (Q : forall fuel, repr (S fuel) x = Some (call_text (str_of "PipelineProduction") [str_of "value=" ++ str_repr key; str_of "terms=" ++ list_text (map pred_repr terms)])).
      { intros fuel. rewrite repr_step, E. cbn [ReprModel.shape fst snd]. unfold field_texts. cbn [all_texts snd shown_text Show item_text]. rewrite Tx. reflexivity. }
      split.
      + intros (fuel & P). destruct fuel as [|fuel]; [discriminate|]. rewrite Q in P. injection P as <-. eexists. split; [apply list_written; reflexivity|]. apply called_text. reflexivity.
      + intros (i & L & C). apply list_written in L as ->. apply called_text in C as ->. exists 1. apply Q.
  Qed.

  (** ** Trees *)
  Variable token_repr : token -> str.
  Notation repr_node := (repr_node pred_repr pipeline_repr interp_repr relation_repr str_repr h token_repr).
  Fixpoint node_all (P : node token predicate -> Prop) (leaf : forall id pos p t, P (Leaf id pos p t)) (inner : forall id r q rank ch, Forall P ch -> P (Node id r q rank ch)) (n : node token predicate) : P n.
  Proof.
    destruct n as [id pos p t|id r q rank ch]; [apply leaf|]. apply inner. induction ch as [|c ch IH]; constructor; [apply node_all; assumption|exact IH].
  Defined.
  Lemma repr_node_step fuel id r q rank ch : repr_node fuel (Node id r q rank ch) =
    match repr fuel r, repr fuel q, all_texts (repr_node fuel) ch with
    | Some rule, Some production, Some children => Some (record_text (str_of "Node") [(str_of "rule", rule); (str_of "production", production); (str_of "rank", digits rank); (str_of "children", list_text children)])
    | _, _, _ => None
    end.
  Proof. reflexivity. Qed.
  Lemma repr_node_more fuel fuel' n : fuel <= fuel' -> forall s, repr_node fuel n = Some s -> repr_node fuel' n = Some s.
  Proof.
    intros L. revert n. apply (node_all (fun n => forall s, repr_node fuel n = Some s -> repr_node fuel' n = Some s)); [intros id pos p t s E; exact E|]. intros id r q rank ch F s. rewrite !repr_node_step. destruct (repr fuel r) as [a|] eqn:R; [|discriminate].
    destruct (repr fuel q) as [b|] eqn:Q; [|discriminate]. rewrite (repr_more _ _ _ _ L R), (repr_more _ _ _ _ L Q). destruct (all_texts (repr_node fuel) ch) as [ts|] eqn:T; [|discriminate].
    assert (T' : all_texts (repr_node fuel') ch = Some ts); [|rewrite T'; auto]. apply all_texts_each. apply all_texts_each in T. clear - F T. revert F. induction T; intros F; constructor; inversion F; subst; auto.
  Qed.
  Lemma part_inside n m k : part n m -> part m k -> part n k.
  Proof. intros A B. induction B as [|id r q rank ch c B IH I]; [exact A|]. apply (part_more n id r q rank ch c); assumption. Qed.
  Lemma part_leaf id pos p t m : part (Leaf id pos p t) m -> m = Leaf id pos p t.
  Proof. intros A. induction A as [|id' r q rank ch c A IH I]; [reflexivity|discriminate]. Qed.
  Lemma part_node id r q rank ch m : part (Node id r q rank ch) m -> m = Node id r q rank ch \/ exists c, In c ch /\ part c m.
  Proof.
    intros A. induction A as [|id' r' q' rank' ch' c A IH I]; [left; reflexivity|]. right. destruct IH as [K|(d & D & P)].
    - injection K as -> -> -> -> ->. exists c. split; [exact I|constructor].
    - exists d. split; [exact D|]. apply (part_more d id' r' q' rank' ch' c); assumption.
  Qed.
  Theorem tree_printing_ends n : (exists fuel s, repr_node fuel n = Some s) <-> forall id r q rank ch, part n (Node id r q rank ch) -> (exists s, prints r s) /\ exists s, prints q s.
  Proof.
    revert n. apply (node_all (fun n => (exists fuel s, repr_node fuel n = Some s) <-> forall id r q rank ch, part n (Node id r q rank ch) -> (exists s, prints r s) /\ exists s, prints q s)).
    - intros id pos p t. split; [intros _ id' r q rank ch A; apply part_leaf in A; discriminate|]. intros _. exists 0. eexists. reflexivity.
    - intros id r q rank ch F. split.
      + intros (fuel & s & E). rewrite repr_node_step in E. destruct (repr fuel r) as [a|] eqn:R; [|discriminate]. destruct (repr fuel q) as [b|] eqn:Q; [|discriminate]. destruct (all_texts (repr_node fuel) ch) as [ts|] eqn:T; [|discriminate].
        intros id' r' q' rank' ch' A. apply part_node in A as [K|(c & I & A)]; [injection K as -> -> -> -> ->; split; [exists a|exists b]; exists fuel; assumption|].
        rewrite Forall_forall in F. apply (F c I) with (id := id') (rank := rank') (ch := ch'); [|exact A]. apply all_texts_each in T. destruct (Forall2_in_left _ _ _ _ T I) as (t & P). exists fuel, t. exact P.
      + intros H. destruct (H id r q rank ch (part_itself _)) as [(a & fa & R) (b & fb & Q)].
        assert (K : exists fuel, forall c, In c ch -> exists t, repr_node fuel c = Some t).
        { assert (Hc : forall c, In c ch -> forall id' r' q' rank' ch', part c (Node id' r' q' rank' ch') -> (exists s, prints r' s) /\ exists s, prints q' s).
          { intros c I id' r' q' rank' ch' A. apply (H id' r' q' rank' ch'). apply (part_inside _ c); [apply (part_more _ id r q rank ch c); [constructor|exact I]|exact A]. }
          clear - F Hc. induction F as [|c ch K F IH]; [exists 0; intros c []|]. destruct IH as (f & IH); [intros d I; apply Hc; right; exact I|]. destruct (proj2 K (Hc c (or_introl eq_refl))) as (f' & t & P). exists (Nat.max f f'). intros d [<-|I].
          - exists t. apply (repr_node_more f'); [lia|exact P].
          - destruct (IH d I) as (u & U). exists u. apply (repr_node_more f); [lia|exact U]. }
        destruct K as (fc & K). exists (Nat.max fc (Nat.max fa fb)). rewrite repr_node_step. assert (La : fa <= Nat.max fc (Nat.max fa fb)) by lia. assert (Lb : fb <= Nat.max fc (Nat.max fa fb)) by lia. rewrite (repr_more _ _ _ _ La R), (repr_more _ _ _ _ Lb Q).
        destruct (all_texts_some (repr_node (Nat.max fc (Nat.max fa fb))) ch) as (ts & T); [|rewrite T; eexists; reflexivity]. intros c I. destruct (K c I) as (t & P). exists t. apply (repr_node_more fc); [lia|exact P].
  Qed.

  (** ** Pretty printing *)
  Variable gap : list nat -> nat -> str.
  Notation pretty := (pretty_rule pred_repr pipeline_repr interp_repr relation_repr str_repr h gap).
  Lemma pretty_step fuel stack indent x : pretty (S fuel) stack indent x =
    match nth_error h x with
    | None => Some []
    | Some o => if is_in x stack then Some (fst (shape o) ++ str_of "(...)") else
        option_map (fun ts => fst (shape o) ++ str_of "(" ++
          (match snd (shape o) with [] => [] | _ => newline (indent + 4) ++ pretty_fields (indent + 4) (combine (map fst (snd (shape o))) ts) ++ newline indent end) ++ str_of ")")
          (all_texts (fun fl => pretty_shown gap (x :: stack) (pretty fuel (x :: stack)) (indent + 4) (snd fl)) (snd (shape o)))
    end.
  Proof. cbn [pretty_rule]. destruct (nth_error h x) as [o|]; [|reflexivity]. destruct (shape o) as [n fs]. reflexivity. Qed.
  Lemma pretty_shown_some stack print indent v : (forall i y, In y (shown_points v) -> exists s, print i y = Some s) -> exists s, pretty_shown gap stack print indent v = Some s.
  Proof.
    destruct v as [i|l]; cbn [pretty_shown shown_points]; intros H; [apply item_text_some; intros y I; apply H, I|].
    destruct (all_texts_some (item_text (print (indent + 1))) l) as (ts & E); [|rewrite E; eexists; reflexivity]. intros i I. apply item_text_some. intros y J. apply H. apply in_flat_map. eauto.
  Qed.
  Theorem pretty_printing_ends fuel : forall stack indent x, others stack < fuel -> exists s, pretty fuel stack indent x = Some s.
  Proof.
    induction fuel as [|fuel IH]; intros stack indent x L; [lia|]. rewrite pretty_step. destruct (nth_error h x) as [o|] eqn:E; [|eauto]. destruct (is_in x stack) eqn:I; [eauto|].
    destruct (all_texts_some (fun fl => pretty_shown gap (x :: stack) (pretty fuel (x :: stack)) (indent + 4) (snd fl)) (snd (shape o))) as (ts & T); [|rewrite T; eexists; reflexivity].
    intros fl Ifl. apply pretty_shown_some. intros i y Iy. apply IH. assert (others (x :: stack) < others stack); [|lia]. apply others_less; [apply nth_error_Some; congruence|]. intros K. apply is_in_spec in K. congruence.
  Qed.

  Lemma squeezed_app a b : squeezed (a ++ b) = squeezed a ++ squeezed b.
  Proof. apply filter_app. Qed.
  Lemma squeezed_blank s : only_blanks s -> squeezed s = [].
  Proof. intros F. induction F as [|c s H F IH]; [reflexivity|]. unfold squeezed. cbn [filter]. rewrite H. exact IH. Qed.
  Lemma newline_blank n : only_blanks (newline n).
  Proof. constructor; [reflexivity|]. induction n; constructor; [reflexivity|assumption]. Qed.
  Lemma squeezed_newline n : squeezed (newline n) = [].
  Proof. apply squeezed_blank, newline_blank. Qed.
  Hypothesis gaps : forall stack k, only_blanks (gap stack k).
  Lemma squeezed_spaced stack : forall l l' k, Forall2 (fun s t => squeezed s = squeezed t) l l' -> squeezed (spaced (gap stack) k l) = squeezed (join_with (str_of ", ") l').
  Proof.
    intros l l' k F. revert k. induction F as [|s t l l' H F IH]; intros k; [reflexivity|]. destruct F as [|u w l l' H' F].
    - cbn [spaced join_with]. exact H.
    - change (spaced (gap stack) k (s :: u :: l)) with (s ++ str_of "," ++ gap stack k ++ spaced (gap stack) (S k) (u :: l)). change (join_with (str_of ", ") (t :: w :: l')) with (t ++ str_of ", " ++ join_with (str_of ", ") (w :: l')).
      rewrite !squeezed_app, H, (squeezed_blank _ (gaps stack k)), IH. reflexivity.
  Qed.
  Lemma squeezed_fields indent : forall keys l l', length keys = length l -> Forall2 (fun s t => squeezed s = squeezed t) l l' ->
    squeezed (pretty_fields indent (combine keys l)) = squeezed (join_with (str_of ", ") (map (fun x => fst x ++ str_of "=" ++ snd x) (combine keys l'))).
  Proof.
    intros keys l l' Ln F. revert keys Ln. induction F as [|s t l l' H F IH]; intros keys Ln; [destruct keys; [reflexivity|discriminate]|]. destruct keys as [|k keys]; [discriminate|]. injection Ln as Ln. specialize (IH keys Ln).
    cbn [combine map pretty_fields fst snd]. destruct F as [|u w l l' H' F].
    - destruct keys; [|discriminate]. cbn [combine map join_with]. rewrite app_nil_r, !squeezed_app, H. reflexivity.
    - destruct keys as [|k' keys]; [discriminate|]. cbn [combine map fst snd] in IH |- *.
      change (join_with (str_of ", ") ((k ++ str_of "=" ++ t) :: (k' ++ str_of "=" ++ w) :: map (fun x => fst x ++ str_of "=" ++ snd x) (combine keys l'))) with
        ((k ++ str_of "=" ++ t) ++ str_of ", " ++ join_with (str_of ", ") ((k' ++ str_of "=" ++ w) :: map (fun x => fst x ++ str_of "=" ++ snd x) (combine keys l'))).
      rewrite !squeezed_app, squeezed_newline, H, IH. rewrite <- !app_assoc. reflexivity.
  Qed.
  Lemma shown_squeezed stack print rprint indent v s : (forall i y t, In y (shown_points v) -> rprint y = Some t -> exists u, print i y = Some u /\ squeezed u = squeezed t) ->
    shown_text rprint v = Some s -> exists u, pretty_shown gap stack print indent v = Some u /\ squeezed u = squeezed s.
  Proof.
    destruct v as [i|l]; cbn [shown_text pretty_shown shown_points]; intros H E.
    - destruct i as [t|x]; cbn [item_text] in *; [injection E as <-; eauto|]. apply H; [left; reflexivity|exact E].
    - destruct (all_texts (item_text rprint) l) as [r|] eqn:R; [|discriminate]. injection E as <-. apply all_texts_each in R.
      assert (K : exists us, all_texts (item_text (print (indent + 1))) l = Some us /\ Forall2 (fun s t => squeezed s = squeezed t) us r).
      { revert H. induction R as [|i t l r E R IH]; intros H; [exists []; split; [reflexivity|constructor]|]. destruct IH as (us & U & Q); [intros j y t' I; apply H; cbn [flat_map]; apply in_or_app; right; exact I|].
        assert (K : exists u, item_text (print (indent + 1)) i = Some u /\ squeezed u = squeezed t) by (destruct i as [t'|x]; cbn [item_text] in *; [injection E as <-; eauto|apply H; [left; reflexivity|exact E]]).
        destruct K as (u & K & K'). exists (u :: us). split; [apply all_texts_each; constructor; [exact K|apply all_texts_each, U]|constructor; assumption]. }
      destruct K as (us & U & Q). rewrite U. eexists. split; [reflexivity|]. unfold list_text. rewrite !squeezed_app, (squeezed_spaced stack us r 0 Q). reflexivity.
  Qed.
  Lemma all_length {A} (f : A -> option str) l ts : all_texts f l = Some ts -> length ts = length l.
  Proof. rewrite all_texts_each. intros F. induction F; [reflexivity|cbn [length]; f_equal; assumption]. Qed.
  Lemma pretty_as_repr fuel : forall stack indent x s, above stack x -> (forall y d, inside h x y -> nth_error h y <> Some (OForward d)) -> repr fuel x = Some s -> exists t, pretty fuel stack indent x = Some t /\ squeezed t = squeezed s.
  Proof.
    induction fuel as [|fuel IH]; intros stack indent x s A N E; [discriminate|]. assert (C : ~ circular h x) by (intros C; rewrite (circular_never _ x C) in E; discriminate). rewrite pretty_step. destruct (nth_error h x) as [o|] eqn:Eo.
    2: { rewrite repr_step, Eo in E. injection E as <-. eauto. }
    assert (F : is_forward o = false) by (destruct o; try reflexivity; destruct (N x rule (inside_itself h x) Eo)). rewrite (repr_object _ _ _ Eo F) in E. destruct (is_in x stack) eqn:I; [apply is_in_spec in I; destruct C; apply (above_in stack); assumption|].
    destruct (field_texts (repr fuel) (snd (shape o))) as [ts|] eqn:T; [|discriminate]. injection E as <-.
    assert (K : exists us, all_texts (fun fl => pretty_shown gap (x :: stack) (pretty fuel (x :: stack)) (indent + 4) (snd fl)) (snd (shape o)) = Some us /\ Forall2 (fun s t => squeezed s = squeezed t) us ts).
    { assert (Hp : forall y, In y (points (snd (shape o))) -> shows h x y) by (intros y Iy; rewrite points_shape in Iy; exists o; auto). unfold field_texts in T. apply all_texts_each in T. revert Hp. induction T as [|fl t fls ts Et T IHt]; intros Hp; [exists []; split; [reflexivity|constructor]|].
      destruct IHt as (us & U & Q); [intros y Iy; apply Hp; unfold points; cbn [flat_map]; apply in_or_app; right; exact Iy|].
      destruct (shown_squeezed (x :: stack) (pretty fuel (x :: stack)) (repr fuel) (indent + 4) (snd fl) t) as (u & Eu & Qu); [|exact Et|].
      - intros i y t' Iy Ey. assert (S : shows h x y) by (apply Hp; unfold points; cbn [flat_map]; apply in_or_app; left; exact Iy). apply IH; [apply above_shows; assumption| |exact Ey]. intros z d Z. apply N. apply (inside_trans x y z); [apply shows_inside, S|exact Z].
      - exists (u :: us). split; [apply all_texts_each; constructor; [exact Eu|apply all_texts_each, U]|constructor; assumption]. }
    destruct K as (us & U & Q). rewrite U. eexists. split; [reflexivity|]. unfold record_text. rewrite !squeezed_app. f_equal. f_equal. f_equal.
    destruct (snd (shape o)) as [|fl fls] eqn:Sh; [|rewrite !squeezed_app, !squeezed_newline, app_nil_r; cbn [app]; apply squeezed_fields; [rewrite map_length; symmetry; apply (all_length _ _ _ U)|exact Q]].
    reflexivity.
  Qed.
  Theorem pretty_is_repr x s indent : (forall y d, inside h x y -> nth_error h y <> Some (OForward d)) -> prints x s -> exists fuel t, pretty fuel [] indent x = Some t /\ squeezed t = squeezed s.
  Proof. intros N (fuel & E). exists fuel. apply pretty_as_repr; [intros y []|exact N|exact E]. Qed.
End Repr.
