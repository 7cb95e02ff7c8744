(** Proofs about how labels are written. *)
From Coq Require String.
From Verif Require Import Base TokenModel EarleyModel PredicateModel PredicateProofs PipelineModel RuleModel GrammarModel DotTextModel LabelModel WrittenSpec.
Import String.StringSyntax.
Open Scope nat_scope.

Lemma listed_join sep : forall l s, listed sep l s <-> s = join_with sep l.
Proof.
  intros l s. split.
  - intros H. induction H as [|x|x y l s H ->]; reflexivity.
  - intros ->. induction l as [|x [|y l] IH]; [constructor|constructor|]. change (join_with sep (x :: y :: l)) with (x ++ sep ++ join_with sep (y :: l)). constructor. exact IH.
Qed.
Lemma called_text name l s : called name l s <-> s = call_text name l.
Proof.
  unfold called, call_text. split.
  - intros (i & L & ->). apply listed_join in L as ->. reflexivity.
  - intros ->. exists (join_with comma l). split; [apply listed_join; reflexivity|reflexivity].
Qed.

Section Predicates.
  Variable repr : str -> str.
  Variable repr_int : Z -> str.
  Variable function_name : (str -> res bool) -> option str.
  Variable repr_other : predicate -> str.
  Notation text := (pred_label repr repr_int function_name repr_other).
  Notation written := (pred_written repr repr_int function_name repr_other).
  Notation all := (all_written repr repr_int function_name repr_other).
  Lemma all_labels ps : Forall (fun p => forall l, text p = Ok l <-> written p l) ps -> forall ls, mapM text ps = Ok ls <-> all ps ls.
  Proof.
    intros F. induction F as [|p ps P F IH]; intros ls; cbn [mapM].
    - split; [intros E; injection E as <-; constructor|intros H; inversion H; reflexivity].
    - split.
      + intros E. destruct (text p) as [l|] eqn:L; [|discriminate]. cbn [bind] in E. destruct (mapM text ps) as [ls'|] eqn:M; [|discriminate]. injection E as <-. constructor; [apply P, eq_refl|apply IH, eq_refl].
      + intros H. inversion H as [|? ? l ls' H1 H2]; subst. apply P in H1. apply IH in H2. rewrite H1, H2. reflexivity.
  Qed.
  Theorem predicate_written p : forall l, text p = Ok l <-> written p l.
  Proof.
    induction p using predicate_rect'; intros l; cbn [pred_label].
    - pose proof (all_labels ps H) as A. split.
      + intros E. destruct (mapM text ps) as [ls|] eqn:M; [|discriminate]. cbn [bind] in E. injection E as <-. apply (w_and _ _ _ _ ps ls); [apply A, eq_refl|apply called_text; reflexivity].
      + intros W. inversion W as [| | | | | | | | | | | | | | | | | | | | | | | | |? ls ? W1 W2| |]; subst. apply A in W1. rewrite W1. apply called_text in W2 as ->. reflexivity.
    - pose proof (all_labels ps H) as A. split.
      + intros E. destruct (mapM text ps) as [ls|] eqn:M; [|discriminate]. cbn [bind] in E. injection E as <-. apply (w_or _ _ _ _ ps ls); [apply A, eq_refl|apply called_text; reflexivity].
      + intros W. inversion W as [| | | | | | | | | | | | | | | | | | | | | | | | | |? ls ? W1 W2|]; subst. apply A in W1. rewrite W1. apply called_text in W2 as ->. reflexivity.
    - split.
      + intros E. destruct (text p) as [l'|] eqn:M; [|discriminate]. cbn [bind] in E. injection E as <-. apply (w_not _ _ _ _ p l'); [apply IHp, eq_refl|apply called_text; reflexivity].
      + intros W. inversion W as [| | | | | | | | | | | | | | | | | | | | | | | | | | |? l' ? W1 W2]; subst. apply IHp in W1. rewrite W1. apply called_text in W2 as ->. reflexivity.
    - destruct p; try contradiction; cbn [pred_label]; try (split; [intros E; injection E as <-; constructor|intros W; inversion W; subst; reflexivity]; fail).
      unfold name_attribute. destruct (function_name function) as [n|] eqn:N; cbn [bind].
      + split; [intros E; injection E as <-; exact (w_custom _ _ _ _ _ _ _ N)|intros W; inversion W as [| | | | | | | | | | | | | | | | | | | | | |? ? n' N' | | | | |]; subst; rewrite N in N'; injection N' as ->; reflexivity].
      + split; [discriminate|intros W; inversion W; subst; congruence].
  Qed.
End Predicates.

Fixpoint relation_rect' (P : relation_syntax -> Prop) (H1 : forall l, Forall P l -> P (RelAnd l)) (H2 : forall l, Forall P l -> P (RelOr l)) (H3 : forall r, P r -> P (RelNot r))
  (H4 : forall r, match r with RelAnd _ | RelOr _ | RelNot _ => True | _ => P r end) (r : relation_syntax) : P r.
Proof.
  destruct r as [| | | |l|l|r|s].
  - exact (H4 Gender).
  - exact (H4 Number).
  - exact (H4 Case).
  - exact (H4 Gnc).
  - apply H1. induction l as [|r l IH]; constructor; [apply relation_rect'; assumption|exact IH].
  - apply H2. induction l as [|r l IH]; constructor; [apply relation_rect'; assumption|exact IH].
  - apply H3. apply relation_rect'; assumption.
  - exact (H4 (RelUser s)).
Defined.
Lemma all_relations rs : Forall (fun r => forall l, relation_text r = l <-> relation_written r l) rs -> forall ls, map relation_text rs = ls <-> relations_written rs ls.
Proof.
  intros F. induction F as [|r rs P F IH]; intros ls; cbn [map].
  - split; [intros <-; constructor|intros H; inversion H; reflexivity].
  - split; [intros <-; constructor; [apply P, eq_refl|apply IH, eq_refl]|]. intros H. inversion H as [|? ? l ls' H1 H2]; subst. apply P in H1. apply IH in H2. congruence.
Qed.
Theorem relations_are_written r : forall l, relation_text r = l <-> relation_written r l.
Proof.
  revert r. apply (relation_rect' (fun r => forall l, relation_text r = l <-> relation_written r l)); [intros l H s|intros l H s|intros r IHr s|intros r]; cbn [relation_text].
  - pose proof (all_relations l H) as A. split; [intros <-; apply (w_rel_and l (map relation_text l)); [apply A, eq_refl|apply called_text; reflexivity]|]. intros W. inversion W as [| | | |? ls ? W1 W2| | |]; subst. apply A in W1 as <-. apply called_text in W2 as ->. reflexivity.
  - pose proof (all_relations l H) as A. split; [intros <-; apply (w_rel_or l (map relation_text l)); [apply A, eq_refl|apply called_text; reflexivity]|]. intros W. inversion W as [| | | | |? ls ? W1 W2| |]; subst. apply A in W1 as <-. apply called_text in W2 as ->. reflexivity.
  - split; [intros <-; apply (w_rel_not r (relation_text r)); [apply IHr, eq_refl|apply called_text; reflexivity]|]. intros W. inversion W as [| | | | | |? l ? W1 W2|]; subst. apply IHr in W1 as <-. apply called_text in W2 as ->. reflexivity.
  - destruct r; try exact I; intros s; cbn [relation_text]; (split; [intros <-; constructor|intros W; inversion W; reflexivity]).
Qed.

Definition call_of (c : option (str * list str)) : option str := option_map (fun x => call_text (fst x) (snd x)) c.
Lemma chained_one c s : chained [c] s <-> call_of c = Some s.
Proof.
  unfold chained. split.
  - intros (ts & F & L). inversion F as [|? t ? ts' (n & a & -> & C) F']; subst. inversion F'; subst. inversion L; subst. apply called_text in C as ->. reflexivity.
  - destruct c as [[n a]|]; [|discriminate]. intros E. injection E as <-. exists [call_text n a]. split; [constructor; [|constructor]|constructor]. exists n, a. split; [reflexivity|]. apply called_text. reflexivity.
Qed.
Lemma chained_two c c' s : chained [c; c'] s <-> exists t t', call_of c = Some t /\ call_of c' = Some t' /\ s = t ++ dot ++ t'.
Proof.
  unfold chained. split.
  - intros (ts & F & L). inversion F as [|? t ? ts' (n & a & -> & C) F']; subst. inversion F' as [|? t' ? ts'' (n' & a' & -> & C') F'']; subst. inversion F''; subst. apply listed_join in L as ->. apply called_text in C as ->. apply called_text in C' as ->.
    eexists _, _. split; [reflexivity|]. split; reflexivity.
  - intros (t & t' & E & E' & ->). destruct c as [[n a]|]; [|discriminate]. destruct c' as [[n' a']|]; [|discriminate]. injection E as <-. injection E' as <-.
    exists [call_text n a; call_text n' a']. split; [|apply listed_join; reflexivity]. repeat constructor; eexists _, _; (split; [reflexivity|apply called_text; reflexivity]).
Qed.
Lemma morph_called m t : morph_text m = Ok t <-> call_of (morph_call m) = Some t.
Proof. destruct m as [|[g|]]; cbn; split; intros E; try discriminate; injection E as <-; reflexivity. Qed.
Lemma custom_called f t : (let! n := name_attribute f in Ok (call_text (str_of "custom") [n])) = Ok t <-> call_of (custom_call f) = Some t.
Proof. destruct f as [n|]; cbn; split; intros E; try discriminate; injection E as <-; reflexivity. Qed.
Theorem normalizers_are_written n s : ~ function_after_morphology n -> (normalizer_text n = Ok s <-> normalizer_written n s).
Proof.
  intros N. unfold normalizer_written. destruct n as [m|v|f|f f'|m f]; cbn [normalizer_text calls].
  - rewrite chained_one. apply morph_called.
  - rewrite chained_one. cbn. split; intros E; injection E as <-; reflexivity.
  - rewrite chained_one. apply custom_called.
  - rewrite chained_two. split.
    + destruct f as [n|]; [|discriminate]. destruct f' as [n'|]; [|discriminate]. cbn [name_attribute bind]. intros E. injection E as <-. eexists _, _. split; [reflexivity|]. split; reflexivity.
    + intros (t & t' & E & E' & ->). destruct f as [n|]; [|discriminate]. destruct f' as [n'|]; [|discriminate]. injection E as <-. injection E' as <-. reflexivity.
  - destruct N. exists m, f. reflexivity.
Qed.
Theorem interpretators_are_written i s : (forall n, normalizer_of i = Some n -> ~ function_after_morphology n) -> (interpretator_text i = Ok s <-> interpretator_written i s).
Proof.
  intros N. destruct i as [fact|fact name|n|fact name n]; cbn [interpretator_text interpretator_written].
  - split; [intros E; injection E as <-; reflexivity|intros ->; reflexivity].
  - rewrite listed_join. split; [intros E; injection E as <-; reflexivity|intros ->; reflexivity].
  - apply normalizers_are_written, N. reflexivity.
  - split.
    + intros E. destruct (normalizer_text n) as [t|] eqn:T; [|discriminate]. cbn [bind] in E. injection E as <-. exists t. split; [apply normalizers_are_written; [apply N; reflexivity|exact T]|]. apply listed_join. unfold attribute_text. cbn [join_with]. rewrite <- !app_assoc. reflexivity.
    + intros (t & W & L). apply normalizers_are_written in W; [|apply N; reflexivity]. rewrite W. cbn [bind]. apply listed_join in L as ->. unfold attribute_text. cbn [join_with]. rewrite <- !app_assoc. reflexivity.
Qed.
Theorem function_label m f : normalizer_text (LMorphFunction m (Some f)) = match morph_text m with Ok t => Ok (t ++ str_of "." ++ f) | Err e => Err e end.
Proof. cbn. destruct (morph_text m); reflexivity. Qed.
Theorem function_loses_custom : exists n s, normalizer_text n = Ok s /\ ~ normalizer_written n s /\ normalizer_written n (str_of "normalized().custom(f)") /\ s = str_of "normalized().f".
Proof.
  exists (LMorphFunction LNormalized (Some (str_of "f"))). eexists. split; [reflexivity|]. unfold normalizer_written. cbn [calls]. split; [|split; [apply chained_two; eexists _, _; split; [reflexivity|]; split; reflexivity|reflexivity]].
  intros W. apply chained_two in W as (t & t' & E & E' & S). injection E as <-. injection E' as <-. vm_compute in S. discriminate.
Qed.

Theorem objects_are_drawn label_of_interp label_of_relation h x o label colour :
  object_style label_of_interp label_of_relation h x o = Ok ((str_of "label", label) :: match colour with Some c => [(str_of "fillcolor", c)] | None => [] end) <->
  drawn label_of_interp label_of_relation (rule_label label_of_interp label_of_relation h) digits x o label colour.
Proof.
  split.
  - intros E.
    assert (I : forall a c, Ok (coloured a c) = Ok ((str_of "label", label) :: match colour with Some c => [(str_of "fillcolor", c)] | None => [] end) -> a = label /\ colour = Some c).
    { intros a c K. destruct colour as [c'|]; [|discriminate]. unfold coloured in K. injection K as -> ->. auto. }
    assert (J : forall a, Ok (plain_style a) = Ok ((str_of "label", label) :: match colour with Some c => [(str_of "fillcolor", c)] | None => [] end) -> a = label /\ colour = None).
    { intros a K. destruct colour as [c'|]; [discriminate|]. unfold plain_style in K. injection K as ->. auto. }
    destruct o; cbn [object_style] in E; try (apply I in E as [<- ->]; constructor; fail); try (apply J in E as [<- ->]; constructor; fail).
    + apply I in E as [<- ->]. rewrite (app_assoc (digits min)), (app_assoc (digits min ++ _)). rewrite <- (app_assoc (digits min)). constructor. apply listed_join. reflexivity.
    + destruct (label_of_interp interpretator) as [l|] eqn:L; [|discriminate]. cbn [bind] in E. apply I in E as [<- ->]. constructor. exact L.
    + apply I in E as [<- ->]. destruct pipeline; constructor.
    + destruct (rule_label label_of_interp label_of_relation h x) as [[l|]|] eqn:L; [|discriminate|discriminate]. cbn [bind needed] in E. apply I in E as [<- ->]. constructor. exact L.
    + destruct (rule_label label_of_interp label_of_relation h x) as [[l|]|] eqn:L; [|discriminate|discriminate]. cbn [bind needed] in E. apply I in E as [<- ->]. constructor. exact L.
  - intros D. destruct D; cbn [object_style]; try reflexivity.
    + apply listed_join in H as ->. cbn [join_with]. rewrite <- !app_assoc. reflexivity.
    + rewrite H. reflexivity.
    + rewrite H. reflexivity.
    + rewrite H. reflexivity.
Qed.
