(** Calls with arguments of any type. *)
From Verif Require Import Base TokenModel EarleyModel TokenizerModel TaggerModel PredicateModel PipelineModel PipelineSpec ParserModel RelationModel RuleModel RuleSpec RuleAccept RuleNormalized RuleOrder RuleBuild RuleBuilt GrammarModel GrammarSpec RuleNestSpec
  RuleTheorems RuleCalls TextModel TextSpec TextTheorems EqualSpec TextEqual ArgModel ArgSpec.
Open Scope nat_scope.

Section Args.
  Variable relation_number : relation -> nat.
  Variable iterate_other : value -> res (list value).
  Notation call_value := (call_value relation_number iterate_other).
  Notation let_through := (let_through iterate_other).

  (** ** Helpers *)
  Lemma all_of_spec {A} (f : value -> option A) l r : all_of f l = Some r -> Forall2 (fun v a => f v = Some a) l r.
  Proof.
    revert r. induction l as [|v l IH]; intros r; cbn; [intros H; injection H as <-; constructor|]. destruct (f v) eqn:E; [|discriminate]. destruct (all_of f l) as [r'|]; [|discriminate]. intros H. injection H as <-. constructor; auto.
  Qed.
  Lemma all_of_none {A} (f : value -> option A) l : all_of f l = None -> ~ Forall (fun v => exists a, f v = Some a) l.
  Proof.
    induction l as [|v l IH]; cbn; [discriminate|]. intros H F. inversion F as [|? ? (a & E) F']; subst. rewrite E in H. destruct (all_of f l); [discriminate|]. apply IH; auto.
  Qed.
  Lemma predicates_of l r : all_of as_predicate l = Some r -> Forall a_predicate l.
  Proof. intros H. apply all_of_spec in H. induction H as [|v p l r E F IH]; constructor; [|exact IH]. destruct v; try discriminate. eexists. reflexivity. Qed.
  Lemma relations_of l r : all_of as_relation l = Some r -> Forall a_relation l.
  Proof. intros H. apply all_of_spec in H. induction H as [|v p l r E F IH]; constructor; [|exact IH]. destruct v; try discriminate. eexists. reflexivity. Qed.
  Lemma rules_of l r : all_of as_rule l = Some r -> l = map VRule r.
  Proof. intros H. apply all_of_spec in H. induction H as [|v p l r E F IH]; [reflexivity|]. destruct v; try discriminate. cbn in E. injection E as ->. cbn. rewrite IH. reflexivity. Qed.
  Lemma strings_of l r : mapM assert_str l = Ok r -> Forall a_string l.
  Proof.
    revert r. induction l as [|v l IH]; intros r; cbn; [constructor|]. destruct v; try discriminate. cbn. destruct (mapM assert_str l) eqn:E; [|discriminate]. intros _. constructor; [eexists; reflexivity|eapply IH; reflexivity].
  Qed.
  Lemma strings_all l : Forall a_string l -> exists r, mapM assert_str l = Ok r.
  Proof. intros F. induction F as [|v l (s & ->) F (r & IH)]; [exists []; reflexivity|]. exists (s :: r). cbn. rewrite IH. reflexivity. Qed.
  Lemma strings_error l e : mapM assert_str l = Err e -> e = TypeError.
  Proof. induction l as [|v l IH]; cbn; [discriminate|]. destruct v; cbn; try (intros H; injection H as <-; reflexivity). destruct (mapM assert_str l); cbn; [discriminate|exact IH]. Qed.

  (** ** A call that returns is a call with arguments of the right types *)
  Ltac split_bind H := repeat match type of H with
    | bind ?x _ = Ok _ => let E := fresh "E" in destruct x as [?|] eqn:E; [cbn [bind] in H|discriminate H]
    end.
  Lemma inside_items items r : In r (rule_terms (map item_term (map prepare_production_item items))) -> exists v, In v items /\ inside r v.
  Proof.
    induction items as [|v items IH]; [intros []|]. cbn [map]. intros I.
    assert (X : (exists u, In u items /\ inside r u) -> exists u, In u (v :: items) /\ inside r u) by (intros (u & Iu & N); exists u; split; [right; exact Iu|exact N]).
    destruct v; cbn in I; try (apply X, IH, I).
    - destruct I as [<-|I]; [eexists; split; [left; reflexivity|constructor]|apply X, IH, I].
    - destruct t; cbn in I; [destruct I as [<-|I]; [eexists; split; [left; reflexivity|constructor]|]|]; apply X, IH, I.
  Qed.
  Lemma repeatable_typed r min max reverse h p h' : rule_repeatable r min max reverse h = Ok (p, h') ->
    exists m n b, run_call (CRepeatable r m n b) h = Ok (p, h').
  Proof.
    unfold rule_repeatable. cbn [run_call].
    assert (T : forall v z, truth v = true -> number v = Ok z -> truthy (Some z) = Some z).
    { intros v z T N. destruct v; try discriminate; cbn in *; injection N as <-; [subst; reflexivity|]. destruct (Z.eqb z0 0); [discriminate|reflexivity]. }
    destruct (truth min) eqn:Tm, (truth max) eqn:Tx; intros H.
    - destruct (assert_bool reverse) as [b|]; [|discriminate]. cbn [bind] in H. destruct (number min) as [m|] eqn:Nm; [|discriminate]. destruct (number max) as [n|] eqn:Nn; [|cbn in H; destruct (assert_greater_equals m 1); discriminate].
      exists (Some m), (Some n), b. unfold repeatable. rewrite (T min m Tm Nm), (T max n Tx Nn). cbn [bind] in *. destruct (assert_greater_equals m 1); [|discriminate]. cbn [bind] in *. destruct (assert_greater_equals n 1); [|discriminate]. cbn [bind] in *.
      destruct (assert_greater_equals n m); [|discriminate]. exact H.
    - destruct (assert_bool reverse) as [b|]; [|discriminate]. cbn [bind] in H. destruct (number min) as [m|] eqn:Nm; [|discriminate]. exists (Some m), None, b. unfold repeatable. rewrite (T min m Tm Nm). cbn [truthy bind] in *. destruct (assert_greater_equals m 1); [|discriminate]. exact H.
    - destruct (assert_bool reverse) as [b|]; [|discriminate]. cbn [bind] in H. destruct (number max) as [n|] eqn:Nn; [|discriminate]. exists None, (Some n), b. unfold repeatable. rewrite (T max n Tx Nn). cbn [truthy bind] in *. destruct (assert_greater_equals n 1); [|discriminate]. exact H.
    - destruct (assert_bool reverse) as [b|]; [|discriminate]. exists None, None, b. exact H.
  Qed.
  (** The methods with one rule as the receiver. *)
  Definition typed_method (r : nat) (h : rule_heap) (x : res (nat * rule_heap)) : Prop :=
    forall p h', x = Ok (p, h') -> exists c : call, run_call c h = Ok (p, h') /\ call_rules c = [r].
  Lemma typed_optional r v h : typed_method r h (rule_optional r v h).
  Proof. intros p h' H. unfold rule_optional in H. destruct (assert_bool v) as [b|]; [|discriminate]. exists (COptional r b). split; [exact H|reflexivity]. Qed.
  Lemma typed_repeatable r min max v h : typed_method r h (rule_repeatable r min max v h).
  Proof. intros p h' H. apply repeatable_typed in H as (m & n & b & H). exists (CRepeatable r m n b). split; [exact H|reflexivity]. Qed.
  Lemma typed_named r v h : typed_method r h (rule_named r v h).
  Proof. intros p h' H. unfold rule_named in H. destruct (assert_str v) as [n|]; [|discriminate]. exists (CNamed r n). split; [exact H|reflexivity]. Qed.
  Lemma typed_interpretation r v h : typed_method r h (rule_interpretation r v h).
  Proof. intros p h' H. destruct v; try discriminate; eexists (CInterpretation r _); (split; [exact H|reflexivity]). Qed.
  Lemma typed_match r v h : typed_method r h (rule_match relation_number r v h).
  Proof. intros p h' H. destruct v; try discriminate. eexists (CMatch r _); (split; [exact H|reflexivity]). Qed.

  Definition one_call (c : value_call) (h : rule_heap) (v : value) (h' : rule_heap) : Prop :=
    exists (c' : call) r, v = VRule r /\ run_call c' h = Ok (r, h') /\ forall x, In x (call_rules c') -> exists u, In u (arguments c) /\ inside x u.
  Definition two_calls (h : rule_heap) (v : value) (h' : rule_heap) : Prop :=
    exists p r1 h1 (c' : call) r, run_call (CRule [Plain (TPred p)]) h = Ok (r1, h1) /\ v = VRule r /\ run_call c' h1 = Ok (r, h') /\ call_rules c' = [r1].
  Lemma method_one r h x c v h' : typed_method r h x -> In (VRule r) (arguments c) -> as_value x = Ok (v, h') -> one_call c h v h'.
  Proof.
    intros T A H. destruct x as [[p h1]|]; [|discriminate]. cbn in H. injection H as <- <-. destruct (T p h1 eq_refl) as (c' & R & K). exists c', p. split; [reflexivity|]. split; [exact R|]. rewrite K. intros y [<-|[]]. exists (VRule r). split; [exact A|constructor].
  Qed.
  Lemma method_two p h f v h' : (forall r h1, typed_method r h1 (f r h1)) -> as_value (with_rule p h f) = Ok (v, h') -> two_calls h v h'.
  Proof.
    intros T. unfold with_rule, call_rule. cbn [map prepare_production_item]. destruct (new_rule [Plain (TPred p)] h) as [[r1 h1]|] eqn:E; [|discriminate]. cbn [bind]. destruct (f r1 h1) as [[r h2]|] eqn:F; [|discriminate]. cbn. intros H. injection H as <- <-.
    destruct (T r1 h1 r h2 F) as (c' & R & K). exists p, r1, h1, c', r. auto.
  Qed.
  Theorem value_call_typed c h v h' : call_value c h = Ok (v, h') -> h' = h /\ ~ a_rule v \/ one_call c h v h' \/ two_calls h v h'.
  Proof.
    destruct c as [items|items|items|u|u| | |k u|u rv|u mn mx rv|u n|u x|u x|u args]; cbn [ArgModel.call_value]; intros H.
    - right. left. unfold call_rule in H. destruct (new_rule _ _) as [[r h1]|] eqn:E; [|discriminate]. cbn in H. injection H as <- <-. exists (CRule (map prepare_production_item items)), r. split; [reflexivity|]. split; [exact E|]. intros x. apply inside_items.
    - left. unfold call_and in H. destruct (all_of as_predicate items); [injection H as <- <-; split; [reflexivity|intros (r & E); discriminate]|]. destruct (all_of as_relation items); [injection H as <- <-; split; [reflexivity|intros (r & E); discriminate]|discriminate].
    - unfold call_or in H. destruct (all_of as_predicate items); [injection H as <- <-; left; split; [reflexivity|intros (r & E); discriminate]|]. destruct (all_of as_relation items); [injection H as <- <-; left; split; [reflexivity|intros (r & E); discriminate]|].
      destruct (all_of as_rule items) as [rs|] eqn:E; [|discriminate]. right. left. cbn in H. injection H as <- <-. apply rules_of in E as ->. exists (COr rs), (length h). split; [reflexivity|]. split; [reflexivity|]. cbn. intros x Hx. exists (VRule x). split; [apply in_map, Hx|constructor].
    - left. destruct u; try discriminate; cbn in H; injection H as <- <-; (split; [reflexivity|intros (r' & E); discriminate]).
    - left. destruct u; try discriminate; cbn in H; injection H as <- <-; (split; [reflexivity|intros (r' & E); discriminate]).
    - right. left. cbn in H. injection H as <- <-. exists CForward, (length h). split; [reflexivity|]. split; [reflexivity|]. intros x [].
    - right. left. cbn in H. injection H as <- <-. exists CEmpty, (length h). split; [reflexivity|]. split; [reflexivity|]. intros x [].
    - right. left. unfold call_pipeline in H. destruct (iterate iterate_other h u) as [l|]; [|discriminate]. cbn [bind] in H. destruct (mapM assert_str l) as [lines|]; [|discriminate]. cbn in H. injection H as <- <-. exists (CPipeline (scheme_of k lines)), (length h). split; [reflexivity|]. split; [reflexivity|]. intros x [].
    - destruct u; try discriminate.
      + destruct rv; [discriminate|]. right. right. apply (method_two p h (fun r h1 => rule_optional r (VBool false) h1)); [intros; apply typed_optional|exact H].
      + right. left. eapply method_one; [apply typed_optional| |exact H]. left. reflexivity.
    - destruct u; try discriminate.
      + right. right. apply (method_two p h (fun r h1 => rule_repeatable r mn mx rv h1)); [intros; apply typed_repeatable|exact H].
      + right. left. eapply method_one; [apply typed_repeatable| |exact H]. left. reflexivity.
    - destruct u; try discriminate.
      + right. right. apply (method_two p h (fun r h1 => rule_named r n h1)); [intros; apply typed_named|exact H].
      + right. left. eapply method_one; [apply typed_named| |exact H]. left. reflexivity.
    - destruct u; try discriminate.
      + right. right. unfold predicate_interpretation in H. destruct x; try discriminate; (eapply method_two; [|exact H]; intros; apply typed_interpretation).
      + right. left. eapply method_one; [apply typed_interpretation| |exact H]. left. reflexivity.
    - destruct u; try discriminate.
      + right. right. apply (method_two p h (fun r h1 => rule_match relation_number r x h1)); [intros; apply typed_match|exact H].
      + right. left. eapply method_one; [apply typed_match| |exact H]. left. reflexivity.
    - destruct u; try discriminate. right. left.
      assert (X : (exists r0, args = [VRule r0] /\ as_value (define_forward r r0 h) = Ok (v, h')) \/ as_value (run_call (CDefineItems r (map prepare_production_item args)) h) = Ok (v, h')).
      { unfold rule_define, call_rule in H. cbn [run_call]. unfold define_forward. destruct (forward_of (S (length h)) h r) as [f'|]; [|destruct args as [|[] []]; discriminate]. cbn [bind] in *. destruct args as [|[] []]; try discriminate; try (right; exact H). left. eexists. split; [reflexivity|exact H]. }
      destruct X as [(r0 & -> & X)|X].
      + destruct (define_forward r r0 h) as [[p h1]|] eqn:E; [|discriminate]. cbn in X. injection X as <- <-. exists (CDefine r r0), p. split; [reflexivity|]. split; [exact E|]. cbn. intros x [<-|[<-|[]]]; eexists; (split; [|constructor]); cbn; auto.
      + destruct (run_call _ h) as [[p h1]|] eqn:E; [|discriminate]. cbn in X. injection X as <- <-. exists (CDefineItems r (map prepare_production_item args)), p. split; [reflexivity|]. split; [exact E|].
        cbn [call_rules]. intros x [<-|I]; [exists (VRule r); split; [left; reflexivity|constructor]|]. apply inside_items in I as (u & Iu & N). exists u. split; [right; exact Iu|exact N].
  Qed.
  (** Every program makes a heap of the rule model. *)
  Theorem written_built h : written relation_number iterate_other h -> built h.
  Proof.
    intros W. induction W as [|c h W IH K]; [constructor|]. unfold after_value_call. destruct (call_value c h) as [[v h']|] eqn:E; [|exact IH].
    destruct (value_call_typed c h v h' E) as [[-> _]|[(c' & r & _ & R & I)|(p & r1 & h1 & c' & r & R1 & _ & R & I)]]; [exact IH| |].
    - replace h' with (after_call c' h) by (unfold after_call; rewrite R; reflexivity). constructor; [exact IH|]. intros x Hx. destruct (I x Hx) as (u & Iu & N). apply (K u x Iu N).
    - assert (B1 : built h1). { replace h1 with (after_call (CRule [Plain (TPred p)]) h) by (unfold after_call; rewrite R1; reflexivity). constructor; [exact IH|]. intros x []. }
      replace h' with (after_call c' h1) by (unfold after_call; rewrite R; reflexivity). constructor; [exact B1|]. rewrite I. intros x [<-|[]].
      apply (new_rule_ok [Plain (TPred p)] h r1 h1 (built_sound h IH)); [intros y []|exact R1].
  Qed.

  (** ** What is rejected *)
  Lemma bound_through v z : truth v = true -> number v = Ok z -> v = VBool true \/ exists z, v = VInt z.
  Proof. intros T N. destruct v; try discriminate; cbn in T; [subst; left; reflexivity|right; eexists; reflexivity]. Qed.
  Lemma bool_through v b : assert_bool v = Ok b -> a_bool v.
  Proof. destruct v; try discriminate. intros _. eexists. reflexivity. Qed.
  Lemma repeatable_through r mn mx rv h x : rule_repeatable r mn mx rv h = Ok x -> a_bool rv /\ forall b, b = mn \/ b = mx -> truth b = false \/ b = VBool true \/ exists z, b = VInt z.
  Proof.
    unfold rule_repeatable. destruct (truth mn) eqn:Tm, (truth mx) eqn:Tx; intros H; destruct (assert_bool rv) as [b0|] eqn:B; try discriminate; (split; [apply (bool_through rv b0 B)|]); cbn [bind] in H.
    - destruct (number mn) as [m|] eqn:Nm; [|discriminate]. cbn [bind] in H. destruct (assert_greater_equals m 1); [|discriminate]. cbn [bind] in H. destruct (number mx) as [n|] eqn:Nn; [|discriminate].
      intros b [-> | ->]; right; [apply (bound_through mn m Tm Nm)|apply (bound_through mx n Tx Nn)].
    - destruct (number mn) as [m|] eqn:Nm; [|discriminate]. intros b [-> | ->]; [right; apply (bound_through mn m Tm Nm)|left; exact Tx].
    - destruct (number mx) as [n|] eqn:Nn; [|discriminate]. intros b [-> | ->]; [left; exact Tm|right; apply (bound_through mx n Tx Nn)].
    - intros b [-> | ->]; left; assumption.
  Qed.
  Lemma with_rule_some p h f x : as_value (with_rule p h f) = Ok x -> exists r h1 y, f r h1 = Ok y.
  Proof. unfold with_rule. destruct (call_rule [VPred p] h) as [[r h1]|]; [|discriminate]. cbn [bind]. destruct (f r h1) as [y|] eqn:E; [|discriminate]. eauto. Qed.
  Theorem returns_let_through c h x : call_value c h = Ok x -> let_through h c.
  Proof.
    destruct c as [items|items|items|u|u| | |k u|u rv|u mn mx rv|u n|u y|u y|u args]; cbn [ArgModel.call_value ArgSpec.let_through expected]; intros H; try exact Logic.I.
    - unfold call_and in H. destruct (all_of as_predicate items) eqn:E; [left; eapply predicates_of, E|]. destruct (all_of as_relation items) eqn:E'; [right; eapply relations_of, E'|discriminate].
    - unfold call_or in H. destruct (all_of as_predicate items) eqn:E; [left; eapply predicates_of, E|]. destruct (all_of as_relation items) eqn:E'; [right; left; eapply relations_of, E'|].
      destruct (all_of as_rule items) as [rs|] eqn:E2; [|discriminate]. right. right. apply rules_of in E2 as ->. apply Forall_forall. intros v Hv. apply in_map_iff in Hv as (r & <- & _). eexists. reflexivity.
    - destruct u; try discriminate; [left|right]; eexists; reflexivity.
    - destruct u; try discriminate; [left|right]; eexists; reflexivity.
    - unfold call_pipeline in H. destruct (iterate iterate_other h u) as [l|]; [|discriminate]. cbn [bind] in H. exists l. split; [reflexivity|]. destruct (mapM assert_str l) eqn:E; [|discriminate]. eapply strings_of, E.
    - destruct u; try discriminate.
      + destruct rv; [discriminate|]. right. split; [eexists; reflexivity|reflexivity].
      + left. split; [eexists; reflexivity|]. intros z ->. unfold rule_optional in H. destruct (assert_bool z) as [b|] eqn:B; [|discriminate]. apply (bool_through z b B).
    - destruct u; try discriminate.
      + apply with_rule_some in H as (r & h1 & y & H). split; [right; eexists; reflexivity|]. apply (repeatable_through _ _ _ _ _ _ H).
      + destruct (rule_repeatable r mn mx rv h) as [y|] eqn:E; [|discriminate]. split; [left; eexists; reflexivity|]. apply (repeatable_through _ _ _ _ _ _ E).
    - destruct u; try discriminate.
      + apply with_rule_some in H as (r & h1 & y & H). split; [right; eexists; reflexivity|]. destruct n; try discriminate. eexists. reflexivity.
      + split; [left; eexists; reflexivity|]. destruct n; try discriminate. eexists. reflexivity.
    - destruct u; try discriminate.
      + right. split; [eexists; reflexivity|]. destruct y; try discriminate; eexists; [left|right]; reflexivity.
      + left. split; [eexists; reflexivity|]. destruct y; try discriminate; [right|left|left|right]; eexists; ((left; reflexivity) || (right; reflexivity)).
    - destruct u; try discriminate.
      + apply with_rule_some in H as (r & h1 & z & H). split; [right; eexists; reflexivity|]. destruct y; try discriminate. eexists. reflexivity.
      + split; [left; eexists; reflexivity|]. destruct y; try discriminate. eexists. reflexivity.
    - destruct u; try discriminate. split; [eexists; reflexivity|]. intros ->. unfold rule_define in H. destruct (forward_of _ _ _); discriminate.
  Qed.

  Lemma forward_of_wraps fuel h f f' : forward_of fuel h f = Ok f' -> wraps h f.
  Proof.
    revert f. induction fuel as [|fuel IH]; intros f; cbn; [discriminate|]. destruct (nth_error h f) as [o|] eqn:E; [|discriminate].
    destruct o; try discriminate; intros H; try (eapply wraps_more; [exact E|left; reflexivity|reflexivity|apply IH, H]).
    - eapply wraps_more; [exact E|right; left; eexists; reflexivity|reflexivity|apply IH, H].
    - eapply wraps_more; [exact E|right; right; left; eexists; reflexivity|reflexivity|apply IH, H].
    - eapply wraps_more; [exact E|right; right; right; eexists; reflexivity|reflexivity|apply IH, H].
    - eapply wraps_forward, E.
  Qed.
  Lemma wraps_forward_of h f : ordered h -> wraps h f -> forall fuel, f < fuel -> exists f', forward_of fuel h f = Ok f'.
  Proof.
    intros O W. induction W as [f d E|f o r E K C W IH]; intros fuel L; (destruct fuel as [|fuel]; [lia|]); cbn; rewrite E; [eauto|].
    assert (Lr : is_forward o = false -> r < f) by (apply (O f o r E); rewrite C; left; reflexivity).
    destruct K as [K|[(n & ->)|[(n & ->)|(n & ->)]]]; [|apply IH; cbn in Lr; specialize (Lr eq_refl); lia ..].
    destruct o; try discriminate; cbn in C; injection C as <-; apply IH; cbn in Lr; specialize (Lr eq_refl); lia.
  Qed.
  Lemma built_ordered (h : rule_heap) : built h -> ordered h.
  Proof. intros B. apply built_sound in B. intros p o x Ex Hc. destruct (B p o Ex) as (_ & _ & C). destruct (C x Hc) as (oc & Ec & _ & L). split; [apply nth_error_Some; congruence|exact L]. Qed.

  Lemma number_error v e : number v = Err e -> e = TypeError.
  Proof. destruct v; cbn; intros H; try discriminate; injection H as <-; reflexivity. Qed.
  Lemma repeatable_error r mn mx rv h e : rule_repeatable r mn mx rv h = Err e -> e = TypeError \/ e = ValueError.
  Proof.
    unfold rule_repeatable, assert_greater_equals. destruct (truth mn), (truth mx), (assert_bool rv) as [b|x] eqn:B; cbn [bind];
      try (intros H; injection H as <-; destruct rv; try discriminate; injection B as <-; auto; fail); try discriminate.
    - destruct (number mn) as [m|x] eqn:Nm; cbn [bind]; [|intros H; injection H as <-; left; apply (number_error mn), Nm]. destruct (m <? 1)%Z; cbn [bind]; [intros H; injection H as <-; auto|].
      destruct (number mx) as [n|x] eqn:Nn; cbn [bind]; [|intros H; injection H as <-; left; apply (number_error mx), Nn]. destruct (n <? 1)%Z; cbn [bind]; [intros H; injection H as <-; auto|]. destruct (n <? m)%Z; cbn [bind]; [intros H; injection H as <-; auto|discriminate].
    - destruct (number mn) as [m|x] eqn:Nm; cbn [bind]; [|intros H; injection H as <-; left; apply (number_error mn), Nm]. destruct (m <? 1)%Z; cbn [bind]; [intros H; injection H as <-; auto|discriminate].
    - destruct (number mx) as [n|x] eqn:Nn; cbn [bind]; [|intros H; injection H as <-; left; apply (number_error mx), Nn]. destruct (n <? 1)%Z; cbn [bind]; [intros H; injection H as <-; auto|discriminate].
  Qed.
  Lemma predicate_rule p h : exists r h1, call_rule [VPred p] h = Ok (r, h1).
  Proof. eexists _, _. reflexivity. Qed.
  (** Arguments that are not let through: TypeError, AttributeError if the receiver has no
      such method; a bad bound may be complained about first. *)
  Theorem rejected c h : built h -> (forall v e, iterate_other v = Err e -> e = TypeError) -> ~ let_through h c ->
    call_value c h = Err TypeError \/ call_value c h = Err AttributeError /\ no_method c h \/ call_value c h = Err ValueError /\ exists v mn mx rv, c = ARepeatable v mn mx rv.
  Proof.
    intros BH IO N. destruct (call_value c h) as [x|e] eqn:E; [destruct (N (returns_let_through c h x E))|].
    destruct c as [items|items|items|u|u| | |k u|u rv|u mn mx rv|u n|u y|u y|u args]; cbn [ArgModel.call_value ArgSpec.let_through no_method expected] in *; try (destruct (N Logic.I); fail).
    - left. unfold call_and in E. destruct (all_of as_predicate items); [discriminate|]. destruct (all_of as_relation items); [discriminate|]. cbn in E. injection E as <-. reflexivity.
    - left. unfold call_or in E. destruct (all_of as_predicate items); [discriminate|]. destruct (all_of as_relation items); [discriminate|]. destruct (all_of as_rule items); [discriminate|]. injection E as <-. reflexivity.
    - left. destruct u; cbn in E; try discriminate; injection E as <-; reflexivity.
    - left. destruct u; cbn in E; try discriminate; injection E as <-; reflexivity.
    - left. unfold call_pipeline in E.
      assert (X : iterate iterate_other h u = Err e -> e = TypeError).
      { intros I. destruct u; cbn in I; try discriminate; try (injection I as <-; reflexivity); try (eapply IO, I).
        - destruct p; try discriminate; eapply IO, I.
        - destruct (nth_error h r) as [[]|]; discriminate.
        - destruct r; try discriminate; eapply IO, I. }
      destruct (iterate iterate_other h u) as [l|e'] eqn:It; [|cbn in E; injection E as <-; rewrite (X eq_refl); reflexivity]. cbn [bind] in E. destruct (mapM assert_str l) as [ls|e'] eqn:M; [discriminate|]. cbn in E. injection E as <-. rewrite (strings_error l e' M). reflexivity.
    - destruct u; try (right; left; injection E as <-; split; [reflexivity|]; split; intros (? & K); discriminate).
      + left. destruct rv; [injection E as <-; reflexivity|discriminate].
      + left. unfold rule_optional in E. destruct rv as [v|]; [|discriminate]. destruct v; cbn in E; try discriminate; injection E as <-; reflexivity.
    - destruct u; try (right; left; injection E as <-; split; [reflexivity|]; split; intros (? & K); discriminate).
      + unfold with_rule in E. destruct (predicate_rule p h) as (r & h1 & Er). rewrite Er in E. cbn [bind] in E. destruct (rule_repeatable r mn mx rv h1) as [[? ?]|e'] eqn:R; [discriminate|]. cbn in E. injection E as <-. destruct (repeatable_error _ _ _ _ _ _ R); subst; [left; reflexivity|right; right; split; [reflexivity|eauto]].
      + destruct (rule_repeatable r mn mx rv h) as [[? ?]|e'] eqn:R; [discriminate|]. cbn in E. injection E as <-. destruct (repeatable_error _ _ _ _ _ _ R); subst; [left; reflexivity|right; right; split; [reflexivity|eauto]].
    - destruct u; try (right; left; injection E as <-; split; [reflexivity|]; split; intros (? & K); discriminate); left; destruct n; cbn in E; try discriminate; injection E as <-; reflexivity.
    - destruct u; try (right; left; injection E as <-; split; [reflexivity|]; split; intros (? & K); discriminate); left; destruct y; cbn in E; try discriminate; injection E as <-; reflexivity.
    - destruct u; try (right; left; injection E as <-; split; [reflexivity|]; split; intros (? & K); discriminate); left; destruct y; cbn in E; try discriminate; injection E as <-; reflexivity.
    - destruct u as [| | | | | |f| | | | | | | | |]; try (right; left; injection E as <-; split; [reflexivity|]; intros ? K; discriminate).
      unfold rule_define in E. destruct (forward_of (S (length h)) h f) as [f'|e'] eqn:F; [|].
      + destruct args as [|v l]; [left; cbn in E; injection E as <-; reflexivity|]. exfalso. apply N. split; [eexists; reflexivity|discriminate].
      + cbn in E. injection E as <-.
        assert (NA : e' = AttributeError).
        { clear - F. revert f F. generalize (S (length h)) as fuel. induction fuel as [|fuel IH]; intros f; cbn; [intros H; injection H as <-; reflexivity|]. destruct (nth_error h f) as [o|]; [|intros H; injection H as <-; reflexivity]. destruct o; try (intros H; injection H as <-; reflexivity); try discriminate; apply IH. }
        subst e'. destruct args as [|v l]; [|exfalso; apply N; split; [eexists; reflexivity|discriminate]].
        right. left. split; [reflexivity|]. intros f0 K W. injection K as <-.
        assert (L : f < S (length h)) by (destruct W as [f d W|f o r W]; (assert (f < length h) by (apply nth_error_Some; congruence)); lia).
        destruct (wraps_forward_of h f (built_ordered h BH) W _ L) as (f' & X). congruence.
  Qed.

  (** ** Calls with the right types and values return *)
  Lemma rule_made items h : one_main items -> exists r h1, call_rule items h = Ok (r, h1).
  Proof.
    intros O. unfold call_rule. assert (K := main_designated (map prepare_production_item items) h). cbn [run_call] in K. destruct (new_rule (map prepare_production_item items) h) as [[r h1]|e]; [eexists _, _; reflexivity|]. exfalso.
    destruct K as (_ & k & k' & t & t' & N & E & E').
    assert (X : forall a b u w, a < b -> nth_error (map prepare_production_item items) a = Some (Main u) -> nth_error (map prepare_production_item items) b = Some (Main w) -> False).
    { intros a b u w L A B. rewrite nth_error_map in A, B. destruct (nth_error items a) as [va|] eqn:Ea; [|discriminate]. destruct (nth_error items b) as [vb|] eqn:Eb; [|discriminate]. destruct va; try discriminate. destruct vb; try discriminate.
      apply nth_error_split in Ea as (x & y & -> & La). rewrite nth_error_app2 in Eb by lia. destruct (b - length x) as [|d] eqn:D; [lia|]. cbn in Eb. apply nth_error_split in Eb as (y1 & y2 & -> & _). exact (O x y1 y2 _ _ eq_refl). }
    destruct (Nat.lt_total k k') as [L|[L|L]]; [exact (X k k' t t' L E E')|exact (N L)|exact (X k' k t' t L E' E)].
  Qed.
  Lemma all_of_all {A} (f : value -> option A) (P : value -> Prop) l : (forall v, P v -> exists a, f v = Some a) -> Forall P l -> exists r, all_of f l = Some r.
  Proof. intros H F. induction F as [|v l Pv F (r & IH)]; [exists []; reflexivity|]. destruct (H v Pv) as (a & Ea). cbn. rewrite Ea, IH. eauto. Qed.
  Lemma repeatable_made r mn mx rv h : a_bound mn -> a_bound mx -> a_bool rv ->
    (forall m n, bound_value mn m -> bound_value mx n -> (forall x, m = Some x -> 1 <= x)%Z /\ (forall y, n = Some y -> 1 <= y)%Z /\ (forall x y, m = Some x -> n = Some y -> x <= y)%Z) ->
    exists y, rule_repeatable r mn mx rv h = Ok y.
  Proof.
    intros Bm Bx (b & ->) K. specialize (K _ _ eq_refl eq_refl) as (K1 & K2 & K3).
    assert (T : forall v, a_bound v -> truth v = false \/ exists z, v = VInt z /\ truth v = true /\ match v with VInt 0 => None | VInt n => Some n | _ => None end = Some z).
    { intros v [->|(z & ->)]; [left; reflexivity|]. destruct z; [left; reflexivity|right; eexists; repeat split; reflexivity|right; eexists; repeat split; reflexivity]. }
    assert (G : forall a c, (c <= a)%Z -> assert_greater_equals a c = Ok tt) by (intros a c L; unfold assert_greater_equals; destruct (Z.ltb_spec a c); [lia|reflexivity]).
    unfold rule_repeatable. destruct (T mn Bm) as [Tm|(m & -> & Tm & Em)], (T mx Bx) as [Tx|(n & -> & Tx & En)]; rewrite ?Tm, ?Tx; cbn [assert_bool bind number].
    - eauto.
    - rewrite (G n 1%Z (K2 n En)). cbn. eauto.
    - rewrite (G m 1%Z (K1 m Em)). cbn. eauto.
    - rewrite (G m 1%Z (K1 m Em)). cbn [bind]. rewrite (G n 1%Z (K2 n En)). cbn [bind]. rewrite (G n m (K3 m n Em En)). cbn. eauto.
  Qed.
  Theorem right_calls_return c h : built h -> expected c -> right_values h c -> exists x, call_value c h = Ok x.
  Proof.
    intros BH X V. destruct c as [items|items|items|u|u| | |k u|u rv|u mn mx rv|u n|u y|u y|u args]; cbn [ArgModel.call_value expected right_values] in *.
    - destruct (rule_made items h V) as (r & h1 & E). rewrite E. eexists. reflexivity.
    - unfold call_and. destruct X as [F|F].
      + destruct (all_of_all as_predicate a_predicate items ltac:(intros v (p & ->); eexists; reflexivity) F) as (r & ->). eexists. reflexivity.
      + destruct (all_of_all as_relation a_relation items ltac:(intros v (p & ->); eexists; reflexivity) F) as (r & ->). destruct (all_of as_predicate items); eexists; reflexivity.
    - unfold call_or. destruct X as [F|[F|F]].
      + destruct (all_of_all as_predicate a_predicate items ltac:(intros v (p & ->); eexists; reflexivity) F) as (r & ->). eexists. reflexivity.
      + destruct (all_of_all as_relation a_relation items ltac:(intros v (p & ->); eexists; reflexivity) F) as (r & ->). destruct (all_of as_predicate items); eexists; reflexivity.
      + destruct (all_of_all as_rule a_rule items ltac:(intros v (p & ->); eexists; reflexivity) F) as (r & ->). destruct (all_of as_predicate items); [eexists; reflexivity|]. destruct (all_of as_relation items); eexists; reflexivity.
    - destruct X as [(p & ->)|(p & ->)]; eexists; reflexivity.
    - destruct X as [(p & ->)|(p & ->)]; eexists; reflexivity.
    - eexists; reflexivity.
    - eexists; reflexivity.
    - destruct X as (l & -> & F). unfold call_pipeline. cbn [iterate bind]. destruct (strings_all l F) as (r & ->). eexists. reflexivity.
    - destruct X as [[(r & ->)|(p & ->)] B].
      + destruct rv as [v|]; [destruct (B v eq_refl) as (b & ->)|]; eexists; reflexivity.
      + rewrite (V ltac:(eexists; reflexivity)). eexists. reflexivity.
    - destruct X as [[(r & ->)|(p & ->)] (B1 & B2 & B3)].
      + destruct (repeatable_made r mn mx rv h B1 B2 B3 V) as ((z & hz) & ->). eexists. reflexivity.
      + unfold with_rule. destruct (predicate_rule p h) as (r & h1 & ->). cbn [bind]. destruct (repeatable_made r mn mx rv h1 B1 B2 B3 V) as ((z & hz) & ->). eexists. reflexivity.
    - destruct X as [[(r & ->)|(p & ->)] (z & ->)]; eexists; reflexivity.
    - destruct X as [[(r & ->) [(i & [-> | ->])|(i & [-> | ->])]]|[(p & ->) (i & [-> | ->])]]; eexists; reflexivity.
    - destruct X as [[(r & ->)|(p & ->)] (z & ->)]; eexists; reflexivity.
    - destruct X as ((f & ->) & NE & F). destruct (V f eq_refl) as (W & O & D).
      assert (L : f < S (length h)) by (destruct W as [f d W|f o r W]; (assert (f < length h) by (apply nth_error_Some; congruence)); lia).
      destruct (wraps_forward_of h f (built_ordered h BH) W _ L) as (f' & E). unfold rule_define. rewrite E. cbn [bind].
      destruct (rule_made args h O) as (r1 & h1 & E1). destruct args as [|v l]; [congruence|].
      destruct v; try (rewrite E1; eexists; reflexivity). destruct l; [|rewrite E1; eexists; reflexivity].
      destruct (nth_error h r) as [[]|] eqn:Er; try (eexists; reflexivity). destruct (D r rule eq_refl Er).
  Qed.

  Lemma made_one_main items h x : call_rule items h = Ok x -> one_main items.
  Proof.
    unfold call_rule. assert (K := main_designated (map prepare_production_item items) h). cbn [run_call] in K. intros E. rewrite E in K. destruct x as [r h1]. destruct K as (q & m & _ & _ & K). intros a b d t u ->.
    assert (H1 : nth_error (map prepare_production_item (a ++ VMain t :: b ++ VMain u :: d)) (length a) = Some (Main t)) by (rewrite map_app, nth_error_app2; rewrite map_length; [|lia]; rewrite Nat.sub_diag; reflexivity).
    assert (H2 : nth_error (map prepare_production_item (a ++ VMain t :: b ++ VMain u :: d)) (length a + S (length b)) = Some (Main u)).
    { rewrite map_app, nth_error_app2; rewrite map_length; [|lia]. replace (length a + S (length b) - length a) with (S (length b)) by lia. cbn. rewrite map_app, nth_error_app2; rewrite map_length; [|lia]. rewrite Nat.sub_diag. reflexivity. }
    destruct K as [[N _]|(w & _ & N)]; [exact (N t (nth_error_In _ _ H1))|]. specialize (N _ _ H1) as N1. specialize (N _ _ H2) as N2. lia.
  Qed.
  Lemma repeatable_right r mn mx rv h x : rule_repeatable r mn mx rv h = Ok x ->
    forall m n, bound_value mn m -> bound_value mx n -> (forall x, m = Some x -> 1 <= x)%Z /\ (forall y, n = Some y -> 1 <= y)%Z /\ (forall x y, m = Some x -> n = Some y -> x <= y)%Z.
  Proof.
    assert (G : forall a c, assert_greater_equals a c = Ok tt -> (c <= a)%Z) by (intros a c; unfold assert_greater_equals; destruct (Z.ltb_spec a c); [discriminate|lia]).
    assert (T : forall v z, bound_value v z -> z = None \/ exists y, z = Some y /\ truth v = true /\ number v = Ok y) by (intros v z Bz; unfold bound_value in Bz; subst z; destruct v as [|b|y|w|l|p|q|t|q|i|i|i|i|t q|t|b]; auto; destruct y; auto; right; eexists; repeat split; reflexivity).
    intros E m n Bm Bn. unfold rule_repeatable in E. destruct (assert_bool rv); [|destruct (truth mn), (truth mx); discriminate].
    destruct (T _ _ Bm) as [->|(z & -> & Tm & Em)], (T _ _ Bn) as [->|(y & -> & Tn & En)]; rewrite ?Tm, ?Tn, ?Em, ?En in E; cbn [bind] in E; repeat split; try discriminate.
    - intros w W. injection W as <-. destruct (truth mn); [destruct (number mn) as [q|]; [|discriminate]; cbn [bind] in E; destruct (assert_greater_equals q 1); [|discriminate]; cbn [bind] in E|]; destruct (assert_greater_equals y 1) as [[]|] eqn:A; try discriminate; exact (G _ _ A).
    - intros w W. injection W as <-. destruct (truth mx); cbn [bind] in E; destruct (assert_greater_equals z 1) as [[]|] eqn:A; try discriminate; exact (G _ _ A).
    - intros w W. injection W as <-. destruct (assert_greater_equals z 1) as [[]|] eqn:A; [|discriminate]. exact (G _ _ A).
    - intros w W. injection W as <-. destruct (assert_greater_equals z 1) as [[]|]; [|discriminate]. cbn [bind] in E. destruct (assert_greater_equals y 1) as [[]|] eqn:A; [|discriminate]. exact (G _ _ A).
    - intros w w' W W'. injection W as <-. injection W' as <-. destruct (assert_greater_equals z 1) as [[]|]; [|discriminate]. cbn [bind] in E. destruct (assert_greater_equals y 1) as [[]|]; [|discriminate]. cbn [bind] in E. destruct (assert_greater_equals y z) as [[]|] eqn:A; [|discriminate]. exact (G _ _ A).
  Qed.
  Theorem returning_calls_right c h x : expected c -> call_value c h = Ok x -> right_values h c.
  Proof.
    intros X E. destruct c as [items|items|items|u|u| | |k u|u rv|u mn mx rv|u n|u y|u y|u args]; cbn [ArgModel.call_value expected right_values] in *; try exact Logic.I.
    - destruct (call_rule items h) as [z|] eqn:Ec; [|discriminate]. exact (made_one_main _ _ _ Ec).
    - intros (p & ->). destruct rv; [discriminate|reflexivity].
    - destruct u; try discriminate.
      + unfold with_rule in E. destruct (predicate_rule p h) as (r & h1 & E1). rewrite E1 in E. cbn [bind] in E. destruct (rule_repeatable r mn mx rv h1) as [z|] eqn:Er; [|discriminate]. exact (repeatable_right _ _ _ _ _ _ Er).
      + destruct (rule_repeatable r mn mx rv h) as [made|] eqn:Er; [|discriminate]. exact (repeatable_right _ _ _ _ _ _ Er).
    - intros f ->. unfold rule_define in E. destruct (forward_of (S (length h)) h f) as [f'|] eqn:F; [|discriminate]. cbn [bind] in E. split; [exact (forward_of_wraps _ _ _ _ F)|]. split.
      + destruct args as [|v l]; [discriminate|]. destruct v; try (destruct (call_rule _ h) as [made|] eqn:Ec; [|discriminate]; exact (made_one_main _ _ _ Ec)). destruct l; [|destruct (call_rule _ h) as [made|] eqn:Ec; [|discriminate]; exact (made_one_main _ _ _ Ec)].
        intros a b d t t' Q. destruct a as [|? [|]]; discriminate.
      + intros r d -> N. rewrite N in E. discriminate.
  Qed.
  Theorem right_calls_return_iff c h : built h -> expected c -> (exists x, call_value c h = Ok x) <-> right_values h c.
  Proof. intros B X. split; [intros (x & E); exact (returning_calls_right c h x X E)|exact (right_calls_return c h B X)]. Qed.
  Theorem string_lines k s h : call_value (APipeline k (VStr s)) h = Ok (VRule (length h), h ++ [OPipeline (let lines := map (fun x => [x]) s in
    match k with Exact => PipelineScheme lines | Caseless => CaselessPipelineScheme lines | Morph => MorphPipelineScheme lines end)]).
  Proof.
    cbn [ArgModel.call_value]. unfold call_pipeline. cbn [iterate bind]. replace (mapM assert_str (map (fun x => VStr [x]) s)) with (Ok (map (fun x => [x]) s)); [reflexivity|].
    induction s as [|x s IH]; [reflexivity|]. cbn. rewrite <- IH. reflexivity.
  Qed.

  (** ** What a wrong item does *)
  Section Wrong.
    Variable U : unicode.
    Variable set_order : list str -> list str.
    Variable c : context.
    Lemma wrong_item_refuses items v : In v items -> ~ an_item v -> In (TPred (POr [])) (map item_term (map prepare_production_item items)).
    Proof.
      intros I N. apply in_map_iff. exists (prepare_production_item v). split; [|apply in_map, I].
      destruct v; try reflexivity; exfalso; apply N; [left|right; left|right; right; left|right; right; right]; eexists; reflexivity.
    Qed.
    Theorem wrong_items_accept_nothing items h r h' v : call_rule items h = Ok (r, h') -> In v items -> ~ an_item v -> forall toks i j, ~ rule_accepts U set_order c h' r toks i j.
    Proof.
      intros E I N toks i j (ts & _ & M). unfold call_rule in E. assert (K := main_designated (map prepare_production_item items) h). cbn [run_call] in K. rewrite E in K. destruct K as (q & m & E1 & E2 & _).
      apply (sequence_matches U set_order c h' r (map item_term (map prepare_production_item items))) in M; [|exists q, m; auto].
      apply wrong_item_refuses with (1 := I) in N. apply in_split in N as (a & b & N). rewrite N in M. apply in_sequence_app in M as (us & vs & _ & _ & M). inversion M as [|p tl t tt A _|]; subst. discriminate A.
    Qed.
    Theorem wrong_items_find_nothing : set_iteration set_order -> forall rel fuel items h r h' v, built h -> call_rule items h = Ok (r, h') -> (forall u x, In u items -> inside x u -> is_rule_at h x) ->
      In v items -> ~ an_item v -> harmless h' r -> forall text s ms, parser_findall U set_order c rel fuel h' r text = Some (Ok (s, ms)) -> ms = [].
    Proof.
      intros ST rel fuel items h r h' v B E K I N H text s ms F.
      assert (KR : forall x, In x (call_rules (CRule (map prepare_production_item items) : @call predicate pipeline)) -> is_rule_at h x) by (intros x Hx; apply inside_items in Hx as (u & Iu & Nu); apply (K u x Iu Nu)).
      assert (B' : built h'). { replace h' with (after_call (CRule (map prepare_production_item items) : @call predicate pipeline) h) by (unfold after_call; cbn [run_call]; unfold call_rule in E; rewrite E; reflexivity). constructor; [exact B|exact KR]. }
      assert (R : is_rule_at h' r) by (apply (new_rule_ok _ h r h' (built_sound h B) KR E)).
      destruct (text_findall U set_order c ST rel fuel h' r text B' H R s ms F) as (toks & _ & G). destruct ms as [|m ms]; [reflexivity|]. exfalso. destruct (G m (or_introl eq_refl)) as (A & _). apply (wrong_items_accept_nothing items h r h' v E I N _ _ _ A).
    Qed.
  End Wrong.

  (** ** Parser *)
  Section Parsers.
    Variable U : unicode.
    Variable set_order : list str -> list str.
    Variable default : tokenizer * option morph.
    Notation parser_of := (parser_of U set_order default).
    Theorem parsers_need_rules fuel rule tokenizer tagger h x : parser_of fuel rule tokenizer tagger h = Some (Ok x) ->
      a_rule rule /\ (truth tokenizer = false \/ exists t m, tokenizer = VTokenizer t m) /\ (truth tagger = false \/ exists t, tagger = VTagger t).
    Proof.
      unfold ArgModel.parser_of, given_tokenizer, given_tagger. destruct (truth tokenizer), (truth tagger); cbn [bind].
      - destruct tokenizer; try discriminate. destruct tagger; try discriminate. destruct rule; try discriminate; cbn [bind]; [destruct (activate _ p); discriminate|]. intros _. split; [eexists; reflexivity|]. split; right; eexists; try eexists; reflexivity.
      - destruct tokenizer; try discriminate. destruct rule; try discriminate; cbn [bind]; [destruct (activate _ p); discriminate|]. intros _. split; [eexists; reflexivity|]. split; [right; eexists _, _; reflexivity|left; reflexivity].
      - destruct tagger; try discriminate. destruct rule; try discriminate; cbn [bind]; [destruct (activate _ p); discriminate|]. intros _. split; [eexists; reflexivity|]. split; [left; reflexivity|right; eexists; reflexivity].
      - destruct rule; try discriminate; [destruct (activate _ p); discriminate|]. intros _. split; [eexists; reflexivity|]. auto.
    Qed.
    Theorem wrong_parsers_raise fuel rule tokenizer tagger h :
      (truth tokenizer = true -> (forall t m, tokenizer <> VTokenizer t m) -> parser_of fuel rule tokenizer tagger h = Some (Err TypeError)) /\
      (truth tagger = true -> (forall t, tagger <> VTagger t) -> parser_of fuel rule tokenizer tagger h = Some (Err TypeError)) /\
      (forall tok tg, ~ a_rule rule -> given_tokenizer default tokenizer = Ok tok -> given_tagger tagger = Ok tg -> exists e, parser_of fuel rule tokenizer tagger h = Some (Err e) /\ (e = AttributeError \/ exists p, rule = VPred p /\ activate (mkContext (fst tok) (snd tok) (Some tg)) p = Err e)).
    Proof.
      unfold ArgModel.parser_of, given_tokenizer, given_tagger. split; [|split].
      - intros -> N. destruct tokenizer; try reflexivity. destruct (N t m eq_refl).
      - intros T N. rewrite T. destruct (truth tokenizer); [destruct tokenizer; try reflexivity|]; cbn [bind]; destruct tagger; try reflexivity; destruct (N _ eq_refl).
      - intros tok tg NR E1 E2. rewrite E1. cbn [bind]. rewrite E2. cbn [bind]. destruct rule; try (eexists; split; [reflexivity|left; reflexivity]); [|exfalso; apply NR; eexists; reflexivity].
        destruct (activate _ p) as [q|e] eqn:A; [eexists; split; [reflexivity|left; reflexivity]|]. exists e. split; [reflexivity|]. right. exists p. auto.
    Qed.
  End Parsers.
End Args.
