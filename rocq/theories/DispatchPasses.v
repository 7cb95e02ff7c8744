(** The passes of RuleModel.v do for every object what the method chosen by the visitor does. *)
From Coq Require Import String.
From Verif Require Import Base SpanProofs TokenModel EarleyModel RuleModel DispatchModel DispatchSpec DispatchProofs.
Open Scope nat_scope.

Section Passes.
  Context {pred pipe bnf : Type}.
  Variable bnf_class : bnf -> string.
  Hypothesis bnf_classes : forall b, In (bnf_class b) pipeline_classes.
  Notation obj := (obj pred pipe bnf).
  Notation M := (M pred pipe bnf).
  Notation visitor := (visitor pred pipe bnf).
  Notation class_of := (class_of bnf_class).

  Definition item_classes : list string :=
    ["Rule"; "OrRule"; "OptionalRule"; "RepeatableRule"; "RepeatableOptionalRule"; "MinBoundedRule"; "MaxBoundedRule";
     "MinMaxBoundedRule"; "NamedRule"; "InterpretationRule"; "RelationRule"; "ForwardRule"; "EmptyRule"; "PipelineRule";
     "BNFRule"; "PipelineBNFRule"; "CaselessPipelineBNFRule"; "MorphPipelineBNFRule"; "Production"; "EmptyProduction";
     "PipelineProduction"]%string.
  Lemma class_listed : forall o : obj, In (class_of o) item_classes.
  Proof.
    intros o. destruct o; cbn [DispatchModel.class_of]; try (unfold item_classes; cbn; tauto).
    assert (H := bnf_classes rule). unfold pipeline_classes in H. cbn in H. unfold item_classes. cbn. tauto.
  Qed.

  Lemma for_each_class : forall (f : string -> bool), forallb f item_classes = true -> forall o : obj, f (class_of o) = true.
  Proof. intros f H o. rewrite forallb_forall in H. apply H. apply class_listed. Qed.

  Lemma always_resolved : forall v (o : obj), In v rule_visitors -> exists m, resolve v (class_of o) = Some m.
  Proof.
    intros v o Hv.
    assert (H : forall v, In v rule_visitors ->
      (fun c => match resolve v c with Some _ => true | None => false end) (class_of o) = true).
    { clear v Hv. intros v Hv. apply (for_each_class (fun c => match resolve v c with Some _ => true | None => false end)).
      assert (C : forallb (fun v => forallb (fun c => match resolve v c with Some _ => true | None => false end) item_classes) rule_visitors = true)
        by (vm_compute; reflexivity).
      rewrite forallb_forall in C. apply C. exact Hv. }
    specialize (H v Hv). cbn beta in H. destruct (resolve v (class_of o)) as [m |]; [exists m; reflexivity | discriminate].
  Qed.

  Lemma extended_never : forall o : obj,
    exists owner name, resolve "BNFTransformator" (class_of o) = Some (owner, name) /\ name <> "ExtendedRule"%string.
  Proof.
    intros o.
    pose (f := fun c => match resolve "BNFTransformator" c with
                        | Some (_, name) => negb (String.eqb name "ExtendedRule")
                        | None => false
                        end).
    assert (H : f (class_of o) = true) by (apply for_each_class; vm_compute; reflexivity).
    unfold f in H. destruct (resolve "BNFTransformator" (class_of o)) as [[owner name] |]; [| discriminate].
    exists owner, name. split; [reflexivity |]. intros ->. rewrite String.eqb_refl in H. discriminate.
  Qed.

  (** ** Equality of computations *)
  Definition same {A} (x y : M A) : Prop := forall s, x s = y s.
  Lemma bind_same {A B} (x x' : M A) (f f' : A -> M B) :
    same x x' -> (forall a, same (f a) (f' a)) -> same (bindM x f) (bindM x' f').
  Proof.
    intros Hx Hf s. unfold bindM. rewrite Hx. destruct (x' s) as [[[a s'] | e] |]; try reflexivity. apply Hf.
  Qed.
  Lemma map_same {A B} (f f' : A -> M B) : (forall a, same (f a) (f' a)) -> forall l, same (mapMM f l) (mapMM f' l).
  Proof.
    intros H l. induction l as [| x l IH]; intros s; [reflexivity |]. cbn [mapMM].
    apply bind_same; [apply H |]. intros y. apply bind_same; [exact IH |]. intros ys s'. reflexivity.
  Qed.
  Lemma bind_ret {A B} (x : A) (f : A -> M B) : same (bindM (ret x) f) (f x).
  Proof. intros s. reflexivity. Qed.

  Ltac known_classes :=
    repeat match goal with
    | |- context [resolve ?v ?c] => let r := eval vm_compute in (resolve v c) in change (resolve v c) with r
    | |- context [method_owner ?d ?t ?m ?v ?n] =>
        let r := eval vm_compute in (method_owner d t m v n) in change (method_owner d t m v n) with r
    | |- context [isinstance ?c ?d] => let r := eval vm_compute in (isinstance c d) in change (isinstance c d) with r
    end.

  (** The classes of pipelines are visited as BNF rules. *)
  Lemma pipe_resolve : forall v b, In v rule_visitors -> v <> "RemoveForwardTransformator"%string ->
    resolve v (bnf_class b) = resolve v "BNFRule".
  Proof.
    intros v b Hv Hn. assert (H := bnf_classes b). unfold pipeline_classes in H.
    unfold rule_visitors in Hv. cbn [In] in Hv, H.
    destruct H as [<- | [<- | [<- | []]]]; repeat (destruct Hv as [<- | Hv]; [try (vm_compute; reflexivity); try (exfalso; apply Hn; reflexivity) |]);
      destruct Hv.
  Qed.

  Lemma pipe_instance : forall b d, In d ["RepeatableRule"; "OptionalRule"; "BoundedRule"; "RepeatableOptionalRule"; "ForwardRule"]%string ->
    isinstance (bnf_class b) d = false.
  Proof.
    intros b d Hd. assert (H := bnf_classes b). unfold pipeline_classes in H. cbn [In] in H, Hd.
    destruct H as [<- | [<- | [<- | []]]]; repeat (destruct Hd as [<- | Hd]; [vm_compute; reflexivity |]); destruct Hd.
  Qed.
  Lemma pipe_not_rule : forall b, String.eqb (bnf_class b) "Rule" = false.
  Proof.
    intros b. assert (H := bnf_classes b). unfold pipeline_classes in H. cbn [In] in H.
    destruct H as [<- | [<- | [<- | []]]]; reflexivity.
  Qed.

  Section Methods.
    Variable fuel : nat.
    Variable parents : list nat.
    Variable pipe_bnf : pipe -> res bnf.
    Variable bnf_lines : bnf -> list (str * list pred).
    Notation by_name v := (resolved bnf_class v fuel parents pipe_bnf bnf_lines).

    Ltac choose :=
      match goal with
      | |- context [resolved _ _ _ _ _ _ _ _ (OPipeBNF _ _ _)] =>
          unfold resolved; cbn [DispatchModel.class_of];
          rewrite pipe_resolve by (try discriminate; unfold rule_visitors; cbn [In]; tauto)
      | _ => unfold resolved; cbn [DispatchModel.class_of]
      end;
      known_classes;
      lazy [body_of body_in String.eqb Ascii.eqb Bool.eqb
            bodies_of_RuleTransformator bodies_of_Squash bodies_of_Flatten bodies_of_ReplaceOr bodies_of_ReplaceEmpty
            bodies_of_ReplaceExtended bodies_of_BNF].

    Lemma terms_same : forall v visit_ ts,
      method_owner yargy_depth yargy_classes yargy_methods v "term" = Some "RuleTransformator"%string ->
      same (mapMM (self_visit_term bnf_class v fuel visit_) ts) (mapMM (visit_term visit_) ts).
    Proof.
      intros v visit_ ts E. apply map_same. intros t s. unfold self_visit_term. rewrite E. destruct t; reflexivity.
    Qed.

    Lemma production_same : forall v visit_ p ts main,
      method_owner yargy_depth yargy_classes yargy_methods v "term" = Some "RuleTransformator"%string ->
      same (production_of_RuleTransformator bnf_class v fuel visit_ p (OProd ts main)) (visit_Production visit_ ts main).
    Proof.
      intros v visit_ p ts main E s. unfold production_of_RuleTransformator, visit_Production, attr_terms.
      cbn [production_terms attr_main]. change (bindM (ret ts) ?f s) with (f ts s). cbn beta.
      apply bind_same; [apply terms_same; exact E |]. intros ts' s'. reflexivity.
    Qed.

    Ltac plain := choose; try (apply production_same; reflexivity); intros s; reflexivity.

    Lemma replace_or_chosen : forall visit_ p o,
      same (by_name "ReplaceOrTransformator"%string visit_ p o) (replace_or_method visit_ p o).
    Proof. intros visit_ p o. destruct o; plain. Qed.
    Lemma replace_empty_chosen : forall visit_ p o,
      same (by_name "ReplaceEmptyTransformator"%string visit_ p o) (replace_empty_method visit_ p o).
    Proof. intros visit_ p o. destruct o; plain. Qed.
    Lemma replace_extended_chosen : forall visit_ p o,
      same (by_name "ReplaceExtendedTransformator"%string visit_ p o) (replace_extended_method visit_ p o).
    Proof. intros visit_ p o. destruct o; plain. Qed.

    (** The child of an extended rule decides. *)
    Ltac of_child :=
      choose; intros s; unfold squash_bounded_method, bounded_of_Squash; cbn [attr_rule];
      change (bindM (ret ?r) ?f s) with (f r s); cbn beta; cbn [squash_method];
      apply bind_same; [intros s'; reflexivity |]; intros child; clear s;
      destruct child; unfold isinstance_of; cbn [DispatchModel.class_of existsb];
      rewrite ?pipe_instance by (cbn [In]; tauto); known_classes; intros s;
      cbn [orb]; cbv iota; try reflexivity.

    (** The methods for bounded rules fetch the child twice. *)
    Lemma get_again {A} : forall r (f g : obj -> M A) s,
      (forall child, get r s = Some (Ok (child, s)) -> f child s = g child s) -> bindM (get r) f s = bindM (get r) g s.
    Proof.
      intros r f g s H. unfold bindM. destruct (get r s) as [[[child s'] | e] |] eqn:E; try reflexivity.
      assert (s' = s) by (unfold get in E; destruct (nth_error (st_heap s) r); congruence). subst s'.
      apply H. reflexivity.
    Qed.
    Ltac of_bounded_child :=
      choose; intros s; unfold squash_bounded_method; cbn [attr_rule];
      change (bindM (ret ?r) ?f s) with (f r s); cbn beta; cbn [squash_method];
      apply get_again; intros child G;
      destruct child; unfold isinstance_of; cbn [DispatchModel.class_of existsb];
      rewrite ?pipe_instance by (cbn [In]; tauto); known_classes;
      cbn [orb]; cbv iota; try reflexivity;
      unfold bounded_of_Squash; cbn [attr_rule];
      change (bindM (ret ?r) ?f s) with (f r s); cbn beta;
      unfold bindM at 1; rewrite G; unfold isinstance_of; cbn [DispatchModel.class_of existsb];
      known_classes; reflexivity.

    Lemma squash_chosen : forall visit_ p o,
      same (by_name "SquashExtendedTransformator"%string visit_ p o) (squash_method visit_ p o).
    Proof.
      intros visit_ p o. destruct o; try plain; [of_child | of_child | of_child | of_bounded_child | of_bounded_child | of_bounded_child].
    Qed.

    Lemma flatten_term_same : forall n visit_ t,
      same (term_of_Flatten bnf_class n visit_ t) (flatten_term n visit_ t).
    Proof.
      induction n as [| n IH]; intros visit_ t; [intros s; reflexivity |].
      destruct t as [r | x]; [| intros s; reflexivity]. cbn [term_of_Flatten flatten_term].
      apply bind_same; [intros s; reflexivity |]. intros o s.
      destruct o; cbn [DispatchModel.class_of]; rewrite ?pipe_not_rule; try reflexivity.
      cbn [attr_productions]. change (String.eqb "Rule" "Rule") with true. cbv iota.
      change (bindM (ret ?x) ?f s) with (f x s). cbn beta.
      destruct productions as [| q [| q' ps]]; try reflexivity.
      apply bind_same; [intros s'; reflexivity |]. clear s. intros q' s. unfold attr_terms.
      change (bindM (ret ?x) ?f s) with (f x s). cbn beta.
      destruct (production_terms q') as [| t' [| t'' ts]]; try reflexivity. apply IH.
    Qed.
    Lemma flatten_production_same : forall visit_ p ts main,
      same (production_of_RuleTransformator bnf_class "FlattenTransformator" fuel visit_ p (OProd ts main))
           (bindM (mapMM (flatten_term fuel visit_) ts) (fun ts' => alloc (OProd ts' main))).
    Proof.
      intros visit_ p ts main s. unfold production_of_RuleTransformator, attr_terms. cbn [production_terms attr_main].
      change (bindM (ret ts) ?f s) with (f ts s). cbn beta.
      apply bind_same; [| intros ts' s'; reflexivity]. apply map_same. intros t. apply flatten_term_same.
    Qed.
    Lemma flatten_chosen : forall visit_ p o,
      same (by_name "FlattenTransformator"%string visit_ p o) (flatten_method fuel visit_ p o).
    Proof.
      intros visit_ p o. destruct o; try plain. choose. intros s. unfold attr_terms. cbn [production_terms flatten_method].
      change (bindM (ret ?x) ?f s) with (f x s). cbn beta.
      destruct terms as [| [r | x] [| t ts]]; try apply flatten_production_same.
      apply bind_same; [intros s'; reflexivity |]. clear s. intros o s.
      destruct o; cbn [DispatchModel.class_of]; rewrite ?pipe_not_rule;
        cbn [String.eqb Ascii.eqb Bool.eqb]; cbv iota; try apply flatten_production_same.
      cbn [attr_productions]. change (bindM (ret ?x) ?f s) with (f x s). cbn beta.
      destruct productions as [| q [| q' ps]]; try apply flatten_production_same. reflexivity.
    Qed.

    Lemma wrapper_same : forall visit_ p o r, attr_rule o = ret r ->
      same (wrapper_of_BNF bnf_class parents visit_ p o) (visit_WrapperRule parents visit_ r).
    Proof.
      intros visit_ p o r E s. unfold wrapper_of_BNF, visit_WrapperRule. rewrite E.
      change (bindM (ret ?x) ?f s) with (f x s). cbn beta.
      apply bind_same; [intros s'; reflexivity |]. clear s. intros o' s. unfold isinstance_of. cbn [existsb].
      destruct o'; cbn [DispatchModel.class_of]; rewrite ?pipe_instance by (cbn [In]; tauto); known_classes;
        cbn [orb is_forward]; cbv iota; reflexivity.
    Qed.
    Lemma bnf_chosen : forall visit_ p o,
      same (by_name "BNFTransformator"%string visit_ p o) (bnf_method pipe_bnf bnf_lines parents visit_ p o).
    Proof.
      intros visit_ p o. destruct o; try plain; choose.
      1-3: intros s; cbn [attr_name attr_interpretator attr_relation bnf_method];
        change (bindM (ret ?x) ?f s) with (f x s); cbn beta;
        apply bind_same; [apply wrapper_same; reflexivity | intros r s'; reflexivity].
      intros s. cbn [attr_pipeline bnf_method]. change (bindM (ret ?x) ?f s) with (f x s). cbn beta.
      destruct (pipe_bnf pipeline) as [b | e]; reflexivity.
    Qed.
  End Methods.

  (** ** Whole passes *)
  Definition respects (m : visitor -> nat -> obj -> M nat) : Prop :=
    forall v v', (forall p, same (v p) (v' p)) -> forall p o, same (m v p o) (m v' p o).

  Lemma visit_same : forall m m', respects m' -> (forall v p o, same (m v p o) (m' v p o)) ->
    forall n p, same (visit m n p) (visit m' n p).
  Proof.
    intros m m' R H. induction n as [| n IH]; intros p; [intros s; reflexivity |]. cbn [visit].
    apply bind_same; [intros s; reflexivity |]. intros [r |]; [intros s; reflexivity |].
    apply bind_same; [intros s; reflexivity |]. intros o.
    apply bind_same; [| intros r s; reflexivity]. intros s. rewrite H. apply R. exact IH.
  Qed.
  Lemma walk_same : forall act act', (forall p, same (act p) (act' p)) -> forall n queue visited,
    same (walk_loop n act queue visited) (walk_loop n act' queue visited).
  Proof.
    intros act act' H. induction n as [| n IH]; intros queue visited; destruct queue as [| x queue]; cbn [walk_loop];
      try (intros s; reflexivity).
    apply bind_same; [apply H |]. intros u. apply bind_same; [intros s; reflexivity |]. intros o.
    destruct (enqueue (children o) queue visited). apply IH.
  Qed.
  Lemma run_visit_same : forall m m', respects m' -> (forall v p o, same (m v p o) (m' v p o)) ->
    forall n h root, run_visit m n h root = run_visit m' n h root.
  Proof.
    intros m m' R H n h root. unfold run_visit, transform_walk.
    replace (bindM (walk n (define_visited m n) root) (fun _ => visit m n root) (mkState h []))
      with (bindM (walk n (define_visited m' n) root) (fun _ => visit m' n root) (mkState h [])); [reflexivity |].
    symmetry. apply bind_same; [| intros u; apply visit_same; assumption].
    unfold walk. apply walk_same. intros p. unfold define_visited. apply bind_same; [intros s; reflexivity |].
    intros o. destruct o; try (intros s; reflexivity). destruct rule; [| intros s; reflexivity].
    apply bind_same; [apply visit_same; assumption | intros r' s; reflexivity].
  Qed.

  Ltac respect Hv :=
    repeat first
      [ apply Hv
      | solve [intros ?s; reflexivity]
      | apply bind_same; [| intros ?a]
      | apply map_same; intros ?a
      | match goal with |- same (match ?x with _ => _ end) _ => destruct x end ].

  Lemma base_respects : respects base_method.
  Proof.
    intros v v' Hv p o. destruct o; cbn [base_method]; unfold visit_Rule, visit_Production, visit_term; respect Hv.
  Qed.
  Lemma squash_respects : respects squash_method.
  Proof.
    intros v v' Hv p o. destruct o; cbn [squash_method]; try (apply base_respects; exact Hv);
      unfold squash_bounded, visit_new; respect Hv.
  Qed.
  Lemma replace_extended_respects : respects replace_extended_method.
  Proof.
    intros v v' Hv p o. destruct o; cbn [replace_extended_method]; try (apply base_respects; exact Hv); respect Hv.
  Qed.
  Lemma replace_or_respects : respects replace_or_method.
  Proof.
    intros v v' Hv p o. destruct o; cbn [replace_or_method]; try (apply base_respects; exact Hv); respect Hv.
  Qed.
  Lemma replace_empty_respects : respects replace_empty_method.
  Proof.
    intros v v' Hv p o. destruct o; cbn [replace_empty_method]; try (apply base_respects; exact Hv); respect Hv.
  Qed.
  Lemma flatten_term_respects : forall v v', (forall p, same (v p) (v' p)) -> forall n t, same (flatten_term n v t) (flatten_term n v' t).
  Proof.
    intros v v' Hv. induction n as [| n IH]; intros t; [intros s; reflexivity |]. cbn [flatten_term]. unfold visit_term.
    respect Hv; apply IH.
  Qed.
  Lemma flatten_respects : forall n, respects (flatten_method n).
  Proof.
    intros n v v' Hv p o. destruct o; cbn [flatten_method]; try (apply base_respects; exact Hv).
    pose proof (flatten_term_respects v v' Hv n). respect Hv; auto.
  Qed.
  Lemma bnf_respects : forall pipe_bnf bnf_lines parents, respects (bnf_method pipe_bnf bnf_lines parents).
  Proof.
    intros pipe_bnf bnf_lines parents v v' Hv p o. destruct o; cbn [bnf_method]; try (apply base_respects; exact Hv);
      unfold visit_WrapperRule; respect Hv.
  Qed.

  (** ** Passes that change the objects *)
  Variable pipe_bnf : pipe -> res bnf.
  Variable bnf_lines : bnf -> list (str * list pred).
  Variable activate_pred : pred -> res pred.
  Variable activate_pipe : pipe -> res pipe.
  Notation act_by_name v := (resolved_inplace bnf_class v activate_pred activate_pipe).

  Ltac choose_inplace :=
    cbn [DispatchModel.class_of];
    rewrite ?pipe_resolve by (try discriminate; unfold rule_visitors; cbn [In]; tauto);
    known_classes;
    lazy [inplace_bodies inplace_in String.eqb Ascii.eqb Bool.eqb].

  Lemma activate_chosen : forall p, same (act_by_name "ActivateTransformator"%string p) (activate_visit activate_pred activate_pipe p).
  Proof.
    intros p. unfold resolved_inplace, activate_visit. apply bind_same; [intros s; reflexivity |].
    intros o. destruct o; choose_inplace; try (intros s; reflexivity).
    intros s. unfold attr_terms. cbn [production_terms set_terms]. change (bindM (ret ?x) ?f s) with (f x s). cbn beta.
    apply bind_same; [| intros ts' s'; reflexivity]. apply map_same. intros t s'. unfold inplace_term. known_classes.
    destruct t; reflexivity.
  Qed.

  Lemma setitem_noop {A} : forall (l : list A) i x, nth_error l i = Some x -> setitem l i x = l.
  Proof.
    induction l as [| y l IH]; intros [| i] x E; cbn in *; try discriminate.
    - injection E as ->. reflexivity.
    - f_equal. apply IH. exact E.
  Qed.

  Lemma forward_term_same : forall t, same (inplace_term bnf_class "RemoveForwardTransformator" activate_pred t)
    (match t with
     | TRule r =>
         bindM (get r) (fun o' => match o' with
                                  | OForward None => raise TypeError
                                  | OForward (Some r') => ret (TRule r')
                                  | _ => ret (TRule r)
                                  end)
     | TPred p => ret (TPred p)
     end).
  Proof.
    intros t s. unfold inplace_term. known_classes. lazy [String.eqb Ascii.eqb Bool.eqb].
    destruct t as [r | x]; [| reflexivity]. apply get_again. intros o G.
    unfold isinstance_of. cbn [existsb].
    destruct o; cbn [DispatchModel.class_of]; rewrite ?pipe_instance by (cbn [In]; tauto); known_classes; cbn [orb]; cbv iota;
      try reflexivity.
    unfold forward_of_RemoveForward. unfold bindM. rewrite G. destruct rule; reflexivity.
  Qed.

  Lemma pointers_rules : forall ps : list nat, pointers (pred := pred) (map TRule ps) = ps.
  Proof. induction ps as [| p ps IH]; [reflexivity |]. cbn. f_equal. exact IH. Qed.

  Lemma productions_stay : forall ps (s : state pred pipe bnf),
    (forall q, In q ps -> exists o, nth_error (st_heap s) q = Some o /\ is_forward o = false) ->
    mapMM (inplace_term bnf_class "RemoveForwardTransformator" activate_pred) (map TRule ps) s = Some (Ok (map TRule ps, s)).
  Proof.
    induction ps as [| q ps IH]; intros s H; [reflexivity |]. cbn [map mapMM]. unfold bindM at 1. rewrite forward_term_same.
    destruct (H q (or_introl eq_refl)) as (o & E & F). unfold bindM at 1. unfold get. rewrite E.
    assert (N : match o with OForward None => raise TypeError | OForward (Some r') => ret (TRule r') | _ => ret (TRule q) end s
                = Some (Ok (TRule (pred := pred) q, s))) by (destruct o; try discriminate F; reflexivity).
    rewrite N. unfold bindM. rewrite IH; [reflexivity |]. intros q' Hq. apply H. right. exact Hq.
  Qed.

  Lemma remove_forward_chosen : forall p (s : state pred pipe bnf), holds_productions (st_heap s) ->
    act_by_name "RemoveForwardTransformator"%string p s = remove_forward_visit p s.
  Proof.
    intros p s H. unfold resolved_inplace, remove_forward_visit. apply get_again. intros o G.
    assert (E : nth_error (st_heap s) p = Some o)
      by (unfold get in G; destruct (nth_error (st_heap s) p); [injection G as ->; reflexivity | discriminate]).
    destruct o; try (choose_inplace; reflexivity).
    - choose_inplace. unfold forward_of_RemoveForward. unfold bindM. rewrite G. destruct rule; reflexivity.
    - choose_inplace. cbn [attr_productions]. change (bindM (ret ?x) ?f s) with (f x s). cbn beta.
      unfold bindM at 1. rewrite productions_stay; [| intros q Hq; eapply H; eassumption].
      rewrite pointers_rules. cbn [set_productions]. unfold bindM, put, ret. cbn.
      rewrite setitem_noop by exact E. destruct s; reflexivity.
    - cbn [DispatchModel.class_of]. assert (K := bnf_classes rule). unfold pipeline_classes in K. cbn [In] in K.
      destruct K as [<- | [<- | [<- | []]]]; known_classes; lazy [inplace_bodies inplace_in String.eqb Ascii.eqb Bool.eqb]; reflexivity.
    - choose_inplace. unfold attr_terms. cbn [production_terms set_terms]. change (bindM (ret ?x) ?f s) with (f x s). cbn beta.
      apply bind_same; [| intros ts' s'; reflexivity]. apply map_same. apply forward_term_same.
  Qed.

  Lemma remove_forward_keeps : forall p (s s' : state pred pipe bnf) r, holds_productions (st_heap s) ->
    remove_forward_visit p s = Some (Ok (r, s')) -> holds_productions (st_heap s').
  Proof.
    intros p s s' r H E. unfold remove_forward_visit in E. unfold bindM at 1 in E.
    destruct (get p s) as [[[o s0] | e] |] eqn:G; try discriminate.
    unfold get in G. destruct (nth_error (st_heap s) p) as [o' |] eqn:Ep; [| discriminate]. injection G as -> <-.
    destruct o; try (injection E as _ <-; exact H).
    { destruct rule; [injection E as _ <-; exact H | discriminate]. }
    unfold bindM at 1 in E.
    match type of E with match mapMM ?f _ _ with _ => _ end = _ =>
      assert (K : forall ts s1 ts' s2, mapMM f ts s1 = Some (Ok (ts', s2)) -> s2 = s1) end.
    { induction ts as [| t ts IH]; intros s1 ts' s2 K; [injection K as _ <-; reflexivity |].
      cbn [mapMM] in K. unfold bindM at 1 in K.
      match type of K with match ?x with _ => _ end = _ => destruct x as [[[t' s3] | e] |] eqn:Et; try discriminate end.
      unfold bindM at 1 in K.
      match type of K with match ?x with _ => _ end = _ => destruct x as [[[ts3 s4] | e] |] eqn:Ets; try discriminate end.
      injection K as _ <-. apply IH in Ets. subst s4.
      destruct t as [q | x]; [| injection Et as _ <-; reflexivity]. unfold bindM, get in Et.
      destruct (nth_error (st_heap s1) q) as [oq |]; [| discriminate].
      destruct oq; try (injection Et as _ <-; reflexivity). destruct rule; [injection Et as _ <-; reflexivity | discriminate]. }
    match type of E with match ?x with _ => _ end = _ => destruct x as [[[ts' s1] | e] |] eqn:Em; try discriminate end.
    apply K in Em. subst s1. injection E as _ <-. cbn [st_heap].
    intros p' ps a q Ep' Hq.
    assert (Lp : p < List.length (st_heap s)) by (apply nth_error_Some; congruence).
    assert (Q : p' <> p).
    { intros ->. rewrite SpanProofs.setitem_same in Ep' by exact Lp. discriminate. }
    rewrite SpanProofs.setitem_other in Ep' by auto.
    destruct (H _ _ _ _ Ep' Hq) as (oq & Eq & Fq).
    destruct (Nat.eq_dec q p) as [-> | Nq].
    - exists (OProd ts' main). split; [apply SpanProofs.setitem_same; exact Lp | reflexivity].
    - exists oq. split; [rewrite SpanProofs.setitem_other by auto; exact Eq | exact Fq].
  Qed.

  Lemma walk_same_under : forall (Inv : state pred pipe bnf -> Prop) act act',
    (forall p s, Inv s -> act p s = act' p s) -> (forall p s u s', Inv s -> act' p s = Some (Ok (u, s')) -> Inv s') ->
    forall n queue visited s, Inv s ->
      walk_loop n act queue visited s = walk_loop n act' queue visited s /\
      (forall u s', walk_loop n act' queue visited s = Some (Ok (u, s')) -> Inv s').
  Proof.
    intros Inv act act' H K. induction n as [| n IH]; intros queue visited s Is; destruct queue as [| x queue]; cbn [walk_loop];
      try (split; [reflexivity | intros u s' E; try discriminate; injection E as _ <-; exact Is]).
    unfold bindM. rewrite (H _ _ Is). destruct (act' x s) as [[[u s1] | e] |] eqn:E1;
      try (split; [reflexivity | intros; discriminate]).
    assert (I1 := K _ _ _ _ Is E1). unfold get. destruct (nth_error (st_heap s1) x) as [o |];
      try (split; [reflexivity | intros; discriminate]).
    destruct (enqueue (children o) queue visited) as [q' v']. apply IH. exact I1.
  Qed.

  Lemma run_inplace_same : forall (Inv : state pred pipe bnf -> Prop) act act',
    (forall p s, Inv s -> act p s = act' p s) -> (forall p s u s', Inv s -> act' p s = Some (Ok (u, s')) -> Inv s') ->
    forall n h root, Inv (mkState h []) -> run_inplace act n h root = run_inplace act' n h root.
  Proof.
    intros Inv act act' H K n h root Is. unfold run_inplace, transform_inplace, walk.
    assert (W := walk_same_under Inv (fun p => bindM (act p) (fun _ => ret tt)) (fun p => bindM (act' p) (fun _ => ret tt))).
    destruct (W) with (n := n) (queue := [root]) (visited := [root]) (s := mkState h []) as [W1 W2]; clear W.
    - intros p s I0. unfold bindM. rewrite (H _ _ I0). reflexivity.
    - intros p s u s' I0 E. unfold bindM in E. destruct (act' p s) as [[[r s1] | e] |] eqn:E1; try discriminate.
      injection E as _ <-. eapply K; eassumption.
    - exact Is.
    - unfold bindM at 1 3. rewrite W1.
      destruct (walk_loop n (fun p => bindM (act' p) (fun _ => ret tt)) [root] [root] (mkState h [])) as [[[u s1] | e] |] eqn:E;
        try reflexivity.
      rewrite (H _ _ (W2 _ _ eq_refl)). reflexivity.
  Qed.

  Notation composed := (composition bnf_class pipe_bnf bnf_lines activate_pred activate_pipe).

  Lemma then_ok {A} (x : option (res A)) : then_ x (fun r => Some (Ok r)) = x.
  Proof. destruct x as [[a | e] |]; reflexivity. Qed.
  Lemma then_same {A B} (x x' : option (res A)) (f f' : A -> option (res B)) :
    x = x' -> (forall a, f a = f' a) -> then_ x f = then_ x' f'.
  Proof. intros -> H. destruct x' as [[a | e] |]; cbn; [apply H | reflexivity | reflexivity]. Qed.

  Ltac known_calls :=
    unfold composition, call; known_classes; cbv iota.

  Lemma normalized_passes_same : forall fuel h root, composed normalized_passes fuel h root = normalized fuel h root.
  Proof.
    intros fuel h root. unfold normalized_passes, normalized. known_calls.
    apply then_same; [apply run_visit_same; [apply squash_respects | apply squash_chosen] |]. intros [r1 h1].
    apply then_same; [apply run_visit_same; [apply replace_extended_respects | apply replace_extended_chosen] |]. intros [r2 h2].
    apply then_same; [apply run_visit_same; [apply replace_or_respects | apply replace_or_chosen] |]. intros [r3 h3].
    apply then_same; [apply run_visit_same; [apply replace_empty_respects | apply replace_empty_chosen] |]. intros [r4 h4].
    etransitivity; [| apply then_ok].
    apply then_same; [apply run_visit_same; [apply flatten_respects | apply flatten_chosen] | intros [r5 h5]; reflexivity].
  Qed.
  Lemma bnf_passes_same : forall fuel h root, composed bnf_passes fuel h root = to_bnf pipe_bnf bnf_lines fuel h root.
  Proof.
    intros fuel h root. unfold bnf_passes, to_bnf. known_calls. etransitivity; [| apply then_ok].
    apply then_same; [| intros [r5 h5]; reflexivity]. destruct (bfs fuel h root) as [objects |]; [| reflexivity].
    apply run_visit_same; [apply bnf_respects | apply bnf_chosen].
  Qed.
  Lemma activate_passes_same : forall fuel h root,
    composed activate_passes fuel h root = run_inplace (activate_visit activate_pred activate_pipe) fuel h root.
  Proof.
    intros fuel h root. unfold activate_passes. known_calls. etransitivity; [| apply then_ok].
    apply then_same; [| intros [r5 h5]; reflexivity].
    apply (run_inplace_same (fun _ => True)); [intros p s _; apply activate_chosen | auto | exact Logic.I].
  Qed.
  Lemma remove_forward_passes_same : forall fuel h root, holds_productions h ->
    composed remove_forward_passes fuel h root = run_inplace remove_forward_visit fuel h root.
  Proof.
    intros fuel h root H. unfold remove_forward_passes. known_calls. etransitivity; [| apply then_ok].
    apply then_same; [| intros [r5 h5]; reflexivity].
    apply (run_inplace_same (fun s => holds_productions (st_heap s))); [apply remove_forward_chosen | | exact H].
    intros p s u s' Hs E. eapply remove_forward_keeps; eassumption.
  Qed.
End Passes.
