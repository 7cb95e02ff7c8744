(** Theorems about chains of attribute methods and what interpretation() takes. *)
From Coq Require Import String.
From Verif Require Import Base TokenModel PredicateModel PredicateCases InterpModel InterpSpec StepsSpec StepsProofs.
Import String.StringSyntax.
Open Scope nat_scope.

(** ** C95 *)
(** custom can be used once and twice but not three times, and not at all on a repeatable attribute. *)
Theorem attribute_methods_chain_freely_refuted :
  exists a f x, chain_attribute [Custom f; Custom f] (AAttribute a) = Ok x /\ chain_attribute [Custom f; Custom f; Custom f] (AAttribute a) = Err AttributeError /\ chain_attribute [Custom f] (ARepeatable a) = Err AttributeError.
Proof. exact chains_refuted. Qed.
Print Assumptions attribute_methods_chain_freely_refuted.
(** The chains there are, exactly. *)
Theorem attribute_methods_chain_partial :
  forall a steps, (allowed steps -> exists x, chain_attribute steps (AAttribute a) = Ok x /\ base_attr x = a) /\ (~ allowed steps -> chain_attribute steps (AAttribute a) = Err AttributeError).
Proof. exact chain_plain. Qed.
Print Assumptions attribute_methods_chain_partial.
Theorem repeatable_attributes_have_no_methods :
  forall a steps, steps <> [] -> chain_attribute steps (ARepeatable a) = Err AttributeError.
Proof. exact chain_repeatable. Qed.
Print Assumptions repeatable_attributes_have_no_methods.
Example chains_case :
  let year := AAttribute (mkAttr 0 (str_of "year")) in let int_ : function := fun _ => Ok VNone in
  allowed [Morph MNormalized; Custom int_] /\ ~ allowed [Custom int_; Morph MNormalized] /\
  chain_attribute [Morph MNormalized; Custom int_] year = Ok (AMorphFunction (mkAttr 0 (str_of "year")) MNormalized int_) /\ chain_attribute [Custom int_; Morph MNormalized] year = Err AttributeError.
Proof. cbv zeta. split; [constructor|]. split; [intros H; inversion H|]. split; reflexivity. Qed.

(** The value: the first call looks at what the rule found, each further call at the value so far. *)
Theorem attribute_chain_computes_its_value :
  forall schemes subclass U inflect a steps x items key r, Forall proper_item items -> source_of items key r -> chain_attribute steps (AAttribute a) = Ok x ->
  value_of schemes subclass U inflect (attribute_interpretator x) items key = chain_value schemes U inflect steps r.
Proof. exact attribute_chain_value. Qed.
Print Assumptions attribute_chain_computes_its_value.
(** Normalizers have the same chains and give the same values. *)
Theorem normalizers_chain_like_attributes :
  forall s steps, (allowed (s :: steps) -> exists n, chain_normalizer steps (first_normalizer s) = Ok n) /\ (~ allowed (s :: steps) -> chain_normalizer steps (first_normalizer s) = Err AttributeError).
Proof. exact (fun s steps => conj (chain_normalizer_ok s steps) (chain_normalizer_bad s steps)). Qed.
Print Assumptions normalizers_chain_like_attributes.
Theorem normalizer_chain_computes_its_value :
  forall schemes subclass U inflect s steps n items key r, source_of items key r -> chain_normalizer steps (first_normalizer s) = Ok n ->
  value_of schemes subclass U inflect (INorm n) items key = chain_value schemes U inflect (s :: steps) r.
Proof. exact normalizer_chain_value. Qed.
Print Assumptions normalizer_chain_computes_its_value.
(** normalized().custom(shout) on the pipeline key 'abc'; the function sees the key. *)
Example chain_value_case :
  let shout : function := fun v => match v with VStr s => Ok (VStr (s ++ str_of "!")) | _ => Err TypeError end in
  let r := RChain [] (Some (str_of "abc")) in let a := mkAttr 0 (str_of "name") in
  source_of [] (Some (str_of "abc")) r /\
  value_of (fun _ => []) (fun _ _ => true) ASCII (fun _ _ => None) (attribute_interpretator (AMorphFunction a MNormalized shout)) [] (Some (str_of "abc")) = Ok (VStr (str_of "abc!")) /\
  chain_value (fun _ => []) ASCII (fun _ _ => None) [Morph MNormalized; Custom shout] r = Ok (VStr (str_of "abc!")).
Proof. cbv zeta. split; [left; exists []; auto|]. split; vm_compute; reflexivity. Qed.

(** predicate.interpretation takes attributes and normalizers; rule.interpretation also fact classes and interpretators; everything else is a TypeError. *)
Theorem predicate_interpretation_takes :
  forall x, (exists i, token_interpretator x = Ok i) <-> (exists a, x = GAttribute a) \/ (exists n, x = GNormalizer n).
Proof. exact predicate_takes. Qed.
Print Assumptions predicate_interpretation_takes.
Theorem rule_interpretation_takes :
  forall x, (exists i, rule_interpretator x = Ok i) <-> x <> GOther.
Proof. exact rule_takes. Qed.
Print Assumptions rule_interpretation_takes.
Theorem interpretation_of_a_predicate_is_that_of_its_rule :
  forall x, (forall i, token_interpretator x = Ok i -> rule_interpretator x = Ok i) /\ (forall e, token_interpretator x = Err e \/ rule_interpretator x = Err e -> e = TypeError).
Proof. exact takes_same. Qed.
Print Assumptions interpretation_of_a_predicate_is_that_of_its_rule.
Theorem rule_interpretation_means :
  forall sc a n i, rule_interpretator (GFact sc) = Ok (IFact sc) /\ rule_interpretator (GInterpretator i) = Ok i /\ rule_interpretator (GNormalizer n) = Ok (INorm n) /\
  rule_interpretator (GAttribute (AAttribute a)) = Ok (IAttr a) /\ rule_interpretator (GAttribute (ARepeatable a)) = Ok (IAttr a).
Proof. exact rule_takes_what. Qed.
Print Assumptions rule_interpretation_means.
Example interpretation_takes_case : token_interpretator (GFact 0) = Err TypeError /\ rule_interpretator (GFact 0) = Ok (IFact 0) /\ rule_interpretator GOther = Err TypeError.
Proof. repeat split. Qed.
