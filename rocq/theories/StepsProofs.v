(** Chains of the methods of attributes and normalizers. *)
From Verif Require Import Base TokenModel PredicateModel InterpModel InterpSpec InterpMatch StepsSpec.
Open Scope nat_scope.

Lemma chain_plain a steps : (allowed steps -> exists x, chain_attribute steps (AAttribute a) = Ok x /\ base_attr x = a) /\ (~ allowed steps -> chain_attribute steps (AAttribute a) = Err AttributeError).
Proof.
  split.
  - intros A. destruct A; eexists; split; reflexivity.
  - intros N. destruct steps as [|[m|v|f] steps]; [exfalso; apply N; constructor| | |].
    + destruct steps as [|[m'|v'|f'] steps]; [exfalso; apply N; constructor|reflexivity|reflexivity|]. destruct steps as [|[?|?|?] steps]; [exfalso; apply N; constructor|reflexivity|reflexivity|reflexivity].
    + destruct steps as [|[m'|v'|f'] steps]; [exfalso; apply N; constructor|reflexivity|reflexivity|reflexivity].
    + destruct steps as [|[m'|v'|f'] steps]; [exfalso; apply N; constructor|reflexivity|reflexivity|]. destruct steps as [|[?|?|?] steps]; [exfalso; apply N; constructor|reflexivity|reflexivity|reflexivity].
Qed.
Lemma chain_repeatable a steps : steps <> [] -> chain_attribute steps (ARepeatable a) = Err AttributeError.
Proof. destruct steps as [|[m|v|f] steps]; [congruence|reflexivity|reflexivity|reflexivity]. Qed.
Lemma chains_refuted : exists a f x, chain_attribute [Custom f; Custom f] (AAttribute a) = Ok x /\ chain_attribute [Custom f; Custom f; Custom f] (AAttribute a) = Err AttributeError /\ chain_attribute [Custom f] (ARepeatable a) = Err AttributeError.
Proof. exists (mkAttr 0 []), (fun v => Ok v). eexists. repeat split. Qed.

Section Values.
  Variable schemes : nat -> scheme.
  Variable subclass : nat -> nat -> bool.
  Variable U : unicode.
  Variable inflect : nat -> list str -> option str.
  Notation value_of := (value_of schemes subclass U inflect).
  Lemma chain_normalizer_ok s steps : allowed (s :: steps) -> exists n, chain_normalizer steps (first_normalizer s) = Ok n.
  Proof. intros A. inversion A; subst; eexists; reflexivity. Qed.
  Lemma chain_normalizer_bad s steps : ~ allowed (s :: steps) -> chain_normalizer steps (first_normalizer s) = Err AttributeError.
  Proof.
    intros N. destruct s as [m|v|f]; destruct steps as [|[m'|v'|f'] steps]; try reflexivity; try (exfalso; apply N; constructor).
    - destruct steps as [|[?|?|?] steps]; [exfalso; apply N; constructor|reflexivity|reflexivity|reflexivity].
    - destruct steps as [|[?|?|?] steps]; [exfalso; apply N; constructor|reflexivity|reflexivity|reflexivity].
  Qed.
  Lemma chain_same s steps a x n : chain_attribute (s :: steps) (AAttribute a) = Ok x -> chain_normalizer steps (first_normalizer s) = Ok n -> attribute_interpretator x = IAttrNorm a n.
  Proof.
    destruct s as [m|v|f]; cbn; (destruct steps as [|[m'|v'|f'] steps]; cbn; [intros E1 E2; injection E1 as <-; injection E2 as <-; reflexivity| try discriminate..]).
    all: destruct steps as [|[?|?|?] steps]; cbn; [intros E1 E2; injection E1 as <-; injection E2 as <-; reflexivity|discriminate..].
  Qed.
  Lemma bind_ret {A} (x : res A) : (let! w := x in Ok w) = x. Proof. destruct x; reflexivity. Qed.
  Lemma all_tokens_map ts : all_tokens (map IToken ts) = Some ts.
  Proof. induction ts as [|t ts IH]; [reflexivity|]. cbn. rewrite IH. reflexivity. Qed.
  Lemma normalizer_chain_value s steps n items key r : source_of items key r -> chain_normalizer steps (first_normalizer s) = Ok n -> value_of (INorm n) items key = chain_value schemes U inflect (s :: steps) r.
  Proof.
    intros S E. unfold InterpSpec.value_of, call_interpretator, call_norm, chain_value.
    destruct s as [m|v|f]; cbn in E; destruct steps as [|[m'|v'|f'] steps]; cbn in E; try discriminate.
    all: try (destruct steps as [|[?|?|?] steps]; cbn in E; try discriminate).
    all: injection E as <-; cbn [first_value then_customs].
    all: destruct S as [(ts & -> & ->)| ->]; try rewrite all_tokens_map; cbn [all_tokens call_normalizer].
    all: repeat match goal with |- context [call_morph U inflect ?m ?x] => destruct (call_morph U inflect m x) as [?|?]; cbn end.
    all: try reflexivity.
    all: repeat match goal with |- context [normalized_result schemes ?x] => is_var x; destruct (normalized_result schemes x) as [?|?]; cbn end; try reflexivity.
    all: repeat match goal with |- context [?g ?w] => match type of (g w) with res pyval => is_var g; destruct (g w) as [?|?]; cbn end end; try reflexivity.
    all: destruct (normalized_result schemes (RChain ts key)) as [w|]; cbn; [|reflexivity]; destruct (f w) as [w'|]; cbn; try reflexivity; destruct (f' w') as [?|]; reflexivity.
  Qed.
  Lemma attribute_chain_value a steps x items key r : Forall proper_item items -> source_of items key r -> chain_attribute steps (AAttribute a) = Ok x -> value_of (attribute_interpretator x) items key = chain_value schemes U inflect steps r.
  Proof.
    intros F S E. destruct steps as [|s steps].
    - injection E as <-. cbn [attribute_interpretator chain_value]. unfold InterpSpec.value_of, call_interpretator, call_attribute. destruct S as [(ts & -> & ->)| ->]; [rewrite all_tokens_map; reflexivity|].
      cbn. inversion F as [|? ? P _]; subst. destruct r; cbn in *; try reflexivity; try contradiction.
    - assert (A : exists n, chain_normalizer steps (first_normalizer s) = Ok n).
      { destruct s as [m|v|f]; destruct steps as [|[m'|v'|f'] steps]; try (eexists; reflexivity); try discriminate E; destruct steps as [|[?|?|?] steps]; try (eexists; reflexivity); discriminate E. }
      destruct A as (n & En). rewrite (chain_same s steps a x n E En). rewrite <- (normalizer_chain_value s steps n items key r S En).
      unfold InterpSpec.value_of, call_interpretator. destruct (call_norm schemes U inflect n items key) as [y|]; reflexivity.
  Qed.
End Values.
(** ** What interpretation() takes *)
Lemma predicate_takes x : (exists i, token_interpretator x = Ok i) <-> (exists a, x = GAttribute a) \/ (exists n, x = GNormalizer n).
Proof. destruct x; cbn; split; intros H; try (destruct H as (? & H); discriminate); try (destruct H as [(? & H)|(? & H)]; discriminate); eauto. Qed.
Lemma rule_takes x : (exists i, rule_interpretator x = Ok i) <-> x <> GOther.
Proof. destruct x; cbn; split; intros H; try congruence; try (eexists; reflexivity). destruct H as (? & H). discriminate. Qed.
Lemma takes_same x : (forall i, token_interpretator x = Ok i -> rule_interpretator x = Ok i) /\ (forall e, token_interpretator x = Err e \/ rule_interpretator x = Err e -> e = TypeError).
Proof. destruct x; cbn; (split; [intros i0 E; congruence|intros e0 [E|E]; congruence]). Qed.
Lemma rule_takes_what sc a n i : rule_interpretator (GFact sc) = Ok (IFact sc) /\ rule_interpretator (GInterpretator i) = Ok i /\ rule_interpretator (GNormalizer n) = Ok (INorm n) /\ rule_interpretator (GAttribute (AAttribute a)) = Ok (IAttr a) /\ rule_interpretator (GAttribute (ARepeatable a)) = Ok (IAttr a).
Proof. repeat split. Qed.
