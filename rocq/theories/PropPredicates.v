(** Properties of predicates and of their activation (C28 for predicates, C53, C54). *)
From Coq Require String.
From Verif Require Import Base TokenModel RelationModel TokenizerModel TaggerModel EarleyModel EarleySpec TreeSpec ParserModel
  RelationSpec ParserSpec PredicateModel PredicateSpec PredicateProofs PredicateCases.

(** ** C53 *)
Theorem predicates_mean_what_they_say :
  forall U p t, plain p -> returns p -> usual_token U t ->
  (call U p t = Ok true <-> says U p t) /\ (call U p t = Ok false <-> ~ says U p t).
Proof. exact call_says. Qed.
Print Assumptions predicates_mean_what_they_say.
Theorem caseless_compares_lowered :
  forall U v t, call U (caseless U v) t = Ok true <-> u_lower U (t_value t) = u_lower U v.
Proof. exact caseless_says. Qed.
Print Assumptions caseless_compares_lowered.
Theorem in_caseless_compares_lowered :
  forall U vs t, call U (in_caseless U vs) t = Ok true <->
  exists v, In v vs /\ u_lower U v = u_lower U (t_value t).
Proof. exact in_caseless_says. Qed.
Print Assumptions in_caseless_compares_lowered.
Theorem dictionary_shares_a_normal_form :
  forall U c m words p t, c_morph c = Some m -> activate c (SDictionary words) = Ok p ->
  (call U p t = Ok true <-> exists w, In w words /\ shares_normal U m w t).
Proof. exact dictionary_meaning. Qed.
Print Assumptions dictionary_shares_a_normal_form.
Theorem normalized_shares_a_normal_form :
  forall U c m word p t, c_morph c = Some m -> activate c (SNormalized word) = Ok p ->
  (call U p t = Ok true <-> shares_normal U m word t).
Proof. exact normalized_meaning. Qed.
Print Assumptions normalized_shares_a_normal_form.

Example predicates_case :
  plain nested_activated /\ returns nested_activated /\ usual_token ASCII steel /\ usual_token ASCII twelve /\
  call ASCII nested_activated steel = Ok true /\ call ASCII nested_activated twelve = Ok false /\
  call ASCII (PAnd [PGte 12; PNot (PLte 11)]) twelve = Ok true /\ call ASCII (PGte 0) steel = Ok false /\
  call ASCII (caseless ASCII (str_of "STEELS")) steel = Ok true.
Proof.
  split; [cbn; tauto|]. split; [cbn; tauto|]. split; [split; [discriminate|intros H; discriminate H]|].
  split; [split; [discriminate|intros _; eexists; reflexivity]|]. repeat split.
Qed.

(** ** C54 *)
Theorem gram_keeps_exactly_its_forms :
  forall U g t, call U (PGram g) t = Ok true ->
  exists fs, t_forms t = Some fs /\
  constrain (PGram g) t = Ok (mkToken (t_value t) (t_start t) (t_stop t) (t_type t) (t_tag t)
                                (Some (filter (fun f => str_in g (f_grams f)) fs))) /\
  filter (fun f => str_in g (f_grams f)) fs <> [].
Proof. exact gram_narrows. Qed.
Print Assumptions gram_keeps_exactly_its_forms.
Theorem is_single_keeps_exactly_its_forms :
  forall U t, call U PIsSingle t = Ok true ->
  exists fs, t_forms t = Some fs /\
  constrain PIsSingle t = Ok (mkToken (t_value t) (t_start t) (t_stop t) (t_type t) (t_tag t)
                                (Some (filter is_single fs))) /\
  filter is_single fs <> [].
Proof. exact single_narrows. Qed.
Print Assumptions is_single_keeps_exactly_its_forms.
Theorem other_predicates_keep_the_token :
  forall p t, (forall g, p <> PGram g) -> p <> PIsSingle -> constrain p t = Ok t.
Proof. exact others_keep. Qed.
Print Assumptions other_predicates_keep_the_token.
(** Every leaf of every tree of the parser carries the narrowed token. *)
Theorem leaf_of_gram_carries_its_forms :
  forall U (gr : grammar token predicate) fuel toks all trees n i j pos g tk,
  predict_sound gr -> parse (accepts U) narrow gr fuel toks all = Some trees -> In (n, (i, j)) trees ->
  In (pos, PGram g, tk) (placed_leaves n) ->
  exists t fs, nth_error toks pos = Some t /\ t_forms t = Some fs /\ same_text tk t /\
    t_forms tk = Some (filter (fun f => str_in g (f_grams f)) fs) /\ filter (fun f => str_in g (f_grams f)) fs <> [].
Proof. exact parsed_gram. Qed.
Print Assumptions leaf_of_gram_carries_its_forms.
Theorem leaf_of_is_single_carries_its_forms :
  forall U (gr : grammar token predicate) fuel toks all trees n i j pos tk,
  predict_sound gr -> parse (accepts U) narrow gr fuel toks all = Some trees -> In (n, (i, j)) trees ->
  In (pos, PIsSingle, tk) (placed_leaves n) ->
  exists t fs, nth_error toks pos = Some t /\ t_forms t = Some fs /\ same_text tk t /\
    t_forms tk = Some (filter is_single fs) /\ filter is_single fs <> [].
Proof. exact parsed_single. Qed.
Print Assumptions leaf_of_is_single_carries_its_forms.
(** The hypothesis of the theorems about the tokens of matches (C14) holds of all
    predicates of the bank, and [constrain] never raises on an accepted token. *)
Theorem bank_predicates_only_drop_forms : forall U, predicates_narrow (accepts U) narrow.
Proof. exact bank_narrow. Qed.
Print Assumptions bank_predicates_only_drop_forms.
Theorem constrain_returns_on_accepted_tokens :
  forall U p t, accepts U p t = true -> constrain p t = Ok (narrow p t).
Proof. exact accepted_constrain. Qed.
Print Assumptions constrain_returns_on_accepted_tokens.
(** and_ (likewise or_) of a gram predicate does not narrow. *)
Theorem composition_narrows_refuted :
  exists U p g t t', p = PAnd [PGram g; PNot (PType LATIN)] /\ call U p t = Ok true /\ constrain p t = Ok t' /\
  exists fs f, t_forms t' = Some fs /\ In f fs /\ ~ In g (f_grams f).
Proof. exact composition_refutes. Qed.
Print Assumptions composition_narrows_refuted.

Example narrowing_case :
  call ASCII (PGram (str_of "VERB")) steel = Ok true /\
  constrain (PGram (str_of "VERB")) steel = Ok (mkToken (str_of "steels") 0 6 (str_of "RU") None (Some [verb_form])) /\
  constrain PIsSingle steel = Ok (mkToken (str_of "steels") 0 6 (str_of "RU") None (Some [noun_form])).
Proof. repeat split. Qed.

(** ** C28, for predicates *)
Theorem activation_leaves_no_scheme : forall c p p', activate c p = Ok p' -> plain p'.
Proof. exact activated_plain. Qed.
Print Assumptions activation_leaves_no_scheme.
Theorem activation_is_idempotent : forall c c' p p', activate c p = Ok p' -> activate c' p' = Ok p'.
Proof. exact activate_twice. Qed.
Print Assumptions activation_is_idempotent.
Theorem activation_rejects_unknown_names :
  forall c m tg, c_morph c = Some m -> c_tagger c = Some tg -> forall p,
  (unknown_name m (c_tokenizer c) p -> activate c p = Err ValueError) /\
  (~ unknown_name m (c_tokenizer c) p -> exists p', activate c p = Ok p').
Proof. exact activation_names. Qed.
Print Assumptions activation_rejects_unknown_names.
Theorem unknown_tag_rejected_refuted :
  exists c tg v, c_tagger c = Some tg /\ tagger_check tg v = false /\ activate c (STag v) = Ok (PTag v).
Proof. exact tag_refutes. Qed.
Print Assumptions unknown_tag_rejected_refuted.
Theorem tag_without_tagger_raises :
  forall t m v, activate (mkContext t m None) (STag v) = Err AttributeError.
Proof. exact no_tagger_refutes. Qed.
Print Assumptions tag_without_tagger_raises.

Example activation_case :
  activate small_context nested = Ok nested_activated /\
  activate small_context (PNot (POr [PTrue; SGram (str_of "XXXX")])) = Err ValueError /\
  unknown_name small_morph small_tokenizer (PNot (POr [PTrue; SGram (str_of "XXXX")])).
Proof.
  split; [vm_compute; reflexivity|]. split; [vm_compute; reflexivity|].
  left. exists (str_of "XXXX"). split; [|reflexivity].
  apply inside_not. eapply inside_or; [right; left; reflexivity|]. apply inside_here.
Qed.
