(** Properties of pipelines (C16-C18). *)
From Coq Require String.
From Verif Require Import Base TokenModel EarleyModel EarleySpec TokenizerModel PredicateModel PredicateSpec
  PipelineModel PipelineSpec ParserModel ParserSpec RelationSpec PipelineProofs PipelineTheorems PredicateCases.

(** ** C16 *)
Theorem lookup_finds_exactly_the_candidates :
  forall U set_order, set_iteration set_order -> forall p b, pipeline_as_bnf U set_order p = Ok b -> forall q t,
  In q (pipeline_predict U set_order b t) <->
  exists line first rest, nth_error (b_productions b) q = Some (line, first :: rest) /\ accepts U first t = true.
Proof. exact predict_spec. Qed.
Print Assumptions lookup_finds_exactly_the_candidates.
Theorem lookup_keeps_the_order_of_lines :
  forall U set_order, set_iteration set_order -> forall p b, pipeline_as_bnf U set_order p = Ok b -> b_kind b <> Morph -> forall t,
  pipeline_predict U set_order b t =
  filter (fun q => match nth_error (b_productions b) q with Some (_, first :: _) => accepts U first t | _ => false end)
    (production_numbers b).
Proof. exact predict_filter. Qed.
Print Assumptions lookup_keeps_the_order_of_lines.
Theorem grammars_with_pipelines_are_sound :
  forall U set_order, set_iteration set_order ->
  forall g, (forall r, indexed_rule U set_order g r) -> predict_sound g.
Proof. exact indexed_sound. Qed.
Print Assumptions grammars_with_pipelines_are_sound.
Theorem grammars_with_pipelines_are_complete :
  forall U set_order, set_iteration set_order ->
  forall g, (forall r, indexed_rule U set_order g r) -> predict_complete (accepts U) g.
Proof. exact indexed_complete. Qed.
Print Assumptions grammars_with_pipelines_are_complete.
Theorem lookup_does_not_change_parses_partial :
  forall pred (accepts : pred -> token -> bool) constrain g toks fuel fuel' all trees trees' i j d,
  predict_sound g -> predict_complete accepts g ->
  parse accepts constrain g fuel toks all = Some trees ->
  parse accepts constrain (without_index g) fuel' toks all = Some trees' ->
  (all = false -> start_not_used g) -> no_empty_part d ->
  ((exists n, In (n, (i, j)) trees /\ erase n = d) <-> (exists n, In (n, (i, j)) trees' /\ erase n = d)).
Proof. exact @same_parses. Qed.
Print Assumptions lookup_does_not_change_parses_partial.
(** A morph_pipeline may try the same production twice. *)
Theorem morph_lookup_order_refuted :
  exists b t, build Morph [str_of "steel"; str_of "steels"] = Ok b /\
  pipeline_predict ASCII first_seen b t = [0; 1; 1].
Proof. exact morph_order_refutes. Qed.
Print Assumptions morph_lookup_order_refuted.

Example lookup_case :
  set_iteration first_seen /\
  exists b, build Caseless cities = Ok b /\
  pipeline_predict ASCII first_seen b (mkToken (str_of "NEW") 0 3 LATIN None None) = [0; 2].
Proof. split; [exact first_seen_iterates|]. eexists. split; vm_compute; reflexivity. Qed.

(** ** C17 *)
Theorem match_accepts_exactly_the_dictionary :
  forall U set_order c, set_iteration set_order -> forall k lines p b,
  activate_pipeline c (scheme k lines) = Ok p -> pipeline_as_bnf U set_order p = Ok b -> forall rel toks,
  exists fuel0, forall fuel, fuel0 <= fuel -> exists s r,
    match_ (accepts U) narrow rel (pipeline_grammar U set_order b) fuel toks = Some (Ok (s, r)) /\
    (forall m, r = Some m -> m_range m = (0, length toks) /\ exists q line ds, erase (m_root m) = DNode 0 q ds /\
       g_key (pipeline_grammar U set_order b) q = Some line /\ In line lines /\ line_agrees U c k line toks) /\
    (r = None -> forall line, In line lines -> ~ line_agrees U c k line toks).
Proof. exact match_lines. Qed.
Print Assumptions match_accepts_exactly_the_dictionary.
Theorem findall_finds_dictionary_entries :
  forall U set_order c, set_iteration set_order -> forall k lines p b,
  activate_pipeline c (scheme k lines) = Ok p -> pipeline_as_bnf U set_order p = Ok b -> forall rel toks,
  exists fuel0, forall fuel, fuel0 <= fuel -> exists s ms,
    findall (accepts U) narrow rel (pipeline_grammar U set_order b) fuel toks = Some (Ok (s, ms)) /\
    best_ranges (fun r => fst r <= snd r <= length toks /\ exists line, In line lines /\ line_agrees U c k line (range_tokens toks r))
      (map m_range ms) /\
    (forall m, In m ms -> exists q line ds, erase (m_root m) = DNode 0 q ds /\
       g_key (pipeline_grammar U set_order b) q = Some line /\ In line lines /\ line_agrees U c k line (range_tokens toks (m_range m))).
Proof. exact findall_lines. Qed.
Print Assumptions findall_finds_dictionary_entries.
Theorem first_agreeing_line_is_used :
  forall U set_order c k lines p b rel, set_iteration set_order ->
  activate_pipeline c (scheme k lines) = Ok p -> pipeline_as_bnf U set_order p = Ok b -> k <> Morph ->
  forall fuel toks s m, match_ (accepts U) narrow rel (pipeline_grammar U set_order b) fuel toks = Some (Ok (s, Some m)) ->
  exists before line after, lines = before ++ line :: after /\ line_agrees U c k line toks /\
    (forall l, In l before -> ~ line_agrees U c k l toks) /\
    exists ds, erase (m_root m) = DNode 0 (length before) ds.
Proof. exact first_line. Qed.
Print Assumptions first_agreeing_line_is_used.

Example dictionary_case :
  pipeline_match Exact cities new_york = Some (0, 2, Some (str_of "new york")) /\
  pipeline_match Caseless cities new_york = Some (0, 2, Some (str_of "New York")) /\
  pipeline_match Exact cities [] = None /\
  pipeline_match Morph metals [steel] = Some (0, 1, Some (str_of "steel")).
Proof. vm_compute. repeat split. Qed.

(** ** C18 *)
(** A pipeline is accepted exactly when its lines can be cut into words, with a morphology for morph_pipeline. *)
Theorem pipelines_are_accepted : forall c k lines, (exists p, activate_pipeline c (scheme k lines) = Ok p) <->
  forall line, In line lines -> exists words, cut_into (c_tokenizer c) line words /\ (k = Morph -> words <> [] -> c_morph c <> None).
Proof. exact pipeline_active. Qed.
Print Assumptions pipelines_are_accepted.
Theorem blank_line_always_raises :
  forall U set_order c k lines p, activate_pipeline c (scheme k lines) = Ok p ->
  ((exists line, In line lines /\ cut_into (c_tokenizer c) line []) -> pipeline_as_bnf U set_order p = Err IndexError) /\
  (~ (exists line, In line lines /\ cut_into (c_tokenizer c) line []) -> exists b, pipeline_as_bnf U set_order p = Ok b).
Proof. exact blank_line. Qed.
Print Assumptions blank_line_always_raises.
Theorem blank_line_works_refuted :
  forall U set_order k, exists c lines p, In [] lines /\ activate_pipeline c (scheme k lines) = Ok p /\
  pipeline_as_bnf U set_order p = Err IndexError.
Proof. exact blank_refutes. Qed.
Print Assumptions blank_line_works_refuted.
