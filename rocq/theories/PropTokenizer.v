(** Properties of the tokenizers, of the morphology cache and of taggers
    (C46-C52, C55, C56, C63). *)
From Coq Require String.
From Verif Require Import Base TokenModel TokenizerModel TaggerModel TokenizerSpec TokenizerProofs DefaultProofs TokenizerTheorems.
Open Scope nat_scope.

(** ** C46 *)
Theorem tokens_are_slices_in_order :
  forall t fuel text ts, tokenize fuel t text = Some (Ok ts) ->
  (forall tk, In tk ts -> faithful text tk) /\ in_order ts.
Proof. exact tokenize_faithful. Qed.
Print Assumptions tokens_are_slices_in_order.
Theorem tokenizing_terminates :
  forall t text fuel, 2 * length text + 1 <= fuel -> exists r, tokenize fuel t text = Some r.
Proof. exact tokenize_terminates. Qed.
Print Assumptions tokenizing_terminates.

(** ** C47 *)
Theorem default_loses_no_visible_character :
  forall C t text fuel ts, sane C -> default_tokenizer C = Ok t -> tokenize fuel t text = Some (Ok ts) ->
  (forall k x, nth_error text k = Some x -> visible C x ->
     exists l1 tk l2, ts = l1 ++ tk :: l2 /\ covers tk k /\ forall tk', In tk' (l1 ++ l2) -> ~ covers tk' k) /\
  (forall tk, In tk ts -> t_value tk <> []) /\
  (forall tk k x, In tk ts -> covers tk k -> nth_error text k = Some x -> ~ visible C x -> t_type tk = EOL).
Proof. exact default_loses_nothing. Qed.
Print Assumptions default_loses_no_visible_character.

(** ** C48 *)
Theorem default_tokens_are_maximal_and_typed :
  forall C t text fuel ts tk, sane C -> default_tokenizer C = Ok t -> tokenize fuel t text = Some (Ok ts) -> In tk ts ->
  (exists x, hd_error (t_value tk) = Some x /\ first_class C x (t_type tk)) /\
  (forall P, In (t_type tk, P) (word_classes C) ->
     Forall P (t_value tk) /\
     (forall k x, t_stop tk = Z.of_nat k -> nth_error text k = Some x -> ~ P x) /\
     (forall k x, t_start tk = Z.of_nat (S k) -> nth_error text k = Some x -> ~ P x)) /\
  (t_type tk = PUNCT \/ t_type tk = OTHER -> length (t_value tk) = 1).
Proof. exact default_shapes. Qed.
Print Assumptions default_tokens_are_maximal_and_typed.

(** ** C49 *)
Theorem join_of_tokens :
  forall t fuel text ts, tokenize fuel t text = Some (Ok ts) -> (forall tk, In tk ts -> t_value tk <> []) ->
  join_tokens ts = squeeze (covered ts) 0 false false text.
Proof. exact join_tokens_squeeze. Qed.
Print Assumptions join_of_tokens.
Theorem join_of_default_tokens :
  forall C t text fuel ts, sane C -> default_tokenizer C = Ok t -> tokenize fuel t text = Some (Ok ts) ->
  join_tokens ts = squeeze (covered ts) 0 false false text /\
  filter (fun c => negb (c_space C c)) (join_tokens ts) = filter (fun c => negb (c_space C c)) text.
Proof. exact default_join. Qed.
Print Assumptions join_of_default_tokens.

(** The hypotheses hold of a table with ASCII and Russian letters: Дом 12a, ... *)
Theorem character_table_is_sane : sane basic_chars.
Proof. exact basic_sane. Qed.
Print Assumptions character_table_is_sane.
Definition sample : str := [32; 1044; 1086; 1084; 32; 32; 49; 50; 97; 44; 13; 10; 32; 8364]%N.
Example default_case :
  exists t, default_tokenizer basic_chars = Ok t /\
  tokenize 50 t sample = Some (Ok
    [mkToken [1044; 1086; 1084]%N 1 4 RU None None; mkToken [49; 50]%N 6 8 INT None None;
     mkToken [97]%N 8 9 LATIN None None; mkToken [44]%N 9 10 PUNCT None None;
     mkToken [13; 10]%N 10 12 EOL None None; mkToken [8364]%N 13 14 OTHER None None]).
Proof. eexists. split; [reflexivity|]. vm_compute. reflexivity. Qed.

(** ** C50 *)
Theorem add_rules_puts_them_first :
  forall t args t', add_rules t args = (t', Ok tt) ->
  compiled t' /\ exists rs, args = map Some rs /\ tk_rules t' = rs ++ tk_rules t.
Proof. exact add_rules_ok. Qed.
Print Assumptions add_rules_puts_them_first.
Theorem remove_types_removes_exactly :
  forall t types,
  ((exists ty, In ty types /\ ~ In ty (tk_types t)) -> remove_types t types = (t, Err ValueError)) /\
  (forall t', remove_types t types = (t', Ok tt) ->
     compiled t' /\ tk_rules t' = filter (fun r => negb (str_in (r_type r) types)) (tk_rules t)).
Proof. exact remove_types_spec. Qed.
Print Assumptions remove_types_removes_exactly.
Theorem remove_known_types_succeeds :
  forall args t types, new_tokenizer args = Ok t -> (forall ty, In ty types -> In ty (tk_types t)) ->
  exists t', remove_types t types = (t', Ok tt).
Proof. exact removal_works. Qed.
Print Assumptions remove_known_types_succeeds.
Theorem constructor_compiles_rules :
  forall args t, new_tokenizer args = Ok t -> compiled t /\ args = map Some (tk_rules t).
Proof. exact new_compiled. Qed.
Print Assumptions constructor_compiles_rules.
(** Each token is made by the first rule of the list that matches there, and no
    rule matches before it. *)
Theorem rules_are_tried_in_order :
  forall t text fuel r, compiled t -> tk_rules t <> [] -> tokenize fuel t text = Some r ->
  exists ts, r = Ok ts /\ all_chosen (tk_rules t) text 0 ts.
Proof. exact leftmost_first. Qed.
Print Assumptions rules_are_tried_in_order.

(** A rule for e-mail addresses and one for phone numbers, before the others. *)
Example email_case :
  exists t t', default_tokenizer basic_chars = Ok t /\
  add_rules t [Some (EMAIL_RULE basic_chars); Some (PHONE_RULE basic_chars)] = (t', Ok tt) /\
  option_map (fun r => let! l := r in Ok (map (fun t => (t_value t, t_type t)) l)) (tokenize 99 t' (str_of "a mail@host.ru +7 (903) 111-22-33.")) =
  Some (Ok [(str_of "a", LATIN); (str_of "mail@host.ru", str_of "EMAIL"); (str_of "+7 (903) 111-22-33", str_of "PHONE"); (str_of ".", PUNCT)]).
Proof. eexists. eexists. split; [reflexivity|]. split; [reflexivity|]. vm_compute. reflexivity. Qed.

(** ** C51: refuted for a pattern that does not compile: the rules are replaced
    before the compilation, later calls fail. *)
Theorem failed_call_changes_nothing_refuted :
  exists t args t' types, new_tokenizer (map Some (RULES basic_chars)) = Ok t /\ add_rules t args = (t', Err ReError) /\
    snd (remove_types t types) = Ok tt /\ snd (remove_types t' types) = Err ReError.
Proof. exact failed_add_refutes. Qed.
Print Assumptions failed_call_changes_nothing_refuted.
(** Proved for arguments of the wrong type; otherwise tokenization itself is not
    affected. *)
Theorem failed_call_changes_nothing_partial :
  forall t args t' e, add_rules t args = (t', Err e) ->
  (e = TypeError /\ t' = t) \/
  (e = ReError /\ (forall fuel text, tokenize fuel t' text = tokenize fuel t text) /\ (forall ty, check_type t' ty = check_type t ty)).
Proof. exact failed_add. Qed.
Print Assumptions failed_call_changes_nothing_partial.

(** ** C63: refuted: a tokenizer left without rules raises on every text. *)
Theorem tokenizing_never_raises_refuted :
  exists t t' r, new_tokenizer (map Some (RULES basic_chars)) = Ok t /\
  remove_types t (tk_types t) = (t', Ok tt) /\ tokenize 10 t' (str_of "a") = Some (Err r).
Proof. exact empty_tokenizer_refutes. Qed.
Print Assumptions tokenizing_never_raises_refuted.
Theorem tokenizer_without_rules_raises :
  forall t text fuel r, tk_regexp t = [] -> tokenize fuel t text = Some r -> r = Err KeyError.
Proof. exact empty_tokenizer_raises. Qed.
Print Assumptions tokenizer_without_rules_raises.
(** With at least one rule it never raises: [rules_are_tried_in_order]. *)

(** ** C55 *)
Theorem morph_tokenizer_adds_forms_to_russian_words :
  forall morph fuel t text r, morph_tokenize morph fuel t text = Some r ->
  exists r0, tokenize fuel t text = Some r0 /\
  match r0, r with
  | Err e, Err e' => e = e'
  | Ok l, Ok l' => Forall2 (fun a b => t_value b = t_value a /\ t_start b = t_start a /\ t_stop b = t_stop a /\ t_type b = t_type a /\
      t_tag b = None /\ t_forms b = if list_eq_dec N.eq_dec (t_type a) RU then Some (morph (t_value a)) else None) l l'
  | _, _ => False
  end.
Proof. exact morph_tokens. Qed.
Print Assumptions morph_tokenizer_adds_forms_to_russian_words.
Example morph_case :
  morph_tokenize (fun w => [mkForm w [str_of "NOUN"] 0]) 50 (D basic_chars) [1044; 50]%N =
  Some (Ok [mkToken [1044]%N 0 1 RU None (Some [mkForm [1044]%N [str_of "NOUN"] 0]); mkToken [50]%N 1 2 INT None None]).
Proof. vm_compute. reflexivity. Qed.

(** ** C52.  [lookups size raw_parse h c]: the results of the history [h] of
    (analyzer, word) lookups. *)
Theorem cache_is_transparent_and_bounded :
  forall size raw_parse h,
  Forall2 (fun '(self, w) forms => Forall2 (fun '(normal, grams, raw) f => f_normalized f = normal /\ f_grams f = grams /\ f_raw f = raw) (raw_parse self w) forms)
    h (snd (lookups size raw_parse h [])) /\
  length (fst (lookups size raw_parse h [])) <= size.
Proof. exact cache_transparent. Qed.
Print Assumptions cache_is_transparent_and_bounded.
Example cache_case :
  let raw (_ : nat) w := [(w, [str_of "NOUN"], 0)] in
  map (fun e => snd (fst e)) (fst (lookups 2 raw [(0, str_of "a"); (0, str_of "b"); (0, str_of "a"); (0, str_of "c")] [])) =
  [str_of "c"; str_of "a"].
Proof. vm_compute. reflexivity. Qed.

Theorem normal_forms_are_those_of_the_analyses :
  forall raw_parse word n,
  In n (analyze_normalized raw_parse word) <-> exists grams raw, In (n, grams, raw) (raw_parse word).
Proof. exact normal_forms_of. Qed.
Print Assumptions normal_forms_are_those_of_the_analyses.
Example normal_forms_case :
  let raw (w : str) := [(str_of "be", [str_of "VERB"], 0); (str_of "bee", [str_of "NOUN"], 1)] in
  analyze_normalized raw (str_of "bees") = [str_of "be"; str_of "bee"].
Proof. vm_compute. reflexivity. Qed.

(** ** C56 *)
Theorem taggers_compose_left_to_right :
  (forall tokens, tagger_call PassTagger tokens = tokens) /\
  (forall tokens, tagger_call (TaggersComposition []) tokens = tokens) /\
  (forall t ts tokens, tagger_call (TaggersComposition (t :: ts)) tokens = tagger_call (TaggersComposition ts) (tagger_call t tokens)) /\
  (forall ts tag, tagger_check (TaggersComposition ts) tag = true <-> exists t, In t ts /\ tagger_check t tag = true).
Proof. exact taggers_in_order. Qed.
Print Assumptions taggers_compose_left_to_right.
Theorem tagging_keeps_the_token :
  forall t tag,
  t_value (tagged t tag) = t_value t /\ t_start (tagged t tag) = t_start t /\ t_stop (tagged t tag) = t_stop t /\
  t_type (tagged t tag) = t_type t /\ t_forms (tagged t tag) = t_forms t /\ t_tag (tagged t tag) = Some tag /\
  (forall fs, t_forms t <> None -> exists t', constrained (tagged t tag) fs = Ok t' /\ t_tag t' = Some tag /\ t_forms t' = Some fs /\
     t_value t' = t_value t /\ t_start t' = t_start t /\ t_stop t' = t_stop t /\ t_type t' = t_type t).
Proof. exact tagging_keeps. Qed.
Print Assumptions tagging_keeps_the_token.
Example tagger_case :
  let tag1 := UserTagger (map (fun t => tagged t (str_of "I"))) [str_of "I"] in
  let tag2 := UserTagger (filter is_tag_token) [] in
  tagger_call (TaggersComposition [tag1; PassTagger; tag2]) [mkToken (str_of "a") 0 1 LATIN None None] =
    [mkToken (str_of "a") 0 1 LATIN (Some (str_of "I")) None] /\
  tagger_call (TaggersComposition [tag2; tag1]) [mkToken (str_of "a") 0 1 LATIN None None] = [] /\
  tagger_check (TaggersComposition [tag2; tag1]) (str_of "I") = true.
Proof. vm_compute. auto. Qed.
