(** * C99: the chart holds what has been read, and its text shows it
    See EntrySpec for [entry] (the first [d] terms of a production have been read, at a place
    where its rule may stand) and [recorded]; ChartTextSpec for [blocks], [read_state] and [says];
    AbsentSpec for [timely]. *)
From Coq Require String.
From Verif Require Import Base TokenModel EarleyModel EarleySpec EarleyProofs AbsentSpec AbsentTheorems AbsentCases ParserModel PredicateModel PredicateSpec PredicateCases PipelineModel PipelineSpec PipelineTheorems RuleModel RuleSpec RuleBuild RuleNestSpec RuleCases GrammarModel
  DotTextModel LabelModel LabelSpec WrittenSpec ReprCases Cases ParserRefuted EntrySpec EntryProofs ChartTextModel ChartTextSpec ChartTextProofs ChartTextCases.
Import String.StringSyntax.
Open Scope nat_scope.

(** Every state of column [k] ends at [k] and has been read. *)
Theorem every_state_has_been_read : forall token pred (accepts : pred -> token -> bool) constrain g toks anywhere, predict_sound g -> forall fuel st, chart accepts constrain g toks fuel anywhere = Some st ->
  forall k s, In s (cols st k) -> s_stop s = k /\ entry accepts g toks anywhere (s_rule s) (s_prod s) (s_dot s) (s_start s) k (map erase (s_children s)).
Proof. exact @states_are_entries. Qed.
Print Assumptions every_state_has_been_read.
(** No reading is recorded twice. *)
Theorem nothing_is_recorded_twice : forall token pred (accepts : pred -> token -> bool) constrain g toks anywhere fuel st, chart accepts constrain g toks fuel anywhere = Some st ->
  forall k, NoDup (map recorded (cols st k)).
Proof. exact @states_once. Qed.
Print Assumptions nothing_is_recorded_twice.
(** Not everything that has been read is recorded: S -> A B;  B -> A 'c';  A -> | 'a' on "c". *)
Theorem all_readings_are_recorded_refuted : exists (g : grammar token str) toks fuel st r q d i j ds,
  predict_sound g /\ predict_complete word_accepts g /\ chart word_accepts word_constrain g toks fuel false = Some st /\
  entry word_accepts g toks false r q d i j ds /\ ~ In (r, q, d, i, ds) (map recorded (cols st j)).
Proof. exact skipping_entry. Qed.
Print Assumptions all_readings_are_recorded_refuted.
(** When empty parts come in time, the chart is exactly the set of readings. *)
Theorem all_readings_are_recorded_partial : forall token pred (accepts : pred -> token -> bool) constrain g toks anywhere, predict_sound g -> forall fuel st, chart accepts constrain g toks fuel anywhere = Some st ->
  predict_complete accepts g -> timely g ->
  forall r q d i j ds, In (r, q, d, i, ds) (map recorded (cols st j)) <-> entry accepts g toks anywhere r q d i j ds.
Proof. exact @states_exactly. Qed.
Print Assumptions all_readings_are_recorded_partial.
Example readings_case : predict_sound sums /\ predict_complete word_accepts sums /\ timely sums /\
  chart word_accepts word_constrain sums (words ["n"; "+"; "n"; "+"; "n"]%string) 200 false = Some sums_chart /\
  map (fun k => map short_entry (cols sums_chart k)) [0; 1; 2] = [[(0, 0, 0, 0); (1, 1, 0, 0); (1, 2, 0, 0)]; [(1, 2, 1, 0); (0, 0, 1, 0); (1, 1, 1, 0)]; [(1, 1, 2, 0); (1, 1, 0, 2); (1, 2, 0, 2)]] /\
  map (fun k => length (cols sums_chart k)) [0; 1; 2; 3; 4; 5] = [3; 3; 3; 5; 4; 10].
Proof.
  split; [apply list_sound|]. split; [apply list_complete|]. split; [apply no_nullable_timely, list_no_nullable; reflexivity|]. split; [exact sums_charted|]. split; vm_compute; reflexivity.
Qed.

(** The text: a block for every column, headed by the last token before it, in it a line for every state. *)
Theorem chart_text_has_a_block_for_every_column : forall token pred (g : grammar token pred) toks label token_repr st lines, chart_source g toks label token_repr st = Ok lines ->
  blocks (fun s l => state_text g label s = Ok l) (fun k => match rev (firstn k toks) with [] => str_of "None" | t :: _ => token_repr t end) (cols st) 0 (S (length toks)) lines.
Proof. exact @chart_lines. Qed.
Print Assumptions chart_text_has_a_block_for_every_column.
(** What a line says. *)
Theorem state_lines_are_read_back : forall token pred (g : grammar token pred) label s line, state_text g label s = Ok line ->
  (exists name, label (TRule (s_rule s)) = Ok (Some name)) ->
  (forall t l, t = TRule (s_rule s) \/ In t (g_terms g (s_prod s)) -> label t = Ok (Some l) -> plain_label l) ->
  exists x, read_state line = Some x /\ says g label s x.
Proof. exact @state_line_read. Qed.
Print Assumptions state_lines_are_read_back.
(** Different states may have the same line: E -> E '+' E | 'n' on "n + n + n". *)
Theorem lines_tell_states_apart_refuted : exists (g : grammar token str) toks label fuel st k m m' s s' line, chart word_accepts word_constrain g toks fuel false = Some st /\
  (forall t l, label t = Ok (Some l) -> t = TRule 1 \/ In t [RULE 1; WORD "+"; RULE 1] -> plain_label l) /\
  nth_error (cols st k) m = Some s /\ nth_error (cols st k) m' = Some s' /\ m <> m' /\ recorded s <> recorded s' /\ state_text g label s = Ok line /\ state_text g label s' = Ok line.
Proof. exact sums_lines_twice. Qed.
Print Assumptions lines_tell_states_apart_refuted.
(** They then have the same place and the same labels. *)
Theorem lines_tell_states_apart_partial : forall token pred (g : grammar token pred) label s s' line, state_text g label s = Ok line -> state_text g label s' = Ok line ->
  (forall x, x = s \/ x = s' -> (exists name, label (TRule (s_rule x)) = Ok (Some name)) /\ forall t l, t = TRule (s_rule x) \/ In t (g_terms g (s_prod x)) -> label t = Ok (Some l) -> plain_label l) ->
  s_start s = s_start s' /\ s_stop s = s_stop s' /\ label (TRule (s_rule s)) = label (TRule (s_rule s')) /\
  map label (firstn (s_dot s) (g_terms g (s_prod s))) = map label (firstn (s_dot s') (g_terms g (s_prod s'))) /\
  map label (skipn (s_dot s) (g_terms g (s_prod s))) = map label (skipn (s_dot s') (g_terms g (s_prod s'))).
Proof. exact @lines_tell. Qed.
Print Assumptions lines_tell_states_apart_partial.

(** The chart of a parser can be printed when its predicates and interpretators have labels. *)
Theorem chart_of_a_parser_is_printed : forall U set_order c label_of_pred label_of_interp label_of_relation token_repr fuel h root toks all r,
  built h -> harmless h root -> is_rule_at h root -> (forall p, exists l, label_of_pred p = Ok l) -> (forall i, exists l, label_of_interp i = Ok l) ->
  parser_chart_text U set_order c label_of_pred label_of_interp label_of_relation token_repr fuel h root toks all = Some r ->
  (exists e, build_rule U set_order c fuel h root = Some (Err e) /\ r = Err e) \/ exists lines, r = Ok lines.
Proof. exact parser_chart_is_printed. Qed.
Print Assumptions chart_of_a_parser_is_printed.
Example printed_chart_case : let h := program [CRule [W "a"; W "b"]] in
  built h /\ harmless h 1 /\ is_rule_at h 1 /\
  parser_chart_text ASCII first_seen small_context (fun p => Ok (shown_pred p)) (fun _ => Ok []) (fun _ => []) (fun t => t_value t) 100 h 1 (words ["a"; "b"]%string) false =
    Some (Ok [str_of "0 None"; str_of "----------------"; str_of "[0:0] R0 -> $ 'a' 'b'"; [];
              str_of "1 a"; str_of "----------------"; str_of "[0:1] R0 -> 'a' $ 'b'"; [];
              str_of "2 b"; str_of "----------------"; str_of "[0:2] R0 -> 'a' 'b' $"; []]).
Proof. cbn zeta. split; [apply program_built; vm_compute; reflexivity|]. split; [apply harmlessb_true; [apply program_built; vm_compute; reflexivity|apply is_rule_atb_true; vm_compute; reflexivity|vm_compute; reflexivity]|]. split; [apply is_rule_atb_true; vm_compute; reflexivity|]. vm_compute. reflexivity. Qed.
