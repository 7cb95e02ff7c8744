(** Properties of parse, extract, findall, find and match (C01-C15, C62).

    Every statement is about an arbitrary grammar [g] over arbitrary predicates
    ([accepts], [constrain]), arbitrary relations [rel] and an arbitrary sequence
    of tokens.  [fuel] bounds the chart loops; [None] stands for an unfinished
    run. *)
From Verif Require Import Base EarleyModel EarleySpec TokenModel TreeModel ParserModel TreeSpec
  RelationSpec ParserSpec AgreeProofs ParserTheorems ReportProofs IndependenceProofs ParserRefuted Cases RelationCases
  IndependenceCases.
Open Scope nat_scope.

Definition sum3 := words ["n"; "+"; "n"; "+"; "n"]%string.
Definition n_ (i : nat) : dtree str := DNode 1 2 [DLeaf i (str_of "n")].
Definition plus_ (i : nat) : dtree str := DLeaf i (str_of "+").
(** ((n + n) + n) and (n + (n + n)). *)
Definition left_sum : dtree str := DNode 0 0 [DNode 1 1 [DNode 1 1 [n_ 0; plus_ 1; n_ 2]; plus_ 3; n_ 4]].
Definition right_sum : dtree str := DNode 0 0 [DNode 1 1 [n_ 0; plus_ 1; DNode 1 1 [n_ 2; plus_ 3; n_ 4]]].

(** ** C01 *)
Theorem findall_left_to_right :
  forall pred (accepts : pred -> token -> bool) constrain rel g toks fuel s ms,
  findall accepts constrain rel g fuel toks = Some (Ok (s, ms)) ->
  left_to_right 0 (map m_range ms).
Proof. exact @findall_order. Qed.
Print Assumptions findall_left_to_right.

(** S -> 'a' | 'a' 'b' | 'b' 'a' on "a b a b": two matches. *)
Definition pairs : grammar token str :=
  plain_grammar [[0; 1; 2]] [[WORD "a"]; [WORD "a"; WORD "b"]; [WORD "b"; WORD "a"]].
Example findall_left_to_right_case :
  option_map (fun r => let! (s, ms) := r in Ok (map m_range ms))
    (word_findall pairs 50 (words ["a"; "b"; "a"; "b"]%string)) = Some (Ok [(0, 2); (2, 4)]).
Proof. vm_compute. reflexivity. Qed.

(** ** C02, C03, C13: any grammar.  [candidates] are the ranges of trees whose
    relations held when the tree was examined. *)
Theorem findall_best_candidates :
  forall pred (accepts : pred -> token -> bool) constrain rel g toks fuel s ms,
  findall accepts constrain rel g fuel toks = Some (Ok (s, ms)) ->
  exists trees (candidates : list (nat * nat)),
    parse accepts constrain g fuel toks true = Some trees /\ NoDup candidates /\
    (forall r, In r candidates -> exists t s1 s2 m, In t trees /\ snd t = r /\
       prepare_match rel g t s1 = Ok (s2, Some m) /\
       forall u, In u trees -> snd u = r -> tree_before u t -> exists s3, prepare_match rel g u s3 = Ok (s3, None)) /\
    (forall t, In t trees -> ~ In (snd t) candidates -> exists s3, prepare_match rel g t s3 = Ok (s3, None)) /\
    best_ranges (fun r => In r candidates) (map m_range ms) /\
    (forall m, In m ms -> exists t s1 s2, In t trees /\ snd t = m_range m /\
       prepare_match rel g t s1 = Ok (s2, Some m) /\
       forall u, In u trees -> snd u = m_range m -> tree_before u t -> exists s3, prepare_match rel g u s3 = Ok (s3, None)).
Proof. exact @findall_candidates. Qed.
Print Assumptions findall_best_candidates.

(** ** C02, C03, C13: grammars without relations and empty rules, in terms of
    derivations only. *)
Theorem findall_best_derivations :
  forall pred (accepts : pred -> token -> bool) constrain rel g toks fuel r,
  relation_free g -> predict_sound g -> predict_complete accepts g -> predict_filters g -> no_nullable g ->
  findall accepts constrain rel g fuel toks = Some r ->
  exists s ms, r = Ok (s, ms) /\
    best_ranges (fun r => exists d, derives accepts g toks (TRule (g_start g)) (fst r) (snd r) d) (map m_range ms) /\
    (forall m, In m ms ->
       derives accepts g toks (TRule (g_start g)) (fst (m_range m)) (snd (m_range m)) (erase (m_root m)) /\
       forall d, derives accepts g toks (TRule (g_start g)) (fst (m_range m)) (snd (m_range m)) d ->
         d = erase (m_root m) \/ preferred g (erase (m_root m)) d).
Proof. exact @findall_by_derivations. Qed.
Print Assumptions findall_best_derivations.

Example findall_best_derivations_case :
  relation_free sums /\ predict_sound sums /\ predict_complete word_accepts sums /\ predict_filters sums /\
  no_nullable sums /\
  show_matches (word_findall sums 100 (words ["+"; "n"; "+"; "n"; "+"; "n"; "n"]%string)) =
    Some (Ok [((1, 6), DNode 0 0 [DNode 1 1 [DNode 1 1 [n_ 1; plus_ 2; n_ 3]; plus_ 4; n_ 5]]); ((6, 7), DNode 0 0 [n_ 6])]).
Proof.
  split; [intros r; reflexivity|]. split; [apply list_sound|]. split; [apply list_complete|].
  split; [apply list_filters|]. split; [apply list_no_nullable; reflexivity|]. vm_compute. reflexivity.
Qed.

(** The order [best_ranges] is not trivial: of "a" "b a" and "a b" "a", both
    covering three tokens, the second is chosen. *)
Example findall_tie_case :
  option_map (fun r => let! (s, ms) := r in Ok (map m_range ms))
    (word_findall pairs 50 (words ["a"; "b"; "a"]%string)) = Some (Ok [(0, 2); (2, 3)]).
Proof. vm_compute. reflexivity. Qed.

(** ** C04 *)
Theorem trees_are_derivations :
  forall pred (accepts : pred -> token -> bool) constrain g fuel toks all trees n i j,
  predict_sound g -> parse accepts constrain g fuel toks all = Some trees -> In (n, (i, j)) trees ->
  derives accepts g toks (TRule (g_start g)) i j (erase n) /\
  leaves_ok accepts constrain toks n /\ j <= length toks /\ (all = false -> j = length toks).
Proof. exact @parse_sound. Qed.
Print Assumptions trees_are_derivations.

Theorem match_from_tree :
  forall pred (accepts : pred -> token -> bool) constrain rel g toks fuel s m,
  match_ accepts constrain rel g fuel toks = Some (Ok (s, Some m)) ->
  exists trees n, parse accepts constrain g fuel toks false = Some trees /\ In (n, m_range m) trees /\
    propagate n = Some (m_root m).
Proof. exact @match_reported. Qed.
Print Assumptions match_from_tree.
Theorem findall_from_tree :
  forall pred (accepts : pred -> token -> bool) constrain rel g toks fuel s ms m,
  findall accepts constrain rel g fuel toks = Some (Ok (s, ms)) -> In m ms ->
  exists trees n, parse accepts constrain g fuel toks true = Some trees /\ In (n, m_range m) trees /\
    propagate n = Some (m_root m).
Proof. exact @findall_reported. Qed.
Print Assumptions findall_from_tree.
Theorem extract_from_tree :
  forall pred (accepts : pred -> token -> bool) constrain rel g toks fuel all ms s e m,
  extract accepts constrain rel g fuel toks all = Some (ms, s, e) -> In m ms ->
  exists trees n, parse accepts constrain g fuel toks all = Some trees /\ In (n, m_range m) trees /\
    propagate n = Some (m_root m).
Proof. exact @extract_reported. Qed.
Print Assumptions extract_from_tree.

(** ** C05 *)
Theorem nonempty_parses_found :
  forall pred (accepts : pred -> token -> bool) constrain g fuel toks all trees i j d,
  predict_complete accepts g -> parse accepts constrain g fuel toks all = Some trees ->
  derives accepts g toks (TRule (g_start g)) i j d -> no_empty_part d -> i <= length toks ->
  i = 0 \/ all = true -> j = length toks \/ all = true ->
  exists n, In (n, (i, j)) trees /\ erase n = d.
Proof. exact @parse_complete. Qed.
Print Assumptions nonempty_parses_found.

Example nonempty_parses_found_case :
  predict_complete word_accepts sums /\
  derives word_accepts sums sum3 (TRule 0) 0 5 left_sum /\ derives word_accepts sums sum3 (TRule 0) 0 5 right_sum /\
  no_empty_part left_sum /\ no_empty_part right_sum /\
  show_trees (word_parse sums 100 sum3 false) = Some [((0, 5), left_sum); ((0, 5), right_sum)].
Proof.
  split; [apply list_complete|]. split; [unfold left_sum, n_, plus_; derive|].
  split; [unfold right_sum, n_, plus_; derive|].
  split; [cbn; intuition discriminate|]. split; [cbn; intuition discriminate|]. vm_compute. reflexivity.
Qed.

(** ** C06: refuted.  S -> A B;  B -> A 'c';  A -> | 'a' does not find "c". *)
Theorem every_parse_found_refuted :
  exists (g : grammar token str) toks d fuel,
  predict_sound g /\ predict_complete word_accepts g /\
  derives word_accepts g toks (TRule (g_start g)) 0 (length toks) d /\
  forall all, parse word_accepts word_constrain g fuel toks all = Some [].
Proof. exact skipping_refutes. Qed.
Print Assumptions every_parse_found_refuted.

(** ** C07: refuted in general, proved for parses without empty parts. *)
Theorem match_findall_agree_refuted :
  exists (g : grammar token str) toks fuel s m trees,
  predict_sound g /\ predict_complete word_accepts g /\ relation_free g /\
  match_ word_accepts word_constrain (fun _ _ _ => true) g fuel toks = Some (Ok (s, Some m)) /\
  m_range m = (0, length toks) /\
  parse word_accepts word_constrain g fuel toks true = Some trees /\
  ~ In (0, length toks) (map snd trees).
Proof. exact overtaken_refutes. Qed.
Print Assumptions match_findall_agree_refuted.

Theorem match_trees_in_findall_partial :
  forall pred (accepts : pred -> token -> bool) constrain g toks fuel fuel' trees trees' n,
  predict_sound g -> predict_complete accepts g ->
  parse accepts constrain g fuel toks false = Some trees ->
  parse accepts constrain g fuel' toks true = Some trees' ->
  In (n, (0, length toks)) trees -> no_empty_part (erase n) ->
  exists n', In (n', (0, length toks)) trees' /\ erase n' = erase n /\ ranks n' = ranks n /\
    tokens_of n' = tokens_of n.
Proof. exact @trees_agree. Qed.
Print Assumptions match_trees_in_findall_partial.

Theorem match_findall_agree_partial :
  forall pred (accepts : pred -> token -> bool) constrain rel g toks,
  relation_free g -> predict_sound g -> predict_complete accepts g -> predict_filters g -> no_nullable g ->
  forall fuel fuel' s m r,
  match_ accepts constrain rel g fuel toks = Some (Ok (s, Some m)) -> m_range m = (0, length toks) ->
  findall accepts constrain rel g fuel' toks = Some r ->
  exists s' m', r = Ok (s', [m']) /\ m_range m' = (0, length toks) /\
    erase (m_root m') = erase (m_root m) /\ m_tokens m' = m_tokens m /\ m_span m' = m_span m.
Proof. exact @free_agree. Qed.
Print Assumptions match_findall_agree_partial.

Example match_findall_agree_case :
  show_match (word_match sums 100 sum3) = Some (Ok (Some ((0, 5), left_sum))) /\
  show_matches (word_findall sums 100 sum3) = Some (Ok [((0, 5), left_sum)]).
Proof. vm_compute. auto. Qed.

(** ** C08 *)
Theorem parsing_terminates :
  forall pred (accepts : pred -> token -> bool) constrain g rules toks all,
  finite_grammar g rules -> predict_sound g -> acyclic g ->
  exists fuel0 trees, forall fuel, fuel0 <= fuel -> parse accepts constrain g fuel toks all = Some trees.
Proof. exact @parse_terminates. Qed.
Print Assumptions parsing_terminates.
Theorem parse_does_not_depend_on_fuel :
  forall pred (accepts : pred -> token -> bool) constrain g toks all fuel fuel' trees,
  fuel <= fuel' -> parse accepts constrain g fuel toks all = Some trees ->
  parse accepts constrain g fuel' toks all = Some trees.
Proof. exact @parse_fuel. Qed.
Print Assumptions parse_does_not_depend_on_fuel.

(** S -> E;  E -> E '+' E | 'n', and [skipping] (with empty rules). *)
Example parsing_terminates_case :
  finite_grammar sums [0; 1] /\ acyclic sums /\ finite_grammar skipping [0; 1; 2] /\ acyclic skipping.
Proof.
  split; [apply (list_finite [[0]; [1; 2]]); reflexivity|].
  split; [apply (list_acyclic _ _ _ _ (fun r => 1 - r)); reflexivity|].
  split; [apply (list_finite [[0]; [1]; [2; 3]]); reflexivity|].
  apply (list_acyclic _ _ _ _ (fun r => 2 - r)); reflexivity.
Qed.

(** ** C09: refuted.  rule(x.optional(), y.optional()).named('Y').repeatable() never
    returns, not even on the empty text; nor does A -> A | 'a'.  For rules see PropLoop. *)
Theorem parsing_always_terminates_refuted :
  exists (g : grammar token str) toks, finite_grammar g [0; 1; 2; 3] /\ predict_sound g /\
  forall fuel all, parse word_accepts word_constrain g fuel toks all = None.
Proof. exact looping_refutes. Qed.
Print Assumptions parsing_always_terminates_refuted.
Theorem left_unit_recursion_loops :
  forall fuel all, parse word_accepts word_constrain unit_loop fuel (words ["a"]%string) all = None.
Proof. exact unit_loop_stuck. Qed.
Print Assumptions left_unit_recursion_loops.
Theorem optional_pair_repeatable_loops :
  forall toks fuel all, toks = [] \/ toks = words ["x"]%string ->
  parse word_accepts word_constrain looping fuel toks all = None.
Proof. exact looping_stuck. Qed.
Print Assumptions optional_pair_repeatable_loops.

(** ** C10 *)
Theorem no_parse_twice :
  forall pred (accepts : pred -> token -> bool) constrain g fuel toks all trees,
  parse accepts constrain g fuel toks all = Some trees ->
  NoDup (map (fun t => (erase (fst t), snd t)) trees).
Proof. exact @parse_unique. Qed.
Print Assumptions no_parse_twice.

(** The same production listed twice: one tree. *)
Example no_parse_twice_case :
  show_trees (word_parse (plain_grammar [[0; 0]] [[WORD "a"]]) 50 (words ["a"]%string) true) =
  Some [((0, 1), DNode 0 0 [DLeaf 0 (str_of "a")])].
Proof. vm_compute. reflexivity. Qed.

(** ** C11 *)
Theorem comparison_total :
  forall pred (accepts : pred -> token -> bool) constrain g fuel toks all trees a b,
  parse accepts constrain g fuel toks all = Some trees -> In a trees -> In b trees ->
  exists c, tree_lt a b = Ok c /\ (c = true <-> tree_before a b) /\
    (a = b \/ tree_before a b \/ tree_before b a).
Proof. exact (fun pred accepts constrain => @order_spec pred accepts constrain (fun _ _ _ => true)). Qed.
Print Assumptions comparison_total.
Theorem preference_strict :
  forall token pred (a b c : node token pred * (nat * nat)),
  ~ tree_before a a /\ (tree_before a b -> tree_before b c -> tree_before a c) /\
  (tree_before a b -> ~ tree_before b a).
Proof. exact @tree_before_strict. Qed.
Print Assumptions preference_strict.
(** The ranks compared are the numbers of the alternatives as written. *)
Theorem preference_as_written :
  forall pred (accepts : pred -> token -> bool) constrain g fuel toks all trees n n' i j,
  predict_filters g -> parse accepts constrain g fuel toks all = Some trees ->
  In (n, (i, j)) trees -> In (n', (i, j)) trees ->
  (tree_before (n, (i, j)) (n', (i, j)) <-> preferred g (erase n) (erase n')).
Proof. exact @trees_written_order. Qed.
Print Assumptions preference_as_written.

Example comparison_case :
  preferred sums left_sum right_sum /\
  option_map (fun ts => match ts with [a; b] => [tree_lt a b; tree_lt b a; tree_lt a a] | _ => [] end)
    (word_parse sums 100 sum3 false) = Some [Ok true; Ok false; Ok false].
Proof.
  split; [|vm_compute; reflexivity]. exists [0; 0], 0, 1, [1; 1; 1], [0; 1; 1]. cbn. auto.
Qed.

(** ** C12 *)
Theorem match_most_preferred :
  forall pred (accepts : pred -> token -> bool) constrain rel g fuel toks r,
  match_ accepts constrain rel g fuel toks = Some r ->
  exists trees, parse accepts constrain g fuel toks false = Some trees /\
  ((exists t s m, r = Ok (s, Some m) /\ In t trees /\ prepare_match rel g t [] = Ok (s, Some m) /\
      forall u, In u trees -> tree_before u t -> prepare_match rel g u [] = Ok ([], None)) \/
   (exists t e, r = Err e /\ In t trees /\ prepare_match rel g t [] = Err e /\
      forall u, In u trees -> tree_before u t -> prepare_match rel g u [] = Ok ([], None)) \/
   (r = Ok ([], None) /\ forall u, In u trees -> prepare_match rel g u [] = Ok ([], None))).
Proof. exact @match_spec. Qed.
Print Assumptions match_most_preferred.
Theorem match_best_derivation :
  forall pred (accepts : pred -> token -> bool) constrain rel g toks,
  relation_free g -> predict_sound g -> predict_complete accepts g -> predict_filters g -> no_nullable g ->
  forall fuel r, start_not_used g -> match_ accepts constrain rel g fuel toks = Some r ->
  (exists s m, r = Ok (s, Some m) /\ m_range m = (0, length toks) /\
     derives accepts g toks (TRule (g_start g)) 0 (length toks) (erase (m_root m)) /\
     (forall d, derives accepts g toks (TRule (g_start g)) 0 (length toks) d ->
        d = erase (m_root m) \/ preferred g (erase (m_root m)) d)) \/
  (r = Ok ([], None) /\ forall d, ~ derives accepts g toks (TRule (g_start g)) 0 (length toks) d).
Proof. exact @free_match. Qed.
Print Assumptions match_best_derivation.

Example match_best_derivation_case :
  start_not_used sums /\ show_match (word_match sums 100 sum3) = Some (Ok (Some ((0, 5), left_sum))) /\
  show_match (word_match sums 100 (words ["n"; "+"]%string)) = Some (Ok None).
Proof. split; [apply list_start_not_used; reflexivity|]. vm_compute. auto. Qed.

(** ** C62: refuted.  S -> 'a' S 'z' | 'b' matches the text "a b". *)
Theorem match_whole_text_refuted :
  exists (g : grammar token str) toks fuel s m,
  predict_sound g /\ predict_complete word_accepts g /\ relation_free g /\ no_nullable g /\
  match_ word_accepts word_constrain (fun _ _ _ => true) g fuel toks = Some (Ok (s, Some m)) /\
  m_range m <> (0, length toks) /\
  forall d, ~ derives word_accepts g toks (TRule (g_start g)) 0 (length toks) d.
Proof. exact nested_refutes. Qed.
Print Assumptions match_whole_text_refuted.
Theorem match_whole_text_partial :
  forall pred (accepts : pred -> token -> bool) constrain g fuel toks trees n i j,
  start_not_used g -> parse accepts constrain g fuel toks false = Some trees ->
  In (n, (i, j)) trees -> i = 0 /\ j = length toks.
Proof. exact @whole_text. Qed.
Print Assumptions match_whole_text_partial.

(** ** C14 *)
Theorem match_tokens_are_the_text :
  forall pred (accepts : pred -> token -> bool) constrain rel g toks fuel s m,
  predicates_narrow accepts constrain ->
  match_ accepts constrain rel g fuel toks = Some (Ok (s, Some m)) ->
  Forall2 (stands_for_token toks) (seq (fst (m_range m)) (snd (m_range m) - fst (m_range m))) (m_tokens m) /\
  exists a b, nth_error toks (fst (m_range m)) = Some a /\ nth_error toks (snd (m_range m) - 1) = Some b /\
    fst (m_range m) < snd (m_range m) /\ m_span m = (t_start a, t_stop b).
Proof. exact @match_good. Qed.
Print Assumptions match_tokens_are_the_text.
Theorem findall_tokens_are_the_text :
  forall pred (accepts : pred -> token -> bool) constrain rel g toks fuel s ms m,
  predicates_narrow accepts constrain ->
  findall accepts constrain rel g fuel toks = Some (Ok (s, ms)) -> In m ms ->
  Forall2 (stands_for_token toks) (seq (fst (m_range m)) (snd (m_range m) - fst (m_range m))) (m_tokens m) /\
  exists a b, nth_error toks (fst (m_range m)) = Some a /\ nth_error toks (snd (m_range m) - 1) = Some b /\
    fst (m_range m) < snd (m_range m) /\ m_span m = (t_start a, t_stop b).
Proof. exact @findall_good. Qed.
Print Assumptions findall_tokens_are_the_text.
Theorem extract_tokens_are_the_text :
  forall pred (accepts : pred -> token -> bool) constrain rel g toks fuel all ms s e m,
  predicates_narrow accepts constrain ->
  extract accepts constrain rel g fuel toks all = Some (ms, s, e) -> In m ms ->
  Forall2 (stands_for_token toks) (seq (fst (m_range m)) (snd (m_range m) - fst (m_range m))) (m_tokens m) /\
  exists a b, nth_error toks (fst (m_range m)) = Some a /\ nth_error toks (snd (m_range m) - 1) = Some b /\
    fst (m_range m) < snd (m_range m) /\ m_span m = (t_start a, t_stop b).
Proof. exact @extract_good. Qed.
Print Assumptions extract_tokens_are_the_text.

Example match_tokens_case :
  predicates_narrow word_accepts word_constrain /\
  option_map (fun r => let! (s, ms) := r in Ok (map (fun m => (m_span m, map t_value (m_tokens m))) ms))
    (word_findall pairs 50 (words ["b"; "a"; "b"]%string)) =
  Some (Ok [((0, 3)%Z, [str_of "b"; str_of "a"])]).
Proof.
  split; [|vm_compute; reflexivity]. intros p t _. split; [repeat split|].
  unfold forms_within, word_constrain. destruct (t_forms t); auto.
Qed.

(** ** C15: refuted.  A root rule with an empty alternative: findall raises on
    every text. *)
Theorem empty_root_always_raises :
  forall pred (accepts : pred -> token -> bool) constrain rel g fuel toks q,
  In q (g_prods g (g_start g)) -> g_terms g q = [] ->
  forall r, findall accepts constrain rel g fuel toks = Some r -> exists e, r = Err e.
Proof. exact @empty_root_raises. Qed.
Print Assumptions empty_root_always_raises.
Theorem nullable_root_usable_refuted :
  exists (g : grammar token str), nullable g (TRule (g_start g)) /\
  findall word_accepts word_constrain (fun _ _ _ => true) g 50 (words ["a"]%string) = Some (Err ValueError) /\
  match_ word_accepts word_constrain (fun _ _ _ => true) g 50 [] = Some (Err ValueError).
Proof. exact optional_root_refutes. Qed.
Print Assumptions nullable_root_usable_refuted.
(** Proved: a root rule that cannot be empty never raises, when every relation
    of a candidate has its tokens (so always without relations). *)
Theorem nonempty_root_never_raises :
  forall pred (accepts : pred -> token -> bool) constrain rel g toks fuel trees,
  predict_sound g -> ~ nullable g (TRule (g_start g)) -> relations_apply g trees \/ relation_free g ->
  (parse accepts constrain g fuel toks true = Some trees ->
     exists s ms, findall accepts constrain rel g fuel toks = Some (Ok (s, ms))) /\
  (parse accepts constrain g fuel toks false = Some trees ->
     exists s m, match_ accepts constrain rel g fuel toks = Some (Ok (s, m))).
Proof. exact @never_raises. Qed.
Print Assumptions nonempty_root_never_raises.

(** A grammar with relations: the first and the last candidate are accepted,
    the middle one rejected. *)
Example nonempty_root_case :
  predict_sound chain /\ ~ nullable chain (TRule 0) /\
  (exists trees, gnc_parse chain 100 chain_text true = Some trees /\ relations_apply chain trees /\
    map snd trees = [(0, 2); (1, 3); (2, 4)]) /\
  option_map (fun r => let! (s, ms) := r in Ok (map m_range ms)) (gnc_findall chain 100 chain_text) =
    Some (Ok [(0, 2); (2, 4)]).
Proof. exact chain_never_raises. Qed.
