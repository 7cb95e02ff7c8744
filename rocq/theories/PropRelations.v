(** Properties of relations (C31, C33-C38).

    A match is built from a tree of the chart by [prepare_match]; [s] records the
    tokens held by the leaves at that moment ([token_at s l]; at the beginning
    [leaf_tk l]).  [related g root rl]: [rl] lists the nodes of the tree that
    carry a relation, with the relation object and the main leaf.  [joined rl ro
    a b]: leaves [a], [b] are listed under the same relation object [ro].
    [token_of ls ts l t]: [t] is the token of the match at leaf [l]. *)
From Verif Require Import Base EarleyModel EarleySpec TokenModel TreeModel ParserModel TreeSpec TreeProofs
  RelationSpec RelationModel RelationProofs BankProofs ParserSpec AgreementProofs IndependenceProofs RelationCases Cases
  IndependenceCases.
Open Scope nat_scope.

(** ** C33 *)
Theorem consistent_choice_is_accepted :
  forall pred (accepts : pred -> token -> bool) constrain rel g toks fuel all trees n range s n' rl w,
  parse accepts constrain g fuel toks all = Some trees -> In (n, range) trees -> respects_forms rel ->
  propagate n = Some n' -> related g n' rl -> consistent rel rl (token_at s) w ->
  exists s1 m, prepare_match rel g (n, range) s = Ok (s1, Some m) /\ m_root m = n' /\ m_range m = range /\
    forall ro l t, In (ro, l) rl -> token_of (tree_leaves n') (m_tokens m) l t -> has_form t (w (leaf_pos l)).
Proof.
  exact (fun pred accepts constrain rel g toks fuel all trees n range s n' rl w P =>
    consistent_accepted accepts constrain rel g toks fuel all trees P n range s n' rl w).
Qed.
Print Assumptions consistent_choice_is_accepted.
Theorem match_none_only_without_consistent_choice :
  forall pred (accepts : pred -> token -> bool) constrain rel g toks fuel trees s n range n' rl w,
  match_ accepts constrain rel g fuel toks = Some (Ok (s, None)) ->
  parse accepts constrain g fuel toks false = Some trees -> In (n, range) trees -> respects_forms rel ->
  propagate n = Some n' -> related g n' rl -> ~ consistent rel rl leaf_tk w.
Proof. exact @match_rejects_only_inconsistent. Qed.
Print Assumptions match_none_only_without_consistent_choice.
(** The relations of the library satisfy the hypothesis. *)
Theorem library_relations_respect_forms :
  forall R : nat -> relation,
  (forall ro, customs_are (fun c => forall a a' b b',
     form_eqb a a' = true -> form_eqb b b' = true -> c a b = c a' b') (R ro)) ->
  respects_forms (fun ro => relation_call (R ro)).
Proof. exact bank_respects. Qed.
Print Assumptions library_relations_respect_forms.

(** rule(A.match(gnc), B.match(gnc)): a is nominative or accusative, b
    accusative; only the accusative form of a survives. *)
Example consistent_choice_case :
  exists trees n n' rl w, gnc_parse two 50 two_text false = Some trees /\ In (n, (0, 2)) trees /\
  propagate n = Some n' /\ related two n' rl /\ consistent all_gnc rl leaf_tk w /\
  option_map (fun r => let! (s, m) := r in Ok (option_map (fun m => map t_forms (m_tokens m)) m)) (gnc_match two 50 two_text) =
  Some (Ok (Some [Some [mkForm (str_of "a") (map str_of accs) 0]; Some [mkForm (str_of "b") (map str_of accs) 0]])).
Proof. exact two_consistent. Qed.

(** ** C34: refuted.  Relation 1 joins a and b, relation 2 a and c, relation 3 b
    and d: the match is accepted although no surviving forms of a and b agree. *)
Theorem accepted_tokens_agree_refuted :
  exists (g : grammar token str) toks fuel s m rl ro a b ta tb,
  match_ word_accepts word_constrain all_gnc g fuel toks = Some (Ok (s, Some m)) /\
  related g (m_root m) rl /\ joined rl ro a b /\
  token_of (tree_leaves (m_root m)) (m_tokens m) a ta /\ token_of (tree_leaves (m_root m)) (m_tokens m) b tb /\
  forall f f', has_form ta f -> has_form tb f' -> all_gnc ro f f' = false.
Proof. exact square_refutes. Qed.
Print Assumptions accepted_tokens_agree_refuted.
(** Proved for two tokens that take part in no other joining, *)
Theorem accepted_pair_agrees_partial :
  forall pred (accepts : pred -> token -> bool) constrain rel g toks fuel all trees n range s s1 m rl ro a b ta tb,
  parse accepts constrain g fuel toks all = Some trees -> In (n, range) trees ->
  prepare_match rel g (n, range) s = Ok (s1, Some m) -> related g (m_root m) rl -> respects_forms rel ->
  joined rl ro a b -> a <> b ->
  (forall ro' x y, joined rl ro' x y -> x = a \/ x = b \/ y = a \/ y = b -> ro' = ro /\ x = a /\ y = b) ->
  token_of (tree_leaves (m_root m)) (m_tokens m) a ta -> token_of (tree_leaves (m_root m)) (m_tokens m) b tb ->
  exists fa fb, t_forms ta = Some fa /\ t_forms tb = Some fb /\ fa <> [] /\ fb <> [] /\
    (forall f, In f fa -> exists f', In f' fb /\ rel ro f f' = true) /\
    (forall f, In f fb -> exists f', In f' fa /\ rel ro f' f = true).
Proof.
  exact (fun pred accepts constrain rel g toks fuel all trees n range s s1 m rl ro a b ta tb P =>
    pair_agrees accepts constrain rel g toks fuel all trees P n range s s1 m rl ro a b ta tb).
Qed.
Print Assumptions accepted_pair_agrees_partial.
(** and for any number of tokens under one relation that is symmetric and
    transitive on their forms (e.g. case agreement of declinable words), each
    token having one relation. *)
Theorem accepted_group_agrees_partial :
  forall pred (accepts : pred -> token -> bool) constrain rel g toks fuel all trees n range s s1 m rl ro (D : form -> Prop) a b ta tb,
  parse accepts constrain g fuel toks all = Some trees -> In (n, range) trees ->
  prepare_match rel g (n, range) s = Ok (s1, Some m) -> related g (m_root m) rl -> respects_forms rel ->
  NoDup (map snd rl) ->
  (forall l fs f, In (ro, l) rl -> t_forms (token_at s l) = Some fs -> In f fs -> D f) ->
  (forall x y, D x -> D y -> rel ro x y = true -> rel ro y x = true) ->
  (forall x y z, D x -> D y -> D z -> rel ro x y = true -> rel ro y z = true -> rel ro x z = true) ->
  joined rl ro a b ->
  token_of (tree_leaves (m_root m)) (m_tokens m) a ta -> token_of (tree_leaves (m_root m)) (m_tokens m) b tb ->
  exists fa fb, t_forms ta = Some fa /\ t_forms tb = Some fb /\ fa <> [] /\ fb <> [] /\
    (forall f, In f fa -> exists f', In f' fb /\ rel ro f f' = true) /\
    (forall f, In f fb -> exists f', In f' fa /\ rel ro f' f = true).
Proof.
  exact (fun pred accepts constrain rel g toks fuel all trees n range s s1 m rl ro D a b ta tb P =>
    equivalence_agrees accepts constrain rel g toks fuel all trees P n range s s1 m rl ro D a b ta tb).
Qed.
Print Assumptions accepted_group_agrees_partial.
Theorem case_agreement_of_declinable_words :
  forall a b, case_fixed a = false -> case_fixed b = false ->
  (case_relation a b = true <-> case_mask a = case_mask b).
Proof. exact case_declined. Qed.
Print Assumptions case_agreement_of_declinable_words.

(** Three words in one relation. *)
Example group_case :
  option_map (fun r => let! (s, m) := r in Ok (option_map forms_shown m))
    (gnc_match (with_relations [[0]; [1]; [2]; [3]] [[RULE 1; RULE 2; RULE 3]; [WORD "a"]; [WORD "b"]; [WORD "c"]] [] [None; Some 1; Some 1; Some 1]) 50
       (morph_words [("a", [nomn; accs]); ("b", [accs; nomn]); ("c", [nomn])]%string)) =
  Some (Ok (Some [Some 1; Some 1; Some 1])).
Proof. vm_compute. reflexivity. Qed.

(** ** C35 *)
Theorem relations_only_remove_forms :
  forall pred (accepts : pred -> token -> bool) constrain rel g toks fuel all trees n range s s1 m rl,
  parse accepts constrain g fuel toks all = Some trees -> In (n, range) trees ->
  prepare_match rel g (n, range) s = Ok (s1, Some m) -> related g (m_root m) rl ->
  length (m_tokens m) = length (tree_leaves (m_root m)) /\
  forall l t, token_of (tree_leaves (m_root m)) (m_tokens m) l t ->
    same_text t (token_at s l) /\
    ((forall ro, ~ In (ro, l) rl) -> t = token_at s l) /\
    ((exists ro, In (ro, l) rl) -> exists before after, t_forms (token_at s l) = Some before /\ t_forms t = Some after /\
       after <> [] /\ (forall f, In f after -> In f before) /\
       ((exists ro l', joined rl ro l l' \/ joined rl ro l' l) -> distinct_forms after) /\
       ((forall ro l', ~ joined rl ro l' l) -> sublist after before)).
Proof.
  exact (fun pred accepts constrain rel g toks fuel all trees n range s s1 m rl P =>
    filtering accepts constrain rel g toks fuel all trees P n range s s1 m rl).
Qed.
Print Assumptions relations_only_remove_forms.

(** ** C36 *)
Theorem relations_are_symmetric :
  forall r, customs_are (fun c => forall a b, c a b = c b a) r ->
  forall a b, relation_call r a b = relation_call r b a.
Proof. exact call_sym. Qed.
Print Assumptions relations_are_symmetric.
Theorem gnc_is_conjunction :
  forall a b, relation_call RGnc a b = relation_call (RAnd [RGender; RNumber; RCase]) a b.
Proof. exact gnc_conj. Qed.
Print Assumptions gnc_is_conjunction.
Theorem relation_connectives :
  (forall rs a b, relation_call (RAnd rs) a b = true <-> forall r, In r rs -> relation_call r a b = true) /\
  (forall rs a b, relation_call (ROr rs) a b = true <-> exists r, In r rs /\ relation_call r a b = true) /\
  (forall r a b, relation_call (RNot r) a b = true <-> relation_call r a b <> true).
Proof. exact connectives. Qed.
Print Assumptions relation_connectives.

(** ** C37: refuted for common-gender words (Ms-f) and forms without number;
    exactly characterised. *)
Theorem form_agrees_with_itself_refuted :
  (exists f, f_grams f = map str_of ["NOUN"; "Ms-f"; "sing"; "nomn"]%string /\ relation_call RGender f f = false) /\
  (exists f, f_grams f = map str_of ["NPRO"; "masc"; "nomn"]%string /\ relation_call RNumber f f = false) /\
  (exists f, f_grams f = map str_of ["NOUN"; "Ms-f"; "sing"; "nomn"]%string /\ relation_call RGnc f f = false).
Proof. exact self_disagreement. Qed.
Print Assumptions form_agrees_with_itself_refuted.
Theorem form_agrees_with_itself_partial :
  (forall f, relation_call RCase f f = true) /\
  (forall f, relation_call RGender f f = true <->
     plural (form_number f) = true \/ male (form_gender f) = true \/ female (form_gender f) = true \/
     neutral (form_gender f) = true \/ general (form_gender f) = true) /\
  (forall f, relation_call RNumber f f = true <-> single (form_number f) = true \/ plural (form_number f) = true) /\
  (forall f, relation_call RGnc f f = true <-> relation_call RGender f f = true /\ relation_call RNumber f f = true).
Proof. exact self_agreement. Qed.
Print Assumptions form_agrees_with_itself_partial.

(** ** C38: refuted.  A reported match has lost forms to a candidate that is not
    reported; a valid match is lost because of a candidate that is not
    reported. *)
Theorem matches_are_independent_refuted :
  exists (g : grammar token str) toks fuel s ms m trees t s' m',
  findall word_accepts word_constrain all_gnc g fuel toks = Some (Ok (s, ms)) /\ In m ms /\
  parse word_accepts word_constrain g fuel toks true = Some trees /\ In t trees /\
  (forall t', In t' trees -> snd t' = m_range m -> t' = t) /\
  prepare_match all_gnc g t [] = Ok (s', Some m') /\ m_root m' = m_root m /\ m_tokens m' <> m_tokens m.
Proof. exact sharing_refutes. Qed.
Print Assumptions matches_are_independent_refuted.
Theorem acceptance_is_independent_refuted :
  exists (g : grammar token str) toks fuel s ms trees t s' m',
  findall word_accepts word_constrain all_gnc g fuel toks = Some (Ok (s, ms)) /\
  parse word_accepts word_constrain g fuel toks true = Some trees /\ In t trees /\
  prepare_match all_gnc g t [] = Ok (s', Some m') /\
  left_to_right 0 (m_range m' :: map m_range ms) /\ ~ In (m_range m') (map m_range ms).
Proof. exact losing_refutes. Qed.
Print Assumptions acceptance_is_independent_refuted.
(** Proved when no leaf related in one candidate is part of a candidate with
    another range: every match is the one its tree gives on its own, and the
    ranges reported are the best choice among the trees accepted on their own.
    [unshared] holds of every grammar without relations. *)
Theorem matches_are_independent_partial :
  forall pred (accepts : pred -> token -> bool) constrain rel g toks fuel trees s ms,
  parse accepts constrain g fuel toks true = Some trees -> unshared g trees ->
  findall accepts constrain rel g fuel toks = Some (Ok (s, ms)) ->
  best_ranges (fun r => exists t s' m, In t trees /\ snd t = r /\ prepare_match rel g t [] = Ok (s', Some m)) (map m_range ms) /\
  (forall m, In m ms -> exists t s', In t trees /\ snd t = m_range m /\ prepare_match rel g t [] = Ok (s', Some m) /\
     forall u, In u trees -> snd u = m_range m -> tree_before u t -> prepare_match rel g u [] = Ok ([], None)).
Proof. exact @findall_alone. Qed.
Print Assumptions matches_are_independent_partial.

(** Three overlapping candidates, two of them accepted. *)
Example matches_are_independent_case :
  exists trees, gnc_parse chain 100 chain_text true = Some trees /\ unshared chain trees /\
  option_map (fun r => let! (s, ms) := r in Ok (map (fun m => (m_range m, forms_shown m)) ms))
    (gnc_findall chain 100 chain_text) = Some (Ok [((0, 2), [Some 1; Some 1]); ((2, 4), [Some 1; Some 1])]).
Proof. exact chain_unshared. Qed.

(** ** C31: refuted.  rule(x.optional(), main(y), z) with x absent: z is checked
    instead of y; rule(x.optional(), main(y)) raises IndexError. *)
Theorem main_term_is_checked_refuted :
  exists (g : grammar token str) toks fuel trees t n n' l l',
  parse word_accepts word_constrain g fuel toks false = Some trees /\ In t trees /\
  In n (walk (fst t)) /\ propagate n = Some n' /\ main_leaf g n l /\ main_leaf g n' l' /\ leaf_pos l <> leaf_pos l' /\
  match_ word_accepts word_constrain all_gnc g fuel toks = Some (Ok ([], None)).
Proof. exact optional_refutes. Qed.
Print Assumptions main_term_is_checked_refuted.
Theorem main_term_never_raises_refuted :
  match_ word_accepts word_constrain all_gnc optional_raises 50 (morph_words [("y", [accs])]%string) = Some (Err IndexError).
Proof. exact optional_raises_case. Qed.
Print Assumptions main_term_never_raises_refuted.
(** Proved when the parts before the main term are not empty. *)
Theorem main_term_is_checked_partial :
  forall pred (g : grammar token pred) n n' l,
  solid_main g n l -> propagate n = Some n' -> main_leaf g n' l.
Proof. exact solid_main_kept. Qed.
Print Assumptions main_term_is_checked_partial.
