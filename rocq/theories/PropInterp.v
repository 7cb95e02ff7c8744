(** Properties of interpretation (C32, C39-C45, C73). *)
From Coq Require String Sorted.
From Verif Require Import Base TokenModel EarleyModel EarleySpec TreeModel TreeSpec ParserModel ParserSpec TokenizerSpec PredicateModel PipelineModel PipelineTheorems
  InterpModel InterpSpec InterpProofs FactTheorems ResultWf InterpTheorems InterpMatch Cases PredicateCases InterpCases.

(** ** C32 *)
Theorem interpreted_tree_is_condensed :
  forall pred (g : grammar token pred) n n', keep g n = Ok n' -> condensed g n n'.
Proof. exact @keep_condensed. Qed.
Print Assumptions interpreted_tree_is_condensed.
Theorem interpreted_tree_keeps_every_leaf :
  forall pred (g : grammar token pred) n n', keep g n = Ok n' -> tree_leaves n' = tree_leaves n.
Proof. exact @keep_leaves. Qed.
Print Assumptions interpreted_tree_keeps_every_leaf.
Theorem only_interpreted_roots_are_interpreted :
  forall pred (g : grammar token pred) n,
  (interpreted g n <-> exists n', keep g n = Ok n') /\ (forall e, keep g n = Err e -> e = ValueError /\ ~ interpreted g n).
Proof. exact (fun pred g n => conj (iff_sym (@keep_ok pred g n)) (@keep_error pred g n)). Qed.
Print Assumptions only_interpreted_roots_are_interpreted.
(** The transformation of the model is the recursive visit of the code. *)
Theorem visit_computes_the_condensed_tree :
  forall pred (g : grammar token pred) fuel n, TreeProofs.size n <= fuel -> is_leaf n = false -> keep_visit g fuel n = Some (keep g n).
Proof. exact @keep_visit_keep. Qed.
Print Assumptions visit_computes_the_condensed_tree.

(** Rule 1 has no interpretation: its two words come right under the root. *)
Example condensed_case :
  let g := interp_grammar [[0]; [1]; [2; 3]]
             [[RULE 1; RULE 2; RULE 2]; [WORD "john"; WORD "smith"]; [WORD "tall"]; [WORD "old"]] [Some 0; None; Some 1] in
  option_map (fun x => (erase (m_root (snd x)), match keep g (m_root (snd x)) with Ok n => Some (erase n) | Err _ => None end)) (first g john) =
  Some (DNode 0 0 [DNode 1 1 [DLeaf 0 (k "john"); DLeaf 1 (k "smith")]; DNode 2 2 [DLeaf 2 (k "tall")]; DNode 2 3 [DLeaf 3 (k "old")]],
        Some (DNode 0 0 [DLeaf 0 (k "john"); DLeaf 1 (k "smith"); DNode 2 2 [DLeaf 2 (k "tall")]; DNode 2 3 [DLeaf 3 (k "old")]])).
Proof. vm_compute. reflexivity. Qed.

(** ** C39 *)
Theorem plain_attribute_default :
  forall schemes subclass sc items f v k d,
  call_fact schemes subclass sc items = Ok (RFact f) -> normalized_fact schemes f = Ok v ->
  get_decl k (schemes sc) = Some (Plain d) -> assigned subclass sc k items = [] ->
  (forall i, In i items -> part_sets subclass sc k i = false) ->
  value_attr k v = Some d.
Proof. exact plain_default. Qed.
Print Assumptions plain_attribute_default.
Theorem plain_attribute_last_value :
  forall schemes subclass sc before r a after f v k d,
  call_fact schemes subclass sc (before ++ IResult (RAttr r a) :: after) = Ok (RFact f) -> normalized_fact schemes f = Ok v ->
  get_decl k (schemes sc) = Some (Plain d) -> subclass sc (a_fact a) = true -> a_name a = k ->
  assigned subclass sc k after = [] -> (forall i, In i after -> part_sets subclass sc k i = false) ->
  exists y, normalized_result schemes r = Ok y /\ value_attr k v = Some y.
Proof. exact plain_last_assigned. Qed.
Print Assumptions plain_attribute_last_value.
Theorem repeatable_attribute_all_values :
  forall schemes subclass sc items f v k,
  call_fact schemes subclass sc items = Ok (RFact f) -> normalized_fact schemes f = Ok v ->
  get_decl k (schemes sc) = Some Repeatable -> (forall i, In i items -> part_sets subclass sc k i = false) ->
  exists ys, mapM (normalized_result schemes) (assigned subclass sc k items) = Ok ys /\ value_attr k v = Some (VList ys).
Proof. exact repeatable_all. Qed.
Print Assumptions repeatable_attribute_all_values.
Theorem facts_list_attributes_in_declaration_order :
  forall schemes sc rep chg attrs values raw, NoDup (map fst (schemes sc)) ->
  normalized_fact schemes (mkFact sc rep chg attrs) = Ok (VFact sc values raw) -> map fst values = map fst (schemes sc).
Proof. exact fact_order. Qed.
Print Assumptions facts_list_attributes_in_declaration_order.

Example fact_case :
  option_map (map attrs_of) (all_facts person_grammar person_interps john) =
  Some [[(k "name", VStr (k "john smith")); (k "age", VStr (k "adult")); (k "tags", VList [VStr (k "tall"); VStr (k "old")])]].
Proof. vm_compute. reflexivity. Qed.

(** ** C40 *)
Theorem merged_plain_attribute_last_part :
  forall schemes subclass sc before part after f v pv k d, kinds_agree schemes subclass ->
  call_fact schemes subclass sc (before ++ IResult (RFact part) :: after) = Ok (RFact f) -> normalized_fact schemes f = Ok v ->
  get_decl k (schemes sc) = Some (Plain d) -> built schemes subclass part -> normalized_fact schemes part = Ok pv ->
  part_sets subclass sc k (IResult (RFact part)) = true -> assigned subclass sc k after = [] ->
  (forall i, In i after -> part_sets subclass sc k i = false) ->
  exists y, value_attr k pv = Some y /\ value_attr k v = Some y.
Proof. exact plain_last_part. Qed.
Print Assumptions merged_plain_attribute_last_part.
(** What the code does with repeatable attributes: the last part that sets the
    attribute replaces everything before it. *)
Theorem merged_repeatable_attribute_partial :
  forall schemes subclass sc before part after f v pv k, kinds_agree schemes subclass ->
  call_fact schemes subclass sc (before ++ IResult (RFact part) :: after) = Ok (RFact f) -> normalized_fact schemes f = Ok v ->
  get_decl k (schemes sc) = Some Repeatable -> built schemes subclass part -> normalized_fact schemes part = Ok pv ->
  part_sets subclass sc k (IResult (RFact part)) = true -> (forall i, In i after -> part_sets subclass sc k i = false) ->
  exists l ys, value_attr k pv = Some (VList l) /\ mapM (normalized_result schemes) (assigned subclass sc k after) = Ok ys /\
    value_attr k v = Some (VList (l ++ ys)).
Proof. exact repeatable_last_part. Qed.
Print Assumptions merged_repeatable_attribute_partial.
Theorem merging_keeps_repeatable_values_refuted :
  exists schemes subclass sc key p1 p2 f v v1 v2 l1 l2,
  kinds_agree schemes subclass /\ get_decl key (schemes sc) = Some Repeatable /\
  built schemes subclass p1 /\ built schemes subclass p2 /\
  call_fact schemes subclass sc [IResult (RFact p1); IResult (RFact p2)] = Ok (RFact f) /\
  normalized_fact schemes p1 = Ok v1 /\ normalized_fact schemes p2 = Ok v2 /\ normalized_fact schemes f = Ok v /\
  value_attr key v1 = Some (VList l1) /\ value_attr key v2 = Some (VList l2) /\
  l1 <> [] /\ value_attr key v = Some (VList l2).
Proof. exact parts_refute. Qed.
Print Assumptions merging_keeps_repeatable_values_refuted.

Example merge_case :
  kinds_agree classes same_class /\ built classes same_class (tag_part "old") /\
  option_map (map attrs_of) (all_facts parts_grammar person_interps john) =
  Some [[(k "name", VStr (k "john smith")); (k "age", VStr (k "adult")); (k "tags", VList [VStr (k "old")])]].
Proof. split; [exact classes_kinds|]. split; [apply tag_part_built|]. vm_compute. reflexivity. Qed.

(** ** C41 *)
Theorem json_agrees_with_the_fact_partial :
  forall schemes subclass U inflect pred (g : grammar token pred) interps s m v,
  kinds_agree schemes subclass ->
  (forall sc k d, get_decl k (schemes sc) = Some (Plain d) -> fact_free d) ->
  (forall i, interpretator_values fact_free (interps i)) ->
  match_fact schemes subclass U inflect g interps s m = Ok v ->
  (is_fact v -> value_json schemes v = Ok (to_json v)) /\ (~ is_fact v -> value_json schemes v = Err AttributeError).
Proof. exact (fun schemes subclass U inflect pred g interps => @fact_json_only schemes subclass U inflect pred g interps). Qed.
Print Assumptions json_agrees_with_the_fact_partial.
(** Facts passed through a user function are not converted. *)
Theorem json_agrees_with_the_fact_refuted :
  exists g interps toks fuel s m v j,
  kinds_agree classes same_class /\
  reported word_accepts word_constrain (fun _ _ _ => true) g fuel toks s m /\
  match_fact classes same_class ASCII no_inflect g interps s m = Ok v /\ is_fact v /\
  value_json classes v = Ok j /\ j <> to_json v.
Proof. exact json_refutes. Qed.
Print Assumptions json_agrees_with_the_fact_refuted.

Example json_case :
  kinds_agree classes same_class /\
  (forall sc k d, get_decl k (classes sc) = Some (Plain d) -> fact_free d) /\
  (forall i, interpretator_values fact_free (person_interps i)) /\
  option_map (map json_of_fact) (all_facts person_grammar person_interps john) =
    Some [Ok (VDict [(k "name", VStr (k "john smith")); (k "age", VStr (k "adult")); (k "tags", VList [VStr (k "tall"); VStr (k "old")])])] /\
  option_map (map json_of_fact) (all_facts deal_grammar deal_interps deal) =
    Some [Ok (VDict [(k "who", VDict [(k "name", VStr (k "john")); (k "age", VStr (k "adult")); (k "tags", VList [])]);
                     (k "money", VStr (k "ten euro"))])].
Proof.
  split; [exact classes_kinds|]. split; [exact classes_free|]. split; [intros [|[|]]; exact I|]. vm_compute. split; reflexivity.
Qed.

(** ** C42 *)
Theorem fact_spans_are_spans_of_its_text_partial :
  forall schemes subclass U inflect pred (accepts : pred -> token -> bool) constrain rel g interps fuel toks s m sc v,
  predicates_narrow accepts constrain -> kinds_agree schemes subclass ->
  (forall i, const_interpretator (interps i) = false) ->
  reported accepts constrain rel g fuel toks s m -> root_class g interps (m_root m) sc ->
  match_fact schemes subclass U inflect g interps s m = Ok v ->
  exists l f, value_spans v = Ok l /\ Sorted.StronglySorted (fun a b => (fst a <= fst b)%Z) l /\
    interpret schemes subclass U inflect g interps s (m_root m) = Ok (RFact f) /\
    (forall sp, In sp l <-> exists ts, chain_in (RFact f) ts /\ get_tokens_span ts = Ok sp) /\
    (forall ts, chain_in (RFact f) ts -> exists i j, fst (m_range m) <= i < j /\ j <= snd (m_range m) /\
       Forall2 (stands_for_token toks) (seq i (j - i)) ts) /\
    (forall sp, In sp l -> exists i j a b, fst (m_range m) <= i <= j /\ j < snd (m_range m) /\
       nth_error toks i = Some a /\ nth_error toks j = Some b /\ sp = (t_start a, t_stop b)).
Proof. exact @fact_spans. Qed.
Print Assumptions fact_spans_are_spans_of_its_text_partial.
Theorem fact_spans_inside_the_match_partial :
  forall schemes subclass U inflect pred (accepts : pred -> token -> bool) constrain rel g interps fuel toks s m sc v,
  predicates_narrow accepts constrain -> kinds_agree schemes subclass ->
  (forall i, const_interpretator (interps i) = false) ->
  reported accepts constrain rel g fuel toks s m -> root_class g interps (m_root m) sc ->
  match_fact schemes subclass U inflect g interps s m = Ok v ->
  in_order toks -> (forall t, In t toks -> (t_start t <= t_stop t)%Z) ->
  forall l sp, value_spans v = Ok l -> In sp l ->
  (fst (m_span m) <= fst sp <= snd sp)%Z /\ (snd sp <= snd (m_span m))%Z.
Proof. exact @spans_inside. Qed.
Print Assumptions fact_spans_inside_the_match_partial.
(** A part interpreted with const makes [spans] fail. *)
Theorem fact_spans_never_raise_refuted :
  exists g interps toks fuel s m v,
  kinds_agree classes same_class /\
  reported word_accepts word_constrain (fun _ _ _ => true) g fuel toks s m /\
  match_fact classes same_class ASCII no_inflect g interps s m = Ok v /\ is_fact v /\
  value_spans v = Err AttributeError.
Proof. exact spans_refute. Qed.
Print Assumptions fact_spans_never_raise_refuted.

Example spans_case : exists s m,
  reported word_accepts word_constrain (fun _ _ _ => true) deal_grammar 50 deal s m /\
  root_class deal_grammar deal_interps (m_root m) DEAL /\ m_span m = (0, 13)%Z /\
  (forall i, const_interpretator (deal_interps i) = false) /\
  spans_of_fact (match_fact classes same_class ASCII no_inflect deal_grammar deal_interps s m) = Ok [(0, 4); (5, 13)]%Z.
Proof.
  destruct (first deal_grammar deal) as [[s m]|] eqn:F; [|vm_compute in F; discriminate].
  exists s, m. split; [exact (first_reported _ _ _ _ F)|]. vm_compute in F. injection F as <- <-.
  split; [do 6 eexists; split; [reflexivity|split; reflexivity]|]. split; [reflexivity|].
  split; [intros [|[|[|[|[|]]]]]; reflexivity|]. vm_compute. reflexivity.
Qed.

(** ** C43 *)
Theorem attribute_raises_iff_ambiguous :
  forall a items key, Forall proper_item items ->
  (ambiguous items -> call_attribute a items key = Err TypeError) /\
  (~ ambiguous items -> exists r, call_attribute a items key = Ok (RAttr r a)).
Proof. exact attribute_ambiguous. Qed.
Print Assumptions attribute_raises_iff_ambiguous.
Theorem normalizer_raises_if_ambiguous_partial :
  forall schemes U inflect n items key, is_const n = false ->
  (ambiguous items -> call_norm schemes U inflect n items key = Err TypeError) /\
  (~ ambiguous items -> exists r, source_of items key r /\
     call_norm schemes U inflect n items key =
     (let! v := call_normalizer schemes U inflect n r in Ok (RNorm v (NResult r)))).
Proof. exact (fun schemes U inflect n items key C => conj (norm_ambiguous schemes U inflect n items key C) (norm_clear schemes U inflect n items key C)). Qed.
Print Assumptions normalizer_raises_if_ambiguous_partial.
(** normalized() and inflected() also refuse a single item that is not a token. *)
Theorem normalizer_raises_iff_ambiguous_refuted :
  exists schemes U inflect n items key, is_const n = false /\ Forall proper_item items /\ ~ ambiguous items /\
  call_norm schemes U inflect n items key = Err TypeError.
Proof. exact single_refutes. Qed.
Print Assumptions normalizer_raises_iff_ambiguous_refuted.
Theorem const_never_raises :
  forall schemes subclass U inflect a v items key,
  (exists r, call_interpretator schemes subclass U inflect (INorm (NConst v)) items key = Ok r /\ normalized_result schemes r = Ok v) /\
  (exists r, call_interpretator schemes subclass U inflect (IAttrNorm a (NConst v)) items key = Ok (RAttr r a) /\ normalized_result schemes r = Ok v).
Proof. exact const_value. Qed.
Print Assumptions const_never_raises.
Theorem facts_ignore_other_items :
  forall schemes subclass sc items,
  call_fact schemes subclass sc items = call_fact schemes subclass sc (filter (relevant subclass sc) items).
Proof. exact only_relevant. Qed.
Print Assumptions facts_ignore_other_items.

Example ambiguous_case :
  Forall proper_item [IResult (RAttr (RChain deal None) NAME); IToken a_token] /\
  ambiguous [IResult (RAttr (RChain deal None) NAME); IToken a_token] /\
  ~ ambiguous [IResult (RAttr (RChain deal None) NAME)] /\ ~ ambiguous (map IToken deal) /\
  filter (relevant same_class PERSON) [IResult (RAttr (RChain deal None) AMOUNT); IToken a_token;
    IResult (RAttr (RChain deal None) NAME)] = [IResult (RAttr (RChain deal None) NAME)].
Proof. exact ambiguous_examples. Qed.

(** ** C44 *)
Theorem custom_is_applied_last :
  forall schemes subclass U inflect x f x' items key, Forall proper_item items -> attribute_custom f x = Ok x' ->
  value_of schemes subclass U inflect (attribute_interpretator x') items key =
  (let! w := value_of schemes subclass U inflect (attribute_interpretator x) items key in f w).
Proof. exact custom_attribute. Qed.
Print Assumptions custom_is_applied_last.
Theorem normalizer_custom_is_applied_last :
  forall schemes subclass U inflect n f n' items key, normalizer_custom n f = Ok n' ->
  value_of schemes subclass U inflect (INorm n') items key =
  (let! w := value_of schemes subclass U inflect (INorm n) items key in f w).
Proof. exact custom_normalizer. Qed.
Print Assumptions normalizer_custom_is_applied_last.
Theorem custom_twice_composes :
  forall schemes subclass U inflect a f h items key r, Forall proper_item items -> source_of items key r ->
  exists x y, attribute_custom f (AAttribute a) = Ok x /\ attribute_custom h x = Ok y /\
  value_of schemes subclass U inflect (attribute_interpretator y) items key =
    (let! w := normalized_result schemes r in let! v := f w in h v).
Proof. exact custom_twice. Qed.
Print Assumptions custom_twice_composes.
Theorem custom_keeps_the_attribute :
  forall schemes subclass U inflect x f x', attribute_custom f x = Ok x' ->
  forall items key r, call_interpretator schemes subclass U inflect (attribute_interpretator x') items key = Ok r ->
  exists v, r = RAttr v (base_attr x).
Proof. exact attribute_kept. Qed.
Print Assumptions custom_keeps_the_attribute.
Theorem reinterpreting_replaces_the_attribute :
  forall schemes subclass U inflect a b v key,
  call_interpretator schemes subclass U inflect (IAttr b) [IResult (RAttr v a)] key = Ok (RAttr v b).
Proof. exact reinterpret. Qed.
Print Assumptions reinterpreting_replaces_the_attribute.

Example custom_case :
  let add c := fun v => match v with VStr s => Ok (VStr (s ++ [c])) | v => Ok v end in
  Forall proper_item (map IToken deal) /\
  (let! x := attribute_custom (add 49%N) (AAttribute NAME) in let! y := attribute_custom (add 50%N) x in
   value_of classes same_class ASCII no_inflect (attribute_interpretator y) (map IToken deal) None)
  = Ok (VStr (k "john ten euro12")).
Proof. split; [repeat constructor|]. vm_compute. reflexivity. Qed.

(** ** C45 *)
Theorem attribute_value_is_the_joined_text :
  forall schemes subclass U inflect a ts key s, ts <> [] ->
  (value_of schemes subclass U inflect (IAttr a) (map IToken ts) key = Ok (VStr s) <-> joined ts s).
Proof. exact value_joined. Qed.
Print Assumptions attribute_value_is_the_joined_text.
Theorem joined_text_is_unique :
  forall ts, ts <> [] -> exists s, joined ts s /\ forall s', joined ts s' -> s' = s.
Proof. exact joined_exists. Qed.
Print Assumptions joined_text_is_unique.
Theorem joined_text_is_the_source_text :
  forall text ts s, joined ts s -> Forall (faithful text) ts -> single_spaces text ts ->
  exists before after, text = before ++ s ++ after /\
    match ts with t :: _ => t_start t = Z.of_nat (length before) | [] => True end.
Proof. exact joined_source. Qed.
Print Assumptions joined_text_is_the_source_text.
Theorem normalized_pipeline_part_is_the_line :
  forall schemes subclass U inflect pred (g : grammar token pred) interps s id r q rank ch i c line,
  Forall a_leaf ch -> g_interp g r = Some i -> g_key g q = Some (c :: line) ->
  (interps i = INorm (NMorph MNormalized) \/ (exists a, interps i = IAttrNorm a (NMorph MNormalized))) ->
  exists x, visit_interp schemes subclass U inflect g interps s (Node id r q rank ch) = Ok (IResult x) /\
    normalized_result schemes x = Ok (VStr (c :: line)).
Proof. exact @line_value. Qed.
Print Assumptions normalized_pipeline_part_is_the_line.

Example text_case :
  joined deal (k "john ten euro") /\ Forall (faithful (k "john ten euro")) deal /\ single_spaces (k "john ten euro") deal /\
  normalized_line Caseless cities new_york = Some (Ok (VStr (k "New York"))).
Proof. exact text_examples. Qed.

(** ** C73 *)
Theorem words_are_normalized_or_inflected :
  forall schemes subclass U inflect m ts key i, ts <> [] -> (m = MNormalized -> key = None \/ key = Some []) ->
  (i = INorm (NMorph m) \/ exists a, i = IAttrNorm a (NMorph m)) ->
  (forall s, value_of schemes subclass U inflect i (map IToken ts) key = Ok (VStr s) <-> exists ts', Forall2 (reworded U inflect m) ts ts' /\ joined ts' s) /\
  (forall e, value_of schemes subclass U inflect i (map IToken ts) key = Err e <-> e = IndexError /\ exists t, In t ts /\ t_forms t = Some []).
Proof. exact value_reworded. Qed.
Print Assumptions words_are_normalized_or_inflected.
(** 'Steels' with two forms, an unknown word without forms; the analyzer inflects 'steel' only. *)
Example inflected_case :
  let t := mkToken (k "Steels") 0 6 (k "RU") None (Some [noun_form; verb_form]) in let u := mkToken (k "XyZ") 7 10 (k "LATIN") None None in
  let v := mkToken (k "became") 10 16 (k "RU") None (Some [verb_form]) in
  let inflect raw grams := if Nat.eqb raw 0 then Some (k "stali") else None in
  value_of classes same_class ASCII inflect (INorm (NMorph (MInflected [k "gent"]))) (map IToken [t; u; v]) (Some (k "line")) = Ok (VStr (k "stali xyzbecome")) /\
  value_of classes same_class ASCII inflect (IAttrNorm NAME (NMorph MNormalized)) (map IToken [t; u; v]) None = Ok (VStr (k "steel xyzbecome")) /\
  value_of classes same_class ASCII inflect (INorm (NMorph MNormalized)) (map IToken [mkToken (k "x") 0 1 (k "RU") None (Some [])]) None = Err IndexError.
Proof. repeat split; vm_compute; reflexivity. Qed.
