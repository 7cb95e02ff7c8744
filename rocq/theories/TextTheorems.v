(** A Parser applied to a text: theorems and cases. *)
From Coq Require String.
From Verif Require Import Base TokenModel EarleyModel EarleySpec TokenizerModel TokenizerSpec TokenizerProofs TaggerModel PredicateModel PredicateProofs PredicateCases PipelineModel PipelineSpec PipelineTheorems
  TreeModel TreeSpec ParserModel ParserSpec ParserTheorems AgreeProofs ReportProofs RuleModel RuleSpec RuleAccept RuleNormalized RuleBuild
  GrammarModel GrammarSpec RuleNestSpec RuleMild RuleTheorems RuleCases TextModel TextSpec TextProofs IndexSim.
Open Scope nat_scope.

Section Text.
  Variable U : unicode.
  Variable set_order : list str -> list str.
  Variable c : context.
  Hypothesis sets : set_iteration set_order.
  Variable rel : nat -> form -> form -> bool.
  Notation accept := (rule_accepts U set_order c).

  Lemma with_parser_ok {A} fuel h root text (f : grammar token predicate -> list token -> option (res A)) a : with_parser U set_order c fuel h root text f = Some (Ok a) ->
    exists g toks, parser_grammar U set_order c fuel h root = Some (Ok g) /\ text_tokens c text = Some (Ok toks) /\ f g toks = Some (Ok a).
  Proof. intros H. apply then_ok in H as (g & Hg & H). apply then_ok in H as (toks & Ht & H). exists g, toks. auto. Qed.
  Lemma with_parser_on {A} fuel h root text (f : grammar token predicate -> list token -> option (res A)) g toks : parser_grammar U set_order c fuel h root = Some (Ok g) -> text_tokens c text = Some (Ok toks) ->
    with_parser U set_order c fuel h root text f = f g toks.
  Proof. intros Hg Ht. unfold with_parser, then_. rewrite Hg, Ht. reflexivity. Qed.

  Notation match_of := (match_of U set_order c).
  Lemma good_start (toks : list token) (m : amatch (pred := predicate)) : (exists a b, nth_error toks (fst (m_range m)) = Some a /\ nth_error toks (snd (m_range m) - 1) = Some b /\ fst (m_range m) < snd (m_range m) /\ m_span m = (t_start a, t_stop b)) -> fst (m_range m) <= length toks.
  Proof. intros (a & b & E & _). assert (fst (m_range m) < length toks) by (apply nth_error_Some; congruence). lia. Qed.

  Section Rule.
    Variable fuel : nat.
    Variable h : rule_heap.
    Variable root : nat.
    Variable text : str.
    Hypothesis built0 : built h.
    Hypothesis mild0 : harmless h root.
    Hypothesis rule0 : is_rule_at h root.

    Theorem text_findall s ms : parser_findall U set_order c rel fuel h root text = Some (Ok (s, ms)) ->
      exists toks, text_tokens c text = Some (Ok toks) /\ forall m, In m ms -> match_of h root toks m.
    Proof.
      intros H. apply with_parser_ok in H as (g & toks & Hg & Ht & H). exists toks. split; [exact Ht|]. intros m Hm.
      destruct (findall_reported (accepts U) narrow rel g toks fuel s ms m H Hm) as (trees & n & P & Hn & _).
      destruct (findall_good (accepts U) narrow rel g toks fuel s ms m (bank_narrow U) H Hm) as (F & G). split; [|split; [exact F|exact G]].
      destruct (m_range m) as [i j] eqn:E. apply (tree_accepted U set_order c sets fuel h root g built0 mild0 rule0 Hg true toks trees n i j P Hn). pose proof (good_start toks m) as L. rewrite E in L. apply L, G.
    Qed.
    Theorem text_match s m : parser_match U set_order c rel fuel h root text = Some (Ok (s, Some m)) ->
      exists toks, text_tokens c text = Some (Ok toks) /\ match_of h root toks m /\ snd (m_range m) = length toks.
    Proof.
      intros H. apply with_parser_ok in H as (g & toks & Hg & Ht & H). exists toks. split; [exact Ht|].
      destruct (match_reported (accepts U) narrow rel g toks fuel s m H) as (trees & n & P & Hn & _).
      destruct (match_good (accepts U) narrow rel g toks fuel s m (bank_narrow U) H) as (F & G).
      destruct (m_range m) as [i j] eqn:E. assert (i <= length toks) as L by (pose proof (good_start toks m) as L; rewrite E in L; apply L, G). split; [split; [|rewrite E; split; [exact F|exact G]]|].
      - rewrite E. apply (tree_accepted U set_order c sets fuel h root g built0 mild0 rule0 Hg false toks trees n i j P Hn L).
      - destruct (parse_sound (accepts U) narrow g fuel toks false trees n i j (proj1 (usable U set_order c sets fuel h root g built0 mild0 rule0 Hg)) P Hn) as (_ & _ & _ & J). apply J. reflexivity.
    Qed.
    Theorem text_extract all ms s e : parser_extract U set_order c rel fuel h root text all = Some (Ok (ms, s, e)) ->
      exists toks, text_tokens c text = Some (Ok toks) /\ forall m, In m ms -> match_of h root toks m.
    Proof.
      intros H. apply with_parser_ok in H as (g & toks & Hg & Ht & H). destruct (extract (accepts U) narrow rel g fuel toks all) as [x|] eqn:Ex; [|discriminate]. injection H as ->.
      exists toks. split; [exact Ht|]. intros m Hm.
      destruct (extract_reported (accepts U) narrow rel g toks fuel all ms s e m Ex Hm) as (trees & n & P & Hn & _).
      destruct (extract_good (accepts U) narrow rel g toks fuel all ms s e m (bank_narrow U) Ex Hm) as (F & G). split; [|split; [exact F|exact G]].
      destruct (m_range m) as [i j] eqn:E. apply (tree_accepted U set_order c sets fuel h root g built0 mild0 rule0 Hg all toks trees n i j P Hn). pose proof (good_start toks m) as L. rewrite E in L. apply L, G.
    Qed.

    Variable g : grammar token predicate.
    Variable toks : list token.
    Hypothesis made : parser_grammar U set_order c fuel h root = Some (Ok g).
    Hypothesis tokenized : text_tokens c text = Some (Ok toks).
    Hypothesis solid0 : solid h root.
    Theorem text_findall_best r : parser_findall U set_order c rel fuel h root text = Some r ->
      exists s ms, r = Ok (s, ms) /\ best_ranges (fun x => accept h root toks (fst x) (snd x)) (map m_range ms).
    Proof. unfold parser_findall. rewrite (with_parser_on fuel h root text _ g toks made tokenized). apply (solid_findall U set_order c sets fuel h root g built0 mild0 rule0 made solid0). Qed.
    Theorem text_match_solid r : parser_match U set_order c rel fuel h root text = Some r ->
      (exists s m, r = Ok (s, Some m) /\ snd (m_range m) = length toks /\ accept h root toks (fst (m_range m)) (snd (m_range m)) /\ (start_not_used g -> fst (m_range m) = 0)) \/
      (r = Ok ([], None) /\ ~ accept h root toks 0 (length toks)).
    Proof. unfold parser_match. rewrite (with_parser_on fuel h root text _ g toks made tokenized). apply (solid_match U set_order c sets fuel h root g built0 mild0 rule0 made solid0). Qed.
    Theorem text_readings s ms : flat h root -> no_morph_pipeline h root -> parser_findall U set_order c rel fuel h root text = Some (Ok (s, ms)) ->
      exists ha, activated_graph (activate c) (activate_pipeline c) h ha root /\
      forall m, In m ms -> exists w, traced g (fun _ => None) (erase (m_root m)) w /\ words_of U set_order KNone ha root w /\ spells U w toks (fst (m_range m)) (snd (m_range m)) /\
        forall w', words_of U set_order KNone ha root w' -> spells U w' toks (fst (m_range m)) (snd (m_range m)) -> w' = w \/ sooner w w'.
    Proof. unfold parser_findall. rewrite (with_parser_on fuel h root text _ g toks made tokenized). apply (solid_readings U set_order c sets fuel h root g built0 mild0 rule0 made solid0). Qed.
  End Rule.
  Theorem text_readings_flat fuel (h : rule_heap) root text : built h -> flat h root -> is_rule_at h root ->
    forall g toks, parser_grammar U set_order c fuel h root = Some (Ok g) -> text_tokens c text = Some (Ok toks) -> solid h root ->
    forall s ms, no_morph_pipeline h root -> parser_findall U set_order c rel fuel h root text = Some (Ok (s, ms)) ->
    exists ha, activated_graph (activate c) (activate_pipeline c) h ha root /\
    forall m, In m ms -> exists w, traced g (fun _ => None) (erase (m_root m)) w /\ words_of U set_order KNone ha root w /\ spells U w toks (fst (m_range m)) (snd (m_range m)) /\
      forall w', words_of U set_order KNone ha root w' -> spells U w' toks (fst (m_range m)) (snd (m_range m)) -> w' = w \/ sooner w w'.
  Proof. intros B F R g toks Hg Ht Sd s ms. apply (text_readings fuel h root text B (flat_harmless h root B F R) R g toks Hg Ht Sd s ms F). Qed.

  (** The text of the tokens of a match. *)
  Theorem text_faithful text toks : (c_tagger c = None \/ c_tagger c = Some PassTagger) -> text_tokens c text = Some (Ok toks) -> forall t, In t toks -> faithful text t.
  Proof.
    intros T H. unfold text_tokens in H. apply then_ok in H as (ts & H & E).
    assert (toks = ts) as -> by (destruct T as [T|T]; rewrite T in E; cbn in E; congruence).
    destruct (c_morph c) as [m|].
    - unfold morph_tokenize in H. destruct (tokenize _ _ text) as [[l|]|] eqn:Et; cbn in H; try discriminate. injection H as <-. intros t Ht. apply in_map_iff in Ht as (t0 & <- & Ht).
      destruct (proj1 (tokenize_faithful _ _ _ _ Et) t0 Ht) as (b & a & K). exists b, a. unfold morph_token. destruct (str_eqb (t_type t0) RU); exact K.
    - apply (tokenize_faithful _ _ _ _ H).
  Qed.
  (** The tagger is given the tokens of the tokenizer. *)
  Theorem text_tagged tg text toks : c_tagger c = Some tg -> text_tokens c text = Some (Ok toks) ->
    exists raw, text_tokens (mkContext (c_tokenizer c) (c_morph c) None) text = Some (Ok raw) /\ toks = tagger_call tg raw.
  Proof.
    intros T H. unfold text_tokens in *. apply then_ok in H as (ts & H & E). rewrite T in E. exists ts. cbn [c_morph c_tokenizer c_tagger]. rewrite H. split; [reflexivity|congruence].
  Qed.
  (** find and findall of the parser. *)
  Theorem text_find_first fuel h root text r : parser_find U set_order c rel fuel h root text = Some r ->
    exists r', parser_findall U set_order c rel fuel h root text = Some r' /\
    match r, r' with
    | Err e, Err e' => e = e'
    | Ok (_, None), Ok (_, ms) => ms = []
    | Ok (_, Some m), Ok (_, ms) => exists rest, ms = m :: rest /\ forall m', In m' rest -> snd (m_range m) <= fst (m_range m')
    | _, _ => False
    end.
  Proof.
    unfold parser_find, parser_findall, with_parser. destruct (parser_grammar U set_order c fuel h root) as [[g|e]|]; cbn [then_]; [| |discriminate].
    - destruct (text_tokens c text) as [[toks|e]|]; cbn [then_]; [apply find_first| |discriminate]. intros H. injection H as <-. exists (Err e). auto.
    - intros H. injection H as <-. exists (Err e). auto.
  Qed.
End Text.

(** expr on a text, with the default tokenizer. *)
Definition ranges_of (x : option (res (store * list (amatch (pred := predicate))))) : option (res (list ((nat * nat) * (Z * Z)))) :=
  match x with
  | Some (Ok (_, ms)) => Some (Ok (map (fun m => (m_range m, m_span m)) ms))
  | Some (Err e) => Some (Err e)
  | None => None
  end.
Definition text_found (calls : list rule_call) (root : nat) (text : String.string) :=
  ranges_of (parser_findall ASCII first_seen small_context (fun _ _ _ => true) 100 (program calls) root (str_of text)).
Definition solid_partb (o : obj predicate pipeline pipeline_bnf) : bool :=
  match o with
  | OOptional _ _ | ORepOpt _ _ _ | OEmpty | OEmptyProd | ORelation _ _ => false
  | OProd [] _ => false
  | _ => true
  end.
Lemma solidb_true (h : rule_heap) root : forallb solid_partb h = true -> solid h root.
Proof.
  intros F x o _ E. rewrite forallb_forall in F. specialize (F o (nth_error_In _ _ E)). destruct o; try discriminate; try exact I. destruct terms; [discriminate|]. intros Z. discriminate Z.
Qed.
Lemma no_morphb_true (h : rule_heap) root : forallb (fun o => match o with OPipeline p => match pipeline_kind p with Morph => false | _ => true end | _ => true end) h = true -> no_morph_pipeline h root.
Proof.
  intros F x p _ E. rewrite forallb_forall in F. specialize (F _ (nth_error_In _ _ E)). cbn in F. destruct (pipeline_kind p); [discriminate|discriminate|discriminate F].
Qed.
Lemma lookup_same_parses : forall U set_order c, set_iteration set_order -> forall fuel h root g, built h -> harmless h root -> is_rule_at h root ->
  parser_grammar U set_order c fuel h root = Some (Ok g) -> no_morph_pipeline h root ->
  forall constrain fuel1 fuel2 toks all trees trees',
  parse (accepts U) constrain g fuel1 toks all = Some trees -> parse (accepts U) constrain (without_index g) fuel2 toks all = Some trees' ->
  Forall2 (fun x y => snd x = snd y /\ erase (fst x) = erase (fst y)) trees trees'.
Proof.
  intros U set_order c Se fuel h root g B F R M N constrain fuel1 fuel2 toks all trees trees'.
  apply index_keeps_parses; [apply (built_filters U set_order c Se fuel h root g B F R M N)|apply (TextProofs.usable U set_order c Se fuel h root g B F R M)].
Qed.
