(** Properties of rules, for rules built by the functions of the library. *)
From Verif Require Import Base SpanProofs TokenModel EarleyModel EarleySpec PredicateModel PredicateProofs PipelineModel PipelineSpec
  RuleModel RuleSpec RuleWords RuleLike RulePass RuleMethods RuleOrder RuleBfs RuleAccept RuleGrammar RuleTrace RuleActivate RuleTransfer RuleParser RuleBuild RuleBuilt GrammarModel GrammarSpec GrammarProofs RuleNestSpec RuleMild.
Open Scope nat_scope.

Section Theorems.
  Variable U : unicode.
  Variable set_order : list str -> list str.
  Variable c : context.
  Hypothesis sets : set_iteration set_order.
  Notation pipe_bnf := (active_bnf (pipeline_as_bnf U set_order) (activate_pipeline c)).
  Notation acc := (accepts_active (accepts U) (activate c)).
  Notation matches := (matches pipe_bnf b_productions acc).
  Notation repeats := (repeats pipe_bnf b_productions acc).
  Notation rule_accepts := (rule_accepts U set_order c).
  Notation parser_grammar := (parser_grammar U set_order c).

  Theorem grammar_of_parser fuel (h : rule_heap) root g : built h -> harmless h root -> is_rule_at h root -> parser_grammar fuel h root = Some (Ok g) ->
    forall toks i j, i <= length toks -> grammar_accepts U g toks i j <-> rule_accepts h root toks i j.
  Proof. intros B F R H. apply (parser_grammar_mild U set_order c fuel h root g sets (built_mild h root B F R) H). Qed.

  Lemma matches_agree (h h' : rule_heap) (G : nat -> Prop) : (forall x o d, G x -> nth_error h x = Some o -> In d (children o) -> G d) -> (forall x, G x -> exists o, nth_error h x = Some o /\ plain o = true) ->
    (forall x, G x -> nth_error h' x = nth_error h x) -> forall p ts, G p -> matches h p ts <-> matches h' p ts.
  Proof.
    intros C P E p ts Gp.
    assert (K : forall h h' : rule_heap, (forall x o d, G x -> nth_error h x = Some o -> In d (children o) -> G d) -> (forall x, G x -> exists o, nth_error h x = Some o /\ plain o = true) ->
      (forall x, G x -> nth_error h' x = nth_error h x) -> matches h p ts -> matches h' p ts).
    { clear h h' C P E. intros h h' C P E M. destruct (matches_transfer b_productions pipe_bnf pipe_bnf acc acc h h' G) as (T & _ & _); [exact C| |exact (T p ts M Gp)].
      intros x o Gx Ex. exists o. split; [rewrite E by exact Gx; exact Ex|]. destruct (P x Gx) as (o' & Eo & Po). rewrite Ex in Eo. injection Eo as <-.
      destruct o; try (apply implies_same; exact I); try discriminate.
      - apply implies_pipeline. intros b key ps ts' Eb Hin F. exists b, key, ps. auto.
      - apply implies_prod. clear. induction terms as [|t l IH]; constructor; auto. destruct t; constructor; auto. }
    split; apply K; auto.
    - intros x o d Gx Ex. rewrite E in Ex by exact Gx. apply (C x o d Gx Ex).
    - intros x Gx. rewrite E by exact Gx. auto.
    - intros x Gx. symmetry. apply E, Gx.
  Qed.

  Lemma segment_split {token} (toks : list token) i j us ts : segment toks i j (us ++ ts) -> exists k, segment toks i k us /\ segment toks k j ts.
  Proof.
    intros (pre & post & E & L & J). exists (i + length us). rewrite app_length in J. split.
    - exists pre, (ts ++ post). rewrite E, <- app_assoc. auto.
    - exists (pre ++ us), post. rewrite E, <- !app_assoc, app_length. split; [reflexivity|]. lia.
  Qed.
  Lemma segment_end {token} (toks : list token) i j ts : segment toks i j ts -> i <= j <= length toks.
  Proof. intros (pre & post & -> & L & ->). rewrite !app_length. lia. Qed.
  Lemma repeats_occurrences (h : rule_heap) r toks n : forall i j, i <= length toks ->
    (exists ts, segment toks i j ts /\ repeats h r n ts) <-> occurrences (rule_accepts h r toks) n i j.
  Proof.
    induction n as [|n IH]; intros i j L.
    - split.
      + intros (ts & S & K). inversion K; subst. destruct S as (pre & post & E & Lp & ->). cbn. rewrite Nat.add_0_r. constructor.
      + intros K. inversion K; subst. exists []. split; [|constructor]. exists (firstn j toks), (skipn j toks). cbn. rewrite firstn_skipn, firstn_length, Nat.min_l by exact L. auto.
    - split.
      + intros (ts & S & K). inversion K as [|? ? us ts' M K']; subst. apply segment_split in S as (k & S1 & S2). econstructor; [exists us; split; [exact S1|exact M]|].
        apply IH; [apply segment_end in S1; lia|]. eauto.
      + intros K. inversion K as [|? ? k ? (us & S1 & M) K']; subst. apply IH in K' as (ts & S2 & K2); [|apply segment_end in S1; lia].
        exists (us ++ ts). split; [apply (segment_app toks i k j us ts S1 S2)|constructor; assumption].
  Qed.

  (** A rule made from another one by a call. *)
  Section Wrapped.
    Variable h : rule_heap.
    Variable r : nat.
    Variable o : obj predicate pipeline pipeline_bnf.
    Hypothesis built0 : built h.
    Hypothesis rule0 : is_rule_at h r.
    Hypothesis only : children o = [r].
    Let h1 := h ++ [o].
    Let root := length h.
    Lemma wrapped_old x : reach h r x -> nth_error h1 x = nth_error h x.
    Proof.
      intros R. apply (reach_old h [o] r x built0 rule0 R).
    Qed.
    Lemma wrapped_top : nth_error h1 root = Some o.
    Proof. unfold h1, root. rewrite nth_error_app2, Nat.sub_diag by lia. reflexivity. Qed.
    Lemma wrapped_matches p ts : reach h r p -> matches h1 p ts <-> matches h p ts.
    Proof.
      intros R. symmetry. apply (matches_agree h h1 (reach h r)); auto.
      - intros x ox d Rx E Hd. econstructor; eassumption.
      - intros x Rx. apply (reach_some h r x built0 rule0 Rx).
      - apply wrapped_old.
    Qed.
    Lemma wrapped_repeats n ts : repeats h1 r n ts <-> repeats h r n ts.
    Proof.
      revert ts. induction n as [|n IH]; intros ts; split; intros K; inversion K; subst; constructor; try (apply IH; assumption); apply wrapped_matches; auto; constructor.
    Qed.
  End Wrapped.
  Lemma optional_matches (h : rule_heap) p r rev ts : nth_error h p = Some (OOptional r rev) -> matches h p ts <-> exists n, n <= 1 /\ repeats h r n ts.
  Proof.
    intros E. split.
    - intros K. inversion K; subst; rewrite E in *; try discriminate. injection H as <- <-. eauto.
    - intros (n & L & K). econstructor; eassumption.
  Qed.
  Lemma occurrences_iff {P Q : nat -> nat -> Prop} (N : nat) n : (forall i j, i <= N -> (P i j <-> Q i j)) -> (forall i j, P i j -> j <= N) -> forall i j, i <= N -> occurrences P n i j <-> occurrences Q n i j.
  Proof.
    intros E B. induction n as [|n IH]; intros i j L; split; intros K; inversion K; subst; try constructor.
    - econstructor; [apply E; eassumption|]. apply IH; [eapply B; eassumption|assumption].
    - assert (P i k) by (apply E; assumption). econstructor; [eassumption|]. apply IH; [eapply B; eassumption|assumption].
  Qed.
  Lemma rule_accepts_end (h : rule_heap) r toks i j : rule_accepts h r toks i j -> j <= length toks.
  Proof. intros (ts & S & _). apply segment_end in S. lia. Qed.

  Theorem optional_counts fuel fuel' (h : rule_heap) r rev root h1 gr g toks i j :
    built h -> is_rule_at h r -> run_call (COptional r rev) h = Ok (root, h1) -> harmless h1 root -> parser_grammar fuel h r = Some (Ok gr) -> parser_grammar fuel' h1 root = Some (Ok g) -> i <= length toks ->
    grammar_accepts U g toks i j <-> i = j \/ grammar_accepts U gr toks i j.
  Proof.
    intros B R H F1 Hr Hg L. cbn in H. injection H as <- <-.
    assert (B1 : built (h ++ [OOptional r rev])).
    { apply (built_call (COptional r rev) h B). intros x [<-|[]]. exact R. }
    assert (F := harmless_wrapped h r (OOptional r rev) B R (or_introl eq_refl) F1).
    assert (R1 : is_rule_at (h ++ [OOptional r rev]) (length h)) by (eexists; rewrite (wrapped_top h); split; [reflexivity|exact I]).
    rewrite (grammar_of_parser fuel' _ _ g B1 F1 R1 Hg toks i j L), (grammar_of_parser fuel h r gr B F R Hr toks i j L).
    split.
    - intros (ts & S & M). apply (optional_matches _ _ r rev) in M as (n & Ln & K); [|apply wrapped_top]. apply (wrapped_repeats h r _ B R) in K.
      destruct n as [|[|n]]; [|right|lia].
      + left. inversion K; subst. destruct S as (pre & post & _ & _ & ->). cbn. lia.
      + inversion K as [|? ? us ts' M K']; subst. inversion K'; subst. rewrite app_nil_r in S. exists us. auto.
    - intros [<-|(ts & S & M)].
      + exists []. split; [exists (firstn i toks), (skipn i toks); cbn; rewrite firstn_skipn, firstn_length, Nat.min_l by exact L; auto|].
        apply (optional_matches _ _ r rev); [apply wrapped_top|]. exists 0. split; [lia|constructor].
      + exists ts. split; [exact S|]. apply (optional_matches _ _ r rev); [apply wrapped_top|]. exists 1. split; [lia|]. rewrite <- (app_nil_r ts). constructor; [|constructor].
        apply (wrapped_matches h r _ B R); [constructor|exact M].
  Qed.
  Lemma repeatable_matches (h : rule_heap) p r min max rev o ts : min <> Some 0%Z -> max <> Some 0%Z -> repeatable r min max rev = Ok o -> nth_error h p = Some o ->
    matches h p ts <-> exists n, within min max n /\ repeats h r n ts.
  Proof.
    intros Nm Nx H E. unfold repeatable, assert_greater_equals in H. unfold within.
    assert (Tm : truthy min = min) by (destruct min as [z|]; [cbn; destruct (Z.eqb_spec z 0); congruence|reflexivity]).
    assert (Tx : truthy max = max) by (destruct max as [z|]; [cbn; destruct (Z.eqb_spec z 0); congruence|reflexivity]).
    rewrite Tm, Tx in H. destruct min as [m|], max as [n|]; repeat (match type of H with context [Z.ltb ?a ?b] => destruct (Z.ltb_spec a b) end; cbn in H; try discriminate);
      injection H as <-; (split; [intros K; inversion K; subst; rewrite E in *; try discriminate|]).
    - match goal with K : Some _ = Some _ |- _ => injection K; intros; subst end. eexists. split; [|eassumption]. lia.
    - intros (k & W & K). eapply match_min_max; [exact E| |exact K]; lia.
    - match goal with K : Some _ = Some _ |- _ => injection K; intros; subst end. eexists. split; [|eassumption]. lia.
    - intros (k & W & K). eapply match_min; [exact E| |exact K]; lia.
    - match goal with K : Some _ = Some _ |- _ => injection K; intros; subst end. eexists. split; [|eassumption]. lia.
    - intros (k & W & K). eapply match_max; [exact E| |exact K]; lia.
    - match goal with K : Some _ = Some _ |- _ => injection K; intros; subst end. eexists. split; [|eassumption]. lia.
    - intros (k & W & K). eapply match_repeatable; [exact E| |exact K]; lia.
  Qed.
  Theorem repeatable_counts fuel fuel' (h : rule_heap) r min max rev root h1 gr g toks i j :
    built h -> is_rule_at h r -> min <> Some 0%Z -> max <> Some 0%Z -> run_call (CRepeatable r min max rev) h = Ok (root, h1) -> harmless h1 root -> parser_grammar fuel h r = Some (Ok gr) -> parser_grammar fuel' h1 root = Some (Ok g) -> i <= length toks ->
    grammar_accepts U g toks i j <-> exists n, within min max n /\ occurrences (grammar_accepts U gr toks) n i j.
  Proof.
    intros B R Nm Nx H F1 Hr Hg L. assert (H' := H). cbn [run_call] in H. destruct (repeatable r min max rev) as [o|] eqn:Eo; [|discriminate]. cbn in H. injection H as <- <-.
    destruct (repeatable_shape (pred := predicate) (pipe := pipeline) (bnf := pipeline_bnf) r min max rev o Eo) as (Po & _ & Co & _).
    assert (B1 : built (h ++ [o])).
    { assert (K := built_call (CRepeatable r min max rev) h B). unfold after_call in K. rewrite H' in K. apply K. intros x [<-|[]]. exact R. }
    assert (F : harmless h r) by (apply (harmless_wrapped h r o B R); [rewrite Co; left; reflexivity|exact F1]).
    assert (R1 : is_rule_at (h ++ [o]) (length h)).
    { exists o. split; [apply wrapped_top|]. revert Eo. clear. unfold repeatable, assert_greater_equals. destruct (truthy min), (truthy max); repeat (destruct (Z.ltb _ _); cbn; try discriminate); intros E; injection E as <-; exact I. }
    rewrite (grammar_of_parser fuel' _ _ g B1 F1 R1 Hg toks i j L).
    assert (Iff : forall n, occurrences (grammar_accepts U gr toks) n i j <-> exists ts, segment toks i j ts /\ repeats (h ++ [o]) r n ts).
    { intros n. rewrite <- (occurrences_iff (P := rule_accepts h r toks) (length toks) n); [| |apply rule_accepts_end|exact L].
      - rewrite <- repeats_occurrences by exact L. split; intros (ts & S & K); exists ts; (split; [exact S|]); apply (wrapped_repeats h r o B R), K.
      - intros i' j' L'. symmetry. apply (grammar_of_parser fuel h r gr B F R Hr toks i' j' L'). }
    split.
    - intros (ts & S & M). apply (repeatable_matches _ _ r min max rev o ts Nm Nx Eo (wrapped_top h o)) in M as (n & W & K). exists n. split; [exact W|]. apply Iff. eauto.
    - intros (n & W & K). apply Iff in K as (ts & S & K). exists ts. split; [exact S|]. apply (repeatable_matches _ _ r min max rev o ts Nm Nx Eo (wrapped_top h o)). eauto.
  Qed.
End Theorems.

Lemma nth_error_same {A} (l l' : list A) : (forall k, nth_error l k = nth_error l' k) -> l = l'.
Proof.
  revert l'. induction l as [|x l IH]; intros [|y l'] H; [reflexivity|discriminate (H 0)|discriminate (H 0)|]. assert (E := H 0). injection E as ->. f_equal. apply IH. intros k. apply (H (S k)).
Qed.

(** ** Bounds *)
Lemma bounds_checked r min max rev :
  repeatable (pred := predicate) (pipe := pipeline) (bnf := pipeline_bnf) r min max rev = Err ValueError <->
  (exists m, min = Some m /\ m < 0)%Z \/ (exists n, max = Some n /\ n < 0)%Z \/ (exists m n, min = Some m /\ max = Some n /\ 0 < n < m)%Z.
Proof.
  unfold repeatable, assert_greater_equals. split.
  - destruct min as [m|], max as [n|]; cbn [truthy]; repeat (match goal with |- context [Z.eqb ?a ?b] => destruct (Z.eqb_spec a b) end; try subst; cbn);
      repeat (match goal with |- context [Z.ltb ?a ?b] => destruct (Z.ltb_spec a b) end; cbn); intros E; try discriminate;
      try (left; exists m; split; [reflexivity|lia]); try (right; left; exists n; split; [reflexivity|lia]); right; right; exists m, n; repeat split; lia.
  - intros K. destruct min as [m|], max as [n|]; cbn [truthy]; repeat (match goal with |- context [Z.eqb ?a ?b] => destruct (Z.eqb_spec a b) end; try subst; cbn);
      repeat (match goal with |- context [Z.ltb ?a ?b] => destruct (Z.ltb_spec a b) end; cbn); try reflexivity; exfalso;
      destruct K as [(x & E & L)|[(y & E & L)|(x & y & E & E' & L)]]; try discriminate; try (injection E as <-); try (injection E' as <-); lia.
Qed.
Lemma zero_ignored r min max rev :
  repeatable (pred := predicate) (pipe := pipeline) (bnf := pipeline_bnf) r (Some 0%Z) max rev = repeatable r None max rev /\
  repeatable (pred := predicate) (pipe := pipeline) (bnf := pipeline_bnf) r min (Some 0%Z) rev = repeatable r min None rev.
Proof. split; reflexivity. Qed.
Lemma bounds_other r min max rev e : repeatable (pred := predicate) (pipe := pipeline) (bnf := pipeline_bnf) r min max rev = Err e -> e = ValueError.
Proof.
  unfold repeatable, assert_greater_equals. destruct (truthy min), (truthy max); repeat (destruct (Z.ltb _ _); cbn); intros E; try discriminate; injection E; auto.
Qed.

(** ** Main terms *)
Section Main.
  Context {pred pipe bnf : Type}.
  Notation item := (item (pred := pred)).
  Definition is_main (x : item) : bool := match x with Main _ => true | Plain _ => false end.
  Lemma prepare_found (items : list item) : forall i k, prepare_terms items i (Some k) = if existsb is_main items then Err ValueError else Ok (map item_term items, k).
  Proof.
    induction items as [|x items IH]; intros i k; [reflexivity|]. cbn [prepare_terms existsb]. destruct x as [t|t]; cbn; [|reflexivity]. rewrite IH. destruct (existsb is_main items); reflexivity.
  Qed.
  Lemma prepare_spec (items : list item) : forall i,
    match prepare_terms items i None with
    | Ok (ts, m) => ts = map item_term items /\
        ((forall x, In x items -> is_main x = false) /\ m = 0 \/
         exists k t, nth_error items k = Some (Main t) /\ m = i + k /\ forall k' t', nth_error items k' = Some (Main t') -> k' = k)
    | Err e => e = ValueError /\ exists k k' t t', k <> k' /\ nth_error items k = Some (Main t) /\ nth_error items k' = Some (Main t')
    end.
  Proof.
    induction items as [|x items IH]; intros i; cbn [prepare_terms].
    - split; [reflexivity|]. left. split; [intros x []|reflexivity].
    - destruct x as [t|t]; cbn [bind].
      + specialize (IH (S i)). destruct (prepare_terms items (S i) None) as [[ts m]|e]; cbn [bind].
        * destruct IH as [-> IH]. split; [reflexivity|]. destruct IH as [[N ->]|(k & t' & E & -> & One)].
          -- left. split; [|reflexivity]. intros x [<-|Hx]; [reflexivity|auto].
          -- right. exists (S k), t'. split; [exact E|]. split; [lia|]. intros [|k'] t2 E2; [discriminate|]. f_equal. apply (One k' t2 E2).
        * destruct IH as [-> (k & k' & t1 & t2 & N & E1 & E2)]. split; [reflexivity|]. exists (S k), (S k'), t1, t2. split; [lia|]. auto.
      + rewrite prepare_found. destruct (existsb is_main items) eqn:Ex; cbn [bind].
        * split; [reflexivity|]. apply existsb_exists in Ex as (y & Hy & My). destruct y as [|t']; [discriminate|]. apply In_nth_error in Hy as (k & Hk). exists 0, (S k), t, t'. auto.
        * split; [reflexivity|]. right. exists 0, t. split; [reflexivity|]. split; [lia|]. intros [|k'] t' E; [reflexivity|]. exfalso. cbn in E.
          assert (existsb is_main items = true); [|congruence]. apply existsb_exists. exists (Main t'). split; [apply (nth_error_In _ _ E)|reflexivity].
  Qed.
End Main.
Theorem main_designated (items : list item) (h : rule_heap) :
  match run_call (CRule items) h with
  | Ok (root, h1) => exists q m, nth_error h1 root = Some (ORule [q]) /\ nth_error h1 q = Some (OProd (map written_term items) m) /\
      ((forall t, ~ In (Main t) items) /\ m = 0 \/ exists t, nth_error items m = Some (Main t) /\ forall k t', nth_error items k = Some (Main t') -> k = m)
  | Err e => e = ValueError /\ exists k k' t t', k <> k' /\ nth_error items k = Some (Main t) /\ nth_error items k' = Some (Main t')
  end.
Proof.
  cbn [run_call]. unfold new_rule, RuleModel.production. assert (K := prepare_spec items 0). destruct (prepare_terms items 0 None) as [[ts m]|e]; [|exact K]. destruct K as [-> K]. cbn [bind].
  unfold new. exists (length h), m. split; [rewrite nth_error_app2, Nat.sub_diag by lia; reflexivity|]. split.
  - rewrite nth_error_app1 by (rewrite app_length; cbn; lia). rewrite nth_error_app2, Nat.sub_diag by lia. reflexivity.
  - destruct K as [[N ->]|(k & t & E & -> & One)]; [left|right].
    + split; [|reflexivity]. intros t Ht. specialize (N _ Ht). discriminate.
    + exists t. split; [exact E|exact One].
Qed.

(** ** Choices and attributes *)
Section Words.
  Variable U : unicode.
  Variable set_order : list str -> list str.
  Variable c : context.
  Notation parser_grammar := (parser_grammar U set_order c).
  Notation W kd := (words_of U set_order kd).
  Theorem words_kept fuel (h : rule_heap) root g : built h -> flat h root -> is_rule_at h root -> parser_grammar fuel h root = Some (Ok g) ->
    exists ha, activated_graph (activate c) (activate_pipeline c) h ha root /\
    forall toks i j w, i <= length toks -> reads U g (fun _ => None) toks i j w <-> W KNone ha root w /\ spells U w toks i j.
  Proof. intros B F R H. apply (parser_grammar_traces U set_order c fuel h root g KNone (built_source h root B F R) H). left. reflexivity. Qed.
  Theorem attributes_kept kd fuel (h : rule_heap) root g : kd = KInterp \/ kd = KRelation -> built h -> flat h root -> is_rule_at h root -> top not_once h root -> parser_grammar fuel h root = Some (Ok g) ->
    exists ha, activated_graph (activate c) (activate_pipeline c) h ha root /\
    forall toks i j w, i <= length toks -> reads U g (attribute_of kd g) toks i j w <-> W kd ha root w /\ spells U w toks i j.
  Proof. intros K B F R T H. apply (parser_grammar_traces U set_order c fuel h root g kd (built_source h root B F R) H). right. split; [exact T|]. destruct K as [->| ->]; discriminate. Qed.
  Theorem choices_ordered fuel (h : rule_heap) root o g : built h -> flat h root -> nth_error h root = Some o -> quantifier o = true -> parser_grammar fuel h root = Some (Ok g) ->
    exists ha, activated_graph (activate c) (activate_pipeline c) h ha root /\
    forall toks i j w, i <= length toks -> reads U g (fun _ => None) toks i j w <->
      match o with
      | OOptional r rev => maybe (W KNone ha r) rev w
      | ORepeatable r rev => many (W KNone ha r) rev w
      | ORepOpt r rr ro => RuleSpec.any (W KNone ha r) rr ro w
      | OMin r min rev => times (W KNone ha r) (many (W KNone ha r) rev) (min - 1) w
      | OMax r max rev => at_most (W KNone ha r) rev max w
      | OMinMax r min max rev => times (W KNone ha r) (at_most (W KNone ha r) rev (max - min + 1)) (min - 1) w
      | _ => False
      end /\ spells U w toks i j.
  Proof.
    intros B F E Q H. assert (R : is_rule_at h root) by (exists o; split; [exact E|]; destruct o; try discriminate; exact I).
    destruct (words_kept fuel h root g B F R H) as (ha & A & K). exists ha. split; [exact A|]. intros toks i j w L. rewrite (K toks i j w L).
    destruct (proj1 (proj2 A) root o (reach_refl h root) E) as (o' & E' & Ko).
    assert (o' = o) as -> by (inversion Ko; subst; try discriminate; reflexivity).
    assert (Sm := open_words_obj (pipeline_as_bnf U set_order) b_productions KNone (fun _ => false) ha root o E').
    unfold words_of at 1, rule_words. split; intros [Hw Hs]; (split; [|exact Hs]).
    - destruct o; try discriminate; apply (Sm eq_refl), Hw.
    - apply Sm; destruct o; try discriminate; try reflexivity; exact Hw.
  Qed.

  (** optional() and repeatable(), with the given flag and bounds. *)
  Theorem optional_ordered fuel (h : rule_heap) r rev root h1 g : built h -> is_rule_at h r -> run_call (COptional r rev) h = Ok (root, h1) -> flat h1 root -> parser_grammar fuel h1 root = Some (Ok g) ->
    exists ha, activated_graph (activate c) (activate_pipeline c) h1 ha root /\
    forall toks i j w, i <= length toks -> reads U g (fun _ => None) toks i j w <-> maybe (W KNone ha r) rev w /\ spells U w toks i j.
  Proof.
    intros B R H F Hg. assert (B1 : built h1). { assert (K := built_call (COptional r rev) h B). unfold after_call in K. rewrite H in K. apply K. intros x [<-|[]]. exact R. }
    cbn in H. injection H as <- <-. apply (choices_ordered fuel _ _ (OOptional r rev) g B1 F (nth_new h _ []) eq_refl Hg).
  Qed.
  Theorem repeatable_ordered fuel (h : rule_heap) r min max rev root h1 g : built h -> is_rule_at h r -> min <> Some 0%Z -> max <> Some 0%Z -> run_call (CRepeatable r min max rev) h = Ok (root, h1) -> flat h1 root ->
    parser_grammar fuel h1 root = Some (Ok g) ->
    exists ha, activated_graph (activate c) (activate_pipeline c) h1 ha root /\
    forall toks i j w, i <= length toks -> reads U g (fun _ => None) toks i j w <->
      match min, max with
      | None, None => many (W KNone ha r) rev w
      | Some m, None => times (W KNone ha r) (many (W KNone ha r) rev) (Z.to_nat m - 1) w
      | None, Some n => at_most (W KNone ha r) rev (Z.to_nat n) w
      | Some m, Some n => times (W KNone ha r) (at_most (W KNone ha r) rev (Z.to_nat n - Z.to_nat m + 1)) (Z.to_nat m - 1) w
      end /\ spells U w toks i j.
  Proof.
    intros B R Nm Nx H F Hg. assert (B1 : built h1). { assert (K := built_call (CRepeatable r min max rev) h B). unfold after_call in K. rewrite H in K. apply K. intros x [<-|[]]. exact R. }
    cbn [run_call] in H. destruct (repeatable r min max rev) as [o|] eqn:Eo; [|discriminate]. cbn in H. injection H as <- <-.
    assert (Tm : truthy min = min) by (destruct min as [z|]; [cbn; destruct (Z.eqb_spec z 0); congruence|reflexivity]).
    assert (Tx : truthy max = max) by (destruct max as [z|]; [cbn; destruct (Z.eqb_spec z 0); congruence|reflexivity]).
    unfold repeatable, assert_greater_equals in Eo. rewrite Tm, Tx in Eo.
    destruct min as [m|], max as [n|]; repeat (match type of Eo with context [Z.ltb ?a ?b] => destruct (Z.ltb_spec a b) end; cbn in Eo; try discriminate); injection Eo as <-;
      apply (choices_ordered fuel _ _ _ g B1 F (nth_new h _ []) eq_refl Hg).
  Qed.

  (** ** Activation *)
  Theorem rule_activated fuel (h : rule_heap) root r h' : built h -> is_rule_at h root -> activate_rule c fuel h root = Some (Ok (r, h')) ->
    r = root /\ activated_graph (activate c) (activate_pipeline c) h h' root /\
    (forall x o, reach h' root x -> nth_error h' x = Some o -> settled_obj o) /\
    (forall c' fuel' r2 h2, activate_rule c' fuel' h' root = Some (Ok (r2, h2)) -> h2 = h').
  Proof.
    intros B R H. destruct (activate_ok (activate c) (activate_pipeline c) (pred_twice c) (pipe_twice c) fuel h root r h' H) as [-> A]. split; [reflexivity|]. split; [exact A|].
    assert (S : forall x o, reach h' root x -> nth_error h' x = Some o -> settled_obj o).
    { clear R. intros x o R E. apply (activated_reach _ _ h h' root A) in R. destruct (activated_back _ _ h h' root A x o R E) as (o0 & E0 & K). inversion K; subst; cbn.
      - intros p Hp. match goal with F : Forall2 _ _ _ |- _ => revert Hp F end. clear. intros Hp F. induction F as [|t t' l l' K F IH]; [destruct Hp|]. destruct Hp as [->|Hp]; [|auto]. inversion K; subst. eapply (activated_plain c); eassumption.
      - match goal with F : activate_pipeline _ ?y = Ok _ |- _ => rename F into Hy; destruct y end; cbn in Hy; try (injection Hy as <-; exact I); match type of Hy with context [mapM ?f ?l] => destruct (mapM f l); [|discriminate] end; injection Hy as <-; exact I.
      - destruct o; try exact I; contradiction. }
    split; [exact S|]. intros c' fuel' r2 h2 H2. destruct (activate_ok (activate c') (activate_pipeline c') (pred_twice c') (pipe_twice c') fuel' h' root r2 h2 H2) as [_ (L2 & A2 & N2)].
    assert (O : ordered h).
    { intros p x d Ex Hd. destruct (built_sound h B p x Ex) as (_ & _ & C). destruct (C d Hd) as (oc & Ec & _ & L). split; [apply nth_error_Some; congruence|exact L]. }
    assert (Lr : root < length h) by (destruct R as (o & E & _); apply nth_error_Some; congruence).
    assert (O' := activated_ordered _ _ h h' root A (reach_dec h root O Lr) O). rewrite <- (proj1 A) in Lr.
    apply nth_error_same. intros x. destruct (reach_dec h' root O' Lr x) as [Rx|Rx]; [|apply N2, Rx].
    destruct (nth_error h' x) as [o|] eqn:E; [|apply nth_error_None in E; apply nth_error_None; lia].
    destruct (A2 x o Rx E) as (o2 & E2 & K). rewrite E2. f_equal. specialize (S x o Rx E). inversion K; subst; try reflexivity; cbn in S.
    - f_equal. match goal with F : Forall2 _ _ _ |- _ => rename F into F0 end. clear - S F0. induction F0 as [|t t' l l' K F IH]; [reflexivity|]. f_equal; [|apply IH; intros p Hp; apply S; right; exact Hp].
      inversion K; subst; [|reflexivity]. rewrite (plain_fixed c' p (S p (or_introl eq_refl))) in H. injection H as <-. reflexivity.
    - match goal with F : activate_pipeline _ ?y = Ok _ |- _ => rename F into Hy; destruct y end; try contradiction; cbn in Hy; injection Hy as <-; reflexivity.
  Qed.
  Theorem unknown_rejected fuel (h : rule_heap) root r h' : activate_rule c fuel h root = Some (Ok (r, h')) ->
    forall x ts main p, reach h root x -> nth_error h x = Some (OProd ts main) -> In (TPred p) ts -> exists q, activate c p = Ok q.
  Proof.
    intros H x ts main p R E Hp. destruct (activate_ok (activate c) (activate_pipeline c) (pred_twice c) (pipe_twice c) fuel h root r h' H) as [_ (_ & A & _)].
    destruct (A x _ R E) as (o & _ & K). inversion K; subst; [|contradiction]. match goal with F : Forall2 _ _ _ |- _ => rename F into F0 end. clear - Hp F0. induction F0 as [|t t' l l' K F IH]; [destruct Hp|]. destruct Hp as [->|Hp]; [|auto]. inversion K; subst. eauto.
  Qed.
End Words.

(** ** The statements for calls *)
Lemma call_repeatable (h : rule_heap) r min max rev e : run_call (CRepeatable r min max rev) h = Err e <-> repeatable (pred := predicate) (pipe := pipeline) (bnf := pipeline_bnf) r min max rev = Err e.
Proof. cbn [run_call]. destruct (repeatable r min max rev); cbn; split; congruence. Qed.
Lemma call_bounds_checked (h : rule_heap) r min max rev : run_call (CRepeatable r min max rev) h = Err ValueError <->
  (exists m, min = Some m /\ m < 0)%Z \/ (exists n, max = Some n /\ n < 0)%Z \/ (exists m n, min = Some m /\ max = Some n /\ 0 < n < m)%Z.
Proof. rewrite call_repeatable. apply bounds_checked. Qed.
Lemma call_bounds_other (h : rule_heap) r min max rev e : run_call (CRepeatable r min max rev) h = Err e -> e = ValueError.
Proof. rewrite call_repeatable. apply bounds_other. Qed.
Lemma call_zero_ignored (h : rule_heap) r min max rev :
  run_call (CRepeatable r (Some 0%Z) max rev) h = run_call (CRepeatable r None max rev) h /\
  run_call (CRepeatable r min (Some 0%Z) rev) h = run_call (CRepeatable r min None rev) h.
Proof. destruct (zero_ignored r min max rev) as [E1 E2]. cbn [run_call]. rewrite E1, E2. auto. Qed.
Theorem grammar_usable U set_order c : set_iteration set_order -> forall fuel (h : rule_heap) root g,
  built h -> harmless h root -> is_rule_at h root -> parser_grammar U set_order c fuel h root = Some (Ok g) ->
  (exists rules, finite_grammar g rules) /\ predict_sound g /\ predict_complete (accepts U) g.
Proof. intros Se fuel h root g B F R H. destruct (parser_grammar_mild U set_order c fuel h root g Se (built_mild h root B F R) H) as (A & P & Q & _). auto. Qed.
Theorem rules_named U set_order c fuel (h : rule_heap) root r h' : built h -> flat h root -> is_rule_at h root -> build_rule U set_order c fuel h root = Some (Ok (r, h')) ->
  exists ha (names : nat -> option str) rest,
  activated_graph (activate c) (activate_pipeline c) h ha root /\
  (forall x n, names x = Some n -> n <> [] /\ rule_name h' x = Some n) /\
  NoDup rest /\ (forall x, In x rest <-> reach h' r x /\ is_bnf_rule h' x /\ names x = None) /\
  (forall i x, nth_error rest i = Some x -> rule_name h' x = Some (generated_name i)) /\
  (top not_once h root -> forall toks i j w, i <= length toks ->
   reads U (grammar_of (pipeline_predict U set_order) h' r) (fun x => option_map AName (names x)) toks i j w <->
   words_of U set_order KName ha root w /\ spells U w toks i j).
Proof. intros B F R. apply build_rule_names, (built_source h root B F R). Qed.
Theorem built_walk (h : rule_heap) root fuel : built h -> is_rule_at h root -> length h <= fuel -> exists l, bfs fuel h root = Some l.
Proof.
  intros B (o & E & _) L. apply bfs_total; [|apply nth_error_Some; congruence|exact L].
  intros p x d Ex Hd. destruct (built_sound h B p x Ex) as (_ & _ & C). destruct (C d Hd) as (oc & Ec & _). apply nth_error_Some. congruence.
Qed.
