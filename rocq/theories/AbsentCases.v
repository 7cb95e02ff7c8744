(** Rounds computed for a grammar, and cases. *)
From Coq Require String.
From Verif Require Import Base TokenModel EarleyModel EarleySpec PredicateModel PredicateCases PipelineModel PipelineSpec PipelineTheorems ParserModel ParserSpec RuleModel RuleSpec RuleBuild
  GrammarModel GrammarSpec TextModel TextSpec Cases RuleNestSpec RuleCases TextProofs TextTheorems AbsentSpec AbsentTheorems TextAbsent RuleAgainCases EarleyTerm SetOrderTheorems.
Import String.StringSyntax.
Open Scope nat_scope.

(** ** Deciding that given rounds fit *)
Section Decide.
  Context {token pred : Type}.
  Variable g : grammar token pred.
  Variable rules : list nat.
  Hypothesis only : forall r, ~ In r rules -> g_prods g r = [].
  Variable null : list nat.
  Definition may_be_empty (t : term pred) : bool := match t with TRule r => existsb (Nat.eqb r) null | TPred _ => false end.
  Definition nullb : bool := forallb (fun r => forallb (fun q => negb (forallb may_be_empty (g_terms g q)) || existsb (Nat.eqb r) null) (g_prods g r)) rules.
  Lemma in_rules r q : In q (g_prods g r) -> In r rules.
  Proof. intros Hq. destruct (in_dec Nat.eq_dec r rules) as [|N]; [assumption|]. rewrite (only r N) in Hq. destruct Hq. Qed.
  Lemma nullb_true t : nullb = true -> nullable g t -> may_be_empty t = true.
  Proof.
    intros B. induction 1 as [r q Hq _ IH]. unfold nullb in B. rewrite forallb_forall in B. specialize (B r (in_rules r q Hq)). rewrite forallb_forall in B. specialize (B q Hq). apply orb_true_iff in B as [B|B]; [|exact B].
    apply negb_true_iff in B. exfalso. rewrite (proj2 (forallb_forall _ _) IH) in B. discriminate.
  Qed.
  Variable lo : nat -> nat -> nat.
  Variable up : nat -> nat -> option nat.
  Definition afterb (a b : option nat) : bool := match a, b with None, _ => true | Some x, Some y => S y <=? x | Some _, None => false end.
  Definition withinb (a : option nat) (n : nat) : bool := match a with Some x => x <=? n | None => false end.
  Definition stepb (q n : nat) : bool :=
    match nth_error (g_terms g q) n with
    | None => true
    | Some (TPred _) => lo q (S n) =? 0
    | Some (TRule r') => forallb (fun q' => let e := length (g_terms g q') in
        (lo q' 0 <=? S (lo q n)) && afterb (up q' 0) (up q n) && (lo q (S n) <=? S (lo q' e)) && afterb (up q (S n)) (up q' e) &&
        (negb (forallb may_be_empty (g_terms g q')) || withinb (up q n) (lo q' e))) (g_prods g r')
    end.
  Definition roundsb : bool := nullb && forallb (fun q => lo q 0 =? 0) (g_prods g (g_start g)) &&
    forallb (fun r => forallb (fun q => forallb (stepb q) (seq 0 (length (g_terms g q)))) (g_prods g r)) rules.
  Lemma after_true a b : afterb a b = true -> after a b.
  Proof. destruct a as [x|], b as [y|]; unfold afterb, after; try discriminate; auto. intros H. apply Nat.leb_le in H. lia. Qed.
  Lemma within_true a n : withinb a n = true -> within a n.
  Proof. destruct a; cbn; try discriminate. apply Nat.leb_le. Qed.
  Lemma roundsb_true : roundsb = true -> rounds g lo up.
  Proof.
    unfold roundsb. rewrite !andb_true_iff. intros [[B S0] F].
    assert (ST : forall r q n t, In q (g_prods g r) -> nth_error (g_terms g q) n = Some t -> stepb q n = true).
    { intros r q n t Hq Hn. rewrite forallb_forall in F. specialize (F r (in_rules r q Hq)). rewrite forallb_forall in F. specialize (F q Hq). rewrite forallb_forall in F. apply F, in_seq. split; [lia|]. apply nth_error_Some. congruence. }
    assert (RT : forall r q n r' q', In q (g_prods g r) -> nth_error (g_terms g q) n = Some (TRule r') -> In q' (g_prods g r') ->
      lo q' 0 <= S (lo q n) /\ after (up q' 0) (up q n) /\ lo q (S n) <= S (lo q' (length (g_terms g q'))) /\ after (up q (S n)) (up q' (length (g_terms g q'))) /\
      (forallb may_be_empty (g_terms g q') = true -> within (up q n) (lo q' (length (g_terms g q'))))).
    { intros r q n r' q' Hq Hn Hq'. assert (Z := ST r q n _ Hq Hn). unfold stepb in Z. rewrite Hn, forallb_forall in Z. specialize (Z q' Hq'). cbv zeta in Z. rewrite !andb_true_iff in Z. destruct Z as [[[[A1 A2] A3] A4] A5].
      apply Nat.leb_le in A1, A3. apply after_true in A2, A4. repeat split; auto. intros E. apply orb_true_iff in A5 as [A5|A5]; [rewrite E in A5; discriminate|apply within_true, A5]. }
    split.
    - intros q Hq. rewrite forallb_forall in S0. apply Nat.eqb_eq, S0, Hq.
    - intros r q n p Hq Hn. assert (Z := ST r q n _ Hq Hn). unfold stepb in Z. rewrite Hn in Z. apply Nat.eqb_eq, Z.
    - intros r q n r' q' Hq Hn Hq'. destruct (RT r q n r' q' Hq Hn Hq') as (A & A' & _). auto.
    - intros r q n r' q' Hq Hn Hq'. destruct (RT r q n r' q' Hq Hn Hq') as (_ & _ & A & A' & _). auto.
    - intros r q n r' q' Hq Hn Hq' AB. destruct (RT r q n r' q' Hq Hn Hq') as (_ & _ & _ & _ & A). apply A, forallb_forall. intros t Ht. apply nullb_true; auto.
  Qed.
End Decide.

(** ** Computing rounds *)
Section Compute.
  Context {token pred : Type}.
  Variable g : grammar token pred.
  Variable rules : list nat.
  Definition items : list (nat * nat * nat) := flat_map (fun r => flat_map (fun q => map (fun n => (r, q, n)) (seq 0 (S (length (g_terms g q))))) (g_prods g r)) rules.
  Fixpoint null_rules (n : nat) (null : list nat) : list nat :=
    match n with
    | O => null
    | S n' => null_rules n' (filter (fun r => existsb (fun q => forallb (may_be_empty null) (g_terms g q)) (g_prods g r)) rules)
    end.
  Fixpoint look {A} (default : A) (table : list (nat * nat * A)) (q n : nat) : A :=
    match table with
    | [] => default
    | (q', n', v) :: table' => if (q =? q') && (n =? n') then v else look default table' q n
    end.
  Definition many : nat := S (length items).
  (** The items waiting for one of the rules with production [q]. *)
  Definition waiting (q : nat) : list (nat * nat) :=
    flat_map (fun '(_, q2, m) => match nth_error (g_terms g q2) m with Some (TRule r') => if existsb (Nat.eqb q) (g_prods g r') then [(q2, m)] else [] | _ => [] end) items.
  Definition causes (q n : nat) : list (nat * nat) :=
    match n with
    | O => waiting q
    | S m => match nth_error (g_terms g q) m with Some (TRule r') => map (fun q' => (q', length (g_terms g q'))) (g_prods g r') | _ => [] end
    end.
  Definition first_round (q n : nat) : bool :=
    match n with
    | O => existsb (Nat.eqb q) (g_prods g (g_start g))
    | S m => match nth_error (g_terms g q) m with Some (TPred _) => true | _ => false end
    end.
  Fixpoint lo_table (k : nat) : list (nat * nat * nat) :=
    match k with
    | O => []
    | S k' => let t := lo_table k' in
        map (fun '(_, q, n) => (q, n, if first_round q n then 0 else fold_left (fun a '(q2, m) => Nat.min a (S (look many t q2 m))) (causes q n) many)) items
    end.
  Definition cut (a : option nat) : option nat := match a with Some x => if x <=? many then Some x else None | None => None end.
  Definition later_of (a b : option nat) : option nat := match a, b with Some x, Some y => Some (Nat.max x (S y)) | _, _ => None end.
  Fixpoint up_table (k : nat) : list (nat * nat * option nat) :=
    match k with
    | O => []
    | S k' => let t := up_table k' in
        map (fun '(_, q, n) => (q, n, cut (fold_left (fun a '(q2, m) => later_of a (look (Some 0) t q2 m)) (causes q n) (Some 0)))) items
    end.
  Definition timelyb : bool := roundsb g rules (null_rules (length rules) []) (look many (lo_table many)) (look None (up_table (S (S many)))).
End Compute.

Lemma timelyb_true {token pred} (g : grammar token pred) rules : (forall r, ~ In r rules -> g_prods g r = []) -> timelyb g rules = true -> timely g.
Proof. intros O B. exists (look (many g rules) (lo_table g rules (many g rules))), (look None (up_table g rules (S (S (many g rules))))). apply (roundsb_true g rules O (null_rules g rules (length rules) [])). exact B. Qed.

(** The grammar of a rule and the numbers of its rules. *)
Definition the_grammar (p : list rule_call) (root : nat) : option (grammar token predicate * list nat) :=
  match build_rule ASCII first_seen small_context 100 (program p) root with
  | Some (Ok (r, h')) => match bfs 100 h' r with Some objects => Some (restrict objects (grammar_of (pipeline_predict ASCII first_seen) h' r), objects) | None => None end
  | _ => None
  end.
Definition timely_program (p : list rule_call) (root : nat) : bool := match the_grammar p root with Some (g, rules) => timelyb g rules | None => false end.


(** The grammar a parser makes is the one tested. *)
Lemma restrict_only objects (g : grammar token predicate) r : ~ In r objects -> g_prods (restrict objects g) r = [].
Proof. intros N. cbn. destruct (is_in r objects) eqn:X; [|reflexivity]. apply existsb_exists in X as (y & Hy & Ey). apply Nat.eqb_eq in Ey as ->. destruct (N Hy). Qed.
Lemma the_grammar_made p root g : parser_grammar ASCII first_seen small_context 100 (program p) root = Some (Ok g) ->
  exists rules, the_grammar p root = Some (g, rules) /\ forall r, ~ In r rules -> g_prods g r = [].
Proof.
  unfold the_grammar, parser_grammar, then_. destruct (build_rule _ _ _ _ _ _) as [[[r h']|e]|]; try discriminate. destruct (bfs 100 h' r) as [objects|]; try discriminate. intros E. injection E as <-.
  exists objects. split; [reflexivity|apply restrict_only].
Qed.
Lemma timely_program_true p root g : timely_program p root = true -> parser_grammar ASCII first_seen small_context 100 (program p) root = Some (Ok g) -> timely g.
Proof. unfold timely_program. intros B G. apply the_grammar_made in G as (rules & E & O). rewrite E in B. apply (timelyb_true g rules O B). Qed.
Definition no_relationsb (h : rule_heap) : bool := forallb (fun o => match o with ORelation _ _ => false | _ => true end) h.
Lemma no_relationsb_true h root : no_relationsb h = true -> no_relations_in h root.
Proof. intros B x o _ E. unfold no_relationsb in B. rewrite forallb_forall in B. specialize (B o (nth_error_In _ _ E)). destruct o; try discriminate; exact Logic.I. Qed.

(** ** Derivations found by search *)
Section Search.
  Context {token pred : Type}.
  Variable accepts : pred -> token -> bool.
  Variable g : grammar token pred.
  Variable toks : list token.
  Fixpoint search (n : nat) (t : term pred) (i : nat) : list nat :=
    match n with
    | O => []
    | S n' => match t with
      | TPred p => match nth_error toks i with Some tok => if accepts p tok then [S i] else [] | None => [] end
      | TRule r => flat_map (fun q => fold_right (fun t' rest ends => rest (flat_map (search n' t') ends)) (fun ends => ends) (g_terms g q) [i]) (g_prods g r)
      end
    end.
  Lemma search_sound n : forall t i j, In j (search n t i) -> exists d, derives accepts g toks t i j d.
  Proof.
    induction n as [|n IH]; intros t i j; [intros []|]. destruct t as [r|p]; cbn [search].
    - intros H. apply in_flat_map in H as (q & Hq & H).
      assert (Q : forall ts ends, In j (fold_right (fun t' rest ends => rest (flat_map (search n t') ends)) (fun ends => ends) ts ends) -> exists i' ds, In i' ends /\ derives_seq accepts g toks ts i' j ds).
      { induction ts as [|t ts IHt]; cbn; intros ends Hj; [exists j, []; split; [exact Hj|constructor]|]. destruct (IHt _ Hj) as (k & ds & Hk & Ds). apply in_flat_map in Hk as (i' & Hi & Hk). destruct (IH t i' k Hk) as (d & D). exists i', (d :: ds). split; [exact Hi|econstructor; eauto]. }
      destruct (Q _ _ H) as (i' & ds & [<-|[]] & Ds). exists (DNode r q ds). econstructor; eauto.
    - destruct (nth_error toks i) as [tok|] eqn:E; [|intros []]. destruct (accepts p tok) eqn:A; [|intros []]. intros [<-|[]]. exists (DLeaf i p). econstructor; eauto.
  Qed.
End Search.
Definition searched (p : list rule_call) (root : nat) (text : str) : list nat :=
  match parser_grammar ASCII first_seen small_context 100 (program p) root, text_tokens small_context text with
  | Some (Ok g), Some (Ok toks) => search (accepts ASCII) g toks 100 (TRule (g_start g)) 0
  | _, _ => []
  end.
Lemma searched_sound p root text j toks : built (program p) -> harmless (program p) root -> is_rule_at (program p) root -> text_tokens small_context text = Some (Ok toks) ->
  In j (searched p root text) -> rule_accepts ASCII first_seen small_context (program p) root toks 0 j.
Proof.
  intros B H R T. unfold searched. rewrite T. destruct (parser_grammar ASCII first_seen small_context 100 (program p) root) as [[g|e]|] eqn:G; try (intros []). intros I. apply search_sound in I.
  apply (accept_iff ASCII first_seen small_context first_seen_iterates 100 (program p) root g B H R G toks 0 j); [lia|exact I].
Qed.
(** A rule that is not empty. *)
Definition some_program (p : list rule_call) (root : nat) : bool :=
  match the_grammar p root with Some (g, rules) => let null := null_rules g rules (length rules) [] in nullb g rules null && negb (existsb (Nat.eqb (g_start g)) null) | None => false end.
Lemma some_program_true p root g : built (program p) -> harmless (program p) root -> is_rule_at (program p) root ->
  parser_grammar ASCII first_seen small_context 100 (program p) root = Some (Ok g) -> some_program p root = true -> ~ rule_accepts ASCII first_seen small_context (program p) root [] 0 0.
Proof.
  intros B H R G. unfold some_program. destruct (the_grammar_made p root g G) as (objects & -> & O). intros X A. apply andb_true_iff in X as [X Y].
  apply (accept_iff ASCII first_seen small_context first_seen_iterates 100 (program p) root g B H R G [] 0 0) in A as (d & D); [|cbn; lia].
  apply (proj1 (derives_empty (accepts ASCII) g [])) in D; [|reflexivity].
  apply (nullb_true g objects O _ _ X) in D. cbn [may_be_empty] in D. rewrite D in Y. discriminate.
Qed.

(** ** Rules *)
Definition matched_in (p : list rule_call) (root : nat) (text : str) : option (option (nat * nat)) :=
  match parser_match ASCII first_seen small_context no_relations 100 (program p) root text with Some (Ok (_, m)) => Some (option_map m_range m) | _ => None end.
(** rule(x.repeatable(), y.optional()) *)
Definition repeated_program : list rule_call := [CRule [W "x"]; CRepeatable 1 None None false; CRule [W "y"]; COptional 4 false; CRule [R 2; R 5]].
(** inner = rule(b.optional(), c.optional(), e.optional(), d); or_(rule(a, inner, y), rule(a, c, inner, z)) *)
Definition choices_program : list rule_call :=
  [CRule [W "b"]; COptional 1 false; CRule [W "c"]; COptional 4 false; CRule [W "e"]; COptional 7 false; CRule [R 2; R 5; R 8; W "d"];
   CRule [W "a"; R 10; W "y"]; CRule [W "a"; W "c"; R 10; W "z"]; COr [12; 14]].
(** rule(a, b.optional(), c.optional(), rule(x, y.optional()).repeatable()) *)
Definition optional_program : list rule_call :=
  [CRule [W "b"]; COptional 1 false; CRule [W "c"]; COptional 4 false; CRule [W "y"]; COptional 7 false; CRule [W "x"; R 8]; CRepeatable 10 None None false; CRule [W "a"; R 2; R 5; R 11]].

(** What a rule must satisfy for the theorems, apart from the rounds. *)
Definition usual (U : unicode) (set_order : list str -> list str) (c : context) (fuel : nat) (h : rule_heap) (root : nat) (text : str) (g : grammar token predicate) (toks : list token) : Prop :=
  set_iteration set_order /\ built h /\ harmless h root /\ is_rule_at h root /\ no_relations_in h root /\
  parser_grammar U set_order c fuel h root = Some (Ok g) /\ text_tokens c text = Some (Ok toks) /\ ~ rule_accepts U set_order c h root [] 0 0.
Definition usualb (p : list rule_call) (root : nat) (text : str) : bool :=
  valid [] p && is_rule_atb (program p) root && harmlessb (program p) && no_relationsb (program p) && some_program p root &&
  match text_tokens small_context text with Some (Ok _) => true | _ => false end.
Lemma usualb_true p root text : usualb p root text = true ->
  exists g toks, usual ASCII first_seen small_context 100 (program p) root text g toks.
Proof.
  unfold usualb. rewrite !andb_true_iff. intros [[[[[V R] H] N] S] T]. apply program_built in V. apply is_rule_atb_true in R. apply harmlessb_true with (root := root) in H; auto. apply (no_relationsb_true _ root) in N.
  destruct (text_tokens small_context text) as [[toks|e]|] eqn:W; try discriminate.
  destruct (parser_grammar ASCII first_seen small_context 100 (program p) root) as [[g|e]|] eqn:G.
  - exists g, toks. unfold usual. assert (A := some_program_true p root g V H R G S). repeat (split; [first [exact first_seen_iterates|assumption|reflexivity]|]). exact A.
  - exfalso. revert G S. unfold some_program, the_grammar, parser_grammar, then_. destruct (build_rule _ _ _ _ _ _) as [[[r h']|e']|]; try discriminate. destruct (bfs 100 h' r); discriminate.
  - exfalso. revert G S. unfold some_program, the_grammar, parser_grammar, then_. destruct (build_rule _ _ _ _ _ _) as [[[r h']|e']|]; try discriminate. destruct (bfs 100 h' r); discriminate.
Qed.

(** rule(x.repeatable(), y.optional()) on x x x x: the whole text is accepted, found are
    the first three words and the last one. *)
Lemma repeated_lost : exists U set_order c rel fuel h root text g toks, usual U set_order c fuel h root text g toks /\
  rule_accepts U set_order c h root toks 0 (length toks) /\
  exists s ms, parser_findall U set_order c rel fuel h root text = Some (Ok (s, ms)) /\ ~ In (0, length toks) (map m_range ms) /\
    ~ best_ranges (fun x => rule_accepts U set_order c h root toks (fst x) (snd x)) (map m_range ms).
Proof.
  exists ASCII, first_seen, small_context, no_relations, 100, (program repeated_program), 7, (str_of "x x x x").
  destruct (usualb_true repeated_program 7 (str_of "x x x x")) as (g & toks & Us); [vm_compute; reflexivity|]. exists g, toks. split; [exact Us|].
  destruct Us as (_ & B & H & R & _ & _ & T & _). assert (L : length toks = 4) by (revert T; vm_compute; intros E; injection E as <-; reflexivity).
  assert (A : rule_accepts ASCII first_seen small_context (program repeated_program) 7 toks 0 (length toks)).
  { rewrite L. eapply searched_sound; eauto. vm_compute. auto. }
  split; [exact A|]. assert (F : option_map (fun r => let! (s, ms) := r in Ok (map m_range ms)) (parser_findall ASCII first_seen small_context no_relations 100 (program repeated_program) 7 (str_of "x x x x")) = Some (Ok [(0, 3); (3, 4)])) by (vm_compute; reflexivity).
  destruct (parser_findall _ _ _ _ _ _ _ _) as [[[s ms]|e]|]; try discriminate. cbn in F. injection F as F. exists s, ms. rewrite F, L in *. split; [reflexivity|]. split.
  - intros [E|[E|[]]]; discriminate.
  - intros (_ & _ & _ & D). destruct (D [(0, 4)]) as [E|E]; [cbn; lia|intros r [<-|[]]; exact A|reflexivity|discriminate|].
    destruct E as (p & x & y & a & b & E1 & E2 & O). destruct p as [|x' p]; cbn in E1, E2; [|injection E2 as _ E2; destruct p; discriminate]. injection E1 as <- <-. injection E2 as <- <-. destruct O as [O|[_ O]]; cbn in O; lia.
Qed.
(** The choice of two rules on a c d z: the whole text is accepted, match finds
    nothing, and so does findall. *)
Lemma choices_lost : exists U set_order c rel fuel h root text g toks, usual U set_order c fuel h root text g toks /\
  rule_accepts U set_order c h root toks 0 (length toks) /\
  parser_match U set_order c rel fuel h root text = Some (Ok ([], None)) /\ parser_findall U set_order c rel fuel h root text = Some (Ok ([], [])).
Proof.
  exists ASCII, first_seen, small_context, no_relations, 100, (program choices_program), 15, (str_of "a c d z").
  destruct (usualb_true choices_program 15 (str_of "a c d z")) as (g & toks & Us); [vm_compute; reflexivity|]. exists g, toks. split; [exact Us|].
  destruct Us as (_ & B & H & R & _ & _ & T & _). assert (L : length toks = 4) by (revert T; vm_compute; intros E; injection E as <-; reflexivity).
  split; [rewrite L; eapply searched_sound; eauto; vm_compute; auto|]. split; vm_compute; reflexivity.
Qed.
Lemma timely_ready p root text : usualb p root text = true -> timely_program p root = true ->
  exists g toks, usual ASCII first_seen small_context 100 (program p) root text g toks /\ timely g.
Proof.
  intros Us T. destruct (usualb_true p root text Us) as (g & toks & X). exists g, toks. split; [exact X|]. destruct X as (_ & _ & _ & _ & _ & G & _). apply (timely_program_true p root g T G).
Qed.
(** rule(a, eq(x).optional(reverse), caseless(x).optional(), z) *)
Definition either_program (reverse : bool) : list rule_call :=
  [CRule [W "x"]; COptional 1 reverse; CRule [Plain (TPred (PCaseless (str_of "x")))]; COptional 4 false; CRule [W "a"; R 2; R 5; W "z"]].
Fixpoint leaf_preds {token pred} (n : node token pred) : list pred := match n with Leaf _ _ p _ => [p] | Node _ _ _ _ ch => flat_map leaf_preds ch end.
Definition leaf_predicates (p : list rule_call) (root : nat) (text : str) : option (list (list predicate)) :=
  match parser_findall ASCII first_seen small_context no_relations 100 (program p) root text with
  | Some (Ok (_, ms)) => Some (map (fun m => leaf_preds (m_root m)) ms)
  | _ => None
  end.
