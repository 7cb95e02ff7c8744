(** Counterexamples to expected properties of the parser. *)
From Verif Require Import Base EarleyModel EarleySpec EarleyProofs TokenModel TreeModel TreeProofs ParserModel ParserSpec Cases
  ParserProofs ResultProofs ParserTheorems Runaway.
Open Scope nat_scope.

Notation word_parse := (parse word_accepts word_constrain).
Notation word_match := (match_ word_accepts word_constrain (fun _ _ _ => true)).
Notation word_findall := (findall word_accepts word_constrain (fun _ _ _ => true)).

(** S -> A B;  B -> A 'c';  A -> | 'a'. *)
Definition skipping : grammar token str :=
  plain_grammar [[0]; [1]; [2; 3]] [[RULE 2; RULE 1]; [RULE 2; WORD "c"]; []; [WORD "a"]].
Definition skipped : dtree str :=
  DNode 0 0 [DNode 2 2 []; DNode 1 1 [DNode 2 2 []; DLeaf 0 (str_of "c")]].

Ltac derive :=
  repeat (cbn; match goal with
  | |- derives _ _ _ (RULE _) _ _ _ => unfold RULE
  | |- derives _ _ _ (WORD _) _ _ _ => unfold WORD
  | |- derives _ _ _ (TRule _) _ _ _ => eapply derives_rule
  | |- derives _ _ _ (TPred _) _ _ _ => eapply derives_pred; [reflexivity|reflexivity]
  | |- derives_seq _ _ _ [] _ _ _ => apply derives_nil
  | |- derives_seq _ _ _ (_ :: _) _ _ _ => eapply derives_cons
  | |- _ \/ _ => solve [auto]
  | |- In _ _ => solve [cbn; auto]
  end).

Lemma skipping_derives : derives word_accepts skipping (words ["c"]%string) (TRule 0) 0 1 skipped.
Proof. unfold skipped. derive. Qed.
Lemma skipping_trees : word_parse skipping 50 (words ["c"]%string) true = Some [] /\
  word_parse skipping 50 (words ["c"]%string) false = Some [].
Proof. vm_compute. auto. Qed.

(** S -> X O;  O -> | 'b';  X -> 'a' | 'a' Z;  Z -> W;  W -> V;  V -> 'a'. *)
Definition overtaken : grammar token str :=
  plain_grammar [[0]; [1; 2]; [3; 4]; [5]; [6]; [7]]
    [[RULE 2; RULE 1]; []; [WORD "b"]; [WORD "a"]; [WORD "a"; RULE 3]; [RULE 4]; [RULE 5]; [WORD "a"]].
Lemma overtaken_match : option_map (fun r => let! (s, m) := r in Ok (option_map m_range m))
  (word_match overtaken 50 (words ["a"; "a"]%string)) = Some (Ok (Some (0, 2))).
Proof. vm_compute. reflexivity. Qed.
Lemma overtaken_trees : option_map (map snd) (word_parse overtaken 50 (words ["a"; "a"]%string) true) =
  Some [(0, 1); (1, 2)].
Proof. vm_compute. reflexivity. Qed.

(** S -> 'a' S 'z' | 'b'. *)
Definition nested : grammar token str :=
  plain_grammar [[0; 1]] [[WORD "a"; RULE 0; WORD "z"]; [WORD "b"]].
Lemma nested_match : show_match (word_match nested 50 (words ["a"; "b"]%string)) =
  Some (Ok (Some ((1, 2), DNode 0 1 [DLeaf 1 (str_of "b")]))).
Proof. vm_compute. reflexivity. Qed.

(** rule(x.optional(), y.optional()).named('Y').repeatable():
    R -> Y R | Y;  Y -> X Z;  X -> | 'x';  Z -> | 'y'. *)
Definition looping : grammar token str :=
  plain_grammar [[0; 1]; [2]; [3; 4]; [5; 6]]
    [[RULE 1; RULE 0]; [RULE 1]; [RULE 2; RULE 3]; []; [WORD "x"]; []; [WORD "y"]].

Lemma looping_stuck toks fuel all : toks = [] \/ toks = words ["x"]%string ->
  word_parse looping fuel toks all = None.
Proof.
  intros HT. unfold parse. rewrite stuck_chart; auto. apply (runs_away_stuck _ _ _ _ 9 11 0 0).
  destruct HT as [->| ->]; destruct all; vm_compute; reflexivity.
Qed.

(** A -> A | 'a'. *)
Definition unit_loop : grammar token str := plain_grammar [[0; 1]] [[RULE 0]; [WORD "a"]].
Fixpoint unit_tree (n : nat) : dtree str :=
  match n with
  | O => DNode 0 1 [DLeaf 0 (str_of "a")]
  | S n' => DNode 0 0 [unit_tree n']
  end.
Lemma unit_tree_derives n : derives word_accepts unit_loop (words ["a"]%string) (TRule 0) 0 1 (unit_tree n) /\
  no_empty_part (unit_tree n) /\ leaves (unit_tree n) = [0].
Proof.
  induction n as [|n (A & B & C)]; cbn [unit_tree].
  - split; [derive|]. cbn. intuition discriminate.
  - split.
    + eapply derives_rule; [left; reflexivity|]. cbn. eapply derives_cons; [exact A|]. apply derives_nil.
    + cbn [no_empty_part leaves flat_map]. rewrite C. cbn. intuition discriminate.
Qed.
Fixpoint dheight (d : dtree str) : nat :=
  match d with
  | DLeaf _ _ => 0
  | DNode _ _ ds => S (list_max (map dheight ds))
  end.
Lemma unit_tree_height n : dheight (unit_tree n) = S n.
Proof.
  induction n as [|n IH]; [reflexivity|]. cbn [unit_tree dheight map]. rewrite IH. cbn. lia.
Qed.
Lemma unit_loop_stuck fuel all : word_parse unit_loop fuel (words ["a"]%string) all = None.
Proof.
  destruct (word_parse unit_loop fuel (words ["a"]%string) all) as [trees|] eqn:P; auto. exfalso.
  set (m := list_max (map (fun t => dheight (erase (fst t))) trees)).
  destruct (unit_tree_derives m) as (D & NE & _).
  destruct (parse_complete word_accepts word_constrain unit_loop fuel (words ["a"]%string) all trees 0 1 (unit_tree m)
    (list_complete _ _ _ _ _) P D NE (Nat.le_0_l _) (or_introl eq_refl) (or_introl eq_refl)) as (n & HI & E).
  assert (X : dheight (erase n) <= m).
  { unfold m. assert (F : Forall (fun k => k <= m) (map (fun t : tree => dheight (erase (fst t))) trees)) by (apply list_max_le; auto).
    rewrite Forall_forall in F. apply F. apply in_map_iff. exists (n, (0, 1)). auto. }
  rewrite E, unit_tree_height in X. lia.
Qed.

Section Empty.
  Context {pred : Type}.
  Variable accepts : pred -> token -> bool.
  Variable constrain : pred -> token -> token.
  Variable rel : nat -> form -> form -> bool.
  Variable g : grammar token pred.

  (** A tree without tokens makes findall raise. *)
  Lemma empty_tree_raises fuel toks trees n i : parse accepts constrain g fuel toks true = Some trees ->
    In (n, (i, i)) trees -> exists e, findall accepts constrain rel g fuel toks = Some (Err e).
  Proof.
    intros P HT. unfold findall. rewrite P.
    destruct (sort_trees_ok _ _ _ _ _ _ _ P) as (sorted & S1 & S2 & S3). rewrite S1. cbn [bind].
    unfold prepare_resolved_matches.
    assert (COL : forall rest acc s, In (n, (i, i)) rest -> incl rest trees -> lookup_range (i, i) acc = None ->
      exists e, collect rel g rest acc s = Err e).
    { induction rest as [|t rest IH]; intros acc s HI IC LK; [destruct HI|]. cbn [collect].
      assert (IC' : incl rest trees) by (intros x Hx; apply IC; right; auto).
      assert (HT' : In t trees) by (apply IC; left; auto).
      destruct (prepare_match rel g t s) as [[s' om]|e] eqn:PM.
      2:{ destruct (lookup_range (snd t) acc) eqn:L2; [|cbn [bind]; eauto].
          destruct HI as [->|HI]; [cbn [snd] in L2; congruence|]. apply IH; auto. }
      assert (NR : snd t <> (i, i)).
      { intros E. destruct t as [n' [i' j']]. cbn [snd] in E. injection E as -> ->.
        destruct (tree_pos _ _ _ _ _ _ _ P _ _ _ HT') as [_ LV]. rewrite Nat.sub_diag in LV.
        apply map_eq_nil in LV. unfold prepare_match in PM. apply propagate_none in LV. rewrite LV in PM. discriminate. }
      destruct HI as [->|HI]; [destruct NR; reflexivity|].
      destruct (lookup_range (snd t) acc); [apply IH; auto|]. cbn [bind].
      destruct om as [m|]; [|apply IH; auto]. apply IH; auto.
      apply (lookup_range_none rel 0). rewrite map_app, in_app_iff. intros [X|[X|[]]]; [|auto].
      apply (lookup_range_none rel 0) in LK. auto. }
    destruct (COL sorted [] []) as (e & C).
    - eapply Permutation.Permutation_in; eauto.
    - intros x Hx. eapply Permutation.Permutation_in; [apply Permutation.Permutation_sym|]; eauto.
    - reflexivity.
    - rewrite C. cbn [bind]. eauto.
  Qed.

  Lemma empty_root_raises fuel toks q : In q (g_prods g (g_start g)) -> g_terms g q = [] ->
    forall r, findall accepts constrain rel g fuel toks = Some r -> exists e, r = Err e.
  Proof.
    intros HQ HE r H. destruct (parse accepts constrain g fuel toks true) as [trees|] eqn:P.
    2:{ unfold findall in H. rewrite P in H. discriminate. }
    destruct (parse_chart accepts constrain g toks true fuel trees P) as (st & E & -> & V).
    destruct (chart_spec accepts constrain g toks true _ _ E) as (_ & C & R).
    specialize (R (length toks) (le_n _) (or_intror eq_refl) q).
    assert (PQ : In q (predicted g toks (length toks) (g_start g))).
    { unfold predicted. rewrite (proj2 (nth_error_None toks (length toks))); auto. }
    specialize (R PQ). unfold EarleyInv.has in R. apply in_map_iff in R as (s & ES & HS).
    destruct (empty_tree_raises fuel toks _ (state_node s) (length toks) P) as (e & EF).
    { apply (trees_in accepts constrain); auto. split; auto. split; [discriminate|].
      unfold EarleyInv.serase in ES. injection ES as E1 E2 E3 E4 E5. exists s. split; auto. split.
      { unfold completed, next_term. rewrite E2, E3, HE. reflexivity. }
      auto. }
    rewrite EF in H. injection H as <-. eauto.
  Qed.
End Empty.

(** rule('a').optional(): S -> | A;  A -> 'a'. *)
Definition optional_root : grammar token str := plain_grammar [[0; 1]; [2]] [[]; [RULE 1]; [WORD "a"]].

Lemma skipping_refutes : exists (g : grammar token str) toks d fuel,
  predict_sound g /\ predict_complete word_accepts g /\
  derives word_accepts g toks (TRule (g_start g)) 0 (length toks) d /\
  forall all, word_parse g fuel toks all = Some [].
Proof.
  exists skipping, (words ["c"]%string), skipped, 50. split; [apply list_sound|]. split; [apply list_complete|].
  split; [apply skipping_derives|]. intros []; apply skipping_trees.
Qed.

Lemma overtaken_refutes : exists (g : grammar token str) toks fuel s m trees,
  predict_sound g /\ predict_complete word_accepts g /\ relation_free g /\
  word_match g fuel toks = Some (Ok (s, Some m)) /\ m_range m = (0, length toks) /\
  word_parse g fuel toks true = Some trees /\ ~ In (0, length toks) (map snd trees).
Proof.
  pose proof overtaken_match as M. pose proof overtaken_trees as T.
  destruct (word_match overtaken 50 (words ["a"; "a"]%string)) as [[[s [m|]]|]|] eqn:EM; try discriminate M.
  destruct (word_parse overtaken 50 (words ["a"; "a"]%string) true) as [trees|] eqn:ET; try discriminate T.
  cbn in M, T. injection M as M. injection T as T.
  exists overtaken, (words ["a"; "a"]%string), 50, s, m, trees. split; [apply list_sound|]. split; [apply list_complete|].
  split; [intros r; reflexivity|]. split; [exact EM|]. split; [exact M|]. split; [exact ET|]. rewrite T. cbn. intuition discriminate.
Qed.

Lemma looping_refutes : exists (g : grammar token str) toks, finite_grammar g [0; 1; 2; 3] /\ predict_sound g /\
  forall fuel all, word_parse g fuel toks all = None.
Proof.
  exists looping, []. split; [apply (list_finite [[0; 1]; [2]; [3; 4]; [5; 6]]); reflexivity|].
  split; [apply list_sound|]. intros. apply looping_stuck. auto.
Qed.

Lemma nested_refutes : exists (g : grammar token str) toks fuel s m,
  predict_sound g /\ predict_complete word_accepts g /\ relation_free g /\ no_nullable g /\
  word_match g fuel toks = Some (Ok (s, Some m)) /\ m_range m <> (0, length toks) /\
  forall d, ~ derives word_accepts g toks (TRule (g_start g)) 0 (length toks) d.
Proof.
  pose proof nested_match as M.
  destruct (word_match nested 50 (words ["a"; "b"]%string)) as [[[s [m|]]|]|] eqn:EM; try discriminate M.
  cbn in M. injection M as M _. 
  exists nested, (words ["a"; "b"]%string), 50, s, m. split; [apply list_sound|]. split; [apply list_complete|].
  split; [intros r; reflexivity|]. split; [apply list_no_nullable; reflexivity|].
  split; [exact EM|]. split; [rewrite M; discriminate|].
  intros d D.
  assert (PA : exists trees, word_parse nested 50 (words ["a"; "b"]%string) false = Some trees /\ map snd trees = [(1, 2)]).
  { destruct (word_parse nested 50 (words ["a"; "b"]%string) false) as [trees|] eqn:E;
      [|vm_compute in E; discriminate E]. exists trees. split; [exact eq_refl|].
    assert (X : option_map (map snd) (word_parse nested 50 (words ["a"; "b"]%string) false) = Some [(1, 2)]) by (vm_compute; reflexivity).
    rewrite E in X. injection X as X. auto. }
  destruct PA as (trees & P & T).
  destruct (parse_complete word_accepts word_constrain nested 50 _ false trees 0 2 d (list_complete _ _ _ _ _) P D) as (n & HI & _).
  - assert (NN : no_nullable nested) by (apply list_no_nullable; reflexivity).
    apply (proj1 (EarleyMore.no_nullable_no_empty word_accepts nested _ NN) _ _ _ _ D).
  - cbn. lia.
  - left. reflexivity.
  - left. reflexivity.
  - apply (in_map snd) in HI. rewrite T in HI. cbn in HI. intuition discriminate.
Qed.

Lemma optional_root_refutes : exists (g : grammar token str), nullable g (TRule (g_start g)) /\
  word_findall g 50 (words ["a"]%string) = Some (Err ValueError) /\ word_match g 50 [] = Some (Err ValueError).
Proof.
  exists optional_root. split; [|vm_compute; auto]. eapply nullable_rule; [left; reflexivity|]. intros t [].
Qed.
