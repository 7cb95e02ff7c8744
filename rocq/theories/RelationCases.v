(** Concrete grammars with relations: cases for the theorems of
    PropRelations.v and counterexamples. *)
From Coq Require String.
From Verif Require Import Base EarleyModel EarleySpec TokenModel TreeModel ParserModel TreeSpec TreeProofs
  RelationSpec RelationProofs RelationModel BankProofs ParserSpec Cases MatchProofs ParserTheorems AgreementProofs.
Open Scope nat_scope.

(** A word with its forms, each given by its grammemes. *)
Fixpoint morph_words_from (at_ : Z) (ws : list (String.string * list (list String.string))) : list token :=
  match ws with
  | [] => []
  | (w, fs) :: ws' =>
      let v := str_of w in
      let stop := (at_ + Z.of_nat (length v))%Z in
      mkToken v at_ stop (str_of "RU") None (Some (map (fun gs => mkForm v (map str_of gs) 0) fs))
        :: morph_words_from (stop + 1) ws'
  end.
Definition morph_words := morph_words_from 0.

Definition nomn := ["NOUN"; "masc"; "sing"; "nomn"]%string.
Definition accs := ["NOUN"; "masc"; "sing"; "accs"]%string.

(** Every relation object is a gnc_relation(). *)
Definition all_gnc : nat -> form -> form -> bool := fun _ => relation_call RGnc.
Lemma all_gnc_respects : respects_forms all_gnc.
Proof. apply (bank_respects (fun _ => RGnc)). intros ro. exact I. Qed.

Notation gnc_parse := (parse word_accepts word_constrain).
Notation gnc_match := (match_ word_accepts word_constrain all_gnc).
Notation gnc_findall := (findall word_accepts word_constrain all_gnc).

Definition with_relations rules prods (main : list nat) (relation : list (option nat)) : grammar token str :=
  list_grammar rules prods (fun q => nth q main 0) (fun r => nth r relation None).

(** ** rule(A.match(gnc), B.match(gnc)) *)
Definition two : grammar token str :=
  with_relations [[0]; [1]; [2]] [[RULE 1; RULE 2]; [WORD "a"]; [WORD "b"]] [] [None; Some 7; Some 7].
Definition two_text := morph_words [("a", [nomn; accs]); ("b", [accs])]%string.
Definition two_result := Eval vm_compute in gnc_match two 50 two_text.
Definition forms_shown {pred} (m : @amatch pred) : list (option nat) := map (fun t => option_map (@length form) (t_forms t)) (m_tokens m).

Lemma two_consistent :
  exists trees n n' rl w, gnc_parse two 50 two_text false = Some trees /\ In (n, (0, 2)) trees /\
  propagate n = Some n' /\ related two n' rl /\ consistent all_gnc rl leaf_tk w /\
  option_map (fun r => let! (s, m) := r in Ok (option_map (fun m => map t_forms (m_tokens m)) m)) (gnc_match two 50 two_text) =
  Some (Ok (Some [Some [mkForm (str_of "a") (map str_of accs) 0]; Some [mkForm (str_of "b") (map str_of accs) 0]])).
Proof.
  pose (f w := mkForm (str_of w) (map str_of accs) 0).
  pose (root := match two_result with Some (Ok (_, Some m)) => m_root m | _ => Leaf 0 0 [] (mkToken [] 0 0 [] None None) end).
  pose (la := (nth 0 (tree_leaves root) (0, 0, [], mkToken [] 0 0 [] None None))).
  pose (lb := (nth 1 (tree_leaves root) (0, 0, [], mkToken [] 0 0 [] None None))).
  eexists. eexists. eexists. exists [(7, la); (7, lb)], (fun pos => match pos with 0 => f "a"%string | _ => f "b"%string end).
  split; [vm_compute; reflexivity|]. split; [left; reflexivity|]. split; [vm_compute; reflexivity|].
  split. { repeat constructor; cbn; repeat (econstructor; cbn). }
  split.
  - split.
    + intros ro l [H|[H|[]]]; injection H as <- <-; eexists; eexists; (split; [reflexivity|]).
      * split; [right; left; reflexivity|reflexivity].
      * split; [left; reflexivity|reflexivity].
    + intros ro a b _. destruct (leaf_pos a), (leaf_pos b); vm_compute; reflexivity.
  - vm_compute. reflexivity.
Qed.

(** ** Acceptance although the first two words cannot agree: relation 1 joins a
    and b, relation 2 a and c, relation 3 b and d. *)
Definition square : grammar token str :=
  with_relations [[0]; [1]; [2]; [3]; [4]; [5]; [6]]
    [[RULE 1; RULE 3; RULE 5; RULE 6]; [RULE 2]; [WORD "a"]; [RULE 4]; [WORD "b"]; [WORD "c"]; [WORD "d"]]
    [] [None; Some 1; Some 2; Some 1; Some 3; Some 2; Some 3].
Definition square_text := morph_words
  [("a", [nomn; accs]); ("b", [nomn; accs]); ("c", [nomn]); ("d", [accs])]%string.
Definition square_result := Eval vm_compute in gnc_match square 100 square_text.

Lemma square_refutes : exists (g : grammar token str) toks fuel s m rl ro a b ta tb,
  match_ word_accepts word_constrain all_gnc g fuel toks = Some (Ok (s, Some m)) /\
  related g (m_root m) rl /\ joined rl ro a b /\
  token_of (tree_leaves (m_root m)) (m_tokens m) a ta /\ token_of (tree_leaves (m_root m)) (m_tokens m) b tb /\
  forall f f', has_form ta f -> has_form tb f' -> all_gnc ro f f' = false.
Proof.
  pose (root := match square_result with Some (Ok (_, Some m)) => m_root m | _ => Leaf 0 0 [] (mkToken [] 0 0 [] None None) end).
  pose (la := nth 0 (tree_leaves root) (0, 0, [], mkToken [] 0 0 [] None None)).
  pose (lb := nth 1 (tree_leaves root) (0, 0, [], mkToken [] 0 0 [] None None)).
  pose (lc := nth 2 (tree_leaves root) (0, 0, [], mkToken [] 0 0 [] None None)).
  pose (ld := nth 3 (tree_leaves root) (0, 0, [], mkToken [] 0 0 [] None None)).
  exists square, square_text, 100. eexists. eexists.
  exists [(1, la); (2, la); (1, lb); (3, lb); (2, lc); (3, ld)], 1, la, lb. eexists. eexists.
  split; [vm_compute; reflexivity|].
  split. { repeat constructor; cbn; repeat (econstructor; cbn). }
  split. { exists [], [(2, la)], [(3, lb); (2, lc); (3, ld)]. reflexivity. }
  split. { exists 0. split; reflexivity. }
  split. { exists 1. split; reflexivity. }
  intros f f' (fs & f0 & E & I0 & EQ) (fs' & f1 & E' & I1 & EQ').
  rewrite (all_gnc_respects 1 f f0 f' f1 EQ EQ').
  vm_compute in E, E'. injection E as <-. injection E' as <-.
  destruct I0 as [<-|[]]. destruct I1 as [<-|[]]. vm_compute. reflexivity.
Qed.

(** ** A reported match narrowed by a match that is not reported:
    S -> A | A B | B 'c' 'd', A and B joined. *)
Definition sharing : grammar token str :=
  with_relations [[0; 1; 2]; [3]; [4]]
    [[RULE 1]; [RULE 1; RULE 2]; [RULE 2; WORD "c"; WORD "d"]; [WORD "a"]; [WORD "b"]]
    [] [None; Some 1; Some 1].
Definition sharing_text := morph_words [("a", [nomn; accs]); ("b", [accs]); ("c", [accs]); ("d", [accs])]%string.

Lemma sharing_refutes : exists (g : grammar token str) toks fuel s ms m trees t s' m',
  findall word_accepts word_constrain all_gnc g fuel toks = Some (Ok (s, ms)) /\ In m ms /\
  parse word_accepts word_constrain g fuel toks true = Some trees /\ In t trees /\
  (forall t', In t' trees -> snd t' = m_range m -> t' = t) /\
  prepare_match all_gnc g t [] = Ok (s', Some m') /\ m_root m' = m_root m /\ m_tokens m' <> m_tokens m.
Proof.
  exists sharing, sharing_text, 100. eexists. eexists. eexists. eexists. eexists. eexists. eexists.
  split; [vm_compute; reflexivity|]. split; [left; reflexivity|].
  split; [vm_compute; reflexivity|]. split; [left; reflexivity|].
  split. { intros t' H E. cbn in H. repeat (destruct H as [<-|H]; [try reflexivity; discriminate E|]). destruct H. }
  split; [vm_compute; reflexivity|]. split; [reflexivity|]. cbn. discriminate.
Qed.

(** ** An acceptable match lost because of another candidate:
    S -> A B | A 'x' D | 'd' 'e' 'f' 'g'. *)
Definition losing : grammar token str :=
  with_relations [[0; 1; 2]; [3]; [4]; [5]]
    [[RULE 1; RULE 2]; [RULE 1; WORD "x"; RULE 3]; [WORD "d"; WORD "e"; WORD "f"; WORD "g"];
     [WORD "a"]; [WORD "x"]; [WORD "d"]]
    [] [None; Some 1; Some 1; Some 1].
Definition losing_text := morph_words
  [("a", [nomn; accs]); ("x", [nomn]); ("d", [accs]); ("e", []); ("f", []); ("g", [])]%string.

Lemma losing_refutes : exists (g : grammar token str) toks fuel s ms trees t s' m',
  findall word_accepts word_constrain all_gnc g fuel toks = Some (Ok (s, ms)) /\
  parse word_accepts word_constrain g fuel toks true = Some trees /\ In t trees /\
  prepare_match all_gnc g t [] = Ok (s', Some m') /\
  left_to_right 0 (m_range m' :: map m_range ms) /\ ~ In (m_range m') (map m_range ms).
Proof.
  exists losing, losing_text, 100. eexists. eexists. eexists. eexists. eexists. eexists.
  split; [vm_compute; reflexivity|].
  split; [vm_compute; reflexivity|]. split; [left; reflexivity|].
  split; [vm_compute; reflexivity|]. split; [cbn; lia|]. cbn. intros [E|[]]. discriminate E.
Qed.

(** ** The main term: S -> R Q; R -> O main('y') 'z' (joined to Q); O -> | 'x'. *)
Definition optional_first : grammar token str :=
  with_relations [[0]; [1]; [2]; [3; 4]]
    [[RULE 1; RULE 2]; [RULE 3; WORD "y"; WORD "z"]; [WORD "q"]; []; [WORD "x"]]
    [0; 1; 0; 0; 0] [None; Some 1; Some 1; None].
Definition optional_text := morph_words [("y", [accs]); ("z", [nomn]); ("q", [accs])]%string.

Lemma optional_refutes : exists (g : grammar token str) toks fuel trees t n n' l l',
  parse word_accepts word_constrain g fuel toks false = Some trees /\ In t trees /\
  In n (walk (fst t)) /\ propagate n = Some n' /\ main_leaf g n l /\ main_leaf g n' l' /\ leaf_pos l <> leaf_pos l' /\
  match_ word_accepts word_constrain all_gnc g fuel toks = Some (Ok ([], None)).
Proof.
  exists optional_first, optional_text, 100. eexists. eexists. eexists. eexists. eexists. eexists.
  split; [vm_compute; reflexivity|]. split; [left; reflexivity|].
  split; [right; left; reflexivity|]. split; [vm_compute; reflexivity|].
  split; [eapply main_child; [reflexivity|constructor]|].
  split; [eapply main_child; [reflexivity|constructor]|]. split; [discriminate|]. vm_compute. reflexivity.
Qed.

(** S -> R;  R -> O main('y') (with a relation);  O -> | 'x': IndexError. *)
Definition optional_raises : grammar token str :=
  with_relations [[0]; [1]; [2; 3]] [[RULE 1]; [RULE 2; WORD "y"]; []; [WORD "x"]]
    [0; 1; 0; 0] [None; Some 1; None].
Lemma optional_raises_case :
  gnc_match optional_raises 50 (morph_words [("y", [accs])]%string) = Some (Err IndexError).
Proof. vm_compute. reflexivity. Qed.

(** ** The main leaf is kept when the parts before it are not empty. *)
Lemma keep_prefix {pred} (ch : list (node token pred)) k c c' :
  nth_error ch k = Some c -> (forall i x, i < k -> nth_error ch i = Some x -> tree_leaves x <> []) ->
  propagate c = Some c' -> nth_error (flat_map (fun c => match propagate c with Some c' => [c'] | None => [] end) ch) k = Some c'.
Proof.
  revert ch. induction k as [|k IH]; intros [|y ch] E H P; try discriminate.
  - cbn in E. injection E as ->. cbn [flat_map]. rewrite P. reflexivity.
  - cbn [flat_map]. destruct (propagate y) as [y'|] eqn:PY.
    + cbn [app nth_error]. apply IH; auto. intros i x Hi. apply (H (S i)). lia.
    + exfalso. apply (H 0 y); [lia|reflexivity|]. apply propagate_none. auto.
Qed.
Lemma solid_leaf_in {pred} (g : grammar token pred) n l : solid_main g n l -> In l (tree_leaves n).
Proof.
  induction 1 as [|id r q rank ch c l E H S IH]; [left; auto|].
  cbn [tree_leaves]. apply in_flat_map. exists c. split; auto. eapply nth_error_In; eauto.
Qed.
Lemma solid_main_kept : forall pred (g : grammar token pred) n n' l,
  solid_main g n l -> propagate n = Some n' -> main_leaf g n' l.
Proof.
  intros pred g n n' l S. revert n'. induction S as [|id r q rank ch c l E H S IH]; intros n' P.
  - cbn in P. injection P as <-. constructor.
  - cbn [propagate] in P.
    destruct (propagate c) as [c'|] eqn:PC.
    2:{ apply propagate_none in PC. apply solid_leaf_in in S. rewrite PC in S. destruct S. }
    pose proof (keep_prefix ch _ _ _ E H PC) as K.
    destruct (flat_map _ ch) as [|y ys]; [discriminate|]. injection P as <-.
    eapply main_child; eauto.
Qed.
Lemma solid_main_is_main : forall pred (g : grammar token pred) n l, solid_main g n l -> main_leaf g n l.
Proof. induction 1; econstructor; eauto. Qed.

(** ** Deciding the hypotheses on concrete trees *)
Section Decide.
  Context {pred : Type}.
  Variable g : grammar token pred.
  Notation node := (node token pred).

  Fixpoint main_of (n : node) : option (@leaf pred) :=
    match n with
    | Leaf id pos p tk => Some (id, pos, p, tk)
    | Node _ _ q _ ch =>
        (fix nth_main (i : nat) (ch : list node) {struct ch} : option leaf :=
           match ch with
           | [] => None
           | c :: ch' => match i with O => main_of c | S i' => nth_main i' ch' end
           end) (g_main g q) ch
    end.

  Lemma main_of_leaf : forall (n : node) l, main_leaf g n l <-> main_of n = Some l.
  Proof.
    induction n as [id pos p tk|id r q rank ch IH] using node_ind2; intros l.
    - split; [intros H; inversion H; reflexivity|]. intros H. injection H as <-. constructor.
    - assert (N : forall i, (exists c, nth_error ch i = Some c /\ main_leaf g c l) <->
        (fix nth_main (i : nat) (ch : list node) {struct ch} : option leaf :=
           match ch with
           | [] => None
           | c :: ch' => match i with O => main_of c | S i' => nth_main i' ch' end
           end) i ch = Some l).
      { induction IH as [|c ch Hc IH IHch]; intros i.
        - split; [intros (c & H & _); destruct i; discriminate|discriminate].
        - destruct i as [|i].
          + rewrite <- (Hc l). cbn [nth_error]. split; [intros (x & H & X); injection H as <-; auto|eauto].
          + apply IHch. }
      cbn [main_of]. rewrite <- N. split.
      + intros H. inversion H; subst. eauto.
      + intros (c & H & X). econstructor; eauto.
  Qed.

  Definition relates (n : node) : list (nat * option leaf) :=
    map (fun e => (fst e, main_of (snd e))) (relation_nodes g n).
  Definition some_leaf (e : nat * @leaf pred) : nat * option leaf := (fst e, Some (snd e)).
  Lemma relates_related n rl : related g n rl <-> relates n = map some_leaf rl.
  Proof.
    unfold related, relates. split.
    - induction 1 as [|[a m] [b l] A B [E M] F IH]; auto. cbn [map some_leaf fst snd] in *. subst.
      apply main_of_leaf in M. rewrite M, IH. reflexivity.
    - revert rl. induction (relation_nodes g n) as [|[a m] ns IH]; intros [|[b l] rl] E; try discriminate; constructor.
      + cbn [map some_leaf fst snd] in *. injection E as -> E _. split; auto. apply main_of_leaf. auto.
      + apply IH. injection E as _ _ E. auto.
  Qed.

  Definition unsharedb (trees : list (node * (nat * nat))) : bool :=
    forallb (fun t => forallb (fun u =>
      range_eqb (snd t) (snd u) ||
      match propagate (fst u) with
      | None => true
      | Some u' => forallb (fun e => match snd e with
          | None => true
          | Some l => negb (existsb (fun l' => Nat.eqb (leaf_id l') (leaf_id l)) (tree_leaves (fst t)))
          end) (relates u')
      end) trees) trees.
  Lemma unsharedb_true trees : unsharedb trees = true -> unshared g trees.
  Proof.
    unfold unsharedb. intros H t u u' rl ro l HT HU NE P RL HI HL.
    rewrite forallb_forall in H. specialize (H t HT). rewrite forallb_forall in H. specialize (H u HU).
    apply orb_true_iff in H as [H|H].
    - unfold range_eqb in H. apply andb_true_iff in H as [H1 H2]. apply Nat.eqb_eq in H1, H2.
      apply NE. destruct (snd t), (snd u). cbn in *. congruence.
    - rewrite P in H. apply relates_related in RL. rewrite RL, forallb_forall in H.
      specialize (H (some_leaf (ro, l)) (in_map some_leaf _ _ HI)). cbn [some_leaf fst snd] in H.
      apply negb_true_iff in H.
      assert (X : existsb (fun l' => Nat.eqb (leaf_id l') (leaf_id l)) (tree_leaves (fst t)) = true).
      { apply existsb_exists. exists l. split; auto. apply Nat.eqb_refl. }
      congruence.
  Qed.

  Definition with_forms (l : @leaf pred) : bool := match t_forms (leaf_tk l) with Some _ => true | None => false end.
  Definition appliesb (trees : list (node * (nat * nat))) : bool :=
    forallb (fun u => match propagate (fst u) with
      | None => true
      | Some u' => forallb (fun e => match snd e with None => false | Some l => with_forms l end) (relates u')
      end) trees.
  Lemma appliesb_true trees : appliesb trees = true -> relations_apply g trees.
  Proof.
    unfold appliesb. intros H n range n' HN P. rewrite forallb_forall in H. specialize (H _ HN). cbn [fst] in H.
    rewrite P in H.
    assert (X : forall l, forallb (fun e : nat * option leaf => match snd e with None => false | Some l => with_forms l end) l = true ->
      exists rl, l = map some_leaf rl /\ forall ro l, In (ro, l) rl -> with_forms l = true).
    { induction l as [|[a [l0|]] l IH]; cbn [forallb snd]; intros E.
      - exists []. split; [reflexivity|]. intros ? ? [].
      - apply andb_true_iff in E as [E1 E2]. destruct (IH E2) as (rl & -> & F). exists ((a, l0) :: rl). split; auto.
        intros ro l [X|X]; [injection X as <- <-; auto|eauto].
      - discriminate. }
    destruct (X _ H) as (rl & E & F). exists rl. split; [apply relates_related; auto|].
    intros ro id pos p tk HI. specialize (F _ _ HI). unfold with_forms in F. cbn [leaf_tk] in F.
    destruct (t_forms tk); discriminate.
  Qed.
End Decide.

(** rule(A.match(gnc), B.match(gnc)), A and B both 'a' or 'b', on a text where
    the candidates overlap: each position has a leaf of its own as A and as B. *)
Definition chain : grammar token str :=
  with_relations [[0]; [1; 2]; [3; 4]] [[RULE 1; RULE 2]; [WORD "a"]; [WORD "b"]; [WORD "a"]; [WORD "b"]]
    [] [None; Some 7; Some 7].
Definition chain_text := morph_words
  [("a", [nomn; accs]); ("b", [accs]); ("a", [nomn]); ("b", [nomn; accs])]%string.
