(** Concrete grammars and their texts. *)
From Coq Require String.
From Verif Require Import Base TokenModel EarleyModel EarleySpec TokenizerModel PredicateModel PredicateSpec PredicateProofs PipelineModel PipelineSpec PipelineTheorems ParserModel
  RuleModel RuleSpec RuleBuild RuleCalls RuleNestSpec GrammarModel GrammarSpec TextModel TextSpec TextAbsent PredicateCases Cases RuleCases SetOrderTheorems AbsentSpec AbsentTheorems AbsentCases PieceCases
  DotTextModel LabelModel LabelSpec LabelTheorems.
Import String.StringSyntax.
Open Scope nat_scope.

(** ** Conditions that are computed *)
Section Check.
  Variable label_of_pred : predicate -> res str.
  Variable label_of_interp : nat -> res str.
  Variable label_of_relation : nat -> str.
  Variable h : rule_heap.
  Notation rule_label := (rule_label label_of_interp label_of_relation h).
  Notation term_label := (term_label label_of_pred label_of_interp label_of_relation h).
  Definition one_wordb (s : str) : bool := match ends_at outside s with Some (0, None) => true | _ => false end.
  Definition cleanb (l : str) : bool := one_wordb l && negb (str_eqb l []) && negb (marked l) && negb (str_in l [str_of "|"; str_of "e"; str_of "pipeline"; str_of "caseless_pipeline"; str_of "morph_pipeline"]).
  Lemma cleanb_true l : cleanb l = true -> clean l.
  Proof.
    unfold cleanb. rewrite !andb_true_iff, !negb_true_iff. intros [[[A B] C] D]. unfold clean, one_word. split; [|split; [|split]].
    - unfold one_wordb in A. destruct (ends_at outside l) as [[[|n] [q|]]|]; try discriminate. reflexivity.
    - intros ->. discriminate.
    - exact C.
    - intros I. apply str_in_In in I. rewrite I in D. discriminate.
  Qed.
  Definition labelled (b : str -> bool) (l : res (option str)) : bool := match l with Ok (Some s) => b s | _ => true end.
  Definition clean_labelsb (rules : list nat) : bool :=
    forallb (fun r => labelled cleanb (rule_label r) && match nth_error h r with
      | Some (OBNF ps _) => negb (match ps with [] => true | _ => false end) && forallb (fun q => match nth_error h q with
          | Some (OProd ts _) => negb (match ts with [] => true | _ => false end) && forallb (fun t => labelled cleanb (term_label t)) ts
          | Some OEmptyProd => true
          | _ => false
          end) ps
      | _ => true
      end) rules.
  Lemma clean_labelsb_true rules : clean_labelsb rules = true -> clean_labels label_of_pred label_of_interp label_of_relation h rules.
  Proof.
    unfold clean_labelsb. rewrite forallb_forall. intros K r I. specialize (K r I). apply andb_true_iff in K as [K1 K2]. split; [intros l L; rewrite L in K1; apply cleanb_true, K1|].
    destruct (nth_error h r) as [o|]; [|exact Logic.I]. destruct o; try exact Logic.I. apply andb_true_iff in K2 as [K2 K3]. split; [intros ->; discriminate|]. rewrite forallb_forall in K3. intros q Iq. specialize (K3 q Iq).
    destruct (nth_error h q) as [o|]; [|discriminate]. destruct o; try discriminate; [|exact Logic.I]. apply andb_true_iff in K3 as [K3 K4]. split; [intros ->; discriminate|]. rewrite forallb_forall in K4. intros t l It L. specialize (K4 t It). rewrite L in K4. apply cleanb_true, K4.
  Qed.
  Definition preds_of (r : nat) : list predicate :=
    match nth_error h r with
    | Some (OBNF ps _) => flat_map (fun q => match nth_error h q with Some (OProd ts _) => flat_map (fun t => match t with TPred p => [p] | TRule _ => [] end) ts | _ => [] end) ps
    | _ => []
    end.
  Lemma preds_of_in r ps a q ts main p : nth_error h r = Some (OBNF ps a) -> In q ps -> nth_error h q = Some (OProd ts main) -> In (TPred p) ts -> In p (preds_of r).
  Proof. intros E I Eq J. unfold preds_of. rewrite E. apply in_flat_map. exists q. split; [exact I|]. rewrite Eq. apply in_flat_map. exists (TPred p). split; [exact J|left; reflexivity]. Qed.
  Definition same_label (a b : res (option str)) : bool := match a, b with Ok (Some x), Ok (Some y) => str_eqb x y | _, _ => false end.
  Lemma same_label_true a b l : a = Ok (Some l) -> b = Ok (Some l) -> same_label a b = true.
  Proof. intros -> ->. cbn. apply str_eqb_eq. reflexivity. Qed.
  Fixpoint distinct (l : list nat) : bool := match l with [] => true | r :: l' => negb (existsb (fun r' => (r =? r') || same_label (rule_label r) (rule_label r')) l') && distinct l' end.
  Definition own_labelsb (rules : list nat) : bool :=
    distinct rules && forallb (fun r => forallb (fun p => forallb (fun r' => negb (same_label (let! l := label_of_pred p in Ok (Some l)) (rule_label r'))) rules) (preds_of r)) rules.
  Lemma distinct_true l : distinct l = true -> NoDup l /\ forall r r' s, In r l -> In r' l -> rule_label r = Ok (Some s) -> rule_label r' = Ok (Some s) -> r = r'.
  Proof.
    induction l as [|x l IH]; intros D; [split; [constructor|intros r r' s []]|]. cbn [distinct] in D. apply andb_true_iff in D as [D1 D2]. destruct (IH D2) as [N K]. apply negb_true_iff in D1.
    assert (X : forall y, In y l -> (x =? y) || same_label (rule_label x) (rule_label y) = false) by (intros y Iy; destruct (_ || _) eqn:E; [|reflexivity]; exfalso; assert (existsb (fun r' => (x =? r') || same_label (rule_label x) (rule_label r')) l = true) by (apply existsb_exists; eauto); congruence).
    split; [constructor; [intros I; specialize (X x I); rewrite Nat.eqb_refl in X; discriminate|exact N]|].
    intros r r' s [<-|I] [<-|I'] L L'; [reflexivity| | |exact (K r r' s I I' L L')].
    - specialize (X r' I'). rewrite (same_label_true _ _ s L L'), orb_true_r in X. discriminate.
    - specialize (X r I). rewrite (same_label_true _ _ s L' L), orb_true_r in X. discriminate.
  Qed.
  Lemma own_labelsb_true rules : own_labelsb rules = true -> own_labels label_of_pred label_of_interp label_of_relation h rules.
  Proof.
    unfold own_labelsb. rewrite andb_true_iff. intros [D K]. destruct (distinct_true rules D) as [N Q]. split; [exact N|]. split; [exact Q|].
    intros r r' ps a q ts main p l I I' E Iq Eq Ip L L'. rewrite forallb_forall in K. specialize (K r I). rewrite forallb_forall in K. specialize (K p (preds_of_in r ps a q ts main p E Iq Eq Ip)). rewrite forallb_forall in K. specialize (K r' I').
    rewrite L in K. cbn [bind] in K. rewrite (same_label_true _ _ l eq_refl L') in K. discriminate.
  Qed.
  Definition no_dictionariesb (rules : list nat) : bool := forallb (fun r => match nth_error h r with Some (OBNF _ _) => true | _ => false end) rules.
  Lemma no_dictionariesb_true rules : no_dictionariesb rules = true -> no_dictionaries h rules.
  Proof. unfold no_dictionariesb. rewrite forallb_forall. intros K r I. specialize (K r I). destruct (nth_error h r) as [o|]; [|discriminate]. destruct o; try discriminate. eauto. Qed.
  Definition toldb (p : predicate) : bool :=
    match p with
    | PTrue | PIsLower | PIsUpper | PIsTitle | PIsCapitalized | PIsSingle
    | PEq _ | PGram _ | PLengthEq _ | PGte _ | PLte _ | PCaseless _ | PType _ | PTag _ => true
    | _ => false
    end.
  Lemma all_told rules : forallb (fun r => forallb toldb (preds_of r)) rules = true -> forall p, predicate_in h rules p -> told p.
  Proof.
    rewrite forallb_forall. intros K p (r & ps & a & q & ts & main & I & E & Iq & Eq & Ip). specialize (K r I). rewrite forallb_forall in K. specialize (K p (preds_of_in r ps a q ts main p E Iq Eq Ip)). destruct p; try discriminate; exact Logic.I.
  Qed.
End Check.

(** ** Labels *)
(** Values in quotes; numbers in digits. *)
Definition quoted (s : str) : str := str_of "'" ++ s ++ str_of "'".
Definition counted (z : Z) : str := match z with Z0 => [] | Zpos p => repeat 49%N (Pos.to_nat p) | Zneg p => 45%N :: repeat 49%N (Pos.to_nat p) end.
Lemma quoted_inj a b : quoted a = quoted b -> a = b.
Proof. unfold quoted. intros E. apply app_inv_head in E. apply app_inv_tail in E. exact E. Qed.
Lemma counted_inj a b : counted a = counted b -> a = b.
Proof.
  assert (K : forall n m, repeat 49%N n = repeat 49%N m -> n = m) by (intros n m E; apply (f_equal (@length N)) in E; rewrite !repeat_length in E; exact E).
  assert (P : forall p, exists l, repeat 49%N (Pos.to_nat p) = 49%N :: l) by (intros p; destruct (Pos2Nat.is_succ p) as (n & ->); cbn; eauto).
  destruct a as [|p|p], b as [|q|q]; cbn; intros E; try reflexivity; try discriminate.
  - destruct (P q) as (l & X). rewrite X in E. discriminate.
  - destruct (P p) as (l & X). rewrite X in E. discriminate.
  - f_equal. apply Pos2Nat.inj, K, E.
  - destruct (P p) as (l & X). rewrite X in E. discriminate.
  - destruct (P q) as (l & X). rewrite X in E. discriminate.
  - injection E as E. f_equal. apply Pos2Nat.inj, K, E.
Qed.
Definition case_label : predicate -> res str := pred_label quoted counted (fun _ => None) (fun _ => []).
Definition first_label (i : nat) : res str := interpretator_text (LAttribute (str_of "Name") (str_of "first")).
Definition no_label (i : nat) : str := [].
Definition rules_of (p : list rule_call) (root : nat) : list nat * rule_heap :=
  match parser_rules ASCII first_seen small_context 100 (program p) root with Some (Ok x) => x | _ => ([], []) end.
Definition text_of (li : nat -> res str) (p : list rule_call) (root : nat) : res (list str) := source case_label li no_label (snd (rules_of p root)) (fst (rules_of p root)).
Definition rules_ready (p : list rule_call) (root : nat) : bool :=
  valid [] p && is_rule_atb (program p) root && harmlessb (program p) && match parser_rules ASCII first_seen small_context 100 (program p) root with Some (Ok _) => true | _ => false end.
Lemma rules_ready_true p root : rules_ready p root = true -> built (program p) /\ harmless (program p) root /\ is_rule_at (program p) root /\
  parser_rules ASCII first_seen small_context 100 (program p) root = Some (Ok (fst (rules_of p root), snd (rules_of p root))).
Proof.
  unfold rules_ready. rewrite !andb_true_iff. intros [[[V R] H] P]. apply program_built in V. apply is_rule_atb_true in R. apply harmlessb_true with (root := root) in H; auto.
  split; [exact V|]. split; [exact H|]. split; [exact R|]. unfold rules_of. destruct (parser_rules _ _ _ _ _ _) as [[[rules h']|]|]; try discriminate. reflexivity.
Qed.
Definition label_ready (li : nat -> res str) (p : list rule_call) (root : nat) : bool :=
  rules_ready p root && clean_labelsb case_label li no_label (snd (rules_of p root)) (fst (rules_of p root)) && no_dictionariesb (snd (rules_of p root)) (fst (rules_of p root)) &&
  forallb (fun r => forallb toldb (preds_of (snd (rules_of p root)) r)) (fst (rules_of p root)).
Lemma alike_told p q r s : forallb (fun x => forallb toldb (preds_of (snd (rules_of p r)) x)) (fst (rules_of p r)) = true -> forallb (fun x => forallb toldb (preds_of (snd (rules_of q s)) x)) (fst (rules_of q s)) = true ->
  forall p1 p2 l, predicate_in (snd (rules_of p r)) (fst (rules_of p r)) p1 -> predicate_in (snd (rules_of q s)) (fst (rules_of q s)) p2 -> case_label p1 = Ok l -> case_label p2 = Ok l -> forall t, accepts ASCII p1 t = accepts ASCII p2 t.
Proof.
  intros A B p1 p2 l I1 I2 L1 L2 t. f_equal. exact (labels_tell quoted counted _ _ p1 p2 l quoted_inj counted_inj (all_told _ _ A p1 I1) (all_told _ _ B p2 I2) L1 L2).
Qed.

(** a = rule(a).interpretation(Name.first), b = rule(b).interpretation(Name.first):
    rule(a, b, a) and rule(a, b, b) *)
Definition aba_program (last : nat) : list rule_call := [CRule [W "a"]; CInterpretation 1 0; CRule [W "b"]; CInterpretation 4 1; CRule [R 2; R 5; R last]].
Lemma text_refutes : exists U so c fuel h1 h2 root1 root2 rules1 rules2 k1 k2 lp li lr lines toks,
  set_iteration so /\ built h1 /\ harmless h1 root1 /\ is_rule_at h1 root1 /\ parser_rules U so c fuel h1 root1 = Some (Ok (rules1, k1)) /\
  built h2 /\ harmless h2 root2 /\ is_rule_at h2 root2 /\ parser_rules U so c fuel h2 root2 = Some (Ok (rules2, k2)) /\
  source lp li lr k1 rules1 = Ok lines /\ source lp li lr k2 rules2 = Ok lines /\
  clean_labels lp li lr k1 rules1 /\ clean_labels lp li lr k2 rules2 /\ no_dictionaries k1 rules1 /\ no_dictionaries k2 rules2 /\
  (forall p1 p2 l, predicate_in k1 rules1 p1 -> predicate_in k2 rules2 p2 -> lp p1 = Ok l -> lp p2 = Ok l -> forall t, accepts U p1 t = accepts U p2 t) /\
  ~ rule_accepts U so c h1 root1 toks 0 (length toks) /\ rule_accepts U so c h2 root2 toks 0 (length toks).
Proof.
  destruct (timely_ready (aba_program 2) 7 (str_of "a b b")) as (g1 & toks & Us1 & T1); [vm_compute; reflexivity|vm_compute; reflexivity|].
  destruct (usualb_true (aba_program 5) 7 (str_of "a b b")) as (g2 & toks' & Us2); [vm_compute; reflexivity|].
  assert (Et : toks' = toks) by (destruct Us1 as (_ & _ & _ & _ & _ & _ & X1 & _), Us2 as (_ & _ & _ & _ & _ & _ & X2 & _); congruence). subst toks'.
  destruct (rules_ready_true (aba_program 2) 7) as (B1 & H1 & R1 & P1); [vm_compute; reflexivity|]. destruct (rules_ready_true (aba_program 5) 7) as (B2 & H2 & R2 & P2); [vm_compute; reflexivity|].
  assert (L : length toks = 3) by (destruct Us1 as (_ & _ & _ & _ & _ & _ & T & _); revert T; vm_compute; intros E; injection E as <-; reflexivity).
  exists ASCII, first_seen, small_context, 100, (program (aba_program 2)), (program (aba_program 5)), 7, 7, (fst (rules_of (aba_program 2) 7)), (fst (rules_of (aba_program 5) 7)), (snd (rules_of (aba_program 2) 7)), (snd (rules_of (aba_program 5) 7)),
    case_label, first_label, no_label, [str_of "R0 -> Name.first Name.first Name.first"; str_of "Name.first -> 'a'"; str_of "Name.first -> 'b'"], toks.
  split; [exact first_seen_iterates|]. split; [exact B1|]. split; [exact H1|]. split; [exact R1|]. split; [exact P1|]. split; [exact B2|]. split; [exact H2|]. split; [exact R2|]. split; [exact P2|].
  split; [vm_compute; reflexivity|]. split; [vm_compute; reflexivity|]. split; [apply clean_labelsb_true; vm_compute; reflexivity|]. split; [apply clean_labelsb_true; vm_compute; reflexivity|].
  split; [apply no_dictionariesb_true; vm_compute; reflexivity|]. split; [apply no_dictionariesb_true; vm_compute; reflexivity|]. split; [apply alike_told; vm_compute; reflexivity|]. rewrite L. split.
  - intros A. destruct (apart_in_true (aba_program 2) 7 (str_of "a b b") 1 g1 toks Us1 T1 ltac:(vm_compute; reflexivity) 0 3 A); lia.
  - destruct Us2 as (_ & B & H & R & _ & _ & T & _). eapply searched_sound; eauto. vm_compute. auto.
Qed.

(** rule(a.optional(reverse), b) and rule(or_(a, empty()), b) *)
Definition optional_text : list rule_call := [CRule [W "a"]; CNamed 1 (str_of "A"); COptional 2 true; CRule [R 3; W "b"]].
Definition or_text : list rule_call := [CRule [W "a"]; CNamed 1 (str_of "A"); CRule [R 2]; CEmpty; COr [4; 5]; CRule [R 6; W "b"]].
(** rule(a).interpretation(inflected()) *)
Definition inflected_program : list rule_call := [CRule [W "a"]; CInterpretation 1 0].
Lemma undrawn li lr (h : rule_heap) rules : existsb (fun x => match nth_error h x with Some o => match object_style li lr h x o with Err TypeError => true | _ => false end | None => false end) rules = true ->
  exists x o, In x rules /\ nth_error h x = Some o /\ object_style li lr h x o = Err TypeError.
Proof.
  intros K. apply existsb_exists in K as (x & I & K). destruct (nth_error h x) as [o|] eqn:E; [|discriminate]. exists x, o. split; [exact I|]. split; [exact E|]. destruct (object_style li lr h x o) as [|[]]; try discriminate. reflexivity.
Qed.
Lemma inflected_refutes : exists U so c fuel h root rules h' interpretator, set_iteration so /\ built h /\ harmless h root /\ is_rule_at h root /\ parser_rules U so c fuel h root = Some (Ok (rules, h')) /\
  source case_label (fun _ => interpretator_text interpretator) no_label h' rules = Err TypeError /\
  exists x o, In x rules /\ nth_error h' x = Some o /\ object_style (fun _ => interpretator_text interpretator) no_label h' x o = Err TypeError.
Proof.
  destruct (rules_ready_true inflected_program 2) as (B & H & R & P); [vm_compute; reflexivity|].
  exists ASCII, first_seen, small_context, 100, (program inflected_program), 2, (fst (rules_of inflected_program 2)), (snd (rules_of inflected_program 2)), (LNormalizer (LMorph (LInflected None))).
  split; [exact first_seen_iterates|]. split; [exact B|]. split; [exact H|]. split; [exact R|]. split; [exact P|]. split; [vm_compute; reflexivity|].
  apply undrawn. vm_compute. reflexivity.
Qed.
(** rule(eq(a b), main(eq(c))).interpretation(Name.first) *)
Definition main_text : list rule_call := [CRule [W "a b"; Main (TPred (PEq (str_of "c")))]; CInterpretation 1 0].
Lemma dots_refute : exists repr repr_int function_name repr_other p q l t,
  (forall a b, repr a = repr b -> a = b) /\ (forall a b, repr_int a = repr_int b -> a = b) /\
  pred_label repr repr_int function_name repr_other p = Ok l /\ pred_label repr repr_int function_name repr_other q = Ok l /\ accepts ASCII p t = true /\ accepts ASCII q t = false.
Proof.
  exists quoted, counted, (fun _ => None), (fun _ => []), (PIn [str_of "a"]), (PIn [str_of "b"]), (str_of "in_(...)"), (mkToken (str_of "a") 0%Z 1%Z LATIN None None).
  split; [exact quoted_inj|]. split; [exact counted_inj|]. repeat split; reflexivity.
Qed.
