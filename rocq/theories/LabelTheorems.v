(** What the text of a grammar says, and when it can be printed. *)
From Coq Require String.
From Verif Require Import Base FactTheorems EarleyProofs TokenModel EarleyModel EarleySpec ParserModel ParserSpec PredicateModel PredicateProofs PipelineModel PipelineSpec
  RuleModel RuleSpec RuleBuild RuleNestSpec RuleBfs RuleBNF RuleForward RuleNames RuleParser RuleBuilt RuleMild GrammarModel GrammarSpec GrammarProofs RuleNormalized DotTextModel LabelModel LabelSpec LabelProofs.
Import String.StringSyntax.
Open Scope nat_scope.

Lemma mapM_lengths {A B} (f : A -> res B) l l' : mapM f l = Ok l' -> length l' = length l.
Proof. intros E. apply mapM_Forall2 in E. induction E; cbn; congruence. Qed.

(** ** The rules of a parser *)
Section Names.
  Variable U : unicode.
  Variable set_order : list str -> list str.
  Variable c : context.
  Notation pipe_bnf := (pipeline_as_bnf U set_order).

  Theorem parser_rules_ok fuel (h : rule_heap) root rules h' : built h -> harmless h root -> is_rule_at h root -> parser_rules U set_order c fuel h root = Some (Ok (rules, h')) ->
    exists r rest objects, build_rule U set_order c fuel h root = Some (Ok (r, h')) /\ rules = r :: rest /\ bfs fuel h' r = Some objects /\ NoDup rules /\
    (forall x, In x rules <-> reach h' r x /\ is_bnf_rule h' x) /\ bnf_graph pipe_bnf b_productions false h' (reach h' r) /\
    forall x, In x rules -> exists n, n <> [] /\ rule_name h' x = Some n.
  Proof.
    intros B F R H. unfold parser_rules in H. apply then_ok in H as ((r & h1) & H & Hb). destruct (bfs fuel h1 r) as [objects|] eqn:Bf; [|discriminate]. injection Hb as <- <-.
    destruct (parser_rule_mild pipe_bnf b_productions (activate c) (activate_pipeline c) (pred_twice c) (pipe_twice c) fuel h root r h1 (built_mild h root B F R) H) as (ha & rn & hn & _ & _ & _ & G & (o & E & Bo) & _).
    destruct (bfs_ok h1 fuel r objects Bf) as (ND & Re & rest & Eo).
    assert (K : forall x, In x (bnf_rules h1 objects) <-> reach h1 r x /\ is_bnf_rule h1 x).
    { intros x. unfold bnf_rules. rewrite filter_In, Re. unfold is_bnf_rule. split; intros [Rx Bx]; (split; [exact Rx|]); [destruct (nth_error h1 x) as [ox|]; [exists ox; auto|discriminate]|destruct Bx as (ox & -> & Bx); exact Bx]. }
    exists r, (bnf_rules h1 rest), objects. split; [exact H|]. split; [rewrite Eo; unfold bnf_rules; cbn [filter]; rewrite E, Bo; reflexivity|]. split; [exact Bf|]. split; [apply NoDup_filter, ND|]. split; [exact K|]. split; [exact G|].
    intros x Hx. apply K in Hx as (Rx & ox & Ex & Bx). unfold build_rule, parser_rule in H. apply then_ok in H as ((r1 & h2) & _ & H). apply then_ok in H as ((r2 & h3) & _ & H). unfold as_bnf in H. apply then_ok in H as ((r3 & h4) & _ & H). apply then_ok in H as ((r4 & h5) & _ & H).
    destruct (nth_error h5 r4) as [o5|]; [|discriminate]. destruct (is_bnf o5); [|discriminate]. destruct (bfs fuel h5 r4) as [l|] eqn:B5; [|discriminate]. injection H as <- <-.
    destruct (bfs_ok h5 fuel r4 l B5) as (NDl & Rl & _). assert (Rn := generate_renamed (bnf_rules h5 l) 0 h5). set (h6 := generate_names (bnf_rules h5 l) 0 h5) in *.
    apply (renamed_reach h5 h6 r4 x Rn) in Rx. apply Rl in Rx. destruct (renamed_back h5 h6 x ox Rn Ex) as (o' & E' & Ro). rewrite (proj2 (renamed_children _ _ Ro)) in Bx.
    destruct (generate_names_ok (bnf_rules h5 l) 0 h5 (NoDup_filter _ NDl)) as [Gn Gk]. fold h6 in Gn, Gk.
    assert (Ix : In x (bnf_rules h5 l)) by (unfold bnf_rules; apply filter_In; split; [exact Rx|rewrite E'; exact Bx]).
    rewrite rule_name_of. destruct (unnamed h5 x) eqn:Un.
    - assert (I2 : In x (filter (unnamed h5) (bnf_rules h5 l))) by (apply filter_In; auto). apply In_nth_error in I2 as (i & Ei). rewrite (Gn i x Ei). exists (generated_name (0 + i)). split; [|reflexivity]. destruct (generated_name_nonempty (0 + i)) as (z & s & ->). discriminate.
    - rewrite (Gk x Un). unfold unnamed, name_of in *. destruct (attributes_of h5 x) as [a|] eqn:A.
      + unfold has_name in Un. destruct (a_name a) as [[|z s]|]; try discriminate. exists (z :: s). split; [discriminate|reflexivity].
      + exfalso. unfold attributes_of in A. rewrite E' in A. destruct o'; discriminate.
  Qed.
End Names.

Section Inside.
  Variable U : unicode.
  Variable set_order : list str -> list str.
  Lemma graph_inside (h : rule_heap) r rules : (forall x, In x rules <-> reach h r x /\ is_bnf_rule h x) -> bnf_graph (pipeline_as_bnf U set_order) b_productions false h (reach h r) ->
    (forall x ps a q ts main y, In x rules -> nth_error h x = Some (OBNF ps a) -> In q ps -> nth_error h q = Some (OProd ts main) -> In (TRule y) ts -> In y rules) /\
    (forall x, In x rules -> match nth_error h x with
      | Some (OBNF ps _) => forall q, In q ps -> match nth_error h q with Some (OProd _ _) | Some OEmptyProd => True | _ => False end
      | Some (OPipeBNF _ _ _) => True
      | _ => False
      end).
  Proof.
    intros K G. split.
    - intros x ps a q ts main y Ix Ex Iq Eq Iy. apply K in Ix as (Rx & _). assert (Rq : reach h r q) by (apply (reach_step h r x _ q Rx Ex); exact Iq). assert (Ry : reach h r y).
      { apply (reach_step h r q _ y Rq Eq). cbn. unfold rule_terms. apply in_flat_map. exists (TRule y). split; [exact Iy|left; reflexivity]. }
      apply K. split; [exact Ry|]. destruct (G q Rq) as (oq & Eq' & Bq & _). rewrite Eq in Eq'. injection Eq' as <-. destruct Bq as (_ & T). destruct (T y Iy) as (oy & Ey & [By|[X _]]); [exists oy; auto|discriminate].
    - intros x Ix. apply K in Ix as (Rx & ox & Ex & Bx). rewrite Ex. destruct (G x Rx) as (o' & E' & B' & _). rewrite Ex in E'. injection E' as <-. destruct ox; try discriminate; [|exact Logic.I]. intros q Iq. destruct (B' q Iq) as (oq & -> & Kq). destruct oq; tauto.
  Qed.
End Inside.

(** ** Printing *)
Section Printing.
  Variable label_of_pred : predicate -> res str.
  Variable label_of_interp : nat -> res str.
  Variable label_of_relation : nat -> str.
  Variable U : unicode.
  Variable set_order : list str -> list str.
  Variable c : context.
  Notation rule_label := (rule_label label_of_interp label_of_relation).
  Notation term_label := (term_label label_of_pred label_of_interp label_of_relation).
  Notation term_texts := (term_texts label_of_pred label_of_interp label_of_relation).
  Notation production_text := (production_text label_of_pred label_of_interp label_of_relation).
  Notation rule_text := (rule_text label_of_pred label_of_interp label_of_relation).
  Notation source := (source label_of_pred label_of_interp label_of_relation).
  Notation printable := (printable label_of_pred label_of_interp).

  Lemma label_named (h : rule_heap) r n : rule_name h r = Some n -> (forall l, rule_label h r = Ok l -> exists s, l = Some s) /\
    ((exists s, rule_label h r = Ok (Some s)) <-> forall i, rule_interp h r = Some i -> exists s, label_of_interp i = Ok s).
  Proof.
    unfold rule_name, rule_interp, LabelModel.rule_label. destruct (nth_error h r) as [o|]; [|discriminate].
    assert (K : forall a, a_name a = Some n -> get_attributes o = Some a ->
      (forall l, (let! name := match a_interp a with Some i => let! l := label_of_interp i in Ok (Some l) | None => Ok (a_name a) end in
        match a_relation a with Some ro => Ok (Some (match name with Some n => n | None => str_of "None" end ++ str_of "^" ++ label_of_relation ro)) | None => Ok name end) = Ok l -> exists s, l = Some s) /\
      ((exists s, (let! name := match a_interp a with Some i => let! l := label_of_interp i in Ok (Some l) | None => Ok (a_name a) end in
        match a_relation a with Some ro => Ok (Some (match name with Some n => n | None => str_of "None" end ++ str_of "^" ++ label_of_relation ro)) | None => Ok name end) = Ok (Some s)) <->
        forall i, a_interp a = Some i -> exists s, label_of_interp i = Ok s)).
    { intros a N _. rewrite N. destruct (a_interp a) as [i|]; [destruct (label_of_interp i) as [l|e] eqn:Li|]; cbn [bind]; destruct (a_relation a) as [ro|].
      1,2: split; [intros l' E; injection E as <-; eauto|]; split; [intros _ j Ej; injection Ej as <-; eauto|eauto].
      1,2: split; [discriminate|]; split; [intros (s & E); discriminate|intros J; destruct (J i eq_refl) as (s & E); congruence].
      1,2: split; [intros l' E; injection E as <-; eauto|]; split; [intros _ j Ej; discriminate|eauto]. }
    destruct o; cbn [get_attributes]; try discriminate; intros N; apply (K _ N eq_refl).
  Qed.
  Section Heap.
    Variable h : rule_heap.
    Variable rules : list nat.
    Hypothesis named : forall x, In x rules -> exists n, n <> [] /\ rule_name h x = Some n.
    Hypothesis inside : forall x ps a q ts main y, In x rules -> nth_error h x = Some (OBNF ps a) -> In q ps -> nth_error h q = Some (OProd ts main) -> In (TRule y) ts -> In y rules.
    Hypothesis bodies : forall x, In x rules -> match nth_error h x with
      | Some (OBNF ps _) => forall q, In q ps -> match nth_error h q with Some (OProd _ _) | Some OEmptyProd => True | _ => False end
      | Some (OPipeBNF _ _ _) => True
      | _ => False
      end.
    Lemma label_present x : In x rules -> (forall i, rule_interp h x = Some i -> exists s, label_of_interp i = Ok s) -> exists s, rule_label h x = Ok (Some s).
    Proof. intros I K. destruct (named x I) as (n & _ & N). apply (proj2 (label_named h x n N)), K. Qed.
    Lemma label_present_back x l : In x rules -> rule_label h x = Ok l -> forall i, rule_interp h x = Some i -> exists s, label_of_interp i = Ok s.
    Proof. intros I L. destruct (named x I) as (n & _ & N). destruct (label_named h x n N) as [A B]. destruct (A l L) as (s & ->). apply B. eauto. Qed.

    Lemma terms_printed main ts : (forall t, In t ts -> exists s, term_label h t = Ok (Some s)) -> forall i, exists xs, term_texts h main i ts = Ok (map Some xs).
    Proof.
      induction ts as [|t ts IH]; intros K i; [exists []; reflexivity|]. destruct (K t (or_introl eq_refl)) as (s & L). destruct (IH (fun t' I => K t' (or_intror I)) (S i)) as (xs & E).
      cbn [LabelModel.term_texts]. rewrite L. cbn [bind needed]. rewrite E. destruct (_ && _); cbn [bind]; [exists ((str_of "^" ++ s) :: xs)|exists (s :: xs)]; reflexivity.
    Qed.
    Lemma needed_all (xs : list str) : mapM needed (map Some xs) = Ok xs.
    Proof. induction xs as [|x xs IH]; [reflexivity|]. cbn [map mapM needed bind]. rewrite IH. reflexivity. Qed.
    Lemma terms_printed_back main ts : forall i l, term_texts h main i ts = Ok l -> forall t, In t ts -> exists x, term_label h t = Ok x.
    Proof.
      induction ts as [|t ts IH]; intros i l E t' I; [destruct I|]. cbn [LabelModel.term_texts] in E. destruct (term_label h t) as [x|] eqn:L; [|discriminate]. cbn [bind] in E.
      destruct I as [<-|I]; [eauto|]. match type of E with bind ?z _ = _ => destruct z; [|discriminate] end. cbn [bind] in E. destruct (term_texts h main (S i) ts) as [l'|] eqn:T; [|discriminate]. exact (IH (S i) l' T t' I).
    Qed.
    Theorem printed_iff : (exists lines, source h rules = Ok lines /\ length lines = length rules) <-> printable h rules.
    Proof.
      split.
      - intros (lines & E & _). apply mapM_Forall2 in E. assert (A : forall x, In x rules -> exists s, rule_text h x = Ok s).
        { clear - E. induction E as [|x s rules lines X E IH]; intros y; [intros []|]. intros [<-|I]; [eauto|apply IH, I]. }
        intros x Ix. destruct (A x Ix) as (s & T). unfold LabelModel.rule_text in T. specialize (bodies x Ix). destruct (nth_error h x) as [o|] eqn:Ex; [|contradiction]. destruct o as [| | | | | | | | | | | | | |ps a|b ps a| | |]; try contradiction.
        + destruct (mapM (production_text h) ps) as [ss|] eqn:M; [|discriminate]. cbn [bind] in T. destruct (rule_label h x) as [l|] eqn:L; [|discriminate]. split; [exact (label_present_back x l Ix L)|].
          intros ps' a' q ts main p E' Iq Eq Ip. injection E' as <- <-. apply mapM_Forall2 in M. assert (Q : exists t, production_text h q = Ok t).
          { clear - M Iq. induction M as [|y t ps ss Y M IH]; [destruct Iq|]. destruct Iq as [<-|I]; [eauto|apply IH, I]. }
          destruct Q as (t & Q). unfold LabelModel.production_text in Q. rewrite Eq in Q. unfold LabelModel.terms_text in Q. destruct (term_texts h main 0 ts) as [l0|] eqn:T0; [|discriminate]. destruct (terms_printed_back main ts 0 l0 T0 (TPred p) Ip) as (y & Y). cbn in Y. destruct (label_of_pred p) as [z|]; [eauto|discriminate].
        + destruct (rule_label h x) as [l|] eqn:L; [|discriminate]. split; [exact (label_present_back x l Ix L)|]. intros ps' a' q ts main p E'. discriminate.
      - intros P. assert (A : forall x, In x rules -> exists s, rule_text h x = Ok s).
        { intros x Ix. destruct (P x Ix) as [Pi Pp]. destruct (label_present x Ix Pi) as (l & L). unfold LabelModel.rule_text. assert (Bx := bodies x Ix). destruct (nth_error h x) as [o|] eqn:Ex; [|contradiction]. destruct o as [| | | | | | | | | | | | | |ps a|b ps a| | |]; try contradiction.
          - assert (Q : forall q, In q ps -> exists t, production_text h q = Ok t).
            { intros q Iq. specialize (Bx q Iq). unfold LabelModel.production_text. destruct (nth_error h q) as [oq|] eqn:Eq; [|contradiction]. destruct oq as [| | | | | | | | | | | | | | | |ts main| |]; try contradiction; [|eauto].
              assert (K : forall t, In t ts -> exists s, term_label h t = Ok (Some s)).
              { intros [y|p] It; cbn [LabelModel.term_label]; [|destruct (Pp ps a q ts main p eq_refl Iq Eq It) as (s & ->); cbn; eauto]. assert (Iy := inside x ps a q ts main y Ix Ex Iq Eq It). apply (label_present y Iy), (P y Iy). }
              unfold LabelModel.terms_text. destruct (terms_printed main ts K 0) as (xs & ->). cbn [bind]. rewrite needed_all. cbn [bind]. eauto. }
            assert (M : exists ss, mapM (production_text h) ps = Ok ss).
            { clear - Q. induction ps as [|q ps IH]; [exists []; reflexivity|]. destruct (Q q (or_introl eq_refl)) as (t & T). destruct IH as (ss & E); [intros q' I; apply Q; right; exact I|]. cbn. rewrite T, E. cbn. eauto. }
            destruct M as (ss & ->). cbn [bind]. rewrite L. cbn [bind]. eauto.
          - rewrite L. cbn [bind]. eauto. }
        clear - A. unfold LabelModel.source. induction rules as [|x l IH]; [exists []; split; reflexivity|]. destruct (A x (or_introl eq_refl)) as (s & T). destruct IH as (lines & E & Ln); [intros y I; apply A; right; exact I|]. cbn [mapM]. rewrite T, E. cbn [bind]. exists (s :: lines). split; [reflexivity|]. cbn. rewrite Ln. reflexivity.
    Qed.
  End Heap.
  Theorem grammar_printed fuel (h : rule_heap) root rules h' : built h -> harmless h root -> is_rule_at h root -> parser_rules U set_order c fuel h root = Some (Ok (rules, h')) ->
    (exists lines, source h' rules = Ok lines /\ length lines = length rules) <-> printable h' rules.
  Proof.
    intros B F R H. destruct (parser_rules_ok U set_order c fuel h root rules h' B F R H) as (r & rest & objects & _ & _ & _ & _ & K & G & N). destruct (graph_inside U set_order h' r rules K G) as [A1 A2]. exact (printed_iff h' rules N A1 A2).
  Qed.
  Theorem grammar_read fuel (h : rule_heap) root rules h' lines : built h -> harmless h root -> is_rule_at h root -> parser_rules U set_order c fuel h root = Some (Ok (rules, h')) ->
    source h' rules = Ok lines -> clean_labels label_of_pred label_of_interp label_of_relation h' rules ->
    exists xs, map read_line lines = map Some xs /\ Forall2 (shows label_of_pred label_of_interp label_of_relation h') rules xs.
  Proof.
    intros B F R H E C. destruct (parser_rules_ok U set_order c fuel h root rules h' B F R H) as (r & rest & objects & _ & _ & _ & _ & K & G & N). destruct (graph_inside U set_order h' r rules K G) as [A1 A2].
    apply (source_read label_of_pred label_of_interp label_of_relation h' rules lines E C). intros x Ix. apply (label_present h' rules N x Ix). apply (proj1 (printed_iff h' rules N A1 A2) (ex_intro _ lines (conj E (mapM_lengths _ _ _ E))) x Ix).
  Qed.
End Printing.

(** ** The text determines what is accepted *)
Lemma Forall2_left {A B} (R : A -> B -> Prop) l l' x : Forall2 R l l' -> In x l -> exists y, In y l' /\ R x y.
Proof. intros F. induction F as [|a b l l' H F IH]; intros I; [destruct I|]. destruct I as [<-|I]; [exists b; split; [left; reflexivity|exact H]|]. destruct (IH I) as (y & Iy & Hy). exists y. split; [right; exact Iy|exact Hy]. Qed.
Lemma Forall2_right {A B} (R : A -> B -> Prop) l l' y : Forall2 R l l' -> In y l' -> exists x, In x l /\ R x y.
Proof. intros F. induction F as [|a b l l' H F IH]; intros I; [destruct I|]. destruct I as [<-|I]; [exists a; split; [left; reflexivity|exact H]|]. destruct (IH I) as (x & Ix & Hx). exists x. split; [right; exact Ix|exact Hx]. Qed.

Section Told.
  Variable U : unicode.
  Variables so1 so2 : list str -> list str.
  Variables lp1 lp2 : predicate -> res str.
  Variables li1 li2 : nat -> res str.
  Variables lr1 lr2 : nat -> str.
  Variables h1 h2 : rule_heap.
  Variables rules1 rules2 : list nat.
  Variable xs : list (str * body).
  Hypothesis shows1 : Forall2 (shows lp1 li1 lr1 h1) rules1 xs.
  Hypothesis shows2 : Forall2 (shows lp2 li2 lr2 h2) rules2 xs.
  Hypothesis own1 : own_labels lp1 li1 lr1 h1 rules1.
  Hypothesis own2 : own_labels lp2 li2 lr2 h2 rules2.
  Hypothesis plain1 : no_dictionaries h1 rules1.
  Hypothesis plain2 : no_dictionaries h2 rules2.
  Hypothesis inside1 : forall x ps a q ts main y, In x rules1 -> nth_error h1 x = Some (OBNF ps a) -> In q ps -> nth_error h1 q = Some (OProd ts main) -> In (TRule y) ts -> In y rules1.
  Hypothesis inside2 : forall x ps a q ts main y, In x rules2 -> nth_error h2 x = Some (OBNF ps a) -> In q ps -> nth_error h2 q = Some (OProd ts main) -> In (TRule y) ts -> In y rules2.
  Hypothesis alike : forall p1 p2 l, predicate_in h1 rules1 p1 -> predicate_in h2 rules2 p2 -> lp1 p1 = Ok l -> lp2 p2 = Ok l -> forall t, accepts U p1 t = accepts U p2 t.
  Notation label1 := (rule_label li1 lr1 h1).
  Notation label2 := (rule_label li2 lr2 h2).
  Notation g1 r := (grammar_of (pipeline_predict U so1) h1 r).
  Notation g2 r := (grammar_of (pipeline_predict U so2) h2 r).

  Lemma same_line a b l : In a rules1 -> In b rules2 -> label1 a = Ok (Some l) -> label2 b = Ok (Some l) -> exists x, shows lp1 li1 lr1 h1 a x /\ shows lp2 li2 lr2 h2 b x.
  Proof.
    intros Ia Ib La Lb. destruct (Forall2_left _ _ _ a shows1 Ia) as (x & Ix & Sx). destruct (Forall2_right _ _ _ x shows2 Ix) as (b' & Ib' & Sb). exists x. split; [exact Sx|].
    assert (b' = b); [|subst; exact Sb]. destruct Sx as [Sx _], Sb as [Lb' _]. rewrite La in Sx. injection Sx as E. apply (proj1 (proj2 own2) b' b l Ib' Ib); [rewrite Lb', <- E; reflexivity|exact Lb].
  Qed.
  Lemma label_moved1 a l : In a rules1 -> label1 a = Ok (Some l) -> exists b, In b rules2 /\ label2 b = Ok (Some l).
  Proof. intros Ia La. destruct (Forall2_left _ _ _ a shows1 Ia) as (x & Ix & Sx & _). destruct (Forall2_right _ _ _ x shows2 Ix) as (b & Ib & Sb & _). exists b. split; [exact Ib|]. congruence. Qed.
  Lemma label_moved2 b l : In b rules2 -> label2 b = Ok (Some l) -> exists a, In a rules1 /\ label1 a = Ok (Some l).
  Proof. intros Ib Lb. destruct (Forall2_left _ _ _ b shows2 Ib) as (x & Ix & Sx & _). destruct (Forall2_right _ _ _ x shows1 Ix) as (a & Ia & Sa & _). exists a. split; [exact Ia|]. congruence. Qed.
  (** Terms with the same label. *)
  Definition same_term (t1 t2 : term predicate) : Prop :=
    match t1, t2 with
    | TPred p1, TPred p2 => forall t, accepts U p1 t = accepts U p2 t
    | TRule a, TRule b => In a rules1 /\ In b rules2 /\ exists l, label1 a = Ok (Some l) /\ label2 b = Ok (Some l)
    | _, _ => False
    end.
  Lemma same_terms a b ps1 a1 ps2 a2 q1 q2 ts1 ts2 m1 m2 ls : In a rules1 -> In b rules2 -> nth_error h1 a = Some (OBNF ps1 a1) -> nth_error h2 b = Some (OBNF ps2 a2) -> In q1 ps1 -> In q2 ps2 ->
    nth_error h1 q1 = Some (OProd ts1 m1) -> nth_error h2 q2 = Some (OProd ts2 m2) -> Forall2 (fun t l => term_label lp1 li1 lr1 h1 t = Ok (Some l)) ts1 ls -> Forall2 (fun t l => term_label lp2 li2 lr2 h2 t = Ok (Some l)) ts2 ls -> Forall2 same_term ts1 ts2.
  Proof.
    intros Ia Ib Ea Eb I1 I2 E1 E2 F1 F2.
    assert (G : forall t1 t2 l, In t1 ts1 -> In t2 ts2 -> term_label lp1 li1 lr1 h1 t1 = Ok (Some l) -> term_label lp2 li2 lr2 h2 t2 = Ok (Some l) -> same_term t1 t2).
    { intros [x|p1] [y|p2] l J1 J2 L1 L2; cbn [LabelModel.term_label] in L1, L2.
      - cbn. split; [exact (inside1 a ps1 a1 q1 ts1 m1 x Ia Ea I1 E1 J1)|]. split; [exact (inside2 b ps2 a2 q2 ts2 m2 y Ib Eb I2 E2 J2)|]. eauto.
      - exfalso. assert (Ix := inside1 a ps1 a1 q1 ts1 m1 x Ia Ea I1 E1 J1). destruct (label_moved1 x l Ix L1) as (y & Iy & Ly). destruct (lp2 p2) as [l'|] eqn:P; [|discriminate]. injection L2 as ->.
        exact (proj2 (proj2 own2) b y ps2 a2 q2 ts2 m2 p2 l Ib Iy Eb I2 E2 J2 P Ly).
      - exfalso. assert (Iy := inside2 b ps2 a2 q2 ts2 m2 y Ib Eb I2 E2 J2). destruct (label_moved2 y l Iy L2) as (x & Ix & Lx). destruct (lp1 p1) as [l'|] eqn:P; [|discriminate]. injection L1 as ->.
        exact (proj2 (proj2 own1) a x ps1 a1 q1 ts1 m1 p1 l Ia Ix Ea I1 E1 J1 P Lx).
      - cbn. destruct (lp1 p1) as [l1|] eqn:P1; [|discriminate]. destruct (lp2 p2) as [l2|] eqn:P2; [|discriminate]. injection L1 as ->. injection L2 as ->.
        apply (alike p1 p2 l); [exists a, ps1, a1, q1, ts1, m1; auto 6|exists b, ps2, a2, q2, ts2, m2; auto 6|exact P1|exact P2]. }
    clear E1 E2. revert ts2 F2 G. induction F1 as [|t1 l ts1 ls L1 F1 IH]; intros ts2 F2 G; inversion F2 as [|t2 ? ts2' ? L2 F2']; subst; [constructor|]. constructor; [apply (G t1 t2 l); cbn; auto|]. apply IH; [exact F2'|]. intros u1 u2 l' J1 J2. apply G; right; assumption.
  Qed.
  Lemma told_derives r1 r2 toks : (forall t i j d, derives (accepts U) (g1 r1) toks t i j d -> forall t', same_term t t' -> exists d', derives (accepts U) (g2 r2) toks t' i j d') /\
    (forall ts i j ds, derives_seq (accepts U) (g1 r1) toks ts i j ds -> forall ts', Forall2 same_term ts ts' -> exists ds', derives_seq (accepts U) (g2 r2) toks ts' i j ds').
  Proof.
    apply (derives_mutind _ _ (accepts U) (g1 r1) toks (fun t i j d _ => forall t', same_term t t' -> exists d', derives (accepts U) (g2 r2) toks t' i j d')
      (fun ts i j ds _ => forall ts', Forall2 same_term ts ts' -> exists ds', derives_seq (accepts U) (g2 r2) toks ts' i j ds')).
    - intros p i t E A [y|p'] S1; [destruct S1|]. cbn in S1. exists (DLeaf i p'). econstructor; [exact E|]. rewrite <- S1. exact A.
    - intros a q i j ds Iq D IH [b|p'] S1; [|destruct S1]. cbn in S1. destruct S1 as (Ia & Ib & l & La & Lb). destruct (same_line a b l Ia Ib La Lb) as (x & [_ Sa] & [_ Sb]).
      destruct (plain1 a Ia) as (ps1 & a1 & Ea). destruct (plain2 b Ib) as (ps2 & a2 & Eb). rewrite Ea in Sa. rewrite Eb in Sb. destruct Sa as (l1 & X1 & F1), Sb as (l2 & X2 & F2). rewrite X1 in X2. injection X2 as <-.
      cbn in Iq. rewrite Ea in Iq. destruct (Forall2_left _ _ _ q F1 Iq) as (y & Iy & Sq). destruct (Forall2_right _ _ _ y F2 Iy) as (q' & Iq' & Sq').
      assert (K : exists ds', derives_seq (accepts U) (g2 r2) toks (g_terms (g2 r2) q') i j ds').
      { destruct Sq as [(ts1 & m1 & E1 & T1 & _)|(E1 & Y1)], Sq' as [(ts2 & m2 & E2 & T2 & _)|(E2 & Y2)].
        - apply IH. cbn. rewrite E1, E2. exact (same_terms a b ps1 a1 ps2 a2 q q' ts1 ts2 m1 m2 (fst y) Ia Ib Ea Eb Iq Iq' E1 E2 T1 T2).
        - apply IH. cbn. rewrite E1, E2. rewrite Y2 in T1. inversion T1; subst. constructor.
        - apply IH. cbn. rewrite E1, E2. rewrite Y1 in T2. inversion T2; subst. constructor.
        - apply IH. cbn. rewrite E1, E2. constructor. }
      destruct K as (ds' & K). exists (DNode b q' ds'). constructor; [cbn; rewrite Eb; exact Iq'|exact K].
    - intros i ts' F. inversion F; subst. exists []. constructor.
    - intros t ts i k j d ds D IH1 Ds IH2 ts' F. inversion F as [|? t' ? ts'' S1 F']; subst. destruct (IH1 t' S1) as (d' & D'). destruct (IH2 ts'' F') as (ds' & D2). exists (d' :: ds'). econstructor; eassumption.
  Qed.
End Told.

Section Same.
  Variable U : unicode.
  Lemma accepts_step so c so' c' lp li lr lp' li' lr' fuel (h : rule_heap) root rules h' g fuel' (k : rule_heap) root' rules' k' g' lines :
    built h -> harmless h root -> is_rule_at h root -> parser_rules U so c fuel h root = Some (Ok (rules, h')) -> parser_grammar U so c fuel h root = Some (Ok g) ->
    built k -> harmless k root' -> is_rule_at k root' -> parser_rules U so' c' fuel' k root' = Some (Ok (rules', k')) -> parser_grammar U so' c' fuel' k root' = Some (Ok g') ->
    LabelModel.source lp li lr h' rules = Ok lines -> LabelModel.source lp' li' lr' k' rules' = Ok lines ->
    clean_labels lp li lr h' rules -> clean_labels lp' li' lr' k' rules' -> own_labels lp li lr h' rules -> own_labels lp' li' lr' k' rules' ->
    no_dictionaries h' rules -> no_dictionaries k' rules' ->
    (forall p1 p2 l, predicate_in h' rules p1 -> predicate_in k' rules' p2 -> lp p1 = Ok l -> lp' p2 = Ok l -> forall t, accepts U p1 t = accepts U p2 t) ->
    forall toks i j, grammar_accepts U g toks i j -> grammar_accepts U g' toks i j.
  Proof.
    intros B F R H Hg B' F' R' H' Hg' S1 S2 C1 C2 O1 O2 D1 D2 A toks i j (d & D).
    destruct (grammar_read lp li lr U so c fuel h root rules h' lines B F R H S1 C1) as (xs & X1 & W1). destruct (grammar_read lp' li' lr' U so' c' fuel' k root' rules' k' lines B' F' R' H' S2 C2) as (xs' & X2 & W2).
    assert (xs' = xs) by (rewrite X1 in X2; clear - X2; revert xs' X2; induction xs as [|x xs IH]; intros [|y ys] E; try discriminate; [reflexivity|]; injection E as -> E; f_equal; apply IH, E). subst xs'.
    destruct (parser_rules_ok U so c fuel h root rules h' B F R H) as (r & rest & objects & Hb & Er & Bf & _ & K & G & N). destruct (parser_rules_ok U so' c' fuel' k root' rules' k' B' F' R' H') as (r' & rest' & objects' & Hb' & Er' & Bf' & _ & K' & G' & N').
    unfold parser_grammar in Hg, Hg'. rewrite Hb in Hg. rewrite Hb' in Hg'. cbn [then_] in Hg, Hg'. rewrite Bf in Hg. rewrite Bf' in Hg'. injection Hg as <-. injection Hg' as <-.
    destruct (graph_inside U so h' r rules K G) as [I1 _]. destruct (graph_inside U so' k' r' rules' K' G') as [I2 _]. cbn [g_start restrict grammar_of] in D.
    apply (restrict_sound (accepts U) _ objects toks) in D.
    assert (St : same_term U li li' lr lr' h' k' rules rules' (TRule r) (TRule r')).
    { cbn. split; [rewrite Er; left; reflexivity|]. split; [rewrite Er'; left; reflexivity|]. rewrite Er in W1. rewrite Er' in W2. inversion W1 as [|? x ? ? [L1 _] _ E1 E2]; subst. inversion W2 as [|? x' ? ? [L2 _] _]; subst. exists (fst x). split; assumption. }
    destruct (proj1 (told_derives U so so' lp lp' li li' lr lr' h' k' rules rules' xs W1 W2 O1 O2 D1 D2 I1 I2 A r r' toks) (TRule r) i j d D (TRule r') St) as (d' & D').
    exists d'. apply (restrict_complete (accepts U) _ objects' (objects_closed U so' k' r' objects' (proj1 (proj2 (bfs_ok k' fuel' r' objects' Bf')))) toks); [exact D'|]. intros x Ex. injection Ex as <-. apply (proj1 (proj2 (bfs_ok k' fuel' r' objects' Bf'))). constructor.
  Qed.
End Same.

Theorem same_text_accepts U so1 so2 c1 c2 lp1 lp2 li1 li2 lr1 lr2 fuel1 fuel2 (h1 h2 : rule_heap) root1 root2 rules1 rules2 k1 k2 lines :
  set_iteration so1 -> set_iteration so2 ->
  built h1 -> harmless h1 root1 -> is_rule_at h1 root1 -> parser_rules U so1 c1 fuel1 h1 root1 = Some (Ok (rules1, k1)) ->
  built h2 -> harmless h2 root2 -> is_rule_at h2 root2 -> parser_rules U so2 c2 fuel2 h2 root2 = Some (Ok (rules2, k2)) ->
  LabelModel.source lp1 li1 lr1 k1 rules1 = Ok lines -> LabelModel.source lp2 li2 lr2 k2 rules2 = Ok lines ->
  clean_labels lp1 li1 lr1 k1 rules1 -> clean_labels lp2 li2 lr2 k2 rules2 -> own_labels lp1 li1 lr1 k1 rules1 -> own_labels lp2 li2 lr2 k2 rules2 ->
  no_dictionaries k1 rules1 -> no_dictionaries k2 rules2 ->
  (forall p1 p2 l, predicate_in k1 rules1 p1 -> predicate_in k2 rules2 p2 -> lp1 p1 = Ok l -> lp2 p2 = Ok l -> forall t, accepts U p1 t = accepts U p2 t) ->
  forall toks i j, i <= length toks -> rule_accepts U so1 c1 h1 root1 toks i j <-> rule_accepts U so2 c2 h2 root2 toks i j.
Proof.
  intros T1 T2 B1 F1 R1 H1 B2 F2 R2 H2 S1 S2 C1 C2 O1 O2 D1 D2 A toks i j Li.
  assert (G : forall so c fuel (h : rule_heap) root rules k, parser_rules U so c fuel h root = Some (Ok (rules, k)) -> exists g, parser_grammar U so c fuel h root = Some (Ok g)).
  { intros so c fuel h root rules k H. unfold parser_rules in H. unfold parser_grammar. destruct (build_rule U so c fuel h root) as [[[r h']|]|]; try discriminate. cbn [then_] in *. destruct (bfs fuel h' r); [eauto|discriminate]. }
  destruct (G _ _ _ _ _ _ _ H1) as (g1 & G1). destruct (G _ _ _ _ _ _ _ H2) as (g2 & G2).
  rewrite <- (proj2 (proj2 (proj2 (parser_grammar_mild U so1 c1 fuel1 h1 root1 g1 T1 (built_mild h1 root1 B1 F1 R1) G1))) toks i j Li).
  rewrite <- (proj2 (proj2 (proj2 (parser_grammar_mild U so2 c2 fuel2 h2 root2 g2 T2 (built_mild h2 root2 B2 F2 R2) G2))) toks i j Li).
  split; intros Q.
  - exact (accepts_step U so1 c1 so2 c2 lp1 li1 lr1 lp2 li2 lr2 fuel1 h1 root1 rules1 k1 g1 fuel2 h2 root2 rules2 k2 g2 lines B1 F1 R1 H1 G1 B2 F2 R2 H2 G2 S1 S2 C1 C2 O1 O2 D1 D2 A toks i j Q).
  - refine (accepts_step U so2 c2 so1 c1 lp2 li2 lr2 lp1 li1 lr1 fuel2 h2 root2 rules2 k2 g2 fuel1 h1 root1 rules1 k1 g1 lines B2 F2 R2 H2 G2 B1 F1 R1 H1 G1 S2 S1 C2 C1 O2 O1 D2 D1 _ toks i j Q).
    intros p2 p1 l I2 I1 L2 L1 t. symmetry. exact (A p1 p2 l I1 I2 L1 L2 t).
Qed.

(** ** Labels of predicates and interpretators *)
Section Labels.
  Variable repr : str -> str.
  Variable repr_int : Z -> str.
  Variable function_name : (str -> res bool) -> option str.
  Variable repr_other : predicate -> str.
  Notation pred_label := (pred_label repr repr_int function_name repr_other).
  Lemma labels_all ps : Forall (fun p => (exists l, pred_label p = Ok l) <-> forall f, In f (custom_functions p) -> function_name f <> None) ps ->
    (exists ls, mapM pred_label ps = Ok ls) <-> forall f, In f (flat_map custom_functions ps) -> function_name f <> None.
  Proof.
    intros F. induction F as [|p ps P F IH]; [split; [intros _ f []|intros _; exists []; reflexivity]|]. cbn [mapM flat_map]. split.
    - intros (ls & E) f I. destruct (pred_label p) as [l|] eqn:L; [|discriminate]. cbn [bind] in E. destruct (mapM pred_label ps) as [ls'|] eqn:M; [|discriminate]. apply in_app_or in I as [I|I]; [apply (proj1 P); eauto|apply (proj1 IH); eauto].
    - intros K. destruct (proj2 P) as (l & ->); [intros f I; apply K, in_or_app; left; exact I|]. destruct (proj2 IH) as (ls & ->); [intros f I; apply K, in_or_app; right; exact I|]. cbn. eauto.
  Qed.
  Theorem predicate_labels p : (exists l, pred_label p = Ok l) <-> forall f, In f (custom_functions p) -> function_name f <> None.
  Proof.
    induction p using predicate_rect'; cbn [LabelModel.pred_label custom_functions].
    - rewrite <- (labels_all ps H). destruct (mapM pred_label ps) as [ls|]; cbn [bind]; split; intros (l & E); eauto; discriminate.
    - rewrite <- (labels_all ps H). destruct (mapM pred_label ps) as [ls|]; cbn [bind]; split; intros (l & E); eauto; discriminate.
    - rewrite <- IHp. destruct (pred_label p) as [l|]; cbn [bind]; split; intros (l' & E); eauto; discriminate.
    - destruct p; try contradiction; cbn [LabelModel.pred_label custom_functions]; try (split; [intros _ f []|intros _; eauto]; fail).
      unfold name_attribute. destruct (function_name function) as [n|] eqn:N; cbn [bind].
      + split; [intros _ f' [<-|[]]; congruence|eauto].
      + split; [intros (l & E); discriminate|intros K; exfalso; apply (K function (or_introl eq_refl)); exact N].
  Qed.
  Lemma bracket_inj a (x y z : str) : a ++ x ++ z = a ++ y ++ z -> x = y.
  Proof. intros E. apply app_inv_head in E. apply app_inv_tail in E. exact E. Qed.
  Theorem labels_tell p q l : (forall a b, repr a = repr b -> a = b) -> (forall a b, repr_int a = repr_int b -> a = b) -> told p -> told q -> pred_label p = Ok l -> pred_label q = Ok l -> p = q.
  Proof.
    intros Rs Ri Tp Tq Lp Lq. rewrite <- Lq in Lp. clear Lq l. destruct p; try destruct Tp; destruct q; try destruct Tq; try reflexivity;
    cbn [LabelModel.pred_label] in Lp; unfold parameter, record_text, call_text in Lp; cbn [map join_with fst snd] in Lp;
    try (exfalso; vm_compute in Lp; discriminate Lp);
    (assert (K : forall a b : str, Ok a = Ok b -> a = b) by (intros a b E; injection E; auto); apply K in Lp; clear K; repeat rewrite <- app_assoc in Lp; f_equal; repeat apply app_inv_head in Lp; repeat apply app_inv_tail in Lp; auto).
  Qed.
End Labels.
Theorem interpretator_labels i : (exists l, interpretator_text i = Ok l) <-> interpretator_told i.
Proof.
  assert (M : forall m, (exists l, morph_text m = Ok l) <-> morph_told m) by (intros [|[g|]]; cbn; split; intros H; eauto; [destruct H; discriminate|destruct H]).
  assert (N : forall n, (exists l, normalizer_text n = Ok l) <-> normalizer_told n).
  { intros [m|v|f|f f'|m f]; cbn [normalizer_text normalizer_told]; [apply M|split; [auto|eauto]| | |].
    - destruct f as [f|]; cbn [name_attribute bind]; split; [discriminate|eauto|intros (l & E); discriminate|congruence].
    - destruct f as [f|], f' as [f'|]; cbn [name_attribute bind]; split; [intros _; split; discriminate|eauto| | | | | |]; try (intros (l & E); discriminate); intros (E & E'); congruence.
    - rewrite <- M. destruct (morph_text m) as [t|]; cbn [bind]; [|split; [intros (l & E); discriminate|intros ((l & E) & _); discriminate]].
      destruct f as [f|]; cbn [name_attribute bind]; [split; [intros _; split; [eauto|discriminate]|eauto]|split; [intros (l & E); discriminate|intros (_ & E); congruence]]. }
  destruct i as [f|f n|n|f a n]; cbn [interpretator_text interpretator_told]; [split; [auto|eauto]|split; [auto|eauto]|apply N|]. rewrite <- N. destruct (normalizer_text n); cbn [bind]; split; intros (l & E); eauto; discriminate.
Qed.


(** ** Drawing *)
Theorem objects_drawn label_of_interp label_of_relation (h : rule_heap) p o : is_bnf o = false ->
  (exists st, object_style label_of_interp label_of_relation h p o = Ok st) <-> forall r i, o = OInterp r i -> exists s, label_of_interp i = Ok s.
Proof.
  intros B. destruct o; try discriminate; cbn [object_style]; try (split; [intros _ r' i' E; discriminate|eauto]; fail).
  split; [|intros K; destruct (K rule interpretator eq_refl) as (s & ->); cbn; eauto]. intros (st & E) r' i' X. injection X as <- <-. destruct (label_of_interp interpretator); [eauto|discriminate].
Qed.
Theorem grammar_drawn label_of_interp label_of_relation U set_order c fuel (h : rule_heap) root rules h' : built h -> harmless h root -> is_rule_at h root -> parser_rules U set_order c fuel h root = Some (Ok (rules, h')) ->
  forall x o, In x rules -> nth_error h' x = Some o ->
  (exists st, object_style label_of_interp label_of_relation h' x o = Ok st) <-> forall i, rule_interp h' x = Some i -> exists s, label_of_interp i = Ok s.
Proof.
  intros B F R H x o Ix Ex. destruct (parser_rules_ok U set_order c fuel h root rules h' B F R H) as (r & rest & objects & _ & _ & _ & _ & K & G & N).
  destruct (N x Ix) as (n & _ & Nx). destruct (label_named label_of_interp label_of_relation h' x n Nx) as [L1 L2]. rewrite <- L2.
  apply K in Ix as (_ & ox & Ex' & Bx). rewrite Ex in Ex'. injection Ex' as <-.
  assert (S1 : object_style label_of_interp label_of_relation h' x o = (let! l := rule_label label_of_interp label_of_relation h' x in let! s := needed l in Ok (coloured s GREEN))) by (destruct o; try discriminate; reflexivity).
  rewrite S1. destruct (rule_label label_of_interp label_of_relation h' x) as [l|]; cbn [bind].
  - destruct (L1 l eq_refl) as (s & ->). cbn. split; eauto.
  - split; intros (s & E); discriminate.
Qed.
