(** Proofs about agreement in grammemes (ConcordSpec.v). *)
From Verif Require Import Base TokenModel EarleyModel TreeModel RelationModel RelationSpec RelationProofs BankProofs ConcordSpec.
From Coq Require String.
Import String.StringSyntax.

Lemma gram_in_says gram f : gram_in gram f = true <-> says f gram.
Proof. apply str_in_In. Qed.

Theorem gender_means a b : relation_call RGender a b = true <->
  no_gender a b \/ exists gram, In gram ["masc"; "femn"; "neut"]%string /\ gender_of a gram /\ gender_of b gram /\ (says a gram \/ says b gram).
Proof.
  cbn [relation_call]. unfold gender_relation, no_gender, gender_of, common_gender. cbn [plural form_number male female neutral bi general form_gender].
  transitivity (says a "plur" /\ says b "plur" \/ says a "masc" /\ says b "masc" \/ says a "femn" /\ says b "femn" \/ says a "neut" /\ says b "neut" \/
    (says a "Ms-f" \/ says a "ms-f") /\ (says b "masc" \/ says b "femn") \/ (says b "Ms-f" \/ says b "ms-f") /\ (says a "masc" \/ says a "femn") \/ says a "GNdr" \/ says b "GNdr").
  - destruct (gram_in "plur" a && gram_in "plur" b) eqn:E.
    + rewrite andb_true_iff, !gram_in_says in E. tauto.
    + assert (N : ~ (says a "plur" /\ says b "plur")) by (rewrite <- !gram_in_says, <- andb_true_iff, E; discriminate).
      rewrite !orb_true_iff, !andb_true_iff, !orb_true_iff, !gram_in_says. tauto.
  - split.
    + intros [H|[[H H']|[[H H']|[[H H']|[[H H']|[[H H']|[H|H]]]]]]]; [tauto|right; exists "masc"%string|right; exists "femn"%string|right; exists "neut"%string| | |tauto|tauto].
      1-3: cbn; tauto.
      * destruct H' as [H'|H']; right; [exists "masc"%string|exists "femn"%string]; cbn; tauto.
      * destruct H' as [H'|H']; right; [exists "masc"%string|exists "femn"%string]; cbn; tauto.
    + intros [H|(gram & I & A & B & C)]; [tauto|]. destruct I as [<-|[<-|[<-|[]]]]; [tauto|tauto|].
      assert (M : forall P, P /\ ("neut" = "masc" \/ "neut" = "femn")%string -> False) by (intros P [_ [D|D]]; discriminate).
      destruct A as [A|A], B as [B|B]; try (exfalso; eapply M; eassumption). tauto.
Qed.
Theorem number_means a b : relation_call RNumber a b = true <->
  exists gram, In gram ["sing"; "plur"]%string /\ number_of a gram /\ number_of b gram /\ (says a gram \/ says b gram).
Proof.
  cbn [relation_call]. unfold number_relation, number_of. cbn [single plural only_single only_plural form_number].
  rewrite !orb_true_iff, !andb_true_iff, !gram_in_says. split.
  - intros [[[[[H|H]|H]|H]|H]|H]; [exists "sing"%string|exists "plur"%string|exists "sing"%string|exists "plur"%string|exists "sing"%string|exists "plur"%string]; cbn; tauto.
  - intros (gram & I & A & B & C). assert (D : ("sing" = "plur")%string -> False) by discriminate. assert (D' : ("plur" = "sing")%string -> False) by discriminate.
    destruct I as [<-|[<-|[]]]; tauto.
Qed.
Lemma map_same {A B} (f g : A -> B) l : map f l = map g l <-> forall x, In x l -> f x = g x.
Proof.
  induction l as [|x l IH]; cbn; [split; [intros _ y []|reflexivity]|]. split.
  - intros E. injection E as E F. intros y [<-|I]; [exact E|apply IH; assumption].
  - intros E. rewrite (E x (or_introl eq_refl)). f_equal. apply IH. auto.
Qed.
Theorem case_means a b : relation_call RCase a b = true <->
  indeclinable a \/ indeclinable b \/ forall c, In c cases -> says a c <-> says b c.
Proof.
  cbn [relation_call]. unfold case_relation, indeclinable, case_fixed. rewrite !orb_true_iff, !gram_in_says, mask_eqb_eq.
  unfold case_mask. rewrite map_same. fold cases.
  assert (E : (forall x, In x cases -> gram_in x a = gram_in x b) <-> (forall c, In c cases -> says a c <-> says b c)).
  { split; intros H c I; specialize (H c I); rewrite <- ?gram_in_says in *; [rewrite H; tauto|]. apply eq_iff_eq_true. exact H. }
  tauto.
Qed.
Theorem gnc_means a b : relation_call RGnc a b = true <->
  relation_call RGender a b = true /\ relation_call RNumber a b = true /\ relation_call RCase a b = true.
Proof. cbn [relation_call]. unfold gnc_relation. rewrite !andb_true_iff. tauto. Qed.

(** Agreement is sharing, with the usual marks. *)
Theorem number_shared a b : (says a "Sgtm" -> says a "sing") -> (says a "Pltm" -> says a "plur") ->
  relation_call RNumber a b = true <-> share_number a b.
Proof.
  intros S P. rewrite number_means. unfold share_number. split.
  - intros (g & I & A & B & _). eauto.
  - intros (g & I & A & B). exists g. repeat split; auto. left. destruct A as [A|[[-> A]|[-> A]]]; auto.
Qed.
Theorem gender_shared a b : ~ (common_gender a /\ common_gender b) -> relation_call RGender a b = true <-> no_gender a b \/ share_gender a b.
Proof.
  intros N. rewrite gender_means. unfold share_gender, gender_of. split.
  - intros [H|(g & I & A & B & _)]; [tauto|]. right. eauto.
  - intros [H|(g & I & A & B)]; [tauto|]. right. exists g. repeat split; auto. tauto.
Qed.
Theorem case_shared a b c c' : ~ indeclinable a -> ~ indeclinable b -> one_case a c -> one_case b c' ->
  relation_call RCase a b = true <-> c = c'.
Proof.
  intros A B [I H] [I' H']. rewrite case_means. split.
  - intros [X|[X|X]]; try tauto. specialize (X c I). rewrite (H c I), (H' c I) in X. tauto.
  - intros <-. right. right. intros d Id. rewrite (H d Id), (H' d Id). tauto.
Qed.

(** в тёмном лесу; чаю and лесу. *)
Definition grams_form (l : list String.string) : form := mkForm [] (map str_of l) 0.
Definition dark : form := grams_form ["ADJF"; "Qual"; "masc"; "sing"; "loct"]%string.
Definition forest : form := grams_form ["NOUN"; "inan"; "masc"; "sing"; "loc2"]%string.
Definition tea : form := grams_form ["NOUN"; "inan"; "masc"; "sing"; "gen2"]%string.
Lemma saysb gram f : gram_in gram f = false -> ~ says f gram.
Proof. intros E H. apply gram_in_says in H. congruence. Qed.
Theorem rare_case_refutes :
  ~ indeclinable dark /\ ~ indeclinable forest /\ share_case dark forest /\ relation_call RCase dark forest = false /\ relation_call RGnc dark forest = false.
Proof.
  split; [apply saysb; reflexivity|]. split; [apply saysb; reflexivity|]. split; [|split; reflexivity].
  exists "loct"%string. split; [cbn; tauto|]. split; [left; apply gram_in_says; reflexivity|]. right. exists "loc2"%string. split; [cbn; tauto|apply gram_in_says; reflexivity].
Qed.
Theorem rare_cases_refute :
  ~ indeclinable tea /\ ~ indeclinable forest /\ in_case tea "gent" /\ in_case forest "loct" /\ ~ share_case tea forest /\ relation_call RGnc tea forest = true.
Proof.
  split; [apply saysb; reflexivity|]. split; [apply saysb; reflexivity|].
  split; [right; exists "gen2"%string; split; [cbn; tauto|apply gram_in_says; reflexivity]|].
  split; [right; exists "loc2"%string; split; [cbn; tauto|apply gram_in_says; reflexivity]|]. split; [|reflexivity].
  intros (c & I & A & B).
  assert (K : forall f, forallb (fun g => negb (gram_in g f)) cases = true -> forall c, In c cases -> ~ says f c).
  { intros f E d Id. rewrite forallb_forall in E. apply saysb, negb_true_iff, E, Id. }
  destruct A as [A|(r & R & A)]; [exact (K tea eq_refl c I A)|]. destruct B as [B|(q & Q & B)]; [exact (K forest eq_refl c I B)|].
  assert (r = "gen2"%string) by (destruct R as [R|[R|[R|[R|[R|[]]]]]]; injection R as <- _; try reflexivity; exfalso; revert A; apply saysb; reflexivity).
  assert (q = "loc2"%string) by (destruct Q as [Q|[Q|[Q|[Q|[Q|[]]]]]]; injection Q as <- _; try reflexivity; exfalso; revert B; apply saysb; reflexivity).
  subst. assert (c = "gent"%string) by (destruct R as [R|[R|[R|[R|[R|[]]]]]]; congruence). assert (c = "loct"%string) by (destruct Q as [Q|[Q|[Q|[Q|[Q|[]]]]]]; congruence). congruence.
Qed.
Definition one_caseb (f : form) (c : String.string) : bool :=
  existsb (String.eqb c) cases && forallb (fun c' => Bool.eqb (gram_in c' f) (String.eqb c' c)) cases.
Lemma one_caseb_true f c : one_caseb f c = true -> one_case f c.
Proof.
  unfold one_caseb. rewrite andb_true_iff, existsb_exists, forallb_forall. intros [(d & I & E) F]. apply String.eqb_eq in E as <-.
  split; [exact I|]. intros c' I'. specialize (F c' I'). apply eqb_prop in F. rewrite <- gram_in_says, F. apply String.eqb_eq.
Qed.
Lemma one_case_shown :
  let dark := grams_form ["ADJF"; "Qual"; "masc"; "sing"; "nomn"]%string in
  let forest := grams_form ["NOUN"; "inan"; "masc"; "sing"; "nomn"]%string in
  let forest' := grams_form ["NOUN"; "inan"; "masc"; "sing"; "gent"]%string in
  one_case dark "nomn" /\ one_case forest "nomn" /\ one_case forest' "gent" /\ relation_call RGnc dark forest = true /\ relation_call RGnc dark forest' = false.
Proof. cbn zeta. repeat (split; [first [apply one_caseb_true; reflexivity|reflexivity]|]). reflexivity. Qed.
