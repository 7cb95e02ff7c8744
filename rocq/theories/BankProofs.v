(** Facts about the relation objects (RelationModel.v). *)
From Verif Require Import Base TokenModel EarleyModel TreeModel TreeSpec RelationSpec RelationProofs RelationModel.

Lemma relation_ind2 (P : relation -> Prop) :
  P RGender -> P RNumber -> P RCase -> P RGnc ->
  (forall rs, Forall P rs -> P (RAnd rs)) -> (forall rs, Forall P rs -> P (ROr rs)) ->
  (forall r, P r -> P (RNot r)) -> (forall c, P (RCustom c)) -> forall r, P r.
Proof.
  intros A B C D E F G H. fix IH 1. intros [| | | |rs|rs|r|c];
    [exact A|exact B|exact C|exact D|apply E|apply F|apply G; apply IH|apply H].
  - induction rs; constructor; auto.
  - induction rs; constructor; auto.
Qed.

Lemma mask_eqb_eq a b : mask_eqb a b = true <-> a = b.
Proof. unfold mask_eqb. destruct list_eq_dec; split; congruence. Qed.
Lemma mask_eqb_sym a b : mask_eqb a b = mask_eqb b a.
Proof. apply eq_iff_eq_true. rewrite !mask_eqb_eq. split; congruence. Qed.

Lemma gender_sym a b : gender_relation a b = gender_relation b a.
Proof.
  unfold gender_relation. rewrite (andb_comm (plural _)).
  destruct (plural (form_number b) && plural (form_number a)); [reflexivity|].
  destruct (form_gender a) as [[] [] [] [] []], (form_gender b) as [[] [] [] [] []]; reflexivity.
Qed.
Lemma number_sym a b : number_relation a b = number_relation b a.
Proof.
  unfold number_relation. destruct (form_number a) as [[] [] [] []], (form_number b) as [[] [] [] []]; reflexivity.
Qed.
Lemma case_sym a b : case_relation a b = case_relation b a.
Proof.
  unfold case_relation. rewrite mask_eqb_sym. destruct (case_fixed a), (case_fixed b), (mask_eqb _ _); reflexivity.
Qed.
Lemma gnc_sym a b : gnc_relation a b = gnc_relation b a.
Proof. unfold gnc_relation. rewrite gender_sym, number_sym, case_sym. reflexivity. Qed.

Lemma call_sym r : customs_are (fun c => forall a b, c a b = c b a) r ->
  forall a b, relation_call r a b = relation_call r b a.
Proof.
  induction r as [| | | |rs IH|rs IH|r IH|c] using relation_ind2; intros H a b; cbn [relation_call].
  - apply gender_sym.
  - apply number_sym.
  - apply case_sym.
  - apply gnc_sym.
  - cbn [customs_are] in H. induction IH as [|r rs E _ IHrs]; [reflexivity|]. destruct H as [H1 H2]. cbn [forallb].
    rewrite (E H1 a b), IHrs; auto.
  - cbn [customs_are] in H. induction IH as [|r rs E _ IHrs]; [reflexivity|]. destruct H as [H1 H2]. cbn [existsb].
    rewrite (E H1 a b), IHrs; auto.
  - rewrite IH; auto.
  - apply H.
Qed.

(** Relations only look at the grammemes as a set. *)
Lemma gram_in_same a b : form_eqb a b = true -> forall gram, gram_in gram a = gram_in gram b.
Proof.
  intros H gram. apply form_eqb_iff in H as [_ H]. unfold gram_in. apply eq_iff_eq_true.
  rewrite !str_in_In. apply H.
Qed.
Lemma features_same a b : form_eqb a b = true ->
  form_gender a = form_gender b /\ form_number a = form_number b /\ case_mask a = case_mask b /\ case_fixed a = case_fixed b.
Proof.
  intros H. pose proof (gram_in_same _ _ H) as G. unfold form_gender, form_number, case_mask, case_fixed.
  cbn [map]. rewrite !G. auto.
Qed.

Lemma call_respects r : customs_are (fun c => forall a a' b b', form_eqb a a' = true -> form_eqb b b' = true -> c a b = c a' b') r ->
  forall a a' b b', form_eqb a a' = true -> form_eqb b b' = true -> relation_call r a b = relation_call r a' b'.
Proof.
  intros H a a' b b' EA EB. destruct (features_same _ _ EA) as (A1 & A2 & A3 & A4).
  destruct (features_same _ _ EB) as (B1 & B2 & B3 & B4).
  induction r as [| | | |rs IH|rs IH|r IH|c] using relation_ind2; cbn [relation_call].
  - unfold gender_relation. rewrite A1, A2, B1, B2. reflexivity.
  - unfold number_relation. rewrite A2, B2. reflexivity.
  - unfold case_relation. rewrite A3, A4, B3, B4. reflexivity.
  - unfold gnc_relation, gender_relation, number_relation, case_relation.
    rewrite A1, A2, A3, A4, B1, B2, B3, B4. reflexivity.
  - cbn [customs_are] in H. induction IH as [|r rs E _ IHrs]; [reflexivity|]. destruct H as [H1 H2]. cbn [forallb].
    rewrite (E H1), IHrs; auto.
  - cbn [customs_are] in H. induction IH as [|r rs E _ IHrs]; [reflexivity|]. destruct H as [H1 H2]. cbn [existsb].
    rewrite (E H1), IHrs; auto.
  - rewrite IH; auto.
  - apply H; auto.
Qed.

Lemma bank_respects (R : nat -> relation) :
  (forall ro, customs_are (fun c => forall a a' b b', form_eqb a a' = true -> form_eqb b b' = true -> c a b = c a' b') (R ro)) ->
  respects_forms (fun ro => relation_call (R ro)).
Proof. intros H r a a' b b'. apply call_respects. auto. Qed.

(** ** Reflexivity *)
Lemma gender_refl f : gender_relation f f = true <->
  plural (form_number f) = true \/ male (form_gender f) = true \/ female (form_gender f) = true \/
  neutral (form_gender f) = true \/ general (form_gender f) = true.
Proof.
  unfold gender_relation. destruct (plural (form_number f)); cbn [andb]; [tauto|].
  destruct (form_gender f) as [a b c d e]. cbn [male female neutral bi general].
  rewrite !orb_true_iff, !andb_true_iff, !orb_true_iff. intuition congruence.
Qed.
Lemma number_refl f : number_relation f f = true <-> single (form_number f) = true \/ plural (form_number f) = true.
Proof.
  unfold number_relation. rewrite !orb_true_iff, !andb_true_iff. tauto.
Qed.
Lemma case_refl f : case_relation f f = true.
Proof. unfold case_relation. rewrite (proj2 (mask_eqb_eq _ _)); auto. Qed.
Lemma gnc_refl f : gnc_relation f f = true <-> gender_relation f f = true /\ number_relation f f = true.
Proof. unfold gnc_relation. rewrite case_refl, !andb_true_iff. tauto. Qed.

(** Case agreement of words that are not indeclinable is equality of cases. *)
Lemma case_declined a b : case_fixed a = false -> case_fixed b = false ->
  (case_relation a b = true <-> case_mask a = case_mask b).
Proof. unfold case_relation. intros -> ->. rewrite !orb_false_r. apply mask_eqb_eq. Qed.

Lemma gnc_conj a b : relation_call RGnc a b = relation_call (RAnd [RGender; RNumber; RCase]) a b.
Proof. cbn. unfold gnc_relation. rewrite andb_true_r, andb_assoc. reflexivity. Qed.
Lemma connectives :
  (forall rs a b, relation_call (RAnd rs) a b = true <-> forall r, In r rs -> relation_call r a b = true) /\
  (forall rs a b, relation_call (ROr rs) a b = true <-> exists r, In r rs /\ relation_call r a b = true) /\
  (forall r a b, relation_call (RNot r) a b = true <-> relation_call r a b <> true).
Proof.
  split; [|split]; intros; cbn [relation_call].
  - rewrite forallb_forall. tauto.
  - rewrite existsb_exists. tauto.
  - rewrite negb_true_iff. destruct (relation_call r a b); split; congruence.
Qed.
Lemma self_disagreement :
  (exists f, f_grams f = map str_of ["NOUN"; "Ms-f"; "sing"; "nomn"]%string /\ relation_call RGender f f = false) /\
  (exists f, f_grams f = map str_of ["NPRO"; "masc"; "nomn"]%string /\ relation_call RNumber f f = false) /\
  (exists f, f_grams f = map str_of ["NOUN"; "Ms-f"; "sing"; "nomn"]%string /\ relation_call RGnc f f = false).
Proof.
  repeat split; eexists (mkForm [] _ 0); (split; [reflexivity|]); vm_compute; reflexivity.
Qed.
Lemma self_agreement :
  (forall f, relation_call RCase f f = true) /\
  (forall f, relation_call RGender f f = true <->
     plural (form_number f) = true \/ male (form_gender f) = true \/ female (form_gender f) = true \/
     neutral (form_gender f) = true \/ general (form_gender f) = true) /\
  (forall f, relation_call RNumber f f = true <-> single (form_number f) = true \/ plural (form_number f) = true) /\
  (forall f, relation_call RGnc f f = true <-> relation_call RGender f f = true /\ relation_call RNumber f f = true).
Proof. exact (conj case_refl (conj gender_refl (conj number_refl gnc_refl))). Qed.
