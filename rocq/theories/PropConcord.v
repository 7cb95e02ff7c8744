(** Properties of the agreement relations in terms of grammemes (C92). *)
From Verif Require Import Base TokenModel RelationModel ConcordSpec ConcordProofs.
From Coq Require String.
Import String.StringSyntax.

(** ** C92 *)
(** The claim: declinable forms agree in case if and only if they are in a common case.
    It is false both ways: the second locative does not agree with the locative ... *)
Theorem forms_of_one_case_agree_refuted :
  exists a b, ~ indeclinable a /\ ~ indeclinable b /\ share_case a b /\ relation_call RCase a b = false /\ relation_call RGnc a b = false.
Proof. exact (ex_intro _ dark (ex_intro _ forest rare_case_refutes)). Qed.
Print Assumptions forms_of_one_case_agree_refuted.
(** ... and agrees with the second genitive. *)
Theorem agreeing_forms_share_a_case_refuted :
  exists a b, ~ indeclinable a /\ ~ indeclinable b /\ in_case a "gent" /\ in_case b "loct" /\ ~ share_case a b /\ relation_call RGnc a b = true.
Proof. exact (ex_intro _ tea (ex_intro _ forest rare_cases_refute)). Qed.
Print Assumptions agreeing_forms_share_a_case_refuted.
(** It holds for forms with one of the seven cases each. *)
Theorem case_agreement_is_one_case_partial :
  forall a b c c', ~ indeclinable a -> ~ indeclinable b -> one_case a c -> one_case b c' -> relation_call RCase a b = true <-> c = c'.
Proof. exact case_shared. Qed.
Print Assumptions case_agreement_is_one_case_partial.
Theorem number_agreement_is_a_common_number :
  forall a b, (says a "Sgtm" -> says a "sing") -> (says a "Pltm" -> says a "plur") -> relation_call RNumber a b = true <-> share_number a b.
Proof. exact number_shared. Qed.
Print Assumptions number_agreement_is_a_common_number.
Theorem gender_agreement_is_a_common_gender :
  forall a b, ~ (common_gender a /\ common_gender b) -> relation_call RGender a b = true <-> no_gender a b \/ share_gender a b.
Proof. exact gender_shared. Qed.
Print Assumptions gender_agreement_is_a_common_gender.

(** Exactly, for all forms. *)
Theorem gender_agreement_exactly : forall a b, relation_call RGender a b = true <->
  no_gender a b \/ exists gram, In gram ["masc"; "femn"; "neut"]%string /\ gender_of a gram /\ gender_of b gram /\ (says a gram \/ says b gram).
Proof. exact gender_means. Qed.
Print Assumptions gender_agreement_exactly.
Theorem number_agreement_exactly : forall a b, relation_call RNumber a b = true <->
  exists gram, In gram ["sing"; "plur"]%string /\ number_of a gram /\ number_of b gram /\ (says a gram \/ says b gram).
Proof. exact number_means. Qed.
Print Assumptions number_agreement_exactly.
Theorem case_agreement_exactly : forall a b, relation_call RCase a b = true <->
  indeclinable a \/ indeclinable b \/ forall c, In c cases -> says a c <-> says b c.
Proof. exact case_means. Qed.
Print Assumptions case_agreement_exactly.
Theorem gnc_agreement_exactly : forall a b, relation_call RGnc a b = true <->
  relation_call RGender a b = true /\ relation_call RNumber a b = true /\ relation_call RCase a b = true.
Proof. exact gnc_means. Qed.
Print Assumptions gnc_agreement_exactly.

(** тёмный лес: nominative; the same with the genitive леса. *)
Example agreement_case :
  let dark := grams_form ["ADJF"; "Qual"; "masc"; "sing"; "nomn"]%string in
  let forest := grams_form ["NOUN"; "inan"; "masc"; "sing"; "nomn"]%string in
  let forest' := grams_form ["NOUN"; "inan"; "masc"; "sing"; "gent"]%string in
  one_case dark "nomn" /\ one_case forest "nomn" /\ one_case forest' "gent" /\ relation_call RGnc dark forest = true /\ relation_call RGnc dark forest' = false.
Proof. exact one_case_shown. Qed.
(** сирота (common gender) agrees with a feminine and a masculine adjective, not with a
    neuter one. *)
Example common_gender_case :
  let orphan := grams_form ["NOUN"; "anim"; "Ms-f"; "sing"; "nomn"]%string in
  let adjective g := grams_form ["ADJF"; g; "sing"; "nomn"]%string in
  map (fun g => relation_call RGnc orphan (adjective g)) ["masc"; "femn"; "neut"]%string = [true; true; false].
Proof. vm_compute. reflexivity. Qed.
