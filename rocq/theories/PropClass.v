(** Properties of fact classes (C91). *)
From Coq Require String.
From Verif Require Import Base TokenModel InterpModel InterpSpec PredicateProofs FactProofs FactTheorems ClassModel ClassSpec ClassProofs ClassCases.
Import String.StringSyntax.
Open Scope nat_scope.

(** ** C91 *)
(** An attribute called self: the class is made, the fact is collected, and [.fact] raises TypeError. *)
Theorem facts_show_their_attributes_refuted : exists K items f, fact shown (GList [DName (name "self"); DName (name "name")]) = Ok K /\ proper [K] /\
  called (alone [K]) 0 items = Ok (RFact f) /\ instance_of (schemes_of (alone [K])) [K] f = Err TypeError.
Proof. exact self_raises. Qed.
Print Assumptions facts_show_their_attributes_refuted.
(** Attributes called as_json and spans hide the properties. *)
Theorem facts_show_json_refuted : exists K items v, fact shown (GList [DName (name "as_json"); DName (name "spans")]) = Ok K /\ proper [K] /\
  shows (alone [K]) 0 items [AS_JSON; SPANS] = Ok [Ok (FValue (VStr (str_of "x"))); Ok (FValue VNone)] /\
  (exists f, called (alone [K]) 0 items = Ok (RFact f) /\ normalized_fact (schemes_of (alone [K])) f = Ok v) /\
  value_json (schemes_of (alone [K])) v = Ok (VDict [(AS_JSON, VStr (str_of "x"))]) /\ value_spans v = Ok [(0, 1)%Z].
Proof. exact json_hidden. Qed.
Print Assumptions facts_show_json_refuted.
(** An attribute called _raw is never shown. *)
Theorem facts_show_raw_refuted : exists K items f v, fact shown (GList [DName (name "_raw")]) = Ok K /\ proper [K] /\
  called (alone [K]) 0 items = Ok (RFact f) /\ normalized_fact (schemes_of (alone [K])) f = Ok v /\ value_attr RAW v = Some (VStr (str_of "x")) /\
  shows (alone [K]) 0 items [RAW] = Ok [Ok (FRaw f)].
Proof. exact raw_hidden. Qed.
Print Assumptions facts_show_raw_refuted.
(** A subclass with a property named as an attribute: no fact of it can be collected. *)
Theorem subclasses_collect_facts_refuted : exists K u, fact shown (GList person) = Ok K /\ u = [(str_of "age", MProperty)] /\ forall sc, start_fact [u; K] sc = Err AttributeError.
Proof. exact name_taken. Qed.
Print Assumptions subclasses_collect_facts_refuted.
(** A name that is no string is accepted by [fact]. *)
Theorem names_are_checked_refuted : exists K, fact shown (GList [DName (KOther 1)]) = Ok K /\ forall sc, start_fact [K] sc = Err TypeError.
Proof. exact number_name. Qed.
Print Assumptions names_are_checked_refuted.
(** class Both(Person, Money): an attribute of Money raises KeyError in [.fact]. *)
Theorem subclasses_of_two_classes_refuted : exists items f, items_declared (schemes_of mixed) items /\ (forall sc, proper (class_of mixed sc)) /\ called mixed 1 items = Ok (RFact f) /\
  values_normalize (schemes_of mixed) f /\ instance_of (schemes_of mixed) (class_of mixed 1) f = Err KeyError.
Proof. exact both_raises. Qed.
Print Assumptions subclasses_of_two_classes_refuted.
(** Facts made by hand have no as_json and no spans. *)
Theorem facts_by_hand_show_json_refuted : exists K o, fact shown (GList person) = Ok K /\ construct [K] [(str_of "name", VStr (str_of "Ivan"))] = Ok o /\
  map (read_name (fun _ => []) [K] o) [str_of "name"; str_of "age"; str_of "tags"; AS_JSON; SPANS] =
  [Ok (FValue (VStr (str_of "Ivan"))); Ok (FValue (VStr (str_of "adult"))); Ok (FValue (VList [])); Err AttributeError; Err AttributeError].
Proof. exact hand_without_json. Qed.
Print Assumptions facts_by_hand_show_json_refuted.
(** A name declared twice: the parser makes facts, the class called without arguments raises. *)
Theorem facts_by_hand_are_made_refuted : exists K items f, fact shown (GList [DName (name "a"); DName (name "a")]) = Ok K /\ construct [K] [] = Err AttributeError /\
  called (alone [K]) 0 items = Ok (RFact f) /\ shows (alone [K]) 0 items [str_of "a"] = Ok [Ok (FValue (VStr (str_of "x")))].
Proof. exact name_twice. Qed.
Print Assumptions facts_by_hand_are_made_refuted.

(** Classes with one base whose statements leave attributes alone: every fact is made when its values are, and shows them. *)
Theorem facts_show_their_attributes_partial :
  forall P sc items f, single_inheritance P -> made_by_fact P -> below_facts P -> attributes_kept P ->
  items_declared (schemes_of P) items -> call_fact (schemes_of P) (is_subclass P) sc items = Ok (RFact f) -> values_normalize (schemes_of P) f ->
  ~ named SELF (class_of P sc) -> named RAW (class_of P sc) \/ find RAW (class_of P sc) = Some (MValue VNone) ->
  exists v o, normalized_fact (schemes_of P) f = Ok v /\ instance_of (schemes_of P) (class_of P sc) f = Ok o /\
    (forall s, named s (class_of P sc) -> s <> RAW -> exists x, value_attr s v = Some x /\ read_name (schemes_of P) (class_of P sc) o s = Ok (FValue x)) /\
    (find AS_JSON (class_of P sc) = Some MJson -> read_name (schemes_of P) (class_of P sc) o AS_JSON = let! j := value_json (schemes_of P) v in Ok (FValue j)) /\
    (find SPANS (class_of P sc) = Some MSpans -> read_name (schemes_of P) (class_of P sc) o SPANS = let! l := value_spans v in Ok (FSpans l)).
Proof. exact program_facts. Qed.
Print Assumptions facts_show_their_attributes_partial.
Example known_case : (single_inheritance family /\ made_by_fact family /\ below_facts family /\ attributes_kept family) /\
  items_declared (schemes_of family) known_items /\ ~ named SELF (class_of family 1) /\ find RAW (class_of family 1) = Some (MValue VNone) /\
  find AS_JSON (class_of family 1) = Some MJson /\ find SPANS (class_of family 1) = Some MSpans /\
  shows family 1 known_items [str_of "name"; str_of "age"; str_of "tags"; AS_JSON; SPANS] =
    Ok [Ok (FValue (VStr (str_of "Ivan"))); Ok (FValue (VStr (str_of "adult"))); Ok (FValue (VList [VStr (str_of "x"); VStr (str_of "y")]));
        Ok (FValue (VDict [(str_of "name", VStr (str_of "Ivan")); (str_of "age", VStr (str_of "adult")); (str_of "tags", VList [VStr (str_of "x"); VStr (str_of "y")])]));
        Ok (FSpans [(0, 4); (0, 1); (0, 1)]%Z)].
Proof.
  split; [exact family_regular|]. split.
  - intros r J. repeat (destruct J as [J|J]; [injection J as <-; vm_compute; discriminate|]). contradiction.
  - split; [vm_compute; intuition discriminate|]. repeat split; vm_compute; reflexivity.
Qed.
(** An attribute called self: always TypeError (a case: [facts_show_their_attributes_refuted]). *)
Theorem attribute_called_self_raises :
  forall P sc items f v, proper (class_of P sc) -> call_fact (schemes_of P) (is_subclass P) sc items = Ok (RFact f) ->
  normalized_fact (schemes_of P) f = Ok v -> named SELF (class_of P sc) -> instance_of (schemes_of P) (class_of P sc) f = Err TypeError.
Proof. exact program_self. Qed.
Print Assumptions attribute_called_self_raises.
(** An attribute called _raw: always the partial fact (a case: [facts_show_raw_refuted]). *)
Theorem attribute_called_raw_is_lost :
  forall P sc items f v, proper (class_of P sc) -> call_fact (schemes_of P) (is_subclass P) sc items = Ok (RFact f) ->
  normalized_fact (schemes_of P) f = Ok v -> ~ named SELF (class_of P sc) -> named RAW (class_of P sc) ->
  exists o, instance_of (schemes_of P) (class_of P sc) f = Ok o /\ read_name (schemes_of P) (class_of P sc) o RAW = Ok (FRaw f).
Proof. exact program_raw. Qed.
Print Assumptions attribute_called_raw_is_lost.

(** A fact of a class can be begun exactly when all declared names are attribute objects of the class; what is begun is the fact of InterpModel.v. *)
Theorem facts_are_begun_iff_names_are_attributes :
  forall K sc, (exists f, start_fact K sc = Ok f) <-> proper K.
Proof. exact start_fact_iff. Qed.
Print Assumptions facts_are_begun_iff_names_are_attributes.
Theorem begun_facts_have_the_declared_attributes :
  forall schemes K sc, proper K -> schemes sc = scheme_of K -> start_fact K sc = Ok (new_fact schemes sc).
Proof. exact start_fact_same. Qed.
Print Assumptions begun_facts_have_the_declared_attributes.
Example begun_case : proper (class_of family 1) /\ ~ proper [[(str_of "age", MProperty)]; pr_own family 0] /\
  start_fact (class_of family 1) 1 = Ok (mkFact 1 [str_of "tags"] [] [(str_of "name", SDefault VNone); (str_of "age", SDefault (VStr (str_of "adult"))); (str_of "tags", SList [])]).
Proof.
  split; [destruct family_regular as (S & M & B & A); apply (programs_agree family S M B A)|]. split; [|vm_compute; reflexivity].
  intro H. apply (start_fact_iff _ 0) in H as [f H]. vm_compute in H. discriminate.
Qed.

(** Classes made by [fact] from names that are strings without two leading underscores. *)
Theorem classes_have_their_attributes :
  forall shown_key g l, elements g = Ok l -> string_names l ->
  exists d, fact shown_key g = Ok d /\ names [d] = map (fun x => fst (prepared x)) l /\ proper [d] /\
    (forall s x, last_declared s l = Some x -> find s [d] = Some (MAttr x)) /\
    (forall s, last_declared s l = None -> underscored s = false -> find s [d] = own_member s).
Proof. exact fact_class. Qed.
Print Assumptions classes_have_their_attributes.
Example classes_case : elements (GString (str_of "ab")) = Ok [DName (name "a"); DName (name "b")] /\ string_names person /\
  string_names [DName (name "a"); DName (name "b")] /\ last_declared (str_of "a") [DName (name "a"); DScheme (name "a") Repeatable] = Some Repeatable /\
  repeatable (DScheme (name "tags") (Plain VNone)) = Ok (DScheme (name "tags") Repeatable) /\ repeatable (DScheme (name "age") (Plain (VStr (str_of "adult")))) = Err ValueError.
Proof. split; [reflexivity|]. split; [|split; [|repeat split]]; repeat constructor; eexists; split; reflexivity. Qed.

(** Class statements: anything but attributes and the names of Fact may be added; an attribute may not be replaced. *)
Theorem class_statements_may_add :
  forall u K, adds_only u K -> (proper K -> proper (u :: K)) /\ names (u :: K) = names K /\
  (forall s, named s K \/ In s [AS_JSON; SPANS; RAW] -> find s (u :: K) = find s K).
Proof. intros u K A. exact (conj (adds_only_proper u K A) (adds_only_same u K A)). Qed.
Print Assumptions class_statements_may_add.
Theorem class_statements_may_not_replace :
  forall u K s m sc, named s K -> sdict_get ATTRIBUTES u = None -> sdict_get s u = Some m -> (forall d, m <> MAttr d) -> forall f, start_fact (u :: K) sc <> Ok f.
Proof. exact taken_name. Qed.
Print Assumptions class_statements_may_not_replace.
Example statements_case : adds_only [(str_of "show", MFunction)] [pr_own family 0] /\ named (str_of "age") [pr_own family 0].
Proof.
  split; [|vm_compute; auto]. intros s m H. cbn [sdict_get] in H. destruct (str_eqb s (str_of "show")) eqn:E; [|discriminate]. apply str_eqb_eq in E as ->.
  split; [reflexivity|]. split; vm_compute; intuition discriminate.
Qed.

(** With one base for every class, classes below have the attributes of the class above, of the same kinds. *)
Theorem subclasses_have_the_attributes_partial :
  forall P, single_inheritance P -> made_by_fact P -> below_facts P -> attributes_kept P ->
  (forall sc, proper (class_of P sc)) /\ kinds_agree (schemes_of P) (is_subclass P) /\ names_agree (schemes_of P) (is_subclass P).
Proof. exact programs_agree. Qed.
Print Assumptions subclasses_have_the_attributes_partial.
Example subclasses_case : is_subclass family 1 0 = true /\ schemes_of family 1 = schemes_of family 0 /\ length (schemes_of family 0) = 3.
Proof. repeat split; vm_compute; reflexivity. Qed.

(** Facts made by hand: the values given, the defaults for the rest; never as_json and spans. *)
Theorem facts_by_hand_show_their_attributes :
  forall K kwargs, proper K -> NoDup (names K) -> ~ In SELF (map fst kwargs) -> (forall s, In s (map fst kwargs) -> named s K) ->
  exists o, construct K kwargs = Ok o /\ (forall s, named s K -> exists v, hand_value K kwargs s = Some v /\ sdict_get s o = Some (DValue v)) /\
    (forall s, ~ named s K -> sdict_get s o = None).
Proof. exact construct_hand. Qed.
Print Assumptions facts_by_hand_show_their_attributes.
Theorem facts_by_hand_have_no_json :
  forall schemes K kwargs o, construct K kwargs = Ok o -> proper K -> NoDup (names K) -> ~ named RAW K -> find RAW K = Some (MValue VNone) ->
  (find AS_JSON K = Some MJson -> read_name schemes K o AS_JSON = Err AttributeError) /\
  (find SPANS K = Some MSpans -> read_name schemes K o SPANS = Err AttributeError).
Proof. exact hand_made_json. Qed.
Print Assumptions facts_by_hand_have_no_json.
Example hand_case : proper (class_of family 0) /\ NoDup (names (class_of family 0)) /\ named (str_of "name") (class_of family 0) /\ ~ named RAW (class_of family 0) /\
  construct (class_of family 0) [(str_of "nick", VNone)] = Err KeyError.
Proof.
  split; [destruct family_regular as (S & M & B & A); apply (programs_agree family S M B A)|]. split; [vm_compute; repeat constructor; cbn; intuition discriminate|].
  split; [vm_compute; auto|]. split; [vm_compute; intuition discriminate|vm_compute; reflexivity].
Qed.
Theorem classes_with_properties_are_not_called :
  forall K kwargs s, named s K -> find s K = Some MProperty -> forall o, construct K kwargs <> Ok o.
Proof. exact property_not_made. Qed.
Print Assumptions classes_with_properties_are_not_called.
Example property_case : named (str_of "age") [[(str_of "age", MProperty)]; pr_own family 0] /\ find (str_of "age") [[(str_of "age", MProperty)]; pr_own family 0] = Some MProperty.
Proof. split; [vm_compute; auto|vm_compute; reflexivity]. Qed.

(** fact('X', 'ab'): an attribute for each letter. *)
Theorem string_gives_letter_attributes :
  forall shown_key s, exists d, fact shown_key (GString s) = Ok d /\ proper [d] /\ names [d] = map (fun c => KStr [c]) s.
Proof. exact letters_class. Qed.
Print Assumptions string_gives_letter_attributes.
(** attribute(name, default).repeatable(): only without a default. *)
Theorem repeatable_attributes_have_no_default :
  forall s v, match repeatable (DScheme (KStr s) (Plain v)) with
  | Ok x => v = VNone /\ prepared x = (KStr s, Repeatable)
  | Err e => v <> VNone /\ e = ValueError
  end.
Proof. exact repeatable_default. Qed.
Print Assumptions repeatable_attributes_have_no_default.
