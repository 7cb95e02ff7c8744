(** Concrete data for the examples about predicates and pipelines. *)
From Coq Require String.
From Verif Require Import Base TokenModel RelationModel TokenizerModel TaggerModel PredicateModel PredicateSpec PredicateProofs
  TokenizerSpec TokenizerTheorems EarleyModel ParserModel.

(** Case conversion and integers of ASCII strings. *)
Definition ascii_lower (c : N) : N := if (N.leb 65 c && N.leb c 90)%bool then (c + 32)%N else c.
Definition ascii_upper (c : N) : bool := (N.leb 65 c && N.leb c 90)%bool.
Definition ascii_letter (c : N) : bool := (ascii_upper c || (N.leb 97 c && N.leb c 122))%bool.
Definition ascii_int (s : str) : option Z :=
  match s with
  | [] => None
  | _ => if forallb (fun c => N.leb 48 c && N.leb c 57)%bool s
         then Some (fold_left (fun z c => (10 * z + (Z.of_N c - 48))%Z) s 0%Z) else None
  end.
Definition ASCII : unicode := mkUnicode (map ascii_lower)
  (fun s => (existsb ascii_letter s && forallb (fun c => negb (ascii_upper c)) s)%bool)
  (fun s => (existsb ascii_letter s && forallb (fun c => negb (ascii_letter c) || ascii_upper c)%bool s)%bool)
  (fun s => match s with c :: s' => (ascii_upper c && forallb (fun c => negb (ascii_upper c)) s')%bool | [] => false end)
  ascii_int.

(** A word that is a form of a noun and of a verb. *)
Definition noun_form : form := mkForm (str_of "steel") [str_of "NOUN"; str_of "sing"] 0.
Definition verb_form : form := mkForm (str_of "become") [str_of "VERB"; str_of "plur"] 1.
Definition steel : token := mkToken (str_of "steels") 0 6 (str_of "RU") None (Some [noun_form; verb_form]).
Definition twelve : token := mkToken (str_of "12") 7 9 INT (Some (str_of "B-NUM")) None.

Definition small_morph : morph := mkMorph
  (fun w => if str_eqb w (str_of "steel") then [noun_form]
            else if str_eqb w (str_of "steels") then [noun_form; verb_form] else [])
  (fun g => str_in g [str_of "NOUN"; str_of "VERB"; str_of "sing"; str_of "plur"]).
Definition small_tokenizer : tokenizer :=
  match default_tokenizer basic_chars with Ok t => t | Err _ => mkTokenizer [] [] [] end.
Definition small_context : context := mkContext small_tokenizer (Some small_morph) (Some PassTagger).

(** and_, or_, not_ nested over schemes. *)
Definition nested : predicate :=
  PAnd [POr [SGram (str_of "NOUN"); STag (str_of "B-NUM")]; PNot (SType LATIN); SDictionary [str_of "steel"]].
Definition nested_activated : predicate :=
  PAnd [POr [PGram (str_of "NOUN"); PTag (str_of "B-NUM")]; PNot (PType LATIN); PDictionary [str_of "steel"]].

Lemma composition_refutes :
  exists U p g t t', p = PAnd [PGram g; PNot (PType LATIN)] /\ call U p t = Ok true /\ constrain p t = Ok t' /\
  exists fs f, t_forms t' = Some fs /\ In f fs /\ ~ In g (f_grams f).
Proof.
  exists ASCII, (PAnd [PGram (str_of "NOUN"); PNot (PType LATIN)]), (str_of "NOUN"), steel, steel.
  split; [reflexivity|]. split; [reflexivity|]. split; [reflexivity|].
  exists [noun_form; verb_form], verb_form. split; [reflexivity|]. split; [right; left; reflexivity|].
  cbn. intros [H|[H|[]]]; discriminate H.
Qed.
Lemma tag_refutes :
  exists c tg v, c_tagger c = Some tg /\ tagger_check tg v = false /\ activate c (STag v) = Ok (PTag v).
Proof. exists small_context, PassTagger, (str_of "B-PER"). repeat split. Qed.
Lemma no_tagger_refutes : forall t m v,
  activate (mkContext t m None) (STag v) = Err AttributeError.
Proof. reflexivity. Qed.
