(** Model of yargy/relations/bank.py, of the relation classes of
    yargy/relations/constructors.py and of Gender/Number/Case of
    yargy/morph.py. *)
From Verif Require Import Base TokenModel.

(** morph.py 78-79: [gram in grams]. *)
Definition gram_in (gram : String.string) (f : form) : bool := str_in (str_of gram) (f_grams f).
Arguments gram_in gram%string f.

(** morph.py 27-36. *)
Record gender := mkGender { male : bool; female : bool; neutral : bool; bi : bool; general : bool }.
Definition form_gender (f : form) : gender :=
  mkGender (gram_in "masc" f) (gram_in "femn" f) (gram_in "neut" f)
           (gram_in "Ms-f" f || gram_in "ms-f" f) (gram_in "GNdr" f).

(** morph.py 39-46. *)
Record number := mkNumber { single : bool; plural : bool; only_single : bool; only_plural : bool }.
Definition form_number (f : form) : number :=
  mkNumber (gram_in "sing" f) (gram_in "plur" f) (gram_in "Sgtm" f) (gram_in "Pltm" f).

(** morph.py 49-57. *)
Definition case_mask (f : form) : list bool :=
  map (fun gram => gram_in gram f) ["nomn"; "gent"; "datv"; "accs"; "ablt"; "loct"; "voct"]%string.
Definition case_fixed (f : form) : bool := gram_in "Fixd" f.

Definition mask_eqb (a b : list bool) : bool :=
  if list_eq_dec bool_dec a b then true else false.

(** relations/bank.py 13-32. *)
Definition gender_relation (form other : form) : bool :=
  if plural (form_number form) && plural (form_number other) then true
  else
    let f := form_gender form in
    let o := form_gender other in
    (male f && male o) || (female f && female o) || (neutral f && neutral o)
    || (bi f && (male o || female o)) || (bi o && (male f || female f))
    || general f || general o.

(** relations/bank.py 35-51. *)
Definition number_relation (form other : form) : bool :=
  let f := form_number form in
  let o := form_number other in
  (single f && single o) || (plural f && plural o)
  || (only_single f && single o) || (only_plural f && plural o)
  || (only_single o && single f) || (only_plural o && plural f).

(** relations/bank.py 54-64. *)
Definition case_relation (form other : form) : bool :=
  mask_eqb (case_mask form) (case_mask other) || case_fixed form || case_fixed other.

(** relations/bank.py 67-75. *)
Definition gnc_relation (form other : form) : bool :=
  gender_relation form other && number_relation form other && case_relation form other.

(** Relation objects: the bank and the compositions of
    relations/constructors.py 17-73.  [RCustom] is a user's subclass of
    Relation. *)
Inductive relation :=
| RGender | RNumber | RCase | RGnc
| RAnd (rs : list relation)
| ROr (rs : list relation)
| RNot (r : relation)
| RCustom (call : form -> form -> bool).

(** [relation(form, other)]; relations/constructors.py 43-44 with [all] and [any],
    72-73. *)
Fixpoint relation_call (r : relation) (form other : form) : bool :=
  match r with
  | RGender => gender_relation form other
  | RNumber => number_relation form other
  | RCase => case_relation form other
  | RGnc => gnc_relation form other
  | RAnd rs => forallb (fun r => relation_call r form other) rs
  | ROr rs => existsb (fun r => relation_call r form other) rs
  | RNot r => negb (relation_call r form other)
  | RCustom call => call form other
  end.
