(** When two forms agree, said in grammemes of the OpenCorpora dictionary (C92). *)
From Verif Require Import Base TokenModel.
From Coq Require String.
Import String.StringSyntax.

(** The form has the grammeme. *)
Definition says (f : form) (gram : String.string) : Prop := In (str_of gram) (f_grams f).
Arguments says f gram%string.

(** The cases, and the rare cases (first and second genitive, second accusative, first and
    second locative) with the case they belong to. *)
Definition cases : list String.string := ["nomn"; "gent"; "datv"; "accs"; "ablt"; "loct"; "voct"]%string.
Definition rare_cases : list (String.string * String.string) :=
  [("gen1", "gent"); ("gen2", "gent"); ("acc2", "accs"); ("loc1", "loct"); ("loc2", "loct")]%string.

(** The form is in case [c]. *)
Definition in_case (f : form) (c : String.string) : Prop := says f c \/ exists r, In (r, c) rare_cases /\ says f r.
(** The form of an indeclinable word. *)
Definition indeclinable (f : form) : Prop := says f "Fixd".
Definition share_case (f f' : form) : Prop := exists c, In c cases /\ in_case f c /\ in_case f' c.
(** The form has case [c] and no other, written with a grammeme of [cases]. *)
Definition one_case (f : form) (c : String.string) : Prop := In c cases /\ forall c', In c' cases -> says f c' <-> c' = c.

(** Words of common gender: masculine or feminine. *)
Definition common_gender (f : form) : Prop := says f "Ms-f" \/ says f "ms-f".
Definition gender_of (f : form) (gram : String.string) : Prop :=
  says f gram \/ common_gender f /\ (gram = "masc" \/ gram = "femn")%string.
Definition share_gender (f f' : form) : Prop :=
  exists gram, In gram ["masc"; "femn"; "neut"]%string /\ gender_of f gram /\ gender_of f' gram.
(** The form fits any gender: plural forms among themselves, forms marked GNdr with all. *)
Definition no_gender (f f' : form) : Prop := says f "GNdr" \/ says f' "GNdr" \/ says f "plur" /\ says f' "plur".

(** Words without plural (Sgtm) are singular, words without singular (Pltm) plural. *)
Definition number_of (f : form) (gram : String.string) : Prop :=
  says f gram \/ gram = "sing"%string /\ says f "Sgtm" \/ gram = "plur"%string /\ says f "Pltm".
Definition share_number (f f' : form) : Prop :=
  exists gram, In gram ["sing"; "plur"]%string /\ number_of f gram /\ number_of f' gram.
