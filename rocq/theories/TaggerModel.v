(** Model of yargy/tagger.py.  A user's tagger is any function on the list of
    tokens with a list of tags; generators are taken as fully consumed lists. *)
From Verif Require Import Base TokenModel.

Inductive tagger :=
| PassTagger
| UserTagger (call : list token -> list token) (tags : list str)
| TaggersComposition (taggers : list tagger).

(** tagger.py 13-16, 23-26. *)
Fixpoint tagger_call (t : tagger) (tokens : list token) : list token :=
  match t with
  | PassTagger => tokens
  | UserTagger call _ => call tokens
  | TaggersComposition ts => fold_left (fun tokens t => tagger_call t tokens) ts tokens
  end.

(** tagger.py 4, 9-10, 28-32. *)
Fixpoint tagger_check (t : tagger) (tag : str) : bool :=
  match t with
  | PassTagger => false
  | UserTagger _ tags => str_in tag tags
  | TaggersComposition ts => existsb (fun t => tagger_check t tag) ts
  end.
