(** Model of yargy/token.py and of Form/Grams of yargy/morph.py. *)
From Verif Require Import Base.

(** Membership in a Python container of strings. *)
Definition str_in (x : str) (l : list str) : bool := existsb (str_eqb x) l.

(** morph.py 91-103 [Form]: normal form, grammemes (a set of strings, kept as
    a list) and the analyzer's own record ([raw], an opaque handle). *)
Record form := mkForm {
  f_normalized : str;
  f_grams : list str;
  f_raw : nat }.

(** record.py 6-13 for [Grams] and [Form]: [Form.__attributes__] are normalized
    and grams, [Grams] compares its sets of values; [raw] is not compared. *)
Definition set_eqb (a b : list str) : bool :=
  forallb (fun x => str_in x b) a && forallb (fun x => str_in x a) b.
Definition form_eqb (a b : form) : bool :=
  str_eqb (f_normalized a) (f_normalized b) && set_eqb (f_grams a) (f_grams b).

(** token.py 6-88.  One record for the four classes: [t_forms] is present for
    MorphToken and MorphTagToken, [t_tag] for TagToken and MorphTagToken. *)
Record token := mkToken {
  t_value : str;
  t_start : Z;
  t_stop : Z;
  t_type : str;
  t_tag : option str;
  t_forms : option (list form) }.

(** token.py 60-61, 72-73. *)
Definition is_morph_token (t : token) : bool :=
  match t_forms t with Some _ => true | None => false end.
Definition is_tag_token (t : token) : bool :=
  match t_tag t with Some _ => true | None => false end.

(** The attribute [token.forms]. *)
Definition get_forms (t : token) : res (list form) :=
  match t_forms t with Some fs => Ok fs | None => Err AttributeError end.

(** token.py 18-22. *)
Definition morphed (t : token) (fs : list form) : token :=
  mkToken (t_value t) (t_start t) (t_stop t) (t_type t) None (Some fs).

(** token.py 24-28 and 47-51: [Token.tagged], [TagToken.tagged] (inherited),
    [MorphToken.tagged], [MorphTagToken.tagged] (inherited). *)
Definition tagged (t : token) (tag : str) : token :=
  mkToken (t_value t) (t_start t) (t_stop t) (t_type t) (Some tag) (t_forms t).

(** token.py 53-57, 84-88; plain and tag tokens have no such method. *)
Definition constrained (t : token) (fs : list form) : res token :=
  match t_forms t with
  | Some _ => Ok (mkToken (t_value t) (t_start t) (t_stop t) (t_type t) (t_tag t) (Some fs))
  | None => Err AttributeError
  end.

(** Case conversion and character classes of Python strings: external. *)
Record unicode := mkUnicode {
  u_lower : str -> str;
  u_islower : str -> bool;
  u_isupper : str -> bool;
  u_istitle : str -> bool;
  u_int : str -> option Z }.

(** token.py 14-16, 42-45: [forms[0]] fails on an empty list. *)
Definition normalized (U : unicode) (t : token) : res str :=
  match t_forms t with
  | None => Ok (u_lower U (t_value t))
  | Some [] => Err IndexError
  | Some (f :: _) => Ok (f_normalized f)
  end.

(** token.py 91-104: a space between tokens separated in the text.  [previous]
    is the previous token's stop, if any (a token is always truthy). *)
Fixpoint format_tokens (previous : option Z) (tokens : list token) : list str :=
  match tokens with
  | [] => []
  | t :: rest =>
      match previous with
      | Some stop => if (0 <? t_start t - stop)%Z then [[32%N]] else []
      | None => []
      end ++ t_value t :: format_tokens (Some (t_stop t)) rest
  end.
Definition join_tokens (tokens : list token) : str :=
  concat (format_tokens None tokens).

(** token.py 107-119. *)
Definition normalize_token (U : unicode) (t : token) : res token :=
  let! v := normalized U t in
  Ok (mkToken v (t_start t) (t_stop t) (t_type t) None None).
Definition join_normalized_tokens (U : unicode) (tokens : list token) : res str :=
  let! ts := mapM (normalize_token U) tokens in Ok (join_tokens ts).

(** morph.py 99-103: [inflect raw grams] is the external analyzer's answer,
    [None] when it cannot inflect. *)
Definition form_inflect (inflect : nat -> list str -> option str) (f : form)
    (grams : list str) : str :=
  match inflect (f_raw f) grams with
  | Some w => w
  | None => f_normalized f
  end.

(** token.py 122-139. *)
Definition inflect_token (U : unicode) (inflect : nat -> list str -> option str)
    (t : token) (grams : list str) : res token :=
  let! v := match t_forms t with
            | Some [] => Err IndexError
            | Some (f :: _) => Ok (form_inflect inflect f grams)
            | None => normalized U t
            end in
  Ok (mkToken v (t_start t) (t_stop t) (t_type t) None None).
Definition join_inflected_tokens (U : unicode) (inflect : nat -> list str -> option str)
    (tokens : list token) (grams : list str) : res str :=
  let! ts := mapM (fun t => inflect_token U inflect t grams) tokens in
  Ok (join_tokens ts).

(** token.py 142-144: [tokens[0]], [tokens[-1]]. *)
Definition get_tokens_span (tokens : list token) : res (Z * Z) :=
  match tokens with
  | [] => Err IndexError
  | head :: _ => Ok (t_start head, t_stop (last tokens head))
  end.
