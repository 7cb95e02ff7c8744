(** Model of yargy/predicates/constructors.py and yargy/predicates/bank.py. *)
From Verif Require Import Base TokenModel RelationModel TokenizerModel TaggerModel.

(** Predicate objects with their attributes.  The constructors [S...] are the schemes
    (not callable before [activate]); [PUser] is a user's subclass of Predicate with
    its own [__call__] (a subclass with its own [constrain] or [activate] is not
    modelled).  Sets of strings are lists; the values given to
    gte and lte are integers; [custom] functions may raise. *)
Inductive predicate :=
| PTrue | PIsLower | PIsUpper | PIsTitle | PIsCapitalized
| PEq (value : str)
| PLengthEq (value : Z)
| PGte (value : Z)
| PLte (value : Z)
| PCaseless (value : str)
| PIn (value : list str)
| PInCaseless (value : list str)
| SNormalized (value : str)
| SDictionary (value : list str)
| PDictionary (value : list str)
| SGram (value : str)
| PGram (value : str)
| SType (value : str)
| PType (value : str)
| STag (value : str)
| PTag (value : str)
| PIsSingle
| SCustom (function : str -> res bool) (types : option (list str))
| PCustom (function : str -> res bool) (types : option (list str))
| PAnd (predicates : list predicate)
| POr (predicates : list predicate)
| PNot (p : predicate)
| PUser (function : token -> res bool).

(** predicates/bank.py 242-243, 281-283: constructors that lower their argument. *)
Definition caseless (U : unicode) (value : str) : predicate := PCaseless (u_lower U value).
Definition in_caseless (U : unicode) (value : list str) : predicate := PInCaseless (map (u_lower U) value).

(** [all] and [any] of a generator: the first decisive value stops the evaluation, an
    exception escapes. *)
Fixpoint all_ (l : list (res bool)) : res bool :=
  match l with
  | [] => Ok true
  | x :: l' => let! b := x in if b then all_ l' else Ok false
  end.
Fixpoint any_ (l : list (res bool)) : res bool :=
  match l with
  | [] => Ok false
  | x :: l' => let! b := x in if b then Ok true else any_ l'
  end.

(** predicates/bank.py 41-49. *)
Definition int_required (U : unicode) (t : token) (method : Z -> bool) : res bool :=
  if str_eqb (t_type t) INT then
    match u_int U (t_value t) with
    | Some z => Ok (method z)
    | None => Err ValueError
    end
  else Ok false.

(** predicates/bank.py 52-59, with the forms of the token. *)
Definition morph_required (t : token) (method : list form -> bool) : bool :=
  match t_forms t with Some fs => method fs | None => false end.

(** predicates/bank.py 444-446. *)
Definition is_single (f : form) : bool :=
  let n := form_number f in single n || only_single n.

(** [types] is not None and not empty (predicates/bank.py 485, 499). *)
Definition truthy (types : option (list str)) : list str :=
  match types with Some l => l | None => [] end.

(** [predicate(token)]: predicates/constructors.py 9-11, 68-69, 102-103; predicates/bank.py 90-91, 106-107,
    122-123, 138-139, 156-157, 170-171, 190-191, 208-210, 227-229, 245-246, 261-262,
    285-286, 334-343, 369-374, 405-406, 424-427, 448-453, 498-501. *)
Fixpoint call (U : unicode) (p : predicate) (t : token) : res bool :=
  match p with
  | PTrue => Ok true
  | PIsLower => Ok (u_islower U (t_value t))
  | PIsUpper => Ok (u_isupper U (t_value t))
  | PIsTitle => Ok (u_istitle U (t_value t))
  | PIsCapitalized =>
      match t_value t with
      | [] => Err IndexError
      | c :: _ => Ok (u_isupper U [c])
      end
  | PEq v => Ok (str_eqb (t_value t) v)
  | PLengthEq n => Ok (Z.eqb (Z.of_nat (length (t_value t))) n)
  | PGte n => int_required U t (fun v => Z.leb n v)
  | PLte n => int_required U t (fun v => Z.leb v n)
  | PCaseless v => Ok (str_eqb (u_lower U (t_value t)) v)
  | PIn vs => Ok (str_in (t_value t) vs)
  | PInCaseless vs => Ok (str_in (u_lower U (t_value t)) vs)
  | PDictionary vs =>
      match t_forms t with
      | Some fs => Ok (existsb (fun f => str_in (f_normalized f) vs) fs)
      | None => let! v := normalized U t in Ok (str_in v vs)
      end
  | PGram g => Ok (morph_required t (existsb (fun f => str_in g (f_grams f))))
  | PType v => Ok (str_eqb (t_type t) v)
  | PTag v => Ok (match t_tag t with Some tag => str_eqb tag v | None => false end)
  | PIsSingle => Ok (morph_required t (existsb is_single))
  | PCustom f types =>
      match truthy types with
      | [] => f (t_value t)
      | ts => if str_in (t_type t) ts then f (t_value t) else Ok false
      end
  | PAnd ps => all_ (map (fun p => call U p t) ps)
  | POr ps => any_ (map (fun p => call U p t) ps)
  | PNot p => let! b := call U p t in Ok (negb b)
  | PUser f => f t
  | SNormalized _ | SDictionary _ | SGram _ | SType _ | STag _ | SCustom _ _ => Err NotImplementedError
  end.

(** [predicate.constrain(token)]: predicates/constructors.py 38-39 (all predicates, including
    and_, or_, not_), predicates/bank.py 376-380, 455-459. *)
Definition constrain (p : predicate) (t : token) : res token :=
  match p with
  | PGram g =>
      let! fs := get_forms t in constrained t (filter (fun f => str_in g (f_grams f)) fs)
  | PIsSingle =>
      let! fs := get_forms t in constrained t (filter is_single fs)
  | _ => Ok t
  end.

(** parser.py 326-337: what the chart needs.  An exception of a predicate escapes from
    the parser; the chart model takes it as a refusal ([accepts] false), and [constrain]
    is only called on accepted tokens. *)
Definition accepts (U : unicode) (p : predicate) (t : token) : bool :=
  match call U p t with Ok b => b | Err _ => false end.
Definition narrow (p : predicate) (t : token) : token :=
  match constrain p t with Ok t' => t' | Err _ => t end.

(** parser.py 232-237 [Context]: the tokenizer with its [morph] attribute (plain
    Tokenizers have none) and the tagger.  The analyzer is external: [mo_call] is
    morph.py 128-130, [mo_known] is [TagClass.grammeme_is_known]. *)
Record morph := mkMorph { mo_call : str -> list form; mo_known : str -> bool }.
Record context := mkContext {
  c_tokenizer : tokenizer;
  c_morph : option morph;
  c_tagger : option tagger }.

Definition get_morph (c : context) : res morph :=
  match c_morph c with Some m => Ok m | None => Err AttributeError end.

(** morph.py 132-133, 124-126. *)
Definition mo_normalized (m : morph) (word : str) : list str := map f_normalized (mo_call m word).
Definition check_gram (m : morph) (gram : str) : res unit :=
  if mo_known m gram then Ok tt else Err ValueError.

(** [predicate.activate(context)]: predicates/constructors.py 35-36, 71-75, 105-106; predicates/bank.py
    306-308, 323-327, 363-365, 399-401, 418-420, 484-488. *)
Fixpoint activate (c : context) (p : predicate) : res predicate :=
  match p with
  | SNormalized v => let! m := get_morph c in Ok (PDictionary (mo_normalized m v))
  | SDictionary vs =>
      match vs with
      | [] => Ok (PDictionary [])
      | _ => let! m := get_morph c in Ok (PDictionary (flat_map (mo_normalized m) vs))
      end
  | SGram g => let! m := get_morph c in let! _ := check_gram m g in Ok (PGram g)
  | SType v => let! _ := check_type (c_tokenizer c) v in Ok (PType v)
  | STag v =>
      match c_tagger c with
      | Some tg => let _ := tagger_check tg v in Ok (PTag v)
      | None => Err AttributeError
      end
  | SCustom f types => let! _ := check_types (c_tokenizer c) (truthy types) in Ok (PCustom f types)
  | PAnd ps => let! ps' := mapM (activate c) ps in Ok (PAnd ps')
  | POr ps => let! ps' := mapM (activate c) ps in Ok (POr ps')
  | PNot p => let! p' := activate c p in Ok (PNot p')
  | _ => Ok p
  end.
