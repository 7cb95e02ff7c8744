(** Specification vocabulary for predicates, independent of [call] and [activate]. *)
From Verif Require Import Base TokenModel TokenizerModel TaggerModel PredicateModel.

(** What the documentation of each predicate says about a token (bank.py doc strings).
    Connectives are the logical ones. *)
Fixpoint says (U : unicode) (p : predicate) (t : token) : Prop :=
  match p with
  | PTrue => True
  | PIsLower => u_islower U (t_value t) = true
  | PIsUpper => u_isupper U (t_value t) = true
  | PIsTitle => u_istitle U (t_value t) = true
  | PIsCapitalized => exists c, hd_error (t_value t) = Some c /\ u_isupper U [c] = true
  | PEq v => t_value t = v
  | PLengthEq n => Z.of_nat (length (t_value t)) = n
  | PGte n => t_type t = INT /\ exists z, u_int U (t_value t) = Some z /\ (z >= n)%Z
  | PLte n => t_type t = INT /\ exists z, u_int U (t_value t) = Some z /\ (z <= n)%Z
  | PCaseless v => u_lower U (t_value t) = v
  | PIn vs => In (t_value t) vs
  | PInCaseless vs => In (u_lower U (t_value t)) vs
  | PDictionary vs =>
      match t_forms t with
      | Some fs => exists f, In f fs /\ In (f_normalized f) vs
      | None => In (u_lower U (t_value t)) vs
      end
  | PGram g => exists fs f, t_forms t = Some fs /\ In f fs /\ In g (f_grams f)
  | PType v => t_type t = v
  | PTag v => t_tag t = Some v
  | PIsSingle => exists fs f, t_forms t = Some fs /\ In f fs /\
      (In (str_of "sing") (f_grams f) \/ In (str_of "Sgtm") (f_grams f))
  | PCustom f types =>
      f (t_value t) = Ok true /\
      match types with Some (ty :: tys) => In (t_type t) (ty :: tys) | _ => True end
  | PAnd ps => fold_right (fun p P => says U p t /\ P) True ps
  | POr ps => fold_right (fun p P => says U p t \/ P) False ps
  | PNot p => ~ says U p t
  | PUser f => f t = Ok true
  | SNormalized _ | SDictionary _ | SGram _ | SType _ | STag _ | SCustom _ _ => False
  end.

(** Activated predicates (no scheme anywhere) whose user functions return. *)
Fixpoint plain (p : predicate) : Prop :=
  match p with
  | SNormalized _ | SDictionary _ | SGram _ | SType _ | STag _ | SCustom _ _ => False
  | PAnd ps | POr ps => fold_right (fun p P => plain p /\ P) True ps
  | PNot p => plain p
  | _ => True
  end.
Fixpoint returns (p : predicate) : Prop :=
  match p with
  | PCustom f _ => forall v, exists b, f v = Ok b
  | PUser f => forall t, exists b, f t = Ok b
  | PAnd ps | POr ps => fold_right (fun p P => returns p /\ P) True ps
  | PNot p => returns p
  | _ => True
  end.

(** A token of a tokenizer: not empty, and readable as an integer when of type INT. *)
Definition usual_token (U : unicode) (t : token) : Prop :=
  t_value t <> [] /\ (t_type t = INT -> exists z, u_int U (t_value t) = Some z).

(** [inside s p]: [s] is [p] or occurs in it under and_, or_, not_. *)
Inductive inside (s : predicate) : predicate -> Prop :=
| inside_here : inside s s
| inside_and ps p : In p ps -> inside s p -> inside s (PAnd ps)
| inside_or ps p : In p ps -> inside s p -> inside s (POr ps)
| inside_not p : inside s p -> inside s (PNot p).

(** A gram or token type named in the predicate that the context does not know. *)
Definition unknown_name (m : morph) (t : tokenizer) (p : predicate) : Prop :=
  (exists g, inside (SGram g) p /\ mo_known m g = false) \/
  (exists ty, inside (SType ty) p /\ ~ In ty (tk_types t)) \/
  (exists f types ty, inside (SCustom f (Some types)) p /\ In ty types /\ ~ In ty (tk_types t)).

(** Dictionary entries: a word of the text and a word of the dictionary share a normal
    form; a token without forms is compared by its lowered text. *)
Definition shares_normal (U : unicode) (m : morph) (word : str) (t : token) : Prop :=
  match t_forms t with
  | Some fs => exists f f', In f fs /\ In f' (mo_call m word) /\ f_normalized f = f_normalized f'
  | None => exists f', In f' (mo_call m word) /\ u_lower U (t_value t) = f_normalized f'
  end.
