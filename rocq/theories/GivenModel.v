(** Model of the predicates with one argument (yargy/predicates/bank.py) made of a value of any type.

    Numbers are integers; [AOther] is an object that equals no string and no number, and is no container.
    [wrong v]: what the external analyzer raises for [v], which is no string. *)
From Verif Require Import Base TokenModel RelationModel TokenizerModel TaggerModel PredicateModel.
Open Scope nat_scope.

(** A value; [ASeq] is a list (a tuple differs in [in_strings] only), [ASet] a set or a dict, [AIter] an iterator (a generator, map, an open file) with what it will still give. *)
Inductive arg :=
| ANone
| ABool (b : bool)
| AInt (z : Z)
| AStr (s : str)
| ASeq (l : list arg)
| ASet (l : list arg)
| AIter (l : list arg)
| AOther.
(** [for item in value]. *)
Definition iterate (v : arg) : res (list arg) :=
  match v with
  | AStr s => Ok (map (fun c => AStr [c]) s)
  | ASeq l | ASet l | AIter l => Ok l
  | _ => Err TypeError
  end.
(** The value after a loop that stops at the first item on which the body raises. *)
Fixpoint left_over {A} (body : arg -> res A) (l : list arg) : list arg :=
  match l with
  | [] => []
  | x :: l' => match body x with Ok _ => left_over body l' | Err _ => l' end
  end.
Definition looped {A} (body : arg -> res A) (v : arg) : arg := match v with AIter l => AIter (left_over body l) | _ => v end.
(** [s == value]. *)
Definition equals (s : str) (v : arg) : bool := match v with AStr s' => str_eqb s s' | _ => false end.
(** A number; False and True are 0 and 1. *)
Definition as_number (v : arg) : option Z := match v with AInt z => Some z | ABool b => Some (if b then 1%Z else 0%Z) | _ => None end.
(** [a in b] for strings. *)
Fixpoint starts_with (a b : str) : bool :=
  match a, b with
  | [], _ => true
  | x :: a', y :: b' => N.eqb x y && starts_with a' b'
  | _, [] => false
  end.
Fixpoint substring (a b : str) : bool := starts_with a b || match b with [] => false | _ :: b' => substring a b' end.
(** What is left of an iterator after [s in iterator]. *)
Fixpoint search_iterator (s : str) (l : list arg) : bool * list arg :=
  match l with
  | [] => (false, [])
  | v :: l' => if equals s v then (true, l') else search_iterator s l'
  end.
(** [s in value], and the value afterwards. *)
Definition contains (s : str) (v : arg) : res bool * arg :=
  match v with
  | AStr b => (Ok (substring s b), v)
  | ASeq l | ASet l => (Ok (existsb (equals s) l), v)
  | AIter l => let (b, l') := search_iterator s l in (Ok b, AIter l')
  | _ => (Err TypeError, v)
  end.
(** [value in a set of strings]: lists cannot be hashed, a set is looked up as a frozenset. *)
Definition in_strings (v : arg) (l : list str) : res bool :=
  match v with
  | AStr s => Ok (str_in s l)
  | ASeq _ => Err TypeError
  | _ => Ok false
  end.

(** The constructors; the argument of [MCustom function] is [types] (None when not given). *)
Inductive maker := MEq | MLengthEq | MGte | MLte | MCaseless | MIn | MInCaseless | MNormalized | MDictionary | MGram | MType | MTag
| MCustom (function : str -> res bool).
(** The objects: [OTyped] one of PredicateModel.v, the others keep their value. *)
Inductive object :=
| OTyped (p : predicate)
| OEq (v : arg)
| OLengthEq (v : arg)
| OGte (v : arg)
| OLte (v : arg)
| OIn (v : arg)
| ONormalized (v : arg)
| ODictionary (v : arg)
| OGram (v : arg)
| OType (v : arg)
| OTag (v : arg)
| OTagged (v : arg)
| OCustom (function : str -> res bool) (types : option (list arg)).

(** predicates/bank.py 242-243: [value.lower()]. *)
Definition lowered (U : unicode) (v : arg) : res str := match v with AStr s => Ok (u_lower U s) | _ => Err AttributeError end.
(** predicates/constructors.py 115-119; predicates/bank.py 242-243, 281-283, 478-482. *)
Definition make (U : unicode) (m : maker) (v : arg) : res object :=
  match m with
  | MEq => Ok (OEq v)
  | MLengthEq => Ok (OLengthEq v)
  | MGte => Ok (OGte v)
  | MLte => Ok (OLte v)
  | MCaseless => let! s := lowered U v in Ok (OTyped (PCaseless s))
  | MIn => Ok (OIn v)
  | MInCaseless => let! l := iterate v in let! l := mapM (lowered U) l in Ok (OTyped (PInCaseless l))
  | MNormalized => Ok (ONormalized v)
  | MDictionary => Ok (ODictionary v)
  | MGram => Ok (OGram v)
  | MType => Ok (OType v)
  | MTag => Ok (OTag v)
  | MCustom f => Ok (OCustom f match v with ANone => None | ASeq l => Some l | _ => Some [v] end)
  end.

Section Activate.
  Variable wrong : arg -> exn.
  (** morph.py 132-133. *)
  Definition normal_forms (c : context) (v : arg) : res (list str) :=
    let! m := get_morph c in match v with AStr s => Ok (mo_normalized m s) | _ => Err (wrong v) end.
  (** tokenizer.py 76-78 for every type, and the types. *)
  Fixpoint checked_types (types : list str) (l : list arg) : res (list str) :=
    match l with
    | [] => Ok []
    | v :: l' =>
        let! b := in_strings v types in
        match v with AStr s => if b then let! l'' := checked_types types l' in Ok (s :: l'') else Err ValueError | _ => Err ValueError end
    end.
  (** [predicate.activate(context)] and the scheme afterwards: predicates/constructors.py 35-36, predicates/bank.py
      306-308, 323-327, 363-365, 399-401, 418-420, 484-488; morph.py 124-126, tokenizer.py 76-78. *)
  Definition activated (c : context) (o : object) : res object * object :=
    match o with
    | ONormalized v => (let! l := normal_forms c v in Ok (OTyped (PDictionary l)), o)
    | ODictionary v =>
        ((let! items := iterate v in let! ls := mapM (normal_forms c) items in Ok (OTyped (PDictionary (concat ls)))), ODictionary (looped (normal_forms c) v))
    | OGram v =>
        ((let! m := get_morph c in
          match v with
          | AStr s => let! _ := check_gram m s in Ok (OTyped (PGram s))
          | _ => let! b := in_strings v [] in Err ValueError
          end), o)
    | OType v =>
        ((let! b := in_strings v (tk_types (c_tokenizer c)) in
          match v with AStr s => if b then Ok (OTyped (PType s)) else Err ValueError | _ => Err ValueError end), o)
    | OTag v => (match c_tagger c with Some _ => Ok (OTagged v) | None => Err AttributeError end, o)
    | OCustom f types =>
        (match types with
         | Some (x :: l) => let! l' := checked_types (tk_types (c_tokenizer c)) (x :: l) in Ok (OTyped (PCustom f (Some l')))
         | _ => Ok (OTyped (PCustom f None))
         end, o)
    | OTyped p => (let! q := PredicateModel.activate c p in Ok (OTyped q), o)
    | _ => (Ok o, o)
    end.
End Activate.

(** predicates/bank.py 41-49, 208-210, 227-229. *)
Definition compared (U : unicode) (t : token) (v : arg) (f : Z -> Z -> bool) : res bool :=
  if str_eqb (t_type t) INT then
    match u_int U (t_value t) with
    | Some z => match as_number v with Some n => Ok (f z n) | None => Err TypeError end
    | None => Err ValueError
    end
  else Ok false.
(** [predicate(token)] and the predicate afterwards: predicates/bank.py 170-171, 190-191, 208-210, 227-229, 261-262, 424-427. *)
Definition judged (U : unicode) (o : object) (t : token) : res bool * object :=
  match o with
  | OTyped p => (call U p t, o)
  | OEq v => (Ok (equals (t_value t) v), o)
  | OLengthEq v => (Ok match as_number v with Some n => Z.eqb (Z.of_nat (length (t_value t))) n | None => false end, o)
  | OGte v => (compared U t v (fun z n => Z.leb n z), o)
  | OLte v => (compared U t v (fun z n => Z.leb z n), o)
  | OIn v => let (r, v') := contains (t_value t) v in (r, OIn v')
  | OTagged v => (Ok match t_tag t with Some tag => equals tag v | None => false end, o)
  | ONormalized _ | ODictionary _ | OGram _ | OType _ | OTag _ | OCustom _ _ => (Err NotImplementedError, o)
  end.
(** Tokens judged one after another. *)
Fixpoint judge_all (U : unicode) (o : object) (ts : list token) : list (res bool) :=
  match ts with
  | [] => []
  | t :: ts' => let (r, o') := judged U o t in r :: judge_all U o' ts'
  end.
