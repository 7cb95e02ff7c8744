(** Model of fact classes as Python classes (yargy/interpretation/fact.py 12-67, 73-85, 100-111): their members,
    instances, and what is found under a name.

    Names that begin with two underscores are not modelled, except [__attributes__]. *)
From Coq Require String.
From Verif Require Import Base TokenModel InterpModel.
Import String.StringSyntax.
Open Scope nat_scope.

(** The name of an attribute; [attribute(item)] takes anything (interpretation/attribute.py 22-24). *)
Inductive key := KStr (s : str) | KOther (n : nat).
(** The value of a name in the dictionary of a class: [__attributes__], an attribute object, the two properties of Fact,
    a property of the user, a method, anything else (an object without an attribute [default]). *)
Inductive member :=
| MNames (l : list key)
| MAttr (d : decl)
| MJson
| MSpans
| MProperty
| MFunction
| MValue (v : pyval).
Definition members := list (str * member).

Definition ATTRIBUTES : str := str_of "__attributes__".
Definition AS_JSON : str := str_of "as_json".
Definition SPANS : str := str_of "spans".
Definition RAW : str := str_of "_raw".
Definition SELF : str := str_of "self".

(** A class: the dictionaries of the classes in its method resolution order, up to Fact. *)
Definition klass := list members.
(** interpretation/fact.py 12-41. *)
Definition fact_members : members := [(ATTRIBUTES, MNames []); (RAW, MValue VNone); (AS_JSON, MJson); (SPANS, MSpans)].
Fixpoint find (k : str) (K : klass) : option member :=
  match K with
  | [] => sdict_get k fact_members
  | d :: K' => match sdict_get k d with Some m => Some m | None => find k K' end
  end.
(** [cls.__attributes__]. *)
Definition names (K : klass) : list key := match find ATTRIBUTES K with Some (MNames l) => l | _ => [] end.

(** ** fact *)
(** An element of the second argument of [fact]: a string or another object, or an attribute scheme. *)
Inductive declared := DName (k : key) | DScheme (k : key) (d : decl).
(** interpretation/attribute.py 26-27, 34-36: [attribute(name, default).repeatable()]. *)
Definition repeatable (x : declared) : res declared :=
  match x with
  | DScheme k (Plain VNone) => Ok (DScheme k Repeatable)
  | DScheme k (Plain _) => Err ValueError
  | DScheme k Repeatable => Err AttributeError
  | DName _ => Err AttributeError
  end.
(** interpretation/fact.py 44-49. *)
Definition prepared (x : declared) : key * decl := match x with DName k => (k, Plain VNone) | DScheme k d => (k, d) end.
(** The value given as attributes: a list (or anything with elements), a string. *)
Inductive attributes_given := GList (l : list declared) | GString (s : str) | GNothing.
Definition elements (g : attributes_given) : res (list declared) :=
  match g with
  | GList l => Ok l
  | GString s => Ok (map (fun c => DName (KStr [c])) s)
  | GNothing => Err TypeError
  end.
Section Fact.
  (** [str(key)] of an object that is no string. *)
  Variable shown_key : nat -> str.
  Definition key_str (k : key) : str := match k with KStr s => s | KOther n => shown_key n end.
  (** interpretation/fact.py 52-67. *)
  Definition fact (g : attributes_given) : res members :=
    let! l := elements g in
    Ok (fold_left (fun cls item =>
          let '(k, d) := prepared item in
          let cls := match sdict_get ATTRIBUTES cls with
                     | Some (MNames ks) => sdict_set ATTRIBUTES (MNames (ks ++ [k])) cls
                     | _ => cls
                     end in
          sdict_set (key_str k) (MAttr d) cls) l
        [(ATTRIBUTES, MNames []); (RAW, MValue VNone)]).
End Fact.

(** interpretation/fact.py 73-85 for class number [sc]: [getattr] with a name that is no string, [.default] of what is no attribute. *)
Definition start_fact (K : klass) (sc : nat) : res ifact :=
  let! p := fold_left (fun acc k =>
    let! p := acc in
    match k with
    | KOther _ => Err TypeError
    | KStr s =>
        match find s K with
        | Some (MAttr Repeatable) => Ok (set_add s (fst p), sdict_set s (SList []) (snd p))
        | Some (MAttr (Plain d)) => Ok (fst p, sdict_set s (SDefault d) (snd p))
        | _ => Err AttributeError
        end
    end) (names K) (Ok ([], [])) in
  Ok (mkFact sc (fst p) [] (snd p)).

(** ** Instances *)
Inductive dvalue := DValue (v : pyval) | DRaw (f : ifact).
Definition instance := list (str * dvalue).
(** [object.k = value]. *)
Definition assign (K : klass) (k : str) (v : dvalue) (o : instance) : res instance :=
  match find k K with
  | Some MProperty | Some MJson | Some MSpans => Err AttributeError
  | _ => Ok (sdict_set k v o)
  end.
Definition key_in (s : str) (l : list key) : bool := existsb (fun k => match k with KStr s' => str_eqb s s' | KOther _ => false end) l.
(** interpretation/fact.py 25-29: the value of an attribute that was not given; [getattr(self, key)] finds the instance first. *)
Definition default_value (K : klass) (o : instance) (s : str) : res pyval :=
  match find s K with
  | Some MProperty | Some MJson | Some MSpans => Err AttributeError
  | m => match sdict_get s o with
         | Some _ => Err AttributeError
         | None => match m with
                   | Some (MAttr Repeatable) => Ok (VList [])
                   | Some (MAttr (Plain d)) => Ok d
                   | _ => Err AttributeError
                   end
         end
  end.
(** interpretation/fact.py 16-30: [cls( **kwargs )]. *)
Definition construct (K : klass) (kwargs : list (str * pyval)) : res instance :=
  if str_in SELF (map fst kwargs) then Err TypeError
  else if negb (forallb (fun p => key_in (fst p) (names K)) kwargs) then Err KeyError
  else fold_left (fun acc k =>
    let! o := acc in
    match k with
    | KOther _ => Err TypeError
    | KStr s =>
        let! v := match sdict_get s kwargs with Some v => Ok v | None => default_value K o s end in
        assign K s (DValue v) o
    end) (names K) (Ok []).

(** What is found under a name. *)
Inductive found := FValue (v : pyval) | FSpans (l : list (Z * Z)) | FRaw (f : ifact) | FMember (m : member).
Definition found_value (d : dvalue) : found := match d with DValue v => FValue v | DRaw f => FRaw f end.
Section Read.
  Variable schemes : nat -> scheme.
  (** interpretation/fact.py 100-111. *)
  Definition instance_of (K : klass) (f : ifact) : res instance :=
    match f with
    | mkFact sc rep chg attrs =>
        let! kwargs := mapM (fun p => let '(k, s) := p in let! v := normalized_slot schemes (str_in k rep) (str_in k chg) s in Ok (k, v)) attrs in
        let! o := construct K kwargs in assign K RAW (DRaw f) o
    end.
  (** [getattr(object, k)] without the code of properties. *)
  Definition plain_read (K : klass) (o : instance) (k : str) : res found :=
    match sdict_get k o with
    | Some d => Ok (found_value d)
    | None => match find k K with Some m => Ok (FMember m) | None => Err AttributeError end
    end.
  (** interpretation/fact.py 32-41 for the two properties. *)
  Definition read_name (K : klass) (o : instance) (k : str) : res found :=
    match find k K with
    | Some MJson =>
        match plain_read K o RAW with
        | Ok (FRaw f) => let! v := json_fact schemes f in Ok (FValue v)
        | Ok (FValue v) => let! v := value_json schemes v in Ok (FValue v)
        | _ => Err AttributeError
        end
    | Some MSpans =>
        match plain_read K o RAW with
        | Ok (FRaw f) => let! l := spans_fact f in Ok (FSpans (sorted_spans l))
        | Ok (FValue v) => let! l := value_spans v in Ok (FSpans (sorted_spans l))
        | _ => Err AttributeError
        end
    | Some MProperty => Ok (FMember MProperty)
    | _ => plain_read K o k
    end.
End Read.
