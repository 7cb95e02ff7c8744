(** Model of yargy/interpretation (interpretation/attribute.py, interpretation/fact.py, interpretation/interpretator.py,
    interpretation/normalizer.py), of the two tree transformations that drive it
    (tree/transformators.py 65-103) and of [Match.fact] (parser.py 188-191). *)
From Verif Require Import Base TokenModel EarleyModel TreeModel PredicateModel ParserModel.

(** A base attribute object (interpretation/attribute.py 42-47): the fact class it belongs to,
    by number, and its name. *)
Record attr := mkAttr { a_fact : nat; a_name : str }.

(** Python values met by interpretation: results of user functions and of
    constants, strings, [None], lists, dictionaries and Fact instances
    (interpretation/fact.py 12-41, with [_raw]).  [VOther]: any other object.

    Results (interpretation/interpretator.py 34-121), inputs kept by NormalizerResult
    (interpretation/interpretator.py 26-31 for [NInput], which has no [spans]), items of an
    InterpretatorInput, partial facts (interpretation/fact.py 70-85) and the values of their
    attribute dictionary: a list of results for a repeatable attribute, the
    default for a plain one, a result once it has been set. *)
Inductive pyval :=
| VNone
| VStr (s : str)
| VInt (z : Z)
| VList (l : list pyval)
| VDict (d : list (str * pyval))
| VFact (scheme : nat) (attributes : list (str * pyval)) (raw : ifact)
| VOther (n : nat)
with result :=
| RChain (tokens : list token) (key : option str)
| RFact (f : ifact)
| RAttr (value : result) (a : attr)
| RNorm (value : pyval) (input : ninput)
with ninput :=
| NResult (r : result)
| NInput (items : list item) (key : option str)
with item :=
| IToken (t : token)
| IResult (r : result)
with ifact :=
| mkFact (scheme : nat) (repeatable modified : list str) (attributes : list (str * slot))
with slot :=
| SList (l : list result)
| SDefault (v : pyval)
| SResult (r : result).

(** ** Fact classes *)

(** interpretation/attribute.py 19-39: what [fact(name, attributes)] was given for one
    attribute. *)
Inductive decl := Plain (default : pyval) | Repeatable.

(** interpretation/fact.py 44-67: [__attributes__], and the class attribute of a name, which is
    the last one assigned. *)
Definition scheme := list (str * decl).
Fixpoint get_decl (k : str) (s : scheme) : option decl :=
  match s with
  | [] => None
  | (k', d) :: s' =>
      match get_decl k s' with
      | Some d' => Some d'
      | None => if str_eqb k k' then Some d else None
      end
  end.

(** [d[k] = v] and [d.get(k)] of a dictionary with string keys. *)
Fixpoint sdict_set {B} (k : str) (v : B) (l : list (str * B)) : list (str * B) :=
  match l with
  | [] => [(k, v)]
  | (k', v') :: l' => if str_eqb k k' then (k', v) :: l' else (k', v') :: sdict_set k v l'
  end.
Fixpoint sdict_get {B} (k : str) (l : list (str * B)) : option B :=
  match l with
  | [] => None
  | (k', v) :: l' => if str_eqb k k' then Some v else sdict_get k l'
  end.

(** [set.add]; iteration order of a set of strings is not observable here. *)
Definition set_add (k : str) (l : list str) : list str := if str_in k l then l else l ++ [k].

Section Interp.
  (** The attributes of each fact class and the relation [issubclass]. *)
  Variable schemes : nat -> scheme.
  Variable subclass : nat -> nat -> bool.
  Variable U : unicode.
  Variable inflect : nat -> list str -> option str.

  (** interpretation/fact.py 16-30: [Fact.__init__]. *)
  Definition fact_init (sc : nat) (kwargs : list (str * pyval)) : res (list (str * pyval)) :=
    if forallb (fun p => str_in (fst p) (map fst (schemes sc))) kwargs then
      Ok (fold_left (fun acc k =>
            sdict_set k (match sdict_get k kwargs with
                         | Some v => v
                         | None => match get_decl k (schemes sc) with
                                   | Some (Plain d) => d
                                   | Some Repeatable => VList []
                                   | None => VNone
                                   end
                         end) acc) (map fst (schemes sc)) [])
    else Err KeyError.

  (** interpretation/fact.py 73-85. *)
  Definition new_fact (sc : nat) : ifact :=
    let '(rep, attrs) :=
      fold_left (fun acc k =>
        match get_decl k (schemes sc) with
        | Some Repeatable => (set_add k (fst acc), sdict_set k (SList []) (snd acc))
        | Some (Plain d) => (fst acc, sdict_set k (SDefault d) (snd acc))
        | None => acc
        end) (map fst (schemes sc)) ([], []) in
    mkFact sc rep [] attrs.

  (** interpretation/fact.py 87-92.  A repeatable attribute holds a list: the other cases stand
      for [append] on something else and for a missing key. *)
  Definition fact_set (k : str) (r : result) (f : ifact) : res ifact :=
    match f with
    | mkFact sc rep chg attrs =>
        if str_in k rep then
          match sdict_get k attrs with
          | Some (SList l) => Ok (mkFact sc rep (set_add k chg) (sdict_set k (SList (l ++ [r])) attrs))
          | Some _ => Err AttributeError
          | None => Err KeyError
          end
        else Ok (mkFact sc rep (set_add k chg) (sdict_set k (SResult r) attrs))
    end.

  (** interpretation/fact.py 94-98.  The merged list object is shared with [other], which is not
      used afterwards. *)
  Definition fact_merge (other : ifact) (f : ifact) : res ifact :=
    match other with
    | mkFact _ _ ochg oattrs =>
        fold_left (fun acc k =>
          let! f := acc in
          match sdict_get k oattrs with
          | Some s =>
              match f with
              | mkFact sc rep chg attrs => Ok (mkFact sc rep (set_add k chg) (sdict_set k s attrs))
              end
          | None => Err KeyError
          end) ochg (Ok f)
    end.

  (** [normalized] of results and partial facts: interpretation/interpretator.py 46-48, 65-67,
      86-88, 107-109; interpretation/fact.py 100-111.  In [normalized_slot], a slot whose shape
      contradicts [repeatable] comes only from a subclass redeclaring an
      attribute with another kind; the exception raised there is not modelled
      exactly. *)
  Fixpoint normalized_result (r : result) : res pyval :=
    match r with
    | RChain tokens _ => Ok (VStr (join_tokens tokens))
    | RFact f => normalized_fact f
    | RAttr v _ => normalized_result v
    | RNorm v _ => Ok v
    end
  with normalized_fact (f : ifact) : res pyval :=
    match f with
    | mkFact sc rep chg attrs =>
        let! kwargs := mapM (fun p =>
          let '(k, s) := p in
          let! v := normalized_slot (str_in k rep) (str_in k chg) s in Ok (k, v)) attrs in
        let! values := fact_init sc kwargs in
        Ok (VFact sc values f)
    end
  with normalized_slot (rep chg : bool) (s : slot) : res pyval :=
    match s with
    | SList l =>
        if rep then let! vs := mapM normalized_result l in Ok (VList vs)
        else Err AttributeError
    | SDefault v => if rep then Err TypeError else Ok v
    | SResult r => if rep then Err TypeError else normalized_result r
    end.

  (** [as_json]: interpretation/interpretator.py 54-56, 74-76, 95-97, 116-121; interpretation/fact.py 124-135.
      No modelled value is an InterpretatorResult, so NormalizerResult returns
      its value. *)
  Fixpoint json_result (r : result) : res pyval :=
    match r with
    | RChain tokens _ => Ok (VStr (join_tokens tokens))
    | RFact f => json_fact f
    | RAttr v _ => json_result v
    | RNorm v _ => Ok v
    end
  with json_fact (f : ifact) : res pyval :=
    match f with
    | mkFact sc rep chg attrs =>
        (** All the slots first, then the loop over [__attributes__] (the order
            of evaluation is only visible through which exception is raised). *)
        let! values := mapM (fun p =>
          let '(k, s) := p in
          let! v := json_slot (str_in k rep) (str_in k chg) s in Ok (k, v)) attrs in
        let! data := fold_left (fun acc k =>
          let! data := acc in
          match sdict_get k values with
          | Some VNone => Ok data
          | Some v => Ok (sdict_set k v data)
          | None => Err KeyError
          end) (map fst (schemes sc)) (Ok []) in
        Ok (VDict data)
    end
  with json_slot (rep chg : bool) (s : slot) : res pyval :=
    match s with
    | SList l =>
        if rep then let! vs := mapM json_result l in Ok (VList vs)
        else Err AttributeError
    | SDefault v => if rep then Err TypeError else Ok v
    | SResult r => if rep then Err TypeError else json_result r
    end.

  (** [spans]: interpretation/interpretator.py 50-52, 69-72, 90-93, 111-114; interpretation/fact.py 113-122.
      Generators, fully consumed. *)
  Fixpoint spans_result (r : result) : res (list (Z * Z)) :=
    match r with
    | RChain tokens _ => let! s := get_tokens_span tokens in Ok [s]
    | RFact f => spans_fact f
    | RAttr v _ => spans_result v
    | RNorm _ (NResult r) => spans_result r
    | RNorm _ (NInput _ _) => Err AttributeError
    end
  with spans_fact (f : ifact) : res (list (Z * Z)) :=
    match f with
    | mkFact sc rep chg attrs =>
        let! ls := mapM (fun p =>
          let '(k, s) := p in spans_slot (str_in k rep) (str_in k chg) s) attrs in
        Ok (concat ls)
    end
  with spans_slot (rep chg : bool) (s : slot) : res (list (Z * Z)) :=
    match s with
    | SList l =>
        if rep then let! ls := mapM spans_result l in Ok (concat ls)
        else Err AttributeError
    | SDefault _ => if rep then Err TypeError else Ok []
    | SResult r => if rep then Err TypeError else spans_result r
    end.

  (** interpretation/fact.py 36-41: [Fact.spans]. *)
  Definition sorted_spans (l : list (Z * Z)) : list (Z * Z) :=
    isort (fun a b => Z.ltb (fst a) (fst b)) l.

  (** The attributes of a value: [fact.spans], [fact.as_json] (interpretation/fact.py 32-41)
      and attribute lookup on instances. *)
  Definition value_spans (v : pyval) : res (list (Z * Z)) :=
    match v with
    | VFact _ _ raw => let! l := spans_fact raw in Ok (sorted_spans l)
    | _ => Err AttributeError
    end.
  Definition value_json (v : pyval) : res pyval :=
    match v with VFact _ _ raw => json_fact raw | _ => Err AttributeError end.
  Definition value_attr (k : str) (v : pyval) : option pyval :=
    match v with VFact _ attrs _ => sdict_get k attrs | _ => None end.

  (** ** Normalizers *)
  Definition function := pyval -> res pyval.

  (** interpretation/normalizer.py 19-54; MorphFunctionNormalizer.morph is one of these. *)
  Inductive morph_normalizer := MNormalized | MInflected (grams : list str).

  (** interpretation/normalizer.py 57-134. *)
  Inductive normalizer :=
  | NMorph (m : morph_normalizer)
  | NConst (v : pyval)
  | NFunction (f : function)
  | NFunctionFunction (first second : function)
  | NMorphFunction (m : morph_normalizer) (f : function).

  (** interpretation/normalizer.py 25-32, 44-48: [assert_type(item, Chain)]; an empty key is
      false. *)
  Definition call_morph (m : morph_normalizer) (r : result) : res pyval :=
    match r with
    | RChain tokens key =>
        match m with
        | MNormalized =>
            match key with
            | Some (c :: s) => Ok (VStr (c :: s))
            | _ => let! s := join_normalized_tokens U tokens in Ok (VStr s)
            end
        | MInflected grams =>
            let! s := join_inflected_tokens U inflect tokens grams in Ok (VStr s)
        end
    | _ => Err TypeError
    end.

  (** interpretation/normalizer.py 67-68, 89-91, 107-109, 126-128. *)
  Definition call_normalizer (n : normalizer) (r : result) : res pyval :=
    match n with
    | NMorph m => call_morph m r
    | NConst v => Ok v
    | NFunction f => let! v := normalized_result r in f v
    | NFunctionFunction f g => let! v := normalized_result r in let! w := f v in g w
    | NMorphFunction m f => let! v := call_morph m r in f v
    end.

  (** interpretation/normalizer.py 22-23, 41-42, 83-87: the method [custom]; the other classes
      have none. *)
  Definition normalizer_custom (n : normalizer) (f : function) : res normalizer :=
    match n with
    | NMorph m => Ok (NMorphFunction m f)
    | NFunction f' => Ok (NFunctionFunction f' f)
    | _ => Err AttributeError
    end.

  (** ** Attributes *)

  (** interpretation/attribute.py 57-191: base attributes (plain or repeatable) and the ones
      derived from them. *)
  Inductive attribute :=
  | AAttribute (a : attr)
  | ARepeatable (a : attr)
  | AMorph (a : attr) (m : morph_normalizer)
  | AConst (a : attr) (v : pyval)
  | AFunction (a : attr) (f : function)
  | AFunctionFunction (a : attr) (first second : function)
  | AMorphFunction (a : attr) (m : morph_normalizer) (f : function).

  (** interpretation/attribute.py 65-72: methods of Attribute only. *)
  Definition attribute_morph (m : morph_normalizer) (x : attribute) : res attribute :=
    match x with AAttribute a => Ok (AMorph a m) | _ => Err AttributeError end.
  Definition attribute_const (v : pyval) (x : attribute) : res attribute :=
    match x with AAttribute a => Ok (AConst a v) | _ => Err AttributeError end.
  (** interpretation/attribute.py 74-75, 93-94, 107-108, 138-143. *)
  Definition attribute_custom (f : function) (x : attribute) : res attribute :=
    match x with
    | AAttribute a => Ok (AFunction a f)
    | AMorph a m => Ok (AMorphFunction a m f)
    | AFunction a f' => Ok (AFunctionFunction a f' f)
    | _ => Err AttributeError
    end.

  (** ** Interpretators *)
  Inductive interpretator :=
  | IFact (sc : nat)
  | IAttr (a : attr)
  | INorm (n : normalizer)
  | IAttrNorm (a : attr) (n : normalizer).

  (** interpretation/interpretator.py 232-239, with the properties [normalizer] of
      interpretation/attribute.py 96-98, 110-112, 126-128, 145-147, 158-160, 171-176, 186-191. *)
  Definition attribute_interpretator (x : attribute) : interpretator :=
    match x with
    | AAttribute a | ARepeatable a => IAttr a
    | AMorph a m => IAttrNorm a (NMorph m)
    | AConst a v => IAttrNorm a (NConst v)
    | AFunction a f => IAttrNorm a (NFunction f)
    | AFunctionFunction a f g => IAttrNorm a (NFunctionFunction f g)
    | AMorphFunction a m f => IAttrNorm a (NMorphFunction m f)
    end.

  (** The argument of [.interpretation(...)]; [GOther] is anything else. *)
  Inductive given :=
  | GInterpretator (i : interpretator)
  | GFact (sc : nat)
  | GAttribute (x : attribute)
  | GNormalizer (n : normalizer)
  | GOther.

  (** interpretation/interpretator.py 242-248: [predicate.interpretation]. *)
  Definition token_interpretator (x : given) : res interpretator :=
    match x with
    | GAttribute x => Ok (attribute_interpretator x)
    | GNormalizer n => Ok (INorm n)
    | _ => Err TypeError
    end.
  (** interpretation/interpretator.py 251-261: [rule.interpretation]. *)
  Definition rule_interpretator (x : given) : res interpretator :=
    match x with
    | GInterpretator i => Ok i
    | GFact sc => Ok (IFact sc)
    | GAttribute x => Ok (attribute_interpretator x)
    | GNormalizer n => Ok (INorm n)
    | GOther => Err TypeError
    end.

  (** [all(is_token(_) for _ in items)], and the tokens. *)
  Fixpoint all_tokens (items : list item) : option (list token) :=
    match items with
    | [] => Some []
    | IToken t :: items' =>
        match all_tokens items' with Some ts => Some (t :: ts) | None => None end
    | IResult _ :: _ => None
    end.

  (** interpretation/interpretator.py 138-148. *)
  Definition fact_item (sc : nat) (acc : res ifact) (i : item) : res ifact :=
    let! f := acc in
    match i with
    | IResult (RAttr v a) => if subclass sc (a_fact a) then fact_set (a_name a) v f else Ok f
    | IResult (RFact (mkFact sc' rep chg attrs)) =>
        if subclass sc' sc then fact_merge (mkFact sc' rep chg attrs) f else Ok f
    | _ => Ok f
    end.
  Definition call_fact (sc : nat) (items : list item) : res result :=
    let! f := fold_left (fact_item sc) items (Ok (new_fact sc)) in Ok (RFact f).

  (** interpretation/interpretator.py 161-178. *)
  Definition call_attribute (a : attr) (items : list item) (key : option str) : res result :=
    match all_tokens items with
    | Some ts => Ok (RAttr (RChain ts key) a)
    | None =>
        match items with
        | [IResult (RAttr v _)] => Ok (RAttr v a)
        | [IResult (RNorm v i)] => Ok (RAttr (RNorm v i) a)
        | [IResult (RFact f)] => Ok (RAttr (RFact f) a)
        | _ => Err TypeError
        end
    end.

  (** interpretation/interpretator.py 191-206. *)
  Definition call_norm (n : normalizer) (items : list item) (key : option str) : res result :=
    match n with
    | NConst v => Ok (RNorm v (NInput items key))
    | _ =>
        match all_tokens items with
        | Some ts =>
            let! v := call_normalizer n (RChain ts key) in Ok (RNorm v (NResult (RChain ts key)))
        | None =>
            match items with
            | [IResult r] => let! v := call_normalizer n r in Ok (RNorm v (NResult r))
            | _ => Err TypeError
            end
        end
    end.

  (** interpretation/interpretator.py 220-222 for the last case. *)
  Definition call_interpretator (i : interpretator) (items : list item) (key : option str) :
      res result :=
    match i with
    | IFact sc => call_fact sc items
    | IAttr a => call_attribute a items key
    | INorm n => call_norm n items key
    | IAttrNorm a n => let! r := call_norm n items key in Ok (RAttr r a)
    end.

  (** ** Interpretation of a tree *)
  Section Tree.
    Context {pred : Type}.
    Notation node := (node token pred).
    Variable g : grammar token pred.
    (** The interpretator objects named by the rules. *)
    Variable interps : nat -> interpretator.

    (** tree/constructors.py 102-104, 141. *)
    Definition has_interp (n : node) : bool :=
      match n with
      | Leaf _ _ _ _ => false
      | Node _ r _ _ _ => match g_interp g r with Some _ => true | None => false end
      end.
    Definition is_leaf (n : node) : bool :=
      match n with Leaf _ _ _ _ => true | _ => false end.

    (** tree/transformators.py 71-77. *)
    Fixpoint flatten (n : node) : list node :=
      match n with
      | Leaf _ _ _ _ => []
      | Node _ _ _ _ ch =>
          flat_map (fun child => if is_leaf child || has_interp child then [child] else flatten child) ch
      end.

    (** tree/transformators.py 79-89 and 43-44.  A node without an interpretation
        gives None in Python (the result of the superclass is not returned), on
        which the next visitor raises ValueError.  Outer [None]: fuel exhausted. *)
    Fixpoint keep_visit (fuel : nat) (n : node) : option (res node) :=
      match fuel with
      | O => None
      | S fuel' =>
          match n with
          | Leaf _ _ _ _ => Some (Ok n)
          | Node id r q rank ch =>
              if has_interp n then
                match fold_right (fun c acc =>
                        match keep_visit fuel' c, acc with
                        | Some x, Some xs => Some (let! y := x in let! ys := xs in Ok (y :: ys))
                        | _, _ => None
                        end) (Some (Ok [])) (flatten n) with
                | Some ch' => Some (let! ch' := ch' in Ok (Node id r q rank ch'))
                | None => None
                end
              else Some (Err ValueError)
          end
      end.

    (** The same visit written directly: what each node contributes to the
        nearest interpreted node above it.  [keep_visit] computes it
        (InterpProofs.v, [keep_visit_kept]). *)
    Fixpoint kept (n : node) : list node :=
      match n with
      | Leaf _ _ _ _ => [n]
      | Node id r q rank ch =>
          let ch' := flat_map kept ch in
          if has_interp n then [Node id r q rank ch'] else ch'
      end.

    (** tree/transformators.py 66-69. *)
    Definition keep (root : node) : res node :=
      if has_interp root then
        match kept root with [n] => Ok n | _ => Err ValueError end
      else Err ValueError.

    Variable s : store.

    (** tree/transformators.py 96-103: [item.interpretator(input)], [input.key]
        for the production of a pipeline.  [None] is not callable. *)
    Fixpoint visit_interp (n : node) : res item :=
      match n with
      | Leaf id _ _ tk => Ok (IToken (leaf_token s id tk))
      | Node _ r q _ ch =>
          let! items := mapM visit_interp ch in
          match g_interp g r with
          | Some i =>
              let! res := call_interpretator (interps i) items (g_key g q) in Ok (IResult res)
          | None => Err TypeError
          end
      end.

    (** tree/constructors.py 37-45.  The root is a node, never a leaf. *)
    Definition interpret (root : node) : res result :=
      let! n := keep root in
      let! i := visit_interp n in
      match i with IResult r => Ok r | IToken _ => Err AttributeError end.

    (** parser.py 188-191. *)
    Definition match_fact (m : @amatch pred) : res pyval :=
      let! r := interpret (m_root m) in normalized_result r.
  End Tree.
End Interp.
