(** Model of Match and of extract/findall/find/match of yargy/parser.py. *)
From Verif Require Import Base TokenModel EarleyModel TreeModel SpanModel.

Section Parser.
  Context {pred : Type}.
  Variable accepts : pred -> token -> bool.
  Variable constrain : pred -> token -> token.
  Variable rel : nat -> form -> form -> bool.
  Variable g : grammar token pred.

  Notation node := (node token pred).
  Notation store := (@store).

  (** parser.py 176-182: a match remembers its (normalized) tree, the range in
      columns, the tokens and their span at construction time. *)
  Record amatch := mkMatch {
    m_root : node;
    m_range : nat * nat;
    m_tokens : list token;
    m_span : Z * Z }.

  (** parser.py 194-199. *)
  Definition tree := (node * (nat * nat))%type.
  Definition prepare_trees (states : list (state token pred)) : list tree :=
    map (fun s => (state_node s, (s_start s, s_stop s))) states.

  (** parser.py 202-207.  [None] as the tree's root (everything was empty): the
      visitor finds no method for NoneType and raises ValueError
      (visitor.py 5-17). *)
  Definition prepare_match (t : tree) (s : store) : res (store * option amatch) :=
    let '(root, range) := t in
    match propagate root with
    | None => Err ValueError
    | Some root =>
        let! gr := tree_relations g s root in
        let (gr, valid) := validate rel gr in
        if valid then
          let! s := apply_relations gr s root in
          let tokens := tree_tokens s root in
          let! span := get_tokens_span tokens in
          Ok (s, Some (mkMatch root range tokens span))
        else Ok (s, None)
    end.

  (** parser.py 210-214, a generator: the matches yielded, the final store, and
      the exception that ended the generator, if any. *)
  Fixpoint prepare_matches (trees : list tree) (s : store) :
      list amatch * store * option exn :=
    match trees with
    | [] => ([], s, None)
    | t :: trees' =>
        match prepare_match t s with
        | Err e => ([], s, Some e)
        | Ok (s', None) => prepare_matches trees' s'
        | Ok (s', Some m) =>
            let '(ms, s'', e) := prepare_matches trees' s' in (m :: ms, s'', e)
        end
    end.

  (** The first match of the generator; it is not advanced further. *)
  Fixpoint first_match (trees : list tree) (s : store) : res (store * option amatch) :=
    match trees with
    | [] => Ok (s, None)
    | t :: trees' =>
        let! (s', m) := prepare_match t s in
        match m with
        | Some m => Ok (s', Some m)
        | None => first_match trees' s'
        end
    end.

  Definition range_eqb (a b : nat * nat) : bool :=
    Nat.eqb (fst a) (fst b) && Nat.eqb (snd a) (snd b).
  Fixpoint lookup_range (r : nat * nat) (l : list ((nat * nat) * amatch)) : option amatch :=
    match l with
    | [] => None
    | (r', m) :: l' => if range_eqb r r' then Some m else lookup_range r l'
    end.

  (** parser.py 217-226: the dictionary [span_matches] (and the list [spans], its
      keys in insertion order). *)
  Fixpoint collect (trees : list tree) (acc : list ((nat * nat) * amatch)) (s : store) :
      res (store * list ((nat * nat) * amatch)) :=
    match trees with
    | [] => Ok (s, acc)
    | t :: trees' =>
        match lookup_range (snd t) acc with
        | Some _ => collect trees' acc s
        | None =>
            let! (s', m) := prepare_match t s in
            match m with
            | Some m => collect trees' (acc ++ [(snd t, m)]) s'
            | None => collect trees' acc s'
            end
        end
    end.

  Definition zrange (r : nat * nat) : Z * Z := (Z.of_nat (fst r), Z.of_nat (snd r)).

  (** parser.py 217-229. *)
  Definition prepare_resolved_matches (trees : list tree) (s : store) :
      res (store * list amatch) :=
    let! (s', found) := collect trees [] s in
    let! spans := resolve_spans (map (fun p => zrange (fst p)) found) in
    let! ms := mapM (fun sp =>
        match lookup_range (Z.to_nat (fst sp), Z.to_nat (snd sp)) found with
        | Some m => Ok m
        | None => Err KeyError
        end) spans in
    Ok (s', ms).

  (** [sorted(trees)] with [Tree.__lt__], which may raise: insertion of each
      element from the left. *)
  Fixpoint insert_tree (x : tree) (l : list tree) : res (list tree) :=
    match l with
    | [] => Ok [x]
    | y :: l' =>
        let! b := tree_lt x y in
        if b then Ok (x :: y :: l')
        else let! r := insert_tree x l' in Ok (y :: r)
    end.
  Fixpoint sort_trees (l acc : list tree) : res (list tree) :=
    match l with
    | [] => Ok acc
    | x :: l' => let! acc' := insert_tree x acc in sort_trees l' acc'
    end.

  (** [None]: the chart loops ran out of fuel. *)
  Variable fuel : nat.
  (** The tokens of the text, after the tagger. *)
  Variable toks : list token.

  (** parser.py 275-281. *)
  Definition parse (all : bool) : option (list tree) :=
    match chart accepts constrain g toks fuel all with
    | Some st => Some (prepare_trees (matches g toks all st))
    | None => None
    end.

  (** parser.py 283-286, fully consumed. *)
  Definition extract (all : bool) : option (list amatch * store * option exn) :=
    match parse all with
    | Some trees => Some (prepare_matches trees [])
    | None => None
    end.

  (** parser.py 288-292. *)
  Definition findall : option (res (store * list amatch)) :=
    match parse true with
    | Some trees =>
        Some (let! sorted := sort_trees trees [] in prepare_resolved_matches sorted [])
    | None => None
    end.

  (** parser.py 294-296: the generator of findall has computed everything before
      its first yield. *)
  Definition find : option (res (store * option amatch)) :=
    match findall with
    | Some r => Some (let! (s, ms) := r in Ok (s, hd_error ms))
    | None => None
    end.

  (** parser.py 298-303. *)
  Definition match_ : option (res (store * option amatch)) :=
    match parse false with
    | Some trees =>
        Some (let! sorted := sort_trees trees [] in first_match sorted [])
    | None => None
    end.
End Parser.
