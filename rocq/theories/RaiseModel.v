(** The parser with predicates that may raise (yargy/parser.py 257-337): an
    exception of [predicate(token)] or of [predicate.constrain(token)] leaves the
    loops at once.  [EarleyModel] takes such an exception as a refusal. *)
From Verif Require Import Base SpanModel EarleyModel TokenModel PredicateModel TreeModel ParserModel GrammarModel TextModel.
Open Scope nat_scope.

Section Raise.
  Context {token pred : Type}.
  Variable call : pred -> token -> res bool.
  Variable narrow : pred -> token -> res token.
  Variable g : grammar token pred.
  Variable toks : list token.

  Notation state := (state token pred).
  Notation cst := (cst token pred).

  (** parser.py 326-337. *)
  Definition rscan (k : nat) (p : pred) (t : token) (s : state) (st : cst) : res cst :=
    let! b := call p t in
    if (b : bool) then
      let! t' := narrow p t in
      let leaf := Leaf (fresh st) k p t' in
      let st1 := alloc st in
      let s' := mkState (s_rule s) (s_prod s) (S (s_dot s)) (s_start s) (S k)
                  (fresh st1) (s_rank s) (s_children s ++ [leaf]) in
      Ok (append (S k) s' (alloc st1))
    else Ok st.

  (** parser.py 265-272. *)
  Definition rprocess (fuel k : nat) (s : state) (st : cst) : option (res cst) :=
    match next_term g s with
    | None => option_map Ok (complete_loop g fuel k s 0 st)
    | Some (TRule r) => Some (Ok (predict g toks k r st))
    | Some (TPred p) =>
        match nth_error toks k with
        | Some t => Some (rscan k p t s st)
        | None => Some (Ok st)
        end
    end.

  (** parser.py 264. *)
  Fixpoint rdrain (fuel k i : nat) (st : cst) : option (res cst) :=
    match nth_error (cols st k) i with
    | None => Some (Ok st)
    | Some s =>
        match fuel with
        | O => None
        | S fuel' =>
            match rprocess fuel k s st with
            | Some (Ok st') => rdrain fuel' k (S i) st'
            | Some (Err e) => Some (Err e)
            | None => None
            end
        end
    end.

  (** parser.py 257-273. *)
  Fixpoint rchart_from (fuel : nat) (all : bool) (k n : nat) (st : cst) : option (res cst) :=
    match n with
    | O => Some (Ok st)
    | S n' =>
        match rdrain fuel k 0 (start_column g toks all k st) with
        | Some (Ok st') => rchart_from fuel all (S k) n' st'
        | Some (Err e) => Some (Err e)
        | None => None
        end
    end.
  Definition rchart (fuel : nat) (all : bool) : option (res cst) :=
    rchart_from fuel all 0 (S (length toks)) init_cst.
End Raise.

Section RaiseParser.
  Context {pred : Type}.
  Variable call : pred -> token -> res bool.
  Variable narrow : pred -> token -> res token.
  Variable rel : nat -> form -> form -> bool.
  Variable g : grammar token pred.
  Variable fuel : nat.
  Variable toks : list token.

  (** parser.py 275-281. *)
  Definition rparse (all : bool) : option (res (list (@tree pred))) :=
    match rchart call narrow g toks fuel all with
    | Some (Ok st) => Some (Ok (prepare_trees (matches g toks all st)))
    | Some (Err e) => Some (Err e)
    | None => None
    end.

  (** parser.py 288-292. *)
  Definition rfindall : option (res (store * list (@amatch pred))) :=
    match rparse true with
    | Some r => Some (let! trees := r in let! s := sort_trees trees [] in prepare_resolved_matches rel g s [])
    | None => None
    end.

  (** parser.py 294-296. *)
  Definition rfind : option (res (store * option (@amatch pred))) :=
    match rfindall with
    | Some r => Some (let! (s, ms) := r in Ok (s, hd_error ms))
    | None => None
    end.

  (** parser.py 298-303. *)
  Definition rmatch : option (res (store * option (@amatch pred))) :=
    match rparse false with
    | Some r => Some (let! trees := r in let! s := sort_trees trees [] in first_match rel g s [])
    | None => None
    end.

  (** parser.py 283-286: the call raises before a generator is made. *)
  Definition rextract (all : bool) : option (res (list (@amatch pred) * store * option exn)) :=
    match rparse all with
    | Some r => Some (let! trees := r in Ok (prepare_matches rel g trees []))
    | None => None
    end.
End RaiseParser.

(** A Parser on a text (parser.py 240-303, as in [TextModel]) with the predicates of
    predicates/bank.py. *)
Section RaiseText.
  Variable U : unicode.
  Variable set_order : list str -> list str.
  Variable c : context.
  Variable rel : nat -> form -> form -> bool.
  Variable fuel : nat.
  Variable h : rule_heap.
  Variable root : nat.
  Variable text : str.
  Notation on_text := (with_parser U set_order c fuel h root text).
  Definition raising_findall : option (res (store * list amatch)) :=
    on_text (fun g toks => rfindall (call U) constrain rel g fuel toks).
  Definition raising_find : option (res (store * option amatch)) :=
    on_text (fun g toks => rfind (call U) constrain rel g fuel toks).
  Definition raising_match : option (res (store * option amatch)) :=
    on_text (fun g toks => rmatch (call U) constrain rel g fuel toks).
  Definition raising_extract (all : bool) : option (res (list amatch * store * option exn)) :=
    on_text (fun g toks => rextract (call U) constrain rel g fuel toks all).
End RaiseText.
