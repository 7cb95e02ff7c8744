(** The chart as parser.py stores it: every column keeps its states, the set of
    their hash values and the index of the states expecting a rule
    (yargy/parser.py 74-99), and a state is dropped when its *hash value* is
    already in the set, so two different states with one hash value are taken
    for the same state.  [EarleyModel] compares the hashed tuples instead and
    does not store the index.  The hash function of Python is a variable. *)
From Verif Require Import Base SpanModel EarleyModel TokenModel TreeModel ParserModel.
Open Scope nat_scope.

(** parser.py 138-143: the tuple given to [hash]. *)
Definition hash_key := (nat * nat * nat * nat * nat * list nat)%type.
Definition key_of {token pred} (s : state token pred) : hash_key :=
  (s_rule s, s_prod s, s_dot s, s_start s, s_stop s, map node_id (s_children s)).

(** parser.py 74-80: [states], [hashes], [states_index] of every column, and
    the next object identity. *)
Record hst (token pred : Type) := mkHst {
  h_states : nat -> list (state token pred);
  h_hashes : nat -> list Z;
  h_index : nat -> nat -> list (state token pred);
  h_fresh : nat }.
Arguments mkHst {token pred}.
Arguments h_states {token pred}. Arguments h_hashes {token pred}.
Arguments h_index {token pred}. Arguments h_fresh {token pred}.

Section Hashed.
  Context {token pred : Type}.
  (** Python's [hash] on tuples. *)
  Variable hash : hash_key -> Z.
  Variable accepts : pred -> token -> bool.
  Variable constrain : pred -> token -> token.
  Variable g : grammar token pred.
  Variable toks : list token.

  Notation state := (state token pred).
  Notation hst := (hst token pred).

  (** parser.py 25-31, 75-80. *)
  Definition hinit : hst := mkHst (fun _ => []) (fun _ => []) (fun _ _ => []) 0.

  Definition halloc (st : hst) : hst :=
    mkHst (h_states st) (h_hashes st) (h_index st) (S (h_fresh st)).

  (** parser.py 95-99. *)
  Definition update_index (k : nat) (s : state) (ix : nat -> nat -> list state) :
      nat -> nat -> list state :=
    if completed g s then ix
    else match next_term g s with
         | Some (TRule r) =>
             fun k' r' => if Nat.eqb k' k && Nat.eqb r' r then ix k' r' ++ [s] else ix k' r'
         | _ => ix
         end.

  (** parser.py 88-93. *)
  Definition happend (k : nat) (s : state) (st : hst) : hst :=
    let value := hash (key_of s) in
    if existsb (Z.eqb value) (h_hashes st k) then st
    else mkHst (fun i => if Nat.eqb i k then h_states st k ++ [s] else h_states st i)
               (fun i => if Nat.eqb i k then value :: h_hashes st k else h_hashes st i)
               (update_index k s (h_index st))
               (h_fresh st).

  (** parser.py 305-324. *)
  Fixpoint hpredict_loop (k r rank : nat) (prods : list nat) (st : hst) : hst :=
    match prods with
    | [] => st
    | p :: prods' =>
        let s := mkState r p 0 k k (h_fresh st) rank [] in
        hpredict_loop k r (S rank) prods' (happend k s (halloc st))
    end.
  Definition hpredict (k r : nat) (st : hst) : hst :=
    hpredict_loop k r 0 (predicted g toks k r) st.

  (** parser.py 326-337. *)
  Definition hscan (k : nat) (p : pred) (t : token) (s : state) (st : hst) : hst :=
    if accepts p t then
      let leaf := Leaf (h_fresh st) k p (constrain p t) in
      let st1 := halloc st in
      let s' := mkState (s_rule s) (s_prod s) (S (s_dot s)) (s_start s) (S k)
                  (h_fresh st1) (s_rank s) (s_children s ++ [leaf]) in
      happend (S k) s' (halloc st1)
    else st.

  (** parser.py 153-155, 339-348: the list of parents is the one stored in the
      index, and is live. *)
  Fixpoint hcomplete_loop (fuel k : nat) (s : state) (j : nat) (st : hst) : option hst :=
    match nth_error (h_index st (s_start s) (s_rule s)) j with
    | None => Some st
    | Some parent =>
        match fuel with
        | O => None
        | S fuel' =>
            hcomplete_loop fuel' k s (S j)
              (happend k (advance k parent s (h_fresh st)) (halloc st))
        end
    end.

  (** parser.py 265-272. *)
  Definition hprocess (fuel k : nat) (s : state) (st : hst) : option hst :=
    match next_term g s with
    | None => hcomplete_loop fuel k s 0 st
    | Some (TRule r) => Some (hpredict k r st)
    | Some (TPred p) =>
        match nth_error toks k with
        | Some t => Some (hscan k p t s st)
        | None => Some st
        end
    end.

  (** parser.py 264. *)
  Fixpoint hdrain (fuel k i : nat) (st : hst) : option hst :=
    match nth_error (h_states st k) i with
    | None => Some st
    | Some s =>
        match fuel with
        | O => None
        | S fuel' =>
            match hprocess fuel k s st with
            | Some st' => hdrain fuel' k (S i) st'
            | None => None
            end
        end
    end.

  (** parser.py 262-263. *)
  Definition hstart_column (all : bool) (k : nat) (st : hst) : hst :=
    if Nat.eqb k 0 || all then hpredict k (g_start g) st else st.

  (** parser.py 257-273. *)
  Fixpoint hchart_from (fuel : nat) (all : bool) (k n : nat) (st : hst) : option hst :=
    match n with
    | O => Some st
    | S n' =>
        match hdrain fuel k 0 (hstart_column all k st) with
        | Some st' => hchart_from fuel all (S k) n' st'
        | None => None
        end
    end.
  Definition hchart (fuel : nat) (all : bool) : option hst :=
    hchart_from fuel all 0 (S (length toks)) hinit.

  (** parser.py 83-86. *)
  Definition hcolumn_matches (k : nat) (st : hst) : list state :=
    filter (fun s => completed g s && Nat.eqb (s_rule s) (g_start g)) (h_states st k).

  (** parser.py 33-36, 275-281. *)
  Definition hmatches (all : bool) (st : hst) : list state :=
    if all then flat_map (fun k => hcolumn_matches k st) (seq 0 (S (length toks)))
    else hcolumn_matches (length toks) st.
End Hashed.

Section HashedParser.
  Context {pred : Type}.
  Variable hash : hash_key -> Z.
  Variable accepts : pred -> token -> bool.
  Variable constrain : pred -> token -> token.
  Variable rel : nat -> form -> form -> bool.
  Variable g : grammar token pred.
  Variable fuel : nat.
  Variable toks : list token.

  (** parser.py 275-281. *)
  Definition hparse (all : bool) : option (list (@tree pred)) :=
    match hchart hash accepts constrain g toks fuel all with
    | Some st => Some (prepare_trees (hmatches g toks all st))
    | None => None
    end.

  (** parser.py 283-286, fully consumed. *)
  Definition hextract (all : bool) : option (list (@amatch pred) * store * option exn) :=
    match hparse all with
    | Some trees => Some (prepare_matches rel g trees [])
    | None => None
    end.

  (** parser.py 288-292. *)
  Definition hfindall : option (res (store * list (@amatch pred))) :=
    match hparse true with
    | Some trees => Some (let! s := sort_trees trees [] in prepare_resolved_matches rel g s [])
    | None => None
    end.

  (** parser.py 298-303. *)
  Definition hmatch : option (res (store * option (@amatch pred))) :=
    match hparse false with
    | Some trees => Some (let! s := sort_trees trees [] in first_match rel g s [])
    | None => None
    end.
End HashedParser.
