(** Model of the chart construction of yargy/parser.py (Chart, Column, State,
    Parser.chart/predict/scan/complete/matches) and of the tree nodes it builds
    (yargy/tree/constructors.py, Node and Leaf).

    Objects that the code compares by [id(...)] carry explicit numbers:
    - rules and productions are numbers (one number per Python object);
    - nodes and leaves carry the identity given to them when allocated.
    Tokens are abstract; a predicate is anything with [accepts] and
    [constrain].  Lists that the code mutates while iterating over them are
    re-read at every iteration. *)
From Verif Require Import Base.

(** An element of [Production.terms]: a BNF rule object or a predicate. *)
Inductive term (pred : Type) :=
| TRule (r : nat)
| TPred (p : pred).
Arguments TRule {pred} r.
Arguments TPred {pred} p.

(** A BNF grammar (rule/bnf.py 45-59, rule/constructors.py 28-34): for each rule
    object its list of production objects and the result of
    [rule.predict(token)]; for each production object its terms, its [main]
    index and, for a PipelineProduction, its key ([value]); for each rule its
    [relation] and [interpretator] objects. *)
Record grammar (token pred : Type) := mkGrammar {
  g_prods : nat -> list nat;
  g_predict : nat -> token -> list nat;
  g_terms : nat -> list (term pred);
  g_main : nat -> nat;
  g_key : nat -> option str;
  g_relation : nat -> option nat;
  g_interp : nat -> option nat;
  g_start : nat }.
Arguments mkGrammar {token pred}.
Arguments g_prods {token pred}. Arguments g_predict {token pred}.
Arguments g_terms {token pred}. Arguments g_main {token pred}.
Arguments g_key {token pred}. Arguments g_relation {token pred}.
Arguments g_interp {token pred}. Arguments g_start {token pred}.

(** tree/constructors.py 81-154.  [pos] is the number of the token in the text
    (it identifies the Token object the leaf was made from). *)
Inductive node (token pred : Type) :=
| Leaf (id pos : nat) (p : pred) (tk : token)
| Node (id rule prod rank : nat) (children : list (node token pred)).
Arguments Leaf {token pred} id pos p tk.
Arguments Node {token pred} id rule prod rank children.

Definition node_id {token pred} (n : node token pred) : nat :=
  match n with Leaf id _ _ _ => id | Node id _ _ _ _ => id end.

(** parser.py 127-136.  The node of a state is always a [Node] for the state's
    rule and production, so its fields are kept inline. *)
Record state (token pred : Type) := mkState {
  s_rule : nat; s_prod : nat; s_dot : nat;
  s_start : nat; s_stop : nat;
  s_id : nat; s_rank : nat; s_children : list (node token pred) }.
Arguments mkState {token pred}.
Arguments s_rule {token pred}. Arguments s_prod {token pred}.
Arguments s_dot {token pred}. Arguments s_start {token pred}.
Arguments s_stop {token pred}. Arguments s_id {token pred}.
Arguments s_rank {token pred}. Arguments s_children {token pred}.

Definition state_node {token pred} (s : state token pred) : node token pred :=
  Node (s_id s) (s_rule s) (s_prod s) (s_rank s) (s_children s).

Fixpoint nats_eqb (a b : list nat) : bool :=
  match a, b with
  | [], [] => true
  | x :: a', y :: b' => Nat.eqb x y && nats_eqb a' b'
  | _, _ => false
  end.

(** parser.py 138-143: the tuple hashed by [State.__hash__].  The model
    compares the tuples themselves; [HashModel] compares hash values. *)
Definition same_key {token pred} (a b : state token pred) : bool :=
  Nat.eqb (s_rule a) (s_rule b) && Nat.eqb (s_prod a) (s_prod b) &&
  Nat.eqb (s_dot a) (s_dot b) && Nat.eqb (s_start a) (s_start b) &&
  Nat.eqb (s_stop a) (s_stop b) &&
  nats_eqb (map node_id (s_children a)) (map node_id (s_children b)).

(** The chart: for each column number the list [Column.states], in order of
    insertion, and the next object identity.  [Column.states_index] is not
    stored: it is the sub-list of states expecting a rule, in the same order
    (see [expecting]). *)
Record cst (token pred : Type) := mkCst {
  cols : nat -> list (state token pred);
  fresh : nat }.
Arguments mkCst {token pred}.
Arguments cols {token pred}. Arguments fresh {token pred}.

Section Chart.
  Context {token pred : Type}.
  Variable accepts : pred -> token -> bool.
  Variable constrain : pred -> token -> token.
  Variable g : grammar token pred.
  (** The tokens of the text; column [k>0] holds token [k-1]
      (parser.py 29-31). *)
  Variable toks : list token.

  Notation state := (state token pred).
  Notation cst := (cst token pred).

  (** parser.py 25-31. *)
  Definition init_cst : cst := mkCst (fun _ => []) 0.

  (** parser.py 88-93: append unless the key is already present. *)
  Definition append (k : nat) (s : state) (st : cst) : cst :=
    if existsb (same_key s) (cols st k) then st
    else mkCst (fun i => if Nat.eqb i k then cols st k ++ [s] else cols st i)
               (fresh st).

  Definition alloc (st : cst) : cst := mkCst (cols st) (S (fresh st)).

  (** parser.py 149-151 (None: parser.py 145-147, the state is completed). *)
  Definition next_term (s : state) : option (term pred) :=
    nth_error (g_terms g (s_prod s)) (s_dot s).

  Definition completed (s : state) : bool :=
    match next_term s with None => true | Some _ => false end.

  (** parser.py 95-99 and 153-155: [column.states_index[id(rule)]]. *)
  Definition expects (r : nat) (s : state) : bool :=
    match next_term s with Some (TRule r') => Nat.eqb r r' | _ => false end.
  Definition expecting (k r : nat) (st : cst) : list state :=
    filter (expects r) (cols st k).

  (** parser.py 306-310: the productions predicted for a rule in column [k]. *)
  Definition predicted (k r : nat) : list nat :=
    match nth_error toks k with
    | Some t => g_predict g r t
    | None => g_prods g r
    end.

  (** parser.py 305-324. *)
  Fixpoint predict_loop (k r rank : nat) (prods : list nat) (st : cst) : cst :=
    match prods with
    | [] => st
    | p :: prods' =>
        let s := mkState r p 0 k k (fresh st) rank [] in
        predict_loop k r (S rank) prods' (append k s (alloc st))
    end.
  Definition predict (k r : nat) (st : cst) : cst :=
    predict_loop k r 0 (predicted k r) st.

  (** parser.py 326-337; [k] is the column of the scanned state, the new state
      goes to column [k+1].  Two objects are allocated: the leaf and the new
      node. *)
  Definition scan (k : nat) (p : pred) (t : token) (s : state) (st : cst) : cst :=
    if accepts p t then
      let leaf := Leaf (fresh st) k p (constrain p t) in
      let st1 := alloc st in
      let s' := mkState (s_rule s) (s_prod s) (S (s_dot s)) (s_start s) (S k)
                  (fresh st1) (s_rank s) (s_children s ++ [leaf]) in
      append (S k) s' (alloc st1)
    else st.

  (** parser.py 341-347: the parent advanced over the completed state. *)
  Definition advance (k : nat) (parent completed : state) (id : nat) : state :=
    mkState (s_rule parent) (s_prod parent) (S (s_dot parent)) (s_start parent) k
      id (s_rank parent) (s_children parent ++ [state_node completed]).

  (** parser.py 339-348: the list of parents is live (it grows when the
      completed state is empty and started in this column); [j] is the position
      of the list iterator. *)
  Fixpoint complete_loop (fuel k : nat) (s : state) (j : nat) (st : cst) : option cst :=
    match nth_error (expecting (s_start s) (s_rule s) st) j with
    | None => Some st
    | Some parent =>
        match fuel with
        | O => None
        | S fuel' =>
            complete_loop fuel' k s (S j)
              (append k (advance k parent s (fresh st)) (alloc st))
        end
    end.

  (** parser.py 265-272. *)
  Definition process (fuel k : nat) (s : state) (st : cst) : option cst :=
    match next_term s with
    | None => complete_loop fuel k s 0 st
    | Some (TRule r) => Some (predict k r st)
    | Some (TPred p) =>
        match nth_error toks k with
        | Some t => Some (scan k p t s st)
        | None => Some st
        end
    end.

  (** parser.py 264: iteration over the live list of states of column [k];
      [i] is the position of the list iterator. *)
  Fixpoint drain (fuel k i : nat) (st : cst) : option cst :=
    match nth_error (cols st k) i with
    | None => Some st
    | Some s =>
        match fuel with
        | O => None
        | S fuel' =>
            match process fuel k s st with
            | Some st' => drain fuel' k (S i) st'
            | None => None
            end
        end
    end.

  (** parser.py 262-263. *)
  Definition start_column (all : bool) (k : nat) (st : cst) : cst :=
    if Nat.eqb k 0 || all then predict k (g_start g) st else st.

  (** parser.py 257-273: columns [k, k+1, ..., k+n-1]. *)
  Fixpoint chart_from (fuel : nat) (all : bool) (k n : nat) (st : cst) : option cst :=
    match n with
    | O => Some st
    | S n' =>
        match drain fuel k 0 (start_column all k st) with
        | Some st' => chart_from fuel all (S k) n' st'
        | None => None
        end
    end.
  Definition chart (fuel : nat) (all : bool) : option cst :=
    chart_from fuel all 0 (S (length toks)) init_cst.

  (** parser.py 83-86. *)
  Definition column_matches (k : nat) (st : cst) : list state :=
    filter (fun s => completed s && Nat.eqb (s_rule s) (g_start g)) (cols st k).

  (** parser.py 33-36, 275-281. *)
  Definition matches (all : bool) (st : cst) : list state :=
    if all then flat_map (fun k => column_matches k st) (seq 0 (S (length toks)))
    else column_matches (length toks) st.
End Chart.

(** tree/constructors.py 122-133, the loop of [Node.__lt__] over the zipped
    children; [lt] is the comparison of two nodes.  A leaf has no [rank]
    attribute. *)
Definition children_lt {token pred} (lt : node token pred -> node token pred -> res bool) :=
  fix children (ca cb : list (node token pred)) : res bool :=
    match ca, cb with
    | x :: ca', y :: cb' =>
        match x with
        | Leaf _ _ _ _ => children ca' cb'
        | Node ix _ _ kx _ =>
            if Nat.eqb ix (node_id y) then children ca' cb'
            else match y with
                 | Leaf _ _ _ _ => Err AttributeError
                 | Node _ _ _ ky _ =>
                     if Nat.ltb kx ky then Ok true
                     else if Nat.ltb ky kx then Ok false
                     else lt x y
                 end
        end
    | _, _ => Ok false
    end.

(** tree/constructors.py 114-134, [Node.__lt__].  A leaf has no [rule]
    attribute. *)
Fixpoint node_lt {token pred} (a b : node token pred) {struct a} : res bool :=
  match a, b with
  | Node ia ra _ ka ca, Node ib rb _ kb cb =>
      if negb (Nat.eqb ra rb) then Err TypeError
      else if Nat.eqb ia ib then Ok false
      else if Nat.eqb ka kb then children_lt node_lt ca cb
      else Ok (Nat.ltb ka kb)
  | _, _ => Err AttributeError
  end.

(** tree/constructors.py 52-62, [Tree.__lt__]: a tree is a root with the pair
    (start column, stop column). *)
Definition tree_lt {token pred} (a b : node token pred * (nat * nat)) : res bool :=
  let '(ra, (sa, ea)) := a in
  let '(rb, (sb, eb)) := b in
  if Nat.eqb sa sb && Nat.eqb ea eb then node_lt ra rb
  else if Nat.eqb sa sb then Ok (Nat.ltb eb ea)
  else Ok (Nat.ltb sa sb).
