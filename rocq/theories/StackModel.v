(** Python's stack: the recursive functions every parse tree goes through, with the number of frames
    that are left, and extract, findall, find and match of yargy/parser.py on top of them.

    A call of a Python function takes one frame (a list comprehension too before Python 3.12:
    [comp]); built-in functions take none.  When no frame is left RecursionError is raised, which
    nothing catches: [TooDeep].  [limit] is the number of frames left where a recursion is entered;
    the calls that lead there and the functions that do not recurse are not counted.  The chart is
    built without recursion. *)
From Verif Require Import Base TokenModel EarleyModel TreeModel SpanModel ParserModel.
Open Scope nat_scope.

(** A call returns, raises, or does not fit on the stack. *)
Inductive run (A : Type) := Returns (r : res A) | TooDeep.
Arguments Returns {A} r.
Arguments TooDeep {A}.
Definition run_bind {A B} (x : run A) (f : A -> run B) : run B :=
  match x with Returns (Ok a) => f a | Returns (Err e) => Returns (Err e) | TooDeep => TooDeep end.

Section Stack.
  Context {pred : Type}.
  Notation node := (node token pred).
  Variable comp : nat.

  (** visitor.py 15-16, tree/transformators.py 38-62: visit (which first calls resolve_method),
      visit_Leaf; or visit, visit_Node, visit_children, the comprehension, and visit for the
      children.  [None]: no frame left. *)
  Fixpoint propagate_within (limit : nat) (n : node) {struct n} : option (option node) :=
    match limit with
    | S (S l) =>
        match n with
        | Leaf _ _ _ _ => Some (Some n)
        | Node id r q rank ch =>
            match l with
            | O => None
            | S l' =>
                if Nat.ltb l' comp then None else
                match (fix each (cs : list node) : option (list node) :=
                         match cs with
                         | [] => Some []
                         | c :: cs' =>
                             match propagate_within (l' - comp) c with
                             | None => None
                             | Some x => match each cs' with
                                         | None => None
                                         | Some ys => Some (match x with Some y => y :: ys | None => ys end)
                                         end
                             end
                         end) ch with
                | None => None
                | Some [] => Some None
                | Some ch' => Some (Some (Node id r q rank ch'))
                end
            end
        end
    | _ => None
    end.

  (** tree/constructors.py 99-100, 149-150: one frame per level. *)
  Section Main.
    Variable g_main : nat -> nat.
    Variable s : store.
    Fixpoint main_within (limit : nat) (n : node) {struct n} : run (nat * token) :=
      match limit with
      | O => TooDeep
      | S l =>
          match n with
          | Leaf id pos _ tk => Returns (Ok (pos, leaf_token s id tk))
          | Node _ _ q _ ch =>
              (fix nth_main (i : nat) (ch : list node) {struct ch} : run (nat * token) :=
                 match ch with
                 | [] => Returns (Err IndexError)
                 | c :: ch' => match i with O => main_within l c | S i' => nth_main i' ch' end
                 end) (g_main q) ch
          end
      end.
  End Main.

  (** tree/constructors.py 114-134: one frame per level and one for [is_leaf] (157-158). *)
  Definition children_lt_within (room : bool) (lt : node -> node -> run bool) :=
    fix children (ca cb : list node) : run bool :=
      match ca, cb with
      | x :: ca', y :: cb' =>
          if negb room then TooDeep else
          match x with
          | Leaf _ _ _ _ => children ca' cb'
          | Node ix _ _ kx _ =>
              if Nat.eqb ix (node_id y) then children ca' cb'
              else match y with
                   | Leaf _ _ _ _ => Returns (Err AttributeError)
                   | Node _ _ _ ky _ =>
                       if Nat.ltb kx ky then Returns (Ok true)
                       else if Nat.ltb ky kx then Returns (Ok false)
                       else lt x y
                   end
          end
      | _, _ => Returns (Ok false)
      end.
  Fixpoint node_lt_within (limit : nat) (a b : node) {struct a} : run bool :=
    match limit with
    | O => TooDeep
    | S l =>
        match a, b with
        | Node ia ra _ ka ca, Node ib rb _ kb cb =>
            if negb (Nat.eqb ra rb) then Returns (Err TypeError)
            else if Nat.eqb ia ib then Returns (Ok false)
            else if Nat.eqb ka kb then children_lt_within (Nat.ltb 0 l) (node_lt_within l) ca cb
            else Returns (Ok (Nat.ltb ka kb))
        | _, _ => Returns (Err AttributeError)
        end
    end.
  (** tree/constructors.py 52-62. *)
  Definition tree_lt_within (limit : nat) (a b : node * (nat * nat)) : run bool :=
    let '(ra, (sa, ea)) := a in
    let '(rb, (sb, eb)) := b in
    if Nat.eqb sa sb && Nat.eqb ea eb then node_lt_within limit ra rb
    else if Nat.eqb sa sb then Returns (Ok (Nat.ltb eb ea))
    else Returns (Ok (Nat.ltb sa sb)).

  Variable rel : nat -> form -> form -> bool.
  Variable g : grammar token pred.
  Variable limit : nat.

  (** tree/transformators.py 106-118. *)
  Definition visit_relation_within (s : store) (gr : run graph) (n : node) : run graph :=
    run_bind gr (fun gr =>
      match n with
      | Leaf _ _ _ _ => Returns (Ok gr)
      | Node _ r _ _ _ =>
          match g_relation g r with
          | None => Returns (Ok gr)
          | Some ro => run_bind (main_within (g_main g) s limit n) (fun '(pos, t) => Returns (graph_add ro pos t gr))
          end
      end).
  Definition tree_relations_within (s : store) (root : node) : run graph :=
    fold_left (visit_relation_within s) (walk root) (Returns (Ok empty_graph)).

  (** parser.py 202-207. *)
  Definition prepare_match_within (t : tree) (s : store) : run (store * option (@amatch pred)) :=
    let '(root, range) := t in
    match propagate_within limit root with
    | None => TooDeep
    | Some None => Returns (Err ValueError)
    | Some (Some root) =>
        run_bind (tree_relations_within s root) (fun gr =>
          Returns (let (gr, valid) := validate rel gr in
          if valid then
            let! s := apply_relations gr s root in
            let tokens := tree_tokens s root in
            let! span := get_tokens_span tokens in
            Ok (s, Some (mkMatch root range tokens span))
          else Ok (s, None)))
    end.

  (** How a generator ends. *)
  Inductive ending := Exhausted | Raised (e : exn) | OutOfStack.
  (** parser.py 210-214. *)
  Fixpoint prepare_matches_within (trees : list tree) (s : store) : list (@amatch pred) * store * ending :=
    match trees with
    | [] => ([], s, Exhausted)
    | t :: trees' =>
        match prepare_match_within t s with
        | TooDeep => ([], s, OutOfStack)
        | Returns (Err e) => ([], s, Raised e)
        | Returns (Ok (s', None)) => prepare_matches_within trees' s'
        | Returns (Ok (s', Some m)) =>
            let '(ms, s'', e) := prepare_matches_within trees' s' in (m :: ms, s'', e)
        end
    end.
  Fixpoint first_match_within (trees : list tree) (s : store) : run (store * option (@amatch pred)) :=
    match trees with
    | [] => Returns (Ok (s, None))
    | t :: trees' =>
        run_bind (prepare_match_within t s) (fun '(s', m) =>
        match m with
        | Some m => Returns (Ok (s', Some m))
        | None => first_match_within trees' s'
        end)
    end.
  (** parser.py 217-229; resolve_spans does not recurse. *)
  Fixpoint collect_within (trees : list tree) (acc : list ((nat * nat) * @amatch pred)) (s : store) : run (store * list ((nat * nat) * @amatch pred)) :=
    match trees with
    | [] => Returns (Ok (s, acc))
    | t :: trees' =>
        match lookup_range (snd t) acc with
        | Some _ => collect_within trees' acc s
        | None =>
            run_bind (prepare_match_within t s) (fun '(s', m) =>
            match m with
            | Some m => collect_within trees' (acc ++ [(snd t, m)]) s'
            | None => collect_within trees' acc s'
            end)
        end
    end.
  Definition prepare_resolved_within (trees : list tree) (s : store) : run (store * list (@amatch pred)) :=
    run_bind (collect_within trees [] s) (fun '(s', found) => Returns (
      let! spans := resolve_spans (map (fun p => zrange (fst p)) found) in
      let! ms := mapM (fun sp =>
          match lookup_range (Z.to_nat (fst sp), Z.to_nat (snd sp)) found with
          | Some m => Ok m
          | None => Err KeyError
          end) spans in
      Ok (s', ms))).

  (** [sorted(trees)]. *)
  Fixpoint insert_within (x : tree) (l : list tree) : run (list tree) :=
    match l with
    | [] => Returns (Ok [x])
    | y :: l' =>
        run_bind (tree_lt_within limit x y) (fun b =>
        if b then Returns (Ok (x :: y :: l'))
        else run_bind (insert_within x l') (fun r => Returns (Ok (y :: r))))
    end.
  Fixpoint sort_within (l acc : list tree) : run (list tree) :=
    match l with
    | [] => Returns (Ok acc)
    | x :: l' => run_bind (insert_within x acc) (fun acc' => sort_within l' acc')
    end.

  Variable accepts : pred -> token -> bool.
  Variable constrain : pred -> token -> token.
  Variable fuel : nat.
  Variable toks : list token.
  (** parser.py 283-286. *)
  Definition extract_within (all : bool) : option (list (@amatch pred) * store * ending) :=
    option_map (fun trees => prepare_matches_within trees []) (parse accepts constrain g fuel toks all).
  (** parser.py 288-292. *)
  Definition findall_within : option (run (store * list (@amatch pred))) :=
    option_map (fun trees => run_bind (sort_within trees []) (fun sorted => prepare_resolved_within sorted [])) (parse accepts constrain g fuel toks true).
  (** parser.py 294-296. *)
  Definition find_within : option (run (store * option (@amatch pred))) :=
    option_map (fun x => run_bind x (fun '(s, ms) => Returns (Ok (s, hd_error ms)))) findall_within.
  (** parser.py 298-303. *)
  Definition match_within : option (run (store * option (@amatch pred))) :=
    option_map (fun trees => run_bind (sort_within trees []) (fun sorted => first_match_within sorted [])) (parse accepts constrain g fuel toks false).
End Stack.
