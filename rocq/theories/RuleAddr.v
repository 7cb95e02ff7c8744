(** Rule transformations with the ids the code really uses.

    In RuleModel.v the dictionary of a RuleTransformator is keyed by the number of the
    object.  The code keys it by [id(item)] (yargy/rule/transformators.py 68-75), the
    address of the object, and an address may be given out again once its object is gone.
    Here [addr] gives the address of each object; the visit_ methods are those of
    RuleModel.v. *)
From Verif Require Import Base TokenModel EarleyModel PredicateModel PipelineModel RuleModel RuleSpec GrammarModel.
Open Scope nat_scope.

Section Addr.
  Context {pred pipe bnf : Type}.
  Notation obj := (obj pred pipe bnf).
  Notation heap := (heap pred pipe bnf).
  Notation state := (state pred pipe bnf).
  Notation M := (M pred pipe bnf).
  Notation visitor := (visitor pred pipe bnf).
  Variable addr : nat -> nat.

  (** rule/constructors.py 146-155: [visited] holds ids. *)
  Fixpoint enqueue_at (cs queue visited : list nat) : list nat * list nat :=
    match cs with
    | [] => (queue, visited)
    | c :: cs' => if is_in (addr c) visited then enqueue_at cs' queue visited else enqueue_at cs' (queue ++ [c]) (addr c :: visited)
    end.
  Fixpoint walk_loop_at (fuel : nat) (act : nat -> M unit) (queue visited : list nat) : M unit :=
    match queue with
    | [] => ret tt
    | x :: queue' =>
        match fuel with
        | O => no_fuel
        | S fuel' =>
            bindM (act x) (fun _ =>
            bindM (get x) (fun o =>
            let (queue'', visited') := enqueue_at (children o) queue' visited in
            walk_loop_at fuel' act queue'' visited'))
        end
    end.

  Section Visit.
    Variable method : visitor -> nat -> obj -> M nat.
    (** rule/transformators.py 68-75. *)
    Fixpoint visit_at (fuel : nat) (p : nat) : M nat :=
      match fuel with
      | O => no_fuel
      | S fuel' =>
          bindM (recall (addr p)) (fun known =>
          match known with
          | Some r => ret r
          | None =>
              bindM (get p) (fun o =>
              bindM (method (visit_at fuel') p o) (fun r =>
              bindM (remember (addr p) r) (fun _ =>
              ret r)))
          end)
      end.
    (** rule/transformators.py 62-66. *)
    Definition define_visited_at (fuel : nat) (p : nat) : M unit :=
      bindM (get p) (fun o =>
      match o with
      | OForward (Some r) => bindM (visit_at fuel r) (fun r' => define p r')
      | _ => ret tt
      end).
    Definition transform_walk_at (fuel root : nat) : M nat :=
      bindM (walk_loop_at fuel (define_visited_at fuel) [root] [addr root]) (fun _ => visit_at fuel root).
  End Visit.
  Definition run_visit_at (method : visitor -> nat -> obj -> M nat) (fuel : nat) (h : heap) (root : nat) : option (res (nat * heap)) :=
    match transform_walk_at method fuel root (mkState h []) with
    | Some (Ok (r, s)) => Some (Ok (r, st_heap s))
    | Some (Err e) => Some (Err e)
    | None => None
    end.
  (** rule/constructors.py 103-117. *)
  Definition normalized_at (fuel : nat) (h : heap) (root : nat) : option (res (nat * heap)) :=
    then_ (run_visit_at squash_method fuel h root) (fun '(r, h) =>
    then_ (run_visit_at replace_extended_method fuel h r) (fun '(r, h) =>
    then_ (run_visit_at replace_or_method fuel h r) (fun '(r, h) =>
    then_ (run_visit_at replace_empty_method fuel h r) (fun '(r, h) =>
    run_visit_at (flatten_method fuel) fuel h r)))).
  (** rule/bnf.py 94-103, rule/transformators.py 62-66; the ids counted there belong to objects alive at the same
      time. *)
  Variable pipe_bnf : pipe -> res bnf.
  Variable bnf_lines : bnf -> list (str * list pred).
  Definition to_bnf_at (fuel : nat) (h : heap) (root : nat) : option (res (nat * heap)) :=
    match bfs fuel h root with
    | Some objects => run_visit_at (bnf_method pipe_bnf bnf_lines (count_parents h objects)) fuel h root
    | None => None
    end.
  Definition as_bnf_at (fuel : nat) (h : heap) (root : nat) : option (res (nat * heap)) :=
    then_ (to_bnf_at fuel h root) (fun '(r, h) =>
    then_ (run_inplace remove_forward_visit fuel h r) (fun '(r, h) =>
    match nth_error h r with
    | Some o =>
        if is_bnf o then
          match bfs fuel h r with
          | Some objects => Some (Ok (r, generate_names (bnf_rules h objects) 0 h))
          | None => None
          end
        else None
    | None => None
    end)).
End Addr.

(** parser.py 252-255. *)
Definition parser_grammar_at (addr : nat -> nat) (U : unicode) (set_order : list str -> list str) (c : context) (fuel : nat) (h : rule_heap) (root : nat) :
    option (res (grammar token predicate)) :=
  then_ (activate_rule c fuel h root) (fun '(r, h) =>
  then_ (normalized_at addr fuel h r) (fun '(r, h) =>
  then_ (as_bnf_at addr (pipeline_as_bnf U set_order) b_productions fuel h r) (fun '(r, h') =>
  match bfs fuel h' r with
  | Some objects => Some (Ok (restrict objects (grammar_of (pipeline_predict U set_order) h' r)))
  | None => None
  end))).

(** The heap when object [q] was about to be created, during a pass that started with [h]
    and ended with [h']: forward rules defined later still have their old definition. *)
Definition heap_at (h h' : rule_heap) (q : nat) : rule_heap :=
  map (fun x => match nth_error h' x with
                | Some (OForward (Some d)) => if Nat.leb q d then match nth_error h x with Some o => o | None => OForward None end else OForward (Some d)
                | Some o => o
                | None => OEmpty
                end) (seq 0 q).
(** Object [p] is gone when the pass creates object [q]: its visit is over (the result is
    older than [q]), it is not reachable from the root of the pass, and nothing made by the
    pass refers to it. *)
Definition gone (addr : nat -> nat) method (fuel : nat) (h : rule_heap) (root : nat) (p q : nat) : Prop :=
  exists r s, transform_walk_at addr method fuel root (mkState h []) = Some (Ok (r, s)) /\ length h <= q < length (st_heap s) /\
    (exists r', In (addr p, r') (st_visited s) /\ r' < q) /\
    ~ reach (heap_at h (st_heap s) q) root p /\
    (forall x o, length h <= x < q -> nth_error (st_heap s) x = Some o -> ~ In p (children o)).
(** The allocator gives [q] the address of an earlier object only if that object was made
    by the library, after the rules of the program (of which there are [n]), and is gone. *)
Definition reuses_when_gone (addr : nat -> nat) (n : nat) method (fuel : nat) (h : rule_heap) (root : nat) : Prop :=
  forall p q, p < q -> addr p = addr q -> n <= p /\ gone addr method fuel h root p q.
