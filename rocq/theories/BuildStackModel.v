(** Python's stack when a parser is built: the transformators of rule/transformators.py and
    rule/bnf.py, which recurse over the rule, with the number of frames that are left.

    As in StackModel.v a call of a Python function takes one frame, a list comprehension [comp]
    frames (one before Python 3.12, none since), built-in functions none; [room] is the number of
    frames left.  [no_fuel] stands for RecursionError, which nothing catches; the loops over
    walks, which do not recurse, keep the fuel of RuleModel.v.  The calls that lead to a
    transformator and the functions that call nothing in turn (constructors, assertions, rule(),
    or_(), resolve_method, lift, is_shared, as_bnf of pipelines) are not counted. *)
From Verif Require Import Base TokenModel EarleyModel PredicateModel PipelineModel RuleModel GrammarModel.
Open Scope nat_scope.

Section Within.
  Context {pred pipe bnf : Type}.
  Notation obj := (obj pred pipe bnf).
  Notation heap := (heap pred pipe bnf).
  Notation M := (M pred pipe bnf).
  Notation visitor := (visitor pred pipe bnf).
  Notation "'do' x '<-' a ';;' b" := (bindM a (fun x => b)) (at level 200, x pattern, a at level 100, b at level 200).
  Variable comp : nat.

  (** A computation that takes [k] frames. *)
  Definition frames {A} (k room : nat) (m : M A) : M A := if Nat.ltb room k then no_fuel else m.

  Section Visit.
    (** The methods of a transformator: self.visit with the frames left where it is called, and
        the frames left where the method is called. *)
    Variable method : (nat -> visitor) -> nat -> nat -> obj -> M nat.
    (** rule/transformators.py 68-75. *)
    Fixpoint visit_within (fuel room : nat) (p : nat) : M nat :=
      match fuel with
      | O => no_fuel
      | S fuel' =>
          frames 1 room (
          do known <- recall p ;;
          match known with
          | Some r => ret r
          | None =>
              do o <- get p ;;
              do r <- method (visit_within fuel') (room - 1) p o ;;
              do _ <- remember p r ;;
              ret r
          end)
      end.
    (** rule/transformators.py 62-66. *)
    Definition define_visited_within (fuel limit : nat) (p : nat) : M unit :=
      do o <- get p ;;
      match o with
      | OForward (Some r) => do r' <- visit_within fuel limit r ;; define p r'
      | _ => ret tt
      end.
    Definition run_visit_within (fuel limit : nat) (h : heap) (root : nat) : option (res (nat * heap)) :=
      match (do _ <- walk fuel (define_visited_within fuel limit) root ;; visit_within fuel limit root) (mkState h []) with
      | Some (Ok (r, s)) => Some (Ok (r, st_heap s))
      | Some (Err e) => Some (Err e)
      | None => None
      end.
  End Visit.

  (** A method that takes [need] frames in all and calls self.visit under [below] of its own. *)
  Definition framed (need below : obj -> nat) (method : visitor -> nat -> obj -> M nat) (v : nat -> visitor) (room p : nat) (o : obj) : M nat :=
    frames (need o) room (method (v (room - below o)) p o).

  (** rule/transformators.py 77-142: the method; for rules and productions the comprehension; for
      the terms of a production visit_term. *)
  Definition base_frames (o : obj) : nat :=
    match o with
    | OProd [] _ => 1 + comp
    | OProd _ _ => 2 + comp
    | ORule _ | OBNF _ _ | OPipeBNF _ _ _ | OOr _ => 1 + comp
    | _ => 1
    end.
  (** rule/transformators.py 217-272: bounds on a repeatable rule go through visit_BoundedRule. *)
  Definition squash_within (v : nat -> visitor) (room p : nat) (o : obj) : M nat :=
    match o with
    | OMin r _ _ | OMax r _ _ | OMinMax r _ _ _ =>
        do child <- get r ;;
        let k := match child with ORepeatable _ _ | ORepOpt _ _ _ => 2 | _ => 1 end in
        framed (fun _ => k) (fun _ => k) squash_method v room p o
    | _ => framed base_frames base_frames squash_method v room p o
    end.
  (** rule/transformators.py 308-321, 372-410: max_bound calls itself; repeat has a comprehension. *)
  Definition extended_frames (o : obj) : nat :=
    match o with
    | OMax _ max _ => 1 + max
    | OMinMax _ min max _ => 1 + Nat.max (1 + comp) (max - min + 1)
    | OMin _ _ _ => 2 + comp
    | OOptional _ _ | ORepeatable _ _ | ORepOpt _ _ _ => 2
    | _ => base_frames o
    end.
  Definition extended_within : (nat -> visitor) -> nat -> nat -> obj -> M nat := framed extended_frames base_frames replace_extended_method.
  (** rule/transformators.py 298-305. *)
  Definition or_within : (nat -> visitor) -> nat -> nat -> obj -> M nat := framed base_frames base_frames replace_or_method.
  Definition empty_within : (nat -> visitor) -> nat -> nat -> obj -> M nat := framed base_frames base_frames replace_empty_method.
  (** rule/transformators.py 275-295: the methods of FlattenTransformator call themselves and
      those of RuleTransformator. *)
  Fixpoint flatten_term_within (fuel : nat) (v : nat -> visitor) (room : nat) (t : term pred) : M (term pred) :=
    match fuel with
    | O => no_fuel
    | S fuel' =>
        let default := frames 2 room (visit_term (v (room - 2)) t) in
        match t with
        | TPred p => default
        | TRule r =>
            do o <- get r ;;
            match o with
            | ORule [q] =>
                do q' <- get q ;;
                match production_terms q' with
                | [t'] => frames 1 room (flatten_term_within fuel' v (room - 1) t')
                | _ => default
                end
            | _ => default
            end
        end
    end.
  Definition flatten_within (fuel : nat) (v : nat -> visitor) (room p : nat) (o : obj) : M nat :=
    match o with
    | OProd ts main =>
        let default := frames (2 + comp) room (do ts' <- mapMM (flatten_term_within fuel v (room - (2 + comp))) ts ;; alloc (OProd ts' main)) in
        match ts with
        | [TRule r] =>
            do o' <- get r ;;
            match o' with
            | ORule [q] => frames 1 room (v (room - 1) q)
            | _ => default
            end
        | _ => default
        end
    | _ => framed base_frames base_frames base_method v room p o
    end.

  (** rule/constructors.py 103-117. *)
  Definition normalized_within (fuel limit : nat) (h : heap) (root : nat) : option (res (nat * heap)) :=
    then_ (run_visit_within squash_within fuel limit h root) (fun '(r, h) =>
    then_ (run_visit_within extended_within fuel limit h r) (fun '(r, h) =>
    then_ (run_visit_within or_within fuel limit h r) (fun '(r, h) =>
    then_ (run_visit_within empty_within fuel limit h r) (fun '(r, h) =>
    run_visit_within (flatten_within fuel) fuel limit h r)))).

  (** rule/bnf.py 81-150: named rules and the other wrappers go through visit_WrapperRule. *)
  Variable pipe_bnf : pipe -> res bnf.
  Variable bnf_lines : bnf -> list (str * list pred).
  Definition bnf_frames (o : obj) : nat :=
    match o with
    | ONamed _ _ | OInterp _ _ | ORelation _ _ => 2
    | _ => base_frames o
    end.
  Definition bnf_within (parents : list nat) : (nat -> visitor) -> nat -> nat -> obj -> M nat :=
    framed bnf_frames bnf_frames (bnf_method pipe_bnf bnf_lines parents).
  Definition to_bnf_within (fuel limit : nat) (h : heap) (root : nat) : option (res (nat * heap)) :=
    match bfs fuel h root with
    | Some objects => run_visit_within (bnf_within (count_parents h objects)) fuel limit h root
    | None => None
    end.
  (** rule/constructors.py 124-133: what follows to_bnf does not recurse. *)
  Definition as_bnf_within (fuel limit : nat) (h : heap) (root : nat) : option (res (nat * heap)) :=
    then_ (to_bnf_within fuel limit h root) (fun '(r, h) =>
    then_ (run_inplace remove_forward_visit fuel h r) (fun '(r, h) =>
    match nth_error h r with
    | Some o =>
        if is_bnf o then
          match bfs fuel h r with
          | Some objects => Some (Ok (r, generate_names (bnf_rules h objects) 0 h))
          | None => None
          end
        else None
    | None => None
    end)).
  (** parser.py 252-255. *)
  Variable activate_pred : pred -> res pred.
  Variable activate_pipe : pipe -> res pipe.
  Definition parser_rule_within (fuel limit : nat) (h : heap) (root : nat) : option (res (nat * heap)) :=
    then_ (run_inplace (activate_visit activate_pred activate_pipe) fuel h root) (fun '(r, h) =>
    then_ (normalized_within fuel limit h r) (fun '(r, h) =>
    as_bnf_within fuel limit h r)).
End Within.

(** parser.py 240-255 with the predicates and pipelines of the library. *)
Definition parser_grammar_within (comp : nat) (U : unicode) (set_order : list str -> list str) (c : context) (fuel limit : nat) (h : rule_heap) (root : nat) : option (res (grammar token predicate)) :=
  then_ (parser_rule_within comp (pipeline_as_bnf U set_order) b_productions (activate c) (activate_pipeline c) fuel limit h root) (fun '(r, h') =>
  match bfs fuel h' r with
  | Some objects => Some (Ok (restrict objects (grammar_of (pipeline_predict U set_order) h' r)))
  | None => None
  end).
