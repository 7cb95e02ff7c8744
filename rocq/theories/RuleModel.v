(** Model of yargy/rule/constructors.py, yargy/rule/transformators.py (rule
    transformations) and yargy/rule/bnf.py.

    Rules and productions are objects of a heap; a pointer is the number of the
    object in the order of creation and stands for [id(object)] (numbers are never
    reused; RuleAddr.v treats reuse of ids).  Predicates, pipelines and the
    dictionary rules made from pipelines are parameters. *)
From Coq Require DecimalString.
From Verif Require Import Base TokenModel EarleyModel.
Open Scope nat_scope.

Section Rules.
  Context {pred pipe bnf : Type}.

  (** The attributes [name], [interpretator] and [relation] of a BNFRule (rule/bnf.py 45-52). *)
  Record attributes := mkAttributes { a_name : option str; a_interp : option nat; a_relation : option nat }.
  Definition no_attributes : attributes := mkAttributes None None None.

  (** rule/constructors.py 28-329, rule/bnf.py 45-52, pipelines.py 16-22, 86-91.
      Relations and interpretators are numbered.  [min] and [max] are the bounds
      accepted by the constructors ([repeatable] below). *)
  Inductive obj :=
  | ORule (productions : list nat)
  | OOr (rules : list nat)
  | OOptional (rule : nat) (reverse : bool)
  | ORepeatable (rule : nat) (reverse : bool)
  | ORepOpt (rule : nat) (reverse_repeatable reverse_optional : bool)
  | OMin (rule : nat) (min : nat) (reverse : bool)
  | OMax (rule : nat) (max : nat) (reverse : bool)
  | OMinMax (rule : nat) (min max : nat) (reverse : bool)
  | ONamed (rule : nat) (name : str)
  | OInterp (rule : nat) (interpretator : nat)
  | ORelation (rule : nat) (relation : nat)
  | OForward (rule : option nat)
  | OEmpty
  | OPipeline (pipeline : pipe)
  | OBNF (productions : list nat) (a : attributes)
  | OPipeBNF (rule : bnf) (productions : list nat) (a : attributes)
  | OProd (terms : list (term pred)) (main : nat)
  | OEmptyProd
  | OPipeProd (key : str) (terms : list pred).

  Definition heap := list obj.

  Definition rule_terms (ts : list (term pred)) : list nat :=
    flat_map (fun t => match t with TRule r => [r] | TPred _ => [] end) ts.

  (** The property [children] (rule/constructors.py 37-38, 68-69, 168-169, 183-184, 295-297,
      317, 326).  Predicates have no children and are left out: no walk modelled here
      looks at them. *)
  Definition children (o : obj) : list nat :=
    match o with
    | ORule ps | OBNF ps _ | OPipeBNF _ ps _ => ps
    | OOr rs => rs
    | OOptional r _ | ORepeatable r _ | ORepOpt r _ _ | OMin r _ _ | OMax r _ _ | OMinMax r _ _ _
    | ONamed r _ | OInterp r _ | ORelation r _ => [r]
    | OForward (Some r) => [r]
    | OForward None | OEmpty | OPipeline _ | OEmptyProd | OPipeProd _ _ => []
    | OProd ts _ => rule_terms ts
    end.

  Definition is_forward (o : obj) : bool := match o with OForward _ => true | _ => false end.
  Definition is_bnf (o : obj) : bool := match o with OBNF _ _ | OPipeBNF _ _ _ => true | _ => false end.

  (** ** Constructors *)

  (** api.py 40-49 and rule/constructors.py 12-25: an item of rule(...) is a term or main(term). *)
  Inductive item := Plain (t : term pred) | Main (t : term pred).
  Definition item_term (i : item) : term pred := match i with Plain t | Main t => t end.
  Fixpoint prepare_terms (items : list item) (index : nat) (main : option nat) : res (list (term pred) * nat) :=
    match items with
    | [] => Ok ([], match main with Some m => m | None => 0 end)
    | i :: items' =>
        let! main' := match i, main with
                      | Main _, Some _ => Err ValueError
                      | Main _, None => Ok (Some index)
                      | Plain _, _ => Ok main
                      end in
        let! (ts, m) := prepare_terms items' (S index) main' in
        Ok (item_term i :: ts, m)
    end.
  (** rule/constructors.py 31-34. *)
  Definition production (items : list item) (main : nat) : res obj :=
    let! (ts, m) := prepare_terms items 0 None in
    Ok (OProd ts (if Nat.ltb 0 main then main else m)).

  (** rule/constructors.py 74-82, 219-243; check.py 29-34.  An absent bound is [None]; 0 is
      falsy. *)
  Definition truthy (b : option Z) : option Z :=
    match b with Some z => if Z.eqb z 0 then None else Some z | None => None end.
  Definition assert_greater_equals (a b : Z) : res unit := if Z.ltb a b then Err ValueError else Ok tt.
  Definition repeatable (r : nat) (min max : option Z) (reverse : bool) : res obj :=
    match truthy min, truthy max with
    | Some m, Some n =>
        let! _ := assert_greater_equals m 1 in
        let! _ := assert_greater_equals n 1 in
        let! _ := assert_greater_equals n m in
        Ok (OMinMax r (Z.to_nat m) (Z.to_nat n) reverse)
    | Some m, None => let! _ := assert_greater_equals m 1 in Ok (OMin r (Z.to_nat m) reverse)
    | None, Some n => let! _ := assert_greater_equals n 1 in Ok (OMax r (Z.to_nat n) reverse)
    | None, None => Ok (ORepeatable r reverse)
    end.

  (** ** Computations: heap and visited dictionary; [None]: out of fuel (in Python,
      RecursionError or an endless loop) *)
  Record state := mkState { st_heap : heap; st_visited : list (nat * nat) }.
  Definition M (A : Type) := state -> option (res (A * state)).
  Definition ret {A} (a : A) : M A := fun s => Some (Ok (a, s)).
  Definition raise {A} (e : exn) : M A := fun _ => Some (Err e).
  Definition no_fuel {A} : M A := fun _ => None.
  Definition bindM {A B} (x : M A) (f : A -> M B) : M B :=
    fun s => match x s with
             | Some (Ok (a, s')) => f a s'
             | Some (Err e) => Some (Err e)
             | None => None
             end.
  Notation "'do' x '<-' a ';;' b" := (bindM a (fun x => b)) (at level 200, x pattern, a at level 100, b at level 200).

  Section MapMM.
    Context {A B : Type} (f : A -> M B).
    Fixpoint mapMM (l : list A) : M (list B) :=
      match l with
      | [] => ret []
      | x :: l' => do y <- f x ;; do ys <- mapMM l' ;; ret (y :: ys)
      end.
  End MapMM.

  (** Every pointer of a program is valid; the exception is never raised. *)
  Definition get (p : nat) : M obj :=
    fun s => match nth_error (st_heap s) p with Some o => Some (Ok (o, s)) | None => Some (Err AttributeError) end.
  Definition alloc (o : obj) : M nat :=
    fun s => Some (Ok (length (st_heap s), mkState (st_heap s ++ [o]) (st_visited s))).
  Definition put (p : nat) (o : obj) : M unit :=
    fun s => Some (Ok (tt, mkState (setitem (st_heap s) p o) (st_visited s))).
  Definition remember (p r : nat) : M unit :=
    fun s => Some (Ok (tt, mkState (st_heap s) ((p, r) :: st_visited s))).
  Definition recall (p : nat) : M (option nat) := fun s => Some (Ok (assoc p (st_visited s), s)).

  (** rule/constructors.py 283-292: the argument is always a single rule. *)
  Definition define (f r : nat) : M unit :=
    do o <- get r ;;
    if is_forward o then raise ValueError else put f (OForward (Some r)).

  (** rule/constructors.py 135-155.  [act] is what the loop over the walk does with each
      object before the generator goes on to its children. *)
  Definition is_in (p : nat) (l : list nat) : bool := existsb (Nat.eqb p) l.
  Fixpoint enqueue (cs queue visited : list nat) : list nat * list nat :=
    match cs with
    | [] => (queue, visited)
    | c :: cs' => if is_in c visited then enqueue cs' queue visited else enqueue cs' (queue ++ [c]) (c :: visited)
    end.
  Fixpoint walk_loop (fuel : nat) (act : nat -> M unit) (queue visited : list nat) : M unit :=
    match queue with
    | [] => ret tt
    | x :: queue' =>
        match fuel with
        | O => no_fuel
        | S fuel' =>
            do _ <- act x ;;
            do o <- get x ;;
            let (queue'', visited') := enqueue (children o) queue' visited in
            walk_loop fuel' act queue'' visited'
        end
    end.
  Definition walk (fuel : nat) (act : nat -> M unit) (root : nat) : M unit := walk_loop fuel act [root] [root].

  (** The objects of the walk over an unchanging heap. *)
  Fixpoint bfs_loop (fuel : nat) (h : heap) (queue visited : list nat) : option (list nat) :=
    match queue with
    | [] => Some []
    | x :: queue' =>
        match fuel with
        | O => None
        | S fuel' =>
            let cs := match nth_error h x with Some o => children o | None => [] end in
            let (queue'', visited') := enqueue cs queue' visited in
            option_map (cons x) (bfs_loop fuel' h queue'' visited')
        end
    end.
  Definition bfs (fuel : nat) (h : heap) (root : nat) : option (list nat) := bfs_loop fuel h [root] [root].

  (** ** RuleTransformator (rule/transformators.py 58-142) *)
  Definition visitor := nat -> M nat.
  Section Visit.
    (** The visit_ methods of a subclass; the first argument is [self.visit]. *)
    Variable method : visitor -> nat -> obj -> M nat.
    (** rule/transformators.py 68-75. *)
    Fixpoint visit (fuel : nat) (p : nat) : M nat :=
      match fuel with
      | O => no_fuel
      | S fuel' =>
          do known <- recall p ;;
          match known with
          | Some r => ret r
          | None =>
              do o <- get p ;;
              do r <- method (visit fuel') p o ;;
              do _ <- remember p r ;;
              ret r
          end
      end.
    (** rule/transformators.py 62-66. *)
    Definition define_visited (fuel : nat) (p : nat) : M unit :=
      do o <- get p ;;
      match o with
      | OForward (Some r) => do r' <- visit fuel r ;; define p r'
      | _ => ret tt
      end.
    Definition transform_walk (fuel root : nat) : M nat :=
      do _ <- walk fuel (define_visited fuel) root ;; visit fuel root.
  End Visit.
  (** visitor.py 20-29: a new transformator for each pass. *)
  Definition run_visit (method : visitor -> nat -> obj -> M nat) (fuel : nat) (h : heap) (root : nat) : option (res (nat * heap)) :=
    match transform_walk method fuel root (mkState h []) with
    | Some (Ok (r, s)) => Some (Ok (r, st_heap s))
    | Some (Err e) => Some (Err e)
    | None => None
    end.

  Section Methods.
    Variable visit_ : visitor.
    (** rule/transformators.py 77-87. *)
    Definition visit_term (t : term pred) : M (term pred) :=
      match t with
      | TRule r => do r' <- visit_ r ;; ret (TRule r')
      | TPred p => ret (TPred p)
      end.
    Definition visit_Production (ts : list (term pred)) (main : nat) : M nat :=
      do ts' <- mapMM visit_term ts ;; alloc (OProd ts' main).
    (** rule/transformators.py 95-96. *)
    Definition visit_Rule (ps : list nat) : M nat := do ps' <- mapMM visit_ ps ;; alloc (ORule ps').
  End Methods.

  (** rule/transformators.py 77-142, resolved by the classes of the object (visitor.py 6-14).
      visit_OptionalRule, visit_RepeatableRule and visit_RepeatableOptionalRule call
      self.visit with too many arguments. *)
  Definition base_method (visit_ : visitor) (p : nat) (o : obj) : M nat :=
    match o with
    | OProd ts main => visit_Production visit_ ts main
    | OEmptyProd | OPipeProd _ _ => ret p
    | ORule ps | OBNF ps _ | OPipeBNF _ ps _ => visit_Rule visit_ ps
    | OOr rs => do rs' <- mapMM visit_ rs ;; alloc (OOr rs')
    | OOptional _ _ | ORepeatable _ _ | ORepOpt _ _ _ => raise TypeError
    | OMin r min rev => do r' <- visit_ r ;; alloc (OMin r' min rev)
    | OMax r max rev => do r' <- visit_ r ;; alloc (OMax r' max rev)
    | OMinMax r min max rev => do r' <- visit_ r ;; alloc (OMinMax r' min max rev)
    | ONamed r name => do r' <- visit_ r ;; alloc (ONamed r' name)
    | OInterp r i => do r' <- visit_ r ;; alloc (OInterp r' i)
    | ORelation r rel => do r' <- visit_ r ;; alloc (ORelation r' rel)
    | OForward _ | OEmpty | OPipeline _ => ret p
    end.

  (** ** SquashExtendedTransformator (rule/transformators.py 161-272).  RepeatableOptionalRule
      is a subclass of RepeatableRule and of OptionalRule and has no attribute
      [reverse]. *)
  Definition visit_new (visit_ : visitor) (o : obj) : M nat := do t <- alloc o ;; visit_ t.
  (** rule/transformators.py 217-227, for children that are repeatable. *)
  Definition squash_bounded (visit_ : visitor) (child : obj) : M nat :=
    match child with
    | ORepeatable r rev => visit_new visit_ (ORepeatable r rev)
    | ORepOpt _ _ _ => raise AttributeError
    | _ => raise TypeError
    end.
  Definition squash_method (visit_ : visitor) (p : nat) (o : obj) : M nat :=
    match o with
    | ORepeatable r rev =>
        do child <- get r ;;
        match child with
        | OOptional r' rev' => visit_new visit_ (ORepOpt r' rev rev')
        | ORepOpt _ _ _ => raise AttributeError
        | ORepeatable r' _ | OMin r' _ _ | OMax r' _ _ | OMinMax r' _ _ _ => visit_new visit_ (ORepeatable r' rev)
        | _ => do r' <- visit_ r ;; alloc (ORepeatable r' rev)
        end
    | OOptional r rev =>
        do child <- get r ;;
        match child with
        | ORepeatable r' rev' => visit_new visit_ (ORepOpt r' rev' rev)
        | ORepOpt _ _ _ => raise AttributeError
        | OOptional r' _ => visit_new visit_ (OOptional r' rev)
        | _ => do r' <- visit_ r ;; alloc (OOptional r' rev)
        end
    | ORepOpt r rr ro =>
        do child <- get r ;;
        match child with
        | ORepeatable r' _ | OMin r' _ _ | OMax r' _ _ | OMinMax r' _ _ _ | OOptional r' _ | ORepOpt r' _ _ =>
            visit_new visit_ (ORepOpt r' rr ro)
        | _ => do r' <- visit_ r ;; alloc (ORepOpt r' rr ro)
        end
    | OMin r min rev =>
        do child <- get r ;;
        match child with
        | ORepeatable _ _ | ORepOpt _ _ _ => squash_bounded visit_ child
        | OOptional r' rev' => do t <- alloc (OMin r' min rev) ;; visit_new visit_ (OOptional t rev')
        | _ => do r' <- visit_ r ;; alloc (OMin r' min rev)
        end
    | OMax r max rev =>
        do child <- get r ;;
        match child with
        | ORepeatable _ _ | ORepOpt _ _ _ => squash_bounded visit_ child
        | OOptional r' rev' => do t <- alloc (OMax r' max rev) ;; visit_new visit_ (OOptional t rev')
        | _ => do r' <- visit_ r ;; alloc (OMax r' max rev)
        end
    | OMinMax r min max rev =>
        do child <- get r ;;
        match child with
        | ORepeatable _ _ | ORepOpt _ _ _ => squash_bounded visit_ child
        | OOptional r' rev' => do t <- alloc (OMinMax r' min max rev) ;; visit_new visit_ (OOptional t rev')
        | _ => do r' <- visit_ r ;; alloc (OMinMax r' min max rev)
        end
    | _ => base_method visit_ p o
    end.

  (** ** ReplaceExtendedTransformator (rule/transformators.py 308-410) *)

  (** api.py 47-49: [rule(a, b, ...)]. *)
  Definition new_rule (ts : list nat) : M nat :=
    do q <- alloc (OProd (map TRule ts) 0) ;; alloc (ORule [q]).
  (** [if reverse: a, b = b, a]. *)
  Definition ordered (reverse : bool) (a b : nat) : list nat := if reverse then [b; a] else [a; b].
  (** rule/transformators.py 308-321; [max_bound(item, 0)] recurses for ever. *)
  Fixpoint max_bound (item count : nat) (reverse : bool) : M nat :=
    match count with
    | O => no_fuel
    | S count' =>
        match count' with
        | O => ret item
        | S _ =>
            do rest <- max_bound item count' reverse ;;
            do a <- new_rule [item; rest] ;;
            alloc (OOr (ordered reverse a item))
        end
    end.
  (** rule/transformators.py 324-337. *)
  Definition repeatable_rule (item : nat) (reverse : bool) : M nat :=
    do temp <- alloc (OForward None) ;;
    do a <- new_rule [item; temp] ;;
    do o <- alloc (OOr (ordered reverse a item)) ;;
    do _ <- define temp o ;;
    ret temp.
  (** rule/transformators.py 340-347. *)
  Definition optional_rule (item : nat) (reverse : bool) : M nat :=
    do a <- alloc OEmpty ;; alloc (OOr (ordered reverse a item)).
  (** rule/transformators.py 350-367. *)
  Definition repeatable_optional_rule (item : nat) (reverse_repeatable reverse_optional : bool) : M nat :=
    do temp <- alloc (OForward None) ;;
    do a <- alloc OEmpty ;;
    do b <- new_rule [item; temp] ;;
    let bc := ordered reverse_repeatable b item in
    do o <- alloc (OOr (if reverse_optional then bc ++ [a] else a :: bc)) ;;
    do _ <- define temp o ;;
    ret temp.

  Definition replace_extended_method (visit_ : visitor) (p : nat) (o : obj) : M nat :=
    match o with
    | ORepeatable r rev => do child <- visit_ r ;; repeatable_rule child rev
    | OOptional r rev => do child <- visit_ r ;; optional_rule child rev
    | ORepOpt r rr ro => do child <- visit_ r ;; repeatable_optional_rule child rr ro
    | OMin r min rev =>
        do child <- visit_ r ;;
        do last <- repeatable_rule child rev ;;
        new_rule (repeat child (min - 1) ++ [last])
    | OMax r max rev => do child <- visit_ r ;; max_bound child max rev
    | OMinMax r min max rev =>
        do child <- visit_ r ;;
        do last <- max_bound child (max - min + 1) rev ;;
        new_rule (repeat child (min - 1) ++ [last])
    | _ => base_method visit_ p o
    end.

  (** ** ReplaceOrTransformator, ReplaceEmptyTransformator (rule/transformators.py 298-305) *)
  Definition replace_or_method (visit_ : visitor) (p : nat) (o : obj) : M nat :=
    match o with
    | OOr rs => do ps <- mapMM (fun r => do r' <- visit_ r ;; alloc (OProd [TRule r'] 0)) rs ;; alloc (ORule ps)
    | _ => base_method visit_ p o
    end.
  Definition replace_empty_method (visit_ : visitor) (p : nat) (o : obj) : M nat :=
    match o with
    | OEmpty => do q <- alloc OEmptyProd ;; alloc (ORule [q])
    | _ => base_method visit_ p o
    end.

  (** ** FlattenTransformator (rule/transformators.py 275-295) *)
  Definition production_terms (o : obj) : list (term pred) :=
    match o with OProd ts _ => ts | OPipeProd _ ps => map TPred ps | _ => [] end.
  Fixpoint flatten_term (fuel : nat) (visit_ : visitor) (t : term pred) : M (term pred) :=
    match fuel with
    | O => no_fuel
    | S fuel' =>
        match t with
        | TPred p => ret (TPred p)
        | TRule r =>
            do o <- get r ;;
            match o with
            | ORule [q] =>
                do q' <- get q ;;
                match production_terms q' with
                | [t'] => flatten_term fuel' visit_ t'
                | _ => visit_term visit_ t
                end
            | _ => visit_term visit_ t
            end
        end
    end.
  Definition flatten_method (fuel : nat) (visit_ : visitor) (p : nat) (o : obj) : M nat :=
    match o with
    | OProd ts main =>
        let default := do ts' <- mapMM (flatten_term fuel visit_) ts ;; alloc (OProd ts' main) in
        match ts with
        | [TRule r] =>
            do o' <- get r ;;
            match o' with
            | ORule [q] => visit_ q
            | _ => default
            end
        | _ => default
        end
    | _ => base_method visit_ p o
    end.

  (** ** Rule.normalized (rule/constructors.py 103-117) *)
  Definition then_ {A B} (x : option (res A)) (f : A -> option (res B)) : option (res B) :=
    match x with Some (Ok a) => f a | Some (Err e) => Some (Err e) | None => None end.
  Definition normalized (fuel : nat) (h : heap) (root : nat) : option (res (nat * heap)) :=
    then_ (run_visit squash_method fuel h root) (fun '(r, h) =>
    then_ (run_visit replace_extended_method fuel h r) (fun '(r, h) =>
    then_ (run_visit replace_or_method fuel h r) (fun '(r, h) =>
    then_ (run_visit replace_empty_method fuel h r) (fun '(r, h) =>
    run_visit (flatten_method fuel) fuel h r)))).

  (** ** BNFTransformator (rule/bnf.py 81-150) *)
  Variable pipe_bnf : pipe -> res bnf.
  (** The lines of the dictionary: value and predicates of each production. *)
  Variable bnf_lines : bnf -> list (str * list pred).

  (** rule/bnf.py 94-103: how often each object is a child. *)
  Definition count_parents (h : heap) (objects : list nat) : list nat :=
    flat_map (fun p => match nth_error h p with Some o => children o | None => [] end) objects.
  Definition is_shared (parents : list nat) (p : nat) : M bool :=
    match count_occ Nat.eq_dec parents p with
    | O => raise KeyError
    | n => ret (Nat.ltb 1 n)
    end.
  (** rule/bnf.py 85-86. *)
  Definition lift (r : nat) : M nat :=
    do q <- alloc (OProd [TRule r] 0) ;; alloc (OBNF [q] no_attributes).

  (** Only BNF rules have these attributes. *)
  Definition get_attributes (o : obj) : option attributes :=
    match o with OBNF _ a | OPipeBNF _ _ a => Some a | _ => None end.
  Definition update_attributes (f : attributes -> attributes) (o : obj) : obj :=
    match o with OBNF ps a => OBNF ps (f a) | OPipeBNF b ps a => OPipeBNF b ps (f a) | o => o end.

  Section BNF.
    Variable parents : list nat.
    Variable visit_ : visitor.
    (** rule/bnf.py 115-123. *)
    Definition visit_WrapperRule (r : nat) : M nat :=
      do o <- get r ;;
      if is_forward o then lift r
      else
        do shared <- is_shared parents r ;;
        do r' <- visit_ r ;;
        if shared then lift r' else ret r'.
    (** rule/bnf.py 125-147: [if item.name: item = lift(item)] and [item.name = name], for each
        of the three attributes. *)
    Definition set_attribute (present : attributes -> bool) (update : attributes -> attributes) (r : nat) : M nat :=
      do o <- get r ;;
      match get_attributes o with
      | None => raise AttributeError
      | Some a =>
          do r' <- (if present a then lift r else ret r) ;;
          do o' <- get r' ;;
          do _ <- put r' (update_attributes update o') ;;
          ret r'
      end.
    Definition set_name (name : str) : nat -> M nat :=
      set_attribute (fun a => match a_name a with Some (_ :: _) => true | _ => false end)
                    (fun a => mkAttributes (Some name) (a_interp a) (a_relation a)).
    Definition set_interpretator (i : nat) : nat -> M nat :=
      set_attribute (fun a => match a_interp a with Some _ => true | None => false end)
                    (fun a => mkAttributes (a_name a) (Some i) (a_relation a)).
    Definition set_relation (rel : nat) : nat -> M nat :=
      set_attribute (fun a => match a_relation a with Some _ => true | None => false end)
                    (fun a => mkAttributes (a_name a) (a_interp a) (Some rel)).
    (** rule/bnf.py 149-150, pipelines.py 114-116. *)
    Definition new_pipeline (b : bnf) : M nat :=
      do ps <- mapMM (fun line => alloc (OPipeProd (fst line) (snd line))) (bnf_lines b) ;;
      alloc (OPipeBNF b ps no_attributes).

    (** rule/bnf.py 105-150; OptionalRule and RepeatableRule have methods in RuleTransformator,
        which come before visit_ExtendedRule. *)
    Definition bnf_method (p : nat) (o : obj) : M nat :=
      match o with
      | ORule ps | OBNF ps _ | OPipeBNF _ ps _ =>
          do ps' <- mapMM visit_ ps ;; alloc (OBNF ps' no_attributes)
      | OOr _ | OEmpty => raise TypeError
      | ONamed r name => do r' <- visit_WrapperRule r ;; set_name name r'
      | OInterp r i => do r' <- visit_WrapperRule r ;; set_interpretator i r'
      | ORelation r rel => do r' <- visit_WrapperRule r ;; set_relation rel r'
      | OPipeline pl => match pipe_bnf pl with Ok b => new_pipeline b | Err e => raise e end
      | _ => base_method visit_ p o
      end.
  End BNF.

  (** rule/bnf.py 94-100, rule/transformators.py 62-66. *)
  Definition to_bnf (fuel : nat) (h : heap) (root : nat) : option (res (nat * heap)) :=
    match bfs fuel h root with
    | Some objects => run_visit (bnf_method (count_parents h objects)) fuel h root
    | None => None
    end.

  (** ** InplaceRuleTransformator (rule/transformators.py 35-55) *)
  Section Inplace.
    Variable act : nat -> M nat.
    Definition transform_inplace (fuel root : nat) : M nat :=
      do _ <- walk fuel (fun p => do _ <- act p ;; ret tt) root ;; act root.
  End Inplace.
  Definition run_inplace (act : nat -> M nat) (fuel : nat) (h : heap) (root : nat) : option (res (nat * heap)) :=
    match transform_inplace act fuel root (mkState h []) with
    | Some (Ok (r, s)) => Some (Ok (r, st_heap s))
    | Some (Err e) => Some (Err e)
    | None => None
    end.

  (** rule/bnf.py 153-170. *)
  Definition remove_forward_visit (p : nat) : M nat :=
    do o <- get p ;;
    match o with
    | OForward None => raise TypeError
    | OForward (Some r) => ret r
    | OProd ts main =>
        do ts' <- mapMM (fun t => match t with
                                  | TRule r =>
                                      do o' <- get r ;;
                                      match o' with
                                      | OForward None => raise TypeError
                                      | OForward (Some r') => ret (TRule r')
                                      | _ => ret (TRule r)
                                      end
                                  | TPred p => ret (TPred p)
                                  end) ts ;;
        do _ <- put p (OProd ts' main) ;;
        ret p
    | _ => ret p
    end.

  (** ** ActivateTransformator (rule/transformators.py 145-158) *)
  Variable activate_pred : pred -> res pred.
  Variable activate_pipe : pipe -> res pipe.
  Definition lift_res {A} (x : res A) : M A := match x with Ok a => ret a | Err e => raise e end.
  Definition activate_visit (p : nat) : M nat :=
    do o <- get p ;;
    match o with
    | OProd ts main =>
        do ts' <- mapMM (fun t => match t with
                                  | TPred x => do y <- lift_res (activate_pred x) ;; ret (TPred y)
                                  | TRule r => ret (TRule r)
                                  end) ts ;;
        do _ <- put p (OProd ts' main) ;;
        ret p
    | OPipeline x => do y <- lift_res (activate_pipe x) ;; do _ <- put p (OPipeline y) ;; ret p
    | _ => ret p
    end.

  (** ** generate_names, BNF (rule/bnf.py 15-32, 54-56) *)
  Definition generated_name (n : nat) : str :=
    str_of "R" ++ str_of (DecimalString.NilEmpty.string_of_uint (Nat.to_uint n)).
  Definition has_name (a : attributes) : bool := match a_name a with Some (_ :: _) => true | _ => false end.
  Fixpoint generate_names (rules : list nat) (count : nat) (h : heap) : heap :=
    match rules with
    | [] => h
    | r :: rules' =>
        match nth_error h r with
        | Some o =>
            match get_attributes o with
            | Some a =>
                if has_name a then generate_names rules' count h
                else generate_names rules' (S count)
                       (setitem h r (update_attributes (fun a => mkAttributes (Some (generated_name count)) (a_interp a) (a_relation a)) o))
            | None => generate_names rules' count h
            end
        | None => generate_names rules' count h
        end
    end.
  (** [self.walk(types=BNFRule)]. *)
  Definition bnf_rules (h : heap) (objects : list nat) : list nat :=
    filter (fun p => match nth_error h p with Some o => is_bnf o | None => false end) objects.

  (** ** Rule.as_bnf (rule/constructors.py 124-133) and BNF.start (rule/bnf.py 30-32).  On anything
      but a BNF rule the property [as_bnf] calls itself for ever. *)
  Definition as_bnf (fuel : nat) (h : heap) (root : nat) : option (res (nat * heap)) :=
    then_ (to_bnf fuel h root) (fun '(r, h) =>
    then_ (run_inplace remove_forward_visit fuel h r) (fun '(r, h) =>
    match nth_error h r with
    | Some o =>
        if is_bnf o then
          match bfs fuel h r with
          | Some objects => Some (Ok (r, generate_names (bnf_rules h objects) 0 h))
          | None => None
          end
        else None
    | None => None
    end)).

  (** ** Parser.__init__ (parser.py 252-255): the rule of the parser and the heap afterwards. *)
  Definition parser_rule (fuel : nat) (h : heap) (root : nat) : option (res (nat * heap)) :=
    then_ (run_inplace activate_visit fuel h root) (fun '(r, h) =>
    then_ (normalized fuel h r) (fun '(r, h) =>
    as_bnf fuel h r)).

  (** ** The grammar the chart works with: the objects reachable from the rule. *)
  Variable bnf_predict : bnf -> token -> list nat.
  Definition grammar_of (h : heap) (root : nat) : grammar token pred :=
    mkGrammar
      (fun r => match nth_error h r with Some (OBNF ps _) | Some (OPipeBNF _ ps _) => ps | _ => [] end)
      (fun r t => match nth_error h r with
                  | Some (OBNF ps _) => ps
                  | Some (OPipeBNF b ps _) => flat_map (fun i => match nth_error ps i with Some q => [q] | None => [] end) (bnf_predict b t)
                  | _ => []
                  end)
      (fun q => match nth_error h q with Some o => production_terms o | None => [] end)
      (fun q => match nth_error h q with Some (OProd _ main) => main | _ => 0 end)
      (fun q => match nth_error h q with Some (OPipeProd key _) => Some key | _ => None end)
      (fun r => match nth_error h r with Some o => match get_attributes o with Some a => a_relation a | None => None end | None => None end)
      (fun r => match nth_error h r with Some o => match get_attributes o with Some a => a_interp a | None => None end | None => None end)
      root.
End Rules.
Arguments obj : clear implicits.
Arguments heap : clear implicits.
Arguments state : clear implicits.
Arguments M : clear implicits.
Arguments visitor : clear implicits.
