(** Model of the functions and methods a user builds rules with: api.py 40-49, 66-83,
    rule/constructors.py 67-96, 158-300.  A program is a list of calls; the rules it
    holds are pointers returned by earlier calls. *)
From Verif Require Import Base EarleyModel RuleModel RuleSpec.
Open Scope nat_scope.

Section Build.
  Context {pred pipe bnf : Type}.
  Notation obj := (obj pred pipe bnf).
  Notation heap := (heap pred pipe bnf).

  Inductive call :=
  | CRule (items : list (item (pred := pred)))
  | COr (rs : list nat)
  | COptional (r : nat) (reverse : bool)
  | CRepeatable (r : nat) (min max : option Z) (reverse : bool)
  | CNamed (r : nat) (name : str)
  | CInterpretation (r : nat) (i : nat)
  | CMatch (r : nat) (relation : nat)
  | CForward
  | CEmpty
  | CPipeline (x : pipe)
  | CDefine (f r : nat)
  | CDefineItems (f : nat) (items : list (item (pred := pred))).

  (** A new object at the end of the heap. *)
  Definition new (o : obj) (h : heap) : nat * heap := (length h, h ++ [o]).
  (** api.py 40-44. *)
  Definition new_rule (items : list item) (h : heap) : res (nat * heap) :=
    let! production := RuleModel.production items 0 in
    let (q, h1) := new production h in
    Ok (new (ORule [q]) h1).
  (** rule/constructors.py 179-180 (WrapperRule.define), 283-292 (ForwardRule.define): a
      wrapper hands the call to the rule it wraps; other rules have no such method. *)
  Fixpoint forward_of (fuel : nat) (h : heap) (f : nat) : res nat :=
    match fuel with
    | O => Err AttributeError
    | S fuel' =>
        match nth_error h f with
        | Some (OForward _) => Ok f
        | Some (OOptional r _) | Some (ORepeatable r _) | Some (ORepOpt r _ _) | Some (OMin r _ _) | Some (OMax r _ _) | Some (OMinMax r _ _ _)
        | Some (ONamed r _) | Some (OInterp r _) | Some (ORelation r _) => forward_of fuel' h r
        | _ => Err AttributeError
        end
    end.
  Definition define_forward (f r : nat) (h : heap) : res (nat * heap) :=
    let! f' := forward_of (S (length h)) h f in
    match nth_error h r with
    | Some (OForward _) => Err ValueError
    | _ => Ok (f', setitem h f' (OForward (Some r)))
    end.

  Definition run_call (c : call) (h : heap) : res (nat * heap) :=
    match c with
    | CRule items => new_rule items h
    | COr rs => Ok (new (OOr rs) h)
    | COptional r rev => Ok (new (OOptional r rev) h)
    | CRepeatable r min max rev => let! o := repeatable r min max rev in Ok (new o h)
    | CNamed r n => Ok (new (ONamed r n) h)
    | CInterpretation r i => Ok (new (OInterp r i) h)
    | CMatch r rel => Ok (new (ORelation r rel) h)
    | CForward => Ok (new (OForward None) h)
    | CEmpty => Ok (new OEmpty h)
    | CPipeline x => Ok (new (OPipeline x) h)
    | CDefine f r => define_forward f r h
    | CDefineItems f items =>
        let! f' := forward_of (S (length h)) h f in
        let! (r, h1) := new_rule items h in
        Ok (f', setitem h1 f' (OForward (Some r)))
    end.
  (** A call that raises an exception leaves the heap alone: the objects it may have
      made are not reachable. *)
  Definition after_call (c : call) (h : heap) : heap := match run_call c h with Ok (_, h') => h' | Err _ => h end.

  (** The term in an item of a rule, whether or not it is the main one. *)
  Definition written_term (i : item) : term pred := match i with Plain t => t | Main t => t end.
  (** The rules a call is given. *)
  Definition call_rules (c : call) : list nat :=
    match c with
    | CRule items => rule_terms (map written_term items)
    | COr rs => rs
    | COptional r _ | CRepeatable r _ _ _ | CNamed r _ | CInterpretation r _ | CMatch r _ => [r]
    | CForward | CEmpty | CPipeline _ => []
    | CDefine f r => [f; r]
    | CDefineItems f items => f :: rule_terms (map written_term items)
    end.
  (** A rule, not a production: what the calls return. *)
  Definition is_rule_at (h : heap) (p : nat) : Prop :=
    exists o, nth_error h p = Some o /\ match o with OProd _ _ | OEmptyProd | OPipeProd _ _ => False | _ => True end.
  (** Heaps of programs. *)
  Inductive built : heap -> Prop :=
  | built_nothing : built []
  | built_call c h : built h -> (forall r, In r (call_rules c) -> is_rule_at h r) -> built (after_call c h).

  (** No quantifier in the rule is put directly on a quantifier. *)
  Definition quantifier (o : obj) : bool :=
    match o with OOptional _ _ | ORepeatable _ _ | ORepOpt _ _ _ | OMin _ _ _ | OMax _ _ _ | OMinMax _ _ _ _ => true | _ => false end.
  Definition flat (h : heap) (root : nat) : Prop :=
    forall p o c oc, reach h root p -> nth_error h p = Some o -> quantifier o = true -> In c (children o) -> nth_error h c = Some oc -> quantifier oc = false.
End Build.
