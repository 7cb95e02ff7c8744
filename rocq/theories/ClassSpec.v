(** What fact classes should be. *)
From Coq Require String.
From Verif Require Import Base TokenModel InterpModel InterpSpec ClassModel.
Import String.StringSyntax.
Open Scope nat_scope.

(** Every declared attribute is an attribute object of the class. *)
Definition proper (K : klass) : Prop := forall k, In k (names K) -> exists s d, k = KStr s /\ find s K = Some (MAttr d).
Definition named (s : str) (K : klass) : Prop := In (KStr s) (names K).
(** The declarations of a class, as InterpModel.v has them. *)
Definition scheme_of (K : klass) : scheme :=
  flat_map (fun k => match k with KStr s => match find s K with Some (MAttr d) => [(s, d)] | _ => [] end | KOther _ => [] end) (names K).
(** A name that begins with two underscores. *)
Definition underscored (s : str) : bool := match s with a :: b :: _ => N.eqb a 95 && N.eqb b 95 | _ => false end.
Definition string_names (l : list declared) : Prop := Forall (fun x => exists s, fst (prepared x) = KStr s /\ underscored s = false) l.
(** The last declaration of a name. *)
Fixpoint last_declared (s : str) (l : list declared) : option decl :=
  match l with
  | [] => None
  | x :: l' => match last_declared s l' with
               | Some d => Some d
               | None => match fst (prepared x) with KStr s' => if str_eqb s s' then Some (snd (prepared x)) else None | KOther _ => None end
               end
  end.
(** What every fact has of its own: [as_json], [spans], and [_raw], which is None in the class. *)
Definition own_member (s : str) : option member :=
  if str_eqb s (str_of "as_json") then Some MJson else if str_eqb s (str_of "spans") then Some MSpans
  else if str_eqb s (str_of "_raw") then Some (MValue VNone) else None.
(** A class statement of the user: anything but attributes and names of Fact. *)
Definition adds_only (u : members) (K : klass) : Prop :=
  forall s m, sdict_get s u = Some m -> underscored s = false /\ ~ named s K /\ ~ In s [AS_JSON; SPANS; RAW].

(** Programs with several classes: the dictionary of each, and its method resolution order (itself first). *)
Record program := mkProgram { pr_own : nat -> members; pr_order : nat -> list nat }.
Definition class_of (P : program) (sc : nat) : klass := map (pr_own P) (pr_order P sc).
Definition is_subclass (P : program) (sc sc' : nat) : bool := existsb (Nat.eqb sc') (pr_order P sc).
Definition schemes_of (P : program) (sc : nat) : scheme := scheme_of (class_of P sc).
(** Every class has one base: what is above a class above it comes last, and nothing comes twice. *)
Definition single_inheritance (P : program) : Prop :=
  forall sc, NoDup (pr_order P sc) /\ forall sc', In sc' (pr_order P sc) -> exists l, pr_order P sc = l ++ pr_order P sc'.
(** Made by [fact]: has its own [__attributes__]; its only base is Fact. *)
Definition declaring (P : program) (sc : nat) : Prop := sdict_get ATTRIBUTES (pr_own P sc) <> None.
Definition made_by_fact (P : program) : Prop := forall sc, declaring P sc -> pr_order P sc = [sc].
(** Every class is below one made by [fact]; those have proper attributes, and class statements leave attributes alone. *)
Definition below_facts (P : program) : Prop := forall sc, exists b, declaring P b /\ is_subclass P sc b = true.
Definition attributes_kept (P : program) : Prop :=
  forall sc, (declaring P sc -> proper (class_of P sc)) /\
    (~ declaring P sc -> forall s, named s (class_of P sc) -> sdict_get s (pr_own P sc) = None).
(** The value of an attribute of a fact made by hand. *)
Definition hand_value (K : klass) (kwargs : list (str * pyval)) (s : str) : option pyval :=
  match sdict_get s kwargs with
  | Some v => Some v
  | None => match find s K with Some (MAttr Repeatable) => Some (VList []) | Some (MAttr (Plain d)) => Some d | _ => None end
  end.
(** Attributes set on a fact, and attributes of the items it is made of, are declared by their classes. *)
Definition declares (schemes : nat -> scheme) (sc : nat) (s : str) : Prop := get_decl s (schemes sc) <> None.
Definition sets_declared (schemes : nat -> scheme) (f : ifact) : Prop := forall s, changed s f = true -> declares schemes (fact_class f) s.
Definition items_declared (schemes : nat -> scheme) (items : list item) : Prop :=
  forall r, In (IResult r) items -> match r with RAttr _ a => declares schemes (a_fact a) (a_name a) | RFact f => sets_declared schemes f | _ => True end.
(** Every value of the fact can be normalized. *)
Definition values_normalize (schemes : nat -> scheme) (f : ifact) : Prop :=
  match f with mkFact sc rep chg attrs => forall k s, In (k, s) attrs -> exists v, normalized_slot schemes (str_in k rep) (str_in k chg) s = Ok v end.
