(** Model of the functions rules are written with, called with arguments of any type:
    yargy/api.py, the methods of yargy/rule/constructors.py and
    yargy/predicates/constructors.py, main, the pipelines, Parser(...).

    Numbers are integers.  An object of any other class ([VOther]) cannot be compared with
    numbers and equals no string. *)
From Verif Require Import Base TokenModel EarleyModel TokenizerModel TaggerModel PredicateModel PipelineModel RelationModel RuleModel RuleBuild GrammarModel.
Open Scope nat_scope.

(** A value of Python.  Rules are pointers; facts, attributes, normalizers and
    interpretators carry the number of the interpretator made of them. *)
Inductive value :=
| VNone
| VBool (b : bool)
| VInt (z : Z)
| VStr (s : str)
| VList (l : list value)
| VPred (p : predicate)
| VRule (r : nat)
| VMain (t : term predicate)
| VRelation (r : relation)
| VFact (i : nat)
| VAttribute (i : nat)
| VNormalizer (i : nat)
| VInterpretator (i : nat)
| VTokenizer (t : tokenizer) (m : option morph)
| VTagger (t : tagger)
| VOther (truth : bool).

(** bool(value). *)
Definition truth (v : value) : bool :=
  match v with
  | VNone => false
  | VBool b => b
  | VInt z => negb (Z.eqb z 0)
  | VStr [] | VList [] => false
  | VOther b => b
  | _ => true
  end.
(** A number in comparisons; False and True are 0 and 1. *)
Definition number (v : value) : res Z :=
  match v with VInt z => Ok z | VBool b => Ok (if b then 1%Z else 0%Z) | _ => Err TypeError end.
(** check.py 3-10 for bool and str. *)
Definition assert_bool (v : value) : res bool := match v with VBool b => Ok b | _ => Err TypeError end.
Definition assert_str (v : value) : res str := match v with VStr s => Ok s | _ => Err TypeError end.

Section Calls.
  (** Relations are numbered. *)
  Variable relation_number : relation -> nat.
  (** list(value) of a record that is no predicate, rule or relation (record.py 17-18). *)
  Variable iterate_other : value -> res (list value).

  (** api.py 40-44 and predicates/bank.py 160-171.  eq(value) with a value that is no
      string accepts no token: the value of a token is a string. *)
  Definition eq_value (v : value) : predicate := match v with VStr s => PEq s | _ => POr [] end.
  Definition prepare_production_item (v : value) : item (pred := predicate) :=
    match v with
    | VPred p => Plain (TPred p)
    | VRule r => Plain (TRule r)
    | VMain t => Main t
    | _ => Plain (TPred (eq_value v))
    end.
  (** api.py 47-49. *)
  Definition call_rule (items : list value) (h : rule_heap) : res (nat * rule_heap) := new_rule (map prepare_production_item items) h.

  Definition as_predicate (v : value) : option predicate := match v with VPred p => Some p | _ => None end.
  Definition as_relation (v : value) : option relation := match v with VRelation r => Some r | _ => None end.
  Definition as_rule (v : value) : option nat := match v with VRule r => Some r | _ => None end.
  Fixpoint all_of {A} (f : value -> option A) (l : list value) : option (list A) :=
    match l with
    | [] => Some []
    | v :: l' => match f v, all_of f l' with Some a, Some r => Some (a :: r) | _, _ => None end
    end.
  (** api.py 56-63. *)
  Definition call_and (items : list value) : res value :=
    match all_of as_predicate items with
    | Some ps => Ok (VPred (PAnd ps))
    | None => match all_of as_relation items with
              | Some rs => Ok (VRelation (RAnd rs))
              | None => Err TypeError
              end
    end.
  (** api.py 66-75; rule/constructors.py 161-165. *)
  Definition call_or (items : list value) (h : rule_heap) : res (value * rule_heap) :=
    match all_of as_predicate items with
    | Some ps => Ok (VPred (POr ps), h)
    | None => match all_of as_relation items with
              | Some rs => Ok (VRelation (ROr rs), h)
              | None => match all_of as_rule items with
                        | Some rs => let (r, h') := new (OOr rs) h in Ok (VRule r, h')
                        | None => Err TypeError
                        end
              end
    end.
  (** api.py 78-83. *)
  Definition call_not (v : value) : res value :=
    match v with
    | VPred p => Ok (VPred (PNot p))
    | VRelation r => Ok (VRelation (RNot r))
    | _ => Err TypeError
    end.
  (** relations/constructors.py 9-14. *)
  Definition call_main (v : value) : res value :=
    match v with
    | VRule r => Ok (VMain (TRule r))
    | VPred p => Ok (VMain (TPred p))
    | _ => Err TypeError
    end.

  (** Methods of a rule: rule/constructors.py 71-93 with the checks of 186-277. *)
  Definition rule_optional (r : nat) (reverse : value) (h : rule_heap) : res (nat * rule_heap) :=
    let! b := assert_bool reverse in Ok (new (OOptional r b) h).
  Definition rule_repeatable (r : nat) (min max reverse : value) (h : rule_heap) : res (nat * rule_heap) :=
    match truth min, truth max with
    | true, true =>
        let! b := assert_bool reverse in
        let! m := number min in
        let! _ := assert_greater_equals m 1 in
        let! n := number max in
        let! _ := assert_greater_equals n 1 in
        let! _ := assert_greater_equals n m in
        Ok (new (OMinMax r (Z.to_nat m) (Z.to_nat n) b) h)
    | true, false =>
        let! b := assert_bool reverse in
        let! m := number min in
        let! _ := assert_greater_equals m 1 in
        Ok (new (OMin r (Z.to_nat m) b) h)
    | false, true =>
        let! b := assert_bool reverse in
        let! n := number max in
        let! _ := assert_greater_equals n 1 in
        Ok (new (OMax r (Z.to_nat n) b) h)
    | false, false => let! b := assert_bool reverse in Ok (new (ORepeatable r b) h)
    end.
  Definition rule_named (r : nat) (name : value) (h : rule_heap) : res (nat * rule_heap) :=
    let! n := assert_str name in Ok (new (ONamed r n) h).
  (** with interpretation/interpretator.py 251-261. *)
  Definition rule_interpretation (r : nat) (v : value) (h : rule_heap) : res (nat * rule_heap) :=
    match v with
    | VInterpretator i | VFact i | VAttribute i | VNormalizer i => Ok (new (OInterp r i) h)
    | _ => Err TypeError
    end.
  Definition rule_match (r : nat) (v : value) (h : rule_heap) : res (nat * rule_heap) :=
    match v with VRelation rel => Ok (new (ORelation r (relation_number rel)) h) | _ => Err TypeError end.
  (** rule/constructors.py 179-180, 283-292. *)
  Definition rule_define (f : nat) (args : list value) (h : rule_heap) : res (nat * rule_heap) :=
    let! f' := forward_of (S (length h)) h f in
    match args with
    | [] => Err TypeError
    | [VRule r] =>
        match nth_error h r with
        | Some (OForward _) => Err ValueError
        | _ => Ok (f', setitem h f' (OForward (Some r)))
        end
    | _ => let! (r, h1) := call_rule args h in Ok (f', setitem h1 f' (OForward (Some r)))
    end.

  (** Methods of a predicate: predicates/constructors.py 12-33 with
      interpretation/interpretator.py 242-248. *)
  Definition with_rule (p : predicate) (h : rule_heap) (f : nat -> rule_heap -> res (nat * rule_heap)) : res (nat * rule_heap) :=
    let! (r, h1) := call_rule [VPred p] h in f r h1.
  Definition predicate_interpretation (p : predicate) (v : value) (h : rule_heap) : res (nat * rule_heap) :=
    match v with
    | VAttribute i | VNormalizer i => with_rule p h (fun r h1 => rule_interpretation r (VInterpretator i) h1)
    | _ => Err TypeError
    end.

  (** list(value).  record.py 17-18: records yield the values of their attributes. *)
  Definition iterate (h : rule_heap) (v : value) : res (list value) :=
    match v with
    | VStr s => Ok (map (fun x => VStr [x]) s)
    | VList l => Ok l
    | VPred p =>
        match p with
        | PTrue | PIsLower | PIsUpper | PIsTitle | PIsCapitalized | PIsSingle => Ok []
        | PEq s | PCaseless s | SNormalized s | SGram s | PGram s | SType s | PType s | STag s | PTag s => Ok [VStr s]
        | PLengthEq z | PGte z | PLte z => Ok [VInt z]
        | PIn _ | PInCaseless _ | SDictionary _ | PDictionary _ => Ok [VOther true]
        | SCustom _ _ | PCustom _ _ => Ok [VOther true; VOther true]
        | PAnd ps | POr ps => Ok [VList (map VPred ps)]
        | PNot q => Ok [VPred q]
        | PUser _ => iterate_other v
        end
    | VRule r =>
        match nth_error h r with
        | Some OEmpty => Ok []
        | _ => Ok [VOther true]
        end
    | VRelation r =>
        match r with
        | RAnd rs | ROr rs => Ok [VList (map VRelation rs)]
        | RNot q => Ok [VRelation q]
        | RCustom _ => iterate_other v
        | _ => Ok []
        end
    | VMain t => Ok [match t with TPred p => VPred p | TRule r => VRule r end]
    | VNone | VBool _ | VInt _ | VFact _ => Err TypeError
    | _ => iterate_other v
    end.
  (** pipelines.py 133-143, 175-187. *)
  Definition scheme_of (k : kind) (lines : list str) : pipeline :=
    match k with Exact => PipelineScheme lines | Caseless => CaselessPipelineScheme lines | Morph => MorphPipelineScheme lines end.
  Definition call_pipeline (k : kind) (v : value) (h : rule_heap) : res (nat * rule_heap) :=
    let! l := iterate h v in
    let! lines := mapM assert_str l in
    Ok (new (OPipeline (scheme_of k lines)) h).

  (** A call; the receiver of a method comes first. *)
  Inductive value_call :=
  | ARule (items : list value)
  | AAnd (items : list value)
  | AOr (items : list value)
  | ANot (v : value)
  | AMain (v : value)
  | AForward
  | AEmpty
  | APipeline (k : kind) (lines : value)
  | AOptional (v : value) (reverse : option value)
  | ARepeatable (v min max reverse : value)
  | ANamed (v name : value)
  | AInterpretation (v x : value)
  | AMatch (v relation : value)
  | ADefine (v : value) (args : list value).

  Definition as_value (x : res (nat * rule_heap)) : res (value * rule_heap) := let! (r, h) := x in Ok (VRule r, h).
  (** A method called on a value of another class does not exist. *)
  Definition call_value (c : value_call) (h : rule_heap) : res (value * rule_heap) :=
    match c with
    | ARule items => as_value (call_rule items h)
    | AAnd items => let! v := call_and items in Ok (v, h)
    | AOr items => call_or items h
    | ANot v => let! w := call_not v in Ok (w, h)
    | AMain v => let! w := call_main v in Ok (w, h)
    | AForward => as_value (Ok (new (OForward None) h))
    | AEmpty => as_value (Ok (new OEmpty h))
    | APipeline k lines => as_value (call_pipeline k lines h)
    | AOptional (VRule r) reverse => as_value (rule_optional r (match reverse with Some v => v | None => VBool false end) h)
    | AOptional (VPred p) None => as_value (with_rule p h (fun r h1 => rule_optional r (VBool false) h1))
    (* predicates/constructors.py 12-14: there is no such parameter *)
    | AOptional (VPred p) (Some _) => Err TypeError
    | ARepeatable (VRule r) min max reverse => as_value (rule_repeatable r min max reverse h)
    | ARepeatable (VPred p) min max reverse => as_value (with_rule p h (fun r h1 => rule_repeatable r min max reverse h1))
    | ANamed (VRule r) name => as_value (rule_named r name h)
    | ANamed (VPred p) name => as_value (with_rule p h (fun r h1 => rule_named r name h1))
    | AInterpretation (VRule r) x => as_value (rule_interpretation r x h)
    | AInterpretation (VPred p) x => as_value (predicate_interpretation p x h)
    | AMatch (VRule r) x => as_value (rule_match r x h)
    | AMatch (VPred p) x => as_value (with_rule p h (fun r h1 => rule_match r x h1))
    | ADefine (VRule f) args => as_value (rule_define f args h)
    | AOptional _ _ | ARepeatable _ _ _ _ | ANamed _ _ | AInterpretation _ _ | AMatch _ _ | ADefine _ _ => Err AttributeError
    end.
  Definition after_value_call (c : value_call) (h : rule_heap) : rule_heap := match call_value c h with Ok (_, h') => h' | Err _ => h end.

  (** ** Parser(rule, tokenizer, tagger) *)
  (** parser.py 240-255.  [default] is MorphTokenizer(). *)
  Variable U : unicode.
  Variable set_order : list str -> list str.
  Variable default : tokenizer * option morph.
  Definition given_tokenizer (v : value) : res (tokenizer * option morph) :=
    if truth v then match v with VTokenizer t m => Ok (t, m) | _ => Err TypeError end else Ok default.
  Definition given_tagger (v : value) : res tagger :=
    if truth v then match v with VTagger t => Ok t | _ => Err TypeError end else Ok PassTagger.
  (** A predicate can be activated and has no attribute [normalized]; anything else that
      is no rule cannot be activated. *)
  Definition parser_of (fuel : nat) (rule tokenizer tagger : value) (h : rule_heap) : option (res (context * (nat * rule_heap))) :=
    match (let! tm := given_tokenizer tokenizer in let! tg := given_tagger tagger in Ok (mkContext (fst tm) (snd tm) (Some tg))) with
    | Err e => Some (Err e)
    | Ok c =>
        match rule with
        | VRule r => match build_rule U set_order c fuel h r with
                     | Some (Ok made) => Some (Ok (c, made))
                     | Some (Err e) => Some (Err e)
                     | None => None
                     end
        | VPred p => match activate c p with Ok _ => Some (Err AttributeError) | Err e => Some (Err e) end
        | _ => Some (Err AttributeError)
        end
    end.
End Calls.
