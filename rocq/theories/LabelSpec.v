(** Reading the text of a grammar.  A reader that knows brackets and quotes, independent of
    how the text is made. *)
From Coq Require String.
From Verif Require Import Base TokenModel EarleyModel PredicateModel PipelineModel RuleModel RuleSpec GrammarModel LabelModel.
Import String.StringSyntax.
Open Scope nat_scope.

(** ** Words: pieces between spaces that are outside of brackets and quotes *)
(** How many brackets are open, and the open quote with a flag after a backslash. *)
Definition place : Type := nat * option (N * bool).
Definition outside : place := (0, None).
Definition next_place (p : place) (x : N) : option place :=
  match p with
  | (d, Some (q, true)) => Some (d, Some (q, false))
  | (d, Some (q, false)) => if N.eqb x 92 then Some (d, Some (q, true)) else if N.eqb x q then Some (d, None) else Some p
  | (d, None) =>
      if N.eqb x 40 || N.eqb x 91 || N.eqb x 123 then Some (S d, None)
      else if N.eqb x 41 || N.eqb x 93 || N.eqb x 125 then match d with 0 => None | S d' => Some (d', None) end
      else if N.eqb x 39 || N.eqb x 34 then Some (d, Some (x, false))
      else Some p
  end.
Definition is_outside (p : place) : bool := match p with (0, None) => true | _ => false end.
Fixpoint words_from (p : place) (current : str) (s : str) : option (list str) :=
  match s with
  | [] => if is_outside p then Some [current] else None
  | x :: s' =>
      if is_outside p && N.eqb x 32 then option_map (cons current) (words_from outside [] s')
      else match next_place p x with Some p' => words_from p' (current ++ [x]) s' | None => None end
  end.
Definition words (s : str) : option (list str) := words_from outside [] s.

(** A text that is one word. *)
Fixpoint ends_at (p : place) (s : str) : option place :=
  match s with
  | [] => Some p
  | x :: s' => if is_outside p && N.eqb x 32 then None else match next_place p x with Some p' => ends_at p' s' | None => None end
  end.
Definition one_word (s : str) : Prop := ends_at outside s = Some outside.

(** ** Lines *)
Fixpoint groups (bar : str) (ws : list str) : list (list str) :=
  match ws with
  | [] => [[]]
  | w :: ws' =>
      if str_eqb w bar then [] :: groups bar ws'
      else match groups bar ws' with g :: gs => (w :: g) :: gs | [] => [[w]] end
  end.
(** What a line says: a rule with the labels of its terms and the number of the main
    term, or a dictionary. *)
Inductive body := Productions (l : list (list str * nat)) | Dictionary (k : PipelineModel.kind).
Definition marked (w : str) : bool := match w with 94%N :: _ => true | _ => false end.
Definition unmarked (w : str) : str := match w with 94%N :: w' => w' | _ => w end.
Fixpoint main_of (ws : list str) : nat :=
  match ws with
  | [] => 0
  | w :: ws' => if marked w then 0 else if existsb marked ws' then S (main_of ws') else 0
  end.
Definition read_production (ws : list str) : list str * nat :=
  match ws with
  | [w] => if str_eqb w (str_of "e") then ([], 0) else ([unmarked w], 0)
  | _ => (map unmarked ws, main_of ws)
  end.
Definition read_body (gs : list (list str)) : body :=
  match gs with
  | [[w]] =>
      if str_eqb w (str_of "pipeline") then Dictionary Exact
      else if str_eqb w (str_of "caseless_pipeline") then Dictionary Caseless
      else if str_eqb w (str_of "morph_pipeline") then Dictionary Morph
      else Productions (map read_production gs)
  | _ => Productions (map read_production gs)
  end.
Definition read_line (s : str) : option (str * body) :=
  match words s with
  | Some (name :: arrow :: ws) => if str_eqb arrow (str_of "->") then Some (name, read_body (groups (str_of "|") ws)) else None
  | _ => None
  end.

(** ** Labels that do no harm *)
Definition clean (l : str) : Prop :=
  one_word l /\ l <> [] /\ marked l = false /\ ~ In l [str_of "|"; str_of "e"; str_of "pipeline"; str_of "caseless_pipeline"; str_of "morph_pipeline"].

Section Shows.
  Variable label_of_pred : predicate -> res str.
  Variable label_of_interp : nat -> res str.
  Variable label_of_relation : nat -> str.
  Variable h : rule_heap.
  Notation rule_label := (rule_label label_of_interp label_of_relation h).
  Notation term_label := (term_label label_of_pred label_of_interp label_of_relation h).
  (** The line says what the production or rule is. *)
  Definition shows_production (q : nat) (x : list str * nat) : Prop :=
    (exists ts main, nth_error h q = Some (OProd ts main) /\ Forall2 (fun t l => term_label t = Ok (Some l)) ts (fst x) /\ snd x = (if main <? length ts then main else 0)) \/
    (nth_error h q = Some OEmptyProd /\ x = ([], 0)).
  Definition shows (r : nat) (x : str * body) : Prop :=
    rule_label r = Ok (Some (fst x)) /\
    match nth_error h r with
    | Some (OBNF ps _) => exists l, snd x = Productions l /\ Forall2 shows_production ps l
    | Some (OPipeBNF b _ _) => snd x = Dictionary (b_kind b)
    | _ => False
    end.
  (** The labels of the rules and of their terms do no harm, and only the special
      production is empty. *)
  Definition clean_labels (rules : list nat) : Prop :=
    forall r, In r rules -> (forall l, rule_label r = Ok (Some l) -> clean l) /\
      match nth_error h r with
      | Some (OBNF ps _) => ps <> [] /\ forall q, In q ps -> match nth_error h q with
          | Some (OProd ts main) => ts <> [] /\ forall t l, In t ts -> term_label t = Ok (Some l) -> clean l
          | Some OEmptyProd => True
          | _ => False
          end
      | _ => True
      end.
  (** Every rule has its own label, different from the labels of predicates. *)
  Definition own_labels (rules : list nat) : Prop :=
    NoDup rules /\ (forall r r' l, In r rules -> In r' rules -> rule_label r = Ok (Some l) -> rule_label r' = Ok (Some l) -> r = r') /\
    (forall r r' ps a q ts main p l, In r rules -> In r' rules -> nth_error h r = Some (OBNF ps a) -> In q ps -> nth_error h q = Some (OProd ts main) ->
      In (TPred p) ts -> label_of_pred p = Ok l -> rule_label r' <> Ok (Some l)).
End Shows.

(** ** Printing *)
Definition rule_interp (h : rule_heap) (r : nat) : option nat :=
  match nth_error h r with Some (OBNF _ a) | Some (OPipeBNF _ _ a) => a_interp a | _ => None end.
(** Every interpretator of a rule and every predicate in a production has a label. *)
Definition printable (label_of_pred : predicate -> res str) (label_of_interp : nat -> res str) (h : rule_heap) (rules : list nat) : Prop :=
  forall r, In r rules -> (forall i, rule_interp h r = Some i -> exists s, label_of_interp i = Ok s) /\
    forall ps a q ts main p, nth_error h r = Some (OBNF ps a) -> In q ps -> nth_error h q = Some (OProd ts main) -> In (TPred p) ts -> exists s, label_of_pred p = Ok s.

(** ** Two printed grammars *)
(** The predicate stands in a production of one of the rules. *)
Definition predicate_in (h : rule_heap) (rules : list nat) (p : predicate) : Prop :=
  exists r ps a q ts main, In r rules /\ nth_error h r = Some (OBNF ps a) /\ In q ps /\ nth_error h q = Some (OProd ts main) /\ In (TPred p) ts.
Definition no_dictionaries (h : rule_heap) (rules : list nat) : Prop :=
  forall r, In r rules -> exists ps a, nth_error h r = Some (OBNF ps a).
(** Predicates whose labels are complete: the arguments are printed, and nothing else
    prints the same. *)
Definition told (p : predicate) : Prop :=
  match p with
  | PTrue | PIsLower | PIsUpper | PIsTitle | PIsCapitalized | PIsSingle
  | PEq _ | PGram _ | PLengthEq _ | PGte _ | PLte _ | PCaseless _ | PType _ | PTag _ => True
  | _ => False
  end.

(** ** Labels of predicates and interpretators *)
(** The functions given to custom, inside and_, or_, not_ too. *)
Fixpoint custom_functions (p : predicate) : list (str -> res bool) :=
  match p with
  | PCustom f _ => [f]
  | PAnd ps | POr ps => flat_map custom_functions ps
  | PNot q => custom_functions q
  | _ => []
  end.
(** Every function has a name, every inflected has grams. *)
Definition morph_told (m : morph_syntax) : Prop := match m with LInflected None => False | _ => True end.
Definition normalizer_told (n : normalizer_syntax) : Prop :=
  match n with
  | LMorph m => morph_told m
  | LConst _ => True
  | LFunction f => f <> None
  | LFunctionFunction f f' => f <> None /\ f' <> None
  | LMorphFunction m f => morph_told m /\ f <> None
  end.
Definition interpretator_told (i : interpretator_syntax) : Prop :=
  match i with
  | LNormalizer n | LAttributeNormalizer _ _ n => normalizer_told n
  | _ => True
  end.

