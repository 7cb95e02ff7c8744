(** Model of yargy/pipelines.py. *)
From Verif Require Import Base TokenModel EarleyModel TokenizerModel PredicateModel.

(** pipelines.py 78-83. *)
Record key (T : Type) := mkKey { k_value : str; k_terms : list T }.
Arguments mkKey {T}. Arguments k_value {T}. Arguments k_terms {T}.

(** pipelines.py 94-130 (pipelines) and 133-172 (schemes).  The terms of a MorphPipeline
    are sets of normal forms (as lists). *)
Inductive pipeline :=
| Pipeline (keys : list (key str))
| CaselessPipeline (keys : list (key str))
| MorphPipeline (keys : list (key (list str)))
| PipelineScheme (lines : list str)
| CaselessPipelineScheme (lines : list str)
| MorphPipelineScheme (lines : list str).

(** [tokenizer.split(line)] (tokenizer.py 107-108).  The fuel is enough (theorem
    tokenizing_terminates), so the second branch is never taken. *)
Definition split_line (t : tokenizer) (line : str) : res (list str) :=
  match split (2 * length line + 1) t line with
  | Some r => r
  | None => Err ValueError
  end.

(** pipelines.py 145-149. *)
Definition get_key (c : context) (line : str) : res (key str) :=
  let! parts := split_line (c_tokenizer c) line in Ok (mkKey line parts).
(** pipelines.py 167-172. *)
Definition get_morph_key (c : context) (line : str) : res (key (list str)) :=
  let! parts := split_line (c_tokenizer c) line in
  let! terms := mapM (fun part => let! m := get_morph c in Ok (mo_normalized m part)) parts in
  Ok (mkKey line terms).

(** [pipeline.activate(context)]: pipelines.py 103-104, 151-155. *)
Definition activate_pipeline (c : context) (p : pipeline) : res pipeline :=
  match p with
  | PipelineScheme lines => let! keys := mapM (get_key c) lines in Ok (Pipeline keys)
  | CaselessPipelineScheme lines => let! keys := mapM (get_key c) lines in Ok (CaselessPipeline keys)
  | MorphPipelineScheme lines => let! keys := mapM (get_morph_key c) lines in Ok (MorphPipeline keys)
  | _ => Ok p
  end.

Section Unicode.
  Variable U : unicode.
  (** The iteration order of a Python set made from the elements of a list: external. *)
  Variable set_order : list str -> list str.

  (** pipelines.py 106-112: line and predicates of each production.  A scheme has no
      attribute [keys]. *)
  Definition pipeline_productions (p : pipeline) : res (list (str * list predicate)) :=
    match p with
    | Pipeline keys => Ok (map (fun k => (k_value k, map PEq (k_terms k))) keys)
    | CaselessPipeline keys => Ok (map (fun k => (k_value k, map (caseless U) (k_terms k))) keys)
    | MorphPipeline keys => Ok (map (fun k => (k_value k, map PDictionary (k_terms k))) keys)
    | _ => Err AttributeError
    end.

  (** The dictionary [index]: value to production numbers. *)
  Definition index := list (str * list nat).
  Fixpoint index_get (i : index) (v : str) : list nat :=
    match i with
    | [] => []
    | (v', qs) :: i' => if str_eqb v v' then qs else index_get i' v
    end.
  (** [index[value].append(production)] with a defaultdict. *)
  Fixpoint index_add (v : str) (q : nat) (i : index) : index :=
    match i with
    | [] => [(v, [q])]
    | (v', qs) :: i' => if str_eqb v v' then (v', qs ++ [q]) :: i' else (v', qs) :: index_add v q i'
    end.

  (** The values under which a production is filed: [term.value] (pipelines.py 28), each
      element of the set [term.value] (pipelines.py 60). *)
  Definition index_values (p : predicate) : list str :=
    match p with
    | PEq v => [v]
    | PCaseless v => [v]
    | PDictionary vs => set_order vs
    | _ => []
    end.

  (** pipelines.py 24-29, 56-62: [production.terms[0]] raises on an empty production. *)
  Fixpoint build_index (q : nat) (productions : list (list predicate)) (i : index) : res index :=
    match productions with
    | [] => Ok i
    | [] :: _ => Err IndexError
    | (term :: _) :: rest =>
        build_index (S q) rest (fold_left (fun i v => index_add v q i) (index_values term) i)
    end.

  Inductive kind := Exact | Caseless | Morph.
  (** pipelines.py 16-75: a rule; production number [q] is the [q]-th of the list. *)
  Record pipeline_bnf := mkPipelineBNF {
    b_kind : kind;
    b_productions : list (str * list predicate);
    b_index : index }.

  Definition pipeline_kind (p : pipeline) : kind :=
    match p with
    | Pipeline _ | PipelineScheme _ => Exact
    | CaselessPipeline _ | CaselessPipelineScheme _ => Caseless
    | MorphPipeline _ | MorphPipelineScheme _ => Morph
    end.

  (** pipelines.py 114-116, 19-22. *)
  Definition pipeline_as_bnf (p : pipeline) : res pipeline_bnf :=
    let! productions := pipeline_productions p in
    let! i := build_index 0 (map snd productions) [] in
    Ok (mkPipelineBNF (pipeline_kind p) productions i).

  (** pipelines.py 31-34, 46-50, 64-75.  [token.normalized] of a token without forms is
      [value.lower()] (token.py 14-16). *)
  Definition pipeline_predict (b : pipeline_bnf) (t : token) : list nat :=
    match b_kind b with
    | Exact => index_get (b_index b) (t_value t)
    | Caseless => index_get (b_index b) (u_lower U (t_value t))
    | Morph =>
        match t_forms t with
        | Some fs => flat_map (index_get (b_index b)) (set_order (map f_normalized fs))
        | None => index_get (b_index b) (u_lower U (t_value t))
        end
    end.

  Definition production_numbers (b : pipeline_bnf) : list nat := seq 0 (length (b_productions b)).
  Definition production_terms (b : pipeline_bnf) (q : nat) : list (term predicate) :=
    match nth_error (b_productions b) q with
    | Some (_, ps) => map TPred ps
    | None => []
    end.
  Definition production_key (b : pipeline_bnf) (q : nat) : option str :=
    option_map fst (nth_error (b_productions b) q).

  (** The grammar of a Parser made from a pipeline alone (pipelines.py 175-187, parser.py
      252-255, rule/bnf.py 149-150, 169-170): the pipeline's rule is the start rule. *)
  Definition pipeline_grammar (b : pipeline_bnf) : grammar token predicate :=
    mkGrammar
      (fun r => match r with O => production_numbers b | _ => [] end)
      (fun r t => match r with O => pipeline_predict b t | _ => [] end)
      (production_terms b) (fun _ => 0) (production_key b) (fun _ => None) (fun _ => None) 0.
End Unicode.
