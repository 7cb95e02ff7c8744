(** Reading the text of a chart. *)
From Coq Require String.
From Verif Require Import Base EarleyModel DotTextModel LabelModel LabelSpec.
Import String.StringSyntax.
Open Scope nat_scope.

(** The range of an entry. *)
Definition range_word (i j : nat) : str := str_of "[" ++ digits i ++ str_of ":" ++ digits j ++ str_of "]".
(** The words before and after the first dollar. *)
Fixpoint around (ws : list str) : option (list str * list str) :=
  match ws with
  | [] => None
  | w :: ws' => if str_eqb w (str_of "$") then Some ([], ws') else option_map (fun x => (w :: fst x, snd x)) (around ws')
  end.
(** A line: the range, the rule, the terms read, the terms to come. *)
Definition read_state (s : str) : option (str * str * list str * list str) :=
  match words s with
  | Some (range :: name :: arrow :: ws) =>
      if str_eqb arrow (str_of "->") then match around ws with Some (before, after) => Some (range, name, before, after) | None => None end else None
  | _ => None
  end.
(** Labels that do no harm. *)
Definition plain_label (l : str) : Prop := one_word l /\ l <> str_of "$".
(** What a line should say of a state. *)
Definition says {token pred} (g : grammar token pred) (label : term pred -> res (option str)) (s : state token pred) (x : str * str * list str * list str) : Prop :=
  let '(range, name, before, after) := x in
  range = range_word (s_start s) (s_stop s) /\ label (TRule (s_rule s)) = Ok (Some name) /\
  Forall2 (fun t l => label t = Ok (Some l)) (firstn (s_dot s) (g_terms g (s_prod s))) before /\
  Forall2 (fun t l => label t = Ok (Some l)) (skipn (s_dot s) (g_terms g (s_prod s))) after.
(** The blocks of a chart: for every column its number with its token, a line of dashes, the
    states in their order, an empty line. *)
Inductive blocks {token pred} (state_line : state token pred -> str -> Prop) (token_text : nat -> str) (states : nat -> list (state token pred)) : nat -> nat -> list str -> Prop :=
| no_block k : blocks state_line token_text states k 0 []
| a_block k n lines rest : Forall2 state_line (states k) lines -> blocks state_line token_text states (S k) n rest ->
    blocks state_line token_text states k (S n) ((digits k ++ str_of " " ++ token_text k) :: str_of "----------------" :: lines ++ [] :: rest).
