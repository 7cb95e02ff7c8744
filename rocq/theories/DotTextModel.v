(** Model of the text of a drawing (yargy/dot.py 29-53, 56-149) and of the labels of the
    drawing of a tree (yargy/tree/transformators.py 129-168). *)
From Coq Require String DecimalString.
From Verif Require Import Base TokenModel EarleyModel TreeModel DotModel.
Open Scope nat_scope.

(** [value.replace(a, b)] for a string [a] of one character. *)
Definition replace_char (a : N) (b : str) (value : str) : str :=
  flat_map (fun c => if N.eqb c a then b else [c]) value.
(** dot.py 35-44: [style.quote]; the three replacements in the order of the literal. *)
Definition quote (value : str) : str :=
  let value := replace_char 34 [92%N; 34%N] value in
  let value := replace_char 10 [92%N; 110%N] value in
  let value := replace_char 13 [92%N; 114%N] value in
  [34%N] ++ value ++ [34%N].

(** [separator.join(parts)]. *)
Fixpoint join_with (separator : str) (parts : list str) : str :=
  match parts with
  | [] => []
  | [p] => p
  | p :: parts' => p ++ separator ++ join_with separator parts'
  end.
(** dot.py 46-53: [style.__str__]; attributes in the order of the keywords. *)
Definition style := list (str * str).
Definition style_text (s : style) : str :=
  join_with (str_of ", ") (map (fun x => fst x ++ str_of "=" ++ quote (snd x)) s).

(** dot.py 76-98. *)
Definition graph_style : style :=
  [(str_of "margin", str_of "0"); (str_of "nodesep", str_of "0"); (str_of "ranksep", str_of "0"); (str_of "splines", str_of "splines")].
Definition node_style : style :=
  [(str_of "shape", str_of "box"); (str_of "height", str_of "0"); (str_of "width", str_of "0"); (str_of "fontname", str_of "sans");
   (str_of "fontsize", str_of "10"); (str_of "color", str_of "none"); (str_of "style", str_of "filled"); (str_of "fillcolor", str_of "#eeeeee")].
Definition edge_style : style :=
  [(str_of "fontname", str_of "sans"); (str_of "fontsize", str_of "8"); (str_of "fontcolor", str_of "gray"); (str_of "arrowsize", str_of "0.3"); (str_of "color", str_of "gray")].

(** dot.py 56-74, 105-111: nodes and edges with their styles. *)
Record picture := mkPicture { p_nodes : list (nat * option style); p_edges : list (nat * nat * option style) }.
Definition drawing_of (p : picture) : drawing := mkDrawing (map fst (p_nodes p)) (map fst (p_edges p)).

(** The number of an object in a line. *)
Definition digits (n : nat) : str := str_of (DecimalString.NilZero.string_of_uint (Nat.to_uint n)).
Definition styled (s : style) : str := str_of " [" ++ style_text s ++ str_of "];".
(** dot.py 125-134. *)
Definition node_line (i : nat) (s : option style) : str :=
  digits i ++ match s with Some s => styled s | None => [] end.
(** dot.py 135-145. *)
Definition edge_line (e : nat * nat) (s : option style) : str :=
  digits (fst e) ++ str_of " -> " ++ digits (snd e) ++ match s with Some s => styled s | None => str_of ";" end.
(** dot.py 119-146: the lines of [Graph.source]. *)
Definition source_lines (p : picture) : list str :=
  let (nodes, edges) := source (drawing_of p) in
  [str_of "digraph G {";
   str_of "graph [" ++ style_text graph_style ++ str_of "];";
   str_of "node [" ++ style_text node_style ++ str_of "];";
   str_of "edge [" ++ style_text edge_style ++ str_of "];"] ++
  map (fun x => node_line (fst x) (snd x)) (combine nodes (map snd (p_nodes p))) ++
  map (fun x => edge_line (fst x) (snd x)) (combine edges (map snd (p_edges p))) ++
  [str_of "}"].
(** dot.py 148-149: what [dot] is given. *)
Definition source_text (p : picture) : str := join_with [10%N] (source_lines p).

(** tree/transformators.py 129-168 and tree/constructors.py 110-112, 152-154: a node is
    labelled by its rule, a leaf by its word, an edge between related nodes by the relation.
    The labels of rules and relations are given. *)
Section Tree.
  Context {pred : Type}.
  Variable g : grammar token pred.
  Variable rule_label relation_label : nat -> str.
  Definition node_style_of (n : node token pred) : style :=
    match n with
    | Leaf _ _ _ t => [(str_of "label", t_value t)]
    | Node _ r _ _ _ =>
        [(str_of "label", rule_label r);
         (str_of "fillcolor", match g_interp g r with Some _ => str_of "#dbdb8d" | None => str_of "#aec7e8" end)]
    end.
  Definition relation_style (ro : nat) : style :=
    [(str_of "label", relation_label ro); (str_of "dir", str_of "none"); (str_of "style", str_of "dashed")].
  (** tree/transformators.py 137-149: the lines of each relation. *)
  Definition relation_edges (items : list (node token pred)) : list (nat * nat * option style) :=
    flat_map (fun x => map (fun e => (e, Some (relation_style (fst x)))) (combinations2 (snd x)))
      (fold_left (fun groups n => match relation_of g n with Some ro => add_item ro (node_id n) groups | None => groups end) items []).
  Definition tree_picture (fuel : nat) (root : node token pred) : option picture :=
    match dfs_loop fuel [root] with
    | Some items => Some (mkPicture
        (map (fun n => (node_id n, Some (node_style_of n))) items)
        (flat_map (fun n => map (fun c => (node_id n, node_id c, None)) (TreeModel.children n)) items ++ relation_edges items))
    | None => None
    end.
End Tree.
