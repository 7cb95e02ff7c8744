(** The text of dot output (C77). *)
From Coq Require String.
From Verif Require Import Base TokenModel EarleyModel TreeModel TreeSpec DotModel DotProofs DotTextModel DotTextSpec DotTextProofs.
Open Scope nat_scope.

(** ** C77.  The text given to dot is read (by the grammar of DOT) as the drawing: every node
    once, in order, with a name of its own and its style, every edge in order with the names
    of its ends.  This holds when no style value has an odd run of backslashes before a
    quote or at its end. *)
Theorem drawing_is_read_back_partial :
  forall p,
  (forall x s, In (x, Some s) (p_nodes p) -> safe_attributes s) -> (forall e s, In (e, Some s) (p_edges p) -> safe_attributes s) ->
  exists name : nat -> str,
    (forall x y, drawn (drawing_of p) x -> drawn (drawing_of p) y -> name x = name y -> x = y) /\
    read_dot (source_text p) = Some
      ([Defaults (str_of "graph") graph_style; Defaults (str_of "node") node_style; Defaults (str_of "edge") edge_style] ++
       map (fun x => ANode (name (fst x)) (read_attributes (snd x))) (p_nodes p) ++
       map (fun x => AnEdge (name (fst (fst x))) (name (snd (fst x))) (read_attributes (snd x))) (p_edges p)).
Proof. exact source_text_read. Qed.
Print Assumptions drawing_is_read_back_partial.

(** The same for the drawing of a tree: nodes in reading order, leaves labelled by their
    words, edges to the children, dashed lines between the nodes of a relation. *)
Theorem tree_drawing_is_read_back_partial :
  forall pred (g : grammar token pred) rule_label relation_label fuel (root : node token pred) p,
  tree_picture g rule_label relation_label fuel root = Some p ->
  (forall q n, subtree root q = Some n -> even_backslashes (label_of rule_label n)) ->
  (forall q n ro, subtree root q = Some n -> relation_of g n = Some ro -> even_backslashes (relation_label ro)) ->
  exists items ps name related,
    map Some items = map (subtree root) ps /\ (forall q, In q ps <-> exists m, subtree root q = Some m) /\ (forall a q b q' c, ps = a ++ q :: b ++ q' :: c -> before q q') /\
    (forall n m, In n items -> In m items -> name (node_id n) = name (node_id m) -> node_id n = node_id m) /\
    (forall s, In s related <-> exists a n b m c ro, items = a ++ n :: b ++ m :: c /\ relation_of g n = Some ro /\ relation_of g m = Some ro /\
      s = AnEdge (name (node_id n)) (name (node_id m)) [(str_of "label", shown (relation_label ro)); (str_of "dir", str_of "none"); (str_of "style", str_of "dashed")]) /\
    read_dot (source_text p) = Some
      ([Defaults (str_of "graph") graph_style; Defaults (str_of "node") node_style; Defaults (str_of "edge") edge_style] ++
       map (fun n => ANode (name (node_id n)) ((str_of "label", shown (label_of rule_label n)) :: match n with
         | Leaf _ _ _ _ => []
         | Node _ r _ _ _ => [(str_of "fillcolor", match g_interp g r with Some _ => str_of "#dbdb8d" | None => str_of "#aec7e8" end)]
         end)) items ++
       flat_map (fun n => map (fun c => AnEdge (name (node_id n)) (name (node_id c)) []) (TreeModel.children n)) items ++ related).
Proof. exact @tree_text_read. Qed.
Print Assumptions tree_drawing_is_read_back_partial.

(** The condition on backslashes is exact: a quoted value is read as that value if and only
    if it holds. *)
Theorem quoted_values_with_even_backslashes :
  forall v rest ts, dot_words rest = Some ts ->
  (dot_words (quote v ++ rest) = Some (Quoted (shown v) :: ts) <-> even_backslashes v).
Proof. exact quote_read. Qed.
Print Assumptions quoted_values_with_even_backslashes.

(** Without it the text of a drawing may be no drawing at all, even for a tree of one token. *)
Theorem drawings_are_readable_refuted :
  exists (g : grammar token unit) t p fuel label, t_value t = [92%N] /\ tree_picture g label label fuel (Node 1 0 0 0 [Leaf 0 0 tt t]) = Some p /\
    read_dot (source_text p) = None.
Proof. exact backslash_leaf. Qed.
Print Assumptions drawings_are_readable_refuted.

(** Quotes, line ends and pairs of backslashes are read back; one backslash is not. *)
Example quote_case :
  dot_words (quote (str_of "say ""hi""") ++ str_of "];") = Some [Quoted (str_of "say ""hi"""); Mark 93; Mark 59] /\
  dot_words (quote [97%N; 10%N; 98%N] ++ str_of "];") = Some [Quoted (str_of "a\nb"); Mark 93; Mark 59] /\
  dot_words (quote (str_of "\\") ++ str_of "];") = Some [Quoted (str_of "\\"); Mark 93; Mark 59] /\
  dot_words (quote (str_of "\") ++ str_of "];") = None /\
  dot_words (quote (str_of "\") ++ str_of ", a=""b]") = Some [Quoted (str_of """, a="); Bare (str_of "b"); Mark 93].
Proof. repeat split; vm_compute; reflexivity. Qed.
(** A tree of two words, one of them a quote, with a relation between its parts. *)
Example tree_text_case :
  let leaf := fun id pos v => Leaf id pos tt (mkToken v 0 0 [] None None) in
  let g := mkGrammar (token := token) (pred := unit) (fun _ => []) (fun _ _ => []) (fun _ => []) (fun _ => 0) (fun _ => None) (fun r => match r with 1 => Some 7 | _ => None end) (fun _ => None) 0 in
  option_map (fun p => read_dot (source_text p))
    (tree_picture g (fun r => str_of (if Nat.eqb r 0 then "Name" else "Part")) (fun _ => str_of "gnc") 20
      (Node 9 0 0 0 [Node 3 1 1 0 [leaf 0 0 (str_of """")]; Node 8 1 1 0 [leaf 4 2 (str_of "ab")]])) =
  Some (Some
    ([Defaults (str_of "graph") graph_style; Defaults (str_of "node") node_style; Defaults (str_of "edge") edge_style] ++
     [ANode (str_of "0") [(str_of "label", str_of "Name"); (str_of "fillcolor", str_of "#aec7e8")];
      ANode (str_of "1") [(str_of "label", str_of "Part"); (str_of "fillcolor", str_of "#aec7e8")];
      ANode (str_of "2") [(str_of "label", str_of """")];
      ANode (str_of "3") [(str_of "label", str_of "Part"); (str_of "fillcolor", str_of "#aec7e8")];
      ANode (str_of "4") [(str_of "label", str_of "ab")];
      AnEdge (str_of "0") (str_of "1") []; AnEdge (str_of "0") (str_of "3") []; AnEdge (str_of "1") (str_of "2") []; AnEdge (str_of "3") (str_of "4") [];
      AnEdge (str_of "1") (str_of "3") [(str_of "label", str_of "gnc"); (str_of "dir", str_of "none"); (str_of "style", str_of "dashed")]])).
Proof. vm_compute. reflexivity. Qed.
Example even_backslashes_case : even_backslashes (str_of """") /\ even_backslashes (str_of "a\b") /\ ~ even_backslashes (str_of "\").
Proof. repeat split; rewrite even_closes; vm_compute; congruence. Qed.
