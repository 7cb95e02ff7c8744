(** Specification vocabulary for relations: which tokens of a match are joined,
    and what it means for a choice of forms to satisfy them. *)
From Verif Require Import Base TokenModel EarleyModel TreeModel TreeSpec RelationModel.

Section RelationSpec.
  Context {pred : Type}.
  Variable g : grammar token pred.
  Notation node := (node token pred).

  (** The main leaf of a node: follow the designated child. *)
  Inductive main_leaf : node -> @leaf pred -> Prop :=
  | main_here id pos p tk : main_leaf (Leaf id pos p tk) (id, pos, p, tk)
  | main_child id r q rank ch c l : nth_error ch (g_main g q) = Some c ->
      main_leaf c l -> main_leaf (Node id r q rank ch) l.

  (** The nodes of a tree whose rule carries a relation, in reading order. *)
  Definition relation_nodes (root : node) : list (nat * node) :=
    flat_map (fun n =>
      match n with
      | Leaf _ _ _ _ => []
      | Node _ r _ _ _ => match g_relation g r with Some ro => [(ro, n)] | None => [] end
      end) (walk root).

  (** [related root rl]: [rl] lists, for every node with a relation, the relation
      and the node's main leaf. *)
  Definition related (root : node) (rl : list (nat * @leaf pred)) : Prop :=
    Forall2 (fun a b => fst a = fst b /\ main_leaf (snd a) (snd b)) (relation_nodes root) rl.

  (** Two entries joined by relation [ro]: they carry the same relation object
      and the first is listed before the second. *)
  Definition joined (rl : list (nat * @leaf pred)) (ro : nat) (a b : @leaf pred) : Prop :=
    exists p q r, rl = p ++ (ro, a) :: q ++ (ro, b) :: r.

  (** Every relation of a candidate tree has its tokens: the tree, without its
      empty parts, has a main leaf for each relation, holding a token with
      forms. *)
  Definition relations_apply (trees : list (node * (nat * nat))) : Prop :=
    forall n range n', In (n, range) trees -> propagate n = Some n' ->
      exists rl, related n' rl /\ forall ro id pos p tk, In (ro, (id, pos, p, tk)) rl -> t_forms tk <> None.

  (** No leaf that is related in one candidate tree is part of a candidate with
      another range. *)
  Definition unshared (trees : list (node * (nat * nat))) : Prop :=
    forall t u u' rl ro l, In t trees -> In u trees -> snd t <> snd u ->
      propagate (fst u) = Some u' -> related u' rl -> In (ro, l) rl -> ~ In l (tree_leaves (fst t)).
End RelationSpec.

(** The form occurs in the token's forms. *)
Definition has_form (t : token) (f : form) : Prop :=
  exists fs f', t_forms t = Some fs /\ In f' fs /\ form_eqb f f' = true.

(** The relation does not tell equal forms apart. *)
Definition respects_forms (rel : nat -> form -> form -> bool) : Prop :=
  forall r a a' b b', form_eqb a a' = true -> form_eqb b b' = true -> rel r a b = rel r a' b'.

(** [a] is obtained from [b] by dropping elements. *)
Inductive sublist {A} : list A -> list A -> Prop :=
| sub_nil : sublist [] []
| sub_skip x a b : sublist a b -> sublist a (x :: b)
| sub_keep x a b : sublist a b -> sublist (x :: a) (x :: b).

(** No two equal forms. *)
Definition distinct_forms (l : list form) : Prop :=
  forall p a q b r, l = p ++ a :: q ++ b :: r -> form_eqb a b = false.

(** A choice of one form for each position of the text.  It is consistent for a
    match whose related leaves are [rl] and hold the tokens [held]: every related
    token has the chosen form, and the relation holds between the forms chosen
    for any two tokens it joins. *)
Definition consistent {pred} (rel : nat -> form -> form -> bool) (rl : list (nat * @leaf pred))
    (held : @leaf pred -> token) (w : nat -> form) : Prop :=
  (forall ro l, In (ro, l) rl -> has_form (held l) (w (leaf_pos l))) /\
  (forall ro a b, joined rl ro a b -> rel ro (w (leaf_pos a)) (w (leaf_pos b)) = true).

(** The token a chart leaf was made with. *)
Definition leaf_tk {pred} (l : @leaf pred) : token := let '(_, _, _, tk) := l in tk.

(** [ts] are the tokens of a match with leaves [ls]; [token_of ls ts l t]: [t] is
    the one of leaf [l]. *)
Definition token_of {pred} (ls : list (@leaf pred)) (ts : list token) (l : @leaf pred) (t : token) : Prop :=
  exists k, nth_error ls k = Some l /\ nth_error ts k = Some t.

(** A relation all of whose custom parts satisfy [Q]. *)
Fixpoint customs_are (Q : (form -> form -> bool) -> Prop) (r : relation) : Prop :=
  match r with
  | RAnd rs | ROr rs => (fix all rs := match rs with [] => True | r :: rs' => customs_are Q r /\ all rs' end) rs
  | RNot r => customs_are Q r
  | RCustom c => Q c
  | _ => True
  end.
