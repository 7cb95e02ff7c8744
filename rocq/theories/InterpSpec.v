(** Specification vocabulary for interpretation. *)
From Verif Require Import Base TokenModel EarleyModel TreeModel TreeSpec ParserModel InterpModel.

(** ** Condensed trees (C32) *)
Section Condensed.
  Context {pred : Type}.
  Notation node := (node token pred).
  Variable g : grammar token pred.

  (** The node's rule has an interpretation. *)
  Definition interpreted (n : node) : Prop :=
    exists id r q rank ch i, n = Node id r q rank ch /\ g_interp g r = Some i.
  Definition a_leaf (n : node) : Prop := exists id pos p tk, n = Leaf id pos p tk.

  (** [p] leads from [n] down to a leaf or an interpreted node without passing
      through an interpreted one. *)
  Definition nearest (n : node) (p : list nat) : Prop :=
    p <> [] /\
    (exists m, subtree n p = Some m /\ (a_leaf m \/ interpreted m)) /\
    (forall p1 p2 m, p = p1 ++ p2 -> p1 <> [] -> p2 <> [] -> subtree n p1 = Some m -> ~ interpreted m).

  (** Every node is interpreted and its children are what is nearest below it, in
      reading order. *)
  Inductive condensed : node -> node -> Prop :=
  | condensed_leaf id pos p tk : condensed (Leaf id pos p tk) (Leaf id pos p tk)
  | condensed_node id r q rank ch i ps ch' :
      g_interp g r = Some i ->
      (forall p, In p ps <-> nearest (Node id r q rank ch) p) ->
      (forall a p b p' c, ps = a ++ p :: b ++ p' :: c -> before p p') ->
      Forall2 (fun p c' => exists c, subtree (Node id r q rank ch) p = Some c /\ condensed c c') ps ch' ->
      condensed (Node id r q rank ch) (Node id r q rank ch').
End Condensed.

(** ** Facts (C39, C40) *)

(** The values given to attribute [k] of class [sc] by the items, in order. *)
Definition assigned (subclass : nat -> nat -> bool) (sc : nat) (k : str) (items : list item) : list result :=
  flat_map (fun i => match i with
                     | IResult (RAttr v a) => if subclass sc (a_fact a) && str_eqb k (a_name a) then [v] else []
                     | _ => []
                     end) items.

(** [k] was set in the partial fact. *)
Definition changed (k : str) (f : ifact) : bool :=
  match f with mkFact _ _ chg _ => str_in k chg end.
Definition fact_class (f : ifact) : nat := match f with mkFact sc _ _ _ => sc end.

(** The item is a partial fact of the class (or of a subclass) that sets [k]. *)
Definition part_sets (subclass : nat -> nat -> bool) (sc : nat) (k : str) (i : item) : bool :=
  match i with
  | IResult (RFact f) => subclass (fact_class f) sc && changed k f
  | _ => false
  end.

(** The item is for this class. *)
Definition relevant (subclass : nat -> nat -> bool) (sc : nat) (i : item) : bool :=
  match i with
  | IResult (RAttr _ a) => subclass sc (a_fact a)
  | IResult (RFact f) => subclass (fact_class f) sc
  | _ => false
  end.

Definition repeatable_attr (schemes : nat -> scheme) (sc : nat) (k : str) : Prop :=
  get_decl k (schemes sc) = Some Repeatable.
(** Subclasses do not change attributes from plain to repeatable or back. *)
Definition kinds_agree (schemes : nat -> scheme) (subclass : nat -> nat -> bool) : Prop :=
  forall sc sc' k, subclass sc' sc = true -> (repeatable_attr schemes sc' k <-> repeatable_attr schemes sc k).
(** Subclasses have the attributes of the class. *)
Definition names_agree (schemes : nat -> scheme) (subclass : nat -> nat -> bool) : Prop :=
  forall sc sc', subclass sc' sc = true -> forall k, get_decl k (schemes sc') = None <-> get_decl k (schemes sc) = None.

(** ** JSON (C41) *)

(** No Fact instance inside. *)
Fixpoint no_fact (v : pyval) : bool :=
  match v with
  | VFact _ _ _ => false
  | VList l => forallb no_fact l
  | VDict d => forallb (fun p => no_fact (snd p)) d
  | _ => true
  end.
Definition is_none (v : pyval) : bool := match v with VNone => true | _ => false end.
(** The value with every fact replaced by the dictionary of its attributes that are
    not None. *)
Fixpoint to_json (v : pyval) : pyval :=
  match v with
  | VFact _ attrs _ =>
      VDict (filter (fun p => negb (is_none (snd p))) (map (fun p => (fst p, to_json (snd p))) attrs))
  | VList l => VList (map to_json l)
  | v => v
  end.
Definition fact_free (v : pyval) : Prop := no_fact v = true.
(** Whatever the normalizer returns satisfies [Q] (morphological normalizers return
    strings). *)
Definition normalizer_values (Q : pyval -> Prop) (n : normalizer) : Prop :=
  match n with
  | NMorph _ => True
  | NConst v => Q v
  | NFunction f | NMorphFunction _ f | NFunctionFunction _ f => forall x y, f x = Ok y -> Q y
  end.
Definition interpretator_values (Q : pyval -> Prop) (i : interpretator) : Prop :=
  match i with INorm n | IAttrNorm _ n => normalizer_values Q n | _ => True end.
Definition is_fact (v : pyval) : Prop := exists sc attrs raw, v = VFact sc attrs raw.

(** ** Spans (C42) *)

(** [ts] is a run of tokens kept by the result. *)
Inductive chain_in : result -> list token -> Prop :=
| chain_here ts key : chain_in (RChain ts key) ts
| chain_attr r a ts : chain_in r ts -> chain_in (RAttr r a) ts
| chain_norm v r ts : chain_in r ts -> chain_in (RNorm v (NResult r)) ts
| chain_plain sc rep chg attrs k r ts :
    In (k, SResult r) attrs -> chain_in r ts -> chain_in (RFact (mkFact sc rep chg attrs)) ts
| chain_list sc rep chg attrs k l r ts :
    In (k, SList l) attrs -> In r l -> chain_in r ts -> chain_in (RFact (mkFact sc rep chg attrs)) ts.

(** The root of the tree is interpreted into class [sc]. *)
Definition root_class {pred} (g : grammar token pred) (interps : nat -> interpretator) (n : node token pred) (sc : nat) : Prop :=
  exists id r q rank ch i, n = Node id r q rank ch /\ g_interp g r = Some i /\ interps i = IFact sc.

(** The parser has given out the match; [s] is the state of the leaves when its fact
    is asked for: after findall or match, or after any number of steps of
    extract. *)
Inductive reported {pred} (accepts : pred -> token -> bool) constrain rel g fuel toks : store -> @amatch pred -> Prop :=
| reported_findall s ms m :
    findall accepts constrain rel g fuel toks = Some (Ok (s, ms)) -> In m ms ->
    reported accepts constrain rel g fuel toks s m
| reported_match s m :
    match_ accepts constrain rel g fuel toks = Some (Ok (s, Some m)) ->
    reported accepts constrain rel g fuel toks s m
| reported_extract all trees k ms s e m :
    parse accepts constrain g fuel toks all = Some trees ->
    prepare_matches rel g (firstn k trees) [] = (ms, s, e) -> In m ms ->
    reported accepts constrain rel g fuel toks s m.

(** ** Normalizers and inputs (C43, C44) *)
Definition is_token_item (i : item) : Prop := exists t, i = IToken t.
(** Not all tokens, and not a single item. *)
Definition ambiguous (items : list item) : Prop :=
  (exists i, In i items /\ ~ is_token_item i) /\ length items <> 1.
(** Interpretators return attribute, fact or normalizer results. *)
Definition proper_item (i : item) : Prop :=
  match i with IResult (RChain _ _) => False | _ => True end.
Definition is_const (n : normalizer) : bool := match n with NConst _ => true | _ => false end.
Definition const_interpretator (i : interpretator) : bool :=
  match i with INorm n | IAttrNorm _ n => is_const n | _ => false end.

(** ** Text (C45) *)

(** The text of a list of tokens: their values, with one space where the text has a
    gap. *)
Inductive joined : list token -> str -> Prop :=
| joined_one t : joined [t] (t_value t)
| joined_gap a b l s : (t_stop a < t_start b)%Z -> joined (b :: l) s -> joined (a :: b :: l) (t_value a ++ 32%N :: s)
| joined_adjacent a b l s : (t_start b <= t_stop a)%Z -> joined (b :: l) s -> joined (a :: b :: l) (t_value a ++ s).

(** The word normalized() and inflected() put in place of a token: of the first form, if the
    token has forms, and lower case otherwise. *)
Definition new_word (inflect : nat -> list str -> option str) (m : morph_normalizer) (f : form) (w : str) : Prop :=
  match m with
  | MNormalized => w = f_normalized f
  | MInflected grams => inflect (f_raw f) grams = Some w \/ inflect (f_raw f) grams = None /\ w = f_normalized f
  end.
Definition reworded (U : unicode) inflect (m : morph_normalizer) (t t' : token) : Prop :=
  t_start t' = t_start t /\ t_stop t' = t_stop t /\
  (t_forms t = None /\ t_value t' = u_lower U (t_value t) \/
   exists f fs, t_forms t = Some (f :: fs) /\ new_word inflect m f (t_value t')).

(** The value an interpretator gives to its part: the normalized result. *)
Definition value_of (schemes : nat -> scheme) subclass U inflect (i : interpretator) (items : list item) (key : option str) : res pyval :=
  let! r := call_interpretator schemes subclass U inflect i items key in normalized_result schemes r.

(** Consecutive tokens leave at most one character between them, a space. *)
Fixpoint single_spaces (text : str) (ts : list token) : Prop :=
  match ts with
  | a :: (b :: _) as rest =>
      (t_start b = t_stop a \/
       t_start b = (t_stop a + 1)%Z /\ nth_error text (Z.to_nat (t_stop a)) = Some 32%N) /\
      single_spaces text rest
  | _ => True
  end.

(** What an interpretator works on: the run of tokens, or the single item. *)
Definition source_of (items : list item) (key : option str) (r : result) : Prop :=
  (exists ts, items = map IToken ts /\ r = RChain ts key) \/ items = [IResult r].
(** The attribute an object derives from. *)
Definition base_attr (x : attribute) : attr :=
  match x with
  | AAttribute a | ARepeatable a | AMorph a _ | AConst a _ | AFunction a _ | AFunctionFunction a _ _ | AMorphFunction a _ _ => a
  end.
