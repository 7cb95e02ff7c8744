(** What is said about pattern strings: every pattern read and matched on its own. *)
From Verif Require Import Base TokenModel RuleModel TokenizerModel DotTextModel PatternModel.
Open Scope nat_scope.

(** A pattern that [re] accepts on its own. *)
Definition alone (pattern : str) (e : expression) : Prop := re_compile pattern = Some (Ok e).
(** No references to groups by number (\1). *)
Definition unnumbered (pattern : str) : Prop :=
  forall l k, symbols (length pattern) pattern = Some (Ok l) -> ~ In (SRef k) l.
Definition names_of (e : expression) : list str := map fst (snd e).

(** The expressions of the rules, each of its pattern alone. *)
Definition each_alone (rules : list string_rule) (es : list expression) : Prop :=
  Forall2 (fun r e => alone (sr_pattern r) e) rules es.
(** No group name is used twice, counting those made for the rules. *)
Definition distinct_names (rules : list string_rule) (es : list expression) : Prop :=
  NoDup (flat_map (fun '(r, e) => rule_name r :: names_of e) (combine rules es)).

(** The matches of the rules at a place, each pattern on its own, in the order of the rules. *)
Definition own_matches (C : alphabet) (text : str) (e : expression) (i : nat) : list nat := map fst (places C text (fst e) (i, [])).
Definition own_alternatives (C : alphabet) (rules : list string_rule) (es : list expression) (text : str) (i : nat) : list (nat * option str) :=
  flat_map (fun '(r, e) => map (fun j => (j, Some (sr_type r))) (own_matches C text e i)) (combine rules es).

(** A token comes from the first rule whose pattern, on its own, matches there (or, right after an empty match, matches
    something that is not empty there), and it is the first such match of that pattern. *)
Definition longer (s : nat) (l : list nat) : list nat := filter (fun j => negb (Nat.eqb j s)) l.
Definition first_match (wanted : list nat -> list nat) (C : alphabet) (text : str) (before : list expression) (x : expression) (s e : nat) : Prop :=
  hd_error (wanted (own_matches C text x s)) = Some e /\ forall y, In y before -> wanted (own_matches C text y s) = [].
Definition from_rule (C : alphabet) (rules : list string_rule) (es : list expression) (text : str) (s e : nat) (ty : str) : Prop :=
  exists before r after ebefore x eafter,
    rules = before ++ r :: after /\ es = ebefore ++ x :: eafter /\ length before = length ebefore /\ ty = sr_type r /\
    (first_match (fun l => l) C text ebefore x s e \/ first_match (longer s) C text ebefore x s e).

(** A letter with a quantifier: how many characters in a row are that letter, in either case; the places after
    so many of them, the fewest first. *)
Fixpoint run (letter : N -> bool) (s : str) : nat := match s with x :: s' => if letter x then S (run letter s') else 0 | [] => 0 end.
Definition is_letter (C : alphabet) (c x : N) : bool := in_set (al_chars C) [(c, c)] x.
Definition fewest_first (min : nat) (max : option nat) (i n : nat) : list nat :=
  seq (i + min) (S (match max with Some m => Nat.min m n | None => n end) - min).
Definition QUANTIFIERS : list (str * (nat * option nat)) := [(str_of "*", (0, None)); (str_of "+", (1, None)); (str_of "?", (0, Some 1))].

(** Without references at all. *)
Fixpoint unreferring (r : re) : Prop :=
  match r with
  | Ref _ => False
  | Empty | One _ | Anchor _ => True
  | Look _ r | Rep _ _ _ r | Group _ r => unreferring r
  | Seq a b | Alt a b => unreferring a /\ unreferring b
  end.
(** The expression as a tree of TokenizerModel.v: groups do not matter. *)
Section Tree.
  Variable C : alphabet.
  Fixpoint lazy_upto (n : nat) (a : regex) : regex :=
    match n with O => REmpty | S n' => RAlt REmpty (RSeq a (lazy_upto n' a)) end.
  Definition some_end (text : str) (r : regex) (i : nat) : bool := match ends text r i with [] => false | _ => true end.
  Fixpoint tree (r : re) : regex :=
    match r with
    | Empty => REmpty
    | One o => RSet (in_one C o)
    | Anchor a => RAssert (anchored C a)
    | Ref _ => RAssert (fun _ _ => false)
    | Look negated r => RAssert (fun text i => xorb negated (some_end text (tree r) i))
    | Seq a b => RSeq (tree a) (tree b)
    | Alt a b => RAlt (tree a) (tree b)
    | Rep min max greedy r =>
        rtimes min (tree r)
          match max with
          | None => RStar greedy (tree r)
          | Some n => if greedy then rupto (n - min) (tree r) else lazy_upto (n - min) (tree r)
          end
    | Group _ r => tree r
    end.
  Definition tree_rule (r : string_rule) (e : expression) : token_rule := mkRule (sr_id r) (sr_type r) (Some (tree (fst e))).
  Definition tree_rules (rules : list string_rule) (es : list expression) : list token_rule :=
    map (fun '(r, e) => tree_rule r e) (combine rules es).
End Tree.

(** The rules of tokenizer.py 25-50 by number, as strings and as the trees of TokenizerModel.v; a list gives the identity of the object and the number. *)
Definition known_string (p : nat * nat) : string_rule :=
  let '(ty, pattern) := nth (snd p) PATTERNS ([], []) in mkStringRule (fst p) ty pattern.
Definition known_tree (C : chars) (p : nat * nat) : token_rule :=
  let r := nth (snd p) (RULES C ++ [EMAIL_RULE C; PHONE_RULE C]) (mkRule 0 [] None) in mkRule (fst p) (r_type r) (r_pattern r).
