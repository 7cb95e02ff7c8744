(** Properties of the chart as stored in the code, with states compared by
    their hash values (C74).

    Every statement is about an arbitrary grammar [g] over arbitrary predicates,
    an arbitrary sequence of tokens and an arbitrary hash function on the tuples
    of [State.__hash__]. *)
From Verif Require Import Base EarleyModel EarleySpec TokenModel TreeModel ParserModel HashModel HashSpec
  HashTheorems Cases HashCases.
Open Scope nat_scope.

(** ** C74: without collisions the parser with hash values is the parser that
    compares states, so all other theorems hold for it. *)
Theorem hash_values_change_nothing :
  forall pred hash (accepts : pred -> token -> bool) constrain rel g toks fuel st1 st2,
  chart accepts constrain g toks fuel true = Some st1 ->
  chart accepts constrain g toks fuel false = Some st2 ->
  no_collisions hash st1 -> no_collisions hash st2 ->
  hfindall hash accepts constrain rel g fuel toks = findall accepts constrain rel g fuel toks /\
  hmatch hash accepts constrain rel g fuel toks = match_ accepts constrain rel g fuel toks /\
  forall all, hparse hash accepts constrain g fuel toks all = parse accepts constrain g fuel toks all /\
    hextract hash accepts constrain rel g fuel toks all = extract accepts constrain rel g fuel toks all.
Proof. exact hashed_exact. Qed.
Print Assumptions hash_values_change_nothing.

(** A hash function with a million values on "n + n". *)
Example no_collisions_case : forall all, exists st,
  chart word_accepts word_constrain sums three 50 all = Some st /\ no_collisions small_hash st.
Proof. exact three_clear. Qed.
Example hash_values_change_nothing_case :
  show_trees (hparse small_hash word_accepts word_constrain sums 50 three false) =
    Some [((0, 3), DNode 0 0 [DNode 1 1 [DNode 1 2 [DLeaf 0 (str_of "n")]; DLeaf 1 (str_of "+");
                                         DNode 1 2 [DLeaf 2 (str_of "n")]]])].
Proof. vm_compute. reflexivity. Qed.

(** ** C74: whatever the hash function, what is found is right. *)
Theorem hash_values_invent_nothing :
  forall pred hash (accepts : pred -> token -> bool) constrain g toks fuel all trees n i j,
  predict_sound g ->
  hparse hash accepts constrain g fuel toks all = Some trees -> In (n, (i, j)) trees ->
  derives accepts g toks (TRule (g_start g)) i j (erase n) /\
  leaves_ok accepts constrain toks n /\ j <= length toks /\ (all = false -> j = length toks).
Proof. exact hashed_sound. Qed.
Print Assumptions hash_values_invent_nothing.

(** 23 hash values on "n + n + n": one of the two readings is lost, the other
    is reported. *)
Definition hash_23 (x : hash_key) : Z := (small_hash x mod 23)%Z.
Definition five := words ["n"; "+"; "n"; "+"; "n"]%string.
Example hash_values_invent_nothing_case :
  let readings r := option_map (map (fun t => (snd t, erase (fst t)))) r in
  readings (hparse hash_23 word_accepts word_constrain sums 80 five false) =
    option_map (fun l => firstn 1 l ++ skipn 2 l) (readings (parse word_accepts word_constrain sums 80 five false)).
Proof. vm_compute. reflexivity. Qed.

(** ** C74: with finitely many hash values something can be lost. *)
Theorem hash_values_lose_matches_refuted :
  forall rel (hash : hash_key -> Z) lo hi, (forall x, (lo <= hash x < hi)%Z) ->
  exists (g : grammar token bool) accepts constrain toks d fuel,
    predict_sound g /\ predict_complete accepts g /\
    derives accepts g toks (TRule (g_start g)) 0 (length toks) d /\ no_empty_part d /\
    hmatch hash accepts constrain rel g fuel toks = Some (Ok ([], None)) /\
    hfindall hash accepts constrain rel g fuel toks = Some (Ok ([], [])).
Proof. exact hashed_lost. Qed.
Print Assumptions hash_values_lose_matches_refuted.

Example small_hash_case : forall x, (0 <= small_hash x < 1000003)%Z.
Proof. exact small_hash_bounded. Qed.
(** With a single hash value nothing is found in "n + n". *)
Example constant_hash_case :
  hfindall constant_hash word_accepts word_constrain (fun _ _ _ => true) sums 50 three = Some (Ok ([], [])).
Proof. vm_compute. reflexivity. Qed.
