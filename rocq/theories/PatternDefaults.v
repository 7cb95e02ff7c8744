(** The strings of tokenizer.py 25-50 and the trees of TokenizerModel.v. *)
From Verif Require Import Base TokenModel RuleModel TokenizerModel DotTextModel DotTextProofs PredicateProofs PatternModel PatternSpec PatternProofs PatternTheorems.
From Coq Require Import Lia.
Open Scope nat_scope.

Definition same (a b : regex) : Prop := forall text i, ends text a i = ends text b i.
Lemma flat_map_same {A B} (f g : A -> list B) l : (forall x, f x = g x) -> flat_map f l = flat_map g l.
Proof. intro H. induction l as [|x l IH]; [reflexivity|]. cbn. rewrite H, IH. reflexivity. Qed.
Lemma same_refl a : same a a. Proof. intros text i. reflexivity. Qed.
Lemma same_seq a a' b b' : same a a' -> same b b' -> same (RSeq a b) (RSeq a' b').
Proof. intros Ha Hb text i. cbn [ends]. rewrite Ha. apply flat_map_same. apply Hb. Qed.
Lemma same_alt a a' b b' : same a a' -> same b b' -> same (RAlt a b) (RAlt a' b').
Proof. intros Ha Hb text i. cbn [ends]. rewrite Ha, Hb. reflexivity. Qed.
Lemma same_set f g : (forall c, f c = g c) -> same (RSet f) (RSet g).
Proof. intros H text i. cbn [ends]. destruct (nth_error text i) as [c|]; [rewrite H|]; reflexivity. Qed.
Lemma same_star b a a' : same a a' -> same (RStar b a) (RStar b a').
Proof.
  intros H text i. cbn [ends]. generalize (S (length text)). intro n. revert i. induction n as [|n IH]; intro i; [reflexivity|]. cbn [star_ends].
  assert (K : flat_map (fun j => if i <? j then star_ends b (ends text a) n j else [j]) (ends text a i) =
              flat_map (fun j => if i <? j then star_ends b (ends text a') n j else [j]) (ends text a' i)).
  { rewrite H. apply flat_map_same. intro j. rewrite IH. reflexivity. }
  rewrite K. reflexivity.
Qed.
Lemma same_last a a' : same a a' -> same (RSeq a REmpty) a'.
Proof. intros H text i. cbn [ends]. rewrite H. induction (ends text a' i) as [|j l IH]; [reflexivity|]. cbn. rewrite IH. reflexivity. Qed.
Lemma same_plus a a' : same a a' -> same (RSeq a (RStar true a)) (rplus a').
Proof. intro H. apply same_seq; [exact H|apply same_star; exact H]. Qed.
Lemma same_opt a a' : same a a' -> same (RAlt (RSeq a REmpty) REmpty) (ropt a').
Proof. intro H. apply same_alt; [apply same_last; exact H|apply same_refl]. Qed.
Lemma same_upto n a a' : same a a' -> same (rupto n a) (rupto n a').
Proof. intro H. induction n as [|n IH]; [apply same_refl|]. cbn [rupto ropt]. apply same_alt; [apply same_seq; [exact H|exact IH]|apply same_refl]. Qed.
Lemma same_times n a a' b b' : same a a' -> same b b' -> same (rtimes n a b) (rtimes n a' b').
Proof. intros H H'. induction n as [|n IH]; [exact H'|]. cbn [rtimes]. apply same_seq; assumption. Qed.

Definition ranges_codes (l : list (N * N)) : list code := map (fun '(a, b) => CRange a b) l.
Lemma existsb_swap {A B} (f : A -> B -> bool) (l : list A) (m : list B) : existsb (fun a => existsb (f a) m) l = existsb (fun b => existsb (fun a => f a b) l) m.
Proof.
  apply eq_iff_eq_true. rewrite !existsb_exists. split.
  - intros (a & I & K). apply existsb_exists in K. destruct K as (b & J & K). exists b. split; [exact J|]. apply existsb_exists. eauto.
  - intros (b & I & K). apply existsb_exists in K. destruct K as (a & J & K). exists a. split; [exact J|]. apply existsb_exists. eauto.
Qed.
Lemma in_ranges_codes C l c : in_one C (OSet false (ranges_codes l)) c = in_set (al_chars C) l c.
Proof.
  unfold in_one. rewrite xorb_false_l. unfold ranges_codes. transitivity (existsb (fun p => in_set (al_chars C) [p] c) l).
  - induction l as [|[a b] l IH]; [reflexivity|]. cbn [map existsb]. rewrite IH. reflexivity.
  - set (test := fun (c' : N) (p : N * N) => let '(a, b) := p in ((a <=? c') && (c' <=? b))%N%bool).
    transitivity (existsb (fun p => existsb (fun c' => test c' p) (c_folds (al_chars C) c)) l); [|symmetry; exact (existsb_swap test _ l)].
    assert (E : forall p m, existsb (in_ranges [p]) m = existsb (fun c' => test c' p) m).
    { intros p m. induction m as [|x m IH]; [reflexivity|]. cbn [existsb]. rewrite IH. unfold in_ranges. cbn [existsb]. rewrite orb_false_r. reflexivity. }
    induction l as [|p l IH]; [reflexivity|]. cbn [existsb]. rewrite IH. unfold in_set. rewrite E. reflexivity.
Qed.

Section Known.
  Variable C : alphabet.
  Notation K := (al_chars C).
  Definition known_re (k : nat) : re := match re_compile (snd (nth k PATTERNS ([], []))) with Some (Ok e) => fst e | _ => Empty end.
  Definition tree_of (k : nat) : regex := match r_pattern (nth k (RULES K ++ [EMAIL_RULE K; PHONE_RULE K]) (mkRule 0 [] None)) with Some r => r | None => REmpty end.
  Lemma set_tree l : same (tree C (One (OSet false (ranges_codes l)))) (RSet (in_set K l)).
  Proof. apply same_set. apply in_ranges_codes. Qed.
  Lemma plus_tree o r : same (tree C (One o)) r -> same (tree C (Rep 1 None true (One o))) (rplus r).
  Proof. intro H. apply same_plus. exact H. Qed.
  Lemma digit_tree : same (tree C (One (OSet false [CCategory false Digit]))) (RSet (c_digit K)).
  Proof. apply same_set. intro c. cbn. destruct (c_digit K c); reflexivity. Qed.
  Lemma gap_tree : same (tree C (One (OSet false [CRange 45 45; CCategory false Space; CRange 95 95; CRange 40 40; CRange 41 41]))) (phone_gap K).
  Proof.
    apply same_set. intro c. transitivity (in_one C (OSet false (ranges_codes (chars_of "-_()"))) c || c_space K c)%bool; [|rewrite in_ranges_codes; reflexivity].
    change (chars_of "-_()") with [(45, 45); (95, 95); (40, 40); (41, 41)]%N. unfold in_one, ranges_codes. rewrite !xorb_false_l. cbn [map existsb].
    change (in_code C c (CCategory false Space)) with (xorb false (c_space K c)). rewrite xorb_false_l.
    repeat match goal with |- context [in_code C c ?x] => destruct (in_code C c x) end; destruct (c_space K c); reflexivity.
  Qed.
  Lemma known_same k : k < 8 -> same (tree C (known_re k)) (tree_of k).
  Proof.
    intro H. destruct k as [|[|[|[|[|[|[|[|k]]]]]]]]; [..|lia].
    - change (known_re 0) with (Seq (Rep 1 None true (One (OSet false (ranges_codes ru_ranges)))) Empty). apply same_last, plus_tree, set_tree.
    - change (known_re 1) with (Seq (Rep 1 None true (One (OSet false (ranges_codes latin_ranges)))) Empty). apply same_last, plus_tree, set_tree.
    - change (known_re 2) with (Seq (Rep 1 None true (One (OSet false [CCategory false Digit]))) Empty). apply same_last, plus_tree, digit_tree.
    - change (known_re 3) with (Seq (One (OSet false (ranges_codes punct_ranges))) Empty). apply same_last, set_tree.
    - change (known_re 4) with (Seq (Rep 1 None true (One (OSet false (ranges_codes eol_ranges)))) Empty). apply same_last, plus_tree, set_tree.
    - change (known_re 5) with (Seq (One (OSet false [CCategory true Space])) Empty). apply same_last, same_set. intro c. cbn. unfold is_other. destruct (c_space K c); reflexivity.
    - change (known_re 6) with (Seq (Rep 1 None true (One (OSet false (ranges_codes email_name)))) (Seq (One (OSet false (ranges_codes (chars_of "@"))))
        (Seq (Rep 1 None true (One (OSet false (ranges_codes email_host)))) (Seq (One (OSet false (ranges_codes (chars_of "."))))
        (Seq (Rep 1 None true (One (OSet false (ranges_codes email_tail)))) Empty))))).
      apply same_seq; [apply plus_tree, set_tree|]. apply same_seq; [apply set_tree|]. apply same_seq; [apply plus_tree, set_tree|].
      apply same_seq; [apply set_tree|]. apply same_last, plus_tree, set_tree.
    - change (known_re 7) with (
        let gap := Rep 0 (Some 1) true (One (OSet false [CRange 45 45; CCategory false Space; CRange 95 95; CRange 40 40; CRange 41 41])) in
        Seq (Rep 0 (Some 1) true (Group 1 (Seq (One (OSet false (ranges_codes (chars_of "+")))) Empty)))
        (Seq (Rep 10 (Some 14) true (Group 2 (Seq gap (Seq (One (OSet false [CCategory false Digit])) (Seq gap Empty))))) Empty)).
      cbv zeta. apply same_seq; [apply same_opt, same_last, set_tree|]. apply same_last.
      assert (G : same (tree C (Seq (Rep 0 (Some 1) true (One (OSet false [CRange 45 45; CCategory false Space; CRange 95 95; CRange 40 40; CRange 41 41])))
                         (Seq (One (OSet false [CCategory false Digit])) (Seq (Rep 0 (Some 1) true (One (OSet false [CRange 45 45; CCategory false Space; CRange 95 95; CRange 40 40; CRange 41 41]))) Empty))))
                  (RSeq (ropt (phone_gap K)) (RSeq (RSet (c_digit K)) (ropt (phone_gap K))))).
      { apply same_seq; [apply same_opt, gap_tree|]. apply same_seq; [apply digit_tree|]. apply same_last, same_opt, gap_tree. }
      apply same_times; [exact G|apply same_upto; exact G].
  Qed.
End Known.

Lemma known_alone k : k < 8 -> alone (snd (nth k PATTERNS ([], []))) (known_re k, []).
Proof. intro H. do 8 (destruct k as [|k]; [vm_compute; reflexivity|]). lia. Qed.
Lemma known_unreferring k : k < 8 -> unreferring (known_re k).
Proof. intro H. do 8 (destruct k as [|k]; [vm_compute; tauto|]). lia. Qed.
Lemma known_string_eq p : known_string p = mkStringRule (fst p) (fst (nth (snd p) PATTERNS ([], []))) (snd (nth (snd p) PATTERNS ([], []))).
Proof. unfold known_string. destruct (nth (snd p) PATTERNS ([], [])). reflexivity. Qed.
Lemma known_tree_eq C p : snd p < 8 -> known_tree (al_chars C) p = mkRule (fst p) (fst (nth (snd p) PATTERNS ([], []))) (Some (tree_of C (snd p))).
Proof. destruct p as [i k]. cbn [fst snd]. intro H. do 8 (destruct k as [|k]; [reflexivity|]). lia. Qed.

Lemma known_strings C l t : NoDup (map fst l) -> Forall (fun p => snd p < 8) l -> new_tokenizer (map Some (map (known_tree (al_chars C)) l)) = Ok t ->
  exists compiled, compile_strings (map known_string l) = Some (Ok compiled) /\ forall fuel text, tokenize_strings C fuel compiled text = tokenize fuel t text.
Proof.
  intros N F Ht. set (es := map (fun p => (known_re (snd p), @nil (str * nat))) l).
  assert (He : each_alone (map known_string l) es).
  { unfold es. clear - F. induction F as [|p l Hp F IH]; [constructor|]. cbn [map]. constructor; [|exact IH]. rewrite known_string_eq. apply known_alone. exact Hp. }
  assert (Hu : Forall (fun e : expression => unreferring (fst e)) es).
  { unfold es. clear - F. induction F as [|p l Hp F IH]; [constructor|]. cbn [map]. constructor; [|exact IH]. apply known_unreferring. exact Hp. }
  assert (Hd : distinct_names (map known_string l) es).
  { unfold distinct_names, es. clear - N. assert (E : flat_map (fun '(r, e) => rule_name r :: names_of e) (combine (map known_string l) (map (fun p => (known_re (snd p), @nil (str * nat))) l)) = map (fun p => rule_name (known_string p)) l).
    { clear N. induction l as [|p l IH]; [reflexivity|]. cbn [map combine flat_map names_of snd app]. rewrite IH. reflexivity. }
    assert (G : NoDup (map (fun p => rule_name (known_string p)) l)); [clear E|rewrite <- E in G; exact G]. induction l as [|p l IH]; [constructor|]. cbn [map] in *. inversion N as [|? ? N1 N2]; subst. constructor; [|apply IH; exact N2].
    intro K. apply N1. apply in_map_iff in K. destruct K as (q & E & I). apply rule_name_inj in E. rewrite !known_string_eq in E. cbn [sr_id] in E. apply in_map_iff. eauto. }
  assert (T : exists t', new_tokenizer (map Some (tree_rules C (map known_string l) es)) = Ok t' /\
    Forall2 (fun a b => fst a = fst b /\ same (snd a) (snd b)) (tk_regexp t') (tk_regexp t)).
  { assert (As : forall l, assert_rules (map Some l) = Ok l) by (induction l0 as [|x l0 IH]; [reflexivity|cbn; rewrite IH; reflexivity]).
    unfold new_tokenizer, reset in *. rewrite As in *. unfold compile in *.
    assert (G : forall seen, match compile_patterns seen (map (known_tree (al_chars C)) l) with
      | Ok ps => exists ps', compile_patterns seen (tree_rules C (map known_string l) es) = Ok ps' /\ Forall2 (fun a b => fst a = fst b /\ same (snd a) (snd b)) ps' ps
      | Err _ => True end).
    { clear - F. unfold es, tree_rules. induction F as [|p l Hp F IH]; intro seen; [exists []; split; [reflexivity|constructor]|].
      cbn [map combine]. rewrite (known_tree_eq C p Hp), known_string_eq. cbn [compile_patterns r_pattern r_id tree_rule sr_id sr_type r_type fst].
      destruct (existsb (Nat.eqb (fst p)) seen); [exact I|]. specialize (IH (fst p :: seen)).
      destruct (compile_patterns (fst p :: seen) (map (known_tree (al_chars C)) l)) as [ps|]; [|exact I]. cbn [bind]. destruct IH as (ps' & E & R).
      exists ((fst (nth (snd p) PATTERNS ([], [])), tree C (known_re (snd p))) :: ps'). split; [rewrite E; reflexivity|].
      constructor; [|exact R]. split; [reflexivity|]. apply known_same. exact Hp. }
    specialize (G []). destruct (compile_patterns [] (map (known_tree (al_chars C)) l)) as [ps|]; [|discriminate]. cbn [bind] in Ht. inversion Ht; subst t.
    destruct G as (ps' & E & R). rewrite E. cbn [bind]. eexists. split; [reflexivity|]. exact R. }
  destruct T as (t' & Ht' & R). destruct (strings_as_trees C (map known_string l) es t' He Hu Hd Ht') as (compiled & Hc & A).
  exists compiled. split; [exact Hc|]. intros fuel text. rewrite A. unfold tokenize. rewrite <- !finditer_tree.
  rewrite (finditer_ext _ (alternatives t text)); [reflexivity|]. intro i. unfold alternatives.
  inversion R as [|a b x y [R1 R2] R3 E1 E2]; [reflexivity|].
  assert (G : forall x y, Forall2 (fun a b => fst a = fst b /\ same (snd a) (snd b)) x y ->
    flat_map (fun '(ty, p) => map (fun j => (j, Some ty)) (ends text p i)) x = flat_map (fun '(ty, p) => map (fun j => (j, Some ty)) (ends text p i)) y :> list (nat * option str)).
  { clear. intros x y H. induction H as [|[ty p] [ty' p'] x y [H1 H2] H IH]; [reflexivity|]. cbn [flat_map fst snd] in *. subst. rewrite H2, IH. reflexivity. }
  apply (G (a :: x) (b :: y)). constructor; [split; assumption|exact R3].
Qed.
Lemma compile_distinct C l : forall seen, NoDup (map fst l) -> (forall i, In i seen -> ~ In i (map fst l)) ->
  Forall (fun p => snd p < 8) l ->
  compile_patterns seen (map (known_tree (al_chars C)) l) = Ok (map (fun p => (fst (nth (snd p) PATTERNS ([], [])), tree_of C (snd p))) l).
Proof.
  induction l as [|p l IH]; intros seen N Hs F; [reflexivity|]. inversion F as [|? ? F1 F2]; subst. cbn [map] in *. inversion N as [|? ? N1 N2]; subst.
  rewrite (known_tree_eq C p F1). cbn [compile_patterns r_pattern r_id r_type].
  destruct (existsb (Nat.eqb (fst p)) seen) eqn:E.
  - exfalso. apply existsb_exists in E. destruct E as (i & I & K). apply Nat.eqb_eq in K. subst i. apply (Hs _ I). left. reflexivity.
  - rewrite IH; [reflexivity|exact N2| |exact F2]. intros i [<-|I]; [exact N1|]. intro K. apply (Hs i I). right. exact K.
Qed.
Lemma default_strings C ids t : NoDup ids -> length ids = 6 -> default_tokenizer (al_chars C) = Ok t ->
  exists compiled, compile_strings (map known_string (combine ids [0; 1; 2; 3; 4; 5])) = Some (Ok compiled) /\ forall fuel text, tokenize_strings C fuel compiled text = tokenize fuel t text.
Proof.
  intros N L Ht. do 6 (destruct ids as [|? ids]; [discriminate|]). destruct ids; [|discriminate].
  assert (Q : exists t', new_tokenizer (map Some (map (known_tree (al_chars C)) (combine [n; n0; n1; n2; n3; n4] [0; 1; 2; 3; 4; 5]))) = Ok t' /\ tk_regexp t' = tk_regexp t).
  { unfold default_tokenizer, new_tokenizer in Ht. cbn in Ht. inversion Ht; subst t. clear Ht.
    unfold new_tokenizer, reset. unfold compile.
    change (assert_rules _) with (Ok (map (known_tree (al_chars C)) [(n, 0); (n0, 1); (n1, 2); (n2, 3); (n3, 4); (n4, 5)])). cbv iota.
    rewrite (compile_distinct C [(n, 0); (n0, 1); (n1, 2); (n2, 3); (n3, 4); (n4, 5)] [] N) by ((intros i []) || (repeat constructor; cbn; lia)).
    eexists. split; reflexivity. }
  destruct Q as (t' & Ht' & E). destruct (known_strings C (combine [n; n0; n1; n2; n3; n4] [0; 1; 2; 3; 4; 5]) t' N) as (compiled & Hc & A); [repeat constructor; cbn; lia|exact Ht'|].
  exists compiled. split; [exact Hc|]. intros fuel text. rewrite A. unfold tokenize. rewrite <- !finditer_tree, (finditer_ext _ (alternatives t text)); [reflexivity|].
  intro i. unfold alternatives. rewrite E. reflexivity.
Qed.
