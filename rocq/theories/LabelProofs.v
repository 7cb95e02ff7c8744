(** The text of a grammar is read back. *)
From Coq Require String.
From Verif Require Import Base TokenModel EarleyModel EarleySpec PredicateModel PredicateProofs PipelineModel RuleModel RuleSpec GrammarModel DotTextModel FactTheorems LabelModel LabelSpec.
Import String.StringSyntax.
Open Scope nat_scope.

(** ** Words *)
Lemma words_through s : forall p current rest p', ends_at p s = Some p' -> words_from p current (s ++ rest) = words_from p' (current ++ s) rest.
Proof.
  induction s as [|x s IH]; intros p current rest p' E; cbn in E |- *; [injection E as <-; rewrite app_nil_r; reflexivity|].
  destruct (is_outside p && N.eqb x 32); [discriminate|]. destruct (next_place p x) as [p1|]; [|discriminate]. rewrite (IH p1 _ rest p' E), <- app_assoc. reflexivity.
Qed.
Lemma words_joined : forall ws, ws <> [] -> Forall one_word ws -> words (join_with (str_of " ") ws) = Some ws.
Proof.
  unfold words. induction ws as [|w ws IH]; intros N F; [congruence|]. inversion F as [|? ? W F']; subst. destruct ws as [|w' ws].
  - cbn [join_with]. rewrite <- (app_nil_r w) at 1. rewrite (words_through w _ _ [] _ W). reflexivity.
  - change (join_with (str_of " ") (w :: w' :: ws)) with (w ++ 32%N :: join_with (str_of " ") (w' :: ws)). rewrite (words_through w _ _ _ _ W). cbn [words_from is_outside outside andb N.eqb Pos.eqb app]. rewrite IH; [reflexivity|discriminate|exact F'].
Qed.
Lemma join_app sep a b : a <> [] -> b <> [] -> join_with sep (a ++ b) = join_with sep a ++ sep ++ join_with sep b.
Proof.
  induction a as [|x a IH]; intros Na Nb; [congruence|]. destruct a as [|y a].
  - destruct b; [congruence|reflexivity].
  - change (join_with sep ((x :: y :: a) ++ b)) with (x ++ sep ++ join_with sep ((y :: a) ++ b)). rewrite IH by (discriminate || assumption). change (join_with sep (x :: y :: a)) with (x ++ sep ++ join_with sep (y :: a)). rewrite <- !app_assoc. reflexivity.
Qed.
(** The words of a line. *)
Fixpoint with_bars (gs : list (list str)) : list str :=
  match gs with
  | [] => []
  | [g] => g
  | g :: gs' => g ++ str_of "|" :: with_bars gs'
  end.
Lemma with_bars_nonempty gs : gs <> [] -> Forall (fun g => g <> []) gs -> with_bars gs <> [].
Proof. destruct gs as [|g [|g' gs]]; intros N F; [congruence|inversion F; assumption|]. inversion F as [|? ? G _]; subst. destruct g; [congruence|discriminate]. Qed.
Lemma join_bars : forall gs, Forall (fun g => g <> []) gs -> join_with (str_of " | ") (map (join_with (str_of " ")) gs) = join_with (str_of " ") (with_bars gs).
Proof.
  induction gs as [|g gs IH]; intros F; [reflexivity|]. destruct gs as [|g' gs]; [reflexivity|]. inversion F as [|? ? G F']; subst.
  change (join_with (str_of " | ") (map (join_with (str_of " ")) (g :: g' :: gs))) with (join_with (str_of " ") g ++ str_of " | " ++ join_with (str_of " | ") (map (join_with (str_of " ")) (g' :: gs))).
  rewrite IH by exact F'. change (with_bars (g :: g' :: gs)) with (g ++ str_of "|" :: with_bars (g' :: gs)). rewrite join_app by (assumption || discriminate).
  assert (N : with_bars (g' :: gs) <> []) by (apply with_bars_nonempty; [discriminate|exact F']). f_equal. destruct (with_bars (g' :: gs)) as [|x l]; [congruence|]. reflexivity.
Qed.
Lemma groups_bars : forall gs, gs <> [] -> Forall (fun g => ~ In (str_of "|") g) gs -> groups (str_of "|") (with_bars gs) = gs.
Proof.
  assert (K : forall g ws, ~ In (str_of "|") g -> groups (str_of "|") (g ++ ws) = match groups (str_of "|") ws with x :: xs => (g ++ x) :: xs | [] => [g] end).
  { induction g as [|w g IH]; intros ws N; cbn [app groups]; [destruct ws as [|w ws]; [reflexivity|]; cbn [groups]; destruct (str_eqb w (str_of "|")); [reflexivity|]; destruct (groups (str_of "|") ws); reflexivity|].
    destruct (str_eqb w (str_of "|")) eqn:E; [apply str_eqb_eq in E; exfalso; apply N; left; exact E|]. rewrite IH; [|intros I; apply N; right; exact I]. destruct (groups (str_of "|") ws); reflexivity. }
  induction gs as [|g gs IH]; intros N F; [congruence|]. inversion F as [|? ? G F']; subst. destruct gs as [|g' gs].
  - cbn [with_bars]. rewrite <- (app_nil_r g) at 1. rewrite (K g [] G). cbn. rewrite app_nil_r. reflexivity.
  - change (with_bars (g :: g' :: gs)) with (g ++ str_of "|" :: with_bars (g' :: gs)). rewrite (K g _ G). cbn [groups]. change (str_eqb (str_of "|") (str_of "|")) with true. cbv iota. rewrite IH by (discriminate || assumption). rewrite app_nil_r. reflexivity.
Qed.

(** ** Productions *)
Lemma unmarked_clean l : marked l = false -> unmarked l = l.
Proof. unfold marked, unmarked. destruct l as [|x l]; [reflexivity|]. destruct x as [|p]; [reflexivity|]. repeat (destruct p as [p|p|]; try reflexivity); discriminate. Qed.
(** The labels with the mark of the main term. *)
Definition with_mark (main i : nat) (l : str) : str := if (0 <? main) && (main =? i) then str_of "^" ++ l else l.
Fixpoint with_marks (main i : nat) (ls : list str) : list str := match ls with [] => [] | l :: ls' => with_mark main i l :: with_marks main (S i) ls' end.
Lemma marks_none main : forall ls i, main = 0 \/ main < i \/ i + length ls <= main -> with_marks main i ls = ls.
Proof.
  induction ls as [|l ls IH]; intros i H; [reflexivity|]. cbn [with_marks length] in *. rewrite IH by lia. f_equal. unfold with_mark. destruct (0 <? main) eqn:E; [|reflexivity]. apply Nat.ltb_lt in E. destruct (main =? i) eqn:E'; [|reflexivity]. apply Nat.eqb_eq in E'. lia.
Qed.
Lemma marks_unmarked main : forall ls i, Forall (fun l => marked l = false) ls -> map unmarked (with_marks main i ls) = ls.
Proof.
  induction ls as [|l ls IH]; intros i F; [reflexivity|]. inversion F as [|? ? M F']; subst. cbn [with_marks map]. rewrite IH by exact F'. f_equal. unfold with_mark. destruct (_ && _); [reflexivity|apply unmarked_clean, M].
Qed.
Lemma marks_exist main : forall ls i, Forall (fun l => marked l = false) ls -> existsb marked (with_marks main i ls) = (0 <? main) && (i <=? main) && (main <? i + length ls).
Proof.
  induction ls as [|l ls IH]; intros i F.
  - cbn [with_marks existsb length]. rewrite Nat.add_0_r. destruct (0 <? main); [|reflexivity]. cbn [andb]. destruct (Nat.leb_spec i main), (Nat.ltb_spec main i); try reflexivity; lia.
  - inversion F as [|? ? M F']; subst. cbn [with_marks existsb length]. rewrite IH by exact F'. unfold with_mark. destruct (0 <? main) eqn:P; cbn [andb]; [|rewrite M; reflexivity].
    destruct (main =? i) eqn:E.
    + apply Nat.eqb_eq in E. subst. change (marked (str_of "^" ++ l)) with true. rewrite Nat.leb_refl. cbn. symmetry. apply Nat.ltb_lt. lia.
    + rewrite M. cbn [orb]. apply Nat.eqb_neq in E. replace (i + S (length ls)) with (S i + length ls) by lia. replace (S i <=? main) with (i <=? main); [reflexivity|]. destruct (Nat.leb_spec i main), (Nat.leb_spec (S i) main); try reflexivity; lia.
Qed.
Lemma marks_main main : forall ls i, Forall (fun l => marked l = false) ls -> main_of (with_marks main i ls) = if (0 <? main) && (i <=? main) && (main <? i + length ls) then main - i else 0.
Proof.
  induction ls as [|l ls IH]; intros i F.
  - cbn [with_marks main_of length]. rewrite Nat.add_0_r. destruct (0 <? main); [|reflexivity]. cbn [andb]. destruct (Nat.leb_spec i main), (Nat.ltb_spec main i); cbn [andb]; try reflexivity; lia.
  - inversion F as [|? ? M F']; subst. cbn [with_marks main_of length]. unfold with_mark at 1. destruct (0 <? main) eqn:P; cbn [andb].
    + destruct (main =? i) eqn:E.
      * apply Nat.eqb_eq in E. subst. change (marked (str_of "^" ++ l)) with true. cbv iota. rewrite Nat.sub_diag. destruct (_ && _); reflexivity.
      * rewrite M, marks_exist, IH by exact F'. rewrite P. apply Nat.eqb_neq in E. cbn [andb]. replace (i + S (length ls)) with (S i + length ls) by lia.
        destruct (S i <=? main) eqn:A; cbn [andb].
        -- apply Nat.leb_le in A. replace (i <=? main) with true by (symmetry; apply Nat.leb_le; lia). destruct (main <? S i + length ls); cbn [andb]; lia.
        -- apply Nat.leb_gt in A. replace (i <=? main) with false by (symmetry; apply Nat.leb_gt; lia). reflexivity.
    + rewrite M, marks_exist by exact F'. rewrite P. reflexivity.
Qed.
Lemma mark_word main i l : one_word l -> one_word (with_mark main i l).
Proof. unfold with_mark. destruct (_ && _); [|auto]. unfold one_word. cbn. auto. Qed.
Lemma mark_in main : forall ls i w, In w (with_marks main i ls) -> exists l, In l ls /\ (w = l \/ w = str_of "^" ++ l).
Proof. induction ls as [|l ls IH]; intros i w; [intros []|]. cbn [with_marks]. intros [<-|I]; [exists l; split; [left; reflexivity|unfold with_mark; destruct (_ && _); auto]|]. destruct (IH _ _ I) as (l' & I' & E). exists l'. split; [right; exact I'|exact E]. Qed.
Lemma read_marks main ls : ls <> [] -> Forall clean ls -> read_production (with_marks main 0 ls) = (ls, if main <? length ls then main else 0).
Proof.
  intros N F. assert (F' : Forall (fun l => marked l = false) ls) by (revert F; apply Forall_impl; intros l C; apply C).
  assert (E : (map unmarked (with_marks main 0 ls), main_of (with_marks main 0 ls)) = (ls, if main <? length ls then main else 0)).
  { rewrite marks_unmarked, marks_main by exact F'. f_equal. cbn [Nat.leb Nat.add]. rewrite andb_true_r. destruct main; [destruct (length ls); reflexivity|]. cbn [Nat.ltb Nat.leb]. rewrite Nat.sub_0_r. reflexivity. }
  destruct ls as [|l [|l' ls]]; [congruence| |rewrite <- E; reflexivity].
  inversion F as [|? ? C _]; subst. rewrite <- E. cbn [with_marks]. unfold read_production.
  assert (X : with_mark main 0 l = l) by (unfold with_mark; destruct main; reflexivity). rewrite X.
  destruct (str_eqb l (str_of "e")) eqn:Q; [apply str_eqb_eq in Q; exfalso; destruct C as (_ & _ & _ & C); apply C; right; left; symmetry; exact Q|].
  cbn [map main_of]. destruct C as (_ & _ & C & _). rewrite C. reflexivity.
Qed.

Section Read.
  Variable label_of_pred : predicate -> res str.
  Variable label_of_interp : nat -> res str.
  Variable label_of_relation : nat -> str.
  Variable h : rule_heap.
  Notation rule_label := (rule_label label_of_interp label_of_relation h).
  Notation term_label := (term_label label_of_pred label_of_interp label_of_relation h).
  Notation production_text := (production_text label_of_pred label_of_interp label_of_relation h).
  Notation rule_text := (rule_text label_of_pred label_of_interp label_of_relation h).
  Notation source := (source label_of_pred label_of_interp label_of_relation h).
  Notation shows_production := (shows_production label_of_pred label_of_interp label_of_relation h).
  Notation shows := (shows label_of_pred label_of_interp label_of_relation h).

  Lemma terms_texts main : forall ts i ls ss, term_texts label_of_pred label_of_interp label_of_relation h main i ts = Ok ls -> mapM needed ls = Ok ss ->
    exists xs, Forall2 (fun t l => term_label t = Ok (Some l)) ts xs /\ ss = with_marks main i xs.
  Proof.
    induction ts as [|t ts IH]; intros i ls ss E M; cbn [term_texts] in E.
    - injection E as <-. injection M as <-. exists []. split; [constructor|reflexivity].
    - destruct (term_label t) as [l|] eqn:L; [|discriminate]. cbn [bind] in E.
      remember (if (0 <? main) && (main =? i) then (let! s := needed l in Ok (Some (str_of "^" ++ s))) else Ok l) as z eqn:X. symmetry in X. destruct z as [l1|]; [|discriminate]. cbn [bind] in E.
      destruct (term_texts label_of_pred label_of_interp label_of_relation h main (S i) ts) as [ls'|] eqn:T; [|discriminate]. cbn [bind] in E. injection E as <-. cbn [mapM] in M. destruct (needed l1) as [s|] eqn:Nd; [|discriminate]. cbn [bind] in M.
      destruct (mapM needed ls') as [ss'|] eqn:M'; [|discriminate]. cbn [bind] in M. injection M as <-. destruct (IH _ _ _ T M') as (xs & F & ->).
      destruct l as [l|].
      + exists (l :: xs). split; [constructor; assumption|]. cbn [with_marks]. f_equal. unfold with_mark. destruct ((0 <? main) && (main =? i)); cbn [needed bind] in X; injection X as <-; cbn [needed] in Nd; injection Nd as <-; reflexivity.
      + exfalso. destruct ((0 <? main) && (main =? i)); cbn [needed bind] in X; [discriminate|]. injection X as <-. discriminate.
  Qed.
  (** The words of a production. *)
  Lemma production_words q s : production_text q = Ok s ->
    match nth_error h q with
    | Some (OProd ts main) => ts <> [] /\ forall t l, In t ts -> term_label t = Ok (Some l) -> clean l
    | Some OEmptyProd => True
    | _ => False
    end ->
    exists ws, s = join_with (str_of " ") ws /\ ws <> [] /\ Forall one_word ws /\ ~ In (str_of "|") ws /\ shows_production q (read_production ws) /\
      forall w, ws = [w] -> ~ In w [str_of "pipeline"; str_of "caseless_pipeline"; str_of "morph_pipeline"].
  Proof.
    unfold production_text. destruct (nth_error h q) as [o|] eqn:E; [|intros _ []]. destruct o as [| | | | | | | | | | | | | | | |ts main| |]; try (intros _ []; fail).
    - intros T [N C]. unfold terms_text in T. destruct (term_texts label_of_pred label_of_interp label_of_relation h main 0 ts) as [ls|] eqn:T1; [|discriminate]. cbn [bind] in T. destruct (mapM needed ls) as [ss|] eqn:T2; [|discriminate]. cbn [bind] in T. injection T as <-.
      destruct (terms_texts main ts 0 ls ss T1 T2) as (xs & F & ->).
      assert (Cl : Forall clean xs).
      { clear - F C. induction F as [|t l ts xs L F IH]; constructor; [apply (C t l (or_introl eq_refl) L)|apply IH; intros t' l' I; apply C; right; exact I]. }
      assert (Nx : xs <> []) by (intros ->; inversion F; congruence).
      exists (with_marks main 0 xs). split; [reflexivity|]. split; [destruct xs; [congruence|discriminate]|].
      split; [apply Forall_forall; intros w I; destruct (mark_in main xs 0 w I) as (l & Il & [-> | ->]); rewrite Forall_forall in Cl; destruct (Cl l Il) as (W & _); [exact W|unfold one_word in *; cbn; exact W]|].
      split; [intros I; destruct (mark_in main xs 0 _ I) as (l & Il & [X|X]); [|discriminate]; rewrite Forall_forall in Cl; destruct (Cl l Il) as (_ & _ & _ & R); apply R; left; exact X|].
      split; [left; exists ts, main; rewrite (read_marks main xs Nx Cl); split; [exact E|]; split; [exact F|]; cbn [snd]; assert (Q : length ts = length xs) by (clear - F; induction F; cbn; congruence); rewrite Q; reflexivity|].
      intros w X I. destruct xs as [|l [|]]; try discriminate. cbn [with_marks] in X. injection X as <-. inversion Cl as [|? ? (_ & _ & _ & R) _]; subst. apply R.
      assert (Y : with_mark main 0 l = l) by (unfold with_mark; destruct main; reflexivity). rewrite Y in I. destruct I as [I|[I|[I|[]]]]; [right; right; left; exact I|right; right; right; left; exact I|right; right; right; right; left; exact I].
    - intros T _. injection T as <-. exists [str_of "e"]. split; [reflexivity|]. split; [discriminate|]. split; [constructor; [reflexivity|constructor]|]. split; [intros [X|[]]; discriminate|]. split; [right; split; [exact E|reflexivity]|].
      intros w X. injection X as <-. intros [I|[I|[I|[]]]]; discriminate.
  Qed.
  Theorem line_read r s : rule_text r = Ok s -> clean_labels label_of_pred label_of_interp label_of_relation h [r] -> (exists l, rule_label r = Ok (Some l)) -> exists x, read_line s = Some x /\ shows r x.
  Proof.
    intros T C (l & L). destruct (C r (or_introl eq_refl)) as [Cr Cp]. specialize (Cr l L). unfold rule_text in T. unfold shows.
    destruct (nth_error h r) as [o|] eqn:E; [|discriminate]. destruct o as [| | | | | | | | | | | | | |ps a|b ps a| | |]; try discriminate.
    - destruct (mapM production_text ps) as [ss|] eqn:M; [|discriminate]. cbn [bind] in T. rewrite L in T. cbn [bind] in T. match type of T with Ok ?x = Ok ?y => assert (T' : y = x) by congruence; subst y; clear T end. destruct Cp as [Np Cp].
      assert (G : exists gs, ss = map (join_with (str_of " ")) gs /\ Forall (fun g => g <> []) gs /\ Forall (Forall one_word) gs /\ Forall (fun g => ~ In (str_of "|") g) gs /\
        Forall2 (fun q ws => shows_production q (read_production ws)) ps gs /\ forall w, In [w] gs -> ~ In w [str_of "pipeline"; str_of "caseless_pipeline"; str_of "morph_pipeline"]).
      { clear - M Cp. apply mapM_Forall2 in M. induction M as [|q s ps ss Q M IH]; [exists []; repeat split; try constructor; intros w []|].
        destruct IH as (gs & -> & G1 & G2 & G3 & G4 & G5); [intros q' I; apply Cp; right; exact I|].
        destruct (production_words q s Q (Cp q (or_introl eq_refl))) as (ws & -> & W1 & W2 & W3 & W4 & W5). exists (ws :: gs). repeat split; try (constructor; assumption). intros w [X|X]; [apply W5; exact X|apply G5; exact X]. }
      destruct G as (gs & -> & G1 & G2 & G3 & G4 & G5). assert (Ng : gs <> []) by (intros ->; inversion G4; congruence).
      rewrite (join_bars gs G1). assert (Nw := with_bars_nonempty gs Ng G1).
      exists (l, read_body gs). split; [|split; [exact L|]].
      + unfold read_line. assert (X : l ++ str_of " -> " ++ join_with (str_of " ") (with_bars gs) = join_with (str_of " ") ([l; str_of "->"] ++ with_bars gs)) by (rewrite join_app by (discriminate || assumption); cbn [join_with]; rewrite <- !app_assoc; reflexivity).
        rewrite X, words_joined; [|discriminate|].
        * cbn [app]. change (str_eqb (str_of "->") (str_of "->")) with true. cbv iota. rewrite (groups_bars gs Ng G3). reflexivity.
        * apply Forall_app. split; [constructor; [apply Cr|constructor; [reflexivity|constructor]]|]. clear - G2. induction G2 as [|g gs G G2 IH]; [constructor|]. destruct gs as [|g' gs]; [exact G|]. change (with_bars (g :: g' :: gs)) with (g ++ str_of "|" :: with_bars (g' :: gs)). apply Forall_app. split; [exact G|]. constructor; [reflexivity|exact IH].
      + exists (map read_production gs). split.
        * destruct gs as [|g [|g' gs]]; [congruence| |destruct g as [|? []]; reflexivity]. destruct g as [|w [|w' g]]; [reflexivity| |reflexivity]. cbn [snd read_body].
          specialize (G5 w (or_introl eq_refl)). destruct (str_eqb w (str_of "pipeline")) eqn:E1; [apply str_eqb_eq in E1; exfalso; apply G5; left; symmetry; exact E1|].
          destruct (str_eqb w (str_of "caseless_pipeline")) eqn:E2; [apply str_eqb_eq in E2; exfalso; apply G5; right; left; symmetry; exact E2|].
          destruct (str_eqb w (str_of "morph_pipeline")) eqn:E3; [apply str_eqb_eq in E3; exfalso; apply G5; right; right; left; symmetry; exact E3|]. reflexivity.
        * clear - G4. induction G4; constructor; assumption.
    - rewrite L in T. cbn [bind] in T. match type of T with Ok ?x = Ok ?y => assert (T' : y = x) by congruence; subst y; clear T end. exists (l, Dictionary (b_kind b)). split; [|split; [exact L|reflexivity]].
      unfold read_line. assert (X : l ++ str_of " -> " ++ abbr (b_kind b) = join_with (str_of " ") [l; str_of "->"; abbr (b_kind b)]) by reflexivity.
      rewrite X, words_joined; [|discriminate|constructor; [apply Cr|constructor; [reflexivity|constructor; [destruct (b_kind b); reflexivity|constructor]]]]. destruct (b_kind b); reflexivity.
  Qed.
  Lemma clean_tail r rules : clean_labels label_of_pred label_of_interp label_of_relation h (r :: rules) -> clean_labels label_of_pred label_of_interp label_of_relation h [r] /\ clean_labels label_of_pred label_of_interp label_of_relation h rules.
  Proof. intros C. split; intros x I; apply C; [destruct I as [<-|[]]; left; reflexivity|right; exact I]. Qed.
  Theorem source_read rules lines : source rules = Ok lines -> clean_labels label_of_pred label_of_interp label_of_relation h rules -> (forall r, In r rules -> exists l, rule_label r = Ok (Some l)) ->
    exists xs, map read_line lines = map Some xs /\ Forall2 shows rules xs.
  Proof.
    intros S1. apply mapM_Forall2 in S1. induction S1 as [|r s rules lines R S1 IH]; intros C L; [exists []; split; [reflexivity|constructor]|].
    apply clean_tail in C as [C0 C]. destruct (line_read r s R C0 (L r (or_introl eq_refl))) as (x & Rx & Sx). destruct IH as (xs & E & F); [exact C|intros r' I; apply L; right; exact I|]. exists (x :: xs). split; [cbn; rewrite Rx, E; reflexivity|constructor; assumption].
  Qed.
End Read.
