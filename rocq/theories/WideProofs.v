(** Rules that accept more find no less. *)
From Coq Require String.
From Verif Require Import Base TokenModel EarleyModel EarleySpec TokenizerModel TokenizerSpec TaggerModel PredicateModel PipelineModel PipelineSpec PipelineTheorems PredicateCases
  TreeModel TreeSpec ParserModel ParserSpec RuleModel RuleSpec RuleAccept RuleBuild GrammarModel GrammarSpec RuleNestSpec RuleTheorems RuleCases RuleCalls TextModel TextSpec TextProofs TextTheorems EqualSpec TextEqual
  AbsentSpec TextAbsent WideSpec.
Open Scope nat_scope.

Definition shareb (a b : nat * nat) : bool := Nat.ltb (Nat.max (fst a) (fst b)) (Nat.min (snd a) (snd b)).
Lemma shareb_iff a b : shareb a b = true <-> share a b.
Proof.
  unfold shareb, share. rewrite Nat.ltb_lt. split.
  - intro H. exists (Nat.max (fst a) (fst b)). lia.
  - intros (k & A & B). lia.
Qed.
Lemma put_between x : fst x < snd x -> forall l n, left_to_right n l -> n <= fst x -> (forall y, In y l -> ~ share x y) ->
  exists l', left_to_right n l' /\ covered l' = covered l + (snd x - fst x) /\ forall y, In y l' -> y = x \/ In y l.
Proof.
  intro X. induction l as [|[i j] l IH]; intros n L N S.
  - exists [x]. destruct x as [a b]. cbn in *. repeat split; try lia. intros y [<-|[]]. auto.
  - cbn [left_to_right] in L. destruct L as (L1 & L2 & L3). assert (D : snd x <= i \/ j <= fst x).
    { destruct (Nat.le_gt_cases (snd x) i); [auto|]. destruct (Nat.le_gt_cases j (fst x)); [auto|]. exfalso. apply (S (i, j) (or_introl eq_refl)).
      exists (Nat.max (fst x) i). cbn. lia. }
    destruct D as [D|D].
    + exists (x :: (i, j) :: l). split; [destruct x as [a b]; cbn in *; repeat split; try lia; exact L3|]. split; [unfold covered; cbn; lia|]. intros y [<-|I]; auto.
    + destruct (IH j L3 D) as (l' & A & B & C); [intros y I; apply S; right; exact I|]. exists ((i, j) :: l'). split; [cbn; auto|]. split.
      * change (j - i + covered l' = j - i + covered l + (snd x - fst x)). rewrite B. lia.
      * intros y [<-|I]; [right; left; reflexivity|]. destruct (C y I); [auto|right; right; auto].
Qed.
Lemma best_meets (P : nat * nat -> Prop) l x : best_ranges P l -> P x -> fst x < snd x -> exists y, In y l /\ share x y.
Proof.
  intros (A & B & C & _) Px X. destruct (existsb (shareb x) l) eqn:E.
  - apply existsb_exists in E as (y & I & S). exists y. split; [exact I|]. apply shareb_iff, S.
  - exfalso. destruct (put_between x X l 0 A (Nat.le_0_l _)) as (l' & L & Cv & I).
    + intros y I S. apply shareb_iff in S. assert (existsb (shareb x) l = true) by (apply existsb_exists; eauto). congruence.
    + assert (covered l' <= covered l); [|lia]. apply C; [exact L|]. intros y J. destruct (I y J) as [->|K]; auto.
Qed.
Lemma left_range n l x : left_to_right n l -> In x l -> fst x < snd x.
Proof.
  revert n. induction l as [|[i j] l IH]; intros n L I; [destruct I|]. destruct L as (_ & L2 & L3). destruct I as [<-|I]; [exact L2|eauto].
Qed.
Lemma first_begins n y l x : left_to_right n (y :: l) -> In x (y :: l) -> fst y <= fst x.
Proof.
  revert n y. induction l as [|z l IH]; intros n y L [<-|I]; [lia|destruct I|lia|]. destruct y as [i j]. destruct L as (_ & L2 & L3).
  pose proof (IH j z L3 I) as H. destruct z as [u v]. destruct L3 as (L4 & _). cbn in *. lia.
Qed.

Section Wide.
  Variable U : unicode.
  Variable set_order : list str -> list str.
  Variable c : context.
  Hypothesis sets : set_iteration set_order.
  Notation accept := (rule_accepts U set_order c).
  Lemma sure_findall rel fuel h root g text toks r : sure U set_order c fuel h root g -> text_tokens c text = Some (Ok toks) ->
    parser_findall U set_order c rel fuel h root text = Some r ->
    exists s ms, r = Ok (s, ms) /\ best_ranges (fun x => accept h root toks (fst x) (snd x)) (map m_range ms).
  Proof.
    intros (B & H & R & G & [S|(N & T & E)]) K F.
    - exact (text_findall_best U set_order c sets rel fuel h root text B H R g toks G K S r F).
    - exact (text_findall_timely U set_order c sets rel fuel h root text B H R g toks G K N T E r F).
  Qed.
  Lemma sure_match rel fuel h root g text toks r : sure U set_order c fuel h root g -> text_tokens c text = Some (Ok toks) ->
    parser_match U set_order c rel fuel h root text = Some r ->
    (exists s m, r = Ok (s, Some m) /\ snd (m_range m) = length toks /\ accept h root toks (fst (m_range m)) (snd (m_range m)) /\ (start_not_used g -> fst (m_range m) = 0)) \/
    (r = Ok ([], None) /\ ~ accept h root toks 0 (length toks)).
  Proof.
    intros (B & H & R & G & [S|(N & T & E)]) K F.
    - exact (text_match_solid U set_order c sets rel fuel h root text B H R g toks G K S r F).
    - exact (text_match_timely U set_order c sets rel fuel h root text B H R g toks G K N T E r F).
  Qed.
  Theorem wide_findall rel rel' fuel fuel' h h' root root' g g' text toks r r' :
    sure U set_order c fuel h root g -> sure U set_order c fuel' h' root' g' -> text_tokens c text = Some (Ok toks) -> narrower U set_order c h root h' root' toks ->
    parser_findall U set_order c rel fuel h root text = Some r -> parser_findall U set_order c rel' fuel' h' root' text = Some r' ->
    exists s ms s' ms', r = Ok (s, ms) /\ r' = Ok (s', ms') /\ covered (map m_range ms) <= covered (map m_range ms') /\
      forall m, In m ms -> exists m', In m' ms' /\ share (m_range m) (m_range m').
  Proof.
    intros S S' T N F F'. destruct (sure_findall _ _ _ _ _ _ _ _ S T F) as (s & ms & -> & B). destruct (sure_findall _ _ _ _ _ _ _ _ S' T F') as (s' & ms' & -> & B').
    exists s, ms, s', ms'. split; [reflexivity|]. split; [reflexivity|]. destruct B as (B1 & B2 & B3 & B4). split.
    - apply (proj1 (proj2 (proj2 B'))); [exact B1|]. intros x I. apply N, B2, I.
    - intros m I. apply (in_map m_range) in I. destruct (best_meets _ _ (m_range m) B') as (y & J & Sh); [apply N, B2, I|exact (left_range _ _ _ B1 I)|].
      apply in_map_iff in J as (m' & <- & J). eauto.
  Qed.
  Theorem wide_find rel rel' fuel fuel' h h' root root' g g' text toks s m r' :
    sure U set_order c fuel h root g -> sure U set_order c fuel' h' root' g' -> text_tokens c text = Some (Ok toks) -> narrower U set_order c h root h' root' toks ->
    parser_find U set_order c rel fuel h root text = Some (Ok (s, Some m)) -> parser_find U set_order c rel' fuel' h' root' text = Some r' ->
    exists s' m', r' = Ok (s', Some m') /\ fst (m_range m') < snd (m_range m).
  Proof.
    intros S S' T N F F'. apply text_find_first in F as (x & F & K). apply text_find_first in F' as (x' & F' & K').
    destruct (wide_findall rel rel' fuel fuel' h h' root root' g g' text toks x x' S S' T N F F') as (s1 & ms & s2 & ms' & -> & -> & _ & H).
    destruct K as (rest & -> & _). destruct (H m (or_introl eq_refl)) as (m2 & I & k & Hk).
    destruct (sure_findall _ _ _ _ _ _ _ _ S' T F') as (s3 & ms3 & E & B & _). injection E as <- <-.
    destruct r' as [[s' m']|]; [|destruct K']. destruct m' as [m'|]; [|subst ms'; destruct I].
    destruct K' as (rest' & -> & _). exists s', m'. split; [reflexivity|]. apply (in_map m_range) in I. pose proof (first_begins _ _ _ _ B I). lia.
  Qed.
  Theorem wide_match rel rel' fuel fuel' h h' root root' g g' text toks s m r' :
    sure U set_order c fuel h root g -> sure U set_order c fuel' h' root' g' -> text_tokens c text = Some (Ok toks) -> narrower U set_order c h root h' root' toks ->
    start_not_used g ->
    parser_match U set_order c rel fuel h root text = Some (Ok (s, Some m)) -> parser_match U set_order c rel' fuel' h' root' text = Some r' ->
    exists s' m', r' = Ok (s', Some m').
  Proof.
    intros S S' T N Z F F'. destruct (sure_match _ _ _ _ _ _ _ _ S T F) as [(s1 & m1 & E & E1 & A & E0)|[E _]]; [|discriminate]. injection E as <- <-.
    rewrite (E0 Z), E1 in A. destruct (sure_match _ _ _ _ _ _ _ _ S' T F') as [(s2 & m2 & -> & _)|[_ K]]; [eauto|]. exfalso. apply K, N, A.
  Qed.
  Theorem or_wider h x rs r toks : nth_error h x = Some (OOr rs) -> In r rs -> narrower U set_order c h r h x toks.
  Proof. intros E I i j (ts & S & M). exists ts. split; [exact S|]. apply (or_matches U set_order c h x rs ts E). eauto. Qed.
  Theorem or_widest h x y rs rs' toks : nth_error h x = Some (OOr rs) -> nth_error h y = Some (OOr rs') -> (forall r, In r rs -> In r rs') -> narrower U set_order c h x h y toks.
  Proof. intros E E' S i j (ts & S1 & M). exists ts. split; [exact S1|]. apply (or_matches U set_order c h x rs ts E) in M as (r & I & M). apply (or_matches U set_order c h y rs' ts E'). eauto. Qed.
  Theorem or_least h x rs y toks : nth_error h x = Some (OOr rs) -> (forall r, In r rs -> narrower U set_order c h r h y toks) -> narrower U set_order c h x h y toks.
  Proof. intros E S i j (ts & S1 & M). apply (or_matches U set_order c h x rs ts E) in M as (r & I & M). apply (S r I). exists ts. auto. Qed.
End Wide.

(** s = rule('a').optional(); x = rule(rule(rule(rule(s, 'c'), 'e'), 'f'), 'g');
    or_(rule(s, 'd'), x) does not find "c e f g". *)
Definition lost_program : list rule_call :=
  [CRule [W "a"]; COptional 1 false; CRule [R 2; W "c"]; CRule [R 4; W "e"]; CRule [R 6; W "f"]; CRule [R 8; W "g"]; CRule [R 2; W "d"]; COr [12; 10]].
Definition lost_heap : rule_heap := program lost_program.
Lemma lost_alternative : exists U set_order c rel fuel h r x rs text s s' m t t' n,
  set_iteration set_order /\ built h /\ harmless h r /\ harmless h x /\ is_rule_at h r /\ is_rule_at h x /\ nth_error h x = Some (OOr rs) /\ In r rs /\
  parser_findall U set_order c rel fuel h r text = Some (Ok (s, [m])) /\ parser_findall U set_order c rel fuel h x text = Some (Ok (s', [])) /\
  parser_match U set_order c rel fuel h r text = Some (Ok (t, Some n)) /\ parser_match U set_order c rel fuel h x text = Some (Ok (t', None)).
Proof.
  exists ASCII, first_seen, small_context, (fun _ _ _ => true), 100, lost_heap, 10, 13, [12; 10], (str_of "c e f g"). do 6 eexists.
  assert (B : built lost_heap) by (apply program_built; reflexivity).
  assert (R8 : is_rule_at lost_heap 10) by (apply is_rule_atb_true; reflexivity). assert (R11 : is_rule_at lost_heap 13) by (apply is_rule_atb_true; reflexivity).
  split; [exact first_seen_iterates|]. split; [exact B|]. split; [apply harmlessb_true; [exact B|exact R8|reflexivity]|]. split; [apply harmlessb_true; [exact B|exact R11|reflexivity]|].
  split; [exact R8|]. split; [exact R11|]. split; [reflexivity|]. split; [right; left; reflexivity|].
  split; [vm_compute; reflexivity|]. split; [vm_compute; reflexivity|]. split; vm_compute; reflexivity.
Qed.
(** a = rule('aaaaaaaaa', 'b'); or_(a, rule('b', 'c', 'd')). *)
Definition short_program : list rule_call := [CRule [W "aaaaaaaaa"; W "b"]; CRule [W "b"; W "c"; W "d"]; COr [1; 3]].
Definition short_heap : rule_heap := program short_program.
Definition all_true : nat -> form -> form -> bool := fun _ _ _ => true.
Lemma short_sure root : nth_error short_heap root <> None -> is_rule_atb short_heap root = true -> harmlessb short_heap = true ->
  (exists g, parser_grammar ASCII first_seen small_context 100 short_heap root = Some (Ok g)) -> exists g, sure ASCII first_seen small_context 100 short_heap root g.
Proof.
  intros _ R H (g & G). exists g. assert (B : built short_heap) by (apply program_built; reflexivity). assert (R' := is_rule_atb_true _ _ R).
  split; [exact B|]. split; [apply harmlessb_true; [exact B|exact R'|exact H]|]. split; [exact R'|]. split; [exact G|]. left. apply solidb_true. reflexivity.
Qed.
Lemma short_sure_1 : exists g, sure ASCII first_seen small_context 100 short_heap 1 g.
Proof.
  apply short_sure; [discriminate|reflexivity|reflexivity|].
  destruct (parser_grammar ASCII first_seen small_context 100 short_heap 1) as [[g|]|] eqn:E; [eauto|exfalso..]; vm_compute in E; discriminate.
Qed.
Lemma short_sure_4 : exists g, sure ASCII first_seen small_context 100 short_heap 4 g.
Proof.
  apply short_sure; [discriminate|reflexivity|reflexivity|].
  destruct (parser_grammar ASCII first_seen small_context 100 short_heap 4) as [[g|]|] eqn:E; [eauto|exfalso..]; vm_compute in E; discriminate.
Qed.
Lemma short_shown :
  (exists g, sure ASCII first_seen small_context 100 short_heap 1 g) /\ (exists g, sure ASCII first_seen small_context 100 short_heap 4 g) /\
  text_found short_program 1 "aaaaaaaaa b c d" = Some (Ok [((0, 2), (0%Z, 11%Z))]) /\ text_found short_program 4 "aaaaaaaaa b c d" = Some (Ok [((1, 4), (10%Z, 15%Z))]).
Proof. split; [exact short_sure_1|]. split; [exact short_sure_4|]. split; vm_compute; reflexivity. Qed.
Lemma fewer_characters : exists U set_order c rel fuel h r x rs text g g' s s' ms ms',
  set_iteration set_order /\ sure U set_order c fuel h r g /\ sure U set_order c fuel h x g' /\ nth_error h x = Some (OOr rs) /\ In r rs /\
  parser_findall U set_order c rel fuel h r text = Some (Ok (s, ms)) /\ parser_findall U set_order c rel fuel h x text = Some (Ok (s', ms')) /\
  (characters ms' < characters ms)%Z.
Proof.
  destruct short_sure_1 as (g & G), short_sure_4 as (g' & G').
  exists ASCII, first_seen, small_context, all_true, 100, short_heap, 1, 4, [1; 3], (str_of "aaaaaaaaa b c d"), g, g'. eexists. eexists. eexists. eexists.
  split; [exact first_seen_iterates|]. split; [exact G|]. split; [exact G'|]. split; [reflexivity|]. split; [left; reflexivity|].
  split; [vm_compute; reflexivity|]. split; vm_compute; reflexivity.
Qed.
