(** Pattern strings: the joined pattern against the patterns alone, and against the trees. *)
From Verif Require Import Base TokenModel RuleModel TokenizerModel DotTextModel DotTextProofs PredicateProofs PatternModel PatternSpec PatternProofs.
From Coq Require Import Lia.
Open Scope nat_scope.

Lemma Forall2_length {A B} (P : A -> B -> Prop) l l' : Forall2 P l l' -> length l = length l'.
Proof. intro H. induction H; cbn; congruence. Qed.
Lemma rule_name_inj r r' : rule_name r = rule_name r' -> sr_id r = sr_id r'.
Proof. unfold rule_name. intro H. apply app_inv_head in H. apply digits_inj. exact H. Qed.
Lemma lexed_each rules es : each_alone rules es -> Forall (fun r => unnumbered (sr_pattern r)) rules ->
  exists ls, Forall2 (fun r l => lexed (sr_pattern r) = Some (Ok l)) rules ls /\ Forall (fun l => forall k, ~ In (SRef k) l) ls.
Proof.
  intro H. induction H as [|r e rules es H1 H2 IH]; intro U; [exists []; split; constructor|].
  inversion U as [|? ? U1 U2]; subst. destruct (IH U2) as (ls & A & B). destruct (alone_inv _ _ H1) as (l & m & f & L & _).
  exists (l :: ls). split; constructor; try assumption. intro k. apply (U1 l k L).
Qed.
Lemma compile_joined rules ls : Forall2 (fun r l => lexed (sr_pattern r) = Some (Ok l)) rules ls ->
  compile_strings rules = Some (let! m := steps start (joined_symbols rules ls) in let! e := finish m in Ok (e, mapping rules)).
Proof.
  intro H. unfold compile_strings, re_compile. pose proof (lexed_joined rules ls H) as L. unfold lexed in L. rewrite L. cbn [then_].
  destruct (steps start (joined_symbols rules ls)) as [m|]; [|reflexivity]. cbn [bind]. destruct (finish m); reflexivity.
Qed.
Lemma mapping_in rules r : In r rules -> In (rule_name r, sr_type r) (mapping rules).
Proof. intro I. unfold mapping. apply in_map_iff. exists r. split; [reflexivity|]. apply in_rev in I. exact I. Qed.
Lemma nodup_rule_names rules : forall es, length rules = length es -> NoDup (all_names rules es) -> NoDup (map rule_name rules).
Proof.
  induction rules as [|r rules IH]; intros es L N; [constructor|]. destruct es as [|e es]; [discriminate|].
  unfold all_names in N. cbn [combine flat_map] in N. cbn [map]. pose proof (nodup_right _ _ N) as N2. constructor.
  - intro K. change (rule_name r :: names_of e ++ all_names rules es) with ([rule_name r] ++ names_of e ++ all_names rules es) in N.
    inversion N as [|? ? N1 _]; subst. apply N1. apply in_or_app. right. clear - K L. cbn [length] in L. injection L as L.
    revert es L. induction rules as [|r' rules IH]; intros es L; [destruct K|]. destruct es as [|e1 es]; [discriminate|].
    cbn [combine flat_map]. destruct K as [K|K]; [left; exact K|]. right. apply in_or_app. right. apply IH; [exact K|]. injection L as L. exact L.
  - apply (IH es); [injection L as L; exact L|exact N2].
Qed.
Lemma nodup_mapping rules : NoDup (map rule_name rules) -> NoDup (map fst (mapping rules)).
Proof. intro N. unfold mapping. rewrite map_map. cbn [fst]. rewrite map_rev. apply NoDup_rev. exact N. Qed.
Lemma alternatives_of C text i (names : list (str * nat)) (mp : list (str * str)) r0 rules : forall ks es, length rules = length es ->
  Forall2 (fun k r => number_name k names = Some (rule_name r) /\ lookup_name (rule_name r) mp = Some (sr_type r)) ks rules ->
  map (fun p => (fst p, place_type (r0, names, mp) p)) (flat_map (fun r => places C text r (i, [])) (map (fun '(k, e) => alternative k e) (combine ks es))) =
  own_alternatives C rules es text i.
Proof.
  induction rules as [|r rules IH]; intros ks es L H; inversion H as [|k ? ks' ? [H1 H2] H3]; subst; [reflexivity|].
  destruct es as [|e es]; [discriminate|]. cbn [combine map flat_map]. rewrite map_app. unfold own_alternatives. cbn [combine flat_map]. f_equal.
  - rewrite places_alternative, map_map. unfold own_matches. rewrite map_map. apply map_ext. intro q. cbn [fst].
    unfold place_type, lastgroup. cbn [fst snd]. rewrite H1, H2. reflexivity.
  - apply IH; [injection L as L; exact L|exact H3].
Qed.

Lemma joined_alone rules es : each_alone rules es -> Forall (fun r => unnumbered (sr_pattern r)) rules -> distinct_names rules es -> rules <> [] ->
  exists compiled, compile_strings rules = Some (Ok compiled) /\ forall C text i, string_alternatives C compiled text i = own_alternatives C rules es text i.
Proof.
  intros He Hu Hd Hne. destruct (lexed_each rules es He Hu) as (ls & Hl & Hr).
  pose proof (Forall2_length _ _ _ He) as Len. rewrite (compile_joined rules ls Hl).
  destruct rules as [|r rules]; [congruence|]. destruct es as [|e es]; [discriminate|]. destruct ls as [|l ls]; [inversion Hl|].
  destruct (rules_steps rules es ls r e l [] 1 [] Hl He Hr Hd) as (m & before & last & ks & S1 & F & B & A); [intros x _ []|].
  change (top [] [] 1 []) with start in S1. rewrite S1. cbn [bind]. unfold finish. rewrite F. cbn [bind].
  eexists. split; [reflexivity|]. intros C text i. unfold string_alternatives. cbn [fst].
  unfold contents. cbn [f_last f_before]. rewrite places_alternation, B. cbn [rev app].
  apply alternatives_of; [exact Len|].
  assert (N : numbers_ok m) by (apply (steps_numbers _ _ _ S1); split; [constructor|intros k []]).
  assert (M : NoDup (map fst (mapping (r :: rules)))) by (apply nodup_mapping, (nodup_rule_names _ (e :: es) Len), Hd).
  assert (G : forall rs ks, Forall2 (fun k r => In (rule_name r, k) (rd_names m)) ks rs -> incl rs (r :: rules) ->
    Forall2 (fun k r0 => number_name k (rd_names m) = Some (rule_name r0) /\ lookup_name (rule_name r0) (mapping (r :: rules)) = Some (sr_type r0)) ks rs).
  { induction rs as [|r1 rs IH]; intros ks1 K I; inversion K; subst; constructor.
    - split; [apply number_name_in; [apply N|assumption]|apply lookup_name_in; [exact M|apply mapping_in, I; left; reflexivity]].
    - apply IH; [assumption|]. intros ? J. apply I. right. exact J. }
  apply G; [exact A|apply incl_refl].
Qed.

Lemma alone_nodup pattern e : alone pattern e -> NoDup (names_of e).
Proof.
  intro H. destruct (alone_inv _ _ H) as (l & m & f & _ & S1 & _ & ->). unfold names_of. cbn [snd].
  assert (G : forall l m m', steps m l = Ok m' -> NoDup (map fst (rd_names m)) -> NoDup (map fst (rd_names m'))).
  { clear. induction l as [|x l IH]; intros m m' H N; cbn [steps] in H; [inversion H; subst; exact N|].
    destruct (step m x) as [m1|] eqn:E; [|discriminate]. apply (IH m1 m' H). apply step_names in E.
    destruct E as (_ & [[E _]|(n & _ & E & _ & Hn)]); rewrite E; [exact N|]. cbn [map fst]. constructor; assumption. }
  apply (G _ _ _ S1). constructor.
Qed.
Lemma joined_rejected rules es : each_alone rules es -> Forall (fun r => unnumbered (sr_pattern r)) rules -> ~ distinct_names rules es ->
  compile_strings rules = Some (Err ReError).
Proof.
  intros He Hu Hd. destruct (lexed_each rules es He Hu) as (ls & Hl & Hr). rewrite (compile_joined rules ls Hl).
  destruct rules as [|r rules]; [exfalso; apply Hd; constructor|].
  destruct es as [|e es]; [inversion He|]. destruct ls as [|l ls]; [inversion Hl|].
  change start with (top [] [] 1 []). rewrite (rules_clash rules es ls r e l [] 1 [] Hl He Hr); [reflexivity| |].
  - clear - He. induction He as [|r1 e1 rs1 es1 K1 K2 IH]; constructor; [apply (alone_nodup _ _ K1)|exact IH].
  - intros [N _]. apply Hd. exact N.
Qed.

(** ** Searching *)
Lemma search_ext f g : (forall i, f i = g i) -> forall b n i, search_with f b n i = search_with g b n i.
Proof. intros H b n. revert b. induction n as [|n IH]; intros b i; cbn [search_with]; rewrite H; destruct (filter _ _) as [|[j ty] l]; try reflexivity. apply IH. Qed.
Lemma finditer_ext f g : (forall i, f i = g i) -> forall n len b i, finditer_with f n len b i = finditer_with g n len b i.
Proof.
  intros H. induction n as [|n IH]; intros len b i; cbn [finditer_with]; rewrite (search_ext f g H); destruct (search_with g b (len - i) i) as [[[s e] ty]|]; try reflexivity.
  rewrite IH. reflexivity.
Qed.
Lemma search_tree t text : forall n b i, search_with (alternatives t text) b n i = search t text b n i.
Proof. induction n as [|n IH]; intros b i; cbn [search_with search]; unfold candidates; destruct (filter _ _) as [|[j ty] l]; try reflexivity. apply IH. Qed.
Lemma finditer_tree t text : forall n b i, finditer_with (alternatives t text) n (length text) b i = finditer n t text b i.
Proof.
  induction n as [|n IH]; intros b i; cbn [finditer_with finditer]; rewrite search_tree; destruct (search t text b (length text - i) i) as [[[s e] ty]|]; try reflexivity.
  rewrite IH. reflexivity.
Qed.
Lemma filter_true {A} (f : A -> bool) l : (forall x, f x = true) -> filter f l = l.
Proof. intro H. induction l as [|x l IH]; [reflexivity|]. cbn. rewrite H, IH. reflexivity. Qed.
Lemma search_found f : forall n b i s e ty, search_with f b n i = Some (s, e, ty) ->
  hd_error (f s) = Some (e, ty) \/ hd_error (filter (fun c => negb (Nat.eqb (fst c) s)) (f s)) = Some (e, ty).
Proof.
  induction n as [|n IH]; intros b i s e ty H; cbn [search_with] in H;
    destruct (filter (fun c => negb (b && Nat.eqb (fst c) i)) (f i)) as [|[j ty'] l] eqn:E.
  - discriminate.
  - inversion H; subst. destruct b; cbn [andb] in E; [right; rewrite E; reflexivity|left].
    rewrite filter_true in E by reflexivity. rewrite E. reflexivity.
  - apply (IH false (S i) s e ty H).
  - inversion H; subst. destruct b; cbn [andb] in E; [right; rewrite E; reflexivity|left].
    rewrite filter_true in E by reflexivity. rewrite E. reflexivity.
Qed.
Lemma finditer_found f : forall n len b i l, finditer_with f n len b i = Some l -> forall s e ty, In (s, e, ty) l ->
  hd_error (f s) = Some (e, ty) \/ hd_error (filter (fun c => negb (Nat.eqb (fst c) s)) (f s)) = Some (e, ty).
Proof.
  induction n as [|n IH]; intros len b i l H s e ty I; cbn [finditer_with] in H;
    destruct (search_with f b (len - i) i) as [[[s' e'] ty']|] eqn:E; try discriminate; try (inversion H; subst; destruct I; fail).
  destruct (finditer_with f n len (Nat.eqb s' e') e') as [l'|] eqn:E2; [|discriminate]. inversion H; subst.
  destruct I as [I|I]; [inversion I; subst; apply (search_found _ _ _ _ _ _ _ E)|apply (IH _ _ _ _ E2 _ _ _ I)].
Qed.
(** The first of the alternatives. *)
Lemma first_own (w : list nat -> list nat) (wt : nat * option str -> bool) C text s :
  (forall l (ty : option str), filter wt (map (fun j => (j, ty)) l) = map (fun j => (j, ty)) (w l)) ->
  forall rules es e ty, length rules = length es -> hd_error (filter wt (own_alternatives C rules es text s)) = Some (e, ty) ->
  exists before r after ebefore x eafter, rules = before ++ r :: after /\ es = ebefore ++ x :: eafter /\ length before = length ebefore /\
    ty = Some (sr_type r) /\ first_match w C text ebefore x s e.
Proof.
  intros W. induction rules as [|r rules IH]; intros es e ty L H; [discriminate|]. destruct es as [|x es]; [discriminate|].
  unfold own_alternatives in H. cbn [combine flat_map] in H. rewrite filter_app, W in H.
  destruct (w (own_matches C text x s)) as [|j l] eqn:E.
  - cbn [map app] in H. destruct (IH es e ty ltac:(injection L as L; exact L) H) as (before & r' & after & eb & x' & ea & -> & -> & L' & T & F & G).
    exists (r :: before), r', after, (x :: eb), x', ea. repeat split; try assumption; [cbn [length]; f_equal; exact L'|].
    intros y [<-|I]; [exact E|apply G; exact I].
  - cbn [map app hd_error] in H. inversion H; subst. exists [], r, rules, [], x, es. repeat split; [rewrite E; reflexivity|]. intros y [].
Qed.
Lemma filter_longer s l (ty : option str) : filter (fun c => negb (Nat.eqb (fst c) s)) (map (fun j => (j, ty)) l) = map (fun j => (j, ty)) (longer s l).
Proof. induction l as [|j l IH]; [reflexivity|]. unfold longer in *. cbn [map filter fst]. destruct (Nat.eqb j s); cbn [negb]; [exact IH|]. cbn [map]. rewrite IH. reflexivity. Qed.
Lemma mapM_in {A B} (f : A -> res B) l : forall l', mapM f l = Ok l' -> forall y, In y l' -> exists x, In x l /\ f x = Ok y.
Proof.
  induction l as [|x l IH]; intros l' H y I; cbn [mapM] in H; [inversion H; subst; destruct I|].
  destruct (f x) as [z|] eqn:E; [|discriminate]. cbn [bind] in H. destruct (mapM f l) as [zs|] eqn:E2; [|discriminate]. cbn [bind] in H. inversion H; subst.
  destruct I as [<-|I]; [exists x; split; [left; reflexivity|exact E]|]. destruct (IH zs eq_refl y I) as (x' & J & K). exists x'. split; [right; exact J|exact K].
Qed.
Lemma tokens_own rules es compiled C fuel text tokens t :
  each_alone rules es -> Forall (fun r => unnumbered (sr_pattern r)) rules -> distinct_names rules es -> rules <> [] ->
  compile_strings rules = Some (Ok compiled) -> tokenize_strings C fuel compiled text = Some (Ok tokens) -> In t tokens ->
  exists s e, t_start t = Z.of_nat s /\ t_stop t = Z.of_nat e /\ t_value t = slice text s e /\ from_rule C rules es text s e (t_type t).
Proof.
  intros He Hu Hd Hne Hc Ht I. destruct (joined_alone rules es He Hu Hd Hne) as (c & Hc' & A). rewrite Hc in Hc'. inversion Hc'; subst c. clear Hc'.
  unfold tokenize_strings in Ht. destruct (finditer_with _ fuel (length text) false 0) as [l|] eqn:F; [|discriminate].
  inversion Ht as [M]. destruct (mapM_in _ _ _ M t I) as ([[s e] ty] & J & K). clear M Ht.
  pose proof (finditer_found _ _ _ _ _ _ F s e ty J) as H. rewrite A in H. cbn [make_token] in K. destruct ty as [ty|]; [|discriminate].
  inversion K; subst t. clear K. cbn [t_start t_stop t_value t_type]. exists s, e. repeat split.
  pose proof (Forall2_length _ _ _ He) as Len. unfold from_rule. destruct H as [H|H].
  - rewrite <- (filter_true (fun _ => true) (own_alternatives C rules es text s)) in H by reflexivity.
    destruct (first_own (fun l => l) (fun _ => true) C text s (fun l ty => filter_true _ _ (fun _ => eq_refl)) rules es e (Some ty) Len H) as (b & r & a & eb & x & ea & E1 & E2 & E3 & E4 & E5).
    inversion E4; subst. exists b, r, a, eb, x, ea. auto 10.
  - destruct (first_own (longer s) _ C text s (filter_longer s) rules es e (Some ty) Len H) as (b & r & a & eb & x & ea & E1 & E2 & E3 & E4 & E5).
    inversion E4; subst. exists b, r, a, eb, x, ea. auto 10.
Qed.

(** ** Trees *)
Section Trees.
  Variable C : alphabet.
  Variable text : str.
  Lemma flat_map_fst (f : place -> list place) (g : nat -> list nat) l : (forall p, map fst (f p) = g (fst p)) -> map fst (flat_map f l) = flat_map g (map fst l).
  Proof. unfold place in *. intro H. induction l as [|p l IH]; [reflexivity|]. cbn [flat_map map]. rewrite map_app, H, IH. reflexivity. Qed.
  Lemma star_tree greedy (f : place -> list place) (g : nat -> list nat) : (forall p, map fst (f p) = g (fst p)) ->
    forall n p, map fst (star_places greedy f n p) = star_ends greedy g n (fst p).
  Proof.
    intros H. induction n as [|n IH]; intro p; [reflexivity|]. cbn [star_places star_ends].
    assert (K : map fst (flat_map (fun q => if fst p <? fst q then star_places greedy f n q else [q]) (f p)) =
                flat_map (fun j => if fst p <? j then star_ends greedy g n j else [j]) (g (fst p))).
    { rewrite <- H. apply flat_map_fst. intro q. destruct (fst p <? fst q); [apply IH|reflexivity]. }
    destruct greedy; [rewrite map_app; apply (f_equal (fun l => l ++ [fst p])); exact K|cbn [map]; apply (f_equal (cons (fst p))); exact K].
  Qed.
  Lemma upto_tree (greedy : bool) (f : place -> list place) a : (forall p, map fst (f p) = ends text a (fst p)) ->
    forall n p, map fst (upto_places greedy f n p) = ends text (if greedy then rupto n a else lazy_upto n a) (fst p).
  Proof.
    intros H. destruct greedy; (induction n as [|n IH]; intro p; [reflexivity|]);
      cbn [upto_places rupto lazy_upto ropt ends]; rewrite <- H.
    - rewrite map_app. apply (f_equal (fun l => l ++ [fst p])). apply (flat_map_fst _ _ _ IH).
    - cbn [map app]. apply (f_equal (cons (fst p))). apply (flat_map_fst _ _ _ IH).
  Qed.
  Lemma times_tree (f f' : place -> list place) a b : (forall p, map fst (f p) = ends text a (fst p)) -> (forall p, map fst (f' p) = ends text b (fst p)) ->
    forall n p, map fst (times_places f f' n p) = ends text (rtimes n a b) (fst p).
  Proof. intros H H'. induction n as [|n IH]; intro p; [apply H'|]. cbn [times_places rtimes ends]. rewrite <- H. apply (flat_map_fst _ _ _ IH). Qed.
  Lemma places_tree r : unreferring r -> forall p, map fst (places C text r p) = ends text (tree C r) (fst p).
  Proof.
    induction r as [|o|a|k|b r IH|a IHa b IHb|a IHa b IHb|lo hi g r IH|k r IH]; intros U p; cbn [places tree ends unreferring] in *.
    - reflexivity.
    - destruct (nth_error text (fst p)); [destruct (in_one C o n)|]; reflexivity.
    - destruct (anchored C a text (fst p)); reflexivity.
    - destruct U.
    - unfold some_end. rewrite <- (IH U p). destruct b; destruct (places C text r p); reflexivity.
    - destruct U as [Ua Ub]. rewrite <- (IHa Ua). apply (flat_map_fst _ _ _ (IHb Ub)).
    - destruct U as [Ua Ub]. rewrite map_app, (IHa Ua), (IHb Ub). reflexivity.
    - apply times_tree; [exact (IH U)|]. destruct hi; intro q; [apply upto_tree; exact (IH U)|]. cbn [ends]. apply star_tree. exact (IH U).
    - rewrite map_map. cbn [fst]. apply (IH U).
  Qed.
End Trees.

(** An expression without references comes from a string without them. *)
Definition clean (m : reading) : Prop := forall f, In f (rd_frames m) -> Forall unreferring (f_before f) /\ Forall (fun p => unreferring (snd p)) (f_last f).
Lemma unreferring_alternation l : forall r, unreferring (alternation r l) <-> unreferring r /\ Forall unreferring l.
Proof.
  unfold alternation. induction l as [|x l IH]; intro r; [split; [auto|tauto]|]. cbn [fold_left]. rewrite IH. cbn [unreferring].
  split; [intros [[A B] D]; auto|intros [A B]; inversion B; auto].
Qed.
Lemma unreferring_sequence l : unreferring (sequence l) <-> Forall (fun p => unreferring (snd p)) l.
Proof.
  unfold sequence. assert (G : forall r, unreferring (fold_left (fun r p => Seq (snd p) r) l r) <-> unreferring r /\ Forall (fun p => unreferring (snd p)) l).
  { induction l as [|x l IH]; intro r; [split; [auto|tauto]|]. cbn [fold_left]. rewrite IH. cbn [unreferring].
    split; [intros [[A B] D]; auto|intros [A B]; inversion B; auto]. }
  rewrite G. cbn. tauto.
Qed.
Lemma unreferring_wrap o r : unreferring (wrap o r) <-> unreferring r.
Proof. destruct o; reflexivity. Qed.
Lemma unreferring_contents f : unreferring (contents f) <-> Forall unreferring (f_before f) /\ Forall (fun p => unreferring (snd p)) (f_last f).
Proof. unfold contents. rewrite unreferring_alternation, unreferring_sequence. tauto. Qed.
Lemma put_clean p r m m' : put p r m = Ok m' -> clean m' -> clean m /\ unreferring r.
Proof.
  unfold put. destruct m as [[|f fs] n names]; cbn [rd_frames]; [discriminate|]. intro H; inversion H; subst; clear H. intro Cl.
  destruct (Cl _ (or_introl eq_refl)) as [A B]. cbn in A, B. inversion B; subst. split; [|assumption].
  intros g [<-|I]; [split; assumption|]. apply Cl. right. exact I.
Qed.
Lemma step_clean m x m' : step m x = Ok m' -> clean m' -> clean m /\ forall k, x <> SRef k.
Proof.
  intros H Cl. assert (R : forall k, refer k m = Ok m' -> False).
  { intros k. unfold refer. destruct (_ && _)%bool; [|discriminate]. intro K. destruct (put_clean _ _ _ _ K Cl) as [_ []]. }
  destruct x as [o|a|k|name|[[name|]| |b]| | |lo hi g]; cbn [step] in H.
  - split; [apply (put_clean _ _ _ _ H Cl)|discriminate].
  - split; [apply (put_clean _ _ _ _ H Cl)|discriminate].
  - destruct (R _ H).
  - destruct (name_number name (rd_names m)); [destruct (R _ H)|discriminate].
  - destruct (name_number name (rd_names m)); [discriminate|]. inversion H; subst. split; [|discriminate]. intros f I. apply Cl. right. exact I.
  - inversion H; subst. split; [|discriminate]. intros f I. apply Cl. right. exact I.
  - inversion H; subst. split; [|discriminate]. intros f I. apply Cl. right. exact I.
  - inversion H; subst. split; [|discriminate]. intros f I. apply Cl. right. exact I.
  - split; [|discriminate]. destruct m as [[|f [|g fs]] n names]; cbn [rd_frames] in H; try discriminate. inversion H; subst; clear H.
    destruct (Cl _ (or_introl eq_refl)) as [A B]. cbn in A, B. inversion B as [|? ? B1 B2]; subst. cbn [snd] in B1.
    apply unreferring_wrap, unreferring_contents in B1. intros h [<-|[<-|I]]; [exact B1|split; assumption|]. apply Cl. right. exact I.
  - split; [|discriminate]. destruct m as [[|f fs] n names]; cbn [rd_frames] in H; try discriminate. inversion H; subst; clear H.
    destruct (Cl _ (or_introl eq_refl)) as [A B]. cbn in A, B. inversion A as [|? ? A1 A2]; subst.
    apply unreferring_sequence in A1. intros h [<-|I]; [split; assumption|]. apply Cl. right. exact I.
  - split; [|discriminate]. destruct m as [[|[o b [|[[| |] r] l]] fs] n names]; cbn [rd_frames] in H; try discriminate. inversion H; subst; clear H.
    destruct (Cl _ (or_introl eq_refl)) as [A B]. cbn in A, B. inversion B as [|? ? B1 B2]; subst.
    intros h [<-|I]; [split; [exact A|constructor; assumption]|]. apply Cl. right. exact I.
Qed.
Lemma unreferring_unnumbered pattern e : alone pattern e -> unreferring (fst e) -> unnumbered pattern.
Proof.
  intros H U. destruct (alone_inv _ _ H) as (l & m & f & L & S1 & F & ->). cbn [fst] in U.
  assert (G : forall l m m', steps m l = Ok m' -> clean m' -> forall k, ~ In (SRef k) l).
  { clear. induction l as [|x l IH]; intros m m' H Cl k; [intros []|]. cbn [steps] in H. destruct (step m x) as [m1|] eqn:E; [|discriminate].
    cbn [bind] in H. assert (Cl1 : clean m1).
    { clear - H Cl. revert m1 H. induction l as [|y l IH]; intros m1 H; cbn [steps] in H; [inversion H; subst; exact Cl|].
      destruct (step m1 y) as [m2|] eqn:E; [|discriminate]. apply (step_clean _ _ _ E). cbn [bind] in H. apply (IH m2 H). }
    intros [I|I]; [apply (proj2 (step_clean _ _ _ E Cl1) k I)|apply (IH m1 m' H Cl k I)]. }
  intros l' k L'. unfold lexed in L. rewrite L in L'. inversion L'; subst l'. apply (G _ _ _ S1).
  intros g I. rewrite F in I. destruct I as [<-|[]]. apply unreferring_contents. exact U.
Qed.

Lemma tree_compile C rules : forall es seen, length rules = length es -> NoDup (map sr_id rules) -> (forall i, In i seen -> ~ In i (map sr_id rules)) ->
  compile_patterns seen (tree_rules C rules es) = Ok (map (fun '(r, e) => (sr_type r, tree C (fst e))) (combine rules es)).
Proof.
  induction rules as [|r rules IH]; intros es seen L N Hs; [reflexivity|]. destruct es as [|e es]; [discriminate|].
  unfold tree_rules in *. cbn [combine map compile_patterns tree_rule r_pattern r_id r_type]. cbn [map] in N. inversion N as [|? ? N1 N2]; subst.
  destruct (existsb (Nat.eqb (sr_id r)) seen) eqn:E.
  - exfalso. apply existsb_exists in E. destruct E as (i & I & K). apply Nat.eqb_eq in K. subst i. apply (Hs _ I). left. reflexivity.
  - rewrite IH; [reflexivity|injection L as L; exact L|exact N2|]. intros i [<-|I]; [exact N1|]. intro K. apply (Hs i I). right. exact K.
Qed.
Lemma strings_as_trees C rules es t : each_alone rules es -> Forall (fun e => unreferring (fst e)) es -> distinct_names rules es ->
  new_tokenizer (map Some (tree_rules C rules es)) = Ok t ->
  exists compiled, compile_strings rules = Some (Ok compiled) /\ forall fuel text, tokenize_strings C fuel compiled text = tokenize fuel t text.
Proof.
  intros He Hu Hd Ht. pose proof (Forall2_length _ _ _ He) as Len.
  assert (Hu' : Forall (fun r => unnumbered (sr_pattern r)) rules).
  { clear - He Hu. induction He as [|r e rules es H1 H2 IH]; [constructor|]. inversion Hu; subst. constructor; [apply (unreferring_unnumbered _ e); assumption|apply IH; assumption]. }
  assert (N : NoDup (map sr_id rules)).
  { apply nodup_rule_names in Hd; [|exact Len]. clear - Hd. induction rules as [|r rules IH]; [constructor|]. cbn [map] in *. inversion Hd as [|? ? N1 N2]; subst.
    constructor; [|apply IH; exact N2]. intro K. apply N1. apply in_map_iff in K. destruct K as (r' & E & I). apply in_map_iff. exists r'. split; [|exact I]. unfold rule_name. rewrite E. reflexivity. }
  assert (R : tk_regexp t = map (fun '(r, e) => (sr_type r, tree C (fst e))) (combine rules es)).
  { unfold new_tokenizer, reset in Ht. assert (As : forall l, assert_rules (map Some l) = Ok l) by (induction l as [|x l IH]; [reflexivity|cbn; rewrite IH; reflexivity]).
    rewrite As in Ht. unfold compile in Ht. rewrite (tree_compile C rules es [] Len N) in Ht by (intros i []). cbn [bind] in Ht. inversion Ht. reflexivity. }
  destruct rules as [|r rules].
  - destruct es; [|discriminate]. eexists. split; [reflexivity|]. intros fuel text. unfold tokenize_strings, tokenize.
    rewrite <- finditer_tree. rewrite (finditer_ext _ (alternatives t text)); [reflexivity|]. intro i. unfold alternatives. rewrite R. reflexivity.
  - destruct (joined_alone (r :: rules) es He Hu' Hd ltac:(discriminate)) as (compiled & Hc & A). exists compiled. split; [exact Hc|].
    intros fuel text. unfold tokenize_strings, tokenize. rewrite <- finditer_tree, (finditer_ext _ (alternatives t text)); [reflexivity|].
    intro i. rewrite A. destruct es as [|e es]; [discriminate|]. unfold alternatives. rewrite R. cbn [combine map].
    change ((sr_type r, tree C (fst e)) :: map (fun '(r0, e0) => (sr_type r0, tree C (fst e0))) (combine rules es))
      with (map (fun '(r0, e0) => (sr_type r0, tree C (fst e0))) (combine (r :: rules) (e :: es))).
    clear - Hu Len. unfold own_alternatives. revert Len Hu. generalize (r :: rules) (e :: es). intros rs xs Len Hu. revert xs Len Hu.
    induction rs as [|r1 rs IH]; intros xs Len Hu; [reflexivity|]. destruct xs as [|x xs]; [discriminate|]. inversion Hu; subst. cbn [combine map flat_map].
    rewrite (IH xs); [|injection Len as Len; exact Len|assumption]. unfold own_matches. rewrite (places_tree C text (fst x)) by assumption. reflexivity.
Qed.
Lemma tokens_typed rules es compiled C fuel text r :
  each_alone rules es -> Forall (fun r => unnumbered (sr_pattern r)) rules -> distinct_names rules es -> rules <> [] ->
  compile_strings rules = Some (Ok compiled) -> tokenize_strings C fuel compiled text = Some r -> exists tokens, r = Ok tokens.
Proof.
  intros He Hu Hd Hne Hc Ht. destruct (joined_alone rules es He Hu Hd Hne) as (c & Hc' & A). rewrite Hc in Hc'. inversion Hc'; subst c. clear Hc'.
  unfold tokenize_strings in Ht. destruct (finditer_with _ fuel (length text) false 0) as [l|] eqn:F; [|discriminate]. inversion Ht; subst r.
  assert (T : forall s e ty, In (s, e, ty) l -> ty <> None).
  { intros s e ty I. pose proof (finditer_found _ _ _ _ _ _ F s e ty I) as H. rewrite A in H.
    assert (J : In (e, ty) (own_alternatives C rules es text s)).
    { destruct H as [H|H]; [destruct (own_alternatives C rules es text s); inversion H; left; reflexivity|].
      destruct (filter _ _) as [|x m] eqn:E in H; inversion H; subst. assert (K : In (e, ty) (filter (fun c => negb (Nat.eqb (fst c) s)) (own_alternatives C rules es text s))) by (rewrite E; left; reflexivity).
      apply filter_In in K. apply K. }
    unfold own_alternatives in J. apply in_flat_map in J. destruct J as ([r e'] & _ & J). apply in_map_iff in J. destruct J as (j & E & _). inversion E. discriminate. }
  clear - T. induction l as [|[[s e] ty] l IH]; [exists []; reflexivity|]. destruct IH as (ts & E); [intros s' e' ty' I; apply (T s' e' ty'); right; exact I|].
  destruct ty as [ty|]; [|exfalso; apply (T s e None); [left; reflexivity|reflexivity]]. cbn [mapM make_token bind]. rewrite E. cbn [bind]. eexists. reflexivity.
Qed.
