(** findall on a text put together from two texts, when nothing crosses the border. *)
From Verif Require Import Base TokenModel EarleyModel EarleySpec EarleyInv TreeModel TreeSpec RelationSpec ParserModel ParserSpec ParserProofs AgreeProofs TextEqual AbsentSpec AbsentTheorems AbsentPrefer PieceSpec.
Open Scope nat_scope.

(** ** Ranges *)
Lemma left_to_right_app : forall a from b, left_to_right from (a ++ b) <-> left_to_right from a /\ exists stop, left_to_right stop b /\ (forall r, In r a -> snd r <= stop) /\ from <= stop.
Proof.
  induction a as [|[i j] a IH]; intros from b; cbn [app left_to_right].
  - split; [intros H; split; [exact Logic.I|]; exists from; split; [exact H|]; split; [intros r []|lia]|]. intros [_ (stop & H & _ & L)]. destruct b as [|[i j] b]; [exact H|]. cbn in *. intuition lia.
  - rewrite IH. split.
    + intros (A & B & C & stop & D & E & F). split; [auto|]. exists stop. split; [exact D|]. split; [|lia]. intros r [<-|I]; [exact F|apply E, I].
    + intros ((A & B & C) & stop & D & E & F). repeat split; auto. exists stop. split; [exact D|]. split; [intros r I; apply E; right; exact I|]. apply (E (i, j)). left. reflexivity.
Qed.
Lemma left_to_right_later n : forall l from, left_to_right (n + from) (map (later_range n) l) <-> left_to_right from l.
Proof. induction l as [|[i j] l IH]; intros from; [reflexivity|]. cbn [map later_range left_to_right fst snd]. rewrite IH. intuition lia. Qed.
Lemma left_to_right_weaken l from from' : left_to_right from l -> (forall r, In r l -> from' <= fst r) -> left_to_right from' l.
Proof. destruct l as [|[i j] l]; [auto|]. cbn. intros (A & B & C) H. split; [apply (H (i, j)); left; reflexivity|auto]. Qed.
Lemma left_to_right_in l from r : left_to_right from l -> In r l -> from <= fst r /\ fst r < snd r.
Proof. revert from. induction l as [|[i j] l IH]; intros from H I; [destruct I|]. destruct H as (A & B & C). destruct I as [<-|I]; [cbn; lia|]. specialize (IH j C I). lia. Qed.
Lemma covered_app a b : covered (a ++ b) = covered a + covered b.
Proof. unfold covered. rewrite map_app, list_sum_app. reflexivity. Qed.
Lemma covered_later n l : covered (map (later_range n) l) = covered l.
Proof. unfold covered. rewrite map_map. f_equal. apply map_ext. intros [i j]. cbn. lia. Qed.
Lemma split_at n : forall l from, left_to_right from l -> (forall r, In r l -> snd r <= n \/ n <= fst r) ->
  exists a b, l = a ++ map (later_range n) b /\ (forall r, In r a -> snd r <= n) /\ left_to_right from a /\ left_to_right 0 b.
Proof.
  induction l as [|[i j] l IH]; intros from H B; [exists [], []; repeat split; intros r []|].
  destruct H as (L1 & L2 & L3). destruct (B (i, j) (or_introl eq_refl)) as [X|X]; cbn [fst snd] in X.
  - destruct (IH j L3) as (a & b & -> & A1 & A2 & A3); [intros r I; apply B; right; exact I|]. exists ((i, j) :: a), b. split; [reflexivity|]. split; [intros r [<-|I]; [exact X|apply A1, I]|]. split; [cbn; auto|exact A3].
  - exists [], (map (fun r => (fst r - n, snd r - n)) ((i, j) :: l)). assert (G : forall r, In r ((i, j) :: l) -> n <= fst r /\ fst r < snd r).
    { intros r [<-|I]; [cbn; lia|]. destruct (left_to_right_in l j r L3 I). lia. }
    assert (E : map (later_range n) (map (fun r => (fst r - n, snd r - n)) ((i, j) :: l)) = (i, j) :: l).
    { rewrite map_map. rewrite <- (map_id ((i, j) :: l)) at 2. apply map_ext_in. intros [u v] I. specialize (G _ I). unfold later_range. cbn in *. f_equal; lia. }
    rewrite E. split; [reflexivity|]. split; [intros r []|]. split; [exact Logic.I|]. apply (proj1 (left_to_right_later n _ 0)). rewrite E, Nat.add_0_r. apply (left_to_right_weaken _ i); [cbn; auto|]. intros r I. specialize (G r I). lia.
Qed.
Lemma ranges_before_app_l a s b t : ranges_before a s -> ranges_before (a ++ b) (s ++ t).
Proof. intros (p & x & y & a' & b' & -> & -> & R). exists p, x, y, (a' ++ b), (b' ++ t). rewrite <- !app_assoc. auto. Qed.
Lemma ranges_before_app_r a b t : ranges_before b t -> ranges_before (a ++ b) (a ++ t).
Proof. intros (p & x & y & a' & b' & -> & -> & R). exists (a ++ p), x, y, a', b'. rewrite <- !app_assoc. auto. Qed.
Lemma ranges_before_later n a b : ranges_before a b -> ranges_before (map (later_range n) a) (map (later_range n) b).
Proof. intros (p & x & y & a' & b' & -> & -> & R). exists (map (later_range n) p), (later_range n x), (later_range n y), (map (later_range n) a'), (map (later_range n) b'). rewrite !map_app. split; [reflexivity|]. split; [reflexivity|]. unfold range_before, later_range in *. cbn. lia. Qed.
(** The best choice on both sides of a border is the best choice. *)
Lemma best_ranges_join (P P1 P2 : nat * nat -> Prop) n a b :
  (forall r, P r -> snd r <= n \/ n <= fst r) -> (forall r, P1 r -> snd r <= n) -> (forall r, snd r <= n -> (P r <-> P1 r)) -> (forall r, P (later_range n r) <-> P2 r) ->
  best_ranges P1 a -> best_ranges P2 b -> best_ranges P (a ++ map (later_range n) b).
Proof.
  intros NC B1 E1 E2 (A1 & A2 & A3 & A4) (C1 & C2 & C3 & C4).
  assert (SPLIT : forall S, left_to_right 0 S -> (forall r, In r S -> P r) -> exists a' b', S = a' ++ map (later_range n) b' /\ covered a' <= covered a /\ covered b' <= covered b /\
    (covered a' = covered a -> a' = a \/ ranges_before a a') /\ (covered b' = covered b -> b' = b \/ ranges_before b b')).
  { intros S LS PS. destruct (split_at n S 0 LS (fun r I => NC r (PS r I))) as (a' & b' & -> & Q1 & Q2 & Q3).
    assert (PA : forall r, In r a' -> P1 r) by (intros r I; apply E1; [apply Q1, I|apply PS, in_or_app; left; exact I]).
    assert (PB : forall r, In r b' -> P2 r) by (intros r I; apply E2, PS, in_or_app; right; apply in_map; exact I).
    exists a', b'. split; [reflexivity|]. split; [apply A3; assumption|]. split; [apply C3; assumption|]. split; intros E; [apply A4; assumption|apply C4; assumption]. }
  split; [|split; [|split]].
  - apply left_to_right_app. split; [exact A1|]. exists n. split; [assert (X := proj2 (left_to_right_later n b 0) C1); rewrite Nat.add_0_r in X; exact X|]. split; [|lia]. intros r I. apply B1, A2, I.
  - intros r I. apply in_app_or in I as [I|I]; [apply E1; [apply B1, A2, I|apply A2, I]|]. apply in_map_iff in I as (r' & <- & I). apply E2, C2, I.
  - intros S LS PS. destruct (SPLIT S LS PS) as (a' & b' & -> & X & Y & _). rewrite !covered_app, !covered_later. lia.
  - intros S LS PS. destruct (SPLIT S LS PS) as (a' & b' & -> & X & Y & Za & Zb). rewrite !covered_app, !covered_later. intros E.
    destruct (Za ltac:(lia)) as [->|R]; [|right; apply ranges_before_app_l; exact R]. destruct (Zb ltac:(lia)) as [->|R]; [left; reflexivity|right; apply ranges_before_app_r, ranges_before_later; exact R].
Qed.

(** ** Derivations *)
Section Derivations.
  Context {pred : Type}.
  Variable accepts : pred -> token -> bool.
  Variable constrain : pred -> token -> token.
  Variable rel : nat -> form -> form -> bool.
  Variable g : grammar token pred.
  Variable a b : list token.
  Variable k : Z.
  Notation toks := (a ++ map (moved k) b).
  Notation n := (length a).
  Notation start := (TRule (g_start g)).
  Hypothesis blind0 : forall r q p, In q (g_prods g r) -> In (TPred p) (g_terms g q) -> forall t, accepts p (moved k t) = accepts p t.

  Scheme derives_ind' := Induction for derives Sort Prop with derives_seq_ind' := Induction for derives_seq Sort Prop.
  Combined Scheme derives_mutind from derives_ind', derives_seq_ind'.
  Lemma derives_up :
    (forall t i j d, derives accepts g toks t i j d -> i <= j) /\ (forall ts i j ds, derives_seq accepts g toks ts i j ds -> i <= j).
  Proof. apply derives_mutind; intros; lia. Qed.
  Lemma derives_first : 
    (forall t i j d, derives accepts g a t i j d -> derives accepts g toks t i j d) /\ (forall ts i j ds, derives_seq accepts g a ts i j ds -> derives_seq accepts g toks ts i j ds).
  Proof.
    apply derives_mutind; intros; try (econstructor; eassumption). econstructor; [|eassumption]. rewrite nth_error_app1; [assumption|]. apply nth_error_Some. congruence.
  Qed.
  Lemma derives_first_back :
    (forall t i j d, derives accepts g toks t i j d -> j <= n -> derives accepts g a t i j d) /\ (forall ts i j ds, derives_seq accepts g toks ts i j ds -> j <= n -> derives_seq accepts g a ts i j ds).
  Proof.
    apply derives_mutind.
    - intros p i t E A L. rewrite nth_error_app1 in E by lia. econstructor; eassumption.
    - intros r q i j ds Hq _ IH L. econstructor; eauto.
    - intros i L. constructor.
    - intros t ts i m j d ds D IH Ds IHs L. econstructor; [apply IH|apply IHs, L]. apply (proj2 derives_up) in Ds. lia.
  Qed.
  Definition known (t : term pred) : Prop := match t with TPred p => forall t, accepts p (moved k t) = accepts p t | TRule _ => True end.
  Lemma known_terms r q : In q (g_prods g r) -> forall t, In t (g_terms g q) -> known t.
  Proof. intros Hq [r'|p] Ht; [exact Logic.I|]. exact (blind0 r q p Hq Ht). Qed.
  Lemma nth_second i : nth_error toks (n + i) = option_map (moved k) (nth_error b i).
  Proof. rewrite nth_error_app2 by lia. replace (n + i - n) with i by lia. apply nth_error_map. Qed.
  Lemma derives_second :
    (forall t i j d, derives accepts g b t i j d -> known t -> derives accepts g toks t (n + i) (n + j) (later_tree n d)) /\
    (forall ts i j ds, derives_seq accepts g b ts i j ds -> (forall t, In t ts -> known t) -> derives_seq accepts g toks ts (n + i) (n + j) (map (later_tree n) ds)).
  Proof.
    apply derives_mutind.
    - intros p i t E A K. cbn [later_tree]. rewrite Nat.add_succ_r. apply (derives_pred accepts g toks p (n + i) (moved k t)); [rewrite nth_second, E; reflexivity|]. rewrite K. exact A.
    - intros r q i j ds Hq _ IH K. cbn [later_tree]. econstructor; [exact Hq|]. apply IH. apply (known_terms r q Hq).
    - intros i K. constructor.
    - intros t ts i m j d ds _ IH _ IHs K. cbn [map]. econstructor; [apply IH, K; left; reflexivity|]. apply IHs. intros t' I. apply K. right. exact I.
  Qed.
  Lemma derives_second_back :
    (forall t i' j' d', derives accepts g toks t i' j' d' -> n <= i' -> known t -> exists d, d' = later_tree n d /\ derives accepts g b t (i' - n) (j' - n) d) /\
    (forall ts i' j' ds', derives_seq accepts g toks ts i' j' ds' -> n <= i' -> (forall t, In t ts -> known t) -> exists ds, ds' = map (later_tree n) ds /\ derives_seq accepts g b ts (i' - n) (j' - n) ds).
  Proof.
    apply derives_mutind.
    - intros p i t E A L K. replace i with (n + (i - n)) in E by lia. rewrite nth_second in E. destruct (nth_error b (i - n)) as [t0|] eqn:E0; [|discriminate]. injection E as <-. exists (DLeaf (i - n) p). cbn [later_tree]. split; [f_equal; lia|].
      replace (S i - n) with (S (i - n)) by lia. econstructor; [exact E0|]. rewrite <- K. exact A.
    - intros r q i j ds Hq _ IH L K. destruct (IH L (known_terms r q Hq)) as (ds0 & -> & D). exists (DNode r q ds0). split; [reflexivity|]. econstructor; eassumption.
    - intros i L K. exists []. split; [reflexivity|constructor].
    - intros t ts i m j d ds D IH Ds IHs L K. destruct (IH L (K t (or_introl eq_refl))) as (d0 & -> & D0). pose proof (proj1 derives_up _ _ _ _ D) as U. destruct (IHs ltac:(lia)) as (ds0 & -> & Ds0); [intros t' I; apply K; right; exact I|].
      exists (d0 :: ds0). split; [reflexivity|]. econstructor; eassumption.
  Qed.
  Lemma later_tree_choices : forall d : dtree pred, choices g (later_tree n d) = choices g d.
  Proof.
    fix IH 1. intros [i p|r q ds]; [reflexivity|]. cbn [later_tree choices]. f_equal. rewrite flat_map_concat_map, map_map, <- flat_map_concat_map.
    induction ds as [|d ds IHd]; [reflexivity|]. cbn. rewrite IH, IHd. reflexivity.
  Qed.

  (** ** The preferred derivations *)
  Lemma best_first i j d : j <= n -> best_derivation accepts g a i j d -> best_derivation accepts g toks i j d.
  Proof. intros L [D B]. split; [apply (proj1 derives_first), D|]. intros d' D'. apply B. apply (proj1 derives_first_back); assumption. Qed.
  Lemma best_second i j d : best_derivation accepts g b i j d -> best_derivation accepts g toks (n + i) (n + j) (later_tree n d).
  Proof.
    intros [D B]. split; [apply (proj1 derives_second); [exact D|exact Logic.I]|]. intros d' D'. destruct (proj1 derives_second_back _ _ _ _ D' ltac:(lia) Logic.I) as (d0 & -> & D0).
    replace (n + i - n) with i in D0 by lia. replace (n + j - n) with j in D0 by lia. destruct (B d0 D0) as [->|P]; [left; reflexivity|right]. unfold preferred in *. rewrite !later_tree_choices. exact P.
  Qed.
  (** The tokens of a derivation. *)
  Fixpoint tokens_at (toks : list token) (d : dtree pred) : list (option token) :=
    match d with
    | DLeaf i p => [option_map (constrain p) (nth_error toks i)]
    | DNode _ _ ds => flat_map (tokens_at toks) ds
    end.
  Lemma leaf_tokens ts : (forall t m i j, node_ok accepts constrain g ts t m i j -> map Some (tokens_of m) = tokens_at ts (erase m)) /\
    (forall ts' ms i j, nodes_ok accepts constrain g ts ts' ms i j -> map Some (map leaf_tk (flat_map tree_leaves ms)) = flat_map (tokens_at ts) (map erase ms)).
  Proof.
    apply (node_ok_mutind accepts constrain g ts (fun t m i j _ => map Some (tokens_of m) = tokens_at ts (erase m)) (fun ts' ms i j _ => map Some (map leaf_tk (flat_map tree_leaves ms)) = flat_map (tokens_at ts) (map erase ms))).
    - intros id p i t E A. cbn. rewrite E. reflexivity.
    - intros id r q rank ch i j _ _ _ IH. exact IH.
    - reflexivity.
    - intros t ts' m ms i m' j _ IH _ IHs. cbn [flat_map map]. rewrite !map_app. rewrite IHs. f_equal. exact IH.
  Qed.
  Lemma some_tokens (x y : list token) : map Some x = map Some y -> x = y.
  Proof. revert y. induction x as [|u x IH]; intros [|v y] E; try discriminate; [reflexivity|]. cbn in E. injection E as -> E. f_equal. apply IH, E. Qed.
  Lemma tokens_first : (forall t i j d, derives accepts g a t i j d -> tokens_at toks d = tokens_at a d) /\ (forall ts i j ds, derives_seq accepts g a ts i j ds -> flat_map (tokens_at toks) ds = flat_map (tokens_at a) ds).
  Proof.
    apply derives_mutind; try (intros; cbn; congruence). intros p i t E A. cbn. rewrite nth_error_app1; [reflexivity|]. apply nth_error_Some. congruence.
  Qed.
  Hypothesis narrows : forall p t, constrain p (moved k t) = moved k (constrain p t).
  Lemma tokens_second : forall d, tokens_at toks (later_tree n d) = map (option_map (moved k)) (tokens_at b d).
  Proof.
    fix IH 1. intros [i p|r q ds].
    - cbn [later_tree tokens_at map]. rewrite nth_second. destruct (nth_error b i) as [t|]; [|reflexivity]. cbn. rewrite narrows. reflexivity.
    - cbn [later_tree tokens_at]. induction ds as [|d ds IHd]; [reflexivity|]. cbn [map flat_map]. rewrite IH, IHd, map_app. reflexivity.
  Qed.

  (** ** findall *)
  Hypothesis RF : relation_free g.
  Hypothesis PS : predict_sound g.
  Hypothesis PC : predict_complete accepts g.
  Hypothesis TI : timely g.
  Hypothesis NN : ~ nullable g start.
  Hypothesis apart : forall i j d, derives accepts g toks start i j d -> j <= n \/ n <= i.
  Notation found := (findall accepts constrain rel g).
  Lemma ranges_join f f1 f2 s s1 s2 ms ms1 ms2 : found f toks = Some (Ok (s, ms)) -> found f1 a = Some (Ok (s1, ms1)) -> found f2 b = Some (Ok (s2, ms2)) ->
    map m_range ms = map m_range ms1 ++ map (later_range n) (map m_range ms2).
  Proof.
    intros F F1 F2. destruct (timely_findall accepts constrain rel g toks RF PS PC TI NN f _ F) as (? & ? & E & B). injection E as <- <-.
    destruct (timely_findall accepts constrain rel g a RF PS PC TI NN f1 _ F1) as (? & ? & E & B1). injection E as <- <-. destruct (timely_findall accepts constrain rel g b RF PS PC TI NN f2 _ F2) as (? & ? & E & B2). injection E as <- <-.
    refine (best_ranges_unique _ _ _ _ (fun x => iff_refl _) B (best_ranges_join _ _ _ n _ _ _ _ _ _ B1 B2)).
    - intros r (d & D). apply (apart _ _ _ D).
    - intros r (d & D). apply (timely_pos accepts g a NN) in D. lia.
    - intros r L. split; intros (d & D); exists d; [apply (proj1 derives_first_back); assumption|apply (proj1 derives_first), D].
    - intros [i j]. cbn [later_range fst snd]. split; intros (d & D).
      + destruct (proj1 derives_second_back _ _ _ _ D ltac:(lia) Logic.I) as (d0 & -> & D0). exists d0. replace (n + i - n) with i in D0 by lia. replace (n + j - n) with j in D0 by lia. exact D0.
      + eexists. apply (proj1 derives_second); [exact D|exact Logic.I].
  Qed.
  Hypothesis PF : predict_filters g.
  Lemma present_later : forall d : dtree pred, present (later_tree n d) = option_map (later_tree n) (present d).
  Proof.
    fix IH 1. intros [i p|r q ds]; [reflexivity|]. cbn [later_tree present].
    assert (E : flat_map (fun c : dtree pred => match present c with Some c' => [c'] | None => [] end) (map (later_tree n) ds) = map (later_tree n) (flat_map (fun c : dtree pred => match present c with Some c' => [c'] | None => [] end) ds)).
    { induction ds as [|d ds IHd]; [reflexivity|]. cbn [map flat_map]. rewrite IH, IHd, map_app. destruct (present d); reflexivity. }
    rewrite E. destruct (flat_map (fun c : dtree pred => match present c with Some c' => [c'] | None => [] end) ds); reflexivity.
  Qed.
  (** A match is determined by the preferred derivation of its range. *)
  Definition told (ts : list token) (m : amatch (pred := pred)) : Prop :=
    exists d, best_derivation accepts g ts (fst (m_range m)) (snd (m_range m)) d /\ present d = Some (erase (m_root m)) /\ map Some (m_tokens m) = tokens_at ts d /\ get_tokens_span (m_tokens m) = Ok (m_span m).
  Lemma told_all ts f s ms : found f ts = Some (Ok (s, ms)) -> forall m, In m ms -> told ts m.
  Proof.
    intros F m I. destruct (timely_findall_best accepts constrain rel g ts RF PS PC PF TI NN f _ F) as (? & ? & trees & E & P & _ & B). injection E as <- <-.
    destruct (B m I) as (d & D1 & D2 & nd & N1 & <- & N3 & N4). exists (erase nd). split; [exact D1|]. split; [exact D2|]. split; [|exact N4]. rewrite N3.
    destruct (m_range m) as [i j]. apply (proj1 (leaf_tokens ts) (TRule (g_start g)) nd i j). eapply tree_ok; eassumption.
  Qed.
  Lemma map_last_map {A B} (f : A -> B) l x y : l <> [] -> last (map f l) y = f (last l x).
  Proof. induction l as [|u l IH]; intros H; [congruence|]. destruct l as [|v l]; [reflexivity|]. change (last (map f (v :: l)) y = f (last (v :: l) x)). apply IH. discriminate. Qed.
  Lemma span_moved ts sp : get_tokens_span ts = Ok sp -> get_tokens_span (map (moved k) ts) = Ok (later_span k sp).
  Proof. destruct ts as [|t ts]; [discriminate|]. unfold get_tokens_span. intros E. injection E as <-. change (map (moved k) (t :: ts)) with (moved k t :: map (moved k) ts) at 1. cbv beta iota. rewrite (map_last_map (moved k) (t :: ts) t) by discriminate. reflexivity. Qed.
  (** Matches compared by what can be seen of them. *)
  Definition like (ts : list token) (x : (nat * nat) * (Z * Z) * list token * dtree pred) : Prop :=
    let '(r, sp, tk, e) := x in exists d, best_derivation accepts g ts (fst r) (snd r) d /\ present d = Some e /\ map Some tk = tokens_at ts d /\ get_tokens_span tk = Ok sp.
  Lemma like_one ts x y : like ts x -> like ts y -> fst (fst (fst x)) = fst (fst (fst y)) -> x = y.
  Proof.
    destruct x as [[[r sp] tk] e], y as [[[r' sp'] tk'] e']. cbn [fst]. intros (d & B & P & T & S1) (d' & B' & P' & T' & S2) <-. assert (d = d') as <- by (apply (best_one accepts g ts _ _ _ _ B B')). rewrite P in P'. injection P' as <-. rewrite <- T' in T. apply some_tokens in T as ->.
    rewrite S1 in S2. injection S2 as <-. reflexivity.
  Qed.
  Lemma like_second x : like b x -> like toks (later n k x).
  Proof.
    destruct x as [[[r sp] tk] e]. intros (d & B & P & T & S1). exists (later_tree n d). cbn [later_range fst snd]. split; [apply best_second, B|]. split; [rewrite present_later, P; reflexivity|]. split; [|apply span_moved, S1].
    rewrite tokens_second, <- T, !map_map. reflexivity.
  Qed.
  Lemma like_first x : like a x -> snd (fst (fst (fst x))) <= n -> like toks x.
  Proof. destruct x as [[[r sp] tk] e]. cbn [fst snd]. intros (d & B & P & T & S1) L. exists d. split; [apply best_first; assumption|]. split; [exact P|]. split; [|exact S1]. rewrite T. symmetry. apply (proj1 tokens_first _ _ _ _ (proj1 B)). Qed.
  Lemma like_lists ts : forall x y, Forall (like ts) x -> Forall (like ts) y -> map (fun z => fst (fst (fst z))) x = map (fun z => fst (fst (fst z))) y -> x = y.
  Proof.
    induction x as [|u x IH]; intros [|v y] F G E; try discriminate; [reflexivity|]. inversion F; inversion G; subst. cbn [map] in E. injection E as E0 E. f_equal; [apply (like_one ts); assumption|apply IH; assumption].
  Qed.
  Theorem findall_join f f1 f2 s s1 s2 ms ms1 ms2 : found f toks = Some (Ok (s, ms)) -> found f1 a = Some (Ok (s1, ms1)) -> found f2 b = Some (Ok (s2, ms2)) ->
    map shown ms = map shown ms1 ++ map (later n k) (map shown ms2).
  Proof.
    intros F F1 F2. assert (R := ranges_join f f1 f2 s s1 s2 ms ms1 ms2 F F1 F2).
    assert (L : forall ts f s ms, found f ts = Some (Ok (s, ms)) -> Forall (like ts) (map shown ms)).
    { intros ts f0 s0 ms0 F0. apply Forall_forall. intros x I. apply in_map_iff in I as (m & <- & I). apply (told_all ts f0 s0 ms0 F0 m I). }
    apply (like_lists toks).
    - apply (L toks f s ms F).
    - apply Forall_app. split.
      + apply Forall_forall. intros x I. apply in_map_iff in I as (m & <- & I). apply like_first; [apply (told_all a f1 s1 ms1 F1 m I)|]. cbn. destruct (told_all a f1 s1 ms1 F1 m I) as (d & [D _] & _). apply (timely_pos accepts g a NN) in D. lia.
      + apply Forall_forall. intros x I. apply in_map_iff in I as (y & <- & I). apply like_second. specialize (L b f2 s2 ms2 F2). rewrite Forall_forall in L. apply L, I.
    - rewrite map_app, !map_map. change (fun x : amatch => fst (fst (fst (shown x)))) with (@m_range pred). rewrite R, map_map. f_equal.
  Qed.
End Derivations.
