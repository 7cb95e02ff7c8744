(** The columns of the chart up to the end of a text do not depend on what follows the text. *)
From Verif Require Import Base TokenModel EarleyModel EarleySpec IndexSim AfterSpec.
Open Scope nat_scope.

Section After.
  Context {token pred : Type}.
  Variable accepts : pred -> token -> bool.
  Variable constrain : pred -> token -> token.
  Variable g : grammar token pred.
  Variables a more : list token.
  Notation n := (length a).
  Notation long := (a ++ more).
  Notation node := (node token pred).
  Notation state := (state token pred).
  Notation cst := (cst token pred).
  Hypothesis ends : last_column_ready g.

  (** ** Before the last column nothing differs *)
  Lemma process_ext (ta tb : list token) fuel k s st : nth_error ta k = nth_error tb k -> process accepts constrain g ta fuel k s st = process accepts constrain g tb fuel k s st.
  Proof. intros E. unfold process, predict, predicted. rewrite E. reflexivity. Qed.
  Lemma drain_ext (ta tb : list token) k : nth_error ta k = nth_error tb k -> forall fuel i st, drain accepts constrain g ta fuel k i st = drain accepts constrain g tb fuel k i st.
  Proof. intros E. induction fuel as [|fuel IH]; intros i st; [reflexivity|]. cbn [drain]. destruct (nth_error (cols st k) i) as [s|]; [|reflexivity]. rewrite (process_ext ta tb) by exact E. destruct (process accepts constrain g tb (S fuel) k s st); [apply IH|reflexivity]. Qed.
  Lemma start_ext (ta tb : list token) all k st : nth_error ta k = nth_error tb k -> start_column g ta all k st = start_column g tb all k st.
  Proof. intros E. unfold start_column, predict, predicted. rewrite E. reflexivity. Qed.
  Lemma chart_ext fuel all (ta tb : list token) : forall m k st, (forall i, k <= i -> i < k + m -> nth_error ta i = nth_error tb i) -> chart_from accepts constrain g ta fuel all k m st = chart_from accepts constrain g tb fuel all k m st.
  Proof.
    induction m as [|m IH]; intros k st E; [reflexivity|]. cbn [chart_from]. rewrite (start_ext ta tb) by (apply E; lia). rewrite (drain_ext ta tb) by (apply E; lia).
    destruct (drain accepts constrain g tb fuel k 0 (start_column g tb all k st)); [|reflexivity]. apply IH. intros i L1 L2. apply E; lia.
  Qed.
  Lemma chart_app fuel all (ts : list token) : forall m m' k st, chart_from accepts constrain g ts fuel all k (m + m') st =
    match chart_from accepts constrain g ts fuel all k m st with Some st' => chart_from accepts constrain g ts fuel all (k + m) m' st' | None => None end.
  Proof.
    induction m as [|m IH]; intros m' k st; cbn [plus chart_from]; [rewrite Nat.add_0_r; reflexivity|]. destruct (drain accepts constrain g ts fuel k 0 (start_column g ts all k st)); [|reflexivity].
    rewrite IH. replace (S k + m) with (k + S m) by lia. reflexivity.
  Qed.

  (** ** Identities in the chart *)
  Fixpoint low (f : nat) (x : node) : Prop :=
    match x with
    | Leaf id _ _ _ => id < f
    | Node id _ _ _ ch => id < f /\ (fix lows (l : list node) : Prop := match l with [] => True | y :: l' => low f y /\ lows l' end) ch
    end.
  Fixpoint lows (f : nat) (l : list node) : Prop := match l with [] => True | y :: l' => low f y /\ lows f l' end.
  Lemma low_node f id r q rank ch : low f (Node id r q rank ch) <-> id < f /\ lows f ch.
  Proof. cbn [low]. assert (E : (fix lows (l : list node) : Prop := match l with [] => True | y :: l' => low f y /\ lows l' end) ch = lows f ch) by (induction ch as [|y l IH]; cbn; [reflexivity|rewrite IH; reflexivity]). rewrite E. reflexivity. Qed.
  Lemma low_up f f' : f <= f' -> forall x, low f x -> low f' x.
  Proof.
    intros L. fix IH 1. intros [id pos p tk|id r q rank ch]; [cbn; lia|]. rewrite !low_node. intros [H1 H2]. split; [lia|].
    revert H2. induction ch as [|y l IHl]; cbn; [auto|]. intros [A B]. split; [apply IH, A|apply IHl, B].
  Qed.
  Lemma lows_up f f' l : f <= f' -> lows f l -> lows f' l.
  Proof. intros L. induction l as [|y l IH]; cbn; [auto|]. intros [A B]. split; [apply (low_up f f' L), A|apply IH, B]. Qed.
  Lemma lows_snoc f l x : lows f l -> low f x -> lows f (l ++ [x]).
  Proof. induction l as [|y l IH]; cbn; intros; [auto|]. intuition. Qed.
  Definition sfine (f k : nat) (s : state) : Prop := s_id s < f /\ lows f (s_children s) /\ s_start s <= k.
  Definition fine (st : cst) : Prop := forall k s, In s (cols st k) -> sfine (fresh st) k s.
  Lemma sfine_up f f' k s : f <= f' -> sfine f k s -> sfine f' k s.
  Proof. intros L (A & B & C). split; [lia|]. split; [apply (lows_up f); assumption|exact C]. Qed.
  Lemma fine_alloc st : fine st -> fine (alloc st).
  Proof. intros F k s I. apply (sfine_up (fresh st)); [cbn; lia|]. apply F, I. Qed.
  Lemma fine_append k s st : fine st -> sfine (fresh st) k s -> fine (append k s st).
  Proof.
    intros F H. unfold append. destruct (existsb (same_key s) (cols st k)); [exact F|]. intros k' s' I. cbn in *. destruct (Nat.eqb_spec k' k) as [->|]; [|apply F, I].
    apply in_app_or in I as [I|[<-|[]]]; [apply F, I|exact H].
  Qed.
  Lemma fine_predict (ts : list token) k r st : fine st -> fine (predict g ts k r st).
  Proof.
    unfold predict. generalize (predicted g ts k r), 0. intros ps. revert st. induction ps as [|q ps IH]; intros st rank F; [exact F|]. cbn. apply IH. apply fine_append; [apply fine_alloc, F|]. repeat split; cbn; lia.
  Qed.
  Lemma low_state f k s : sfine f k s -> low f (state_node s).
  Proof. intros (A & B & C). apply low_node. auto. Qed.
  Lemma fine_complete k s : forall fuel j st st', fine st -> sfine (fresh st) k s -> complete_loop g fuel k s j st = Some st' -> fine st'.
  Proof.
    induction fuel as [|fuel IH]; intros j st st' F H C; cbn in C; destruct (nth_error (expecting g (s_start s) (s_rule s) st) j) as [x|] eqn:E; try discriminate; try (injection C as <-; exact F).
    apply nth_error_In in E. unfold expecting in E. apply filter_In in E as [I _]. destruct (F _ _ I) as (X1 & X2 & X3).
    refine (IH _ _ _ _ _ C).
    - apply fine_append; [apply fine_alloc, F|]. split; [cbn; lia|]. split; [|cbn; destruct H; lia]. cbn. apply lows_snoc; [apply (lows_up (fresh st)); [lia|exact X2]|]. apply (low_up (fresh st)); [lia|]. apply (low_state _ k), H.
    - unfold append. destruct (existsb _ _); cbn; apply (sfine_up (fresh st)); auto.
  Qed.
  Lemma fine_process (ts : list token) fuel k s st st' : fine st -> In s (cols st k) -> process accepts constrain g ts fuel k s st = Some st' -> fine st'.
  Proof.
    intros F I. unfold process. destruct (next_term g s) as [[r|p]|].
    - intros E. injection E as <-. apply fine_predict, F.
    - destruct (nth_error ts k) as [t|]; intros E; injection E as <-; [|exact F]. unfold scan. destruct (accepts p t); [|exact F].
      apply fine_append; [apply fine_alloc, fine_alloc, F|]. destruct (F _ _ I) as (X1 & X2 & X3). split; [cbn; lia|]. split; [|cbn; lia]. cbn. apply lows_snoc; [apply (lows_up (fresh st)); [lia|exact X2]|]. cbn. lia.
    - apply fine_complete; [exact F|apply F, I].
  Qed.
  Lemma fine_drain (ts : list token) k : forall fuel i st st', fine st -> drain accepts constrain g ts fuel k i st = Some st' -> fine st'.
  Proof.
    induction fuel as [|fuel IH]; intros i st st' F D; cbn [drain] in D; destruct (nth_error (cols st k) i) as [s|] eqn:E; try discriminate; try (injection D as <-; exact F).
    destruct (process accepts constrain g ts (S fuel) k s st) as [st1|] eqn:P; [|discriminate]. apply (IH (S i) st1); [|exact D]. apply (fine_process ts (S fuel) k s st); [exact F|apply nth_error_In in E; exact E|exact P].
  Qed.
  Lemma fine_chart (ts : list token) fuel all : forall m k st st', fine st -> chart_from accepts constrain g ts fuel all k m st = Some st' -> fine st'.
  Proof.
    induction m as [|m IH]; intros k st st' F C; cbn [chart_from] in C; [injection C as <-; exact F|]. destruct (drain accepts constrain g ts fuel k 0 (start_column g ts all k st)) as [st1|] eqn:D; [|discriminate].
    apply (IH (S k) st1); [|exact C]. apply (fine_drain ts k fuel 0 _ _) in D; [exact D|]. unfold start_column. destruct (Nat.eqb k 0 || all)%bool; [apply fine_predict, F|exact F].
  Qed.

  (** ** Later columns leave the earlier ones alone *)
  Definition keeps (k : nat) (x y : cst) : Prop := forall i, i < k -> cols y i = cols x i.
  Lemma keeps_append k i s (x : cst) : k <= i -> keeps k x (append i s x).
  Proof. intros L j J. unfold append. destruct (existsb _ _); [reflexivity|]. cbn. destruct (Nat.eqb_spec j i); [lia|reflexivity]. Qed.
  Lemma keeps_trans k x y z : keeps k x y -> keeps k y z -> keeps k x z.
  Proof. intros A B i I. rewrite B, A by exact I. reflexivity. Qed.
  Lemma keeps_predict (ts : list token) k r st : keeps k st (predict g ts k r st).
  Proof. unfold predict. generalize (predicted g ts k r), 0. intros ps. revert st. induction ps as [|q ps IH]; intros st rank; [intros i I; reflexivity|]. cbn. eapply keeps_trans; [|apply IH]. apply (keeps_append k k _ (alloc st)). lia. Qed.
  Lemma keeps_process (ts : list token) fuel k s st st' : process accepts constrain g ts fuel k s st = Some st' -> keeps k st st'.
  Proof.
    unfold process. destruct (next_term g s) as [[r|p]|].
    - intros E. injection E as <-. apply keeps_predict.
    - destruct (nth_error ts k) as [t|]; intros E; injection E as <-; [|intros i I; reflexivity]. unfold scan. destruct (accepts p t); [|intros i I; reflexivity]. apply (keeps_append k (S k) _ (alloc (alloc st))). lia.
    - generalize 0. revert st st'. induction fuel as [|fuel IH]; intros st st' j C; cbn in C; destruct (nth_error (expecting g (s_start s) (s_rule s) st) j) as [x|]; try discriminate; try (injection C as <-; intros i I; reflexivity).
      eapply keeps_trans; [|apply (IH _ _ _ C)]. apply (keeps_append k k _ (alloc st)). lia.
  Qed.
  Lemma keeps_drain (ts : list token) k : forall fuel i st st', drain accepts constrain g ts fuel k i st = Some st' -> keeps k st st'.
  Proof.
    induction fuel as [|fuel IH]; intros i st st' D; cbn [drain] in D; destruct (nth_error (cols st k) i) as [s|]; try discriminate; try (injection D as <-; intros j J; reflexivity).
    destruct (process accepts constrain g ts (S fuel) k s st) as [st1|] eqn:P; [|discriminate]. eapply keeps_trans; [apply (keeps_process ts (S fuel) k s st st1 P)|apply (IH _ _ _ D)].
  Qed.
  Lemma keeps_chart (ts : list token) fuel all : forall m k st st', chart_from accepts constrain g ts fuel all k m st = Some st' -> keeps k st st'.
  Proof.
    induction m as [|m IH]; intros k st st' C; cbn [chart_from] in C; [injection C as <-; intros i I; reflexivity|]. destruct (drain accepts constrain g ts fuel k 0 (start_column g ts all k st)) as [st1|] eqn:D; [|discriminate].
    apply (keeps_trans k st st1); [|intros i I; apply (IH _ _ _ C); lia]. apply (keeps_trans k _ (start_column g ts all k st)); [unfold start_column; destruct (Nat.eqb k 0 || all)%bool; [apply keeps_predict|intros i I; reflexivity]|apply (keeps_drain ts k fuel 0), D].
  Qed.

  (** ** The last column *)
  (** The same tree made of other objects, the leaves being the same objects. *)
  Inductive twin (m : nat -> nat -> Prop) : node -> node -> Prop :=
  | twin_leaf id pos p tk : m id id -> twin m (Leaf id pos p tk) (Leaf id pos p tk)
  | twin_node i j r q rank l l' : m i j -> twins m l l' -> twin m (Node i r q rank l) (Node j r q rank l')
  with twins (m : nat -> nat -> Prop) : list node -> list node -> Prop :=
  | twins_nil : twins m [] []
  | twins_cons x y l l' : twin m x y -> twins m l l' -> twins m (x :: l) (y :: l').
  Scheme twin_ind2 := Induction for twin Sort Prop with twins_ind2 := Induction for twins Sort Prop.
  Combined Scheme twin_mutind from twin_ind2, twins_ind2.
  Lemma twin_more (m m' : nat -> nat -> Prop) : (forall i j, m i j -> m' i j) -> (forall x y, twin m x y -> twin m' x y) /\ (forall x y, twins m x y -> twins m' x y).
  Proof. intros H. apply (twin_mutind m (fun x y _ => twin m' x y) (fun x y _ => twins m' x y)); intros; constructor; auto. Qed.
  Lemma twin_id m x y : twin m x y -> m (node_id x) (node_id y).
  Proof. intros []; auto. Qed.
  Lemma twins_snoc m l l' x y : twins m l l' -> twin m x y -> twins m (l ++ [x]) (l' ++ [y]).
  Proof. intros F H. induction F; cbn; constructor; auto. constructor. Qed.
  Lemma twin_low (m : nat -> nat -> Prop) f : (forall i, i < f -> m i i) -> forall x, low f x -> twin m x x.
  Proof.
    intros H. fix IH 1. intros [id pos p tk|id r q rank ch]; [intros L; constructor; apply H, L|]. rewrite low_node. intros [L1 L2]. constructor; [apply H, L1|].
    revert L2. induction ch as [|y l IHl]; cbn; [constructor|]. intros [A B]. constructor; [apply IH, A|apply IHl, B].
  Qed.
  Lemma twins_low (m : nat -> nat -> Prop) f : (forall i, i < f -> m i i) -> forall l, lows f l -> twins m l l.
  Proof. intros H. induction l as [|y l IH]; cbn; [constructor|]. intros [A B]. constructor; [apply (twin_low m f H), A|apply IH, B]. Qed.

  Record twin_state (m : nat -> nat -> Prop) (s s' : state) : Prop := {
    t_rule : s_rule s = s_rule s'; t_prod : s_prod s = s_prod s'; t_dot : s_dot s = s_dot s'; t_start : s_start s = s_start s'; t_stop : s_stop s = s_stop s';
    t_rank : s_rank s = s_rank s'; t_id : m (s_id s) (s_id s'); t_children : twins m (s_children s) (s_children s'); t_low : s_start s <= n }.
  Lemma twin_state_more (m m' : nat -> nat -> Prop) s s' : (forall i j, m i j -> m' i j) -> twin_state m s s' -> twin_state m' s s'.
  Proof. intros H []. split; auto. apply (proj2 (twin_more m m' H)). assumption. Qed.
  Lemma twin_state_node m s s' : twin_state m s s' -> twin m (state_node s) (state_node s').
  Proof. intros [? ? ? ? ? ? ? ? ?]. unfold state_node. rewrite t_rule0, t_prod0, t_rank0. constructor; assumption. Qed.
  Lemma twin_next m s s' : twin_state m s s' -> next_term g s = next_term g s'.
  Proof. intros []. unfold next_term. congruence. Qed.
  (** The state does not wait for a token. *)
  Definition busy (s : state) : bool := match next_term g s with Some (TPred _) => false | _ => true end.
  Lemma key_busy (s x : state) : same_key s x = true -> busy s = busy x.
  Proof. unfold same_key. rewrite !Bool.andb_true_iff, !Nat.eqb_eq. intros (((((_ & P) & D) & _) & _) & _). unfold busy, next_term. rewrite P, D. reflexivity. Qed.
  Lemma twin_busy m s s' : twin_state m s s' -> busy s = busy s'.
  Proof. intros H. unfold busy. rewrite (twin_next m s s' H). reflexivity. Qed.

  Record one_to_one (m : nat -> nat -> Prop) : Prop := { o_fun : forall i j j', m i j -> m i j' -> j = j'; o_inj : forall i i' j, m i j -> m i' j -> i = i' }.
  Record same (m : nat -> nat -> Prop) (x y : cst) : Prop := {
    same_cols : forall k, k <= n -> Forall2 (twin_state m) (filter busy (cols x k)) (filter busy (cols y k));
    same_low : forall i j, m i j -> i < fresh x /\ j < fresh y;
    same_one : one_to_one m }.
  Lemma ids_twin m l l' : one_to_one m -> forall r r', twins m l l' -> twins m r r' -> nats_eqb (map node_id l) (map node_id r) = nats_eqb (map node_id l') (map node_id r').
  Proof.
    intros O r r' F. revert r r'. induction F as [|x y l l' H F IH]; intros r r' F'; inversion F' as [|u v ? ? H' ?]; subst; try reflexivity.
    cbn. f_equal; [|apply IH; assumption]. apply twin_id in H, H'.
    destruct (Nat.eqb_spec (node_id x) (node_id u)) as [E|E], (Nat.eqb_spec (node_id y) (node_id v)) as [E'|E']; try reflexivity; exfalso.
    - apply E'. rewrite E in H. eapply (o_fun m O); eassumption.
    - apply E. rewrite E' in H. eapply (o_inj m O); eassumption.
  Qed.
  Lemma key_twin m s s' x x' : one_to_one m -> twin_state m s s' -> twin_state m x x' -> same_key s x = same_key s' x'.
  Proof. intros O [] []. unfold same_key. rewrite (ids_twin m _ _ O _ _ t_children0 t_children1). congruence. Qed.
  Lemma same_extend m x y : same m x y -> same (extend m (fresh x) (fresh y)) (alloc x) (alloc y).
  Proof.
    intros [C L [F J]]. split.
    - intros k K. eapply Forall2_more; [|apply C, K]. intros s s'. apply twin_state_more. intros i j H. left. exact H.
    - intros i j [H|[-> ->]]; cbn; [apply L in H|]; lia.
    - split.
      + intros i j j' [H|[-> ->]] [H'|[E ->]]; [eauto|subst; apply L in H; lia|apply L in H'; lia|reflexivity].
      + intros i i' j [H|[-> ->]] [H'|[-> E]]; [eauto|subst; apply L in H; lia|apply L in H'; lia|reflexivity].
  Qed.
  Lemma same_alloc_left m x y : same m x y -> same m (alloc x) y.
  Proof. intros [C L O]. split; auto. intros i j H. apply L in H. cbn. lia. Qed.
  Lemma same_alloc_right m x y : same m x y -> same m x (alloc y).
  Proof. intros [C L O]. split; auto. intros i j H. apply L in H. cbn. lia. Qed.
  Lemma append_skip k s (x : cst) k' : busy s = false -> filter busy (cols (append k s x) k') = filter busy (cols x k').
  Proof. intros N. unfold append. destruct (existsb (same_key s) (cols x k)); [reflexivity|]. cbn. destruct (Nat.eqb_spec k' k) as [->|]; [|reflexivity]. rewrite filter_app. cbn. rewrite N. apply app_nil_r. Qed.
  Lemma append_fresh' k (s : state) (x : cst) : fresh (append k s x) = fresh x.
  Proof. unfold append. destruct (existsb _ _); reflexivity. Qed.
  Lemma same_append m x y k s s' : k <= n -> same m x y -> twin_state m s s' -> same m (append k s x) (append k s' y).
  Proof.
    intros Kn S R. assert (B := twin_busy m s s' R). destruct S as [C L O]. split; [|intros i j H; rewrite !append_fresh'; auto|exact O].
    intros k' K. destruct (busy s) eqn:Bs.
    - assert (Ex : existsb (same_key s) (cols x k) = existsb (same_key s') (cols y k)).
      { rewrite <- (existsb_filter (same_key s) busy (cols x k)), <- (existsb_filter (same_key s') busy (cols y k)).
        - apply (Forall2_existsb (twin_state m)); [|apply C, Kn]. intros u u' H. apply (key_twin m); assumption.
        - intros u H. rewrite <- (key_busy s' u H). congruence.
        - intros u H. rewrite <- (key_busy s u H). exact Bs. }
      unfold append. rewrite <- Ex. destruct (existsb (same_key s) (cols x k)); [apply C, K|]. cbn. destruct (Nat.eqb_spec k' k) as [->|]; [|apply C, K].
      rewrite !filter_app. apply Forall2_app; [apply C, K|]. cbn. rewrite Bs, <- B. constructor; [exact R|constructor].
    - rewrite !append_skip by congruence. apply C, K.
  Qed.
  Lemma same_append_left m x y k s : same m x y -> busy s = false -> same m (append k s x) y.
  Proof. intros [C L O] N. split; auto; [|intros i j H; rewrite append_fresh'; auto]. intros k' K. rewrite append_skip by exact N. apply C, K. Qed.
  Lemma same_append_right m x y k s : same m x y -> busy s = false -> same m x (append k s y).
  Proof. intros [C L O] N. split; auto; [|intros i j H; rewrite append_fresh'; auto]. intros k' K. rewrite append_skip by exact N. apply C, K. Qed.

  Definition alike (x y : cst) : Prop := exists m, same m x y.
  Lemma first_busy k r q id rank p ts : g_terms g q = TPred p :: ts -> busy (mkState r q 0 k k id rank []) = false.
  Proof. intros E. unfold busy, next_term. cbn. rewrite E. reflexivity. Qed.
  Lemma predict_skips_left k r ps : (forall q, In q ps -> exists p ts, g_terms g q = TPred p :: ts) -> forall rank x y, alike x y -> alike (predict_loop k r rank ps x) y.
  Proof.
    induction ps as [|q ps IH]; intros N rank x y (m & S); [exists m; exact S|]. cbn. apply IH; [intros u Hu; apply N; right; exact Hu|].
    destruct (N q (or_introl eq_refl)) as (p & ts & E). exists m. apply same_append_left; [apply same_alloc_left, S|]. apply (first_busy k r q _ _ p ts E).
  Qed.
  Lemma predict_skips_right k r ps : (forall q, In q ps -> exists p ts, g_terms g q = TPred p :: ts) -> forall rank x y, alike x y -> alike x (predict_loop k r rank ps y).
  Proof.
    induction ps as [|q ps IH]; intros N rank x y (m & S); [exists m; exact S|]. cbn. apply IH; [intros u Hu; apply N; right; exact Hu|].
    destruct (N q (or_introl eq_refl)) as (p & ts & E). exists m. apply same_append_right; [apply same_alloc_right, S|]. apply (first_busy k r q _ _ p ts E).
  Qed.
  Lemma predict_both r ps : forall rank x y, alike x y -> alike (predict_loop n r rank ps x) (predict_loop n r rank ps y).
  Proof.
    induction ps as [|q ps IH]; intros rank x y (m & S); [exists m; exact S|]. cbn. apply IH. eexists. apply same_append; [lia|apply same_extend, S|]. split; cbn; auto; [right; auto|constructor].
  Qed.
  Lemma nth_end : nth_error a n = None.
  Proof. apply nth_error_None. lia. Qed.
  Lemma same_predict r x y : alike x y -> alike (predict g a n r x) (predict g long n r y).
  Proof.
    intros S. unfold predict, predicted. rewrite nth_end. destruct (nth_error long n) as [t|]; [|apply predict_both, S].
    destruct (ends r t) as [E|E]; [rewrite E; apply predict_both, S|]. apply predict_skips_left; [intros q I; apply E; left; exact I|]. apply predict_skips_right; [intros q I; apply E; right; exact I|exact S].
  Qed.
  Lemma expecting_busy k r (x : cst) : filter (expects g r) (filter busy (cols x k)) = expecting g k r x.
  Proof. unfold expecting. rewrite filter_filter. apply filter_same. intros s _. unfold expects, busy. destruct (next_term g s) as [[r'|p]|]; [apply Bool.andb_true_r|reflexivity|reflexivity]. Qed.
  Lemma same_expecting m x y s s' j : same m x y -> twin_state m s s' ->
    match nth_error (expecting g (s_start s) (s_rule s) x) j, nth_error (expecting g (s_start s') (s_rule s') y) j with Some u, Some v => twin_state m u v | None, None => True | _, _ => False end.
  Proof.
    intros S R. destruct R. rewrite <- t_rule0, <- t_start0, <- !expecting_busy. apply (Forall2_nth_both (twin_state m)), Forall2_filter; [|apply (same_cols m x y S), t_low0].
    intros u v H. unfold expects. rewrite (twin_next m u v H). reflexivity.
  Qed.
  Lemma same_complete : forall fuel fuel' j m x y s s' x' y', same m x y -> twin_state m s s' ->
    complete_loop g fuel n s j x = Some x' -> complete_loop g fuel' n s' j y = Some y' -> alike x' y'.
  Proof.
    induction fuel as [|fuel IH]; intros fuel' j m x y s s' x' y' S R Hx Hy; assert (N := same_expecting m x y s s' j S R).
    - cbn in Hx. destruct (nth_error (expecting g (s_start s) (s_rule s) x) j) eqn:E; [discriminate|]. injection Hx as <-.
      destruct fuel'; cbn in Hy; destruct (nth_error (expecting g (s_start s') (s_rule s') y) j); try contradiction; injection Hy as <-; exists m; exact S.
    - cbn in Hx. destruct (nth_error (expecting g (s_start s) (s_rule s) x) j) as [u|] eqn:E.
      + destruct fuel' as [|fuel']; cbn in Hy; (destruct (nth_error (expecting g (s_start s') (s_rule s') y) j) as [v|]; [|contradiction]); [discriminate|].
        assert (R' : twin_state (extend m (fresh x) (fresh y)) s s') by (eapply twin_state_more; [|exact R]; intros i i' H; left; exact H).
        apply (twin_state_more m (extend m (fresh x) (fresh y))) in N; [|intros i i' H; left; exact H].
        eapply (IH fuel' (Datatypes.S j)); [|exact R'|exact Hx|exact Hy]. apply same_append; [lia|apply same_extend, S|].
        destruct N. split; cbn; try congruence; try lia; [right; auto|]. apply twins_snoc; [assumption|]. apply twin_state_node. exact R'.
      + injection Hx as <-. destruct fuel'; cbn in Hy; destruct (nth_error (expecting g (s_start s') (s_rule s') y) j); try contradiction; injection Hy as <-; exists m; exact S.
  Qed.
  Lemma same_process fuel fuel' m x y s s' x' y' : same m x y -> twin_state m s s' -> busy s = true ->
    process accepts constrain g a fuel n s x = Some x' -> process accepts constrain g long fuel' n s' y = Some y' -> alike x' y'.
  Proof.
    intros S R B. unfold process. rewrite <- (twin_next m s s' R). unfold busy in B. destruct (next_term g s) as [[r|p]|]; [|discriminate|].
    - intros Hx Hy. injection Hx as <-. injection Hy as <-. apply same_predict. exists m. exact S.
    - intros Hx Hy. apply (same_complete fuel fuel' 0 m x y s s' x' y' S R Hx Hy).
  Qed.
  Lemma idle_left fuel s x x' y : busy s = false -> process accepts constrain g a fuel n s x = Some x' -> alike x y -> alike x' y.
  Proof. unfold busy, process. rewrite nth_end. destruct (next_term g s) as [[r|p]|]; try discriminate. intros _ H. injection H as <-. auto. Qed.
  Lemma idle_right fuel s x y y' : busy s = false -> process accepts constrain g long fuel n s y = Some y' -> alike x y -> alike x y'.
  Proof.
    unfold busy, process. destruct (next_term g s) as [[r|p]|]; try discriminate. intros _. destruct (nth_error long n) as [t|]; intros H; injection H as <-; [|auto]. unfold scan. destruct (accepts p t); [|auto].
    intros (m & S). exists m. apply same_alloc_right, same_alloc_right in S. destruct S as [C L O]. split; auto; [|intros i j H; rewrite append_fresh'; auto].
    intros k K. unfold append. destruct (existsb _ _); [apply C, K|]. cbn. destruct (Nat.eqb_spec k (S n)); [lia|]. apply C, K.
  Qed.

  (** How many of the first [i] states of the last column do not wait for a token. *)
  Definition tally (i : nat) (x : cst) : nat := length (filter busy (firstn i (cols x n))).
  Lemma tally_grows i x x' : i <= length (cols x n) -> grows x x' -> tally i x' = tally i x.
  Proof. intros L G. unfold tally. destruct (G n) as (l & ->). rewrite firstn_app. replace (i - length (cols x n)) with 0 by lia. cbn. rewrite app_nil_r. reflexivity. Qed.
  Lemma tally_next i x s : nth_error (cols x n) i = Some s -> tally (S i) x = tally i x + (if busy s then 1 else 0).
  Proof. intros E. unfold tally. rewrite (firstn_next _ _ _ E), filter_app, app_length. cbn. destruct (busy s); reflexivity. Qed.
  Lemma tally_nth i x s : nth_error (cols x n) i = Some s -> busy s = true -> nth_error (filter busy (cols x n)) (tally i x) = Some s.
  Proof.
    intros E A. unfold tally. destruct (nth_error_split _ _ E) as (pre & post & -> & <-). rewrite firstn_app, firstn_all, Nat.sub_diag. cbn. rewrite app_nil_r, filter_app. cbn. rewrite A.
    rewrite nth_error_app2, Nat.sub_diag by lia. reflexivity.
  Qed.
  Lemma tally_end i x : nth_error (cols x n) i = None -> nth_error (filter busy (cols x n)) (tally i x) = None.
  Proof. intros E. unfold tally. apply nth_error_None in E. rewrite firstn_all2 by exact E. apply nth_error_None. lia. Qed.
  Lemma alike_nth x y i j : alike x y -> tally i x = tally j y ->
    exists m, same m x y /\ match nth_error (filter busy (cols x n)) (tally i x), nth_error (filter busy (cols y n)) (tally j y) with Some u, Some v => twin_state m u v | None, None => True | _, _ => False end.
  Proof. intros (m & S) E. exists m. split; [exact S|]. rewrite <- E. apply (Forall2_nth_both (twin_state m)), (same_cols m x y S). lia. Qed.
  Lemma same_drain : forall w fuel fuel' i i' x y x' y', fuel + fuel' <= w -> alike x y -> tally i x = tally i' y ->
    drain accepts constrain g a fuel n i x = Some x' -> drain accepts constrain g long fuel' n i' y = Some y' -> alike x' y'.
  Proof.
    induction w as [|w IH]; intros fuel fuel' i i' x y x' y' L S C Hx Hy.
    - assert (fuel = 0) by lia. assert (fuel' = 0) by lia. subst. cbn in Hx, Hy. destruct (nth_error (cols x n) i); [discriminate|]. destruct (nth_error (cols y n) i'); [discriminate|]. congruence.
    - destruct (nth_error (cols x n) i) as [s|] eqn:Es.
      + assert (Li : i < length (cols x n)) by (apply nth_error_Some; congruence).
        destruct fuel as [|fuel]; cbn [drain] in Hx; rewrite Es in Hx; [discriminate|].
        destruct (process accepts constrain g a (Datatypes.S fuel) n s x) as [x1|] eqn:Px; [|discriminate].
        assert (Gx := grows_process accepts constrain a g _ _ _ _ _ Px). assert (Cx := tally_grows (Datatypes.S i) x x1 Li Gx). rewrite (tally_next i x s Es) in Cx.
        destruct (busy s) eqn:Bs.
        * destruct (nth_error (cols y n) i') as [s'|] eqn:Es'.
          -- assert (Li' : i' < length (cols y n)) by (apply nth_error_Some; congruence).
             destruct fuel' as [|fuel']; cbn [drain] in Hy; rewrite Es' in Hy; [discriminate|].
             destruct (process accepts constrain g long (Datatypes.S fuel') n s' y) as [y1|] eqn:Py; [|discriminate].
             assert (Gy := grows_process accepts constrain long g _ _ _ _ _ Py). assert (Cy := tally_grows (Datatypes.S i') y y1 Li' Gy). rewrite (tally_next i' y s' Es') in Cy.
             destruct (busy s') eqn:Bs'.
             ++ destruct (alike_nth x y i i' S C) as (m & Sm & N). rewrite (tally_nth i x s Es Bs), (tally_nth i' y s' Es' Bs') in N.
                apply (IH fuel fuel' (Datatypes.S i) (Datatypes.S i') x1 y1 x' y'); [lia| |congruence|exact Hx|exact Hy]. apply (same_process (Datatypes.S fuel) (Datatypes.S fuel') m x y s s' x1 y1 Sm N Bs Px Py).
             ++ apply (IH (Datatypes.S fuel) fuel' i (Datatypes.S i') x y1 x' y'); [lia|apply (idle_right _ s' x y y1 Bs' Py S)|lia| |exact Hy]. cbn [drain]. rewrite Es, Px. exact Hx.
          -- exfalso. destruct (alike_nth x y i i' S C) as (m & Sm & N). rewrite (tally_nth i x s Es Bs), (tally_end i' y Es') in N. exact N.
        * apply (IH fuel fuel' (Datatypes.S i) i' x1 y x' y'); [lia|apply (idle_left _ s x x1 y Bs Px S)|lia|exact Hx|exact Hy].
      + assert (Ex : x' = x) by (destruct fuel; cbn [drain] in Hx; rewrite Es in Hx; congruence). subst x'.
        destruct (nth_error (cols y n) i') as [s'|] eqn:Es'.
        * assert (Li' : i' < length (cols y n)) by (apply nth_error_Some; congruence).
          destruct fuel' as [|fuel']; cbn [drain] in Hy; rewrite Es' in Hy; [discriminate|].
          destruct (process accepts constrain g long (Datatypes.S fuel') n s' y) as [y1|] eqn:Py; [|discriminate].
          assert (Gy := grows_process accepts constrain long g _ _ _ _ _ Py). assert (Cy := tally_grows (Datatypes.S i') y y1 Li' Gy). rewrite (tally_next i' y s' Es') in Cy.
          destruct (busy s') eqn:Bs'.
          -- exfalso. destruct (alike_nth x y i i' S C) as (m & Sm & N). rewrite (tally_end i x Es), (tally_nth i' y s' Es' Bs') in N. exact N.
          -- apply (IH fuel fuel' i (Datatypes.S i') x y1 x y'); [lia|apply (idle_right _ s' x y y1 Bs' Py S)|lia|exact Hx|exact Hy].
        * destruct fuel'; cbn [drain] in Hy; rewrite Es' in Hy; injection Hy as <-; exact S.
  Qed.
  Lemma same_start (st : cst) : fine st -> same (fun i j => i = j /\ i < fresh st) st st.
  Proof.
    intros F. split; [|intros i j [<- L]; auto|split; intros; intuition congruence].
    intros k K. assert (G : forall s, In s (cols st k) -> twin_state (fun i j => i = j /\ i < fresh st) s s).
    { intros s I. destruct (F k s I) as (A & B & C). split; auto; [|lia]. apply (twins_low _ (fresh st)); [auto|exact B]. }
    induction (cols st k) as [|s l IH]; cbn; [constructor|]. destruct (busy s); [constructor|]; [apply G; left; reflexivity|apply IH; intros u I; apply G; right; exact I|apply IH; intros u I; apply G; right; exact I].
  Qed.
  Lemma column_busy k (x : cst) : filter (fun s => completed g s && Nat.eqb (s_rule s) (g_start g)) (filter busy (cols x k)) = column_matches g k x.
  Proof. unfold column_matches. rewrite filter_filter. apply filter_same. intros s _. unfold completed, busy. destruct (next_term g s) as [[|]|]; [reflexivity|reflexivity|apply Bool.andb_true_r]. Qed.

  (** The columns of the text, in the chart of the text and in the chart of the longer text. *)
  Theorem columns_after fuel all x y : chart accepts constrain g a fuel all = Some x -> chart accepts constrain g long fuel all = Some y ->
    exists m, one_to_one m /\ forall k, k <= n -> Forall2 (twin_state m) (column_matches g k x) (column_matches g k y).
  Proof.
    unfold chart. intros Cx Cy. replace (S (length a)) with (n + 1) in Cx by lia. replace (S (length long)) with (n + (1 + length more)) in Cy by (rewrite app_length; lia).
    rewrite chart_app in Cx, Cy. cbn [plus] in Cx, Cy.
    rewrite <- (chart_ext fuel all a long n 0 init_cst) in Cy by (intros i _ L; rewrite nth_error_app1 by lia; reflexivity).
    destruct (chart_from accepts constrain g a fuel all 0 n init_cst) as [st|] eqn:C0; [|discriminate]. assert (F : fine st) by (apply (fine_chart a fuel all n 0 init_cst); [intros k s []|exact C0]).
    cbn [chart_from] in Cx, Cy. destruct (drain accepts constrain g a fuel n 0 (start_column g a all n st)) as [x1|] eqn:Dx; [|discriminate]. injection Cx as <-.
    destruct (drain accepts constrain g long fuel n 0 (start_column g long all n st)) as [y1|] eqn:Dy; [|discriminate]. apply keeps_chart in Cy.
    assert (A : alike x1 y1).
    { apply (same_drain (fuel + fuel) fuel fuel 0 0 _ _ _ _ (Nat.le_refl _)) with (3 := Dx) (4 := Dy); [|reflexivity].
      unfold start_column. destruct (Nat.eqb n 0 || all)%bool; [apply same_predict|]; eexists; apply same_start, F. }
    destruct A as (m & S). exists m. split; [apply (same_one m _ _ S)|]. intros k K.
    assert (E : column_matches g k y = column_matches g k y1) by (unfold column_matches; rewrite Cy by lia; reflexivity). rewrite E, <- !column_busy.
    apply Forall2_filter; [|apply (same_cols m _ _ S), K]. intros u v R. unfold completed. rewrite (twin_next m u v R), (t_rule m u v R). reflexivity.
  Qed.
End After.
