(** The statements about hashed charts used in the property file. *)
From Verif Require Import Base SpanModel EarleyModel EarleySpec EarleyInv EarleyProofs TokenModel TreeModel
  ParserModel HashModel HashSpec HashProofs.
Open Scope nat_scope.

Lemma hashed_exact pred hash (accepts : pred -> token -> bool) constrain rel g toks fuel st1 st2 :
  chart accepts constrain g toks fuel true = Some st1 ->
  chart accepts constrain g toks fuel false = Some st2 ->
  no_collisions hash st1 -> no_collisions hash st2 ->
  hfindall hash accepts constrain rel g fuel toks = findall accepts constrain rel g fuel toks /\
  hmatch hash accepts constrain rel g fuel toks = match_ accepts constrain rel g fuel toks /\
  forall all, hparse hash accepts constrain g fuel toks all = parse accepts constrain g fuel toks all /\
    hextract hash accepts constrain rel g fuel toks all = extract accepts constrain rel g fuel toks all.
Proof.
  intros E1 E2 N1 N2.
  assert (P : forall all, hparse hash accepts constrain g fuel toks all = parse accepts constrain g fuel toks all).
  { intros all. unfold hparse, parse. destruct all.
    - rewrite E1. destruct (hchart_exact hash accepts constrain g toks fuel true st1 E1 N1) as (h & -> & S).
      rewrite (hmatches_exact g toks true h st1 S). reflexivity.
    - rewrite E2. destruct (hchart_exact hash accepts constrain g toks fuel false st2 E2 N2) as (h & -> & S).
      rewrite (hmatches_exact g toks false h st2 S). reflexivity. }
  unfold hfindall, hmatch, hextract, findall, match_, extract.
  split; [rewrite P; reflexivity|]. split; [rewrite P; reflexivity|].
  intros all. rewrite P. auto.
Qed.

Lemma hashed_sound pred hash (accepts : pred -> token -> bool) constrain g toks fuel all trees n i j :
  predict_sound g ->
  hparse hash accepts constrain g fuel toks all = Some trees -> In (n, (i, j)) trees ->
  derives accepts g toks (TRule (g_start g)) i j (erase n) /\
  leaves_ok accepts constrain toks n /\ j <= length toks /\ (all = false -> j = length toks).
Proof.
  intros PS H HT. unfold hparse in H. destruct hchart as [st|] eqn:E; [|discriminate].
  injection H as <-. unfold prepare_trees in HT. apply in_map_iff in HT as (s & X & Hs).
  injection X as <- <- <-. eapply hmatches_sound; eauto.
Qed.

Lemma repeated (l : list Z) : NoDup l \/ exists v l1 l2 l3, l = l1 ++ v :: l2 ++ v :: l3.
Proof.
  induction l as [|x l [IH|(v & l1 & l2 & l3 & ->)]].
  - left. constructor.
  - destruct (in_dec Z.eq_dec x l) as [H|H]; [|left; constructor; auto].
    right. apply in_split in H as (l2 & l3 & ->). exists x, [], l2, l3. reflexivity.
  - right. exists v, (x :: l1), l2, l3. reflexivity.
Qed.

(** Two numbers with one value of a function with finitely many values. *)
Lemma pigeon (f : nat -> Z) lo hi : (forall n, (lo <= f n < hi)%Z) -> exists a b, a <> b /\ f a = f b.
Proof.
  intros B. set (N := Z.to_nat (hi - lo)).
  set (l := map f (seq 0 (S N))).
  assert (ND : ~ NoDup l).
  { intros ND. assert (IN : incl l (map (fun i => (lo + Z.of_nat i)%Z) (seq 0 N))).
    { intros v Hv. apply in_map_iff in Hv as (n & <- & _). apply in_map_iff.
      exists (Z.to_nat (f n - lo)). pose proof (B n). split; [lia|]. apply in_seq. unfold N. lia. }
    pose proof (NoDup_incl_length ND IN) as L. unfold l in L. rewrite !map_length, !seq_length in L. lia. }
  destruct (repeated l) as [?|(v & l1 & l2 & l3 & E)]; [contradiction|].
  assert (H1 : nth_error l (length l1) = Some v).
  { rewrite E, nth_error_app2 by lia. rewrite Nat.sub_diag. reflexivity. }
  assert (H2 : nth_error l (length l1 + S (length l2)) = Some v).
  { rewrite E, nth_error_app2 by lia. replace (length l1 + S (length l2) - length l1) with (S (length l2)) by lia.
    cbn [nth_error]. rewrite nth_error_app2 by lia. rewrite Nat.sub_diag. reflexivity. }
  assert (K : forall i, nth_error l i = Some v -> f i = v).
  { intros i Hi. unfold l in Hi. rewrite nth_error_map in Hi.
    destruct (nth_error (seq 0 (S N)) i) as [x|] eqn:X; [|discriminate]. cbn [option_map] in Hi.
    injection Hi as <-. f_equal. assert (i < S N).
    { rewrite <- (seq_length (S N) 0). apply nth_error_Some. congruence. }
    rewrite (nth_error_nth' _ 0) in X by (rewrite seq_length; auto). rewrite seq_nth in X by auto.
    injection X as <-. reflexivity. }
  exists (length l1), (length l1 + S (length l2)). split; [lia|].
  rewrite (K _ H1), (K _ H2). reflexivity.
Qed.

(** S -> no | yes, where production [a] is 'no' and production [b] is 'yes'. *)
Definition two_ways (a b : nat) : grammar token bool :=
  mkGrammar (fun r => if Nat.eqb r 0 then [a; b] else [])
            (fun r _ => if Nat.eqb r 0 then [a; b] else [])
            (fun q => if Nat.eqb q b then [TPred true] else [TPred false])
            (fun _ => 0) (fun _ => None) (fun _ => None) (fun _ => None) 0.

Definition one_token : list token := [mkToken [] 0 1 [] None None].

Definition as_is (p : bool) (t : token) : bool := p.
Definition same_token (p : bool) (t : token) : token := t.

Section Lost.
  Variable hash : hash_key -> Z.
  Variables a b : nat.
  Hypothesis NE : a <> b.
  (** Equal hash values of the two states predicted in the first column. *)
  Hypothesis H0 : hash (0, a, 0, 0, 0, []) = hash (0, b, 0, 0, 0, []).
  Let g := two_ways a b.

  Lemma two_ways_terms_a : g_terms g a = [TPred false].
  Proof. simpl. rewrite (proj2 (Nat.eqb_neq _ _) NE). reflexivity. Qed.
  Lemma two_ways_terms_b : g_terms g b = [TPred true].
  Proof. simpl. rewrite Nat.eqb_refl. reflexivity. Qed.

  Definition wait (q k id rank : nat) : state token bool := mkState 0 q 0 k k id rank [].

  Lemma next_wait_a k id rank : next_term g (wait a k id rank) = Some (TPred false).
  Proof. unfold next_term. cbn [wait s_prod s_dot]. rewrite two_ways_terms_a. reflexivity. Qed.
  Lemma next_wait_b k id rank : next_term g (wait b k id rank) = Some (TPred true).
  Proof. unfold next_term. cbn [wait s_prod s_dot]. rewrite two_ways_terms_b. reflexivity. Qed.

  (** The chart after the first prediction: only the first production is kept. *)
  Definition first_column : hst token bool := hpredict hash g one_token 0 0 hinit.

  Lemma first_states k : h_states first_column k = if Nat.eqb k 0 then [wait a 0 0 0] else [].
  Proof.
    unfold first_column, hpredict. cbn [predicted one_token nth_error g g_predict two_ways Nat.eqb].
    unfold hpredict_loop, happend. cbn [h_hashes halloc hinit existsb h_fresh h_states h_index Nat.eqb].
    replace (key_of (mkState 0 a 0 0 0 0 0 [])) with (0, a, 0, 0, 0, @nil nat) by reflexivity.
    replace (key_of (mkState 0 b 0 0 0 1 1 [])) with (0, b, 0, 0, 0, @nil nat) by reflexivity.
    rewrite H0, Z.eqb_refl. cbn [orb h_states halloc]. destruct (Nat.eqb k 0); reflexivity.
  Qed.

  Notation hdrain := (hdrain hash as_is same_token g one_token).

  Lemma first_drained fuel : hdrain (S fuel) 0 0 first_column = Some first_column.
  Proof.
    cbn [HashModel.hdrain]. rewrite first_states. cbn [Nat.eqb nth_error].
    unfold hprocess. rewrite next_wait_a. cbn [one_token nth_error]. unfold hscan. cbn [as_is].
    destruct fuel; cbn [HashModel.hdrain]; rewrite first_states; reflexivity.
  Qed.

  Lemma lost_false fuel : hparse hash as_is same_token g (S fuel) one_token false = Some [].
  Proof.
    unfold hparse, hchart. cbn [one_token length hchart_from]. fold one_token.
    unfold hstart_column. cbn [Nat.eqb orb]. change (g_start g) with 0. fold first_column.
    rewrite first_drained. cbn [HashModel.hdrain]. rewrite first_states. cbn [Nat.eqb nth_error].
    unfold hmatches, hcolumn_matches. cbn [one_token length]. rewrite first_states. reflexivity.
  Qed.

  Definition second_column : hst token bool := hpredict hash g one_token 1 0 first_column.

  Lemma second_old : h_states second_column 0 = [wait a 0 0 0].
  Proof.
    transitivity (h_states first_column 0); [|rewrite first_states; reflexivity].
    unfold second_column, hpredict. cbn [predicted one_token nth_error g g_prods two_ways Nat.eqb].
    unfold hpredict_loop, happend. destruct existsb; destruct existsb; reflexivity.
  Qed.

  Lemma second_new s : In s (h_states second_column 1) -> exists q id rank, s = wait q 1 id rank /\ (q = a \/ q = b).
  Proof.
    assert (F : h_states first_column 1 = []) by (rewrite first_states; reflexivity). revert F.
    unfold second_column, hpredict. cbn [predicted one_token nth_error g g_prods two_ways Nat.eqb].
    generalize first_column. intros h F.
    assert (K : forall prods rank h, (forall s, In s (h_states h 1) -> exists q id rank, s = wait q 1 id rank /\ (q = a \/ q = b)) ->
      (forall q, In q prods -> q = a \/ q = b) ->
      forall s, In s (h_states (hpredict_loop hash (two_ways a b) 1 0 rank prods h) 1) ->
        exists q id rank, s = wait q 1 id rank /\ (q = a \/ q = b)).
    { clear h F s. induction prods as [|q prods IH]; intros rank h F Q s; [apply F|].
      cbn [hpredict_loop]. apply IH; [|intros; apply Q; simpl; auto].
      intros y. unfold happend. destruct existsb; [apply F|]. cbn [h_states Nat.eqb halloc].
      intros Hy. apply in_app_or in Hy as [Hy|[<-|[]]]; [apply F; auto|].
      exists q, (h_fresh h), rank. split; [reflexivity|]. apply Q. simpl; auto. }
    apply K; [rewrite F; intros ? []|]. intros q [<-|[<-|[]]]; auto.
  Qed.

  Lemma wait_next q k id rank : q = a \/ q = b -> exists p, next_term g (wait q k id rank) = Some (TPred p).
  Proof. intros [->| ->]; eexists; [apply next_wait_a|apply next_wait_b]. Qed.

  Lemma second_drained : forall fuel i, length (h_states second_column 1) <= i + fuel ->
    hdrain fuel 1 i second_column = Some second_column.
  Proof.
    induction fuel as [|fuel IH]; intros i L; cbn [HashModel.hdrain].
    - rewrite (proj2 (nth_error_None _ _)) by lia. reflexivity.
    - destruct nth_error as [s|] eqn:E; [|reflexivity].
      apply nth_error_In in E. apply second_new in E as (q & id & rank & -> & Q).
      unfold hprocess. destruct (wait_next q 1 id rank Q) as (p & ->). cbn [one_token nth_error].
      apply IH. lia.
  Qed.

  Lemma none_completed l : (forall s, In s l -> exists q k id rank, s = wait q k id rank /\ (q = a \/ q = b)) ->
    filter (fun s => completed g s && Nat.eqb (s_rule s) (g_start g)) l = [].
  Proof.
    induction l as [|s l IH]; intros H; [reflexivity|]. cbn [filter].
    destruct (H s (or_introl eq_refl)) as (q & k & id & rank & -> & Q).
    destruct (wait_next q k id rank Q) as (p & E). unfold completed at 1. rewrite E. cbn [andb].
    apply IH. intros; apply H; simpl; auto.
  Qed.

  Lemma lost_true : exists fuel, hparse hash as_is same_token g (S fuel) one_token true = Some [].
  Proof.
    exists (length (h_states second_column 1)).
    unfold hparse, hchart. cbn [one_token length hchart_from]. fold one_token.
    unfold hstart_column. cbn [Nat.eqb orb]. change (g_start g) with 0. fold first_column.
    rewrite first_drained. fold second_column. rewrite second_drained by lia.
    unfold hmatches, hcolumn_matches. cbn [one_token length seq flat_map].
    rewrite !none_completed; [reflexivity| |].
    - intros s Hs. apply second_new in Hs as (q & id & rank & -> & Q). eauto 8.
    - intros s. rewrite second_old. intros [<-|[]]. eauto 8.
  Qed.
End Lost.

Lemma two_ways_regular a b : predict_sound (two_ways a b) /\ predict_complete as_is (two_ways a b).
Proof.
  split; [intros r t q H; exact H|]. intros r t q H _. exact H.
Qed.

Lemma two_ways_accepts a b :
  derives as_is (two_ways a b) one_token (TRule 0) 0 1 (DNode 0 b [DLeaf 0 true]).
Proof.
  constructor; [simpl; auto|]. cbn [g_terms two_ways]. rewrite Nat.eqb_refl.
  econstructor; [|constructor]. econstructor; reflexivity.
Qed.

(** With finitely many hash values there is a grammar with two productions and
    a text of one token which the grammar accepts, in which nothing is found. *)
Lemma hashed_lost rel (hash : hash_key -> Z) lo hi : (forall x, (lo <= hash x < hi)%Z) ->
  exists (g : grammar token bool) accepts constrain toks d fuel,
    predict_sound g /\ predict_complete accepts g /\
    derives accepts g toks (TRule (g_start g)) 0 (length toks) d /\ no_empty_part d /\
    hmatch hash accepts constrain rel g fuel toks = Some (Ok ([], None)) /\
    hfindall hash accepts constrain rel g fuel toks = Some (Ok ([], [])).
Proof.
  intros B. destruct (pigeon (fun q => hash (0, q, 0, 0, 0, [])) lo hi (fun n => B _)) as (a & b & NE & H0).
  cbv beta in H0. destruct (lost_true hash a b NE H0) as (fuel & E).
  exists (two_ways a b), as_is, same_token, one_token, (DNode 0 b [DLeaf 0 true]), (S fuel).
  split; [apply two_ways_regular|]. split; [apply two_ways_regular|]. split; [apply two_ways_accepts|].
  split; [simpl; split; [discriminate|auto]|]. split.
  - unfold hmatch. rewrite lost_false by auto. reflexivity.
  - unfold hfindall. rewrite E. reflexivity.
Qed.
