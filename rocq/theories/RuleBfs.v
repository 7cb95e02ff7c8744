(** The walk over a rule graph (rule/constructors.py 146-155). *)
From Verif Require Import Base EarleyModel RuleModel RuleSpec RuleWords RuleLike RulePass.
Open Scope nat_scope.

Lemma enqueue_new cs : forall queue visited queue' visited', enqueue cs queue visited = (queue', visited') ->
  exists new, queue' = queue ++ new /\ NoDup new /\ (forall x, In x new -> In x cs /\ ~ In x visited) /\
    (forall x, In x visited' <-> In x visited \/ In x new) /\ (forall x, In x cs -> In x visited').
Proof.
  induction cs as [|c cs IH]; intros queue visited queue' visited' H; cbn in H.
  - injection H as <- <-. exists []. rewrite app_nil_r. split; [reflexivity|]. split; [constructor|]. split; [intros x []|]. split; [cbn; tauto|intros x []].
  - destruct (is_in c visited) eqn:E.
    + apply is_in_spec in E. destruct (IH _ _ _ _ H) as (new & A & B & C & D & F). exists new. split; [exact A|]. split; [exact B|].
      split; [intros x Hx; destruct (C x Hx); split; [right|]; auto|]. split; [exact D|]. intros x [<-|Hx]; [apply D; auto|auto].
    + assert (N : ~ In c visited) by (rewrite <- is_in_spec; congruence). destruct (IH _ _ _ _ H) as (new & A & B & C & D & F).
      exists (c :: new). split; [rewrite A, <- app_assoc; reflexivity|]. split.
      { constructor; [|exact B]. intros K. destruct (C c K) as [_ K']. apply K'. left. reflexivity. }
      split; [intros x [<-|Hx]; [split; [left; reflexivity|exact N]|destruct (C x Hx) as [K1 K2]; split; [right; exact K1|]; intros K; apply K2; right; exact K]|].
      split; [intros x; rewrite D; cbn; tauto|]. intros x [<-|Hx]; [apply D; left; left; reflexivity|auto].
Qed.

Section Bfs.
  Context {pred pipe bnf : Type}.
  Notation obj := (obj pred pipe bnf).
  Notation heap := (heap pred pipe bnf).
  Variable h : heap.
  Definition kids (x : nat) : list nat := match nth_error h x with Some o => children o | None => [] end.

  Lemma NoDup_app_intro {A} (l l' : list A) : NoDup l -> NoDup l' -> (forall x, In x l -> ~ In x l') -> NoDup (l ++ l').
  Proof.
    intros N N' D. induction N as [|a l Ha N IH]; [exact N'|]. cbn. constructor.
    - rewrite in_app_iff. intros [K|K]; [exact (Ha K)|apply (D a); [left; reflexivity|exact K]].
    - apply IH. intros x Hx. apply D. right. exact Hx.
  Qed.

  Lemma bfs_loop_ok fuel : forall queue visited done l,
    NoDup (done ++ queue) -> (forall x, In x visited <-> In x (done ++ queue)) -> (forall x c, In x done -> In c (kids x) -> In c visited) ->
    bfs_loop fuel h queue visited = Some l ->
    (exists rest, l = queue ++ rest) /\ NoDup (done ++ l) /\ (forall x c, In x (done ++ l) -> In c (kids x) -> In c (done ++ l)) /\
    (forall x, In x l -> exists y, In y queue /\ reach h y x).
  Proof.
    induction fuel as [|fuel IH]; intros [|x queue] visited done l N V C H; cbn [bfs_loop] in H; try discriminate.
    1,2: injection H as <-; split; [exists []; reflexivity|]; rewrite app_nil_r in *; split; [exact N|]; split; [intros x c Hx Hc; apply V, (C x c Hx Hc)|intros x []].
    fold (kids x) in H. destruct (enqueue (kids x) queue visited) as [queue2 visited2] eqn:En.
    destruct (bfs_loop fuel h queue2 visited2) as [l2|] eqn:B; [|discriminate]. injection H as <-.
    destruct (enqueue_new _ _ _ _ _ En) as (new & -> & Nn & Kn & Vn & Cn).
    destruct (IH (queue ++ new) visited2 (done ++ [x]) l2) as ((rest & ->) & N2 & C2 & R2).
    - replace ((done ++ [x]) ++ queue ++ new) with ((done ++ x :: queue) ++ new) by (rewrite <- !app_assoc; reflexivity).
      apply NoDup_app_intro; [exact N|exact Nn|]. intros y Hy K. destruct (Kn y K) as [_ K']. apply K', V, Hy.
    - intros y. rewrite Vn, V, !in_app_iff. cbn. tauto.
    - intros y c Hy Hc. apply in_app_or in Hy as [Hy|[<-|[]]]; [apply Vn; left; apply (C y c Hy Hc)|apply Cn, Hc].
    - exact B.
    - replace ((done ++ [x]) ++ (queue ++ new) ++ rest) with (done ++ x :: (queue ++ new) ++ rest) in N2 by (rewrite <- !app_assoc; reflexivity).
      split; [exists (new ++ rest); cbn; rewrite app_assoc; reflexivity|]. split; [exact N2|]. split.
      + intros y c Hy Hc. replace (done ++ x :: (queue ++ new) ++ rest) with ((done ++ [x]) ++ (queue ++ new) ++ rest) in * by (rewrite <- !app_assoc; reflexivity). apply (C2 y c Hy Hc).
      + intros y [<-|Hy]; [exists x; split; [left; reflexivity|constructor]|]. destruct (R2 y Hy) as (z & Hz & Rz).
        apply in_app_or in Hz as [Hz|Hz]; [exists z; split; [right; exact Hz|exact Rz]|].
        exists x. split; [left; reflexivity|]. destruct (Kn z Hz) as [Kz _]. unfold kids in Kz. destruct (nth_error h x) as [o|] eqn:E; [|destruct Kz].
        clear - E Kz Rz. induction Rz as [z|z q o' c R IH E' Hc]; [apply (reach_step h x x o z); [constructor|exact E|exact Kz]|].
        apply (reach_step h x q o' c); auto.
  Qed.

  Theorem bfs_ok fuel root l : bfs fuel h root = Some l ->
    NoDup l /\ (forall x, In x l <-> reach h root x) /\ exists rest, l = root :: rest.
  Proof.
    intros H. destruct (bfs_loop_ok fuel [root] [root] [] l) as ((rest & E) & N & C & R).
    - constructor; [intros []|constructor].
    - intros x. reflexivity.
    - intros x c [].
    - exact H.
    - split; [exact N|]. split; [|exists rest; exact E]. intros x. split.
      + intros Hx. destruct (R x Hx) as (y & [<-|[]] & K). exact K.
      + intros K. assert (Hr : In root l) by (rewrite E; left; reflexivity). clear - K C Hr. induction K as [p|p q o c K IH Eq Hc]; [exact Hr|]. apply (C q c).
        * apply IH; auto.
        * unfold kids. rewrite Eq. exact Hc.
  Qed.

  (** Enough fuel: as many steps as there are objects. *)
  Lemma bfs_loop_total fuel : forall queue visited done, (forall p o c, nth_error h p = Some o -> In c (children o) -> c < length h) ->
    NoDup (done ++ queue) -> (forall x, In x visited <-> In x (done ++ queue)) -> (forall x, In x (done ++ queue) -> x < length h) ->
    length h <= length done + fuel -> exists l, bfs_loop fuel h queue visited = Some l.
  Proof.
    induction fuel as [|fuel IH]; intros [|x queue] visited done W N V B L; cbn [bfs_loop]; eauto.
    - exfalso. assert (K : length (done ++ x :: queue) <= length (seq 0 (length h))).
      { apply NoDup_incl_length; [exact N|]. intros y Hy. apply in_seq. split; [lia|apply B, Hy]. }
      rewrite app_length, seq_length in K. cbn in K. lia.
    - fold (kids x). destruct (enqueue (kids x) queue visited) as [queue2 visited2] eqn:En.
      destruct (enqueue_new _ _ _ _ _ En) as (new & -> & Nn & Kn & Vn & Cn).
      destruct (IH (queue ++ new) visited2 (done ++ [x])) as (l & ->); [exact W| | | | |exists (x :: l); reflexivity].
      + replace ((done ++ [x]) ++ queue ++ new) with ((done ++ x :: queue) ++ new) by (rewrite <- !app_assoc; reflexivity).
        apply NoDup_app_intro; [exact N|exact Nn|]. intros y Hy K. destruct (Kn y K) as [_ K']. apply K', V, Hy.
      + intros y. rewrite Vn, V, !in_app_iff. cbn. tauto.
      + intros y Hy. rewrite !in_app_iff in Hy. destruct Hy as [[Hy|Hy]|[Hy|Hy]]; [apply B, in_or_app; auto|apply B, in_or_app; destruct Hy as [->|[]]; right; left; reflexivity|apply B, in_or_app; right; right; exact Hy|].
        destruct (Kn y Hy) as [K _]. unfold kids in K. destruct (nth_error h x) as [o|] eqn:E; [|destruct K]. apply (W x o y E K).
      + rewrite app_length. cbn. lia.
  Qed.
  Theorem bfs_total fuel root : (forall p o c, nth_error h p = Some o -> In c (children o) -> c < length h) -> root < length h ->
    length h <= fuel -> exists l, bfs fuel h root = Some l.
  Proof.
    intros W R L. apply (bfs_loop_total fuel [root] [root] []); auto.
    - constructor; [intros []|constructor].
    - intros x. reflexivity.
    - intros x [<-|[]]. exact R.
  Qed.
End Bfs.
