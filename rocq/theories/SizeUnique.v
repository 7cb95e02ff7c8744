(** Grammars in which every piece of text has at most one reading. *)
From Verif Require Import Base EarleyModel EarleySpec EarleyInv EarleyProofs SizeSpec SizeProofs.
Open Scope nat_scope.

Section Unique.
  Context {token pred : Type}.
  Variable accepts : pred -> token -> bool.
  Variable g : grammar token pred.
  Variable toks : list token.
  Notation derives := (derives accepts g toks).
  Notation derives_seq := (derives_seq accepts g toks).
  Variable width : nat -> option nat.
  Notation term_width := (term_width width).
  Hypothesis W : widths g width.
  Hypothesis O : one_open g width.
  Hypothesis X : exclusive accepts g toks.

  Lemma derives_width :
    (forall t i j d, derives t i j d -> forall w, term_width t = Some w -> j = i + w) /\
    (forall ts i j ds, derives_seq ts i j ds -> forall l, map term_width ts = map Some l -> j = i + list_sum l).
  Proof.
    apply derives_mutind.
    - intros p i t _ _ w E. cbn in E. injection E as <-. lia.
    - intros r q i j ds Hq Hs IH w E. cbn in E. destruct (W r w q E Hq) as (l & El & <-). apply IH, El.
    - intros i l E. destruct l; [cbn; lia|discriminate].
    - intros t ts i k j d ds Hd IH Hs IHs l E. destruct l as [|w l]; [discriminate|]. injection E as E1 E2. rewrite sum_cons. rewrite (IHs l E2), (IH w E1). lia.
  Qed.

  Definition one_open_in (ts : list (term pred)) : Prop := forall a b c t u, ts = a ++ t :: b ++ u :: c -> term_width t <> None \/ term_width u <> None.
  Lemma one_open_prefix ts n : one_open_in ts -> one_open_in (firstn n ts).
  Proof. intros H a b c t u E. apply (H a b (c ++ skipn n ts) t u). rewrite <- (firstn_skipn n ts) at 1. rewrite E. rewrite <- !app_assoc. cbn. rewrite <- app_assoc. reflexivity. Qed.
  Lemma one_open_tail t ts : one_open_in (t :: ts) -> one_open_in ts.
  Proof. intros H a b c u v ->. apply (H (t :: a) b c u v). reflexivity. Qed.
  Lemma closed_rest t ts : one_open_in (t :: ts) -> term_width t = None -> exists l, map term_width ts = map Some l.
  Proof.
    intros H N. assert (F : forall u, In u ts -> term_width u <> None). { intros u Hu. apply in_split in Hu as (b & c & ->). destruct (H [] b c t u eq_refl) as [K|K]; [congruence|exact K]. }
    clear H. induction ts as [|u ts IH]; [exists []; reflexivity|]. destruct IH as (l & E); [intros; apply F; right; assumption|]. destruct (term_width u) as [w|] eqn:Eu; [|destruct (F u (or_introl eq_refl) Eu)]. exists (w :: l). cbn. rewrite Eu, E. reflexivity.
  Qed.

  Lemma derives_unique :
    (forall t i j d, derives t i j d -> forall d', derives t i j d' -> d = d') /\
    (forall ts i j ds, derives_seq ts i j ds -> one_open_in ts -> forall ds', derives_seq ts i j ds' -> ds = ds').
  Proof.
    apply derives_mutind.
    - intros p i t _ _ d' H. inversion H; subst. reflexivity.
    - intros r q i j ds Hq Hs IH d' H. inversion H as [|? q' ? ? ds' Hq' Hs']; subst. assert (q = q') as <- by (eapply X; eauto). f_equal. apply IH; [|exact Hs']. intros a b c t u E. eapply O; eauto.
    - intros i _ ds' H. inversion H; subst. reflexivity.
    - intros t ts i k j d ds Hd IH Hs IHs H ds' H'. inversion H' as [|? ? ? k' ? d' ds2 Hd' Hs']; subst.
      assert (k = k') as <-.
      { destruct (term_width t) as [w|] eqn:E.
        - rewrite (proj1 derives_width _ _ _ _ Hd w E), (proj1 derives_width _ _ _ _ Hd' w E). reflexivity.
        - destruct (closed_rest t ts H E) as (l & El). pose proof (proj2 derives_width _ _ _ _ Hs l El). pose proof (proj2 derives_width _ _ _ _ Hs' l El). lia. }
      f_equal; [apply IH, Hd'|apply IHs; [apply (one_open_tail t), H|exact Hs']].
  Qed.
  Theorem one_reading : readings accepts g toks 1.
  Proof.
    intros r q n i j Hq l N H. assert (OP : one_open_in (firstn n (g_terms g q))) by (apply one_open_prefix; intros a b c t u E; eapply O; eauto).
    destruct l as [|x [|y l]]; cbn; try lia. exfalso. inversion N as [|? ? N1 _]; subst. apply N1. left. symmetry. apply (proj2 derives_unique _ _ _ _ (H x (or_introl eq_refl)) OP). apply H. right. left. reflexivity.
  Qed.
End Unique.
