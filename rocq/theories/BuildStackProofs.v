(** Building a parser on a limited stack: with more frames and more fuel the result stays, and with
    enough frames it is the result without a limit. *)
From Verif Require Import Base TokenModel EarleyModel PredicateModel PipelineModel RuleModel GrammarModel BuildStackModel.
From Coq Require Import Lia.
Open Scope nat_scope.

Section Within.
  Context {pred pipe bnf : Type}.
  Notation obj := (obj pred pipe bnf).
  Notation heap := (heap pred pipe bnf).
  Notation state := (state pred pipe bnf).
  Notation M := (M pred pipe bnf).
  Notation visitor := (visitor pred pipe bnf).
  Variable comp : nat.

  (** ** More of everything *)
  Definition le {A} (m m' : M A) : Prop := forall s x, m s = Some x -> m' s = Some x.
  Lemma le_refl {A} (m : M A) : le m m. Proof. intros s x E. exact E. Qed.
  Lemma le_no {A} (m : M A) : le no_fuel m. Proof. intros s x E. discriminate. Qed.
  Lemma le_bind {A B} (m m' : M A) (f f' : A -> M B) : le m m' -> (forall a, le (f a) (f' a)) -> le (bindM m f) (bindM m' f').
  Proof. intros H F s x. unfold bindM. destruct (m s) as [[[a s']|e]|] eqn:E; [|intros X; rewrite (H _ _ E); exact X|discriminate]. intros X. rewrite (H _ _ E). apply F, X. Qed.
  Lemma le_map {A B} (f f' : A -> M B) : (forall a, le (f a) (f' a)) -> forall l, le (mapMM f l) (mapMM f' l).
  Proof. intros F. induction l as [|a l IH]; [apply le_refl|]. cbn. apply le_bind; [apply F|]. intros b. apply le_bind; [exact IH|]. intros. apply le_refl. Qed.
  Lemma le_frames {A} k room room' (m m' : M A) : room <= room' -> le m m' -> le (frames k room m) (frames k room' m').
  Proof. intros L H. unfold frames. destruct (Nat.ltb_spec room k); [apply le_no|]. destruct (Nat.ltb_spec room' k); [lia|exact H]. Qed.
  Ltac le1 := first [apply le_refl | apply le_no | assumption
    | match goal with H : forall p, le (?v p) (?w p) |- le (?v ?p) (?w ?p) => apply H end
    | apply le_bind; [|intros ?] | apply le_map; intros ? ].
  Ltac lem := repeat (le1 || match goal with |- le (match ?x with _ => _ end) _ => destruct x | |- le (let (_, _) := ?x in _) _ => destruct x end).

  Section Methods.
    Variables v w : visitor.
    Hypothesis V : forall p, le (v p) (w p).
    Lemma term_le t : le (visit_term v t) (visit_term w t).
    Proof. unfold visit_term. lem. Qed.
    Lemma base_le p o : le (base_method v p o) (base_method w p o).
    Proof. pose proof term_le. unfold base_method, visit_Production, visit_Rule. lem. Qed.
    Lemma squash_le p o : le (squash_method v p o) (squash_method w p o).
    Proof. pose proof base_le as HB. destruct o; unfold squash_method; try apply HB; unfold visit_new, squash_bounded, visit_new; lem. Qed.
    Lemma extended_le p o : le (replace_extended_method v p o) (replace_extended_method w p o).
    Proof. pose proof base_le as HB. destruct o; unfold replace_extended_method; try apply HB; lem. Qed.
    Lemma or_le p o : le (replace_or_method v p o) (replace_or_method w p o).
    Proof. pose proof base_le as HB. destruct o; unfold replace_or_method; try apply HB; lem. Qed.
    Lemma empty_le p o : le (replace_empty_method v p o) (replace_empty_method w p o).
    Proof. pose proof base_le as HB. destruct o; unfold replace_empty_method; try apply HB; lem. Qed.
    Lemma wrapper_le parents r : le (visit_WrapperRule parents v r) (visit_WrapperRule parents w r).
    Proof. unfold visit_WrapperRule. lem. Qed.
    Lemma bnf_le pb lines parents p o : le (bnf_method pb lines parents v p o) (bnf_method pb lines parents w p o).
    Proof. pose proof base_le as HB. pose proof (wrapper_le parents) as HW. destruct o; unfold bnf_method; try apply HB; lem. Qed.
  End Methods.

  (** Families of visitors, by the frames left. *)
  Definition vle (v w : nat -> visitor) : Prop := forall l l' p, l <= l' -> le (v l p) (w l' p).
  Definition mle (m m' : (nat -> visitor) -> nat -> nat -> obj -> M nat) : Prop :=
    forall v w room room' p o, vle v w -> room <= room' -> le (m v room p o) (m' w room' p o).
  Lemma framed_le need below method : (forall v w, (forall p, le (v p) (w p)) -> forall p o, le (method v p o) (method w p o)) -> mle (framed need below method) (framed need below method).
  Proof. intros H v w room room' p o V L. unfold framed. apply le_frames; [exact L|]. apply H. intros q. apply V. lia. Qed.
  Lemma squash_mle : mle (squash_within comp) (squash_within comp).
  Proof. intros v w room room' p o V L. destruct o; try (apply (framed_le _ _ _ squash_le); assumption); apply le_bind; try apply le_refl; intros child; apply (framed_le _ _ _ squash_le); assumption. Qed.
  Lemma flatten_term_mle fuel : forall fuel' v w room room' t, fuel <= fuel' -> vle v w -> room <= room' -> le (flatten_term_within fuel v room t) (flatten_term_within fuel' w room' t).
  Proof.
    induction fuel as [|fuel IH]; intros fuel' v w room room' t F V L; [apply le_no|]. destruct fuel' as [|fuel']; [lia|]. cbn [flatten_term_within].
    assert (D : le (frames 2 room (visit_term (v (room - 2)) t)) (frames 2 room' (visit_term (w (room' - 2)) t))) by (apply le_frames; [exact L|]; apply term_le; intros q; apply V; lia).
    destruct t as [r|x]; [|exact D]. apply le_bind; [apply le_refl|]. intros o. destruct o; try exact D. match goal with |- context [match ?x with [] => _ | _ :: _ => _ end] => destruct x as [|q [|? ?]] end; try exact D.
    apply le_bind; [apply le_refl|]. intros o. destruct (production_terms o) as [|t' [|? ?]]; try exact D. apply le_frames; [exact L|]. apply IH; [lia|exact V|lia].
  Qed.
  Lemma flatten_mle fuel fuel' : fuel <= fuel' -> mle (flatten_within comp fuel) (flatten_within comp fuel').
  Proof.
    intros F v w room room' p o V L. destruct o; try (apply (framed_le _ _ _ base_le); assumption). unfold flatten_within.
    match goal with |- le ?a ?b => idtac end.
    assert (D : le (frames (2 + comp) room (bindM (mapMM (flatten_term_within fuel v (room - (2 + comp))) terms) (fun ts' => alloc (OProd ts' main))))
                   (frames (2 + comp) room' (bindM (mapMM (flatten_term_within fuel' w (room' - (2 + comp))) terms) (fun ts' => alloc (OProd ts' main))))).
    { apply le_frames; [exact L|]. apply le_bind; [|intros; apply le_refl]. apply le_map. intros t. apply flatten_term_mle; [exact F|exact V|lia]. }
    destruct terms as [|[r|x] [|? ?]]; try exact D. apply le_bind; [apply le_refl|]. intros o. destruct o; try exact D. match goal with |- context [match ?x with [] => _ | _ :: _ => _ end] => destruct x as [|q [|? ?]] end; try exact D. apply le_frames; [exact L|]. apply V. lia.
  Qed.
  Lemma visit_vle m m' fuel : mle m m' -> forall fuel', fuel <= fuel' -> vle (visit_within m fuel) (visit_within m' fuel').
  Proof.
    intros H. induction fuel as [|fuel IH]; intros fuel' F l l' p L; [apply le_no|]. destruct fuel' as [|fuel']; [lia|]. cbn [visit_within]. apply le_frames; [exact L|].
    apply le_bind; [apply le_refl|]. intros [r|]; [apply le_refl|]. apply le_bind; [apply le_refl|]. intros o. apply le_bind; [|intros; apply le_refl]. apply H; [apply IH; lia|lia].
  Qed.
  Lemma walk_le (act act' : nat -> M unit) : (forall p, le (act p) (act' p)) -> forall fuel fuel' queue vis, fuel <= fuel' -> le (walk_loop fuel act queue vis) (walk_loop fuel' act' queue vis).
  Proof.
    intros H. induction fuel as [|fuel IH]; intros fuel' queue vis F.
    - destruct queue; [destruct fuel'; apply le_refl|apply le_no].
    - destruct fuel' as [|fuel']; [lia|]. cbn [walk_loop]. destruct queue as [|x queue]; [apply le_refl|]. apply le_bind; [apply H|]. intros _. apply le_bind; [apply le_refl|]. intros o. destruct (enqueue _ _ _). apply IH. lia.
  Qed.
  Lemma run_le m m' fuel fuel' limit limit' (h : heap) root x : mle m m' -> fuel <= fuel' -> limit <= limit' -> run_visit_within m fuel limit h root = Some x -> run_visit_within m' fuel' limit' h root = Some x.
  Proof.
    intros H F L. unfold run_visit_within. pose proof (visit_vle m m' fuel H fuel' F) as V.
    assert (Q : le (bindM (walk fuel (define_visited_within m fuel limit) root) (fun _ => visit_within m fuel limit root)) (bindM (walk fuel' (define_visited_within m' fuel' limit') root) (fun _ => visit_within m' fuel' limit' root))).
    { apply le_bind; [|intros; apply V, L]. apply walk_le; [|exact F]. intros p. apply le_bind; [apply le_refl|]. intros o. destruct o; try apply le_refl. match goal with |- context [match ?x with Some _ => _ | None => _ end] => destruct x as [r|]; [|apply le_refl] end. apply le_bind; [apply V, L|intros; apply le_refl]. }
    destruct (bindM (walk fuel _ root) _ (mkState h [])) as [y|] eqn:E; [|discriminate]. rewrite (Q _ _ E). tauto.
  Qed.
  Lemma then_le {A B} (a a' : option (res A)) (f f' : A -> option (res B)) x : (forall y, a = Some y -> a' = Some y) -> (forall z y, f z = Some y -> f' z = Some y) -> then_ a f = Some x -> then_ a' f' = Some x.
  Proof. intros H F. destruct a as [[z|e]|]; [rewrite (H _ eq_refl); apply F|rewrite (H _ eq_refl); tauto|discriminate]. Qed.
  Lemma normalized_le fuel fuel' limit limit' (h : heap) root x : fuel <= fuel' -> limit <= limit' -> normalized_within comp fuel limit h root = Some x -> normalized_within comp fuel' limit' h root = Some x.
  Proof.
    intros F L. unfold normalized_within. apply then_le; [intros y; apply run_le; [apply squash_mle|exact F|exact L]|]. intros [r1 h1] y1. apply then_le; [intros y; apply run_le; [apply framed_le, extended_le|exact F|exact L]|].
    intros [r2 h2] y2. apply then_le; [intros y; apply run_le; [apply framed_le, or_le|exact F|exact L]|]. intros [r3 h3] y3. apply then_le; [intros y; apply run_le; [apply framed_le, empty_le|exact F|exact L]|].
    intros [r4 h4] y4. apply run_le; [apply flatten_mle, F|exact F|exact L].
  Qed.
  Lemma bfs_loop_le (h : heap) fuel : forall fuel' queue vis l, fuel <= fuel' -> bfs_loop fuel h queue vis = Some l -> bfs_loop fuel' h queue vis = Some l.
  Proof.
    induction fuel as [|fuel IH]; intros fuel' queue vis l F; [destruct queue; [destruct fuel'; tauto|discriminate]|]. destruct fuel' as [|fuel']; [lia|]. cbn [bfs_loop]. destruct queue as [|x queue]; [tauto|].
    destruct (enqueue _ _ _) as [q' v']. destruct (bfs_loop fuel h q' v') as [l'|] eqn:E; [|discriminate]. rewrite (IH fuel' q' v' l' ltac:(lia) E). tauto.
  Qed.
  Lemma inplace_le act fuel fuel' (h : heap) root x : fuel <= fuel' -> run_inplace act fuel h root = Some x -> run_inplace act fuel' h root = Some x.
  Proof.
    intros F. unfold run_inplace, transform_inplace, walk.
    assert (Q : le (bindM (walk_loop fuel (fun p => bindM (act p) (fun _ => ret tt)) [root] [root]) (fun _ => act root)) (bindM (walk_loop fuel' (fun p => bindM (act p) (fun _ => ret tt)) [root] [root]) (fun _ => act root))).
    { apply le_bind; [apply walk_le; [intros; apply le_refl|exact F]|intros; apply le_refl]. }
    destruct (bindM (walk_loop fuel _ [root] [root]) _ (mkState h [])) as [y|] eqn:E; [|discriminate]. rewrite (Q _ _ E). tauto.
  Qed.
  Section BNF.
    Variable pb : pipe -> res bnf.
    Variable lines : bnf -> list (str * list pred).
    Variable ap : pred -> res pred.
    Variable aq : pipe -> res pipe.
    Lemma to_bnf_le fuel fuel' limit limit' (h : heap) root x : fuel <= fuel' -> limit <= limit' -> to_bnf_within comp pb lines fuel limit h root = Some x -> to_bnf_within comp pb lines fuel' limit' h root = Some x.
    Proof.
      intros F L. unfold to_bnf_within, bfs. destruct (bfs_loop fuel h [root] [root]) as [l|] eqn:E; [|discriminate]. rewrite (bfs_loop_le h fuel fuel' _ _ l F E). apply run_le; [apply framed_le|exact F|exact L].
      intros v w V p o. apply bnf_le, V.
    Qed.
    Lemma as_bnf_le fuel fuel' limit limit' (h : heap) root x : fuel <= fuel' -> limit <= limit' -> as_bnf_within comp pb lines fuel limit h root = Some x -> as_bnf_within comp pb lines fuel' limit' h root = Some x.
    Proof.
      intros F L. unfold as_bnf_within. apply then_le; [intros y; apply to_bnf_le; assumption|]. intros [r1 h1] y1. apply then_le; [intros y; apply inplace_le, F|]. intros [r2 h2] y2.
      destruct (nth_error h2 r2) as [o|]; [|tauto]. destruct (is_bnf o); [|tauto]. unfold bfs. destruct (bfs_loop fuel h2 [r2] [r2]) as [l|] eqn:E; [|discriminate]. rewrite (bfs_loop_le h2 fuel fuel' _ _ l F E). tauto.
    Qed.
    Lemma parser_le fuel fuel' limit limit' (h : heap) root x : fuel <= fuel' -> limit <= limit' -> parser_rule_within comp pb lines ap aq fuel limit h root = Some x -> parser_rule_within comp pb lines ap aq fuel' limit' h root = Some x.
    Proof.
      intros F L. unfold parser_rule_within. apply then_le; [intros y; apply inplace_le, F|]. intros [r1 h1] y1. apply then_le; [intros y; apply normalized_le; assumption|]. intros [r2 h2] y2. apply as_bnf_le; assumption.
    Qed.
  End BNF.

  (** ** Enough frames *)
  Definition ev {A} (m : nat -> M A) (m' : M A) : Prop := forall s, exists L, forall l, L <= l -> m l s = m' s.
  Lemma ev_refl {A} (m : M A) : ev (fun _ => m) m. Proof. intros s. exists 0. reflexivity. Qed.
  Lemma ev_bind {A B} (m : nat -> M A) (m' : M A) (f : nat -> A -> M B) (f' : A -> M B) : ev m m' -> (forall a, ev (fun l => f l a) (f' a)) -> ev (fun l => bindM (m l) (f l)) (bindM m' f').
  Proof.
    intros H F s. destruct (H s) as [L1 E1]. unfold bindM. destruct (m' s) as [[[a s']|e]|] eqn:E.
    - destruct (F a s') as [L2 E2]. exists (L1 + L2). intros l Hl. rewrite E1 by lia. apply E2. lia.
    - exists L1. intros l Hl. rewrite E1 by lia. reflexivity.
    - exists L1. intros l Hl. rewrite E1 by lia. reflexivity.
  Qed.
  Lemma ev_map {A B} (f : nat -> A -> M B) (f' : A -> M B) : (forall a, ev (fun l => f l a) (f' a)) -> forall l, ev (fun n => mapMM (f n) l) (mapMM f' l).
  Proof. intros F. induction l as [|a l IH]; [exact (ev_refl (ret []))|]. cbn [mapMM]. apply (ev_bind (fun n => f n a) _ (fun n y => bindM (mapMM (f n) l) (fun ys => ret (y :: ys)))); [apply F|]. intros b. apply (ev_bind (fun n => mapMM (f n) l) _ (fun _ ys => ret (b :: ys))); [exact IH|]. intros. apply ev_refl. Qed.
  Lemma ev_frames {A} k (m : nat -> M A) m' : ev m m' -> ev (fun l => frames k l (m l)) m'.
  Proof. intros H s. destruct (H s) as [L E]. exists (L + k). intros l Hl. unfold frames. destruct (Nat.ltb_spec l k); [lia|]. apply E. lia. Qed.
  Lemma ev_sub {A} k (m : nat -> M A) m' : ev m m' -> ev (fun l => m (l - k)) m'.
  Proof. intros H s. destruct (H s) as [L E]. exists (L + k). intros l Hl. apply E. lia. Qed.
  Ltac ev1 := first [apply ev_refl | assumption
    | match goal with H : forall p, ev (fun l => ?v l p) (?w p) |- ev (fun l => ?v l ?p) (?w ?p) => apply H end
    | match goal with |- ev (fun l => bindM (@?m l) (@?f l)) _ => apply (ev_bind m _ f); [|intros ?] end
    | match goal with |- ev (fun l => mapMM (@?f l) ?x) _ => apply (ev_map f); intros ? end ].
  Ltac evm := repeat (ev1 || match goal with |- ev _ (match ?x with _ => _ end) => destruct x end).
  Section EvMethods.
    Variable v : nat -> visitor.
    Variable w : visitor.
    Hypothesis V : forall p, ev (fun l => v l p) (w p).
    Lemma term_ev t : ev (fun l => visit_term (v l) t) (visit_term w t).
    Proof. unfold visit_term. evm. Qed.
    Lemma base_ev p o : ev (fun l => base_method (v l) p o) (base_method w p o).
    Proof. pose proof term_ev as T. unfold base_method, visit_Production, visit_Rule. evm. apply T. Qed.
    Lemma squash_ev p o : ev (fun l => squash_method (v l) p o) (squash_method w p o).
    Proof. pose proof base_ev as HB. destruct o; unfold squash_method; try apply HB; unfold visit_new, squash_bounded, visit_new; evm. Qed.
    Lemma extended_ev p o : ev (fun l => replace_extended_method (v l) p o) (replace_extended_method w p o).
    Proof. pose proof base_ev as HB. destruct o; unfold replace_extended_method; try apply HB; evm. Qed.
    Lemma or_ev p o : ev (fun l => replace_or_method (v l) p o) (replace_or_method w p o).
    Proof. pose proof base_ev as HB. destruct o; unfold replace_or_method; try apply HB; evm. Qed.
    Lemma empty_ev p o : ev (fun l => replace_empty_method (v l) p o) (replace_empty_method w p o).
    Proof. pose proof base_ev as HB. destruct o; unfold replace_empty_method; try apply HB; evm. Qed.
    Lemma wrapper_ev parents r : ev (fun l => visit_WrapperRule parents (v l) r) (visit_WrapperRule parents w r).
    Proof. unfold visit_WrapperRule. evm. Qed.
    Lemma bnf_ev pb lines parents p o : ev (fun l => bnf_method pb lines parents (v l) p o) (bnf_method pb lines parents w p o).
    Proof. pose proof base_ev as HB. pose proof (wrapper_ev parents) as HW. destruct o; unfold bnf_method; try apply HB; evm; apply HW. Qed.
  End EvMethods.
  Definition mev (m : (nat -> visitor) -> nat -> nat -> obj -> M nat) (m' : visitor -> nat -> obj -> M nat) : Prop :=
    forall v w p o, (forall q, ev (fun l => v l q) (w q)) -> ev (fun l => m v l p o) (m' w p o).
  Lemma framed_mev need below method : (forall v w, (forall p, ev (fun l => v l p) (w p)) -> forall p o, ev (fun l => method (v l) p o) (method w p o)) -> mev (framed need below method) method.
  Proof. intros H v w p o V. unfold framed. apply ev_frames. apply (H (fun l => v (l - below o))). intros q. apply (ev_sub _ (fun l => v l q)), V. Qed.
  Lemma squash_mev : mev (squash_within comp) squash_method.
  Proof.
    intros v w p o V. destruct o; try (apply (framed_mev _ _ _ squash_ev); assumption).
    all: intros s; unfold squash_within, bindM, get; match goal with |- context [nth_error (st_heap s) ?x] => destruct (nth_error (st_heap s) x) as [child|] eqn:E end.
    all: try (exists 0; intros l _; unfold squash_method, bindM, get; rewrite E; reflexivity).
    all: cbv zeta; match goal with |- context [framed ?a ?b ?c _ _ ?p ?o] => destruct (framed_mev a b c squash_ev v w p o V s) as [L EL] end; exists L; exact EL.
  Qed.
  Lemma flatten_term_ev fuel v w : (forall q, ev (fun l => v l q) (w q)) -> forall t, ev (fun l => flatten_term_within fuel v l t) (flatten_term fuel w t).
  Proof.
    intros V. induction fuel as [|fuel IH]; intros t; [exact (ev_refl no_fuel)|]. cbn [flatten_term_within flatten_term].
    assert (D : ev (fun l => frames 2 l (visit_term (v (l - 2)) t)) (visit_term w t)) by (apply ev_frames; apply (term_ev (fun l => v (l - 2))); intros q; apply (ev_sub _ (fun l => v l q)), V).
    destruct t as [r|x]; [|exact D].
    match goal with |- ev (fun l => bindM (@?m l) (@?f l)) _ => apply (ev_bind m _ f) end; [apply ev_refl|]. intros o. destruct o; try exact D. match goal with |- context [match ?x with [] => _ | _ :: _ => _ end] => destruct x as [|q [|? ?]] end; try exact D.
    match goal with |- ev (fun l => bindM (@?m l) (@?f l)) _ => apply (ev_bind m _ f) end; [apply ev_refl|]. intros o. destruct (production_terms o) as [|t' [|? ?]]; try exact D. apply ev_frames. apply (ev_sub _ (fun l => flatten_term_within fuel v l t')), IH.
  Qed.
  Lemma flatten_mev fuel : mev (flatten_within comp fuel) (flatten_method fuel).
  Proof.
    intros v w p o V. destruct o; try (apply (framed_mev _ _ _ base_ev); assumption). unfold flatten_within, flatten_method.
    assert (D : ev (fun room => frames (2 + comp) room (bindM (mapMM (flatten_term_within fuel v (room - (2 + comp))) terms) (fun ts' => alloc (OProd ts' main))))
                   (bindM (mapMM (flatten_term fuel w) terms) (fun ts' => alloc (OProd ts' main)))).
    { apply ev_frames. apply (ev_bind (fun room => mapMM (flatten_term_within fuel v (room - (2 + comp))) terms) _ (fun _ ts' => alloc (OProd ts' main))); [|intros; apply ev_refl].
      apply (ev_map (fun room => flatten_term_within fuel v (room - (2 + comp)))). intros t. apply (ev_sub _ (fun l => flatten_term_within fuel v l t)), flatten_term_ev, V. }
    destruct terms as [|[r|x] [|? ?]]; try exact D.
    match goal with |- ev (fun l => bindM (@?m l) (@?f l)) _ => apply (ev_bind m _ f) end; [apply ev_refl|]. intros o. destruct o; try exact D. match goal with |- context [match ?x with [] => _ | _ :: _ => _ end] => destruct x as [|q [|? ?]] end; try exact D. apply ev_frames. apply (ev_sub _ (fun l => v l q)), V.
  Qed.
  Lemma visit_ev m m' fuel : mev m m' -> forall p, ev (fun l => visit_within m fuel l p) (visit m' fuel p).
  Proof.
    intros H. induction fuel as [|fuel IH]; intros p; [exact (ev_refl no_fuel)|]. cbn [visit_within visit]. apply ev_frames.
    match goal with |- ev (fun l => bindM (@?m l) (@?f l)) _ => apply (ev_bind m _ f) end; [apply ev_refl|]. intros [r|]; [apply ev_refl|].
    match goal with |- ev (fun l => bindM (@?m l) (@?f l)) _ => apply (ev_bind m _ f) end; [apply ev_refl|]. intros o.
    match goal with |- ev (fun l => bindM (@?m l) (@?f l)) _ => apply (ev_bind m _ f) end; [|intros; apply ev_refl].
    apply (ev_sub 1 (fun l => m (visit_within m fuel) l p o)). apply H, IH.
  Qed.
  Lemma walk_ev (act : nat -> nat -> M unit) act' : (forall p, ev (fun l => act l p) (act' p)) -> forall fuel queue vis, ev (fun l => walk_loop fuel (act l) queue vis) (walk_loop fuel act' queue vis).
  Proof.
    intros H. induction fuel as [|fuel IH]; intros queue vis; [destruct queue; [exact (ev_refl (ret tt))|exact (ev_refl no_fuel)]|]. cbn [walk_loop]. destruct queue as [|x queue]; [apply ev_refl|].
    match goal with |- ev (fun l => bindM (@?m l) (@?f l)) _ => apply (ev_bind m _ f) end; [apply H|]. intros _.
    match goal with |- ev (fun l => bindM (@?m l) (@?f l)) _ => apply (ev_bind m _ f) end; [apply ev_refl|]. intros o. destruct (enqueue _ _ _). apply IH.
  Qed.
  (** The same for computations without a state. *)
  Definition evr {A} (m : nat -> A) (m' : A) : Prop := exists L, forall l, L <= l -> m l = m'.
  Lemma run_ev m m' fuel (h : heap) root : mev m m' -> evr (fun limit => run_visit_within m fuel limit h root) (run_visit m' fuel h root).
  Proof.
    intros H. unfold run_visit_within, run_visit, transform_walk. pose proof (visit_ev m m' fuel H) as V.
    assert (Q : ev (fun limit => bindM (walk fuel (define_visited_within m fuel limit) root) (fun _ => visit_within m fuel limit root)) (bindM (walk fuel (define_visited m' fuel) root) (fun _ => visit m' fuel root))).
    { apply (ev_bind (fun limit => walk fuel (define_visited_within m fuel limit) root) _ (fun limit _ => visit_within m fuel limit root)); [|intros; apply V]. apply (walk_ev (fun limit => define_visited_within m fuel limit)). intros p.
      match goal with |- ev (fun l => define_visited_within m fuel l p) _ => unfold define_visited_within, define_visited end.
      match goal with |- ev (fun l => bindM (@?m l) (@?f l)) _ => apply (ev_bind m _ f) end; [apply ev_refl|]. intros o. destruct o; try apply ev_refl. match goal with |- context [match ?x with Some _ => _ | None => _ end] => destruct x as [r|]; [|apply ev_refl] end.
      match goal with |- ev (fun l => bindM (@?m l) (@?f l)) _ => apply (ev_bind m _ f) end; [apply V|intros; apply ev_refl]. }
    destruct (Q (mkState h [])) as [L E]. exists L. intros l Hl. rewrite (E l Hl). reflexivity.
  Qed.
  Lemma evr_then {A B} (a : nat -> option (res A)) a' (f : nat -> A -> option (res B)) f' : evr a a' -> (forall z, evr (fun l => f l z) (f' z)) -> evr (fun l => then_ (a l) (f l)) (then_ a' f').
  Proof.
    intros [L1 E1] F. destruct a' as [[z|e]|].
    - destruct (F z) as [L2 E2]. exists (L1 + L2). intros l Hl. rewrite E1 by lia. apply E2. lia.
    - exists L1. intros l Hl. rewrite E1 by lia. reflexivity.
    - exists L1. intros l Hl. rewrite E1 by lia. reflexivity.
  Qed.
  Lemma evr_refl {A} (a : A) : evr (fun _ => a) a. Proof. exists 0. reflexivity. Qed.
  Lemma normalized_ev fuel (h : heap) root : evr (fun limit => normalized_within comp fuel limit h root) (normalized fuel h root).
  Proof.
    unfold normalized_within, normalized.
    match goal with |- evr (fun l => then_ (@?m l) (@?f l)) _ => apply (evr_then m _ f) end; [apply run_ev, squash_mev|]. intros [r1 h1].
    match goal with |- evr (fun l => then_ (@?m l) (@?f l)) _ => apply (evr_then m _ f) end; [apply run_ev, framed_mev, extended_ev|]. intros [r2 h2].
    match goal with |- evr (fun l => then_ (@?m l) (@?f l)) _ => apply (evr_then m _ f) end; [apply run_ev, framed_mev, or_ev|]. intros [r3 h3].
    match goal with |- evr (fun l => then_ (@?m l) (@?f l)) _ => apply (evr_then m _ f) end; [apply run_ev, framed_mev, empty_ev|]. intros [r4 h4].
    apply run_ev, flatten_mev.
  Qed.
  Lemma parser_ev pb lines ap aq fuel (h : heap) root : evr (fun limit => parser_rule_within comp pb lines ap aq fuel limit h root) (parser_rule pb lines ap aq fuel h root).
  Proof.
    unfold parser_rule_within, parser_rule.
    match goal with |- evr (fun l => then_ (@?m l) (@?f l)) _ => apply (evr_then m _ f) end; [apply evr_refl|]. intros [r1 h1].
    match goal with |- evr (fun l => then_ (@?m l) (@?f l)) _ => apply (evr_then m _ f) end; [apply normalized_ev|]. intros [r2 h2].
    unfold as_bnf_within, as_bnf.
    match goal with |- evr (fun l => then_ (@?m l) (@?f l)) _ => apply (evr_then m _ f) end; [|intros [r3 h3]; apply evr_refl].
    unfold to_bnf_within, to_bnf. destruct (bfs fuel h2 r2); [|apply evr_refl]. apply run_ev, framed_mev. intros v w V p o. apply bnf_ev, V.
  Qed.
End Within.

Lemma grammar_le comp U set_order c (h : rule_heap) root fuel fuel' limit limit' x : fuel <= fuel' -> limit <= limit' ->
  parser_grammar_within comp U set_order c fuel limit h root = Some x -> parser_grammar_within comp U set_order c fuel' limit' h root = Some x.
Proof.
  intros F L. unfold parser_grammar_within. apply then_le; [intros y; apply parser_le; assumption|]. intros [r h'] y. unfold bfs. destruct (bfs_loop fuel h' [r] [r]) as [l|] eqn:E; [|discriminate]. rewrite (bfs_loop_le h' fuel fuel' _ _ l F E). tauto.
Qed.
Lemma grammar_ev comp U set_order c fuel (h : rule_heap) root : exists L, forall limit, L <= limit -> parser_grammar_within comp U set_order c fuel limit h root = parser_grammar U set_order c fuel h root.
Proof.
  unfold parser_grammar_within, parser_grammar, build_rule. match goal with |- exists L, forall l, _ -> then_ (@?m l) (@?f l) = _ => apply (evr_then m _ f) end; [apply parser_ev|]. intros [r h']. apply evr_refl.
Qed.
(** A limit does not change what is built. *)
Lemma grammar_same comp U set_order c fuel (h : rule_heap) root limit x : parser_grammar_within comp U set_order c fuel limit h root = Some x -> parser_grammar U set_order c fuel h root = Some x.
Proof. intros E. destruct (grammar_ev comp U set_order c fuel h root) as [L EL]. rewrite <- (EL (Nat.max L limit)) by lia. apply (grammar_le _ _ _ _ _ _ fuel fuel limit); [lia|lia|exact E]. Qed.
