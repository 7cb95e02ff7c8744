(** Two runs of the passes on the same rule at other addresses, with other objects around it. *)
From Verif Require Import Base EarleyModel SpanProofs RuleModel RuleSpec RuleCopySpec RuleKeep.
Open Scope nat_scope.

(** ** Objects with their pointers renamed *)
Section Rename.
  Context {pred pipe bnf : Type}.
  Notation obj := (obj pred pipe bnf).
  Notation heap := (heap pred pipe bnf).
  Notation M := (M pred pipe bnf).
  Notation state := (state pred pipe bnf).
  Notation visitor := (visitor pred pipe bnf).
  Variable f : nat -> nat.
  Notation ren_term := (moved_term (pred := pred) f).
  Notation ren_obj := (moved_obj (pred := pred) (pipe := pipe) (bnf := bnf) f).
  Lemma ren_children o : children (ren_obj o) = map f (children o).
  Proof.
    destruct o as [| | | | | | | | | | |[r|]| | | | |ts m| |]; cbn; try reflexivity. unfold rule_terms. induction ts as [|[r|p] ts IH]; cbn; [reflexivity|f_equal; exact IH|exact IH].
  Qed.

  Variable pipe_bnf : pipe -> res bnf.
  Variable bnf_lines : bnf -> list (str * list pred).
  Variable activate_pred : pred -> res pred.
  Variable activate_pipe : pipe -> res pipe.
  (** The objects of the first heap that are looked at; new objects are numbered alike. *)
  Variable D : nat -> Prop.
  Variables n0 n1 : nat.
  Hypothesis later : forall p, n0 <= p -> D p.
  Hypothesis shift : forall p, n0 <= p -> f p = n1 + (p - n0).
  Hypothesis inj : forall p q, D p -> D q -> f p = f q -> p = q.

  Definition inside (o : obj) : Prop := forall c, In c (children o) -> D c.
  Definition rel_heap (h h' : heap) : Prop := n0 <= length h /\ length h' = n1 + (length h - n0) /\
    forall p, D p -> nth_error h' (f p) = option_map ren_obj (nth_error h p) /\ forall o, nth_error h p = Some o -> inside o.
  Definition rel_state (s s' : state) : Prop := rel_heap (st_heap s) (st_heap s') /\
    st_visited s' = map (fun e => (f (fst e), f (snd e))) (st_visited s) /\ forall p r, In (p, r) (st_visited s) -> D p /\ D r.
  Definition sim {A B} (Q : A -> B -> Prop) (m : M A) (m' : M B) : Prop := forall s s', rel_state s s' ->
    match m s, m' s' with
    | Some (Ok (a, t)), Some (Ok (a', t')) => rel_state t t' /\ Q a a'
    | Some (Err e), Some (Err e') => e = e'
    | None, None => True
    | _, _ => False
    end.
  Definition ptr (p p' : nat) : Prop := p' = f p /\ D p.
  Definition ptrs (l l' : list nat) : Prop := l' = map f l /\ Forall D l.
  Definition object (o o' : obj) : Prop := o' = ren_obj o /\ inside o.
  Definition term_in (t : term pred) : Prop := match t with TRule r => D r | TPred _ => True end.
  Definition termr (t t' : term pred) : Prop := t' = ren_term t /\ term_in t.
  Definition termsr (l l' : list (term pred)) : Prop := l' = map ren_term l /\ Forall term_in l.
  Definition any {A B} (a : A) (b : B) : Prop := True.

  Lemma sim_ret {A B} (Q : A -> B -> Prop) a b : Q a b -> sim Q (ret a) (ret b).
  Proof. intros H s s' R. split; assumption. Qed.
  Lemma sim_raise {A B} (Q : A -> B -> Prop) e : sim Q (raise e) (raise e).
  Proof. intros s s' R. reflexivity. Qed.
  Lemma sim_no_fuel {A B} (Q : A -> B -> Prop) : sim Q no_fuel no_fuel.
  Proof. intros s s' R. exact I. Qed.
  Lemma sim_bind {A B A' B'} (Q : A -> A' -> Prop) (P : B -> B' -> Prop) (m : M A) (m' : M A') (k : A -> M B) (k' : A' -> M B') :
    sim Q m m' -> (forall a a', Q a a' -> sim P (k a) (k' a')) -> sim P (bindM m k) (bindM m' k').
  Proof.
    intros S K s s' R. unfold bindM. specialize (S s s' R). destruct (m s) as [[[a t]|e]|], (m' s') as [[[a' t']|e']|]; try contradiction; auto. destruct S as [Rt Qa]. apply (K a a' Qa t t' Rt).
  Qed.
  Lemma sim_get p : D p -> sim object (get p) (get (f p)).
  Proof.
    intros Dp s s' R. unfold get. destruct (proj2 (proj2 (proj1 R)) p Dp) as [E K]. rewrite E. destruct (nth_error (st_heap s) p) as [o|] eqn:Eo; cbn; [|reflexivity]. split; [exact R|]. split; [reflexivity|]. apply K; reflexivity.
  Qed.
  Lemma rel_alloc h h' o : inside o -> rel_heap h h' -> rel_heap (h ++ [o]) (h' ++ [ren_obj o]).
  Proof.
    intros Go (L & L' & K). split; [rewrite app_length; lia|]. split; [rewrite !app_length; cbn; lia|]. intros p Dp. specialize (K p Dp) as [E Gp].
    destruct (lt_eq_lt_dec p (length h)) as [[Lt| ->]|Gt].
    - rewrite (nth_error_app1 h) by exact Lt. assert (f p < length h'). { apply nth_error_Some. rewrite E. destruct (nth_error h p) eqn:En; [discriminate|]. apply nth_error_None in En. lia. }
      rewrite (nth_error_app1 h') by assumption. split; assumption.
    - rewrite (nth_error_app2 h) by lia. rewrite Nat.sub_diag. rewrite (shift (length h)) by lia. rewrite (nth_error_app2 h') by lia. replace (n1 + (length h - n0) - length h') with 0 by lia. cbn. split; [reflexivity|]. intros x Ex. injection Ex as <-. exact Go.
    - rewrite (shift p) by lia. rewrite (proj2 (nth_error_None (h ++ [o]) p)) by (rewrite app_length; cbn; lia). rewrite (proj2 (nth_error_None (h' ++ [ren_obj o]) _)) by (rewrite app_length; cbn; lia). split; [reflexivity|discriminate].
  Qed.
  Lemma sim_alloc o o' : object o o' -> sim ptr (alloc o) (alloc o').
  Proof.
    intros [-> Go] s s' (R & V & VD). unfold alloc. split; [split; [apply rel_alloc; assumption|split; assumption]|]. destruct R as (L & L' & _). split; [|apply later, L]. rewrite shift by exact L. exact L'.
  Qed.
  Lemma rel_put h h' p o : D p -> inside o -> rel_heap h h' -> rel_heap (setitem h p o) (setitem h' (f p) (ren_obj o)).
  Proof.
    intros Dp Go (L & L' & K). split; [rewrite setitem_length; exact L|]. split; [rewrite !setitem_length; exact L'|]. intros q Dq. rewrite !nth_setitem. destruct (Nat.eqb_spec q p) as [->|N].
    - rewrite Nat.eqb_refl. destruct (K p Dp) as [-> _]. destruct (nth_error h p) as [x|]; cbn; (split; [reflexivity|]); intros y Ey; [|discriminate]. injection Ey as <-. exact Go.
    - destruct (Nat.eqb_spec (f q) (f p)) as [E|_]; [destruct (N (inj q p Dq Dp E))|]. apply (K q Dq).
  Qed.
  Lemma sim_put p o o' : D p -> object o o' -> sim any (put p o) (put (f p) o').
  Proof. intros Dp [-> Go] s s' (R & V & VD). split; [|exact I]. split; [apply rel_put; assumption|split; assumption]. Qed.
  Lemma sim_remember p r r' : D p -> ptr r r' -> sim any (remember p r) (remember (f p) r').
  Proof. intros Dp [-> Dr] s s' (R & V & VD). split; [|exact I]. split; [exact R|]. cbn. split; [rewrite V; reflexivity|]. intros q x [H|H]; [injection H as <- <-; auto|apply (VD q x H)]. Qed.
  Lemma sim_recall p : D p -> sim (fun k k' => k' = option_map f k /\ forall r, k = Some r -> D r) (recall p) (recall (f p)).
  Proof.
    intros Dp s s' R. unfold recall. split; [exact R|]. destruct R as (_ & V & VD). rewrite V. clear V. revert VD. generalize (st_visited s) as l. induction l as [|[k v] l IH]; intros VD; cbn; [split; [reflexivity|discriminate]|].
    destruct (VD k v (or_introl eq_refl)) as [Dk Dv]. destruct (Nat.eqb_spec p k) as [->|N].
    - rewrite Nat.eqb_refl. split; [reflexivity|]. intros r E. injection E as <-. exact Dv.
    - destruct (Nat.eqb_spec (f p) (f k)) as [E|_]; [destruct (N (inj p k Dp Dk E))|]. apply IH. intros q x H. apply VD. right. exact H.
  Qed.
  Lemma sim_map {A B A' B'} (Q : B -> B' -> Prop) (g : A -> A') (k : A -> M B) (k' : A' -> M B') l : (forall x, In x l -> sim Q (k x) (k' (g x))) -> sim (Forall2 Q) (mapMM k l) (mapMM k' (map g l)).
  Proof.
    induction l as [|x l IH]; intros K; cbn [mapMM map]; [apply sim_ret; constructor|]. eapply sim_bind; [apply K; left; reflexivity|]. intros y y' Qy.
    eapply sim_bind; [apply IH; intros z Hz; apply K; right; exact Hz|]. intros ys ys' F. apply sim_ret. constructor; assumption.
  Qed.
  Lemma sim_weaken {A B} (Q P : A -> B -> Prop) m m' : sim Q m m' -> (forall a b, Q a b -> P a b) -> sim P m m'.
  Proof. intros S W s s' R. specialize (S s s' R). destruct (m s) as [[[a t]|e]|], (m' s') as [[[a' t']|e']|]; auto. destruct S. auto. Qed.
  Lemma forall2_ptrs l l' : Forall2 ptr l l' -> ptrs l l'.
  Proof. induction 1 as [|x y l l' [-> Dx] _ [-> F]]; split; cbn; auto. Qed.
  Lemma forall2_terms l l' : Forall2 termr l l' -> termsr l l'.
  Proof. induction 1 as [|x y l l' [-> Dx] _ [-> F]]; split; cbn; auto. Qed.
  Lemma is_forward_ren o : is_forward (ren_obj o) = is_forward o.
  Proof. destruct o; reflexivity. Qed.
  Lemma sim_define p r r' : D p -> ptr r r' -> sim any (define p r) (define (f p) r').
  Proof.
    intros Dp [-> Dr]. eapply sim_bind; [apply sim_get, Dr|]. intros o o' [-> _]. rewrite is_forward_ren. destruct (is_forward o); [apply sim_raise|]. apply sim_put; [exact Dp|]. split; [reflexivity|]. intros c [<-|[]]. exact Dr.
  Qed.

  (** ** Visits *)
  Definition visitors (V V' : visitor) : Prop := forall p, D p -> sim ptr (V p) (V' (f p)).
  Definition method_sim (m m' : visitor -> nat -> obj -> M nat) : Prop := forall V V', visitors V V' -> forall p o, D p -> inside o -> sim ptr (m V p o) (m' V' (f p) (ren_obj o)).
  Lemma visit_sim m m' : method_sim m m' -> forall fuel, visitors (visit m fuel) (visit m' fuel).
  Proof.
    intros Sm fuel. induction fuel as [|fuel IH]; intros p Dp; cbn [visit]; [apply sim_no_fuel|].
    eapply sim_bind; [apply sim_recall, Dp|]. intros k k' [-> Dk]. destruct k as [r|]; cbn [option_map]; [apply sim_ret; split; auto|].
    eapply sim_bind; [apply sim_get, Dp|]. intros o o' [-> Go]. eapply sim_bind; [apply Sm; assumption|]. intros r r' Pr. eapply sim_bind; [apply sim_remember; eassumption|]. intros _ _ _. apply sim_ret, Pr.
  Qed.
  Lemma is_in_map p l : D p -> Forall D l -> is_in (f p) (map f l) = is_in p l.
  Proof.
    intros Dp F. unfold is_in. induction F as [|x l Dx F IH]; cbn; [reflexivity|]. rewrite IH. f_equal. destruct (Nat.eqb_spec p x) as [->|N]; [apply Nat.eqb_refl|]. apply Nat.eqb_neq. intros E. apply N, (inj p x Dp Dx E).
  Qed.
  Lemma enqueue_map cs : Forall D cs -> forall queue visited, Forall D queue -> Forall D visited ->
    let (q, v) := enqueue cs queue visited in enqueue (map f cs) (map f queue) (map f visited) = (map f q, map f v) /\ Forall D q /\ Forall D v.
  Proof.
    induction 1 as [|x cs Dx F IH]; intros queue visited Fq Fv; cbn; [auto|]. rewrite is_in_map by assumption. destruct (is_in x visited); [apply IH; assumption|].
    specialize (IH (queue ++ [x]) (x :: visited)). rewrite map_app in IH. apply IH; [apply Forall_app; auto|constructor; assumption].
  Qed.
  Lemma walk_sim act act' : (forall p, D p -> sim any (act p) (act' (f p))) -> forall fuel queue visited, Forall D queue -> Forall D visited ->
    sim any (walk_loop fuel act queue visited) (walk_loop fuel act' (map f queue) (map f visited)).
  Proof.
    intros Sa fuel. induction fuel as [|fuel IH]; intros queue visited Fq Fv; destruct queue as [|x queue]; cbn [walk_loop map]; try (apply sim_ret; exact I); [apply sim_no_fuel|].
    inversion Fq; subst. eapply sim_bind; [apply Sa; assumption|]. intros _ _ _. eapply sim_bind; [apply sim_get; assumption|]. intros o o' [-> Go].
    assert (E := enqueue_map (children o) (proj2 (Forall_forall _ _) Go) queue visited). rewrite ren_children. destruct (enqueue (children o) queue visited) as [q v]. destruct E as (-> & Fq' & Fv'); [assumption|assumption|]. apply IH; assumption.
  Qed.
  Definition same_run (x x' : option (res (nat * heap))) : Prop :=
    match x, x' with
    | Some (Ok (r, h)), Some (Ok (r', h')) => r' = f r /\ D r /\ rel_heap h h'
    | Some (Err e), Some (Err e') => e = e'
    | None, None => True
    | _, _ => False
    end.
  Lemma run_visit_sim m m' fuel h h' root : method_sim m m' -> D root -> rel_heap h h' -> same_run (run_visit m fuel h root) (run_visit m' fuel h' (f root)).
  Proof.
    intros Sm Dr R. assert (Vs := visit_sim m m' Sm fuel).
    assert (S : sim ptr (transform_walk m fuel root) (transform_walk m' fuel (f root))).
    { unfold transform_walk, walk. eapply sim_bind with (Q := any).
      - apply (walk_sim (define_visited m fuel) (define_visited m' fuel)) with (queue := [root]) (visited := [root]); [|repeat constructor; exact Dr|repeat constructor; exact Dr].
        intros p Dp. unfold define_visited. eapply sim_bind; [apply sim_get, Dp|]. intros o o' [-> Go]. destruct o as [| | | | | | | | | | |[d|]| | | | | | |]; try (apply sim_ret; exact I). cbn [moved_obj option_map].
        eapply sim_bind; [apply Vs, Go; left; reflexivity|]. intros d1 d' Pd. apply sim_define; assumption.
      - intros _ _ _. apply Vs, Dr. }
    unfold run_visit, same_run. specialize (S (mkState h []) (mkState h' [])). assert (rel_state (mkState h []) (mkState h' [])) as R0 by (split; [exact R|split; [reflexivity|intros p q []]]). specialize (S R0).
    destruct (transform_walk m fuel root (mkState h [])) as [[[a t]|e]|], (transform_walk m' fuel (f root) (mkState h' [])) as [[[a' t']|e']|]; try contradiction; auto. destruct S as [Rt [-> Da]]. split; [reflexivity|]. split; [exact Da|apply Rt].
  Qed.
  Lemma run_inplace_sim act act' fuel h h' root : (forall p, D p -> sim ptr (act p) (act' (f p))) -> D root -> rel_heap h h' -> same_run (run_inplace act fuel h root) (run_inplace act' fuel h' (f root)).
  Proof.
    intros Sa Dr R.
    assert (S : sim ptr (transform_inplace act fuel root) (transform_inplace act' fuel (f root))).
    { unfold transform_inplace, walk. eapply sim_bind with (Q := any); [|intros _ _ _; apply Sa, Dr].
      refine (walk_sim (fun p => bindM (act p) (fun _ => ret tt)) (fun p => bindM (act' p) (fun _ => ret tt)) _ fuel [root] [root] _ _); [|repeat constructor; exact Dr|repeat constructor; exact Dr].
      intros p Dp. eapply sim_bind; [apply Sa, Dp|]. intros _ _ _. apply sim_ret. exact I. }
    unfold run_inplace, same_run. specialize (S (mkState h []) (mkState h' [])). assert (rel_state (mkState h []) (mkState h' [])) as R0 by (split; [exact R|split; [reflexivity|intros p q []]]). specialize (S R0).
    destruct (transform_inplace act fuel root (mkState h [])) as [[[a t]|e]|], (transform_inplace act' fuel (f root) (mkState h' [])) as [[[a' t']|e']|]; try contradiction; auto. destruct S as [Rt [-> Da]]. split; [reflexivity|]. split; [exact Da|apply Rt].
  Qed.
  Lemma same_then x x' k k' : same_run x x' -> (forall r h h', D r -> rel_heap h h' -> same_run (k (r, h)) (k' (f r, h'))) -> same_run (then_ x k) (then_ x' k').
  Proof.
    intros S K. unfold same_run, then_ in *. destruct x as [[[r h]|e]|], x' as [[[r' h']|e']|]; try contradiction; auto. destruct S as (-> & Dr & R). apply K; assumption.
  Qed.

  (** ** Methods *)
  Lemma inside_list (F : list nat -> obj) l l' : children (F l) = l -> ren_obj (F l) = F (map f l) -> ptrs l l' -> object (F l) (F l').
  Proof. intros C E [-> Fl]. split; [symmetry; exact E|]. unfold inside. rewrite C. apply Forall_forall, Fl. Qed.
  Lemma inside_one (F : nat -> obj) r r' : children (F r) = [r] -> ren_obj (F r) = F (f r) -> ptr r r' -> object (F r) (F r').
  Proof. intros C E [-> Dr]. split; [symmetry; exact E|]. unfold inside. rewrite C. intros c [<-|[]]. exact Dr. Qed.
  Lemma inside_prod ts ts' main : termsr ts ts' -> object (OProd ts main) (OProd ts' main).
  Proof.
    intros [-> F]. split; [reflexivity|]. intros c Hc. cbn in Hc. unfold rule_terms in Hc. apply in_flat_map in Hc as (t & Ht & Hc). rewrite Forall_forall in F. specialize (F t Ht). destruct t; [|destruct Hc]. destruct Hc as [<-|[]]. exact F.
  Qed.
  Lemma prod_terms ts main : inside (OProd ts main) -> forall t, In t ts -> term_in t.
  Proof. intros G t Ht. destruct t as [r|p]; [|exact I]. apply G. cbn. unfold rule_terms. apply in_flat_map. exists (TRule r). split; [exact Ht|left; reflexivity]. Qed.
  Lemma visit_ptrs V V' l : visitors V V' -> (forall x, In x l -> D x) -> sim ptrs (mapMM V l) (mapMM V' (map f l)).
  Proof. intros Vs Dl. eapply sim_weaken; [apply sim_map; intros x Hx; apply Vs, Dl, Hx|apply forall2_ptrs]. Qed.
  Lemma visit_term_sim V V' t : visitors V V' -> term_in t -> sim termr (visit_term V t) (visit_term V' (ren_term t)).
  Proof. intros Vs Ht. destruct t as [r|p]; cbn; [|apply sim_ret; split; [reflexivity|exact I]]. eapply sim_bind; [apply Vs, Ht|]. intros a a' [-> Da]. apply sim_ret. split; [reflexivity|exact Da]. Qed.
  Lemma alloc_list (F : list nat -> obj) l l' : (forall l, children (F l) = l) -> (forall l, ren_obj (F l) = F (map f l)) -> ptrs l l' -> sim ptr (alloc (F l)) (alloc (F l')).
  Proof. intros C E P. apply sim_alloc. apply inside_list; auto. Qed.
  Lemma alloc_one (F : nat -> obj) r r' : (forall r, children (F r) = [r]) -> (forall r, ren_obj (F r) = F (f r)) -> ptr r r' -> sim ptr (alloc (F r)) (alloc (F r')).
  Proof. intros C E P. apply sim_alloc. apply inside_one; auto. Qed.
  Lemma visit_one V V' (F : nat -> obj) r : visitors V V' -> (forall r, children (F r) = [r]) -> (forall r, ren_obj (F r) = F (f r)) -> D r ->
    sim ptr (bindM (V r) (fun r' => alloc (F r'))) (bindM (V' (f r)) (fun r' => alloc (F r'))).
  Proof. intros Vs C E Dr. eapply sim_bind; [apply Vs, Dr|]. intros a a' P. apply alloc_one; assumption. Qed.
  Lemma visit_list V V' (F : list nat -> obj) l : visitors V V' -> (forall l, children (F l) = l) -> (forall l, ren_obj (F l) = F (map f l)) -> (forall x, In x l -> D x) ->
    sim ptr (bindM (mapMM V l) (fun l' => alloc (F l'))) (bindM (mapMM V' (map f l)) (fun l' => alloc (F l'))).
  Proof. intros Vs C E Dl. eapply sim_bind; [apply visit_ptrs; assumption|]. intros a a' P. apply alloc_list; assumption. Qed.
  Ltac one := first [ apply sim_raise | apply sim_no_fuel | apply sim_ret; split; [reflexivity|assumption] ].
  Lemma base_sim : method_sim base_method base_method.
  Proof.
    intros V V' Vs p o Dp Go. destruct o; cbn [base_method ren_obj]; unfold visit_Rule, visit_Production; try one;
      try (match goal with
      | |- sim ptr (bindM (V ?r) (fun r' => alloc (@?F r'))) _ => apply (visit_one V V' F); [exact Vs|reflexivity|reflexivity|apply Go; left; reflexivity]
      | |- sim ptr (bindM (mapMM V ?l) (fun l' => alloc (@?F l'))) _ => apply (visit_list V V' F); [exact Vs|reflexivity|reflexivity|exact Go]
      end).
    eapply sim_bind; [apply sim_map with (Q := termr); intros t Ht; apply visit_term_sim; [exact Vs|apply (prod_terms _ _ Go t Ht)]|]. intros ts ts' F. apply sim_alloc, inside_prod, forall2_terms, F.
  Qed.
  Lemma new_sim V V' (F : nat -> obj) r : visitors V V' -> (forall r, children (F r) = [r]) -> (forall r, ren_obj (F r) = F (f r)) -> D r -> sim ptr (visit_new V (F r)) (visit_new V' (F (f r))).
  Proof. intros Vs C E Dr. unfold visit_new. eapply sim_bind; [apply (alloc_one F); [exact C|exact E|split; [reflexivity|exact Dr]]|]. intros a a' [-> Da]. apply Vs, Da. Qed.
  Ltac shape := match goal with
    | |- sim ptr (bindM (?V ?r) (fun r' => alloc (@?F r'))) (bindM (?V' _) _) => apply (visit_one V V' F)
    | |- sim ptr (visit_new ?V (OOptional ?r ?b)) (visit_new ?V' _) => apply (new_sim V V' (fun r => OOptional r b))
    | |- sim ptr (visit_new ?V (ORepeatable ?r ?b)) (visit_new ?V' _) => apply (new_sim V V' (fun r => ORepeatable r b))
    | |- sim ptr (visit_new ?V (ORepOpt ?r ?b ?c)) (visit_new ?V' _) => apply (new_sim V V' (fun r => ORepOpt r b c))
    | |- sim ptr (bindM (alloc (OMin ?r ?m ?b)) _) _ => eapply sim_bind; [apply (alloc_one (fun r => OMin r m b))|intros ? ? [-> ?]; shape]
    | |- sim ptr (bindM (alloc (OMax ?r ?m ?b)) _) _ => eapply sim_bind; [apply (alloc_one (fun r => OMax r m b))|intros ? ? [-> ?]; shape]
    | |- sim ptr (bindM (alloc (OMinMax ?r ?m ?n ?b)) _) _ => eapply sim_bind; [apply (alloc_one (fun r => OMinMax r m n b))|intros ? ? [-> ?]; shape]
    | _ => idtac end.
  Lemma squash_sim : method_sim squash_method squash_method.
  Proof.
    intros V V' Vs p o Dp Go. destruct o; cbn [squash_method ren_obj]; try (apply (base_sim V V' Vs p _ Dp Go));
      (assert (Dr : D rule) by (apply Go; left; reflexivity); eapply sim_bind; [apply sim_get, Dr|]; intros oc oc' [-> Gc]; destruct oc;
       cbn [moved_obj squash_bounded]; try apply sim_raise; shape;
       try exact Vs; try (intros; reflexivity); try assumption; try (apply Gc; left; reflexivity); try (split; [reflexivity|apply Gc; left; reflexivity])).
  Qed.
  Lemma new_rule_sim ts : Forall D ts -> sim ptr (new_rule ts) (new_rule (map f ts)).
  Proof.
    intros F. unfold new_rule. eapply sim_bind; [apply sim_alloc, inside_prod with (ts := map TRule ts)|].
    - split; [rewrite !map_map; reflexivity|apply Forall_map; exact F].
    - intros q q' P. apply (alloc_one (fun q => ORule [q])); [reflexivity|reflexivity|exact P].
  Qed.
  Lemma or_sim reverse a b : D a -> D b -> sim ptr (alloc (OOr (ordered reverse a b))) (alloc (OOr (ordered reverse (f a) (f b)))).
  Proof. intros Da Db. apply (alloc_list (fun l => OOr l)); [reflexivity|reflexivity|]. split; [destruct reverse; reflexivity|]. destruct reverse; repeat constructor; assumption. Qed.
  Lemma max_bound_sim item reverse : D item -> forall count, sim ptr (max_bound item count reverse) (max_bound (f item) count reverse).
  Proof.
    intros Di count. induction count as [|count IH]; cbn [max_bound]; [apply sim_no_fuel|]. destruct count; [apply sim_ret; split; [reflexivity|exact Di]|].
    eapply sim_bind; [exact IH|]. intros r r' [-> Dr]. eapply sim_bind; [apply (new_rule_sim [item; r]); repeat constructor; assumption|]. intros a a' [-> Da]. apply or_sim; assumption.
  Qed.
  Lemma closed_sim (o : obj) : children o = [] -> ren_obj o = o -> sim ptr (alloc o) (alloc o).
  Proof. intros C E. apply sim_alloc. split; [symmetry; exact E|]. unfold inside. rewrite C. intros c []. Qed.
  Lemma repeatable_sim item reverse : D item -> sim ptr (repeatable_rule item reverse) (repeatable_rule (f item) reverse).
  Proof.
    intros Di. unfold repeatable_rule. eapply sim_bind; [apply closed_sim; reflexivity|]. intros t t' [-> Dt]. eapply sim_bind; [apply (new_rule_sim [item; t]); repeat constructor; assumption|]. intros a a' [-> Da].
    eapply sim_bind; [apply or_sim; assumption|]. intros x x' Px. eapply sim_bind; [apply sim_define; eassumption|]. intros _ _ _. apply sim_ret. split; [reflexivity|exact Dt].
  Qed.
  Lemma repeats_sim child last k : D child -> D last -> sim ptr (new_rule (repeat child k ++ [last])) (new_rule (repeat (f child) k ++ [f last])).
  Proof.
    intros Dc Dl. replace (repeat (f child) k ++ [f last]) with (map f (repeat child k ++ [last])) by (rewrite map_app; cbn; f_equal; induction k; cbn; congruence).
    apply new_rule_sim. apply Forall_app. split; [|repeat constructor; exact Dl]. apply Forall_forall. intros x Hx. apply repeat_spec in Hx as ->. exact Dc.
  Qed.
  Lemma replace_extended_sim : method_sim replace_extended_method replace_extended_method.
  Proof.
    intros V V' Vs p o Dp Go. destruct o; cbn [replace_extended_method ren_obj]; try (apply (base_sim V V' Vs p _ Dp Go));
      (eapply sim_bind; [apply Vs, Go; left; reflexivity|]; intros child child' [-> Dc]).
    - unfold optional_rule. eapply sim_bind; [apply closed_sim; reflexivity|]. intros a a' [-> Da]. apply or_sim; assumption.
    - apply repeatable_sim, Dc.
    - unfold repeatable_optional_rule. eapply sim_bind; [apply closed_sim; reflexivity|]. intros t t' [-> Dt]. eapply sim_bind; [apply closed_sim; reflexivity|]. intros a a' [-> Da].
      eapply sim_bind; [apply (new_rule_sim [child; t]); repeat constructor; assumption|]. intros b b' [-> Db].
      eapply sim_bind; [apply (alloc_list (fun l => OOr l)); [reflexivity|reflexivity|]|].
      + split; [destruct reverse_repeatable, reverse_optional; reflexivity|]. destruct reverse_repeatable, reverse_optional; cbn; repeat constructor; assumption.
      + intros x x' Px. eapply sim_bind; [apply sim_define; eassumption|]. intros _ _ _. apply sim_ret. split; [reflexivity|exact Dt].
    - eapply sim_bind; [apply repeatable_sim, Dc|]. intros l l' [-> Dl]. apply repeats_sim; assumption.
    - apply max_bound_sim, Dc.
    - eapply sim_bind; [apply max_bound_sim, Dc|]. intros l l' [-> Dl]. apply repeats_sim; assumption.
  Qed.
  Lemma replace_or_sim : method_sim replace_or_method replace_or_method.
  Proof.
    intros V V' Vs p o Dp Go. destruct o; cbn [replace_or_method ren_obj]; try (apply (base_sim V V' Vs p _ Dp Go)).
    eapply sim_bind; [apply sim_map with (Q := ptr); intros r Hr|].
    - eapply sim_bind; [apply Vs, Go, Hr|]. intros a a' [-> Da]. apply sim_alloc, inside_prod. split; [reflexivity|repeat constructor; exact Da].
    - intros ps ps' F. apply (alloc_list (fun l => ORule l)); [reflexivity|reflexivity|apply forall2_ptrs, F].
  Qed.
  Lemma replace_empty_sim : method_sim replace_empty_method replace_empty_method.
  Proof.
    intros V V' Vs p o Dp Go. destruct o; cbn [replace_empty_method ren_obj]; try (apply (base_sim V V' Vs p _ Dp Go)).
    eapply sim_bind; [apply closed_sim; reflexivity|]. intros q q' P. apply (alloc_one (fun q => ORule [q])); [reflexivity|reflexivity|exact P].
  Qed.
  Lemma production_terms_ren o : production_terms (ren_obj o) = map ren_term (production_terms o).
  Proof. destruct o; cbn; try reflexivity. rewrite map_map. reflexivity. Qed.
  Lemma flatten_term_sim V V' : visitors V V' -> forall fuel t, term_in t -> sim termr (flatten_term fuel V t) (flatten_term fuel V' (ren_term t)).
  Proof.
    intros Vs fuel. induction fuel as [|fuel IH]; intros t Ht; cbn [flatten_term]; [apply sim_no_fuel|]. destruct t as [r|p]; cbn [moved_term]; [|apply sim_ret; split; [reflexivity|exact I]].
    eapply sim_bind; [apply sim_get, Ht|]. intros o o' [-> Go]. assert (Df := visit_term_sim V V' (TRule r) Vs Ht). cbn [moved_term] in Df.
    destruct o; cbn [moved_obj]; try exact Df. destruct productions as [|q [|q2 qs]]; cbn [map]; try exact Df.
    eapply sim_bind; [apply sim_get, Go; left; reflexivity|]. intros oq oq' [-> Gq]. rewrite production_terms_ren. destruct (production_terms oq) as [|t1 [|t2 ts]] eqn:E; cbn [map]; try exact Df. apply IH.
    destruct oq; cbn in E; try discriminate; [subst terms; apply (prod_terms _ _ Gq); left; reflexivity|]. destruct terms as [|x l]; [discriminate|]. injection E as <- _. exact I.
  Qed.
  Lemma flatten_sim fuel : method_sim (flatten_method fuel) (flatten_method fuel).
  Proof.
    intros V V' Vs p o Dp Go. destruct o; cbn [flatten_method ren_obj]; try (apply (base_sim V V' Vs p _ Dp Go)).
    assert (K : sim ptr (bindM (mapMM (flatten_term fuel V) terms) (fun ts' => alloc (OProd ts' main))) (bindM (mapMM (flatten_term fuel V') (map ren_term terms)) (fun ts' => alloc (OProd ts' main)))).
    { eapply sim_bind; [apply sim_map with (Q := termr); intros t Ht; apply flatten_term_sim; [exact Vs|apply (prod_terms _ _ Go t Ht)]|]. intros ts ts' F. apply sim_alloc, inside_prod, forall2_terms, F. }
    destruct terms as [|[r|x] [|t2 ts]]; cbn [map ren_term] in *; try exact K.
    eapply sim_bind; [apply sim_get; apply (prod_terms _ _ Go (TRule r)); left; reflexivity|]. intros o' o1 [-> Go']. destruct o'; cbn [moved_obj]; try exact K. destruct productions as [|q [|q2 qs]]; cbn [map]; try exact K. apply Vs, Go'. left. reflexivity.
  Qed.
  Lemma normalized_sim fuel h h' root : D root -> rel_heap h h' -> same_run (normalized fuel h root) (normalized fuel h' (f root)).
  Proof.
    intros Dr R. unfold normalized. apply same_then; [apply run_visit_sim; [exact squash_sim|exact Dr|exact R]|]. intros r1 h1 h1' D1 R1.
    apply same_then; [apply run_visit_sim; [exact replace_extended_sim|exact D1|exact R1]|]. intros r2 h2 h2' D2 R2.
    apply same_then; [apply run_visit_sim; [exact replace_or_sim|exact D2|exact R2]|]. intros r3 h3 h3' D3 R3.
    apply same_then; [apply run_visit_sim; [exact replace_empty_sim|exact D3|exact R3]|]. intros r4 h4 h4' D4 R4.
    apply run_visit_sim; [apply flatten_sim|exact D4|exact R4].
  Qed.

  (** ** BNF *)
  Lemma bfs_loop_sim (h h' : heap) : rel_heap h h' -> forall fuel queue visited, Forall D queue -> Forall D visited ->
    bfs_loop fuel h' (map f queue) (map f visited) = option_map (map f) (bfs_loop fuel h queue visited) /\ forall l, bfs_loop fuel h queue visited = Some l -> Forall D l.
  Proof.
    intros (_ & _ & K) fuel. induction fuel as [|fuel IH]; intros queue visited Fq Fv; destruct queue as [|x queue]; cbn [bfs_loop map]; try (split; [reflexivity|intros l E; injection E as <-; constructor]); try (split; [reflexivity|discriminate]).
    inversion Fq; subst. destruct (K x) as [E Gx]; [assumption|]. rewrite E.
    assert (Ec : match option_map ren_obj (nth_error h x) with Some o => children o | None => [] end = map f (match nth_error h x with Some o => children o | None => [] end)) by (destruct (nth_error h x); cbn; [apply ren_children|reflexivity]).
    rewrite Ec. set (cs := match nth_error h x with Some o => children o | None => [] end) in *. assert (Fc : Forall D cs). { subst cs. destruct (nth_error h x) as [o|]; [|constructor]. apply Forall_forall. exact (Gx o eq_refl). }
    assert (En := enqueue_map cs Fc queue visited). destruct (enqueue cs queue visited) as [q v]. destruct En as (-> & Fq' & Fv'); [assumption|assumption|]. destruct (IH q v Fq' Fv') as [-> Fl].
    destruct (bfs_loop fuel h q v) as [l|]; cbn; (split; [reflexivity|]); [|discriminate]. intros l' El. injection El as <-. constructor; [assumption|apply Fl; reflexivity].
  Qed.
  Lemma bfs_sim fuel h h' root : D root -> rel_heap h h' -> bfs fuel h' (f root) = option_map (map f) (bfs fuel h root) /\ forall l, bfs fuel h root = Some l -> Forall D l.
  Proof. intros Dr R. apply (bfs_loop_sim h h' R fuel [root] [root]); repeat constructor; exact Dr. Qed.
  Lemma count_parents_sim h h' objects : rel_heap h h' -> Forall D objects -> count_parents h' (map f objects) = map f (count_parents h objects) /\ Forall D (count_parents h objects).
  Proof.
    intros (_ & _ & K) F. unfold count_parents. induction F as [|x l Dx F [IH FD]]; cbn; [split; [reflexivity|constructor]|]. destruct (K x Dx) as [E Gx]. rewrite E, IH, map_app. split.
    - f_equal. destruct (nth_error h x); cbn; [apply ren_children|reflexivity].
    - apply Forall_app. split; [|exact FD]. destruct (nth_error h x) as [o|]; [|constructor]. apply Forall_forall. exact (Gx o eq_refl).
  Qed.
  Lemma count_map l p : D p -> Forall D l -> count_occ Nat.eq_dec (map f l) (f p) = count_occ Nat.eq_dec l p.
  Proof.
    intros Dp F. induction F as [|x l Dx F IH]; cbn; [reflexivity|]. destruct (Nat.eq_dec x p) as [->|N].
    - destruct (Nat.eq_dec (f p) (f p)); [f_equal; exact IH|contradiction].
    - destruct (Nat.eq_dec (f x) (f p)) as [E|_]; [destruct (N (inj x p Dx Dp E))|exact IH].
  Qed.
  Section Parents.
    Variable parents : list nat.
    Hypothesis parents_in : Forall D parents.
    Lemma shared_sim r : D r -> sim eq (is_shared parents r) (is_shared (map f parents) (f r)).
    Proof. intros Dr. unfold is_shared. rewrite count_map by assumption. destruct (count_occ Nat.eq_dec parents r); [apply sim_raise|apply sim_ret; reflexivity]. Qed.
    Lemma lift_sim r : D r -> sim ptr (lift r) (lift (f r)).
    Proof.
      intros Dr. unfold lift. eapply sim_bind; [apply sim_alloc, inside_prod with (ts := [TRule r]); split; [reflexivity|repeat constructor; exact Dr]|]. intros q q' P.
      apply (alloc_one (fun q => OBNF [q] no_attributes)); [reflexivity|reflexivity|exact P].
    Qed.
    Lemma wrapper_sim V V' r : visitors V V' -> D r -> sim ptr (visit_WrapperRule parents V r) (visit_WrapperRule (map f parents) V' (f r)).
    Proof.
      intros Vs Dr. unfold visit_WrapperRule. eapply sim_bind; [apply sim_get, Dr|]. intros o o' [-> _]. rewrite is_forward_ren. destruct (is_forward o); [apply lift_sim, Dr|].
      eapply sim_bind; [apply shared_sim, Dr|]. intros b b' <-. eapply sim_bind; [apply Vs, Dr|]. intros a a' [-> Da]. destruct b; [apply lift_sim, Da|apply sim_ret; split; [reflexivity|exact Da]].
    Qed.
    Lemma get_attributes_ren o : get_attributes (ren_obj o) = get_attributes o.
    Proof. destruct o; reflexivity. Qed.
    Lemma update_attributes_ren u o : update_attributes u (ren_obj o) = ren_obj (update_attributes u o).
    Proof. destruct o; reflexivity. Qed.
    Lemma set_attribute_sim present update r : D r -> sim ptr (set_attribute present update r) (set_attribute present update (f r)).
    Proof.
      intros Dr. unfold set_attribute. eapply sim_bind; [apply sim_get, Dr|]. intros o o' [-> _]. rewrite get_attributes_ren. destruct (get_attributes o) as [a|]; [|apply sim_raise].
      eapply sim_bind with (Q := ptr); [destruct (present a); [apply lift_sim, Dr|apply sim_ret; split; [reflexivity|exact Dr]]|]. intros r1 r1' [-> D1]. eapply sim_bind; [apply sim_get, D1|]. intros o1 o1' [-> G1].
      rewrite update_attributes_ren. eapply sim_bind; [apply sim_put; [exact D1|]|intros _ _ _; apply sim_ret; split; [reflexivity|exact D1]].
      split; [reflexivity|]. intros c Hc. apply G1. destruct o1; exact Hc.
    Qed.
    Lemma bnf_sim : method_sim (bnf_method pipe_bnf bnf_lines parents) (bnf_method pipe_bnf bnf_lines (map f parents)).
    Proof.
      intros V V' Vs p o Dp Go. destruct o; cbn [bnf_method ren_obj]; try (apply (base_sim V V' Vs p _ Dp Go)); try apply sim_raise;
        try (apply (visit_list V V' (fun l => OBNF l no_attributes)); [exact Vs|reflexivity|reflexivity|exact Go]);
        try (eapply sim_bind; [apply wrapper_sim; [exact Vs|apply Go; left; reflexivity]|]; intros r r' [-> Dr]; apply set_attribute_sim, Dr).
      destruct (pipe_bnf pipeline) as [b|e]; [|apply sim_raise]. unfold new_pipeline.
      eapply sim_bind; [rewrite <- (map_id (bnf_lines b)) at 2; apply sim_map with (Q := ptr) (g := fun x => x); intros l Hl; apply closed_sim; reflexivity|].
      intros ps ps' F. apply (alloc_list (fun l => OPipeBNF b l no_attributes)); [reflexivity|reflexivity|apply forall2_ptrs, F].
    Qed.
  End Parents.
  Lemma to_bnf_sim fuel h h' root : D root -> rel_heap h h' -> same_run (to_bnf pipe_bnf bnf_lines fuel h root) (to_bnf pipe_bnf bnf_lines fuel h' (f root)).
  Proof.
    intros Dr R. unfold to_bnf. destruct (bfs_sim fuel h h' root Dr R) as [-> F]. destruct (bfs fuel h root) as [l|]; cbn [option_map]; [|exact I].
    destruct (count_parents_sim h h' l R (F l eq_refl)) as [-> Fp]. apply run_visit_sim; [apply bnf_sim, Fp|exact Dr|exact R].
  Qed.
  Lemma remove_forward_sim p : D p -> sim ptr (remove_forward_visit p) (remove_forward_visit (f p)).
  Proof.
    intros Dp. unfold remove_forward_visit. eapply sim_bind; [apply sim_get, Dp|]. intros o o' [-> Go]. destruct o as [| | | | | | | | | | |[d|]| | | | |ts main| |]; cbn [moved_obj option_map]; try apply sim_raise; try (apply sim_ret; split; [reflexivity|exact Dp]).
    - apply sim_ret. split; [reflexivity|]. apply Go. left. reflexivity.
    - eapply sim_bind; [apply sim_map with (Q := termr)|].
      + intros t Ht. destruct t as [r|x]; cbn [moved_term]; [|apply sim_ret; split; [reflexivity|exact I]]. assert (Dr : D r) by (apply (prod_terms _ _ Go (TRule r) Ht)).
        eapply sim_bind; [apply sim_get, Dr|]. intros o o' [-> Go']. destruct o as [| | | | | | | | | | |[d|]| | | | | | |]; cbn [moved_obj option_map]; try apply sim_raise; apply sim_ret; (split; [reflexivity|]); try exact Dr. apply Go'. left. reflexivity.
      + intros ts1 ts1' F. eapply sim_bind; [apply sim_put; [exact Dp|apply inside_prod, forall2_terms, F]|]. intros _ _ _. apply sim_ret. split; [reflexivity|exact Dp].
  Qed.
  Lemma activate_sim p : D p -> sim ptr (activate_visit activate_pred activate_pipe p) (activate_visit activate_pred activate_pipe (f p)).
  Proof.
    intros Dp. unfold activate_visit. eapply sim_bind; [apply sim_get, Dp|]. intros o o' [-> Go]. destruct o as [| | | | | | | | | | | | |pl| | |ts main| |]; cbn [moved_obj]; try (apply sim_ret; split; [reflexivity|exact Dp]).
    - destruct (activate_pipe pl) as [y|e]; cbn [lift_res]; [|intros s s' R; reflexivity].
      eapply sim_bind with (Q := eq); [apply sim_ret; reflexivity|]. intros y1 y2 <-. eapply sim_bind; [apply sim_put; [exact Dp|split; [reflexivity|intros c []]]|]. intros _ _ _. apply sim_ret. split; [reflexivity|exact Dp].
    - eapply sim_bind; [apply sim_map with (Q := termr)|].
      + intros t Ht. destruct t as [r|x]; cbn [moved_term]; [apply sim_ret; split; [reflexivity|apply (prod_terms _ _ Go (TRule r) Ht)]|].
        eapply sim_bind with (Q := eq); [destruct (activate_pred x); [apply sim_ret; reflexivity|apply sim_raise]|]. intros y y' <-. apply sim_ret. split; [reflexivity|exact I].
      + intros ts1 ts1' F. eapply sim_bind; [apply sim_put; [exact Dp|apply inside_prod, forall2_terms, F]|]. intros _ _ _. apply sim_ret. split; [reflexivity|exact Dp].
  Qed.
  Lemma names_sim rules : Forall D rules -> forall count h h', rel_heap h h' -> rel_heap (generate_names rules count h) (generate_names (map f rules) count h').
  Proof.
    induction 1 as [|x rules Dx F IH]; intros count h h' R; cbn [generate_names map]; [exact R|]. destruct (proj2 (proj2 R) x Dx) as [E Gx]. rewrite E. destruct (nth_error h x) as [o|]; cbn [option_map]; [|auto].
    rewrite get_attributes_ren. destruct (get_attributes o) as [a|]; [|auto]. destruct (has_name a); [auto|]. apply IH. rewrite update_attributes_ren. apply rel_put; [exact Dx| |exact R]. intros c Hc. apply (Gx o eq_refl). destruct o; exact Hc.
  Qed.
  Lemma bnf_rules_sim h h' l : rel_heap h h' -> Forall D l -> bnf_rules h' (map f l) = map f (bnf_rules h l) /\ Forall D (bnf_rules h l).
  Proof.
    intros (_ & _ & K) F. unfold bnf_rules. induction F as [|x l Dx F [IH FD]]; cbn; [split; [reflexivity|constructor]|]. destruct (K x Dx) as [E _]. rewrite E. destruct (nth_error h x) as [o|]; cbn; [|auto].
    replace (is_bnf (ren_obj o)) with (is_bnf o) by (destruct o; reflexivity). destruct (is_bnf o); cbn; [|auto]. rewrite IH. auto.
  Qed.
  Lemma as_bnf_sim fuel h h' root : D root -> rel_heap h h' -> same_run (as_bnf pipe_bnf bnf_lines fuel h root) (as_bnf pipe_bnf bnf_lines fuel h' (f root)).
  Proof.
    intros Dr R. unfold as_bnf. apply same_then; [apply to_bnf_sim; assumption|]. intros r1 h1 h1' D1 R1. apply same_then; [apply run_inplace_sim; [exact remove_forward_sim|exact D1|exact R1]|]. intros r2 h2 h2' D2 R2.
    destruct (proj2 (proj2 R2) r2 D2) as [E _]. rewrite E. destruct (nth_error h2 r2) as [o|]; cbn [option_map]; [|exact I]. replace (is_bnf (ren_obj o)) with (is_bnf o) by (destruct o; reflexivity). destruct (is_bnf o); [|exact I].
    destruct (bfs_sim fuel h2 h2' r2 D2 R2) as [-> F]. destruct (bfs fuel h2 r2) as [l|]; cbn [option_map]; [|exact I]. destruct (bnf_rules_sim h2 h2' l R2 (F l eq_refl)) as [-> Fb]. split; [reflexivity|]. split; [exact D2|]. apply names_sim; assumption.
  Qed.
  Theorem parser_rule_sim fuel h h' root : D root -> rel_heap h h' ->
    same_run (parser_rule pipe_bnf bnf_lines activate_pred activate_pipe fuel h root) (parser_rule pipe_bnf bnf_lines activate_pred activate_pipe fuel h' (f root)).
  Proof.
    intros Dr R. unfold parser_rule. apply same_then; [apply run_inplace_sim; [exact activate_sim|exact Dr|exact R]|]. intros r1 h1 h1' D1 R1.
    apply same_then; [apply normalized_sim; assumption|]. intros r2 h2 h2' D2 R2. apply as_bnf_sim; assumption.
  Qed.
End Rename.
