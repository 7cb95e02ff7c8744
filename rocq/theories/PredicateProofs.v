(** Proofs about predicates. *)
From Verif Require Import Base TokenModel TreeModel RelationModel TokenizerModel TaggerModel PredicateModel PredicateSpec
  TreeSpec RelationSpec ParserSpec EarleyModel EarleySpec ParserModel EarleyProofs ParserTheorems.

Lemma str_eqb_eq a b : str_eqb a b = true <-> a = b.
Proof. unfold str_eqb. destruct (list_eq_dec N.eq_dec a b); split; congruence. Qed.
Lemma str_in_In x l : str_in x l = true <-> In x l.
Proof.
  unfold str_in. rewrite existsb_exists. split.
  - intros (y & H & E). apply str_eqb_eq in E. subst. exact H.
  - intros H. exists x. split; [exact H|]. apply str_eqb_eq. reflexivity.
Qed.

(** Induction through the lists of and_ and or_. *)
Section Ind.
  Variable P : predicate -> Prop.
  Hypothesis Hand : forall ps, Forall P ps -> P (PAnd ps).
  Hypothesis Hor : forall ps, Forall P ps -> P (POr ps).
  Hypothesis Hnot : forall p, P p -> P (PNot p).
  Hypothesis Hleaf : forall p, match p with PAnd _ | POr _ | PNot _ => False | _ => True end -> P p.
  Fixpoint predicate_rect' (p : predicate) : P p.
  Proof.
    destruct p; try (apply Hleaf; exact I).
    - apply Hand. induction predicates as [|q qs IH]; constructor; [apply predicate_rect'|exact IH].
    - apply Hor. induction predicates as [|q qs IH]; constructor; [apply predicate_rect'|exact IH].
    - apply Hnot. apply predicate_rect'.
  Defined.
End Ind.

Lemma fold_and {A} (P : A -> Prop) l : fold_right (fun p Q => P p /\ Q) True l <-> Forall P l.
Proof.
  induction l as [|x l IH]; cbn; [split; auto|]. rewrite IH. split.
  - intros [X Y]. constructor; auto.
  - intros H. inversion H; auto.
Qed.
Lemma fold_or {A} (P : A -> Prop) l : fold_right (fun p Q => P p \/ Q) False l <-> Exists P l.
Proof.
  induction l as [|x l IH]; cbn; [split; [tauto|intros H; inversion H]|]. rewrite IH. split.
  - intros [H|H]; [left|right]; auto.
  - intros H. inversion H; auto.
Qed.

(** ** Connectives *)
Lemma all_true l : all_ l = Ok true <-> forall x, In x l -> x = Ok true.
Proof.
  induction l as [|x l IH]; cbn; [split; auto; intros _ y []|]. destruct x as [[]|e]; cbn.
  - rewrite IH. split; intros H; [intros y [<-|Hy]; auto|auto].
  - split; [discriminate|]. intros H. discriminate (H _ (or_introl eq_refl)).
  - split; [discriminate|]. intros H. discriminate (H _ (or_introl eq_refl)).
Qed.
Lemma all_false l : all_ l = Ok false <-> exists a b, l = a ++ Ok false :: b /\ forall x, In x a -> x = Ok true.
Proof.
  induction l as [|x l IH]; cbn.
  - split; [discriminate|]. intros ([|] & b & H & _); discriminate.
  - destruct x as [[]|e]; cbn.
    + rewrite IH. split.
      * intros (a & b & -> & H). exists (Ok true :: a), b. split; [reflexivity|]. intros y [<-|Hy]; auto.
      * intros ([|y a] & b & E & H); [discriminate|]. injection E as <- ->. exists a, b. split; [reflexivity|].
        intros z Hz. apply H. right. exact Hz.
    + split; [|auto]. intros _. exists [], l. split; [reflexivity|]. intros y [].
    + split; [discriminate|]. intros ([|y a] & b & E & H); [discriminate E|]. injection E as <- ->.
      specialize (H _ (or_introl eq_refl)). discriminate H.
Qed.
Lemma any_true l : any_ l = Ok true <-> exists a b, l = a ++ Ok true :: b /\ forall x, In x a -> x = Ok false.
Proof.
  induction l as [|x l IH]; cbn.
  - split; [discriminate|]. intros ([|] & b & H & _); discriminate.
  - destruct x as [[]|e]; cbn.
    + split; [|auto]. intros _. exists [], l. split; [reflexivity|]. intros y [].
    + rewrite IH. split.
      * intros (a & b & -> & H). exists (Ok false :: a), b. split; [reflexivity|]. intros y [<-|Hy]; auto.
      * intros ([|y a] & b & E & H); [discriminate|]. injection E as <- ->. exists a, b. split; [reflexivity|].
        intros z Hz. apply H. right. exact Hz.
    + split; [discriminate|]. intros ([|y a] & b & E & H); [discriminate E|]. injection E as <- ->.
      specialize (H _ (or_introl eq_refl)). discriminate H.
Qed.
Lemma any_false l : any_ l = Ok false <-> forall x, In x l -> x = Ok false.
Proof.
  induction l as [|x l IH]; cbn; [split; auto; intros _ y []|]. destruct x as [[]|e]; cbn.
  - split; [discriminate|]. intros H. discriminate (H _ (or_introl eq_refl)).
  - rewrite IH. split; intros H; [intros y [<-|Hy]; auto|auto].
  - split; [discriminate|]. intros H. discriminate (H _ (or_introl eq_refl)).
Qed.

Lemma iff_ok b (P : Prop) : (b = true <-> P) -> (Ok b = Ok true <-> P) /\ (Ok b = Ok false <-> ~ P).
Proof.
  intros H. split; split.
  - intros [= ->]. apply H. reflexivity.
  - intros p. f_equal. apply H, p.
  - intros [= ->] p. apply H in p. discriminate.
  - intros n. destruct b; [|reflexivity]. exfalso. apply n, H. reflexivity.
Qed.

Lemma single_iff f : is_single f = true <-> In (str_of "sing") (f_grams f) \/ In (str_of "Sgtm") (f_grams f).
Proof.
  unfold is_single, form_number, gram_in. cbn [single only_single]. rewrite orb_true_iff, !str_in_In. reflexivity.
Qed.

Lemma forms_iff t (f : form -> bool) (P : form -> Prop) : (forall x, f x = true <-> P x) ->
  (morph_required t (existsb f) = true <-> exists fs x, t_forms t = Some fs /\ In x fs /\ P x).
Proof.
  intros H. unfold morph_required. destruct (t_forms t) as [fs|].
  - rewrite existsb_exists. split.
    + intros (x & Hx & Hf). exists fs, x. rewrite <- H. auto.
    + intros (fs' & x & [= <-] & Hx & Hf). exists x. rewrite H. auto.
  - split; [discriminate|]. intros (fs & x & E & _). discriminate E.
Qed.

(** ** Meaning *)
Lemma call_says U p t : plain p -> returns p -> usual_token U t ->
  (call U p t = Ok true <-> says U p t) /\ (call U p t = Ok false <-> ~ says U p t).
Proof.
  intros HP HR [HV HI]. revert HP HR. induction p using predicate_rect'; intros HP HR.
  - cbn in HP, HR. apply fold_and in HP, HR. cbn [call says]. rewrite fold_and.
    rewrite Forall_forall in *. split.
    + rewrite all_true. split.
      * intros A p Hp. apply (H p Hp); auto. apply A. apply in_map_iff. eauto.
      * intros A x Hx. apply in_map_iff in Hx as (p & <- & Hp). apply (H p Hp); auto.
    + rewrite all_false. split.
      * intros (a & b & E & _) A.
        assert (In (Ok false) (map (fun p => call U p t) ps)) as X by (rewrite E; apply in_elt).
        apply in_map_iff in X as (p & X & Hp). apply (H p Hp) in X; auto.
      * induction ps as [|p ps IH]; [intros A; exfalso; apply A; intros ? []|].
        intros A. destruct (H p (or_introl eq_refl) (HP _ (or_introl eq_refl)) (HR _ (or_introl eq_refl))) as [H1 H2].
        destruct (call U p t) as [[]|e] eqn:E.
        -- cbn [map]. rewrite E. destruct IH as (a & b & E' & H').
           ++ intros q Hq. apply H. right. exact Hq.
           ++ intros q Hq. apply HP. right. exact Hq.
           ++ intros q Hq. apply HR. right. exact Hq.
           ++ intros X. apply A. intros q [<-|Hq]; [apply H1; reflexivity|auto].
           ++ exists (Ok true :: a), b. rewrite E'. split; [reflexivity|]. intros x [<-|Hx]; auto.
        -- cbn [map]. rewrite E. exists [], (map (fun p => call U p t) ps). split; [reflexivity|]. intros x [].
        -- exfalso. assert (~ says U p t) as N by (intros X; apply H1 in X; discriminate X).
           apply H2 in N. discriminate N.
  - cbn in HP, HR. apply fold_and in HP, HR. cbn [call says]. rewrite fold_or, Exists_exists.
    rewrite Forall_forall in *. split.
    + rewrite any_true. split.
      * intros (a & b & E & _).
        assert (In (Ok true) (map (fun p => call U p t) ps)) as X by (rewrite E; apply in_elt).
        apply in_map_iff in X as (p & X & Hp). exists p. split; [exact Hp|]. apply (H p Hp) in X; auto.
      * induction ps as [|p ps IH]; [intros (p & [] & _)|].
        intros A. destruct (H p (or_introl eq_refl) (HP _ (or_introl eq_refl)) (HR _ (or_introl eq_refl))) as [H1 H2].
        destruct (call U p t) as [[]|e] eqn:E.
        -- cbn [map]. rewrite E. exists [], (map (fun p => call U p t) ps). split; [reflexivity|]. intros x [].
        -- cbn [map]. rewrite E. destruct IH as (a & b & E' & H').
           ++ intros q Hq. apply H. right. exact Hq.
           ++ intros q Hq. apply HP. right. exact Hq.
           ++ intros q Hq. apply HR. right. exact Hq.
           ++ destruct A as (q & [<-|Hq] & Hs); [|eauto]. exfalso. apply (proj1 H2); [reflexivity|exact Hs].
           ++ exists (Ok false :: a), b. rewrite E'. split; [reflexivity|]. intros x [<-|Hx]; auto.
        -- exfalso. assert (~ says U p t) as N by (intros X; apply H1 in X; discriminate X).
           apply H2 in N. discriminate N.
    + rewrite any_false. split.
      * intros A (p & Hp & Hs). specialize (A (call U p t)). apply (H p Hp); auto. apply A. apply in_map_iff. eauto.
      * intros A x Hx. apply in_map_iff in Hx as (p & <- & Hp). apply (H p Hp); auto. intros Hs. apply A. eauto.
  - cbn in HP, HR. specialize (IHp HP HR) as [H1 H2]. cbn [call says].
    destruct (call U p t) as [[]|e] eqn:E; cbn.
    + assert (says U p t) by (apply H1; reflexivity). split; split; try discriminate; try tauto.
    + assert (~ says U p t) by (apply H2; reflexivity). split; split; try discriminate; try tauto.
    + exfalso. assert (~ says U p t) as N by (intros X; apply H1 in X; discriminate X). apply H2 in N. discriminate N.
  - destruct p; try contradiction H; try contradiction HP; cbn [call says].
    + apply iff_ok. tauto.
    + apply iff_ok. tauto.
    + apply iff_ok. tauto.
    + apply iff_ok. tauto.
    + destruct (t_value t) as [|c v] eqn:E; [congruence|]. apply iff_ok. cbn. split; [eauto|].
      intros (c' & [= <-] & X). exact X.
    + apply iff_ok. apply str_eqb_eq.
    + apply iff_ok. apply Z.eqb_eq.
    + unfold int_required. destruct (str_eqb (t_type t) INT) eqn:E.
      * apply str_eqb_eq in E. destruct (HI E) as [z Ez]. rewrite Ez. apply iff_ok. rewrite Z.leb_le. split.
        -- intros L. split; [exact E|]. exists z. split; [reflexivity|lia].
        -- intros (_ & z' & [= <-] & L). lia.
      * apply iff_ok. split; [discriminate|]. intros [X _]. apply str_eqb_eq in X. congruence.
    + unfold int_required. destruct (str_eqb (t_type t) INT) eqn:E.
      * apply str_eqb_eq in E. destruct (HI E) as [z Ez]. rewrite Ez. apply iff_ok. rewrite Z.leb_le. split.
        -- intros L. split; [exact E|]. exists z. split; [reflexivity|lia].
        -- intros (_ & z' & [= <-] & L). lia.
      * apply iff_ok. split; [discriminate|]. intros [X _]. apply str_eqb_eq in X. congruence.
    + apply iff_ok. apply str_eqb_eq.
    + apply iff_ok. apply str_in_In.
    + apply iff_ok. apply str_in_In.
    + unfold normalized. destruct (t_forms t) as [fs|]; cbn; apply iff_ok.
      * rewrite existsb_exists. split; intros (f & A & B); exists f; (split; [exact A|]); apply str_in_In; exact B.
      * apply str_in_In.
    + apply iff_ok. apply forms_iff. intros f. apply str_in_In.
    + apply iff_ok. apply str_eqb_eq.
    + apply iff_ok. destruct (t_tag t) as [g|]; [rewrite str_eqb_eq; split; congruence|split; discriminate].
    + apply iff_ok. apply forms_iff. intros f. apply single_iff.
    + cbn in HR. destruct (HR (t_value t)) as [b Hb]. destruct types as [[|ty tys]|]; cbn [truthy].
      * rewrite Hb. apply iff_ok. split; [intros ->; auto|]. intros [[= ->] _]. reflexivity.
      * destruct (str_in (t_type t) (ty :: tys)) eqn:E.
        -- apply str_in_In in E. rewrite Hb. apply iff_ok. split; [intros ->; auto|]. intros [[= ->] _]. reflexivity.
        -- apply iff_ok. split; [discriminate|]. intros [_ X]. apply str_in_In in X. congruence.
      * rewrite Hb. apply iff_ok. split; [intros ->; auto|]. intros [[= ->] _]. reflexivity.
    + cbn in HR. destruct (HR t) as [b Hb]. rewrite Hb. apply iff_ok. split; [intros ->; auto|]. intros [= ->]. reflexivity.
Qed.

Lemma caseless_says U v t : call U (caseless U v) t = Ok true <-> u_lower U (t_value t) = u_lower U v.
Proof. cbn. split; [intros [= H]; apply str_eqb_eq, H|]. intros H. apply str_eqb_eq in H. rewrite H. reflexivity. Qed.
Lemma in_caseless_says U vs t : call U (in_caseless U vs) t = Ok true <->
  exists v, In v vs /\ u_lower U v = u_lower U (t_value t).
Proof.
  cbn. split.
  - intros [= H]. apply str_in_In in H. apply in_map_iff in H as (v & E & H). eauto.
  - intros (v & H & E). f_equal. apply str_in_In. rewrite <- E. apply in_map. exact H.
Qed.
Lemma ok_true b : Ok b = Ok true <-> b = true.
Proof. split; [intros [= H]; exact H|intros ->; reflexivity]. Qed.

Lemma normals_shared U m words t :
  call U (PDictionary (flat_map (mo_normalized m) words)) t = Ok true <->
  exists w, In w words /\ shares_normal U m w t.
Proof.
  cbn [call]. unfold shares_normal, normalized. destruct (t_forms t) as [fs|]; cbn [bind]; rewrite ok_true.
  - rewrite existsb_exists. split.
    + intros (f & Hf & H). apply str_in_In, in_flat_map in H as (w & Hw & H).
      unfold mo_normalized in H. apply in_map_iff in H as (f' & E & H). exists w. split; [exact Hw|]. exists f, f'. auto.
    + intros (w & Hw & f & f' & A & B & E). exists f. split; [exact A|].
      apply str_in_In, in_flat_map. exists w. split; [exact Hw|]. rewrite E. apply in_map. exact B.
  - split.
    + intros H. apply str_in_In, in_flat_map in H as (w & Hw & H).
      unfold mo_normalized in H. apply in_map_iff in H as (f' & E & H). exists w. split; [exact Hw|]. exists f'. auto.
    + intros (w & Hw & f' & B & E). apply str_in_In, in_flat_map. exists w. split; [exact Hw|].
      rewrite E. apply in_map. exact B.
Qed.
Lemma normal_shared U m w t : call U (PDictionary (mo_normalized m w)) t = Ok true <-> shares_normal U m w t.
Proof.
  pose proof (normals_shared U m [w] t) as H. cbn [flat_map] in H. rewrite app_nil_r in H. rewrite H. split.
  - intros (w' & [<-|[]] & X). exact X.
  - intros X. exists w. split; [left; reflexivity|exact X].
Qed.
Lemma dictionary_meaning U c m words p t : c_morph c = Some m -> activate c (SDictionary words) = Ok p ->
  (call U p t = Ok true <-> exists w, In w words /\ shares_normal U m w t).
Proof.
  intros Hm H. rewrite <- normals_shared. cbn in H. unfold get_morph in H. rewrite Hm in H.
  destruct words; injection H as <-; reflexivity.
Qed.
Lemma normalized_meaning U c m word p t : c_morph c = Some m -> activate c (SNormalized word) = Ok p ->
  (call U p t = Ok true <-> shares_normal U m word t).
Proof.
  intros Hm H. rewrite <- normal_shared. cbn in H. unfold get_morph in H. rewrite Hm in H.
  injection H as <-. reflexivity.
Qed.

(** ** Narrowing *)
Lemma filter_not_empty {A} (f : A -> bool) l : existsb f l = true -> filter f l <> [].
Proof.
  intros H E. apply existsb_exists in H as (x & Hx & Hf).
  assert (In x (filter f l)) as X by (apply filter_In; auto). rewrite E in X. destruct X.
Qed.
Lemma gram_narrows U g t : call U (PGram g) t = Ok true ->
  exists fs, t_forms t = Some fs /\
  constrain (PGram g) t = Ok (mkToken (t_value t) (t_start t) (t_stop t) (t_type t) (t_tag t)
                                (Some (filter (fun f => str_in g (f_grams f)) fs))) /\
  filter (fun f => str_in g (f_grams f)) fs <> [].
Proof.
  cbn. unfold morph_required, get_forms, constrained. destruct (t_forms t) as [fs|] eqn:E; [|discriminate].
  intros [= H]. exists fs. cbn. repeat split. apply filter_not_empty, H.
Qed.
Lemma single_narrows U t : call U PIsSingle t = Ok true ->
  exists fs, t_forms t = Some fs /\
  constrain PIsSingle t = Ok (mkToken (t_value t) (t_start t) (t_stop t) (t_type t) (t_tag t)
                                (Some (filter is_single fs))) /\
  filter is_single fs <> [].
Proof.
  cbn. unfold morph_required, get_forms, constrained. destruct (t_forms t) as [fs|] eqn:E; [|discriminate].
  intros [= H]. exists fs. cbn. repeat split. apply filter_not_empty, H.
Qed.
Lemma others_keep p t : (forall g, p <> PGram g) -> p <> PIsSingle -> constrain p t = Ok t.
Proof. intros A B. destruct p; try reflexivity; [destruct (A value eq_refl)|congruence]. Qed.

(** ** Activation *)
Lemma activated_plain c p p' : activate c p = Ok p' -> plain p'.
Proof.
  revert p'. induction p using predicate_rect'; intros p' E.
  1,2: cbn in E; destruct (mapM (activate c) ps) as [ps'|e] eqn:M; [|discriminate]; injection E as <-;
       cbn; apply fold_and; revert ps' M; induction H as [|p ps Hp _ IH]; intros ps' M; cbn in M;
       [injection M as <-; constructor|];
       destruct (activate c p) as [q|e] eqn:Eq; [|discriminate]; cbn in M;
       destruct (mapM (activate c) ps) as [qs|e]; [|discriminate]; injection M as <-; constructor; auto.
  - cbn in E. destruct (activate c p) as [q|e]; [|discriminate]. injection E as <-. cbn. auto.
  - destruct p; try contradiction H; cbn in E; unfold get_morph, check_gram, check_type in E;
      repeat match type of E with
      | bind ?x _ = _ => destruct x; cbn in E
      | (match ?x with _ => _ end) = _ => destruct x; cbn in E
      | Err _ = Ok _ => discriminate E
      | Ok _ = Ok _ => injection E as <-; exact I
      end.
Qed.
Lemma plain_fixed c p : plain p -> activate c p = Ok p.
Proof.
  induction p using predicate_rect'; intros HP; cbn in HP.
  1,2: apply fold_and in HP; cbn;
       assert (mapM (activate c) ps = Ok ps) as ->; [|reflexivity];
       induction ps as [|p ps IH]; [reflexivity|]; inversion H; inversion HP; subst;
       cbn; rewrite H2 by assumption; cbn; rewrite IH by assumption; reflexivity.
  - cbn. rewrite IHp by exact HP. reflexivity.
  - destruct p; try contradiction H; try contradiction HP; reflexivity.
Qed.
Lemma activate_twice c c' p p' : activate c p = Ok p' -> activate c' p' = Ok p'.
Proof. intros H. apply plain_fixed, (activated_plain c p), H. Qed.

Lemma check_types_spec t types : (check_types t types = Ok tt /\ forall ty, In ty types -> In ty (tk_types t)) \/
  (check_types t types = Err ValueError /\ exists ty, In ty types /\ ~ In ty (tk_types t)).
Proof.
  induction types as [|ty types IH]; cbn; [left; split; [reflexivity|intros ? []]|].
  unfold check_type. destruct (str_in ty (tk_types t)) eqn:E; cbn.
  - apply str_in_In in E. destruct IH as [[A B]|[A (ty' & B & C)]]; [left|right]; rewrite A; split; try reflexivity.
    + intros x [<-|Hx]; auto.
    + exists ty'. auto.
  - right. split; [reflexivity|]. exists ty. split; [left; reflexivity|]. rewrite <- str_in_In. congruence.
Qed.

Section Names.
  Variables (c : context) (m : morph) (tg : tagger).
  Hypothesis Hm : c_morph c = Some m.
  Hypothesis Ht : c_tagger c = Some tg.
  Notation unknown := (unknown_name m (c_tokenizer c)).

  Lemma unknown_and ps : unknown (PAnd ps) <-> exists p, In p ps /\ unknown p.
  Proof.
    unfold unknown_name. split.
    - intros [(g & H & K)|[(ty & H & K)|(f & tys & ty & H & K)]]; inversion H; subst; exists p; (split; [assumption|]);
        [left|right; left|right; right]; eauto.
    - intros (p & Hp & [(g & H & K)|[(ty & H & K)|(f & tys & ty & H & K)]]); [left|right; left|right; right];
        eauto 8 using inside.
  Qed.
  Lemma unknown_or ps : unknown (POr ps) <-> exists p, In p ps /\ unknown p.
  Proof.
    unfold unknown_name. split.
    - intros [(g & H & K)|[(ty & H & K)|(f & tys & ty & H & K)]]; inversion H; subst; exists p; (split; [assumption|]);
        [left|right; left|right; right]; eauto.
    - intros (p & Hp & [(g & H & K)|[(ty & H & K)|(f & tys & ty & H & K)]]); [left|right; left|right; right];
        eauto 8 using inside.
  Qed.
  Lemma unknown_not p : unknown (PNot p) <-> unknown p.
  Proof.
    unfold unknown_name. split.
    - intros [(g & H & K)|[(ty & H & K)|(f & tys & ty & H & K)]]; inversion H; subst;
        [left|right; left|right; right]; eauto.
    - intros [(g & H & K)|[(ty & H & K)|(f & tys & ty & H & K)]]; [left|right; left|right; right];
        eauto 8 using inside.
  Qed.
  Lemma mapM_activate ps :
    Forall (fun p => (unknown p /\ activate c p = Err ValueError) \/ (~ unknown p /\ exists p', activate c p = Ok p')) ps ->
    ((exists p, In p ps /\ unknown p) /\ mapM (activate c) ps = Err ValueError) \/
    (~ (exists p, In p ps /\ unknown p) /\ exists ps', mapM (activate c) ps = Ok ps').
  Proof.
    induction 1 as [|p ps [[A E]|[A [p' E]]] H IH]; cbn.
    - right. split; [intros (p & [] & _)|eauto].
    - left. rewrite E. cbn. split; [eauto|reflexivity].
    - rewrite E. cbn. destruct IH as [[(q & Hq & Uq) ->]|[N [ps' ->]]]; cbn.
      + left. split; [eauto|reflexivity].
      + right. split; [|eauto]. intros (q & [<-|Hq] & Uq); [auto|apply N; eauto].
  Qed.
  Lemma activation p : (unknown p /\ activate c p = Err ValueError) \/ (~ unknown p /\ exists p', activate c p = Ok p').
  Proof.
    induction p using predicate_rect'.
    - rewrite unknown_and. cbn. destruct (mapM_activate ps H) as [[A ->]|[A [ps' ->]]]; cbn; [left|right]; (split; [exact A|]); eauto.
    - rewrite unknown_or. cbn. destruct (mapM_activate ps H) as [[A ->]|[A [ps' ->]]]; cbn; [left|right]; (split; [exact A|]); eauto.
    - rewrite unknown_not. cbn. destruct IHp as [[A ->]|[A [p' ->]]]; cbn; [left|right]; (split; [exact A|]); eauto.
    - assert (forall s, inside s p -> s = p) as K.
      { intros s Hs. destruct Hs; try reflexivity; contradiction H. }
      assert (forall q, (forall g, p <> SGram g) -> (forall g, p <> SType g) -> (forall f t, p <> SCustom f t) ->
              activate c p = Ok q -> (unknown p /\ activate c p = Err ValueError) \/ (~ unknown p /\ exists p', activate c p = Ok p')) as Z.
      { intros q A B C E. right. split; [|eauto].
        intros [(g & X & _)|[(ty & X & _)|(f & tys & ty & X & _)]]; apply K in X; symmetry in X; revert X; [apply A|apply B|apply C]. }
      destruct p; try contradiction H;
        try (eapply Z; [discriminate|discriminate|discriminate|
          cbn; unfold get_morph; rewrite ?Hm, ?Ht; reflexivity]).
      + apply (Z (PDictionary (flat_map (mo_normalized m) value))); [discriminate|discriminate|discriminate|].
        cbn. unfold get_morph. rewrite Hm. cbn. destruct value; reflexivity.
      + cbn. unfold get_morph, check_gram. rewrite Hm. cbn. destruct (mo_known m value) eqn:E; cbn.
        * right. split; [|eauto].
          intros [(g & X & Y)|[(ty & X & _)|(f & tys & ty & X & _)]]; apply K in X; [|discriminate X|discriminate X].
          injection X as ->. congruence.
        * left. split; [|reflexivity]. left. exists value. split; [constructor|exact E].
      + cbn. unfold check_type. destruct (str_in value (tk_types (c_tokenizer c))) eqn:E; cbn.
        * apply str_in_In in E. right. split; [|eauto].
          intros [(g & X & Y)|[(ty & X & Y)|(f & tys & ty & X & _)]]; apply K in X; [discriminate X| |discriminate X].
          injection X as ->. auto.
        * left. split; [|reflexivity]. right; left. exists value. split; [constructor|]. rewrite <- str_in_In. congruence.
      + cbn. destruct (check_types_spec (c_tokenizer c) (truthy types)) as [[-> B]|[-> (ty & B & C)]]; cbn.
        * right. split; [|eauto].
          intros [(g & X & Y)|[(ty & X & Y)|(f & tys & ty & X & Y & Y')]]; apply K in X; [discriminate X|discriminate X|].
          injection X as -> <-. apply Y', B. exact Y.
        * left. split; [|reflexivity]. right; right. destruct types as [types|]; [|destruct B].
          exists function, types, ty. split; [constructor|auto].
  Qed.
  Lemma activation_names p :
    (unknown p -> activate c p = Err ValueError) /\ (~ unknown p -> exists p', activate c p = Ok p').
  Proof. destruct (activation p) as [[A B]|[A B]]; split; intros X; try contradiction; auto. Qed.
End Names.

Lemma any_tag_accepted c tg v : c_tagger c = Some tg -> activate c (STag v) = Ok (PTag v).
Proof. intros H. cbn. rewrite H. reflexivity. Qed.

(** ** In the chart *)
Lemma accepts_call U p t : accepts U p t = true <-> call U p t = Ok true.
Proof. unfold accepts. destruct (call U p t); split; congruence. Qed.
Lemma accepted_constrain U p t : accepts U p t = true -> constrain p t = Ok (narrow p t).
Proof.
  intros H. apply accepts_call in H. unfold narrow. destruct p; try reflexivity.
  - destruct (gram_narrows U _ _ H) as (fs & _ & -> & _). reflexivity.
  - destruct (single_narrows U _ H) as (fs & _ & -> & _). reflexivity.
Qed.
Lemma keeps t : same_text t t /\ forms_within t t.
Proof. split; [repeat split|]. unfold forms_within. destruct (t_forms t); auto. Qed.
Lemma bank_narrow U : predicates_narrow (accepts U) narrow.
Proof.
  intros p t H. apply accepts_call in H. unfold narrow. destruct p; try apply keeps.
  - destruct (gram_narrows U _ _ H) as (fs & E & -> & _). split; [repeat split|].
    unfold forms_within. cbn. rewrite E. intros f X. apply filter_In in X. tauto.
  - destruct (single_narrows U _ H) as (fs & E & -> & _). split; [repeat split|].
    unfold forms_within. cbn. rewrite E. intros f X. apply filter_In in X. tauto.
Qed.

(** Leaves of a tree. *)
Fixpoint placed_leaves {token pred} (n : node token pred) : list (nat * pred * token) :=
  match n with
  | Leaf _ pos p tk => [(pos, p, tk)]
  | Node _ _ _ _ ch => flat_map placed_leaves ch
  end.
Lemma leaf_ok {pred} (accepts : pred -> token -> bool) constrain toks :
  forall n : node token pred, leaves_ok accepts constrain toks n ->
  forall pos p tk, In (pos, p, tk) (placed_leaves n) ->
  exists t, nth_error toks pos = Some t /\ accepts p t = true /\ tk = constrain p t.
Proof.
  fix rec 1. intros [id pos p tk|id r q rank ch] H pos' p' tk' HI; cbn in *.
  - destruct HI as [[= <- <- <-]|[]]. exact H.
  - induction ch as [|c ch IH]; [destruct HI|]. destruct H as [H1 H2]. cbn in HI. apply in_app_or in HI as [HI|HI].
    + exact (rec c H1 _ _ _ HI).
    + exact (IH H2 HI).
Qed.
Lemma parsed_gram U (gr : grammar token predicate) fuel toks all trees n i j pos g tk :
  predict_sound gr -> parse (accepts U) narrow gr fuel toks all = Some trees -> In (n, (i, j)) trees ->
  In (pos, PGram g, tk) (placed_leaves n) ->
  exists t fs, nth_error toks pos = Some t /\ t_forms t = Some fs /\ same_text tk t /\
    t_forms tk = Some (filter (fun f => str_in g (f_grams f)) fs) /\ filter (fun f => str_in g (f_grams f)) fs <> [].
Proof.
  intros HS HP HI HL. destruct (parse_sound _ _ _ _ _ _ _ _ _ _ HS HP HI) as (_ & OK & _).
  destruct (leaf_ok _ _ _ _ OK _ _ _ HL) as (t & Ht & A & ->).
  apply accepts_call in A. destruct (gram_narrows _ _ _ A) as (fs & E & C & N).
  exists t, fs. unfold narrow. rewrite C. repeat split; auto.
Qed.
Lemma parsed_single U (gr : grammar token predicate) fuel toks all trees n i j pos tk :
  predict_sound gr -> parse (accepts U) narrow gr fuel toks all = Some trees -> In (n, (i, j)) trees ->
  In (pos, PIsSingle, tk) (placed_leaves n) ->
  exists t fs, nth_error toks pos = Some t /\ t_forms t = Some fs /\ same_text tk t /\
    t_forms tk = Some (filter is_single fs) /\ filter is_single fs <> [].
Proof.
  intros HS HP HI HL. destruct (parse_sound _ _ _ _ _ _ _ _ _ _ HS HP HI) as (_ & OK & _).
  destruct (leaf_ok _ _ _ _ OK _ _ _ HL) as (t & Ht & A & ->).
  apply accepts_call in A. destruct (single_narrows _ _ A) as (fs & E & C & N).
  exists t, fs. unfold narrow. rewrite C. repeat split; auto.
Qed.
