(** Results of interpretation are well formed; spans and JSON of well-formed
    results. *)
From Verif Require Import Base TokenModel EarleyModel TreeModel TreeSpec TreeProofs PredicateModel PredicateProofs ParserModel ResultProofs
  InterpModel InterpSpec InterpProofs FactProofs FactTheorems.

Section All.
  Context {A : Type} (P : A -> Prop).
  Fixpoint All (l : list A) : Prop := match l with [] => True | x :: l' => P x /\ All l' end.
End All.
Lemma All_in {A} (P : A -> Prop) l : All P l <-> forall x, In x l -> P x.
Proof.
  induction l as [|x l IH]; cbn; [split; [intros _ x []|auto]|]. rewrite IH. split.
  - intros [H H'] y [<-|Hy]; auto.
  - intros H. split; auto.
Qed.

Section Ind.
  Variable Pr : result -> Prop.
  Variable Pf : ifact -> Prop.
  Variable Ps : slot -> Prop.
  Hypothesis HC : forall ts k, Pr (RChain ts k).
  Hypothesis HF : forall f, Pf f -> Pr (RFact f).
  Hypothesis HA : forall r a, Pr r -> Pr (RAttr r a).
  Hypothesis HR : forall v r, Pr r -> Pr (RNorm v (NResult r)).
  Hypothesis HI : forall v items k, Pr (RNorm v (NInput items k)).
  Hypothesis HM : forall sc rep chg attrs, (forall k s, In (k, s) attrs -> Ps s) -> Pf (mkFact sc rep chg attrs).
  Hypothesis HL : forall l, (forall r, In r l -> Pr r) -> Ps (SList l).
  Hypothesis HD : forall v, Ps (SDefault v).
  Hypothesis HS : forall r, Pr r -> Ps (SResult r).

  Fixpoint result_induct (r : result) : Pr r :=
    match r return Pr r with
    | RChain ts k => HC ts k
    | RFact f => HF f (fact_induct f)
    | RAttr v a => HA v a (result_induct v)
    | RNorm v i =>
        match i return Pr (RNorm v i) with
        | NResult r => HR v r (result_induct r)
        | NInput items k => HI v items k
        end
    end
  with fact_induct (f : ifact) : Pf f :=
    match f return Pf f with
    | mkFact sc rep chg attrs =>
        HM sc rep chg attrs
          ((fix go (l : list (str * slot)) : forall k s, In (k, s) l -> Ps s :=
              match l return forall k s, In (k, s) l -> Ps s with
              | [] => fun k s H => match H with end
              | (k0, s0) :: l' => fun k s H =>
                  match H with
                  | or_introl E => match E in _ = p return Ps (snd p) with eq_refl => slot_induct s0 end
                  | or_intror H' => go l' k s H'
                  end
              end) attrs)
    end
  with slot_induct (s : slot) : Ps s :=
    match s return Ps s with
    | SList l =>
        HL l
          ((fix go (l : list result) : forall r, In r l -> Pr r :=
              match l return forall r, In r l -> Pr r with
              | [] => fun r H => match H with end
              | r0 :: l' => fun r H =>
                  match H with
                  | or_introl E => match E in _ = x return Pr x with eq_refl => result_induct r0 end
                  | or_intror H' => go l' r H'
                  end
              end) l)
    | SDefault v => HD v
    | SResult r => HS r (result_induct r)
    end.
End Ind.

Section Wf.
  Variable schemes : nat -> scheme.
  Variable subclass : nat -> nat -> bool.
  Variable U : unicode.
  Variable inflect : nat -> list str -> option str.

  Section Def.
    (** Chains of tokens, values of normalizers, defaults, inputs of constants. *)
    Variable P : list token -> Prop.
    Variable Q : pyval -> Prop.
    Variable C : Prop.
    Definition shape (rep : bool) (s : slot) : Prop :=
      match s with SList _ => rep = true | _ => rep = false end.
    Fixpoint wf_result (r : result) : Prop :=
      match r with
      | RChain ts _ => P ts
      | RFact f => wf_fact f
      | RAttr v _ => wf_result v
      | RNorm v (NResult r) => Q v /\ wf_result r
      | RNorm v (NInput _ _) => Q v /\ C
      end
    with wf_fact (f : ifact) : Prop :=
      match f with
      | mkFact sc rep chg attrs =>
          NoDup (map fst attrs) /\
          (forall k, str_in k rep = is_rep (get_decl k (schemes sc))) /\
          (forall k, get_decl k (schemes sc) <> None -> sdict_get k attrs <> None) /\
          (forall k, str_in k chg = true -> sdict_get k attrs <> None) /\
          All (fun p => shape (str_in (fst p) rep) (snd p) /\ wf_slot (snd p)) attrs
      end
    with wf_slot (s : slot) : Prop :=
      match s with
      | SList l => All wf_result l
      | SDefault v => Q v
      | SResult r => wf_result r
      end.
    Definition wf_item (i : item) : Prop := match i with IToken _ => True | IResult r => wf_result r end.
  End Def.

  Lemma wf_mono (P P' : list token -> Prop) Q C : (forall ts, P ts -> P' ts) ->
    forall r, wf_result P Q C r -> wf_result P' Q C r.
  Proof.
    intros M. apply (result_induct (fun r => wf_result P Q C r -> wf_result P' Q C r)
      (fun f => wf_fact P Q C f -> wf_fact P' Q C f) (fun s => wf_slot P Q C s -> wf_slot P' Q C s)); cbn; auto.
    - intros v r IH [H H']. auto.
    - intros sc rep chg attrs IH (A & B & D & E & F). split; auto. split; auto. split; auto. split; auto.
      rewrite All_in in *. intros [k s] H. cbn [fst snd] in *. specialize (F (k, s) H). cbn in F.
      destruct F as [F1 F2]. split; auto. eapply IH; eauto.
    - intros l IH H. rewrite All_in in *. intros x Hx. exact (IH x Hx (H x Hx)).
  Qed.

  (** ** Spans *)
  Lemma mapM_ok {A B} (f : A -> res B) l : (forall x, In x l -> exists y, f x = Ok y) -> exists ys, mapM f l = Ok ys.
  Proof.
    induction l as [|x l IH]; intros H; cbn [mapM]; [eauto|].
    destruct (H x (or_introl eq_refl)) as [y ->]. cbn [bind]. destruct IH as [ys ->]; [intros; apply H; right; auto|].
    cbn [bind]. eauto.
  Qed.
  Lemma mapM_concat {A B} (f : A -> res (list B)) l ls : mapM f l = Ok ls -> forall y, In y (concat ls) ->
    exists x ys, In x l /\ f x = Ok ys /\ In y ys.
  Proof.
    revert ls. induction l as [|x l IH]; intros ls; cbn [mapM].
    - intros [= <-] y [].
    - destruct (f x) as [ys|e] eqn:E; cbn [bind]; [|discriminate]. destruct (mapM f l) as [ls'|e]; cbn [bind]; [|discriminate].
      intros [= <-] y H. cbn [concat] in H. apply in_app_or in H as [H|H].
      + exists x, ys. cbn. auto.
      + destruct (IH ls' eq_refl y H) as (x' & ys' & I & F & G). exists x', ys'. cbn. auto.
  Qed.

  Lemma spans_fact_eq sc rep chg attrs : spans_fact (mkFact sc rep chg attrs) =
    let! ls := mapM (fun p => let '(k, s) := p in spans_slot (str_in k rep) (str_in k chg) s) attrs in Ok (concat ls).
  Proof. reflexivity. Qed.
  Lemma spans_list_eq chg l : spans_slot true chg (SList l) = let! ls := mapM spans_result l in Ok (concat ls).
  Proof. reflexivity. Qed.
  Lemma mapM_concat' {A B} (f : A -> res (list B)) l ls : mapM f l = Ok ls -> forall x ys y, In x l -> f x = Ok ys -> In y ys ->
    In y (concat ls).
  Proof.
    revert ls. induction l as [|x l IH]; intros ls; cbn [mapM]; [intros _ x ys y []|].
    destruct (f x) as [zs|e] eqn:E; cbn [bind]; [|discriminate]. destruct (mapM f l) as [ls'|e]; cbn [bind]; [|discriminate].
    intros [= <-] x' ys y [<-|H] F I; cbn [concat]; apply in_or_app.
    - left. congruence.
    - right. eapply IH; eauto.
  Qed.

  Definition slot_chain (s : slot) (ts : list token) : Prop :=
    match s with
    | SResult r => chain_in r ts
    | SList l => exists r, In r l /\ chain_in r ts
    | SDefault _ => False
    end.
  Lemma fact_chain sc rep chg attrs ts : chain_in (RFact (mkFact sc rep chg attrs)) ts <->
    exists k s, In (k, s) attrs /\ slot_chain s ts.
  Proof.
    split.
    - intros H. inversion H; subst; [exists k, (SResult r)|exists k, (SList l)]; cbn; eauto.
    - intros (k & [l|v|r] & I & H); cbn in H; [destruct H as (r & J & H)|destruct H|]; [eapply chain_list|eapply chain_plain]; eauto.
  Qed.
  Definition spans_of (C : list token -> Prop) (r : res (list (Z * Z))) : Prop :=
    exists l, r = Ok l /\ forall sp, In sp l <-> exists ts, C ts /\ get_tokens_span ts = Ok sp.
  Lemma spans_of_ext C C' r : (forall ts, C ts <-> C' ts) -> spans_of C r -> spans_of C' r.
  Proof.
    intros H (l & E & G). exists l. split; auto. intros sp. rewrite G.
    split; intros (ts & A & B); exists ts; split; auto; apply H; auto.
  Qed.

  Lemma chain_wf P Q C r ts : chain_in r ts -> wf_result P Q C r -> P ts.
  Proof.
    intros H. induction H as [ts k|r a ts H IH|v r ts H IH|sc rep chg attrs k r ts I H IH|sc rep chg attrs k l r ts I J H IH]; cbn [wf_result].
    - auto.
    - auto.
    - tauto.
    - intros (_ & _ & _ & _ & F). rewrite All_in in F. destruct (F _ I) as [_ G]. exact (IH G).
    - intros (_ & _ & _ & _ & F). rewrite All_in in F. destruct (F _ I) as [_ G]. 
      change (All (wf_result P Q C) l) in G. rewrite All_in in G. apply IH, G, J.
  Qed.

  Lemma wf_spans (P : list token -> Prop) (Q : pyval -> Prop) : (forall ts, P ts -> ts <> []) ->
    forall r, wf_result P Q False r -> spans_of (chain_in r) (spans_result r).
  Proof.
    intros NE. apply (result_induct (fun r => wf_result P Q False r -> spans_of (chain_in r) (spans_result r))
      (fun f => wf_fact P Q False f -> spans_of (chain_in (RFact f)) (spans_fact f))
      (fun s => forall rep chg, shape rep s -> wf_slot P Q False s -> spans_of (slot_chain s) (spans_slot rep chg s))); cbn [wf_result wf_slot]; auto.
    - intros ts k H. cbn [spans_result]. pose proof (NE ts H) as N. destruct ts as [|t ts]; [congruence|]. cbn [get_tokens_span bind].
      eexists. split; [reflexivity|]. intros sp. split.
      + intros [<-|[]]. exists (t :: ts). split; [constructor|reflexivity].
      + intros (ts' & I & E). inversion I; subst. injection E as <-. left. reflexivity.
    - intros r a IH H. apply IH in H. cbn [spans_result]. revert H. apply spans_of_ext. intros ts. split; [constructor; auto|].
      intros I. inversion I; subst; auto.
    - intros v r IH [_ H]. apply IH in H. cbn [spans_result]. revert H. apply spans_of_ext. intros ts. split; [constructor; auto|].
      intros I. inversion I; subst; auto.
    - intros v items k [_ []].
    - intros sc rep chg attrs IH (A & B & D & E & F). rewrite spans_fact_eq. rewrite All_in in F.
      assert (G : forall k s, In (k, s) attrs -> spans_of (slot_chain s) (spans_slot (str_in k rep) (str_in k chg) s)).
      { intros k s H. specialize (F _ H). cbn [fst snd] in F. destruct F as [F1 F2]. eapply IH; eauto. }
      destruct (mapM_ok (fun p => let '(k, s) := p in spans_slot (str_in k rep) (str_in k chg) s) attrs) as [ls El].
      { intros [k s] H. destruct (G k s H) as (l & -> & _). eauto. }
      rewrite El. cbn [bind]. eexists. split; [reflexivity|]. intros sp. split.
      + intros H. destruct (mapM_concat _ _ _ El _ H) as ([k s] & ys & I & Ep & J). destruct (G k s I) as (l & El' & K).
        rewrite Ep in El'. injection El' as ->. apply K in J as (ts & J & E'). exists ts. split; auto.
        apply fact_chain. eauto.
      + intros (ts & I & E'). apply fact_chain in I as (k & s & I & J). destruct (G k s I) as (l & El' & K).
        eapply mapM_concat'; [exact El|exact I|exact El'|]. apply K. eauto.
    - intros l IH rep chg S W. cbn in S. subst rep. rewrite spans_list_eq. rewrite All_in in W.
      destruct (mapM_ok spans_result l) as [ls El].
      { intros r H. destruct (IH r H (W r H)) as (x & -> & _). eauto. }
      rewrite El. cbn [bind]. eexists. split; [reflexivity|]. intros sp. split.
      + intros H. destruct (mapM_concat _ _ _ El _ H) as (p & ys & I & Ep & J). destruct (IH p I (W p I)) as (x & El' & K).
        rewrite Ep in El'. injection El' as ->. apply K in J as (ts & J & E'). exists ts. split; auto. cbn. eauto.
      + intros (ts & (r & I & J) & E'). destruct (IH r I (W r I)) as (x & El' & K).
        eapply mapM_concat'; [exact El|exact I|exact El'|]. apply K. eauto.
    - intros v rep chg S W. cbn in S. subst rep. eexists. split; [reflexivity|]. intros sp. split; [intros []|intros (ts & [] & _)].
    - intros r IH rep chg S W. cbn in S. subst rep. exact (IH W).
  Qed.

  (** ** JSON *)
  Fixpoint pyval_size (v : pyval) : nat :=
    match v with
    | VList l => S (list_sum (map pyval_size l))
    | VDict d => S (list_sum (map (fun p => pyval_size (snd p)) d))
    | _ => 1
    end.
  Lemma no_fact_json : forall n v, pyval_size v <= n -> no_fact v = true -> to_json v = v.
  Proof.
    induction n as [|n IH]; intros v L; [destruct v; cbn in L; lia|]. destruct v as [|s|z|l|d|sc attrs raw|m]; cbn [no_fact to_json]; try reflexivity; [|discriminate].
    intros F. f_equal. cbn [pyval_size] in L. assert (L' : list_sum (map pyval_size l) <= n) by lia. clear L.
    induction l as [|x l IHl]; [reflexivity|]. cbn [forallb] in F. apply andb_true_iff in F as [F1 F2].
    cbn [map list_sum fold_right] in L'. cbn [map]. f_equal; [apply IH; auto; lia|]. apply IHl; auto. unfold list_sum. lia.
  Qed.

  Lemma to_json_none v : is_none (to_json v) = is_none v.
  Proof. destruct v; reflexivity. Qed.

  Lemma filter_app_nodup {B} (f : B -> bool) (l l' : list B) : filter f (l ++ l') = filter f l ++ filter f l'.
  Proof. apply filter_app. Qed.

  Notation keep_p := (fun p : str * pyval => negb (is_none (snd p))).

  Lemma filter_set k v (acc : list (str * pyval)) : sdict_get k acc = None ->
    sdict_set k v acc = acc ++ [(k, v)].
  Proof.
    induction acc as [|[k' v'] acc IH]; cbn; [reflexivity|]. destruct (str_eqb k k'); [discriminate|]. intros H. rewrite IH; auto.
  Qed.
  Lemma set_same {B} k (v : B) (acc : list (str * B)) : sdict_get k acc = Some v -> sdict_set k v acc = acc.
  Proof.
    induction acc as [|[k' v'] acc IH]; cbn; [discriminate|]. destruct (str_eqb k k') eqn:E.
    - intros [= ->]. reflexivity.
    - intros H. rewrite IH; auto.
  Qed.

  (** The two loops over [__attributes__], one keeping None. *)
  Lemma json_loop (val : str -> pyval) (vals : list (str * pyval)) : (forall k v, sdict_get k vals = Some v -> v = val k) ->
    forall l data acc, (forall k, In k l -> sdict_get k vals <> None) ->
    data = filter keep_p (map (fun p => (fst p, to_json (snd p))) acc) ->
    (forall k v, In (k, v) acc -> to_json v = val k) ->
    forall norm : str -> pyval, (forall k, In k l -> to_json (norm k) = val k) ->
    (forall k v, In (k, v) acc -> v = norm k) -> NoDup (map fst acc) ->
    fold_left (fun acc k => let! data := acc in
       match sdict_get k vals with Some VNone => Ok data | Some v => Ok (sdict_set k v data) | None => Err KeyError end) l (Ok data) =
    Ok (filter keep_p (map (fun p => (fst p, to_json (snd p))) (fold_left (fun acc k => sdict_set k (norm k) acc) l acc))).
  Proof.
    intros V. induction l as [|k l IH]; intros data acc T D A norm Nv An ND; cbn [fold_left bind]; [rewrite D; reflexivity|].
    destruct (sdict_get k vals) as [v|] eqn:E; [|exfalso; apply (T k); cbn; auto].
    pose proof (V k v E) as Ev. subst v.
    assert (X : (match val k with VNone => Ok data | _ => Ok (sdict_set k (val k) data) end) =
                Ok (filter keep_p (map (fun p => (fst p, to_json (snd p))) (sdict_set k (norm k) acc)))).
    { destruct (sdict_get k acc) as [w|] eqn:Ek.
      - assert (w = norm k) as -> by (apply An; apply get_in; auto).
        rewrite (set_same k (norm k)) by auto. subst data.
        assert (S : sdict_get k (filter keep_p (map (fun p => (fst p, to_json (snd p))) acc)) = if is_none (val k) then None else Some (val k)).
        { clear - Ek ND Nv. specialize (Nv k (or_introl eq_refl)). induction acc as [|[k' v'] acc IH]; cbn in Ek |- *; [discriminate|].
          inversion ND as [|? ? Hn ND']; subst. cbn [map filter snd fst]. destruct (str_eqb k k') eqn:E.
          - injection Ek as ->. apply str_eqb_eq in E as <-. rewrite to_json_none. rewrite <- Nv, to_json_none.
            destruct (is_none (norm k)) eqn:En; cbn [negb].
            + assert (H : forall d, ~ In k (map fst (filter keep_p d)) -> sdict_get k (filter keep_p d) = None).
              { intros d. generalize (filter keep_p d). clear. intros l H. induction l as [|[a b] l IH]; [reflexivity|]. cbn in *.
                destruct (str_eqb k a) eqn:E; [exfalso; apply H; left; apply str_eqb_eq in E; auto|]. apply IH. tauto. }
              apply H. intros Hin. apply Hn. apply in_map_iff in Hin as ([a b] & Ea & Hin). cbn in Ea. subst a.
              apply filter_In in Hin as [Hin _]. apply in_map_iff in Hin as ([a c] & Ea & Hin). injection Ea as <- <-.
              apply in_map_iff. exists (a, c). auto.
            + cbn [sdict_get]. rewrite str_eqb_refl. reflexivity.
          - destruct (is_none (to_json v')); cbn [negb]; [apply IH; auto|]. cbn [sdict_get]. rewrite E. apply IH; auto. }
        revert S. destruct (val k) as [|?|?|?|?|?|?]; cbn [is_none]; intros S; try (rewrite set_same by exact S); reflexivity.
      - rewrite (filter_set k (norm k)) by auto. rewrite map_app, filter_app, D. cbn [map filter fst snd].
        rewrite (Nv k (or_introl eq_refl)).
        assert (S : sdict_get k (filter keep_p (map (fun p => (fst p, to_json (snd p))) acc)) = None).
        { clear - Ek. induction acc as [|[k' v'] acc IH]; cbn in Ek |- *; [reflexivity|]. destruct (str_eqb k k') eqn:E; [discriminate|].
          destruct (is_none (to_json v')); cbn [negb]; [apply IH; auto|]. cbn. rewrite E. apply IH; auto. }
        destruct (val k) as [|?|?|?|?|?|?]; cbn [is_none negb]; try (rewrite app_nil_r; reflexivity); rewrite filter_set by exact S; reflexivity. }
    cbv beta in X. rewrite X. apply IH; auto.
    - intros k' Hk'. apply T. right. auto.
    - intros k' v H. apply in_get in H; [|apply set_nodup; exact ND]. rewrite get_set in H.
      destruct (str_eqb k' k) eqn:Ek.
      + apply str_eqb_eq in Ek as ->. injection H as <-. apply Nv. left. auto.
      + apply A. apply get_in. auto.
    - intros k' Hk'. apply Nv. right. auto.
    - intros k' v H. apply in_get in H; [|apply set_nodup; exact ND]. rewrite get_set in H.
      destruct (str_eqb k' k) eqn:Ek.
      + apply str_eqb_eq in Ek as ->. injection H as <-. reflexivity.
      + apply An. apply get_in. auto.
    - apply set_nodup. auto.
  Qed.

  Lemma fact_free_json v : fact_free v -> to_json v = v.
  Proof. apply (no_fact_json (pyval_size v)); auto. Qed.

  Lemma mapM_in {A B} (f : A -> res B) l ys : mapM f l = Ok ys -> forall x, In x l -> exists y, f x = Ok y /\ In y ys.
  Proof.
    revert ys. induction l as [|x l IH]; intros ys; cbn [mapM]; [intros _ y []|].
    destruct (f x) as [y|] eqn:E; cbn [bind]; [|discriminate]. destruct (mapM f l) as [ys'|]; cbn [bind]; [|discriminate].
    intros [= <-] z [<-|H]; [exists y; cbn; auto|]. destruct (IH ys' eq_refl z H) as (w & E1 & E2). exists w. cbn. auto.
  Qed.
  Lemma mapM_in' {A B} (f : A -> res B) l ys : mapM f l = Ok ys -> forall y, In y ys -> exists x, f x = Ok y /\ In x l.
  Proof.
    revert ys. induction l as [|x l IH]; intros ys; cbn [mapM]; [intros [= <-] y []|].
    destruct (f x) as [y|] eqn:E; cbn [bind]; [|discriminate]. destruct (mapM f l) as [ys'|]; cbn [bind]; [|discriminate].
    intros [= <-] z [<-|H]; [exists x; cbn; auto|]. destruct (IH ys' eq_refl z H) as (w & E1 & E2). exists w. cbn. auto.
  Qed.
  Lemma mapM_keys {B C} (f : str -> B -> res C) (l : list (str * B)) ys :
    mapM (fun p => let '(k, s) := p in let! v := f k s in Ok (k, v)) l = Ok ys -> map fst ys = map fst l.
  Proof.
    revert ys. induction l as [|[k s] l IH]; intros ys; cbn [mapM]; [intros [= <-]; reflexivity|].
    destruct (f k s) as [y|] eqn:E; cbn [bind]; [|discriminate].
    destruct (mapM _ l) as [ys'|]; cbn [bind]; [|discriminate]. intros [= <-]. cbn. f_equal. auto.
  Qed.

  Lemma normalized_fact_eq sc rep chg attrs : normalized_fact schemes (mkFact sc rep chg attrs) =
    let! kwargs := mapM (fun p => let '(k, s) := p in
          let! v := normalized_slot schemes (str_in k rep) (str_in k chg) s in Ok (k, v)) attrs in
    let! values := fact_init schemes sc kwargs in Ok (VFact sc values (mkFact sc rep chg attrs)).
  Proof. reflexivity. Qed.
  Lemma json_fact_eq sc rep chg attrs : json_fact schemes (mkFact sc rep chg attrs) =
    let! values := mapM (fun p => let '(k, s) := p in
          let! v := json_slot schemes (str_in k rep) (str_in k chg) s in Ok (k, v)) attrs in
    let! data := fold_left (fun acc k => let! data := acc in
          match sdict_get k values with
          | Some VNone => Ok data
          | Some v => Ok (sdict_set k v data)
          | None => Err KeyError
          end) (map fst (schemes sc)) (Ok []) in
    Ok (VDict data).
  Proof. reflexivity. Qed.
  Lemma normalized_list_eq chg l : normalized_slot schemes true chg (SList l) =
    let! vs := mapM (normalized_result schemes) l in Ok (VList vs).
  Proof. reflexivity. Qed.
  Lemma json_list_eq chg l : json_slot schemes true chg (SList l) =
    let! vs := mapM (json_result schemes) l in Ok (VList vs).
  Proof. reflexivity. Qed.

  Lemma wf_json P C : (forall sc k d, get_decl k (schemes sc) = Some (Plain d) -> fact_free d) ->
    forall r, wf_result P fact_free C r -> forall v, normalized_result schemes r = Ok v -> json_result schemes r = Ok (to_json v).
  Proof.
    intros HD.
    apply (result_induct (fun r => wf_result P fact_free C r -> forall v, normalized_result schemes r = Ok v -> json_result schemes r = Ok (to_json v))
      (fun f => wf_fact P fact_free C f -> forall v, normalized_fact schemes f = Ok v -> json_fact schemes f = Ok (to_json v))
      (fun s => wf_slot P fact_free C s -> forall rep chg v, normalized_slot schemes rep chg s = Ok v -> json_slot schemes rep chg s = Ok (to_json v)));
      cbn [wf_result wf_slot].
    - intros ts k _ v H. cbn in H. injection H as <-. reflexivity.
    - intros f IH W v H. apply IH; auto.
    - intros r a IH W v H. apply IH; auto.
    - intros w r IH [F _] v H. cbn in H. injection H as <-. cbn [json_result]. rewrite fact_free_json; auto.
    - intros w items k [F _] v H. cbn in H. injection H as <-. cbn [json_result]. rewrite fact_free_json; auto.
    - intros sc rep chg attrs IH (A & B & D & E & F) v. rewrite normalized_fact_eq, json_fact_eq. rewrite All_in in F.
      destruct (mapM (fun p => let '(k, s) := p in let! v0 := normalized_slot schemes (str_in k rep) (str_in k chg) s in Ok (k, v0)) attrs)
        as [kwargs|] eqn:EK; cbn [bind]; [|discriminate].
      unfold fact_init. destruct (forallb _ kwargs); cbn [bind]; [|discriminate].
      match goal with |- context[fold_left (fun acc k => sdict_set k (@?f k) acc) _ _] => set (norm := f) end.
      change (fun acc k => sdict_set k _ acc) with (fun acc k => sdict_set k (norm k) acc).
      intros [= <-].
      pose proof (mapM_keys (fun k s => normalized_slot schemes (str_in k rep) (str_in k chg) s) _ _ EK) as KK.
      assert (KN : forall k s w, In (k, s) attrs -> normalized_slot schemes (str_in k rep) (str_in k chg) s = Ok w -> norm k = w).
      { intros k s w Hin Hn. destruct (mapM_in _ _ _ EK _ Hin) as (y & Ey & Hy). cbv beta iota in Ey. rewrite Hn in Ey. cbn [bind] in Ey.
        injection Ey as <-. unfold norm. rewrite (in_get k w kwargs); auto. rewrite KK. auto. }
      assert (KE : forall k s, In (k, s) attrs -> json_slot schemes (str_in k rep) (str_in k chg) s = Ok (to_json (norm k))).
      { intros k s Hin. destruct (mapM_in _ _ _ EK _ Hin) as (y & Ey & Hy). cbv beta iota in Ey.
        destruct (normalized_slot schemes (str_in k rep) (str_in k chg) s) as [w|] eqn:Ew; cbn [bind] in Ey; [|discriminate].
        rewrite (KN k s w Hin Ew). apply (IH k s Hin); auto. destruct (F _ Hin) as [_ F2]. exact F2. }
      destruct (mapM_ok (fun p => let '(k, s) := p in let! v0 := json_slot schemes (str_in k rep) (str_in k chg) s in Ok (k, v0)) attrs) as [vals EV].
      { intros [k s] Hin. rewrite (KE k s Hin). cbn [bind]. eauto. }
      rewrite EV. cbn [bind].
      pose proof (mapM_keys (fun k s => json_slot schemes (str_in k rep) (str_in k chg) s) _ _ EV) as VK.
      rewrite (json_loop (fun k => to_json (norm k)) vals) with (acc := []) (norm := norm); cbn [bind to_json]; auto.
      + intros k w Hw. apply get_in in Hw. destruct (mapM_in' _ _ _ EV _ Hw) as ([k' s] & E1 & E2). rewrite (KE k' s E2) in E1.
        cbn [bind] in E1. injection E1 as <- <-. reflexivity.
      + intros k Hk Hn. assert (N : get_decl k (schemes sc) <> None).
        { pose proof (get_decl_keys k (schemes sc)) as G. intros G'. rewrite G' in G.
          assert (str_in k (map fst (schemes sc)) = true) by (unfold str_in; apply existsb_exists; exists k; split; auto; apply str_eqb_refl).
          congruence. }
        apply D in N. destruct (sdict_get k attrs) as [s|] eqn:Es; [|congruence]. apply get_in in Es.
        destruct (mapM_in _ _ _ EV _ Es) as (y & Ey & Hy). rewrite (KE k s Es) in Ey. cbn [bind] in Ey. injection Ey as <-.
        rewrite (in_get k (to_json (norm k)) vals) in Hn; [discriminate| |auto]. rewrite VK. auto.
      + intros k w [].
      + intros k w [].
      + constructor.
    - intros l IH W rep chg v. destruct rep; [|discriminate]. rewrite normalized_list_eq, json_list_eq, All_in in *.
      destruct (mapM (normalized_result schemes) l) as [ys|] eqn:EK; cbn [bind]; [|discriminate]. intros [= <-].
      cbn [to_json].
      assert (G : mapM (json_result schemes) l = Ok (map to_json ys)).
      { revert ys EK. induction l as [|r l IHl]; intros ys EK; cbn [mapM] in *; [injection EK as <-; reflexivity|].
        destruct (normalized_result schemes r) as [y|] eqn:Er; cbn [bind] in EK; [|discriminate].
        destruct (mapM (normalized_result schemes) l) as [ys'|]; cbn [bind] in EK; [|discriminate]. injection EK as <-.
        rewrite (IH r (or_introl eq_refl) (W r (or_introl eq_refl)) y Er). cbn [bind].
        rewrite (IHl (fun r H => IH r (or_intror H)) (fun r H => W r (or_intror H)) ys' eq_refl). reflexivity. }
      rewrite G. reflexivity.
    - intros v W rep chg w. cbn. destruct rep; [discriminate|]. intros [= <-]. rewrite fact_free_json; auto.
    - intros r IH W rep chg v. destruct rep; [discriminate|]. exact (IH W v).
  Qed.
End Wf.
