(** Concrete charts. *)
From Coq Require String.
From Verif Require Import Base TokenModel EarleyModel EarleySpec EarleyProofs TreeModel ParserModel PredicateModel PredicateSpec PredicateCases PipelineModel PipelineSpec PipelineTheorems RuleModel RuleSpec RuleBuild RuleCases GrammarModel DotTextModel LabelModel
  WrittenSpec Cases ParserRefuted EntrySpec EntryProofs ChartTextModel ChartTextSpec.
Import String.StringSyntax.
Open Scope nat_scope.

(** S -> A B;  B -> A 'c';  A -> | 'a': [0:0] B -> A $ 'c' is not in the chart of "c". *)
Definition short_entry {token pred} (s : EarleyModel.state token pred) : nat * nat * nat * nat := (s_rule s, s_prod s, s_dot s, s_start s).
Definition entry_eqb (a b : nat * nat * nat * nat) : bool :=
  let '(r, q, d, i) := a in let '(r', q', d', i') := b in (r =? r') && (q =? q') && (d =? d') && (i =? i').
Definition skipping_chart : cst token str := match chart word_accepts word_constrain skipping (words ["c"]%string) 50 false with Some st => st | None => init_cst end.
Lemma skipping_charted : chart word_accepts word_constrain skipping (words ["c"]%string) 50 false = Some skipping_chart.
Proof. unfold skipping_chart. destruct (chart _ _ _ _ _ _) eqn:E; [reflexivity|]. vm_compute in E. discriminate. Qed.
Lemma skipping_absent : existsb (fun s => entry_eqb (short_entry s) (1, 1, 1, 0)) (cols skipping_chart 0) = false.
Proof. vm_compute. reflexivity. Qed.
Lemma entry_absent {token pred} (l : list (EarleyModel.state token pred)) r q d i ds : existsb (fun s => entry_eqb (short_entry s) (r, q, d, i)) l = false -> ~ In (r, q, d, i, ds) (map recorded l).
Proof.
  intros E I. apply in_map_iff in I as (s & K & I). apply (proj2 (not_true_iff_false _)) in E. apply E. apply existsb_exists. exists s. split; [exact I|]. unfold recorded in K. injection K as <- <- <- <- _. cbn. rewrite !Nat.eqb_refl. reflexivity.
Qed.
Theorem skipping_entry : exists (g : grammar token str) toks fuel st r q d i j ds,
  predict_sound g /\ predict_complete word_accepts g /\ chart word_accepts word_constrain g toks fuel false = Some st /\
  entry word_accepts g toks false r q d i j ds /\ ~ In (r, q, d, i, ds) (map recorded (cols st j)).
Proof.
  exists skipping, (words ["c"]%string), 50, skipping_chart, 1, 1, 1, 0, 0, [DNode 2 2 []].
  split; [apply list_sound|]. split; [apply list_complete|]. split; [exact skipping_charted|]. split; [|apply entry_absent, skipping_absent].
  split; [|split; [left; reflexivity|split; [cbn; lia|]]].
  - eapply (looked_inside _ _ _ _ 0 0 0 0 [RULE 2] 1 [] [DNode 2 2 []]); [apply looked_start; [lia|left; reflexivity]|left; reflexivity|reflexivity|derive].
  - derive.
Qed.

(** E -> E '+' E | 'n' on "n + n + n": [0:5] E -> E '+' E $ is there twice. *)
Definition plain_names (t : term str) : res (option str) :=
  match t with TRule r => Ok (Some (str_of "R" ++ digits r)) | TPred p => Ok (Some (str_of "'" ++ p ++ str_of "'")) end.
Definition sums_chart : cst token str := match chart word_accepts word_constrain sums (words ["n"; "+"; "n"; "+"; "n"]%string) 200 false with Some st => st | None => init_cst end.
Lemma sums_charted : chart word_accepts word_constrain sums (words ["n"; "+"; "n"; "+"; "n"]%string) 200 false = Some sums_chart.
Proof. unfold sums_chart. destruct (chart _ _ _ _ _ _) eqn:E; [reflexivity|]. vm_compute in E. discriminate. Qed.
Lemma sums_twice : match nth_error (cols sums_chart 5) 2, nth_error (cols sums_chart 5) 4 with
  | Some s, Some s' => (state_text sums plain_names s = Ok (str_of "[0:5] R1 -> R1 '+' R1 $")) /\ (state_text sums plain_names (s') = Ok (str_of "[0:5] R1 -> R1 '+' R1 $"))
  | _, _ => False
  end.
Proof. vm_compute. auto. Qed.
Theorem sums_lines_twice : exists (g : grammar token str) toks label fuel st k m m' s s' line, chart word_accepts word_constrain g toks fuel false = Some st /\
  (forall t l, label t = Ok (Some l) -> t = TRule 1 \/ In t [RULE 1; WORD "+"; RULE 1] -> plain_label l) /\
  nth_error (cols st k) m = Some s /\ nth_error (cols st k) m' = Some s' /\ m <> m' /\ recorded s <> recorded s' /\ state_text g label s = Ok line /\ state_text g label s' = Ok line.
Proof.
  exists sums, (words ["n"; "+"; "n"; "+"; "n"]%string), plain_names, 200, sums_chart, 5, 2, 4.
  assert (T := sums_twice). destruct (nth_error (cols sums_chart 5) 2) as [s|] eqn:E; [|contradiction]. destruct (nth_error (cols sums_chart 5) 4) as [s'|] eqn:E'; [|contradiction]. destruct T as [T T'].
  exists s, s', (str_of "[0:5] R1 -> R1 '+' R1 $"). split; [exact sums_charted|]. split; [|split; [reflexivity|split; [reflexivity|split; [discriminate|split; [|split; assumption]]]]].
  - intros t l L I. assert (K : t = TRule 1 \/ t = TPred (str_of "+")) by (destruct I as [->|[<-|[<-|[<-|[]]]]]; auto). destruct K as [->| ->]; injection L as <-; (split; [reflexivity|discriminate]).
  - intros K. assert (ND := states_once word_accepts word_constrain sums (words ["n"; "+"; "n"; "+"; "n"]%string) false 200 sums_chart sums_charted 5).
    rewrite NoDup_nth_error in ND. assert (X : 2 = 4); [|discriminate]. apply ND; [rewrite map_length; apply nth_error_Some; rewrite E; discriminate|]. rewrite !nth_error_map, E, E'. cbn [option_map]. f_equal. exact K.
Qed.
