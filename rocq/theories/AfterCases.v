(** Concrete rules and texts that are continued. *)
From Coq Require String.
From Verif Require Import Base TokenModel EarleyModel EarleySpec TokenizerModel TaggerModel PredicateModel PipelineModel PipelineSpec PipelineTheorems
  ParserModel RuleModel RuleSpec RuleAccept RuleBuild GrammarModel GrammarSpec RuleNestSpec TextModel PredicateCases Cases RuleCases SetOrderTheorems TextTheorems
  AbsentCases RuleAgainCases PieceSpec PieceCases IndexCases AfterSpec.
Import String.StringSyntax.
Open Scope nat_scope.

(** No predicate of the program accepts the token. *)
Definition foreignb (h : rule_heap) (t : token) : bool :=
  forallb (fun o => match o with
    | OProd ts _ => forallb (fun x => match x with TPred p => negb (accepts_active (accepts ASCII) (activate small_context) p t) | TRule _ => true end) ts
    | OPipeline l => match active_bnf (pipeline_as_bnf ASCII first_seen) (activate_pipeline small_context) l with
        | Ok b => forallb (fun x => forallb (fun p => negb (accepts_active (accepts ASCII) (activate small_context) p t)) (snd x)) (b_productions b)
        | Err _ => true
        end
    | _ => true
    end) h.
Lemma foreignb_true h root t : foreignb h t = true -> foreign ASCII first_seen small_context h root t.
Proof.
  intros F x o _ E. unfold foreignb in F. rewrite forallb_forall in F. specialize (F o (nth_error_In _ _ E)). destruct o; auto.
  - intros b key ps p B Il Ip. rewrite B in F. rewrite forallb_forall in F. specialize (F _ Il). cbn [snd] in F. rewrite forallb_forall in F. specialize (F _ Ip). apply negb_true_iff in F. exact F.
  - intros p Ip. rewrite forallb_forall in F. specialize (F _ Ip). apply negb_true_iff in F. exact F.
Qed.
(** A rule, a text, a continuation of it whose first token is foreign. *)
Definition continued (p : list rule_call) (root : nat) (a w : str) : Prop :=
  built (program p) /\ harmless (program p) root /\ is_rule_at (program p) root /\
  exists ts t more, text_tokens small_context a = Some (Ok ts) /\ text_tokens small_context w = Some (Ok (ts ++ t :: more)) /\
    foreign ASCII first_seen small_context (program p) root t.
Lemma continued_true p root a w : valid [] p && is_rule_atb (program p) root && harmlessb (program p) = true ->
  match text_tokens small_context a, text_tokens small_context w with
  | Some (Ok ts), Some (Ok us) => firstn (length ts) us = ts /\ match skipn (length ts) us with t :: _ => foreignb (program p) t = true | [] => False end
  | _, _ => False
  end -> continued p root a w.
Proof.
  rewrite !andb_true_iff. intros [[V R] H] X. apply program_built in V. apply is_rule_atb_true in R. apply harmlessb_true with (root := root) in H; auto. split; [exact V|]. split; [exact H|]. split; [exact R|].
  destruct (text_tokens small_context a) as [[ts|]|]; try contradiction. destruct (text_tokens small_context w) as [[us|]|]; try contradiction. destruct X as [X F].
  destruct (skipn (length ts) us) as [|t more] eqn:K; [contradiction|]. exists ts, t, more. split; [reflexivity|]. split; [rewrite <- X at 1; rewrite <- K, firstn_skipn; reflexivity|]. apply foreignb_true, F.
Qed.
(** What extract yields, and the exception that ended it. *)
Definition extracted (p : list rule_call) (root : nat) (text : str) :=
  match parser_extract ASCII first_seen small_context no_relations 100 (program p) root text true with
  | Some (Ok (ms, _, e)) => Some (map (fun m => (m_range m, m_span m)) ms, e)
  | _ => None
  end.
(** or_(rule(x.match(r), y.match(r)), rule(z)) *)
Definition related_program : list rule_call := [CRule [W "x"]; CMatch 1 0; CRule [W "y"]; CMatch 4 0; CRule [R 2; R 5]; CRule [W "z"]; COr [7; 9]].
