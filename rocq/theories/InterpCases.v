(** Concrete facts, grammars and texts for the examples about interpretation. *)
From Coq Require String.
From Verif Require Import Base TokenModel EarleyModel TreeModel TreeSpec ParserModel ParserSpec PredicateModel Cases PredicateCases TokenizerSpec
  PipelineModel PipelineTheorems InterpModel InterpSpec InterpMatch FactTheorems.

Definition interp_grammar (rules : list (list nat)) (prods : list (list (term str))) (interp : list (option nat)) : grammar token str :=
  mkGrammar (fun r => nth r rules []) (fun r _ => nth r rules []) (fun q => nth q prods [])
    (fun _ => 0) (fun _ => None) (fun _ => None) (fun r => nth r interp None) 0.

Definition k (s : String.string) : str := str_of s.
Arguments k s%string.
(** class Person: name (plain), age (plain, default "adult"), tags (repeatable);
    class Money: amount; class Deal: who, money. *)
Definition PERSON := 0. Definition MONEY := 1. Definition DEAL := 2.
Definition classes (sc : nat) : scheme :=
  match sc with
  | 0 => [(k "name", Plain VNone); (k "age", Plain (VStr (k "adult"))); (k "tags", Repeatable)]
  | 1 => [(k "amount", Plain VNone)]
  | 2 => [(k "who", Plain VNone); (k "money", Plain VNone); (k "note", Plain VNone)]
  | _ => []
  end.
Definition same_class : nat -> nat -> bool := Nat.eqb.
Lemma classes_kinds : kinds_agree classes same_class.
Proof. intros sc sc' n H. apply Nat.eqb_eq in H as ->. reflexivity. Qed.
Definition no_inflect (_ : nat) (_ : list str) : option str := None.

Definition NAME := mkAttr PERSON (k "name").
Definition TAGS := mkAttr PERSON (k "tags").
Definition AMOUNT := mkAttr MONEY (k "amount").
Definition WHO := mkAttr DEAL (k "who").
Definition MONEYOF := mkAttr DEAL (k "money").

Definition all_facts g interps (toks : list token) : option (list (res pyval)) :=
  match findall word_accepts word_constrain (fun _ _ _ => true) g 50 toks with
  | Some (Ok (s, ms)) => Some (map (match_fact classes same_class ASCII no_inflect g interps s) ms)
  | _ => None
  end.
Definition first g (toks : list token) : option (store * @amatch str) :=
  match findall word_accepts word_constrain (fun _ _ _ => true) g 50 toks with
  | Some (Ok (s, m :: _)) => Some (s, m)
  | _ => None
  end.
Lemma first_reported g toks s m : first g toks = Some (s, m) ->
  reported word_accepts word_constrain (fun _ _ _ => true) g 50 toks s m.
Proof.
  unfold first. destruct (findall _ _ _ g 50 toks) as [[[s' [|m' ms]]|]|] eqn:E; try discriminate. intros [= <- <-].
  eapply reported_findall; [exact E|left; reflexivity].
Qed.
Definition attrs_of (v : res pyval) : list (str * pyval) :=
  match v with Ok (VFact _ attrs _) => attrs | _ => [] end.
Definition spans_of_fact (v : res pyval) : res (list (Z * Z)) := let! v := v in value_spans v.
Definition json_of_fact (v : res pyval) : res pyval := let! v := v in value_json classes v.

(** "john smith tall old": name over two words, two tags. *)
Definition person_grammar : grammar token str :=
  interp_grammar [[0]; [1]; [2; 3]]
    [[RULE 1; RULE 2; RULE 2]; [WORD "john"; WORD "smith"]; [WORD "tall"]; [WORD "old"]]
    [Some 0; Some 1; Some 2].
Definition person_interps (i : nat) : interpretator :=
  match i with 0 => IFact PERSON | 1 => IAttr NAME | _ => IAttr TAGS end.
Definition john := words ["john"; "smith"; "tall"; "old"]%string.

(** The same with each tag wrapped into a Person of its own. *)
Definition parts_grammar : grammar token str :=
  interp_grammar [[0]; [1]; [2; 3]; [4]]
    [[RULE 1; RULE 3; RULE 3]; [WORD "john"; WORD "smith"]; [WORD "tall"]; [WORD "old"]; [RULE 2]]
    [Some 0; Some 1; Some 2; Some 0].

(** A deal: a person and an amount, nested facts. *)
Definition deal_grammar : grammar token str :=
  interp_grammar [[0]; [1]; [2]; [3]; [4]; [5]]
    [[RULE 1; RULE 3]; [RULE 2]; [RULE 5]; [RULE 4]; [WORD "ten"; WORD "euro"]; [WORD "john"]]
    [Some 0; Some 1; Some 2; Some 3; Some 4; Some 5].
Definition deal_interps (i : nat) : interpretator :=
  match i with
  | 0 => IFact DEAL | 1 => IAttr WHO | 2 => IFact PERSON | 3 => IAttr MONEYOF
  | 4 => INorm (NFunction (fun v => Ok v)) | _ => IAttr NAME
  end.
Definition deal := words ["john"; "ten"; "euro"]%string.
(** The person goes through custom(lambda _: _) first. *)
Definition custom_interps (i : nat) : interpretator :=
  match i with 1 => IAttrNorm WHO (NFunction (fun v => Ok v)) | _ => deal_interps i end.
(** The amount is const(10). *)
Definition const_interps (i : nat) : interpretator :=
  match i with 4 => INorm (NConst (VInt 10)) | _ => deal_interps i end.

(** Two parts of one person. *)
Definition tag_part (s : String.string) : ifact :=
  match call_fact classes same_class PERSON [IResult (RAttr (RChain (words [s]) None) TAGS)] with
  | Ok (RFact f) => f | _ => mkFact 0 [] [] [] end.
Lemma tag_part_built s : built classes same_class (tag_part s).
Proof. exists [IResult (RAttr (RChain (words [s]) None) TAGS)]. reflexivity. Qed.

Lemma parts_refute :
  exists schemes subclass sc key p1 p2 f v v1 v2 l1 l2,
  kinds_agree schemes subclass /\ get_decl key (schemes sc) = Some Repeatable /\
  built schemes subclass p1 /\ built schemes subclass p2 /\
  call_fact schemes subclass sc [IResult (RFact p1); IResult (RFact p2)] = Ok (RFact f) /\
  normalized_fact schemes p1 = Ok v1 /\ normalized_fact schemes p2 = Ok v2 /\ normalized_fact schemes f = Ok v /\
  value_attr key v1 = Some (VList l1) /\ value_attr key v2 = Some (VList l2) /\
  l1 <> [] /\ value_attr key v = Some (VList l2).
Proof.
  exists classes, same_class, PERSON, (k "tags"), (tag_part "tall"), (tag_part "old").
  do 6 eexists. split; [exact classes_kinds|]. split; [reflexivity|]. split; [apply tag_part_built|].
  split; [apply tag_part_built|]. split; [reflexivity|]. split; [reflexivity|]. split; [reflexivity|]. split; [reflexivity|].
  split; [reflexivity|]. split; [reflexivity|]. split; [discriminate|reflexivity].
Qed.

Lemma json_refutes :
  exists g interps toks fuel s m v j,
  kinds_agree classes same_class /\
  reported word_accepts word_constrain (fun _ _ _ => true) g fuel toks s m /\
  match_fact classes same_class ASCII no_inflect g interps s m = Ok v /\ is_fact v /\
  value_json classes v = Ok j /\ j <> to_json v.
Proof.
  exists deal_grammar, custom_interps, deal, 50. destruct (first deal_grammar deal) as [[s m]|] eqn:F; [|vm_compute in F; discriminate].
  exists s, m. pose proof (first_reported _ _ _ _ F) as R. vm_compute in F. injection F as <- <-. do 2 eexists.
  split; [exact classes_kinds|]. split; [exact R|]. split; [vm_compute; reflexivity|].
  split; [do 3 eexists; reflexivity|]. split; [vm_compute; reflexivity|]. vm_compute. discriminate.
Qed.

Lemma spans_refute :
  exists g interps toks fuel s m v,
  kinds_agree classes same_class /\
  reported word_accepts word_constrain (fun _ _ _ => true) g fuel toks s m /\
  match_fact classes same_class ASCII no_inflect g interps s m = Ok v /\ is_fact v /\
  value_spans v = Err AttributeError.
Proof.
  exists deal_grammar, const_interps, deal, 50. destruct (first deal_grammar deal) as [[s m]|] eqn:F; [|vm_compute in F; discriminate].
  exists s, m. pose proof (first_reported _ _ _ _ F) as R. vm_compute in F. injection F as <- <-. eexists.
  split; [exact classes_kinds|]. split; [exact R|]. split; [vm_compute; reflexivity|].
  split; [do 3 eexists; reflexivity|]. reflexivity.
Qed.

(** normalized() over a part that is a single attribute result. *)
Lemma single_refutes :
  exists schemes U inflect n items key, is_const n = false /\ Forall proper_item items /\ ~ ambiguous items /\
  call_norm schemes U inflect n items key = Err TypeError.
Proof.
  exists classes, ASCII, no_inflect, (NMorph MNormalized), [IResult (RAttr (RChain deal None) NAME)], None.
  split; [reflexivity|]. split; [repeat constructor|]. split; [|reflexivity]. intros [_ H]. apply H. reflexivity.
Qed.

Lemma classes_free sc n d : get_decl n (classes sc) = Some (Plain d) -> fact_free d.
Proof.
  intros H. assert (E : forall l : scheme, forallb (fun p => match snd p with Plain d => no_fact d | Repeatable => true end) l = true ->
    get_decl n l = Some (Plain d) -> fact_free d).
  { clear H. induction l as [|[n' x] l IH]; cbn [forallb snd]; intros B H; [discriminate|]. apply andb_true_iff in B as [B1 B2].
    cbn [get_decl] in H. destruct (get_decl n l) as [x'|]; [apply IH; [exact B2|congruence]|]. destruct (str_eqb n n'); [|discriminate]. injection H as ->. exact B1. }
  revert H. apply E. destruct sc as [|[|[|]]]; reflexivity.
Qed.

Definition a_token : token := mkToken (k "x") 0 1 (k "LATIN") None None.
Lemma ambiguous_examples :
  Forall proper_item [IResult (RAttr (RChain deal None) NAME); IToken a_token] /\
  ambiguous [IResult (RAttr (RChain deal None) NAME); IToken a_token] /\
  ~ ambiguous [IResult (RAttr (RChain deal None) NAME)] /\ ~ ambiguous (map IToken deal) /\
  filter (relevant same_class PERSON) [IResult (RAttr (RChain deal None) AMOUNT); IToken a_token;
    IResult (RAttr (RChain deal None) NAME)] = [IResult (RAttr (RChain deal None) NAME)].
Proof.
  split; [repeat constructor|]. split.
  { split; [|discriminate]. eexists. split; [left; reflexivity|]. intros [t H]. discriminate. }
  split; [intros [_ H]; apply H; reflexivity|]. split; [|reflexivity].
  intros [(i & H & N) _]. apply N. apply in_map_iff in H as (t & <- & _). exists t. reflexivity.
Qed.

(** morph-free pipelines with .interpretation(normalized()). *)
Definition normalized_line (kd : kind) (lines : list str) (toks : list token) : option (res pyval) :=
  match build kd lines with
  | Ok b =>
      let p := pipeline_grammar ASCII first_seen b in
      let g := mkGrammar (g_prods p) (g_predict p) (g_terms p) (g_main p) (g_key p) (g_relation p) (fun _ => Some 0) (g_start p) in
      match match_ (accepts ASCII) narrow (fun _ _ _ => true) g 50 toks with
      | Some (Ok (s, Some m)) => Some (match_fact classes same_class ASCII no_inflect g (fun _ => INorm (NMorph MNormalized)) s m)
      | _ => None
      end
  | Err _ => None
  end.
Lemma text_examples :
  joined deal (k "john ten euro") /\ Forall (faithful (k "john ten euro")) deal /\ single_spaces (k "john ten euro") deal /\
  normalized_line Caseless cities new_york = Some (Ok (VStr (k "New York"))).
Proof.
  split; [exact (joined_join deal ltac:(discriminate))|]. split.
  { constructor; [exists [], (k " ten euro"); repeat split|]. constructor; [exists (k "john "), (k " euro"); repeat split|].
    constructor; [exists (k "john ten "), []; repeat split|]. constructor. }
  split; [vm_compute; intuition|]. vm_compute. reflexivity.
Qed.
