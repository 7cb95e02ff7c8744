(** * C96: EMAIL tokens and PHONE tokens
    See EmailSpec for [address] (name@host.tail), [phone] (10 to 14 digits with gaps),
    [never_empty] (no rule matches the empty string) and [first_at] (no earlier rule matches
    at the beginning). *)
From Coq Require String.
From Verif Require Import Base TokenModel TokenizerModel TokenizerSpec TokenizerTheorems PieceSpec EmailSpec EmailProofs EmailCases.
Import String.StringSyntax.
Open Scope nat_scope.

(** An EMAIL token is not always the address of the text: a full stop behind it is taken
    too, and the token is [v.] *)
Theorem email_token_is_the_address_refuted :
  exists t t' v text ts tk, default_tokenizer basic_chars = Ok t /\ add_rules t [Some (EMAIL_RULE basic_chars)] = (t', Ok tt) /\
  address basic_chars v /\ text = str_of "to " ++ v ++ str_of "." /\ tokenize 99 t' text = Some (Ok ts) /\
  In tk ts /\ t_type tk = str_of "EMAIL" /\ t_value tk = v ++ str_of ".".
Proof. exact swallowed_dot. Qed.
Print Assumptions email_token_is_the_address_refuted.
(** A PHONE token is not always one number, and takes the space before it. *)
Theorem phone_token_is_one_number_refuted :
  exists t t' text, default_tokenizer basic_chars = Ok t /\ add_rules t [Some (EMAIL_RULE basic_chars); Some (PHONE_RULE basic_chars)] = (t', Ok tt) /\
  text = str_of "in 2010 2011 2012" /\
  tokenize 99 t' text = Some (Ok [mkToken (str_of "in") 0 2 LATIN None None; mkToken (str_of " 2010 2011 2012") 2 17 (str_of "PHONE") None None]).
Proof. exact years_are_a_phone. Qed.
Print Assumptions phone_token_is_one_number_refuted.
(** Numbers do not stay whole: more than 14 digits are cut. *)
Theorem numbers_stay_whole_refuted :
  exists t t' text, default_tokenizer basic_chars = Ok t /\ add_rules t [Some (EMAIL_RULE basic_chars); Some (PHONE_RULE basic_chars)] = (t', Ok tt) /\
  text = str_of "123456789012345" /\
  tokenize 99 t text = Some (Ok [mkToken text 0 15 INT None None]) /\
  tokenize 99 t' text = Some (Ok [mkToken (str_of "12345678901234") 0 14 (str_of "PHONE") None None; mkToken (str_of "5") 14 15 INT None None]).
Proof. exact long_number_cut. Qed.
Print Assumptions numbers_stay_whole_refuted.
Theorem long_numbers_are_cut :
  forall C t sign ds fuel, compiled t -> first_at t (sign ++ ds) (PHONE_RULE C) -> digits_apart C ->
  (sign = [] \/ exists c, sign = [c] /\ plus_char C c) -> Forall (digit_char C) ds -> 14 < length ds -> 2 * length (sign ++ ds) + 1 <= fuel ->
  exists ts, tokenize fuel t (sign ++ ds) = Some (Ok (mkToken (sign ++ firstn 14 ds) 0 (Z.of_nat (length sign + 14)) (str_of "PHONE") None None :: ts)).
Proof. exact number_cut. Qed.
Print Assumptions long_numbers_are_cut.

(** EMAIL tokens look like addresses, PHONE tokens have 10 to 14 digits and nothing but
    gaps between them. *)
Theorem email_tokens_are_addresses_partial :
  forall C t text fuel ts tk, compiled t -> (forall r, In r (tk_rules t) -> r_type r = str_of "EMAIL" -> r = EMAIL_RULE C) ->
  tokenize fuel t text = Some (Ok ts) -> In tk ts -> t_type tk = str_of "EMAIL" -> address C (t_value tk).
Proof. exact email_tokens. Qed.
Print Assumptions email_tokens_are_addresses_partial.
Theorem phone_tokens_have_digits_partial :
  forall C t text fuel ts tk, compiled t -> (forall r, In r (tk_rules t) -> r_type r = str_of "PHONE" -> r = PHONE_RULE C) ->
  tokenize fuel t text = Some (Ok ts) -> In tk ts -> t_type tk = str_of "PHONE" -> phone C (t_value tk).
Proof. exact phone_tokens. Qed.
Print Assumptions phone_tokens_have_digits_partial.
(** An address standing alone is one EMAIL token, 10 to 14 digits standing alone are one PHONE
    token. *)
Theorem address_alone_is_a_token :
  forall C t v fuel, compiled t -> never_empty t -> first_at t v (EMAIL_RULE C) -> marks_apart C -> address C v -> 2 * length v + 1 <= fuel ->
  tokenize fuel t v = Some (Ok [mkToken v 0 (Z.of_nat (length v)) (str_of "EMAIL") None None]).
Proof. exact address_one_token. Qed.
Print Assumptions address_alone_is_a_token.
Theorem number_alone_is_a_token :
  forall C t sign ds fuel, compiled t -> never_empty t -> first_at t (sign ++ ds) (PHONE_RULE C) -> digits_apart C ->
  (sign = [] \/ exists c, sign = [c] /\ plus_char C c) -> Forall (digit_char C) ds -> 10 <= length ds <= 14 -> 2 * length (sign ++ ds) + 1 <= fuel ->
  tokenize fuel t (sign ++ ds) = Some (Ok [mkToken (sign ++ ds) 0 (Z.of_nat (length (sign ++ ds))) (str_of "PHONE") None None]).
Proof. exact number_one_token. Qed.
Print Assumptions number_alone_is_a_token.
(** With the rule for addresses alone, so is every address between spaces; the tokens before
    and behind it are those of the two parts of the text. *)
Theorem address_between_spaces_is_a_token :
  forall C t t' a x v y b ts ts' f f' fuel, sane C -> marks_apart C -> default_tokenizer C = Ok t -> add_rules t [Some (EMAIL_RULE C)] = (t', Ok tt) -> address C v ->
  (forall z, z = x \/ z = y -> ~ visible C z /\ ~ eol_char C z /\ ~ in_address C z) ->
  tokenize f t' a = Some (Ok ts) -> tokenize f' t' b = Some (Ok ts') -> 2 * length (a ++ x :: v ++ y :: b) + 1 <= fuel ->
  tokenize fuel t' (a ++ x :: v ++ y :: b) =
    Some (Ok (ts ++ mkToken v (Z.of_nat (S (length a))) (Z.of_nat (S (length a) + length v)) (str_of "EMAIL") None None
                 :: map (moved (Z.of_nat (S (length a) + S (length v)))) ts')).
Proof. exact addresses_between_spaces. Qed.
Print Assumptions address_between_spaces_is_a_token.
(** The rules of the library match no empty string. *)
Theorem library_rules_are_never_empty :
  forall C t, incl (tk_rules t) (EMAIL_RULE C :: PHONE_RULE C :: RULES C) -> never_empty t.
Proof. exact known_never_empty. Qed.
Print Assumptions library_rules_are_never_empty.

(** The hypotheses hold of the table with ASCII and Russian letters and of the rules in the
    order of the documentation. *)
Example email_tables_case : sane basic_chars /\ marks_apart basic_chars /\ digits_apart basic_chars.
Proof. exact (conj basic_sane (conj basic_marks basic_digits_apart)). Qed.
Example email_space_case : ~ visible basic_chars 32 /\ ~ eol_char basic_chars 32 /\ ~ in_address basic_chars 32.
Proof.
  split; [intros H; discriminate|]. split; [intros (x & X & H); apply basic_folds in X; lia|].
  intros [(x & X & H)|[H|[(x & X & H)|[H|(x & X & H)]]]]; try (apply basic_folds in X; cbn [In] in H; lia); unfold at_char, dot_char in H; apply basic_folds in H; lia.
Qed.
Example email_tokens_case :
  tokenize 99 phone_tokenizer (str_of "me.too@my-host.co.uk") = Some (Ok [mkToken (str_of "me.too@my-host.co.uk") 0 20 (str_of "EMAIL") None None]) /\
  tokenize 99 phone_tokenizer (str_of "+79031112233") = Some (Ok [mkToken (str_of "+79031112233") 0 12 (str_of "PHONE") None None]) /\
  tokenize 99 mail_tokenizer (str_of "x, me@host.ru or me@host") =
    Some (Ok [mkToken (str_of "x") 0 1 LATIN None None; mkToken (str_of ",") 1 2 PUNCT None None; mkToken (str_of "me@host.ru") 3 13 (str_of "EMAIL") None None;
              mkToken (str_of "or") 14 16 LATIN None None; mkToken (str_of "me") 17 19 LATIN None None; mkToken (str_of "@") 19 20 PUNCT None None; mkToken (str_of "host") 20 24 LATIN None None]).
Proof. split; [|split]; vm_compute; reflexivity. Qed.
Example email_rules_case : compiled phone_tokenizer /\ never_empty phone_tokenizer /\ first_at phone_tokenizer (str_of "+79031112233") (PHONE_RULE basic_chars).
Proof.
  destruct phone_made as (t & D & A). destruct (add_rules_ok _ _ _ A) as (CT & rs & R1 & R2). destruct (default_rules _ _ D) as [_ RT]. rewrite RT in R2. destruct rs as [|r [|r' [|? ?]]]; try discriminate. injection R1 as <- <-.
  split; [exact CT|]. split; [apply (known_never_empty basic_chars); rewrite R2; apply incl_refl|].
  exists [EMAIL_RULE basic_chars], (RULES basic_chars). split; [exact R2|]. intros r' j [<-|[]] (p & P & M). injection P as <-. revert M. vm_compute. auto.
Qed.
