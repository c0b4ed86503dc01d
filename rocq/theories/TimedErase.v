(** The counted lexer computes what the lexer does. *)
From Verif Require Import Base BaseFacts Unicode Tokens Lexer Timed.

Definition erases {A} (m : timed A) (r : res A) : Prop := fst m = r.

Lemma er_charge {A} n (m : timed A) r : erases m r -> erases (charge n m) r.
Proof. intros H. exact H. Qed.
Lemma er_ret {A} (a : A) : erases (ret a) (Ok a). Proof. reflexivity. Qed.
Lemma er_reject {A} : erases (@reject A) Reject. Proof. reflexivity. Qed.
Lemma er_panic {A} : erases (@panic A) Panic. Proof. reflexivity. Qed.
Lemma er_fuel {A} : erases (@no_fuel A) Fuel. Proof. reflexivity. Qed.
Lemma er_work {A} n (r : res A) : erases (work n r) r. Proof. reflexivity. Qed.
Lemma er_advance c n : erases (t_advance c n) (advance c n). Proof. reflexivity. Qed.
Lemma er_bind {A B} (m : timed A) r (f : A -> timed B) g :
  erases m r -> (forall x, erases (f x) (g x)) -> erases (tbind m f) (bind r g).
Proof.
  intros <- H. destruct m as [[a| | |] n]; cbn; try reflexivity. apply H.
Qed.
Lemma er_if_ok {A B} (m : timed A) r (f : A -> timed B) g e e' :
  erases m r -> (forall x, erases (f x) (g x)) -> erases e e' ->
  erases (t_if_ok m f e) (if_ok r g e').
Proof.
  intros <- H He. destruct m as [[a| | |] n]; cbn; try reflexivity; [apply H|apply He].
Qed.

Create HintDb er.
#[export] Hint Resolve er_ret er_reject er_panic er_fuel er_work er_advance : er.
Ltac er := cbv zeta; repeat (intros; cbv beta; first
  [ progress auto with er
  | apply er_charge
  | apply er_bind
  | apply er_if_ok
  | match goal with |- erases ?m ?r =>
      match m with
      | context [match ?x with _ => _ end] => is_var x; destruct x
      end end
  | match goal with |- erases (match ?x with _ => _ end) _ => destruct x end
  | match goal with |- erases (let (_, _) := ?x in _) _ => destruct x end ]).

Lemma er_parse_tag c t : erases (t_parse_tag c t) (parse_tag c t).
Proof. unfold t_parse_tag, parse_tag. er. Qed.
Lemma er_take input i chars :
  erases (t_take_until_newline_loop input i chars) (take_until_newline_loop input i chars).
Proof. revert i. induction chars as [|ch t IH]; intros i; cbn [t_take_until_newline_loop take_until_newline_loop]; er. Qed.
Lemma er_take' input : erases (t_take_until_newline_or_eof input) (take_until_newline_or_eof input).
Proof. apply er_take. Qed.
Lemma er_block_loop input fuel depth i bs :
  erases (t_block_comment_loop input fuel depth i bs) (block_comment_loop input fuel depth i bs).
Proof.
  revert depth i bs. induction fuel as [|fuel IH]; intros depth i bs;
    cbn [t_block_comment_loop block_comment_loop]; er.
Qed.
#[export] Hint Resolve er_parse_tag er_take' er_block_loop : er.
Lemma er_block input : erases (t_block_comment input) (block_comment input).
Proof. unfold t_block_comment, block_comment. er. Qed.
#[export] Hint Resolve er_block : er.
Lemma er_skip_loop fuel s : erases (t_skip_whitespace_loop fuel s) (skip_whitespace_loop fuel s).
Proof.
  revert s. induction fuel as [|fuel IH]; intros s;
    cbn [t_skip_whitespace_loop skip_whitespace_loop]; er.
Qed.
Lemma er_skip s : erases (t_skip_whitespace s) (skip_whitespace s).
Proof. apply er_skip_loop. Qed.
#[export] Hint Resolve er_skip : er.

Section WithUnicode.
Context {U : unicode}.

Lemma ident_end_res len i chars : fst (t_ident_end len i chars) = Ok (ident_end len i chars).
Proof.
  revert i. induction chars as [|ch t IH]; intros i; cbn; [reflexivity|].
  destruct (is_ident_continue ch); cbn; [apply IH|reflexivity].
Qed.
Lemma er_ident_not_raw c : erases (t_ident_not_raw c) (ident_not_raw c).
Proof.
  unfold t_ident_not_raw, ident_not_raw. er.
  match goal with |- erases (tbind (t_ident_end ?l ?i ?c) ?f) _ =>
    pose proof (ident_end_res l i c) as E;
    destruct (t_ident_end l i c) as [r k]; cbn in E; subst r; cbn [tbind];
    generalize (ident_end l i c) end. er.
Qed.
Hint Resolve er_ident_not_raw : er.
Lemma er_ident_any c : erases (t_ident_any c) (ident_any c).
Proof. unfold t_ident_any, ident_any. er. Qed.
Hint Resolve er_ident_any : er.
Lemma er_ident c : erases (t_ident c) (ident c).
Proof. unfold t_ident, ident. er. Qed.
Lemma er_suffix c : erases (t_literal_suffix c) (literal_suffix c).
Proof. unfold t_literal_suffix, literal_suffix. er. Qed.
Hint Resolve er_ident er_suffix : er.
Lemma er_word_break c : erases (t_word_break c) (word_break c). Proof. reflexivity. Qed.
Lemma er_x_char it : erases (t_backslash_x_char it) (backslash_x_char it). Proof. reflexivity. Qed.
Lemma er_x_byte it : erases (t_backslash_x_byte it) (backslash_x_byte it). Proof. reflexivity. Qed.
Lemma er_x_nonzero it : erases (t_backslash_x_nonzero it) (backslash_x_nonzero it).
Proof. reflexivity. Qed.
Hint Resolve er_word_break er_x_char er_x_byte er_x_nonzero : er.
Lemma er_u_loop i chars v len :
  erases (t_backslash_u_loop i chars v len) (backslash_u_loop i chars v len).
Proof.
  revert i v len. induction chars as [|ch t IH]; intros i v len;
    cbn [t_backslash_u_loop backslash_u_loop]; er.
Qed.
Hint Resolve er_u_loop : er.
Lemma er_u it : erases (t_backslash_u it) (backslash_u it).
Proof. unfold t_backslash_u, backslash_u. er. Qed.
Hint Resolve er_u : er.
Lemma er_trail_loop input fuel last ws :
  erases (t_trailing_backslash_loop input fuel last ws) (trailing_backslash_loop input fuel last ws).
Proof.
  revert last ws. induction fuel as [|fuel IH]; intros last ws;
    cbn [t_trailing_backslash_loop trailing_backslash_loop]; er.
Qed.
Lemma er_trail input last : erases (t_trailing_backslash input last) (trailing_backslash input last).
Proof. apply er_trail_loop. Qed.
Hint Resolve er_trail : er.
Lemma er_cooked_loop fuel input it :
  erases (t_cooked_string_loop fuel input it) (cooked_string_loop fuel input it).
Proof.
  revert input it. induction fuel as [|fuel IH]; intros input it;
    cbn [t_cooked_string_loop cooked_string_loop]; er.
Qed.
Lemma er_cooked input : erases (t_cooked_string input) (cooked_string input).
Proof. apply er_cooked_loop. Qed.
Lemma er_cooked_byte_loop fuel input it :
  erases (t_cooked_byte_string_loop fuel input it) (cooked_byte_string_loop fuel input it).
Proof.
  revert input it. induction fuel as [|fuel IH]; intros input it;
    cbn [t_cooked_byte_string_loop cooked_byte_string_loop]; er.
Qed.
Lemma er_cooked_byte input : erases (t_cooked_byte_string input) (cooked_byte_string input).
Proof. apply er_cooked_byte_loop. Qed.
Lemma er_cooked_c_loop fuel input it :
  erases (t_cooked_c_string_loop fuel input it) (cooked_c_string_loop fuel input it).
Proof.
  revert input it. induction fuel as [|fuel IH]; intros input it;
    cbn [t_cooked_c_string_loop cooked_c_string_loop]; er.
Qed.
Lemma er_cooked_c input : erases (t_cooked_c_string input) (cooked_c_string input).
Proof. apply er_cooked_c_loop. Qed.
Hint Resolve er_cooked er_cooked_byte er_cooked_c : er.
Lemma er_delim_loop input i bs : erases (t_delimiter_loop input i bs) (delimiter_loop input i bs).
Proof.
  revert i. induction bs as [|b t IH]; intros i; cbn [t_delimiter_loop delimiter_loop]; er.
Qed.
Lemma er_delim input : erases (t_delimiter_of_raw_string input) (delimiter_of_raw_string input).
Proof. apply er_delim_loop. Qed.
Lemma er_raw_loop ok input delim fuel it :
  erases (t_raw_string_loop ok input delim fuel it) (raw_string_loop ok input delim fuel it).
Proof.
  revert it. induction fuel as [|fuel IH]; intros it;
    cbn [t_raw_string_loop raw_string_loop]; er.
Qed.
Hint Resolve er_delim er_raw_loop : er.
Lemma er_raw ok input : erases (t_raw_string_with ok input) (raw_string_with ok input).
Proof. unfold t_raw_string_with, raw_string_with. er. Qed.
Hint Resolve er_raw : er.
Lemma er_string c : erases (t_string_lit c) (string_lit c).
Proof. unfold t_string_lit, string_lit. er. Qed.
Lemma er_byte_string c : erases (t_byte_string c) (byte_string c).
Proof. unfold t_byte_string, byte_string. er. Qed.
Lemma er_c_string c : erases (t_c_string c) (c_string c).
Proof. unfold t_c_string, c_string. er. Qed.
Lemma er_byte_lit c : erases (t_byte_lit c) (byte_lit c).
Proof. unfold t_byte_lit, byte_lit. er. Qed.
Lemma er_character c : erases (t_character c) (character c).
Proof. unfold t_character, character. er. Qed.
Hint Resolve er_string er_byte_string er_c_string er_byte_lit er_character : er.
Lemma er_mantissa chars len d : erases (t_float_mantissa chars len d) (float_mantissa chars len d).
Proof.
  revert len d. induction chars as [|ch t IH]; intros len d;
    cbn [t_float_mantissa float_mantissa]; er.
Qed.
Lemma exponent_res chars len s v :
  fst (t_float_exponent chars len s v) = Ok (float_exponent chars len s v).
Proof.
  revert len s v. induction chars as [|ch t IH]; intros len s v; cbn; [reflexivity|].
  destruct (_ || _); [destruct v; [reflexivity|destruct s; [reflexivity|apply IH]]|].
  destruct (is_dec_digit ch); [apply IH|]. destruct (_ =? _)%N; [apply IH|reflexivity].
Qed.
Hint Resolve er_mantissa : er.
Lemma er_float_digits c : erases (t_float_digits c) (float_digits c).
Proof.
  unfold t_float_digits, float_digits. er.
  all: cbn [negb orb bind]; match goal with |- erases (tbind (t_float_exponent ?c ?l ?s ?v) ?f) _ =>
    pose proof (exponent_res c l s v) as E;
    destruct (t_float_exponent c l s v) as [? ?]; cbn in E; rewrite E; cbn;
    destruct (float_exponent c l s v) end; er.
Qed.
Hint Resolve er_float_digits : er.
Lemma er_number_tail c : erases (t_number_tail c) (number_tail c).
Proof. unfold t_number_tail, number_tail. er. Qed.
Hint Resolve er_number_tail : er.
Lemma er_float c : erases (t_float_lit c) (float_lit c).
Proof. unfold t_float_lit, float_lit. er. Qed.
Lemma er_digits_loop base bs len e : erases (t_digits_loop base bs len e) (digits_loop base bs len e).
Proof.
  revert len e. induction bs as [|b t IH]; intros len e; cbn [t_digits_loop digits_loop]; er.
Qed.
Hint Resolve er_digits_loop : er.
Lemma er_digits c : erases (t_digits c) (digits c).
Proof. unfold t_digits, digits. er. Qed.
Hint Resolve er_digits : er.
Lemma er_int c : erases (t_int_lit c) (int_lit c).
Proof. unfold t_int_lit, int_lit. er. Qed.
Hint Resolve er_float er_int : er.
Lemma er_literal_nocapture c : erases (t_literal_nocapture c) (literal_nocapture c).
Proof. unfold t_literal_nocapture, literal_nocapture. er. Qed.
Hint Resolve er_literal_nocapture : er.
Lemma er_literal c : erases (t_literal c) (literal c).
Proof. unfold t_literal, literal. er. Qed.
Lemma er_punct_char c : erases (t_punct_char c) (punct_char c).
Proof. unfold t_punct_char, punct_char. er. Qed.
Lemma er_punct_new c s : erases (t_punct_new c s) (punct_new c s). Proof. reflexivity. Qed.
Hint Resolve er_literal er_punct_char er_punct_new : er.
Lemma er_punct c : erases (t_punct c) (punct c).
Proof. unfold t_punct, punct. er; reflexivity. Qed.
Hint Resolve er_punct : er.
Lemma er_leaf c : erases (t_leaf_token c) (leaf_token c).
Proof. unfold t_leaf_token, leaf_token. er. Qed.
Lemma er_doc_contents c : erases (t_doc_comment_contents c) (doc_comment_contents c).
Proof. unfold t_doc_comment_contents, doc_comment_contents. er. Qed.
Hint Resolve er_leaf er_doc_contents : er.
Lemma er_doc c : erases (t_doc_comment c) (doc_comment c).
Proof. unfold t_doc_comment, doc_comment. er; reflexivity. Qed.
Hint Resolve er_doc : er.
Lemma er_stream_loop fuel c ts stack :
  erases (t_token_stream_loop fuel c ts stack) (token_stream_loop fuel c ts stack).
Proof.
  revert c ts stack. induction fuel as [|fuel IH]; intros c ts stack;
    cbn [t_token_stream_loop token_stream_loop]; er.
Qed.
Lemma er_stream c : erases (t_token_stream c) (token_stream c).
Proof. apply er_stream_loop. Qed.
Hint Resolve er_stream : er.
Lemma er_from_str start src : erases (t_token_stream_from_str start src) (token_stream_from_str start src).
Proof. unfold t_token_stream_from_str, token_stream_from_str. er. Qed.
Lemma er_literal_from_str start src :
  erases (t_literal_from_str start src) (literal_from_str start src).
Proof. unfold t_literal_from_str, literal_from_str. er. Qed.

End WithUnicode.
