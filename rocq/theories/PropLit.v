(** * Properties C17-C27 and C53 of literals and their values. *)
From Verif Require Import Base Unicode Tokens Lexer PureLexer Stable Fallback Escaper LitValue SpecLit
  LitValueFacts LitNew NumFacts LitProofs SpecShow ShowProofs.
From Verif Require Import SpecLex.
Import ListNotations.
Local Open Scope N_scope.

(** [accepted start repr] (LitProofs.v) says that [repr] parses as a token stream
    to the single literal [repr], and that [Literal::from_str] accepts it
    unchanged.  [denotes], [char_denotes], [canonical_decimal] and
    [float_text] are the specification in SpecLit.v. *)

(** ** C17 *)
Theorem c17_string : forall U, unicode_ok U -> forall start s, start < two32 -> valid_str s ->
  accepted start (literal_string s) /\ denotes KStr (literal_string s) s /\
  str_value (literal_string s) = Ok (COk s).
Proof. exact @string_roundtrip. Qed.
Print Assumptions c17_string.
Example c17_example :
  let s := [0; "7"%ch; DQUOTE; "'"%ch; LF; CR; BACKSLASH; 0x301; 0x1F600; 0x7F; 0; "8"%ch] in
  valid_str s /\ @literal_string sample_unicode s
  = tag """\x007\""'\n\r\\\u{301}\u{1f600}\u{7f}\08""".
Proof. cbn zeta. split; [apply Forall_forall, forallb_forall; reflexivity|vm_compute; reflexivity]. Qed.

(** ** C18 *)
Theorem c18_character : forall U, unicode_ok U -> forall start c, start < two32 -> is_scalar c = true ->
  accepted start (literal_character c) /\ char_denotes KStr (literal_character c) c.
Proof. exact @character_roundtrip. Qed.
Print Assumptions c18_character.
Example c18_example :
  is_scalar 0x10FFFF = true /\ @literal_character sample_unicode "'"%ch = tag "'\''" /\
  @literal_character sample_unicode DQUOTE = tag "'""'" /\ @literal_character sample_unicode 0 = tag "'\0'".
Proof. repeat split. Qed.

(** ** C19 *)
Theorem c19_byte_character : forall U, unicode_ok U -> forall start b, start < two32 -> b < 256 ->
  accepted start (literal_byte_character b) /\ char_denotes KByte (literal_byte_character b) b.
Proof. exact @byte_character_roundtrip. Qed.
Print Assumptions c19_byte_character.
Example c19_example : literal_byte_character 255 = tag "b'\xFF'" /\ literal_byte_character 34 = tag "b'""'".
Proof. repeat split. Qed.

(** ** C20 *)
Theorem c20_byte_string : forall U, unicode_ok U -> forall start bs, start < two32 ->
  Forall (fun b => b < 256) bs ->
  accepted start (literal_byte_string bs) /\ denotes KByte (literal_byte_string bs) bs /\
  byte_str_value (literal_byte_string bs) = Ok (COk bs).
Proof. exact @byte_string_roundtrip. Qed.
Print Assumptions c20_byte_string.
Example c20_example : literal_byte_string [0; 48; 255; 34; 39; 0] = tag "b""\x000\xFF\""'\0""".
Proof. reflexivity. Qed.

(** ** C21 *)
Theorem c21_c_string : forall U, unicode_ok U -> forall start bs, start < two32 ->
  Forall (fun b => b < 256 /\ b <> 0) bs ->
  exists repr, literal_c_string bs = Ok repr /\ accepted start repr /\ denotes KC repr (bs ++ [0]) /\
  cstr_value repr = Ok (COk (bs ++ [0])).
Proof. exact @c_string_roundtrip. Qed.
Print Assumptions c21_c_string.
Example c21_example :
  @literal_c_string sample_unicode [0xE2; 0x82; 0xAC; 0xE2; 0x82; 97; 0xFF; 34]
  = Ok (tag "c""\u{20ac}\xE2\x82a\xFF\""""").
Proof. reflexivity. Qed.

(** ** C22 *)
(** [accepted_negative start body]: [Literal::from_str] accepts [-body] whole;
    the stream parser reads a [-] and the literal [body]; putting the literal
    [-body] in a stream splits it the same way. *)
Theorem c22_suffixed : forall U, unicode_ok U -> forall start z t, start < two32 ->
  exists ds, canonical_decimal ds (Z.abs_N z) /\
    ((0 <= z)%Z -> int_suffixed t z = ds ++ int_suffix t /\ accepted start (ds ++ int_suffix t)) /\
    ((z < 0)%Z -> int_suffixed t z = "-"%ch :: ds ++ int_suffix t /\
                  accepted_negative start (ds ++ int_suffix t)).
Proof. exact @int_suffixed_roundtrip. Qed.
Print Assumptions c22_suffixed.
Theorem c22_unsuffixed : forall U, unicode_ok U -> forall start z, start < two32 ->
  exists ds, canonical_decimal ds (Z.abs_N z) /\
    ((0 <= z)%Z -> int_unsuffixed z = ds /\ accepted start ds) /\
    ((z < 0)%Z -> int_unsuffixed z = "-"%ch :: ds /\ accepted_negative start ds).
Proof. exact @int_unsuffixed_roundtrip. Qed.
Print Assumptions c22_unsuffixed.
Example c22_example :
  int_suffixed I128 (-170141183460469231731687303715884105728)%Z
  = tag "-170141183460469231731687303715884105728i128" /\ int_unsuffixed 0 = tag "0".
Proof. vm_compute. split; reflexivity. Qed.

(** ** C23 *)
Theorem c23_suffixed : forall U, unicode_ok U -> forall start t text, start < two32 -> float_text text ->
  float_suffixed t text = text ++ float_suffix t /\ accepted start (text ++ float_suffix t) /\
  float_suffixed t ("-"%ch :: text) = "-"%ch :: text ++ float_suffix t /\
  accepted_negative start (text ++ float_suffix t).
Proof. exact @float_suffixed_roundtrip. Qed.
Print Assumptions c23_suffixed.
Theorem c23_unsuffixed : forall U, unicode_ok U -> forall start text, start < two32 -> float_text text ->
  exists i f, all_digits i /\ all_digits f /\
    (text = i /\ f = tag "0" \/ text = i ++ tag "." ++ f) /\
    float_unsuffixed text = i ++ tag "." ++ f /\
    accepted start (i ++ tag "." ++ f) /\
    float_unsuffixed ("-"%ch :: text) = "-"%ch :: i ++ tag "." ++ f /\
    accepted_negative start (i ++ tag "." ++ f).
Proof. exact @float_unsuffixed_roundtrip. Qed.
Print Assumptions c23_unsuffixed.
Example c23_example :
  float_text (tag "0.1") /\ float_text (tag "100000000000000000000") /\
  float_suffixed F32 (tag "1") = tag "1f32" /\ float_unsuffixed (tag "-1") = tag "-1.0".
Proof.
  split; [|split; [|split; reflexivity]].
  - apply (ft_frac (tag "0") (tag "1")); (split; [discriminate|repeat constructor; discriminate]).
  - apply ft_int. split; [discriminate|repeat constructor; discriminate].
Qed.

(** ** C24 *)
(** Exactly the raw strings that are one token. *)
Theorem c24_raw_accepted : forall U, unicode_ok U -> forall start k n s, start < two32 ->
  accepted start (raw_literal k n s) <->
  (n <= 255)%nat /\ cr_only_before_lf s /\ Forall (raw_allowed k) s /\
  (forall x y, s <> x ++ [DQUOTE] ++ repeat "#"%ch n ++ y).
Proof. exact @raw_accepted. Qed.
Print Assumptions c24_raw_accepted.
Theorem c24_raw_value : forall k n s,
  value_of k (raw_literal k n s) = Ok (COk (finish k (match k with KStr => s | _ => str_bytes s end))).
Proof. exact raw_value. Qed.
Print Assumptions c24_raw_value.
Theorem c24_too_many : forall (U : unicode) start k n t, start < two32 -> (255 < n)%nat ->
  exists sp,
  literal_from_str start (prefix k ++ tag "r" ++ repeat "#"%ch n ++ [DQUOTE] ++ t) = Ok (LitErr sp).
Proof. exact @raw_rejected. Qed.
Print Assumptions c24_too_many.
Example c24_example :
  raw_literal KC 1 (tag "a""\n") = tag "cr#""a""\n""#" /\
  cstr_value (tag "cr#""a""\n""#") = Ok (COk (tag "a""\n" ++ [0])) /\
  @literal_from_str sample_unicode 0 (raw_literal KStr 255 (tag """##")) =
    Ok (LitOk (raw_literal KStr 255 (tag """##")) (mkspan 0 516)) /\
  @literal_from_str sample_unicode 0 (raw_literal KStr 256 (tag """##")) = Ok (LitErr call_site).
Proof. vm_compute. repeat split. Qed.

(** ** C25: does not hold. *)
(** Accepted by the parser, but the accessor fails: a line ending CRLF inside a
    string, a backslash before CRLF, and a suffix. *)
Theorem c25_value_refuted :
  exists a b c : str,
    (forall r, In r [a; b; c] -> @accepted sample_unicode 0 r) /\
    a = tag """a" ++ [CR; LF] ++ tag "b""" /\ b = tag """a\" ++ [CR; LF] ++ tag "b""" /\ c = tag """a""x" /\
    (forall v, str_value a <> Ok (COk v)) /\ (forall v, str_value b <> Ok (COk v)) /\
    (forall v, str_value c <> Ok (COk v)).
Proof. exact values_refuted. Qed.
Print Assumptions c25_value_refuted.

(** What does hold: an accepted quoted literal is a body and a suffix, the body
    with CRLF read as LF has a meaning [v], and the accessor returns [v] if there
    is no suffix and the body has a meaning as it stands; otherwise it fails. *)
Theorem c25_value_partial : forall U, unicode_ok U -> forall start k s, start < two32 ->
  accepted start (prefix k ++ [DQUOTE] ++ s) ->
  exists b v sfx, s = b ++ [DQUOTE] ++ sfx /\ cooked k (crlf b) v /\
    (forall w, value_of k (prefix k ++ [DQUOTE] ++ s) = Ok (COk w) <->
       w = finish k v /\ sfx = [] /\ exists x, cooked k b x).
Proof. exact @cooked_exact. Qed.
Print Assumptions c25_value_partial.
(** A carriage return among the white space that a backslash skips is no
    obstacle. *)
Example c25_example :
  let s := tag "a\" ++ [LF; CR; LF] ++ tag " b""" in
  @literal_from_str sample_unicode 0 ([DQUOTE] ++ s) = Ok (LitOk ([DQUOTE] ++ s) (mkspan 0 9)) /\
  str_value ([DQUOTE] ++ s) = Ok (COk (tag "ab")).
Proof. vm_compute. repeat split. Qed.

(** ** C53: what does hold of cooked strings. *)
(** An accepted literal is a quoted body and a suffix; the body with CRLF read as
    LF means [v]; the accessor, if it succeeds, returns [v] and there is no
    suffix; without suffix and carriage returns it does succeed. *)
Theorem c53_cooked_value : forall U, unicode_ok U -> forall start k s, start < two32 ->
  accepted start (prefix k ++ [DQUOTE] ++ s) ->
  exists b v sfx, s = b ++ [DQUOTE] ++ sfx /\ cooked k (crlf b) v /\
    (sfx = [] -> ~ In CR b -> value_of k (prefix k ++ [DQUOTE] ++ s) = Ok (COk (finish k v))) /\
    (forall w, value_of k (prefix k ++ [DQUOTE] ++ s) = Ok (COk w) -> w = finish k v /\ sfx = []).
Proof. exact @cooked_accepted. Qed.
Print Assumptions c53_cooked_value.
(** And every quoted text with a meaning is accepted. *)
Theorem c53_cooked_accepted : forall U, unicode_ok U -> forall start k s v, start < two32 ->
  cooked k s v -> ~ In CR s -> accepted start (prefix k ++ [DQUOTE] ++ s ++ [DQUOTE]).
Proof. exact @cooked_is_accepted. Qed.
Print Assumptions c53_cooked_accepted.
Example c53_example :
  str_value (tag """a\x41\u{1F_600}\" ++ [LF] ++ tag "  b""") = Ok (COk ([97; 65; 0x1F600; 98])) /\
  @accepted sample_unicode 0 (tag """a\x41\u{1F_600}\" ++ [LF] ++ tag "  b""").
Proof. vm_compute. repeat split; eexists; reflexivity. Qed.

(** ** C26 *)
Theorem c26_terminated : forall U, unicode_ok U -> forall start repr w, start < two32 ->
  accepted start repr -> cstr_value repr = Ok (COk w) -> exists v, w = v ++ [0] /\ ~ In 0 v.
Proof. exact @accepted_cstr. Qed.
Print Assumptions c26_terminated.
Example c26_example :
  cstr_value (tag "c""\xFF\u{20AC}""") = Ok (COk [0xFF; 0xE2; 0x82; 0xAC; 0]) /\
  @accepted sample_unicode 0 (tag "c""\xFF\u{20AC}""") /\
  (exists e, cstr_value (tag "c""\0""") = Ok (CFailed e)) /\ ~ @accepted sample_unicode 0 (tag "cr""" ++ [0; DQUOTE]).
Proof.
  split; [reflexivity|]. split; [vm_compute; repeat split; eexists; reflexivity|].
  split; [eexists; reflexivity|]. intros [[sp H] _]. vm_compute in H. discriminate.
Qed.

(** ** C27 *)
Theorem c27_total : forall repr, exists a b c,
  str_value repr = Ok a /\ byte_str_value repr = Ok b /\ cstr_value repr = Ok c /\
  (forall w, a = COk w <-> denotes KStr repr w) /\
  (forall w, b = COk w <-> denotes KByte repr w) /\
  (forall w, c = COk w <-> denotes KC repr w).
Proof. exact accessors_total. Qed.
Print Assumptions c27_total.
Theorem c27_error_kind : forall k repr,
  (value_of k repr = Ok CInvalidKind <->
   (forall q, repr <> prefix k ++ [DQUOTE] ++ q ++ [DQUOTE]) /\ (forall n s, repr <> raw_literal k n s)) /\
  ((exists e, value_of k repr = Ok (CFailed e)) <->
   exists q, repr = prefix k ++ [DQUOTE] ++ q ++ [DQUOTE] /\ forall v, ~ cooked k q v).
Proof. exact value_error_kind. Qed.
Print Assumptions c27_error_kind.
Theorem c27_one_kind : forall k k' repr v w,
  value_of k repr = Ok (COk v) -> value_of k' repr = Ok (COk w) -> k = k' /\ v = w.
Proof. exact one_kind. Qed.
Print Assumptions c27_one_kind.
Example c27_example :
  (exists v, value_of KByte (tag "br#""x""#") = Ok (COk v)) /\ value_of KStr (tag "br#""x""#") = Ok CInvalidKind /\
  value_of KStr (tag """") = Ok CInvalidKind.
Proof. split; [eexists|]; repeat split. Qed.

(** ** C58 *)
Theorem c58_string : forall U, unicode_ok U -> forall s, valid_str s ->
  exists b, shown_text DQUOTE char_plain char_code s b /\ literal_string s = [DQUOTE] ++ b ++ [DQUOTE].
Proof. exact @literal_string_shown. Qed.
Print Assumptions c58_string.
Theorem c58_character : forall U, unicode_ok U -> forall c, is_scalar c = true ->
  exists e, shown SQUOTE char_plain char_code [] c e /\ literal_character c = [SQUOTE] ++ e ++ [SQUOTE].
Proof. exact @literal_character_shown. Qed.
Print Assumptions c58_character.
Theorem c58_byte_string : forall bs, Forall (fun b => b < 256) bs ->
  exists b, shown_text DQUOTE byte_plain byte_code bs b /\
    literal_byte_string bs = tag "b" ++ [DQUOTE] ++ b ++ [DQUOTE].
Proof. exact literal_byte_string_shown. Qed.
Print Assumptions c58_byte_string.
Theorem c58_byte_character : forall b, b < 256 ->
  exists e, shown SQUOTE byte_plain byte_code [] b e /\ literal_byte_character b = tag "b'" ++ e ++ [SQUOTE].
Proof. exact literal_byte_character_shown. Qed.
Print Assumptions c58_byte_character.
Theorem c58_c_string : forall U, unicode_ok U -> forall bs, Forall (fun b => b < 256 /\ b <> 0) bs ->
  exists b, c_shown bs b /\ literal_c_string bs = Ok (tag "c" ++ [DQUOTE] ++ b ++ [DQUOTE]).
Proof. exact @literal_c_string_shown. Qed.
Print Assumptions c58_c_string.
(** The text is determined by the value. *)
Theorem c58_unique : forall U : unicode,
  (forall q next c a b, q = DQUOTE \/ q = SQUOTE ->
     shown q char_plain char_code next c a -> shown q char_plain char_code next c b -> a = b) /\
  (forall q next c a b, q = DQUOTE \/ q = SQUOTE ->
     shown q byte_plain byte_code next c a -> shown q byte_plain byte_code next c b -> a = b) /\
  (forall q s a b, q = DQUOTE \/ q = SQUOTE ->
     shown_text q char_plain char_code s a -> shown_text q char_plain char_code s b -> a = b) /\
  (forall q s a b, q = DQUOTE \/ q = SQUOTE ->
     shown_text q byte_plain byte_code s a -> shown_text q byte_plain byte_code s b -> a = b) /\
  (forall bs a b, c_shown bs a -> c_shown bs b -> a = b).
Proof. exact shown_unique. Qed.
Print Assumptions c58_unique.
Example c58_example :
  @shown_text DQUOTE (@char_plain sample_unicode) char_code [0; "1"%ch; "'"%ch; 0x301] (tag "\x001'\u{301}") /\
  @literal_string sample_unicode [0; "1"%ch; "'"%ch; 0x301] = tag """\x001'\u{301}""".
Proof.
  split; [|reflexivity].
  apply (st_cons _ _ _ _ _ (tag "\x00")); [eapply sh_octal; [reflexivity|split; discriminate]|].
  apply (st_cons _ _ _ _ _ (tag "1")); [apply sh_plain; [cbn; intuition discriminate|split; reflexivity]|].
  apply (st_cons _ _ _ _ _ (tag "'")); [apply sh_plain; [cbn; intuition discriminate|split; reflexivity]|].
  apply (st_cons _ _ _ _ _ (tag "\u{301}") []); [|constructor].
  apply sh_code; [cbn; intuition discriminate|intros [_ H]; discriminate|].
  exists (tag "301"). split; [|reflexivity].
  apply (lh_more (tag "30") 0x30 "1"%ch 1); [|discriminate|apply (hex_09 1); reflexivity|intros [H _]; now apply H].
  apply (lh_more (tag "3") 0x3 "0"%ch 0); [|discriminate|apply (hex_09 0); reflexivity|intros [H _]; now apply H].
  apply lh_first; [apply (hex_09 3); reflexivity|intros [H _]; now apply H].
Qed.
