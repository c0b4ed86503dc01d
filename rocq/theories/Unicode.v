(** * Unicode tables.

    The crate takes identifier tables from the external crate [unicode-ident]
    and whitespace / printability tables from the standard library.  None of
    these are in the repository.  The identifier and printability tables are an
    arbitrary record of functions; [unicode_ok] lists every fact about them that
    the proofs use.  [White_Space] is small and stable and is given concretely. *)
From Verif Require Import Base.
Local Open Scope N_scope.

(** [unicode_ident::is_xid_start], [is_xid_continue] (fallback.rs 841-847), and
    the tables behind [char::escape_debug] (fallback.rs 1070, 1233). *)
Class unicode := {
  is_xid_start : char -> bool;
  is_xid_continue : char -> bool;
  is_grapheme_extended : char -> bool;
  is_printable : char -> bool
}.

(** [char::is_whitespace]: the White_Space property. *)
Definition is_white_space (c : char) : bool :=
  between 0x9 c 0xD || (c =? 0x20) || (c =? 0x85) || (c =? 0xA0) || (c =? 0x1680)
  || between 0x2000 c 0x200A || (c =? 0x2028) || (c =? 0x2029) || (c =? 0x202F)
  || (c =? 0x205F) || (c =? 0x3000).

Definition ascii_letter (c : char) : bool :=
  between "a"%ch c "z"%ch || between "A"%ch c "Z"%ch.

(** The facts used: ASCII rows of the tables; start implies continue; whitespace,
    the two directional marks and the byte order mark are not identifier chars;
    ASCII from space to tilde is printable. *)
Record unicode_ok (U : unicode) : Prop := {
  xid_start_ascii : forall c, c < 0x80 -> is_xid_start c = ascii_letter c;
  xid_continue_ascii : forall c, c < 0x80 ->
    is_xid_continue c = (ascii_letter c || is_dec_digit c || (c =? "_"%ch));
  xid_start_continue : forall c, is_xid_start c = true -> is_xid_continue c = true;
  xid_not_space : forall c, is_white_space c = true -> is_xid_continue c = false;
  xid_not_marks : is_xid_continue 0x200E = false /\ is_xid_continue 0x200F = false
                  /\ is_xid_continue 0xFEFF = false;
  printable_ascii : forall c, 0x20 <= c <= 0x7E ->
    is_printable c = true /\ is_grapheme_extended c = false
}.

(** A concrete record satisfying the facts: ASCII plus Greek and Cyrillic
    letters, combining accents as continue-only. *)
Definition sample_unicode : unicode := {|
  is_xid_start c := ascii_letter c || between 0x391 c 0x3A1 || between 0x3B1 c 0x3C9
                    || between 0x410 c 0x44F;
  is_xid_continue c := ascii_letter c || is_dec_digit c || (c =? "_"%ch)
                    || between 0x391 c 0x3A1 || between 0x3B1 c 0x3C9
                    || between 0x410 c 0x44F || between 0x300 c 0x36F;
  is_grapheme_extended c := between 0x300 c 0x36F;
  is_printable c := between 0x20 c 0x7E || between 0xA1 c 0x2000
|}.

Lemma sample_unicode_ok : unicode_ok sample_unicode.
Proof.
  split; cbn; unfold ascii_letter, is_dec_digit, is_white_space, between; intros; try lia.
Qed.

(** fallback.rs 841-843. *)
Definition is_ident_start {U : unicode} (c : char) : bool :=
  (c =? "_"%ch) || is_xid_start c.
(** fallback.rs 845-847. *)
Definition is_ident_continue {U : unicode} (c : char) : bool := is_xid_continue c.

(** parse.rs 155-158. *)
Definition is_whitespace (c : char) : bool :=
  is_white_space c || (c =? 0x200E) || (c =? 0x200F).

(** [char::EscapeUnicode]: [\u{...}] with lower case hex digits, no leading zeros. *)
Definition hex_digit_lower (d : N) : char := if d <? 10 then "0"%ch + d else "a"%ch + (d - 10).
Fixpoint hex_digits_aux (fuel : nat) (v : N) (acc : str) : str :=
  match fuel with
  | O => acc
  | S f =>
      let acc := hex_digit_lower (v mod 16) :: acc in
      if v / 16 =? 0 then acc else hex_digits_aux f (v / 16) acc
  end.
(** Six digits are enough for any scalar value. *)
Definition hex_digits (v : N) : str := hex_digits_aux 6 v [].
Definition escape_unicode (c : char) : str :=
  (tag "\u{") ++ hex_digits c ++ (tag "}").

(** [char::escape_debug]: core::char::methods escape_debug_ext with all options on. *)
Definition escape_debug {U : unicode} (c : char) : str :=
  if c =? 0 then (tag "\0")
  else if c =? TAB then (tag "\t")
  else if c =? CR then (tag "\r")
  else if c =? LF then (tag "\n")
  else if (c =? BACKSLASH) || (c =? DQUOTE) || (c =? SQUOTE) then [BACKSLASH; c]
  else if is_grapheme_extended c then escape_unicode c
  else if is_printable c then [c]
  else escape_unicode c.
