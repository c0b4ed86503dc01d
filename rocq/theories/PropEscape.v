(** * C65, C66: what the literal escaper reports. *)
From Verif Require Import Base Unicode Escaper LitValue SpecLit SpecEscape SpecLex EscapeClaims.
From Coq Require Import Sorting.Sorted.
Import ListNotations.
Local Open Scope N_scope.

(** ** C65 *)
(** Every callback is called with exactly the specified ranges and results. *)
Theorem c65_unescape : forall s,
  (exists ev, unescape str_unescaper s = Ok ev /\
     forall ev', reports KStr 0 s ev' <-> ev' = map (shown_event (fun c => [c])) ev) /\
  (exists ev, unescape byte_unescaper s = Ok ev /\
     forall ev', reports KByte 0 s ev' <-> ev' = map (shown_event (fun b => [b])) ev) /\
  (exists ev, unescape c_unescaper s = Ok ev /\
     forall ev', reports KC 0 s ev' <-> ev' = map (shown_event push_mixed) ev).
Proof. exact callbacks. Qed.
Print Assumptions c65_unescape.
Theorem c65_raw : forall s,
  (exists ev, check_raw str_raw_unit s = Ok ev /\
     forall ev', raw_reports KStr 0 s ev' <-> ev' = map (shown_event (fun c => [c])) ev) /\
  (exists ev, check_raw byte_raw_unit s = Ok ev /\
     forall ev', raw_reports KByte 0 s ev' <-> ev' = map (shown_event (fun b => [b])) ev) /\
  (exists ev, check_raw c_raw_unit s = Ok ev /\
     forall ev', raw_reports KC 0 s ev' <-> ev' = map (shown_event encode_utf8) ev).
Proof. exact raw_callbacks. Qed.
Print Assumptions c65_raw.
(** The specified reports: where they are, and when they make up a value. *)
Theorem c65_where : forall k s ev, reports k 0 s ev ->
  Forall (fun x => cut s (fst x)) ev /\ StronglySorted in_order ev.
Proof. exact reports_cut. Qed.
Print Assumptions c65_where.
Theorem c65_meaning : forall k s ev, reports k 0 s ev ->
  forall v, cooked k s v <-> only_warnings ev /\ v = values ev.
Proof. exact reports_meaning. Qed.
Print Assumptions c65_meaning.
Theorem c65_char : forall s,
  (forall c, unescape_char s = UOk c <-> char_denotes KStr ([SQUOTE] ++ s ++ [SQUOTE]) c) /\
  (forall e, unescape_char s = UErr e <-> exists n, single_report KStr s n (UErr e)).
Proof. exact (fun s => conj (unescape_char_value s) (unescape_char_error s)). Qed.
Print Assumptions c65_char.
Theorem c65_byte : forall s,
  (forall b, unescape_byte s = UOk b <-> char_denotes KByte (tag "b'" ++ s ++ [SQUOTE]) b) /\
  (forall e, unescape_byte s = UErr e <-> exists n, single_report KByte s n (UErr e)).
Proof. exact (fun s => conj (unescape_byte_value s) (unescape_byte_error s)). Qed.
Print Assumptions c65_byte.
(** The accessors return the last error. *)
Theorem c65_last_error : forall k repr e,
  value_of k repr = Ok (CFailed e) <->
  exists q ev, repr = prefix k ++ [DQUOTE] ++ q ++ [DQUOTE] /\ reports k 0 q ev /\ last_error ev e.
Proof. exact value_failed. Qed.
Print Assumptions c65_last_error.
Example c65_example :
  unescape str_unescaper (tag "\q\" ++ [LF; LF; SPACE; 0xA0] ++ tag "\u{1F600}\xG") =
    Ok [((0, 2)%nat, UErr InvalidEscape); ((2, 6)%nat, UErr MultipleSkippedLinesWarning);
        ((2, 8)%nat, UErr UnskippedWhitespaceWarning); ((6, 8)%nat, UOk 0xA0);
        ((8, 17)%nat, UOk 0x1F600); ((17, 20)%nat, UErr InvalidCharInHexEscape)] /\
  value_of KStr (tag """\q\xG""") = Ok (CFailed InvalidCharInHexEscape) /\
  reports KStr 0 (tag "\q""")
    [((0, 2)%nat, UErr InvalidEscape); ((2, 3)%nat, UErr EscapeOnlyChar)] /\
  unescape_char (tag "\u{41}") = UOk 65 /\ unescape_byte (tag "ab") = UErr MoreThanOneChar.
Proof.
  split; [reflexivity|]. split; [reflexivity|]. split; [|split; reflexivity].
  apply (rp_escape KStr 0 (tag "q") (tag """")); [discriminate| |apply rp_quote, rp_end].
  apply as_unknown. cbn. intuition discriminate.
Qed.

(** ** C66 *)
Theorem c66_check : forall m s,
  exists errs, check_for_errors s m = Ok errs /\
    exists ev, (forall ev', mode_reports m s ev' <-> ev' = ev) /\ errors_of ev errs.
Proof. exact check_exact. Qed.
Print Assumptions c66_check.
Theorem c66_valid : forall m s,
  mode_valid m s <->
  exists errs, check_for_errors s m = Ok errs /\ forall g e, In (g, e) errs -> warning e.
Proof. exact check_valid. Qed.
Print Assumptions c66_valid.
Theorem c66_modes : forall m,
  prefix_noraw m = prefix (snd (mode_form m)) /\
  (in_double_quotes m = false <-> fst (mode_form m) = Single).
Proof. exact mode_table. Qed.
Print Assumptions c66_modes.
Example c66_example :
  check_for_errors (tag "\x00a") MoCStr = Ok [((0, 4)%nat, NulInCStr)] /\
  check_for_errors ([0x20AC; CR]) MoRawByteStr =
    Ok [((0, 3)%nat, NonAsciiCharInByte); ((3, 4)%nat, BareCarriageReturnInRawString)] /\
  check_for_errors (tag "\xFFz") MoByte = Ok [((0, 5)%nat, MoreThanOneChar)] /\
  check_for_errors (tag "a\" ++ [LF; LF]) MoStr = Ok [((1, 4)%nat, MultipleSkippedLinesWarning)] /\
  mode_valid MoStr (tag "a\" ++ [LF; LF]).
Proof.
  repeat split. exists [97]. apply (cooked_char KStr 97 _ []); try discriminate.
  apply (cooked_continue KStr [LF] [] []); [|intros (c & t & H & _); discriminate|constructor].
  constructor; [now right; right; left|constructor].
Qed.
