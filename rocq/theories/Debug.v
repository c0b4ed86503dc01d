(** * Formatting with options and [Debug]: src/fallback.rs, src/lib.rs.

    Everything here is about the fallback; wrapper.rs only dispatches (259-313,
    543-559, 648-664, 743-759, 961-977).  Writing to the formatter is appending to
    a text; the writers used ([String]) do not fail. *)
From Verif Require Import Base Unicode Tokens Lexer Fallback LitNew.

(** ** The standard library's formatter (core::fmt) *)

(** [{}], [{:?}] and [{:#?}]. *)
Definition plain : format := mkformat SPACE None None None false.
Definition pretty : format := mkformat SPACE None None None true.

(** [Formatter::pad]: precision truncates, width fills, strings go to the left;
    both count characters. *)
Definition pad (f : format) (s : str) : str :=
  let s := match precision f with Some n => firstn n s | None => s end in
  match width f with
  | None => s
  | Some w =>
      let k := w - length s in
      let before := match align f with
                    | None | Some ALeft => 0 | Some ARight => k | Some ACenter => k / 2
                    end in
      repeat (fill f) before ++ s ++ repeat (fill f) (k - before)
  end.
(** [Display for str] and [Display for char]; the latter's shortcut writes the
    character itself, which is what [pad] does without width and precision. *)
Definition str_display (f : format) (s : str) : str := pad f s.
Definition char_display (f : format) (c : char) : str :=
  match width f, precision f with
  | None, None => [c]
  | _, _ => pad f [c]
  end.

(** [PadAdapter]: four spaces in front of every line, [on_newline] being its state. *)
Fixpoint indent (on_newline : bool) (s : str) : str :=
  match s with
  | [] => []
  | c :: s => (if on_newline then tag "    " else []) ++ c :: indent (c =? LF)%N s
  end.

(** [DebugStruct]: the fields with the text their [Debug] writes. *)
Fixpoint struct_fields (alt has_fields : bool) (fields : list (str * str)) : str :=
  match fields with
  | [] => if has_fields then if alt then tag "}" else tag " }" else []
  | (name, value) :: fields =>
      (if alt then
         (if has_fields then [] else tag " {" ++ [LF])
         ++ indent true (name ++ tag ": " ++ value ++ tag "," ++ [LF])
       else (if has_fields then tag ", " else tag " { ") ++ name ++ tag ": " ++ value)
      ++ struct_fields alt true fields
  end.
Definition debug_struct (alt : bool) (name : str) (fields : list (str * str)) : str :=
  name ++ struct_fields alt false fields.
(** [DebugTuple] with one field and a name. *)
Definition debug_tuple1 (alt : bool) (name value : str) : str :=
  name ++ (if alt then tag "(" ++ [LF] ++ indent true (value ++ tag "," ++ [LF]) else tag "(" ++ value) ++ tag ")".
(** [DebugList]. *)
Fixpoint list_entries (alt has_fields : bool) (entries : list str) : str :=
  match entries with
  | [] => []
  | value :: entries =>
      (if alt then (if has_fields then [] else [LF]) ++ indent true (value ++ tag "," ++ [LF])
       else (if has_fields then tag ", " else []) ++ value)
      ++ list_entries alt true entries
  end.
Definition debug_list (alt : bool) (entries : list str) : str :=
  tag "[" ++ list_entries alt false entries ++ tag "]".

(** [Debug for char]: [escape_debug] without escaping double quotes, in quotes. *)
Definition char_debug {U : unicode} (c : char) : str :=
  [SQUOTE] ++ (if (c =? DQUOTE)%N then [c] else escape_debug c) ++ [SQUOTE].

(** ** Display with options *)

(** lib.rs 644-653, 802-806, 887-891, 1083-1087, 1446-1450 over fallback.rs
    225-245 (the stream of a group, each tree by [write!(f, "{}", tt)]), 759-784,
    910-918, 1199-1203. *)
Fixpoint tree_display (f : format) (t : token) : str :=
  match t with
  | TGroup d ts _ =>
      open_text d ++ print_trees (tree_display plain) true false ts
      ++ (match d, ts with Brace, _ :: _ => [SPACE] | _, _ => [] end) ++ close_text d
  | TIdent sym raw _ => ident_to_string sym raw
  | TPunct c _ _ => char_display f c
  | TLiteral repr _ => str_display f repr
  end.
(** fallback.rs 225-245, lib.rs 355-359. *)
Definition stream_display (f : format) (ts : list token) : str := print_trees (tree_display plain) true false ts.
(** fallback.rs 219-223. *)
Definition lex_error_display (f : format) (sp : span) : str := tag "cannot parse string into token stream".

(** ** Debug *)

(** lib.rs 681-712 and 860-868, derived. *)
Definition delimiter_debug (d : delimiter) : str :=
  match d with
  | Parenthesis => tag "Parenthesis" | Brace => tag "Brace" | Bracket => tag "Bracket" | DNone => tag "None"
  end.
Definition spacing_debug (s : spacing) : str :=
  match s with Alone => tag "Alone" | Joint => tag "Joint" end.

Section WithConfiguration.
Context {U : unicode}.
(** [cfg(span_locations)]. *)
Variable span_locations : bool.

(** fallback.rs 695-703. *)
Definition span_debug (sp : span) : str :=
  if span_locations then tag "bytes(" ++ dec_digits (lo sp) ++ tag ".." ++ dec_digits (hi sp) ++ tag ")"
  else tag "Span".
(** fallback.rs 705-716 with [is_call_site] 690-692. *)
Definition span_field (sp : span) : list (str * str) :=
  if span_locations && negb ((lo sp =? 0) && (hi sp =? 0))%N then [(tag "span", span_debug sp)] else [].

(** lib.rs 656-670 over fallback.rs 248-253 (the stream of a group), 786-794
    (Group), lib.rs 893-901 (Punct), fallback.rs 1205-1212 (Literal).  The
    identifier of a tree is written by lib.rs itself. *)
Fixpoint tree_debug (alt : bool) (t : token) : str :=
  match t with
  | TGroup d ts sp =>
      debug_struct alt (tag "Group")
        ([(tag "delimiter", delimiter_debug d);
          (tag "stream", tag "TokenStream " ++ debug_list alt (map (tree_debug alt) ts))] ++ span_field sp)
  | TIdent sym raw sp =>
      debug_struct alt (tag "Ident") ([(tag "sym", ident_to_string sym raw)] ++ span_field sp)
  | TPunct c s sp =>
      debug_struct alt (tag "Punct")
        ([(tag "char", char_debug c); (tag "spacing", spacing_debug s)] ++ span_field sp)
  | TLiteral repr sp =>
      debug_struct alt (tag "Literal") ([(tag "lit", repr)] ++ span_field sp)
  end.
(** fallback.rs 248-253; lib.rs 1509-1514 is the same for [IntoIter]. *)
Definition stream_debug (alt : bool) (ts : list token) : str :=
  tag "TokenStream " ++ debug_list alt (map (tree_debug alt) ts).
(** fallback.rs 920-940: an identifier on its own. *)
Definition ident_debug (alt : bool) (sym : str) (raw : bool) (sp : span) : str :=
  if span_locations then
    debug_struct alt (tag "Ident") ([(tag "sym", ident_to_string sym raw)] ++ span_field sp)
  else debug_tuple1 alt (tag "Ident") (ident_to_string sym raw).
(** fallback.rs 59-62, derived. *)
Definition lex_error_debug (alt : bool) (sp : span) : str :=
  debug_struct alt (tag "LexError") [(tag "span", span_debug sp)].
(** extra.rs 147-151: [DelimSpan::join] is the group's own span (extra.rs 112-121). *)
Definition delim_span_debug (group : token) : str := span_debug (token_span group).
End WithConfiguration.
