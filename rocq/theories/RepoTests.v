(** * The assertions of /repo/tests, evaluated on the model.

    Not a specification: evidence that the definitions transcribe the program.
    Each example is named after the test function it copies.  tests/marker.rs and test_size.rs are about types. *)
From Verif Require Import Base Unicode Tokens Lexer Fallback LitNew Escaper LitValue SourceMap Debug Messages.
From Verif Require RcHeap.
From Coq Require Import Strings.String.
Open Scope string_scope.
Open Scope list_scope.

(** ** Notation of the tests *)

(** The text of a Rust string literal without prefix, given without its quotes. *)
Fixpoint hex_until (s : str) (v : N) : N * str :=
  match s with
  | [] => (v, [])
  | c :: s => if (c =? "}"%ch)%N then (v, s) else hex_until s (v * 16 + hex_value c)%N
  end.
Fixpoint cooked_text (fuel : nat) (s : str) : str :=
  match fuel, s with
  | Datatypes.S fuel, c :: s =>
      if (c =? BACKSLASH)%N then
        match s with
        | e :: s =>
            if (e =? "n"%ch)%N then LF :: cooked_text fuel s
            else if (e =? "r"%ch)%N then CR :: cooked_text fuel s
            else if (e =? "t"%ch)%N then TAB :: cooked_text fuel s
            else if (e =? "0"%ch)%N then NUL :: cooked_text fuel s
            else if (e =? "u"%ch)%N then let (v, s) := hex_until (tl s) 0 in v :: cooked_text fuel s
            else e :: cooked_text fuel s
        | [] => []
        end
      else c :: cooked_text fuel s
  | _, _ => []
  end.
Definition r (s : string) : str := match from_utf8 (lit s) with Utf8Ok s => s | Utf8Err _ _ => [] end.
Definition q (s : string) : str := cooked_text (String.length s) (r s).
Arguments r s%string.
Arguments q s%string.

(** The tables, enough for the characters of the tests. *)
Definition tables : unicode := {|
  is_xid_start c := @is_xid_start sample_unicode c || (c =? 0xE1)%N || (c =? 0x107)%N || (c =? 0x13015)%N;
  is_xid_continue c := @is_xid_continue sample_unicode c || (c =? 0xE1)%N || (c =? 0x107)%N || (c =? 0x13015)%N;
  is_grapheme_extended := @is_grapheme_extended sample_unicode;
  is_printable c := @is_printable sample_unicode c || (c =? 0x2764)%N || (c =? 0x6211)%N || (c =? 0x53EB)%N
|}.
Lemma tables_ok : unicode_ok tables.
Proof.
  destruct sample_unicode_ok as [a b c d e f]. split; cbn [is_xid_start is_xid_continue is_grapheme_extended is_printable tables].
  - intros x H. rewrite a by exact H. lia.
  - intros x H. rewrite b by exact H. lia.
  - intros x H. apply orb_true_iff in H as [H|H]; [|lia]. apply orb_true_iff in H as [H|H]; [|lia].
    apply orb_true_iff in H as [H|H]; [|lia]. now rewrite (c _ H).
  - intros x H. rewrite (d _ H). unfold is_white_space, between in H. lia.
  - repeat split; reflexivity.
  - intros x H. destruct (f x H) as [-> ->]. now split.
Qed.
#[local] Existing Instance tables.
#[local] Existing Instance std_new.

Definition panics {A} (x : res A) : Prop := x = Panic.
Definition parses (s : str) : bool := match token_stream_from_str 1 s with Ok (Lexed _) => true | _ => false end.
Definition fails (s : str) : bool := match token_stream_from_str 1 s with Ok (LexError _) => true | _ => false end.
Definition tokens (s : str) : list token := match token_stream_from_str 1 s with Ok (Lexed ts) => ts | _ => [] end.
Definition texts (s : str) : list str := map tree_to_string (tokens s).
Definition token_count (s : str) : option nat := if parses s then Some (List.length (tokens s)) else None.
Definition sp := call_site.
Definition text_of (t : res token) : option str := match t with Ok t => Some (tree_to_string t) | _ => None end.

(** ** tests/test.rs *)

Example idents :
  map (fun s => text_of (ident_new (r s) sp)) ["String"; "fn"; "_"] = [Some (r "String"); Some (r "fn"); Some (r "_")].
Proof. vm_compute. reflexivity. Qed.
Example raw_idents :
  map (fun s => text_of (ident_new_raw (r s) sp)) ["String"; "fn"] = [Some (r "r#String"); Some (r "r#fn")].
Proof. vm_compute. reflexivity. Qed.
(** [#[should_panic(expected = e)]]: the message contains [e]. *)
Fixpoint has_infix (e s : str) : bool :=
  starts_with s e || match s with [] => false | _ :: s => has_infix e s end.
Definition should_panic {A} (e : str) (x : said A) : Prop :=
  match x with Panics m => has_infix e m = true | Returns _ => False end.
Example ident_raw_underscore : should_panic (r "`r#_` cannot be a raw identifier") (ident_new_raw_says (r "_") sp).
Proof. vm_compute. reflexivity. Qed.
Example ident_raw_reserved : should_panic (r "`r#super` cannot be a raw identifier") (ident_new_raw_says (r "super") sp).
Proof. vm_compute. reflexivity. Qed.
Example ident_empty : should_panic (r "Ident is not allowed to be empty; use Option<Ident>") (ident_new_says (r "") sp).
Proof. vm_compute. reflexivity. Qed.
Example ident_number : should_panic (r "Ident cannot be a number; use Literal instead") (ident_new_says (r "255") sp).
Proof. vm_compute. reflexivity. Qed.
Example ident_invalid : should_panic (r """a#"" is not a valid Ident") (ident_new_says (r "a#") sp).
Proof. vm_compute. reflexivity. Qed.
Example raw_ident_empty : should_panic (r "not a valid Ident") (ident_new_says (r "r#") sp).
Proof. vm_compute. reflexivity. Qed.
Example raw_ident_number : should_panic (r "not a valid Ident") (ident_new_says (r "r#255") sp).
Proof. vm_compute. reflexivity. Qed.
Example raw_ident_invalid : should_panic (r """r#a#"" is not a valid Ident") (ident_new_says (r "r#a#") sp).
Proof. vm_compute. reflexivity. Qed.
Example lifetime_empty : should_panic (r "not a valid Ident") (ident_new_says (r "'") sp).
Proof. vm_compute. reflexivity. Qed.
Example lifetime_number : should_panic (r "not a valid Ident") (ident_new_says (r "'255") sp).
Proof. vm_compute. reflexivity. Qed.
Example lifetime_invalid : should_panic (r """'a#"" is not a valid Ident") (ident_new_says (r "'a#") sp).
Proof. vm_compute. reflexivity. Qed.

Example literal_string_test :
  map literal_string [q ""; q "aA"; q "\t"; q "❤"; q "'"; q "\"""; q "\0"; q "\u{1}"; q "a\00b\07c\08d\0e\0"]
  = [r """"""; r """aA"""; r """\t"""; r """❤"""; r """'"""; r """\"""""; r """\0"""; r """\u{1}""";
     r """a\x000b\x007c\08d\0e\0"""]
  /\ parses (q "\""\\\r\n    x\""") = true /\ fails (q "\""\\\r\n  \rx\""") = true.
Proof. vm_compute. repeat split. Qed.

Definition raw_string_literal_with_hashes (n : nat) : str :=
  r "r" ++ repeat "#"%ch n ++ [DQUOTE; DQUOTE] ++ repeat "#"%ch n.
Example literal_raw_string :
  parses (q "r\""\r\n\""") = true /\ parses (raw_string_literal_with_hashes 255) = true /\
  fails (raw_string_literal_with_hashes 256) = true.
Proof. vm_compute. repeat split. Qed.

(** A literal's text, parsed, then its value. *)
Definition value_of_parsed (value : str -> res (conversion (list N))) (s : str) : option (list N) :=
  match literal_from_str 1 s with
  | Ok (LitOk repr _) => match value repr with Ok (COk v) => Some v | _ => None end
  | _ => None
  end.
Definition values (value : str -> res (conversion (list N))) (s : str) : option (list N) :=
  match value s with Ok (COk v) => Some v | _ => None end.
Example literal_string_value :
  forallb (fun s =>
      match values str_value (literal_string s),
            value_of_parsed str_value (r "r""" ++ s ++ r """"),
            value_of_parsed str_value (r "r##""" ++ s ++ r """##") with
      | Some a, Some b, Some c => str_eqb a s && str_eqb b s && str_eqb c s
      | _, _, _ => false
      end) [q ""; q "..."; q "...\t..."; q "...\\..."; q "...\0..."; q "...\u{1}..."] = true.
Proof. vm_compute. reflexivity. Qed.

Example literal_byte_character_test :
  map literal_byte_character [97; 0; 9; 10; 13; 39; 92; 0x1f; 34]%N
  = [r "b'a'"; r "b'\0'"; r "b'\t'"; r "b'\n'"; r "b'\r'"; r "b'\''"; r "b'\\'"; r "b'\x1F'"; r "b'""'"].
Proof. vm_compute. reflexivity. Qed.
Example literal_byte_string_test :
  map literal_byte_string [q ""; q "\0"; q "\t"; q "\n"; q "\r"; q "\"""; q "\\"; [0x1f%N]; q "'"; q "a\00b\07c\08d\0e\0"]
  = [r "b"""""; r "b""\0"""; r "b""\t"""; r "b""\n"""; r "b""\r"""; r "b""\"""""; r "b""\\"""; r "b""\x1F""";
     r "b""'"""; r "b""a\x000b\x007c\08d\0e\0"""]
  /\ parses (q "b\""\\\r\n    x\""") = true /\ fails (q "b\""\\\r\n  \rx\""") = true
  /\ fails (q "b\""\\\r\n  \u{a0}x\""") = true /\ fails (q "br\""\u{a0}\""") = true.
Proof. vm_compute. repeat split. Qed.
Example literal_byte_string_value :
  forallb (fun s =>
      match values byte_str_value (literal_byte_string s) with Some a => str_eqb a s | _ => false end
      && match from_utf8 s with
         | Utf8Ok string =>
             match value_of_parsed byte_str_value (r "br""" ++ string ++ r """"),
                   value_of_parsed byte_str_value (r "br##""" ++ string ++ r """##") with
             | Some b, Some c => str_eqb b s && str_eqb c s
             | _, _ => false
             end
         | Utf8Err _ _ => true
         end) [q ""; q "..."; q "...\t..."; q "...\\..."; q "...\0..."; q "..." ++ [0xF0%N] ++ q "..."] = true.
Proof. vm_compute. reflexivity. Qed.

Example literal_c_string_test :
  map literal_c_string
    [[]; r "aA"; q "\t"; [0xE2; 0x9D; 0xA4]%N; r "'"; q "\"""; [0x7F; 0xFF; 0xFE; 0xCC; 0xB3]%N]
  = map Ok [r "c"""""; r "c""aA"""; r "c""\t"""; r "c""❤"""; r "c""'"""; r "c""\"""""; r "c""\u{7f}\xFF\xFE\u{333}"""]
  /\ texts (r "
        c""hello\x80我叫\u{1F980}""  // from the RFC
        cr""\""
        cr##""Hello ""world""!""##
        c""\t\n\r\""\\""
    ") = [r "c""hello\x80我叫\u{1F980}"""; r "cr""\"""; r "cr##""Hello ""world""!""##"; r "c""\t\n\r\""\\"""]
  /\ forallb fails [r "c""\0"""; r "c""\x00"""; r "c""\u{0}"""; q "c\""\0\"""] = true.
Proof. vm_compute. repeat split. Qed.
Example literal_c_string_value :
  forallb (fun s =>
      match literal_c_string s with
      | Ok l => match values cstr_value l with Some a => str_eqb a (s ++ [NUL]) | _ => false end
      | _ => false
      end
      && match from_utf8 s with
         | Utf8Ok string =>
             match value_of_parsed cstr_value (r "cr""" ++ string ++ r """"),
                   value_of_parsed cstr_value (r "cr##""" ++ string ++ r """##") with
             | Some b, Some c => str_eqb b (s ++ [NUL]) && str_eqb c (s ++ [NUL])
             | _, _ => false
             end
         | Utf8Err _ _ => true
         end) [q ""; q "..."; q "...\t..."; q "...\\..."; q "...\u{1}..."; q "..." ++ [0xF0%N] ++ q "..."] = true.
Proof. vm_compute. reflexivity. Qed.

Example literal_character_test :
  map literal_character (q "a\t❤\'\""\0\u{1}")
  = [r "'a'"; r "'\t'"; r "'❤'"; r "'\''"; r "'""'"; r "'\0'"; r "'\u{1}'"].
Proof. vm_compute. reflexivity. Qed.

Example literal_integer :
  map (fun t => int_suffixed t 10) [U8; U16; U32; U64; U128; Usize; I8; I16; I32; I64; I128; Isize]
  = [r "10u8"; r "10u16"; r "10u32"; r "10u64"; r "10u128"; r "10usize";
     r "10i8"; r "10i16"; r "10i32"; r "10i64"; r "10i128"; r "10isize"]
  /\ int_unsuffixed 10 = r "10" /\ int_suffixed I32 (-10) = r "-10i32" /\ int_unsuffixed (-10) = r "-10".
Proof. vm_compute. repeat split. Qed.
(** The text of the number is the standard library's. *)
Example literal_float :
  float_suffixed F32 (r "10") = r "10f32" /\ float_suffixed F32 (r "-10") = r "-10f32" /\
  float_suffixed F64 (r "10") = r "10f64" /\ float_suffixed F64 (r "-10") = r "-10f64" /\
  float_unsuffixed (r "10") = r "10.0" /\ float_unsuffixed (r "-10") = r "-10.0" /\
  float_unsuffixed (r "1" ++ repeat "0"%ch 100) = r "1" ++ repeat "0"%ch 100 ++ r ".0".
Proof. vm_compute. repeat split. Qed.

Example literal_suffix :
  map token_count
    [q "999u256"; q "999r#u256"; q "1."; q "1.f32"; q "1.0_0"; q "1._0"; q "1._m"; q "\""\""s"; q "r\""\""r";
     q "r#\""\""#r"; q "b\""\""b"; q "br\""\""br"; q "br#\""\""#br"; q "c\""\""c"; q "cr\""\""cr"; q "cr#\""\""#cr";
     q "'c'c"; q "b'b'b"; q "0E"; q "0o0A"; q "0E--0"; q "0.0ECMA"]
  = map Some [1; 3; 1; 3; 1; 3; 3; 1; 1; 1; 1; 1; 1; 1; 1; 1; 1; 1; 1; 1; 4; 1].
Proof. vm_compute. reflexivity. Qed.

Example literal_iter_negative :
  stream_from_tree (TLiteral (int_suffixed I32 (-3)) sp) = [TPunct "-"%ch Alone sp; TLiteral (r "3i32") sp].
Proof. vm_compute. reflexivity. Qed.

Definition literal_ok (s : str) : bool := match literal_from_str 1 s with Ok (LitOk _ _) => true | _ => false end.
Definition literal_err (s : str) : bool := match literal_from_str 1 s with Ok (LitErr _) => true | _ => false end.
Example literal_parse :
  forallb literal_ok [q "1"; q "-1"; q "-1u12"; q "1.0"; q "-1.0"; q "-1.0f12"; q "'a'"; q "\""\n\"""] = true /\
  forallb literal_err [q "0 1"; q " 0"; q "0 "; q "/* comment */0"; q "0/* comment */"; q "0// comment"; q "- 1";
    q "- 1.0"; q "-\""\"""] = true.
Proof. vm_compute. repeat split. Qed.

(** Queries of a span after parsing [s] on a fresh thread. *)
Definition after_parsing {A} (s : str) (k : source_map -> list token -> res A) : res A :=
  let? (m, l) := parse fresh_map s in match l with Lexed ts => k m ts | LexError _ => Reject end.
Definition positions (m : source_map) (sp : span) : res (nat * nat * nat * nat) :=
  let? a := span_start m sp in let? b := span_end m sp in Ok (line a, column a, line b, column b).
Definition with_literal {A} (m : source_map) (s : str) (k : source_map -> span -> res A) : res A :=
  let? (m, l) := parse_literal m s in match l with LitOk _ sp => k m sp | LitErr _ => Reject end.
Example literal_span :
  with_literal fresh_map (r "0.1") (fun m pos => with_literal m (r "-0.1") (fun m neg =>
    let? p := positions m pos in
    let? n := positions m neg in
    match subspan pos (Included 1) (Excluded 2), subspan pos (Included 1) (Excluded 4) with
    | Some s, None => let? (_, t) := span_source_text m s in Ok (p, n, t)
    | _, _ => Reject
    end)) = Ok ((1, 0, 1, 3), (1, 0, 1, 4), Some (r ".")).
Proof. vm_compute. reflexivity. Qed.

Example source_text_test :
  after_parsing (r "    𓀕 a z    ") (fun m ts =>
    match ts with
    | [a; b; c] =>
        let? (m, x) := span_source_text m (token_span a) in
        let? (m, z) := span_source_text m (token_span c) in
        let? (m, y) := span_source_text m (token_span b) in
        Ok (x, y, z)
    | _ => Reject
    end) = Ok (Some (r "𓀕"), Some (r "a"), Some (r "z")).
Proof. vm_compute. reflexivity. Qed.

Definition ident_is (t : token) (s : str) : bool :=
  match t with
  | TIdent sym raw _ => match ident_eq_str sym raw s with Ok b => b | _ => false end
  | _ => false
  end.
Definition punct_is (t : token) (c : char) (s : spacing) : bool :=
  match t with TPunct d s' _ => (c =? d)%N && spacing_eqb s s' | _ => false end.
Example lifetimes :
  match tokens (r "'a 'static 'struct 'r#gen 'r#prefix#lifetime") with
  | [p1; a; p2; b; p3; c; p4; d; p5; e; h; f] =>
      forallb (fun p => punct_is p SQUOTE Joint) [p1; p2; p3; p4; p5]
      && ident_is a (r "a") && ident_is b (r "static") && ident_is c (r "struct") && ident_is d (r "r#gen")
      && ident_is e (r "r#prefix") && punct_is h "#"%ch Alone && ident_is f (r "lifetime")
  | _ => false
  end = true /\
  forallb fails [r "' a"; r "' r#gen"; r "' prefix#lifetime"; r "'prefix#lifetime"; r "'aa'bb"; r "'r#gen'a"] = true.
Proof. vm_compute. repeat split. Qed.

Definition round (s : str) : bool :=
  parses s && let t := stream_to_string (tokens s) in parses t && str_eqb (stream_to_string (tokens t)) t.
Example roundtrip :
  forallb round
    [r "a"; r "<<"; r "<<="; r "
        1
        1.0
        1f32
        2f64
        1usize
        4isize
        4e10
        1_000
        1_0i32
        8u8
        9
        0
        0xffffffffffffffffffffffffffffffff
        1x
        1u80
        1f320
    "; r "'a"; r "'_"; r "'static"; r "'\u{10__FFFF}'"; q "\""\\u{10_F0FF__}foo\\u{1_0_0_0__}\"""] = true.
Proof. vm_compute. reflexivity. Qed.

Example fail :
  forallb fails
    [r "' static"; r "r#1"; r "r#_"; q "\""\\u{0000000}\"""; q "\""\\u{999999}\"""; q "\""\\u{_0}\"""; q "\""\\u{}\""";
     q "b\""\r\"""; q "r\""\r\"""; q "\""\\\r  \"""; r "'aa'aa"; q "br##\""\""#"; q "cr##\""\""#"; q "\""\\\n\u{85}\r\"""]
  = true.
Proof. vm_compute. reflexivity. Qed.

(** [check_spans]: a group comes before its contents, and the given list may stop early. *)
Fixpoint all_positions (m : source_map) (t : token) : res (list (nat * nat * nat * nat)) :=
  let? p := positions m (token_span t) in
  match t with
  | TGroup _ ts _ =>
      let? l := (fix go (ts : list token) :=
                   match ts with
                   | [] => Ok []
                   | t :: ts => let? a := all_positions m t in let? b := go ts in Ok (a ++ b)
                   end) ts in Ok (p :: l)
  | _ => Ok [p]
  end.
Definition check_spans (s : str) (expected : list (nat * nat * nat * nat)) : Prop :=
  after_parsing s (fun m ts =>
    let? l := (fix go (ts : list token) :=
                 match ts with
                 | [] => Ok []
                 | t :: ts => let? a := all_positions m t in let? b := go ts in Ok (a ++ b)
                 end) ts in Ok (firstn (List.length expected) l)) = Ok expected.
Example span_test :
  check_spans (r "/// This is a document comment
testing 123
{
  testing 234
}")
    [(1, 0, 1, 30); (1, 0, 1, 30); (1, 0, 1, 30); (1, 0, 1, 30); (1, 0, 1, 30); (2, 0, 2, 7); (2, 8, 2, 11);
     (3, 0, 5, 1); (4, 2, 4, 9); (4, 10, 4, 13)].
Proof. vm_compute. reflexivity. Qed.

Example default_span :
  positions fresh_map call_site = Ok (1, 0, 1, 0) /\ span_file fresh_map call_site = Ok (r "<unspecified>").
Proof. vm_compute. repeat split. Qed.

Example span_join_test :
  (let? (m, l1) := parse fresh_map (q "aaa\nbbb") in
   let? (m, l2) := parse m (q "ccc\nddd") in
   match l1, l2 with
   | Lexed [a; b], Lexed [c; d] =>
       let? fa := span_file m (token_span a) in
       let? fb := span_file m (token_span b) in
       let? fc := span_file m (token_span c) in
       let? j1 := span_join m (token_span a) (token_span b) in
       let? j2 := span_join m (token_span a) (token_span c) in
       match j1, j2 with
       | Some j, None =>
           let? p := positions m j in
           let? fj := span_file m j in
           Ok (str_eqb fa fc, str_eqb fa fb, p, str_eqb fj fa)
       | _, _ => Reject
       end
   | _, _ => Reject
   end) = Ok (false, true, (1, 0, 2, 3), true).
Proof. vm_compute. reflexivity. Qed.

Example no_panic : fails (q "b'\u{86}  \0\0\0^\""") = true.
Proof. vm_compute. reflexivity. Qed.
Example punct_before_comment :
  match tokens (r "~// comment") with [t] => punct_is t "~"%ch Alone | _ => false end = true.
Proof. vm_compute. reflexivity. Qed.
Example joint_last_token :
  match punct_new ":"%ch Joint with
  | Ok t => match stream_from_tree t with [TPunct _ s _] => spacing_eqb s Joint | _ => false end
  | _ => false
  end = true.
Proof. vm_compute. reflexivity. Qed.
Example raw_identifier : texts (r "r#dyn") = [r "r#dyn"].
Proof. vm_compute. reflexivity. Qed.

(** The options of [{:-^14}] and [{:-^5}]. *)
Definition dashes (n : nat) : format := mkformat "-"%ch (Some ACenter) (Some n) None false.
Example test_display_ident :
  match ident_new (r "proc_macro") sp, ident_new_raw (r "proc_macro") sp with
  | Ok a, Ok b =>
      map (fun f => (tree_display f a, tree_display f b)) [plain; dashes 14]
      = repeat (r "proc_macro", r "r#proc_macro") 2
  | _, _ => False
  end.
Proof. vm_compute. reflexivity. Qed.
Example test_debug_ident :
  (ident_debug true false (r "proc_macro") false sp, ident_debug false false (r "proc_macro") false sp)
  = (r "Ident { sym: proc_macro }", r "Ident(proc_macro)") /\
  (ident_debug true false (r "proc_macro") true sp, ident_debug false false (r "proc_macro") true sp)
  = (r "Ident { sym: r#proc_macro }", r "Ident(r#proc_macro)").
Proof. vm_compute. repeat split. Qed.
Example test_display_tokenstream :
  map (fun f => stream_display f (tokens (r "[a + 1]"))) [plain; dashes 5] = [r "[a + 1]"; r "[a + 1]"].
Proof. vm_compute. reflexivity. Qed.
Example test_debug_tokenstream :
  stream_debug false true (tokens (r "[a + 1]")) = r "TokenStream [
    Group {
        delimiter: Bracket,
        stream: TokenStream [
            Ident {
                sym: a,
            },
            Punct {
                char: '+',
                spacing: Alone,
            },
            Literal {
                lit: 1,
            },
        ],
    },
]" /\
  stream_debug true true (tokens (r "[a + 1]")) = r "TokenStream [
    Group {
        delimiter: Bracket,
        stream: TokenStream [
            Ident {
                sym: a,
                span: bytes(2..3),
            },
            Punct {
                char: '+',
                spacing: Alone,
                span: bytes(4..5),
            },
            Literal {
                lit: 1,
                span: bytes(6..7),
            },
        ],
        span: bytes(1..8),
    },
]".
Proof. vm_compute. repeat split. Qed.

Example tokenstream_size_hint : token_count (r "a b (c d) e") = Some 4.
Proof. vm_compute. reflexivity. Qed.
Example tuple_indexing : texts (r "tuple.0.0") = [r "tuple"; r "."; r "0.0"].
Proof. vm_compute. reflexivity. Qed.

Example non_ascii_tokens :
  check_spans (r "// abc") [] /\
  check_spans (r "// ábc") [] /\
  check_spans (r "// abc x") [] /\
  check_spans (r "// ábc x") [] /\
  check_spans (r "/* abc */ x") [(1, 10, 1, 11)] /\
  check_spans (r "/* ábc */ x") [(1, 10, 1, 11)] /\
  check_spans (q "/* ab\nc */ x") [(2, 5, 2, 6)] /\
  check_spans (q "/* áb\nc */ x") [(2, 5, 2, 6)] /\
  check_spans (r "/*** abc */ x") [(1, 12, 1, 13)] /\
  check_spans (r "/*** ábc */ x") [(1, 12, 1, 13)] /\
  check_spans (r """abc""") [(1, 0, 1, 5)] /\
  check_spans (r """ábc""") [(1, 0, 1, 5)] /\
  check_spans (r "r#""abc""#") [(1, 0, 1, 8)] /\
  check_spans (r "r#""ábc""#") [(1, 0, 1, 8)] /\
  check_spans (q "r#\""a\nc\""#") [(1, 0, 2, 3)] /\
  check_spans (q "r#\""á\nc\""#") [(1, 0, 2, 3)] /\
  check_spans (r "'a'") [(1, 0, 1, 3)] /\
  check_spans (r "'á'") [(1, 0, 1, 3)] /\
  check_spans (r "//! abc") [(1, 0, 1, 7); (1, 0, 1, 7); (1, 0, 1, 7)] /\
  check_spans (r "//! ábc") [(1, 0, 1, 7); (1, 0, 1, 7); (1, 0, 1, 7)] /\
  check_spans (q "//! abc\n") [(1, 0, 1, 7); (1, 0, 1, 7); (1, 0, 1, 7)] /\
  check_spans (q "//! ábc\n") [(1, 0, 1, 7); (1, 0, 1, 7); (1, 0, 1, 7)] /\
  check_spans (r "/*! abc */") [(1, 0, 1, 10); (1, 0, 1, 10); (1, 0, 1, 10)] /\
  check_spans (r "/*! ábc */") [(1, 0, 1, 10); (1, 0, 1, 10); (1, 0, 1, 10)] /\
  check_spans (q "/*! a\nc */") [(1, 0, 2, 4); (1, 0, 2, 4); (1, 0, 2, 4)] /\
  check_spans (q "/*! á\nc */") [(1, 0, 2, 4); (1, 0, 2, 4); (1, 0, 2, 4)] /\
  check_spans (r "abc") [(1, 0, 1, 3)] /\
  check_spans (r "ábc") [(1, 0, 1, 3)] /\
  check_spans (r "ábć") [(1, 0, 1, 3)] /\
  check_spans (r "abc// foo") [(1, 0, 1, 3)] /\
  check_spans (r "ábc// foo") [(1, 0, 1, 3)] /\
  check_spans (r "ábć// foo") [(1, 0, 1, 3)] /\
  check_spans (q "b\""a\\\n c\""") [(1, 0, 2, 3)].
Proof. vm_compute. repeat split. Qed.

Example whitespace :
  token_count (q " \t" ++ [0xB; 0xC]%N ++ q "\r\n\u{a0}\u{200e}\u{200f}") = Some 0 /\ parses (q " \r \r\r\n ") = true.
Proof. vm_compute. repeat split. Qed.
Example byte_order_mark :
  match tokens (q "\u{feff}foo") with [t] => ident_is t (r "foo") | _ => false end = true /\
  fails (q "foo\u{feff}") = true.
Proof. vm_compute. repeat split. Qed.

(** [create_span], threading the map. *)
Definition create_span (m : source_map) : res (source_map * span) :=
  let? (m, l) := parse m (r "1") in
  match l with Lexed [t] => Ok (m, token_span t) | _ => Reject end.
Example test_invalidate_current_thread_spans :
  (let? (m, a) := create_span fresh_map in
   let? (m, b) := create_span m in
   let? (m, c) := create_span (invalidate m) in
   Ok (map (span_debug true) [a; b; c])) = Ok [r "bytes(1..2)"; r "bytes(3..4)"; r "bytes(1..2)"].
Proof. vm_compute. reflexivity. Qed.
Example test_use_span_after_invalidation :
  panics (let? (m, a) := create_span fresh_map in span_source_text (invalidate m) a) /\
  match create_span fresh_map with
  | Ok (m, a) => should_panic (r "Invalid span with no related FileInfo!") (find_says (invalidate m) a)
  | _ => False
  end.
Proof. vm_compute. split; reflexivity. Qed.

(** ** tests/comments.rs *)
Definition lit_of_doc_comment (inner : bool) (s : str) : option str :=
  match tokens s with
  | TPunct h Alone _ :: ts =>
      if negb (h =? "#"%ch)%N then None else
      match (if inner then match ts with TPunct b Alone _ :: ts => if (b =? "!"%ch)%N then ts else [] | _ => [] end else ts) with
      | [TGroup Bracket [i; TPunct e Alone _; TLiteral l _] _] =>
          if str_eqb (tree_to_string i) (r "doc") && (e =? "="%ch)%N then Some l else None
      | _ => None
      end
  | _ => None
  end.
Example closed_immediately : token_count (r "/**/") = Some 0. Proof. vm_compute. reflexivity. Qed.
Example incomplete : fails (r "/*/") = true. Proof. vm_compute. reflexivity. Qed.
Example lit_test :
  lit_of_doc_comment false (r "/// doc") = Some (r """ doc""") /\
  lit_of_doc_comment true (r "//! doc") = Some (r """ doc""") /\
  lit_of_doc_comment false (r "/** doc */") = Some (r """ doc """) /\
  lit_of_doc_comment true (r "/*! doc */") = Some (r """ doc """).
Proof. vm_compute. repeat split. Qed.
Example carriage_return :
  lit_of_doc_comment false (q "///\r\n") = Some (r """""") /\
  lit_of_doc_comment false (q "/**\r\n*/") = Some (r """\r\n""") /\
  forallb fails [q "///\r"; q "///\r \n"; q "/**\r \n*/"] = true.
Proof. vm_compute. repeat split. Qed.

(** ** tests/test_fmt.rs *)
Example test_fmt_group :
  let inner := [TIdent (r "x") false sp] in
  map tree_to_string
    [TGroup Parenthesis [] sp; TGroup Parenthesis inner sp; TGroup Bracket [] sp; TGroup Bracket inner sp;
     TGroup Brace [] sp; TGroup Brace inner sp; TGroup DNone [] sp; TGroup DNone inner sp]
  = [r "()"; r "(x)"; r "[]"; r "[x]"; r "{ }"; r "{ x }"; r ""; r "x"].
Proof. vm_compute. reflexivity. Qed.
