(** * Compiler-backed and fallback values: src/wrapper.rs, src/fallback.rs 1238-1278.

    Configuration [wrap_proc_macro].  The compiler's [proc_macro] crate is a
    parameter.  Each call takes the answer [inside_proc_macro()] gave to it. *)
From Verif Require Import Base Unicode Tokens Lexer Fallback LitNew.

(** ** The compiler *)

Class ctypes := { cspan : Type; cstream : Type; cgroup : Type; cident : Type; cliteral : Type }.
(** [proc_macro::TokenTree]. *)
Inductive ctree {T : ctypes} :=
| CGroup (g : cgroup)
| CPunct (ch : char) (s : spacing) (sp : cspan)
| CIdent (i : cident)
| CLiteral (l : cliteral).
(** Outcomes of [proc_macro]'s [FromStr]. *)
Inductive cparse (A : Type) := Parsed (a : A) | ParseErr | ParsePanic.
Arguments Parsed {A}. Arguments ParseErr {A}. Arguments ParsePanic {A}.
(** The constructors of [Literal]; the text of a float is that of its [Display]. *)
Inductive lit_req :=
| ReqInt (suffix : option int_type) (z : Z)
| ReqFloat (suffix : option float_type) (text : str)
| ReqString (s : str)
| ReqChar (c : char)
| ReqByteChar (b : byte)
| ReqByteString (bs : list byte)
| ReqCString (bs : list byte).
Class compiler {T : ctypes} := {
  c_call_site : cspan;
  c_mixed_site : cspan;
  c_resolved_at : cspan -> cspan -> cspan;
  c_located_at : cspan -> cspan -> cspan;
  c_join : cspan -> cspan -> option cspan;
  c_span_eq : cspan -> cspan -> bool;
  c_source_text : cspan -> option str;
  c_new : cstream;
  c_parse : str -> cparse cstream;
  c_is_empty : cstream -> bool;
  c_display : cstream -> str;
  c_from_tree : ctree -> cstream;
  c_collect : list ctree -> cstream;
  c_extend : cstream -> list ctree -> cstream;
  c_extend_streams : cstream -> list cstream -> cstream;
  c_trees : cstream -> list ctree;
  c_group_new : delimiter -> cstream -> cgroup;
  c_delimiter : cgroup -> delimiter;
  c_group_stream : cgroup -> cstream;
  c_group_span : cgroup -> cspan;
  c_group_open : cgroup -> cspan;
  c_group_close : cgroup -> cspan;
  c_group_set_span : cgroup -> cspan -> cgroup;
  c_group_display : cgroup -> str;
  c_ident_new : str -> cspan -> option cident;           (* [None]: panic *)
  c_ident_new_raw : str -> cspan -> option cident;
  c_ident_span : cident -> cspan;
  c_ident_set_span : cident -> cspan -> cident;
  c_ident_display : cident -> str;
  c_literal_new : lit_req -> cliteral;
  c_literal_parse : str -> cparse cliteral;
  c_literal_span : cliteral -> cspan;
  c_literal_set_span : cliteral -> cspan -> cliteral;
  c_literal_subspan : cliteral -> bound -> bound -> option cspan;
  c_literal_display : cliteral -> str;
  (* cfg [no_literal_byte_character], [no_literal_c_string] *)
  no_byte_character : bool;
  no_c_string : bool
}.
(** The fallback's source map, see SourceMap.v. *)
Class fallback_map := { f_join : span -> span -> option span; f_source_text : span -> option str }.

(** ** Values *)

Section Wrapper.
Context {U : unicode} {T : ctypes} {C : compiler} {F : fallback_map}.

(** wrapper.rs 373-377. *)
Inductive wspan := SpC (s : cspan) | SpF (s : span).
(** lib.rs TokenTree over wrapper.rs Group 561-565, Ident 666-670, Literal 761-765 and lib.rs Punct. *)
Inductive wtree :=
| GroupC (g : cgroup)
| GroupF (d : delimiter) (ts : list wtree) (sp : span)
| PunctW (ch : char) (s : spacing) (sp : wspan)
| IdentC (i : cident)
| IdentF (sym : str) (raw : bool) (sp : span)
| LiteralC (l : cliteral)
| LiteralF (repr : str) (sp : span).
(** wrapper.rs 24-38: the compiler's stream with the trees not yet appended to it. *)
Inductive wstream := StreamC (s : cstream) (extra : list ctree) | StreamF (ts : list wtree).
(** wrapper.rs 40-47. *)
Inductive werror := ErrC | ErrF (sp : span) | ErrPanic.

(** Result, [mismatch] panic, other panic, arguments of the wrong type. *)
Inductive outcome (A : Type) := Val (a : A) | Mismatch | Panics | Illtyped.
Arguments Val {A}. Arguments Mismatch {A}. Arguments Panics {A}. Arguments Illtyped {A}.
Definition obind {A B} (o : outcome A) (k : A -> outcome B) : outcome B :=
  match o with Val a => k a | Mismatch => Mismatch | Panics => Panics | Illtyped => Illtyped end.
Fixpoint omap_list {A B} (f : A -> outcome B) (l : list A) : outcome (list B) :=
  match l with
  | [] => Val []
  | a :: l => obind (f a) (fun b => obind (omap_list f l) (fun l => Val (b :: l)))
  end.
Definition of_option {A} (o : option A) : outcome A := match o with Some a => Val a | None => Panics end.
Definition of_res {A} (o : res A) : outcome A := match o with Ok a => Val a | _ => Panics end.

(** ** Streams *)

(** 74-86. *)
Definition evaluate (s : cstream) (extra : list ctree) : cstream :=
  match extra with [] => s | _ => c_extend s extra end.
Definition into_token_stream (s : cstream) (extra : list ctree) : cstream := evaluate s extra.
(** 117-129. *)
Definition unwrap_nightly (s : wstream) : outcome cstream :=
  match s with StreamC s extra => Val (into_token_stream s extra) | StreamF _ => Mismatch end.
Definition unwrap_stable (s : wstream) : outcome (list wtree) :=
  match s with StreamC _ _ => Mismatch | StreamF ts => Val ts end.
(** 164-180; [proc_macro::Punct::new] accepts every character of a [Punct]. *)
Definition into_compiler_token (t : wtree) : outcome ctree :=
  match t with
  | GroupC g => Val (CGroup g)
  | GroupF _ _ _ => Mismatch
  | PunctW ch s (SpC sp) => Val (CPunct ch s sp)
  | PunctW _ _ (SpF _) => Mismatch
  | IdentC i => Val (CIdent i)
  | IdentF _ _ _ => Mismatch
  | LiteralC l => Val (CLiteral l)
  | LiteralF _ _ => Mismatch
  end.
(** 335-363: [TokenTreeIter::next] on a tree of the compiler; lib.rs 846-858 for [Punct::new]. *)
Definition from_compiler_token (t : ctree) : outcome wtree :=
  match t with
  | CGroup g => Val (GroupC g)
  | CPunct ch s sp =>
      if contains punct_new_chars ch then Val (PunctW ch s (SpC sp)) else Panics
  | CIdent i => Val (IdentC i)
  | CLiteral l => Val (LiteralC l)
  end.

(** fallback.rs 111-134 on wrapped trees: only a fallback literal can be split. *)
Definition w_push (v : list wtree) (t : wtree) : list wtree :=
  match t with
  | LiteralF (c :: repr) sp =>
      if (c =? "-"%ch)%N then v ++ [PunctW "-"%ch Alone (SpF sp); LiteralF repr sp] else v ++ [t]
  | _ => v ++ [t]
  end.
Definition w_extend (v ts : list wtree) : list wtree := fold_left w_push ts v.
(** A tree of the fallback's lexer. *)
Fixpoint of_token (t : token) : wtree :=
  match t with
  | TGroup d ts sp => GroupF d (map of_token ts) sp
  | TIdent s r sp => IdentF s r sp
  | TPunct c s sp => PunctW c s (SpF sp)
  | TLiteral r sp => LiteralF r sp
  end.

(** fallback.rs 225-246, 759-784 on wrapped trees. *)
Definition w_joint (t : wtree) : bool := match t with PunctW _ Joint _ => true | _ => false end.
Definition w_print_trees (f : wtree -> str) : bool -> bool -> list wtree -> str :=
  fix go (first joint : bool) (ts : list wtree) : str :=
    match ts with
    | [] => []
    | t :: ts => (if first || joint then [] else [SPACE]) ++ f t ++ go false (w_joint t) ts
    end.
Fixpoint w_tree_to_string (t : wtree) : str :=
  match t with
  | GroupC g => c_group_display g
  | GroupF d ts _ =>
      open_text d ++ w_print_trees w_tree_to_string true false ts
      ++ (match d, ts with Brace, _ :: _ => [SPACE] | _, _ => [] end) ++ close_text d
  | PunctW c _ _ => [c]
  | IdentC i => c_ident_display i
  | IdentF s r _ => ident_to_string s r
  | LiteralC l => c_literal_display l
  | LiteralF r _ => r
  end.
Definition w_stream_to_string (ts : list wtree) : str := w_print_trees w_tree_to_string true false ts.

(** ** Parsing with the compiler *)

(** fallback.rs 1238-1278: the texts given to the compiler's parser, and the result. *)
Definition from_str_checked {A} (valid : bool) (parser : str -> cparse A) (src : str) : list str * (A + werror) :=
  if negb valid then ([], inr ErrPanic)
  else ([src], match parser src with Parsed a => inl a | ParseErr => inr ErrC | ParsePanic => inr ErrPanic end).
(** 1260-1262: [from_str(src).unwrap()]. *)
Definition from_str_unchecked {A} (parser : str -> cparse A) (src : str) : list str * outcome A :=
  ([src], match parser src with Parsed a => Val a | _ => Panics end).
(** 1266-1278. *)
Definition stream_valid (start : N) (src : str) : res bool :=
  let? l := token_stream_from_str start src in Ok (match l with Lexed _ => true | LexError _ => false end).
Definition literal_valid (start : N) (src : str) : res bool :=
  let? l := literal_from_str start src in Ok (match l with LitOk _ _ => true | LitErr _ => false end).
(** wrapper.rs 98-108, 792-800. *)
Definition parse_stream (inside : bool) (start : N) (src : str) : res (list str * (wstream + werror)) :=
  if inside then
    let? v := stream_valid start src in
    let (calls, r) := from_str_checked v c_parse src in
    Ok (calls, match r with inl s => inl (StreamC s []) | inr e => inr e end)
  else
    let? l := token_stream_from_str start src in
    Ok ([], match l with Lexed ts => inl (StreamF (map of_token ts)) | LexError sp => inr (ErrF sp) end).
Definition parse_lit (inside : bool) (start : N) (src : str) : res (list str * (wtree + werror)) :=
  if inside then
    let? v := literal_valid start src in
    let (calls, r) := from_str_checked v c_literal_parse src in
    Ok (calls, match r with inl l => inl (LiteralC l) | inr e => inr e end)
  else
    let? l := literal_from_str start src in
    Ok ([], match l with LitOk repr sp => inl (LiteralF repr sp) | LitErr sp => inr (ErrF sp) end).

(** ** Literals: fallback.rs 1005-1148 *)
Definition fallback_repr (r : lit_req) : res str :=
  match r with
  | ReqInt None z => Ok (int_unsuffixed z)
  | ReqInt (Some t) z => Ok (int_suffixed t z)
  | ReqFloat None text => Ok (float_unsuffixed text)
  | ReqFloat (Some t) text => Ok (float_suffixed t text)
  | ReqString s => Ok (literal_string s)
  | ReqChar c => Ok (literal_character c)
  | ReqByteChar b => Ok (literal_byte_character b)
  | ReqByteString bs => Ok (literal_byte_string bs)
  | ReqCString bs => literal_c_string bs
  end.
(** wrapper.rs 767-789, 810-919. *)
Definition by_text (r : lit_req) : bool :=
  match r with ReqByteChar _ => no_byte_character | ReqCString _ => no_c_string | _ => false end.
Definition literal_new (inside : bool) (r : lit_req) : list str * outcome wtree :=
  if inside then
    if by_text r then
      match fallback_repr r with
      | Ok text =>
          let (calls, l) := from_str_unchecked c_literal_parse text in (calls, obind l (fun l => Val (LiteralC l)))
      | _ => ([], Panics)
      end
    else ([], Val (LiteralC (c_literal_new r)))
  else ([], obind (of_res (fallback_repr r)) (fun t => Val (LiteralF t call_site))).

(** ** The API *)

Inductive value :=
| VBool (b : bool)
| VText (s : str)
| VOrder (c : comparison)
| VDelim (d : delimiter)
| VSpan (s : wspan)
| VNone
| VTree (t : wtree)
| VTrees (ts : list wtree)
| VStream (s : wstream)
| VError (e : werror)
| VCompiler (s : cstream).                  (* a [proc_macro::TokenStream] *)

Inductive call (V : Type) :=
| New
| Parse (start : N) (src : str)
| IsEmpty (s : V)
| Print (s : V)
| FromCompiler (s : V)
| ToCompiler (s : V)
| FromTree (t : V)
| FromTrees (ts : list V)
| FromStreams (ss : list V)
| ExtendTrees (s : V) (ts : list V)
| ExtendStreams (s : V) (ss : list V)
| IntoIter (s : V)
| Nth (ts : V) (n : nat)
| CallSite
| MixedSite
| ResolvedAt (a b : V)
| LocatedAt (a b : V)
| UnwrapSpan (a : V)
| Join (a b : V)
| SpanEq (a b : V)
| SourceText (a : V)
| GroupNew (d : delimiter) (s : V)
| GroupDelimiter (g : V)
| GroupStream (g : V)
| GroupOpen (g : V)
| GroupClose (g : V)
| IdentNew (s : str) (sp : V)
| IdentNewRaw (s : str) (sp : V)
| IdentEq (a b : V)
| IdentEqStr (a : V) (s : str)
| IdentCmp (a b : V)
| LiteralNew (r : lit_req)
| LiteralParse (start : N) (src : str)
| LiteralSubspan (l : V) (a b : bound)
| PunctNew (c : char) (s : spacing)
| TreeSpan (t : V)
| TreeSetSpan (t sp : V)
| TreePrint (t : V)
| ErrorSpan (e : V).

Definition as_tree (v : value) : outcome wtree := match v with VTree t => Val t | _ => Illtyped end.
Definition as_stream (v : value) : outcome wstream := match v with VStream s => Val s | _ => Illtyped end.
Definition as_span (v : value) : outcome wspan := match v with VSpan s => Val s | _ => Illtyped end.
Definition as_trees := omap_list as_tree.
Definition as_streams := omap_list as_stream.

(** 379-386 *)
Definition span_call_site (inside : bool) : wspan := if inside then SpC c_call_site else SpF call_site.
(** 405-421; fallback.rs 547-556. *)
Definition span_resolved_at (a b : wspan) : outcome wspan :=
  match a, b with
  | SpC a, SpC b => Val (SpC (c_resolved_at a b))
  | SpF a, SpF _ => Val (SpF a)
  | _, _ => Mismatch
  end.
Definition span_located_at (a b : wspan) : outcome wspan :=
  match a, b with
  | SpC a, SpC b => Val (SpC (c_located_at a b))
  | SpF _, SpF b => Val (SpF b)
  | _, _ => Mismatch
  end.
Definition option_value {A} (f : A -> value) (o : option A) : value := match o with Some a => f a | None => VNone end.
(** 494-503 *)
Definition wspan_join (a b : wspan) : option wspan :=
  match a, b with
  | SpC a, SpC b => option_map SpC (c_join a b)
  | SpF a, SpF b => option_map SpF (f_join a b)
  | _, _ => None
  end.
(** 504-511; fallback.rs 519-525 *)
Definition wspan_eq (a b : wspan) : bool :=
  match a, b with
  | SpC a, SpC b => c_span_eq a b
  | SpF a, SpF b => ((lo a =? lo b) && (hi a =? hi b))%N
  | _, _ => false
  end.
(** lib.rs 592-599 over wrapper.rs 604-609, 689-694, 921-926 *)
Definition w_span (t : wtree) : wspan :=
  match t with
  | GroupC g => SpC (c_group_span g)
  | GroupF _ _ sp => SpF sp
  | PunctW _ _ sp => sp
  | IdentC i => SpC (c_ident_span i)
  | IdentF _ _ sp => SpF sp
  | LiteralC l => SpC (c_literal_span l)
  | LiteralF _ sp => SpF sp
  end.
(** lib.rs 606-613 over wrapper.rs 625-632, 696-703, 928-935 *)
Definition w_set_span (t : wtree) (sp : wspan) : outcome wtree :=
  match t, sp with
  | GroupC g, SpC s => Val (GroupC (c_group_set_span g s))
  | GroupF d ts _, SpF s => Val (GroupF d ts s)
  | PunctW c k _, sp => Val (PunctW c k sp)
  | IdentC i, SpC s => Val (IdentC (c_ident_set_span i s))
  | IdentF x r _, SpF s => Val (IdentF x r s)
  | LiteralC l, SpC s => Val (LiteralC (c_literal_set_span l s))
  | LiteralF r _, SpF s => Val (LiteralF r s)
  | _, _ => Mismatch
  end.
(** 194-204 *)
Definition from_trees (inside : bool) (ts : list wtree) : outcome wstream :=
  if inside then obind (omap_list into_compiler_token ts) (fun ts => Val (StreamC (c_collect ts) []))
  else Val (StreamF (w_extend [] ts)).
(** 206-228 *)
Definition from_streams (inside : bool) (ss : list wstream) : outcome wstream :=
  match ss with
  | StreamC s extra :: ss =>
      obind (omap_list unwrap_nightly ss) (fun ss => Val (StreamC (c_extend_streams (evaluate s extra) ss) []))
  | StreamF ts :: ss => obind (omap_list unwrap_stable ss) (fun ss => Val (StreamF (ts ++ concat ss)))
  | [] => Val (if inside then StreamC c_new [] else StreamF [])
  end.
(** 230-242 *)
Definition extend_trees (s : wstream) (ts : list wtree) : outcome wstream :=
  match s with
  | StreamC s extra => obind (omap_list into_compiler_token ts) (fun ts => Val (StreamC s (extra ++ ts)))
  | StreamF v => Val (StreamF (w_extend v ts))
  end.
(** 244-257 *)
Definition extend_streams (s : wstream) (ss : list wstream) : outcome wstream :=
  match s with
  | StreamC s extra =>
      obind (omap_list unwrap_nightly ss) (fun ss => Val (StreamC (c_extend_streams (evaluate s extra) ss) []))
  | StreamF v => obind (omap_list unwrap_stable ss) (fun ss => Val (StreamF (v ++ concat ss)))
  end.
(** 321-363 *)
Definition into_iter (s : wstream) : outcome (list wtree) :=
  match s with
  | StreamC s extra => omap_list from_compiler_token (c_trees (into_token_stream s extra))
  | StreamF ts => Val ts
  end.

Definition api (inside : bool) (c : call value) : outcome value :=
  match c with
  | New _ => Val (VStream (if inside then StreamC c_new [] else StreamF []))      (* 90-96 *)
  | Parse _ start src =>
      obind (of_res (parse_stream inside start src)) (fun r =>
        Val (match snd r with inl s => VStream s | inr e => VError e end))
  | IsEmpty _ s =>                                                                 (* 70-72, 110-115 *)
      obind (as_stream s) (fun s =>
        Val (VBool (match s with
                    | StreamC s extra => c_is_empty s && match extra with [] => true | _ => false end
                    | StreamF ts => match ts with [] => true | _ => false end
                    end)))
  | Print _ s =>                                                                   (* 132-139 *)
      obind (as_stream s) (fun s =>
        Val (VText (match s with
                    | StreamC s extra => c_display (into_token_stream s extra)
                    | StreamF ts => w_stream_to_string ts
                    end)))
  | FromCompiler _ s => match s with VCompiler s => Val (VStream (StreamC s [])) | _ => Illtyped end   (* 141-145 *)
  | ToCompiler _ s =>                                                              (* 147-156 *)
      obind (as_stream s) (fun s =>
        match s with
        | StreamC s extra => Val (VCompiler (into_token_stream s extra))
        | StreamF ts => obind (snd (from_str_unchecked c_parse (w_stream_to_string ts))) (fun s => Val (VCompiler s))
        end)
  | FromTree _ t =>                                                                (* 182-192 *)
      obind (as_tree t) (fun t =>
        if inside then obind (into_compiler_token t) (fun t => Val (VStream (StreamC (c_from_tree t) [])))
        else Val (VStream (StreamF (w_push [] t))))
  | FromTrees _ ts => obind (as_trees ts) (fun ts => obind (from_trees inside ts) (fun s => Val (VStream s)))
  | FromStreams _ ss => obind (as_streams ss) (fun ss => obind (from_streams inside ss) (fun s => Val (VStream s)))
  | ExtendTrees _ s ts =>
      obind (as_stream s) (fun s => obind (as_trees ts) (fun ts =>
        obind (extend_trees s ts) (fun s => Val (VStream s))))
  | ExtendStreams _ s ss =>
      obind (as_stream s) (fun s => obind (as_streams ss) (fun ss =>
        obind (extend_streams s ss) (fun s => Val (VStream s))))
  | IntoIter _ s => obind (as_stream s) (fun s => obind (into_iter s) (fun ts => Val (VTrees ts)))
  | Nth _ ts n => match ts with VTrees ts => Val (option_value VTree (nth_error ts n)) | _ => Illtyped end
  | CallSite _ => Val (VSpan (span_call_site inside))
  | MixedSite _ => Val (VSpan (if inside then SpC c_mixed_site else SpF call_site))
  | ResolvedAt _ a b =>
      obind (as_span a) (fun a => obind (as_span b) (fun b => obind (span_resolved_at a b) (fun s => Val (VSpan s))))
  | LocatedAt _ a b =>
      obind (as_span a) (fun a => obind (as_span b) (fun b => obind (span_located_at a b) (fun s => Val (VSpan s))))
  | UnwrapSpan _ a =>                                                              (* 423-428 *)
      obind (as_span a) (fun a => match a with SpC s => Val (VSpan (SpC s)) | SpF _ => Panics end)
  | Join _ a b =>
      obind (as_span a) (fun a => obind (as_span b) (fun b => Val (option_value VSpan (wspan_join a b))))
  | SpanEq _ a b => obind (as_span a) (fun a => obind (as_span b) (fun b => Val (VBool (wspan_eq a b))))
  | SourceText _ a =>                                                              (* 513-521 *)
      obind (as_span a) (fun a =>
        Val (option_value VText (match a with SpC s => c_source_text s | SpF s => f_source_text s end)))
  | GroupNew _ d s =>                                                              (* 568-583 *)
      obind (as_stream s) (fun s =>
        Val (VTree (match s with
                    | StreamC s extra => GroupC (c_group_new d (into_token_stream s extra))
                    | StreamF ts => GroupF d ts call_site
                    end)))
  | GroupDelimiter _ g =>                                                          (* 585-595 *)
      match g with
      | VTree (GroupC g) => Val (VDelim (c_delimiter g))
      | VTree (GroupF d _ _) => Val (VDelim d)
      | _ => Illtyped
      end
  | GroupStream _ g =>                                                             (* 597-602 *)
      match g with
      | VTree (GroupC g) => Val (VStream (StreamC (c_group_stream g) []))
      | VTree (GroupF _ ts _) => Val (VStream (StreamF ts))
      | _ => Illtyped
      end
  | GroupOpen _ g =>                                                               (* 611-616 *)
      match g with
      | VTree (GroupC g) => Val (VSpan (SpC (c_group_open g)))
      | VTree (GroupF _ _ sp) => Val (VSpan (SpF (sp_first_byte sp)))
      | _ => Illtyped
      end
  | GroupClose _ g =>                                                              (* 618-623 *)
      match g with
      | VTree (GroupC g) => Val (VSpan (SpC (c_group_close g)))
      | VTree (GroupF _ _ sp) => Val (VSpan (SpF (sp_last_byte sp)))
      | _ => Illtyped
      end
  | IdentNew _ x sp =>                                                             (* 673-679 *)
      obind (as_span sp) (fun sp =>
        match sp with
        | SpC s => obind (of_option (c_ident_new x s)) (fun i => Val (VTree (IdentC i)))
        | SpF s => obind (of_res (ident_new x s)) (fun t => Val (VTree (of_token t)))
        end)
  | IdentNewRaw _ x sp =>                                                          (* 681-687 *)
      obind (as_span sp) (fun sp =>
        match sp with
        | SpC s => obind (of_option (c_ident_new_raw x s)) (fun i => Val (VTree (IdentC i)))
        | SpF s => obind (of_res (ident_new_raw x s)) (fun t => Val (VTree (of_token t)))
        end)
  | IdentEq _ a b =>                                                               (* 719-728 *)
      match a, b with
      | VTree (IdentC a), VTree (IdentC b) => Val (VBool (str_eqb (c_ident_display a) (c_ident_display b)))
      | VTree (IdentF x r _), VTree (IdentF y q _) => Val (VBool (ident_eqb x r y q))
      | VTree (IdentC _), VTree (IdentF _ _ _) | VTree (IdentF _ _ _), VTree (IdentC _) => Mismatch
      | _, _ => Illtyped
      end
  | IdentEqStr _ a x =>                                                            (* 730-741 *)
      match a with
      | VTree (IdentC a) => Val (VBool (str_eqb (c_ident_display a) x))
      | VTree (IdentF y r _) => obind (of_res (ident_eq_str y r x)) (fun b => Val (VBool b))
      | _ => Illtyped
      end
  | IdentCmp _ a b =>                                                              (* lib.rs 1069-1073 *)
      match a, b with
      | VTree (IdentC _ as a), VTree (IdentC _ as b)
      | VTree (IdentF _ _ _ as a), VTree (IdentF _ _ _ as b)
      | VTree (IdentC _ as a), VTree (IdentF _ _ _ as b)
      | VTree (IdentF _ _ _ as a), VTree (IdentC _ as b) =>
          Val (VOrder (bytes_cmp (str_bytes (w_tree_to_string a)) (str_bytes (w_tree_to_string b))))
      | _, _ => Illtyped
      end
  | LiteralNew _ r => obind (snd (literal_new inside r)) (fun l => Val (VTree l))
  | LiteralParse _ start src =>
      obind (of_res (parse_lit inside start src)) (fun r =>
        Val (match snd r with inl l => VTree l | inr e => VError e end))
  | LiteralSubspan _ l a b =>                                                      (* 937-945 *)
      match l with
      | VTree (LiteralC l) => Val (option_value (fun s => VSpan (SpC s)) (c_literal_subspan l a b))
      | VTree (LiteralF _ sp) => Val (option_value (fun s => VSpan (SpF s)) (subspan sp a b))
      | _ => Illtyped
      end
  | PunctNew _ ch s =>                                                             (* lib.rs 846-858 *)
      if contains punct_new_chars ch then Val (VTree (PunctW ch s (span_call_site inside))) else Panics
  | TreeSpan _ t => obind (as_tree t) (fun t => Val (VSpan (w_span t)))
  | TreeSetSpan _ t sp =>
      obind (as_tree t) (fun t => obind (as_span sp) (fun sp => obind (w_set_span t sp) (fun t => Val (VTree t))))
  | TreePrint _ t => obind (as_tree t) (fun t => Val (VText (w_tree_to_string t)))
  | ErrorSpan _ e =>                                                               (* 268-275 *)
      match e with
      | VError ErrC | VError ErrPanic => Val (VSpan (span_call_site inside))
      | VError (ErrF sp) => Val (VSpan (SpF sp))
      | _ => Illtyped
      end
  end.
End Wrapper.
Arguments Val {A}. Arguments Mismatch {A}. Arguments Panics {A}. Arguments Illtyped {A}.
