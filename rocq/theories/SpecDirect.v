(** * The API without the wrapper (specification).

    The same programs as in SpecWrapper.v, on the values of the fallback alone and
    on the values of the compiler alone. *)
From Verif Require Import Base Unicode Tokens Lexer Fallback LitNew Wrapper SpecWrapper.
Import ListNotations.

Section Direct.
Context {U : unicode} {T : ctypes} {C : compiler} {F : fallback_map}.

(** Programs over any kind of values. *)
Fixpoint direct {V} (none : V) (f : call V -> outcome V) (regs : list V) (h : list (call nat)) : list (outcome V) :=
  match h with
  | [] => []
  | c :: h =>
      let o := f (cmap (fun n => nth n regs none) c) in
      o :: match o with Val v => direct none f (regs ++ [v]) h | _ => [] end
  end.
Definition all_of {A B} (f : A -> option B) (l : list A) (k : list B -> outcome A) : outcome A :=
  match fold_right (fun a o => match f a, o with Some b, Some l => Some (b :: l) | _, _ => None end) (Some []) l with
  | Some l => k l
  | None => Illtyped
  end.

(** ** The fallback *)

Inductive fvalue :=
| FBool (b : bool)
| FText (s : str)
| FOrder (c : comparison)
| FDelim (d : delimiter)
| FSpan (s : span)
| FNone
| FTree (t : token)
| FTrees (ts : list token)
| FStream (ts : list token)
| FError (sp : span).
Definition f_tree (v : fvalue) : option token := match v with FTree t => Some t | _ => None end.
Definition f_stream (v : fvalue) : option (list token) := match v with FStream ts => Some ts | _ => None end.
Definition f_some (o : option span) : outcome fvalue := Val (match o with Some s => FSpan s | None => FNone end).
Definition f_res (r : res token) : outcome fvalue := match r with Ok t => Val (FTree t) | _ => Panics end.
Definition fallback_api (c : call fvalue) : outcome fvalue :=
  match c with
  | New _ => Val (FStream [])
  | Parse _ start src =>
      match token_stream_from_str start src with
      | Ok (Lexed ts) => Val (FStream ts) | Ok (LexError sp) => Val (FError sp) | _ => Panics
      end
  | IsEmpty _ (FStream ts) => Val (FBool (match ts with [] => true | _ => false end))
  | Print _ (FStream ts) => Val (FText (stream_to_string ts))
  | FromTree _ (FTree t) => Val (FStream (stream_from_tree t))
  | FromTrees _ ts => all_of f_tree ts (fun ts => Val (FStream (flat_map stream_from_tree ts)))
  | FromStreams _ ss => all_of f_stream ss (fun ss => Val (FStream (concat ss)))
  | ExtendTrees _ (FStream v) ts => all_of f_tree ts (fun ts => Val (FStream (v ++ flat_map stream_from_tree ts)))
  | ExtendStreams _ (FStream v) ss => all_of f_stream ss (fun ss => Val (FStream (v ++ concat ss)))
  | IntoIter _ (FStream ts) => Val (FTrees ts)
  | Nth _ (FTrees ts) n => Val (match nth_error ts n with Some t => FTree t | None => FNone end)
  | CallSite _ | MixedSite _ => Val (FSpan call_site)
  | ResolvedAt _ (FSpan a) (FSpan _) => Val (FSpan a)
  | LocatedAt _ (FSpan _) (FSpan b) => Val (FSpan b)
  | UnwrapSpan _ (FSpan _) => Panics
  | Join _ (FSpan a) (FSpan b) => f_some (f_join a b)
  | SpanEq _ (FSpan a) (FSpan b) => Val (FBool ((lo a =? lo b) && (hi a =? hi b))%N)
  | SourceText _ (FSpan a) => Val (match f_source_text a with Some s => FText s | None => FNone end)
  | GroupNew _ d (FStream ts) => Val (FTree (TGroup d ts call_site))
  | GroupDelimiter _ (FTree (TGroup d _ _)) => Val (FDelim d)
  | GroupStream _ (FTree (TGroup _ ts _)) => Val (FStream ts)
  | GroupOpen _ (FTree (TGroup _ _ sp)) => Val (FSpan (sp_first_byte sp))
  | GroupClose _ (FTree (TGroup _ _ sp)) => Val (FSpan (sp_last_byte sp))
  | IdentNew _ x (FSpan sp) => f_res (ident_new x sp)
  | IdentNewRaw _ x (FSpan sp) => f_res (ident_new_raw x sp)
  | IdentEq _ (FTree (TIdent x r _)) (FTree (TIdent y q _)) => Val (FBool (ident_eqb x r y q))
  | IdentEqStr _ (FTree (TIdent x r _)) y => match ident_eq_str x r y with Ok b => Val (FBool b) | _ => Panics end
  | IdentCmp _ (FTree (TIdent x r _)) (FTree (TIdent y q _)) => Val (FOrder (ident_cmp x r y q))
  | LiteralNew _ r => match fallback_repr r with Ok text => Val (FTree (TLiteral text call_site)) | _ => Panics end
  | LiteralParse _ start src =>
      match literal_from_str start src with
      | Ok (LitOk repr sp) => Val (FTree (TLiteral repr sp)) | Ok (LitErr sp) => Val (FError sp) | _ => Panics
      end
  | LiteralSubspan _ (FTree (TLiteral _ sp)) a b => f_some (subspan sp a b)
  | PunctNew _ ch s => f_res (punct_new ch s)
  | TreeSpan _ (FTree t) => Val (FSpan (token_span t))
  | TreeSetSpan _ (FTree t) (FSpan sp) => Val (FTree (set_span t sp))
  | TreePrint _ (FTree t) => Val (FText (tree_to_string t))
  | ErrorSpan _ (FError sp) => Val (FSpan sp)
  | _ => Illtyped
  end.
(** The wrapper's form of a fallback value. *)
Definition of_fallback (v : fvalue) : value :=
  match v with
  | FBool b => VBool b
  | FText s => VText s
  | FOrder c => VOrder c
  | FDelim d => VDelim d
  | FSpan s => VSpan (SpF s)
  | FNone => VNone
  | FTree t => VTree (of_token t)
  | FTrees ts => VTrees (map of_token ts)
  | FStream ts => VStream (StreamF (map of_token ts))
  | FError sp => VError (ErrF sp)
  end.

(** ** The compiler *)

Inductive cvalue :=
| KBool (b : bool)
| KText (s : str)
| KOrder (c : comparison)
| KDelim (d : delimiter)
| KSpan (s : cspan)
| KNone
| KTree (t : ctree)
| KTrees (ts : list ctree)
| KStream (s : cstream)
| KError (caught : bool)               (* from the compiler's parser, or caught before it *)
| KOwn (s : cstream).                  (* passed as [proc_macro::TokenStream] *)
Definition k_tree (v : cvalue) : option ctree := match v with KTree t => Some t | _ => None end.
Definition k_stream (v : cvalue) : option cstream := match v with KStream s => Some s | _ => None end.
Definition k_parse {A} (ok : A -> cvalue) (r : cparse A) : outcome cvalue :=
  Val (match r with Parsed a => ok a | ParseErr => KError false | ParsePanic => KError true end).
Definition k_some (o : option cspan) : outcome cvalue := Val (match o with Some s => KSpan s | None => KNone end).
Definition k_ident (o : option cident) : outcome cvalue := match o with Some i => Val (KTree (CIdent i)) | None => Panics end.
(** A character [Punct::new] takes; one that the compiler should never make. *)
Definition punct_char (t : ctree) : bool :=
  match t with CPunct ch _ _ => contains (tag "!#$%&'*+,-./:;<=>?@^|~") ch | _ => true end.
Definition k_span (t : ctree) : cspan :=
  match t with
  | CGroup g => c_group_span g | CPunct _ _ sp => sp | CIdent i => c_ident_span i | CLiteral l => c_literal_span l
  end.
Definition k_set_span (t : ctree) (sp : cspan) : ctree :=
  match t with
  | CGroup g => CGroup (c_group_set_span g sp)
  | CPunct ch s _ => CPunct ch s sp
  | CIdent i => CIdent (c_ident_set_span i sp)
  | CLiteral l => CLiteral (c_literal_set_span l sp)
  end.
Definition k_print (t : ctree) : str :=
  match t with
  | CGroup g => c_group_display g | CPunct ch _ _ => [ch] | CIdent i => c_ident_display i | CLiteral l => c_literal_display l
  end.
(** Literals the compiler has no constructor for are parsed by it. *)
Definition k_literal (r : lit_req) : outcome cvalue :=
  if match r with ReqByteChar _ => no_byte_character | ReqCString _ => no_c_string | _ => false end then
    match fallback_repr r with
    | Ok text => match c_literal_parse text with Parsed l => Val (KTree (CLiteral l)) | _ => Panics end
    | _ => Panics
    end
  else Val (KTree (CLiteral (c_literal_new r))).
Definition compiler_api (c : call cvalue) : outcome cvalue :=
  match c with
  | New _ => Val (KStream c_new)
  | Parse _ start src =>
      match token_stream_from_str start src with
      | Ok (Lexed _) => k_parse KStream (c_parse src) | Ok (LexError _) => Val (KError true) | _ => Panics
      end
  | IsEmpty _ (KStream s) => Val (KBool (c_is_empty s))
  | Print _ (KStream s) => Val (KText (c_display s))
  | FromCompiler _ (KOwn s) => Val (KStream s)
  | ToCompiler _ (KStream s) => Val (KOwn s)
  | FromTree _ (KTree t) => Val (KStream (c_from_tree t))
  | FromTrees _ ts => all_of k_tree ts (fun ts => Val (KStream (c_collect ts)))
  | FromStreams _ ss =>
      all_of k_stream ss (fun ss => Val (KStream (match ss with [] => c_new | s :: ss => c_extend_streams s ss end)))
  | ExtendTrees _ (KStream s) ts => all_of k_tree ts (fun ts => Val (KStream (c_extend s ts)))
  | ExtendStreams _ (KStream s) ss => all_of k_stream ss (fun ss => Val (KStream (c_extend_streams s ss)))
  | IntoIter _ (KStream s) => if forallb punct_char (c_trees s) then Val (KTrees (c_trees s)) else Panics
  | Nth _ (KTrees ts) n => Val (match nth_error ts n with Some t => KTree t | None => KNone end)
  | CallSite _ => Val (KSpan c_call_site)
  | MixedSite _ => Val (KSpan c_mixed_site)
  | ResolvedAt _ (KSpan a) (KSpan b) => Val (KSpan (c_resolved_at a b))
  | LocatedAt _ (KSpan a) (KSpan b) => Val (KSpan (c_located_at a b))
  | UnwrapSpan _ (KSpan a) => Val (KSpan a)
  | Join _ (KSpan a) (KSpan b) => k_some (c_join a b)
  | SpanEq _ (KSpan a) (KSpan b) => Val (KBool (c_span_eq a b))
  | SourceText _ (KSpan a) => Val (match c_source_text a with Some s => KText s | None => KNone end)
  | GroupNew _ d (KStream s) => Val (KTree (CGroup (c_group_new d s)))
  | GroupDelimiter _ (KTree (CGroup g)) => Val (KDelim (c_delimiter g))
  | GroupStream _ (KTree (CGroup g)) => Val (KStream (c_group_stream g))
  | GroupOpen _ (KTree (CGroup g)) => Val (KSpan (c_group_open g))
  | GroupClose _ (KTree (CGroup g)) => Val (KSpan (c_group_close g))
  | IdentNew _ x (KSpan sp) => k_ident (c_ident_new x sp)
  | IdentNewRaw _ x (KSpan sp) => k_ident (c_ident_new_raw x sp)
  | IdentEq _ (KTree (CIdent i)) (KTree (CIdent j)) => Val (KBool (str_eqb (c_ident_display i) (c_ident_display j)))
  | IdentEqStr _ (KTree (CIdent i)) x => Val (KBool (str_eqb (c_ident_display i) x))
  | IdentCmp _ (KTree (CIdent i)) (KTree (CIdent j)) =>
      Val (KOrder (bytes_cmp (str_bytes (c_ident_display i)) (str_bytes (c_ident_display j))))
  | LiteralNew _ r => k_literal r
  | LiteralParse _ start src =>
      match literal_from_str start src with
      | Ok (LitOk _ _) => k_parse (fun l => KTree (CLiteral l)) (c_literal_parse src)
      | Ok (LitErr _) => Val (KError true)
      | _ => Panics
      end
  | LiteralSubspan _ (KTree (CLiteral l)) a b => k_some (c_literal_subspan l a b)
  | PunctNew _ ch s => let t := CPunct ch s c_call_site in if punct_char t then Val (KTree t) else Panics
  | TreeSpan _ (KTree t) => Val (KSpan (k_span t))
  | TreeSetSpan _ (KTree t) (KSpan sp) => Val (KTree (k_set_span t sp))
  | TreePrint _ (KTree t) => Val (KText (k_print t))
  | ErrorSpan _ (KError _) => Val (KSpan c_call_site)
  | _ => Illtyped
  end.
(** The wrapper's form of a tree and of a value of the compiler, nothing deferred. *)
Definition of_ctree (t : ctree) : wtree :=
  match t with
  | CGroup g => GroupC g | CPunct ch s sp => PunctW ch s (SpC sp) | CIdent i => IdentC i | CLiteral l => LiteralC l
  end.
Definition of_compiler (v : cvalue) : value :=
  match v with
  | KBool b => VBool b
  | KText s => VText s
  | KOrder c => VOrder c
  | KDelim d => VDelim d
  | KSpan s => VSpan (SpC s)
  | KNone => VNone
  | KTree t => VTree (of_ctree t)
  | KTrees ts => VTrees (map of_ctree ts)
  | KStream s => VStream (StreamC s [])
  | KError caught => VError (if caught then ErrPanic else ErrC)
  | KOwn s => VCompiler s
  end.
End Direct.
