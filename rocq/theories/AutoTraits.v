(** * Auto traits of the crate's types: src/marker.rs and the declarations of
    src/lib.rs, src/fallback.rs, src/wrapper.rs, src/rcvec.rs, src/extra.rs,
    src/location.rs, src/rustc_literal_escaper.rs.

    The compiler decides an auto trait of a type by its fields, coinductively,
    unless there is an explicit implementation.  What it does for the types of the
    standard library is transcribed in [needs]. *)
From Coq Require Import List Bool.
Import ListNotations.

Inductive trait := Send | Sync | UnwindSafe | RefUnwindSafe | Unpin.

(** Types of the compiler's [proc_macro] crate. *)
Inductive ctype := CStream | CTree | CLexError | CIter | CSpan | CGroup | CIdent | CLiteral.

(** Types declared by the crate: at its root, in [fallback], in [wrapper]. *)
Inductive name :=
| TokenStream | LexError | Span | TokenTree | Group | Delimiter | Punct | Spacing | Ident | Literal | IntoIter
| LineColumn | DelimSpan | DelimSpanEnum | ConversionErrorKind | EscapeError | ProcMacroAutoTraits
| FTokenStream | FLexError | FSpan | FGroup | FIdent | FLiteral
| WTokenStream | WDeferred | WLexError | WTokenTreeIter | WSpan | WGroup | WIdent | WLiteral.

Inductive type :=
| Scalar                 (* char, bool, u32, usize, (), String, Box<str> *)
| Rc (t : type) | Vec (t : type) | VecIntoIter (t : type) | PhantomData (t : type)
| RcVec (t : type)       (* rcvec.rs 7-9 *)
| RcVecIntoIter (t : type)  (* rcvec.rs 19-22 *)
| Compiler (c : ctype)
| Crate (n : name).

(** [wrap_proc_macro], [span_locations], [procmacro2_semver_exempt]. *)
Record features := mkfeatures { wrap : bool; locations : bool; exempt : bool }.

Section Declarations.
(** Which auto traits the compiler's types have. *)
Variable has : ctype -> trait -> bool.
(** Whether the standard library implements [RefUnwindSafe] for [Rc] (since Rust 1.58). *)
Variable rc_ref : bool.
Variable f : features.

(** lib.rs 159-163: [imp] is [wrapper] or [fallback]. *)
Definition imp (w fb : name) : type := Crate (if wrap f then w else fb).
Definition marker : type := Crate ProcMacroAutoTraits.

(** The fields of each type, of all variants if it is an enum. *)
Definition fields (n : name) : list type :=
  match n with
  | TokenStream => [imp WTokenStream FTokenStream; marker]             (* lib.rs 211-214 *)
  | LexError => [imp WLexError FLexError; marker]                      (* lib.rs 217-220 *)
  | Span => [imp WSpan FSpan; marker]                                  (* lib.rs 390-393 *)
  | TokenTree => [Crate Group; Crate Ident; Crate Punct; Crate Literal] (* lib.rs 578-587 *)
  | Group => [imp WGroup FGroup]                                       (* lib.rs 679-681 *)
  | Delimiter => []                                                    (* lib.rs 685-700 *)
  | Punct => [Scalar; Crate Spacing; Crate Span]                       (* lib.rs 819-823 *)
  | Spacing => []                                                      (* lib.rs 828-836 *)
  | Ident => [imp WIdent FIdent; marker]                               (* lib.rs 968-971 *)
  | Literal => [imp WLiteral FLiteral; marker]                         (* lib.rs 1102-1105 *)
  | IntoIter =>                                                        (* lib.rs 1492-1495, fallback.rs 314 *)
      [if wrap f then Crate WTokenTreeIter else RcVecIntoIter (Crate TokenTree); marker]
  | LineColumn => [Scalar; Scalar]                                     (* location.rs 8-15 *)
  | DelimSpan => [Crate DelimSpanEnum; marker]                         (* extra.rs 82-85 *)
  | DelimSpanEnum =>                                                   (* extra.rs 88-96 *)
      (if wrap f then [Compiler CSpan; Compiler CSpan; Compiler CSpan] else []) ++ [Crate FSpan]
  | ConversionErrorKind => [Crate EscapeError]                         (* lib.rs 1455-1462 *)
  | EscapeError => []                                                  (* rustc_literal_escaper.rs 17 *)
  | ProcMacroAutoTraits => [PhantomData (Rc Scalar)]                   (* marker.rs 12 *)
  | FTokenStream => [RcVec (Crate TokenTree)]                          (* fallback.rs 55-57 *)
  | FLexError => [Crate FSpan]                                         (* fallback.rs 60-62 *)
  | FSpan => if locations f then [Scalar; Scalar] else []              (* fallback.rs 520-525 *)
  | FGroup => [Crate Delimiter; Crate FTokenStream; Crate FSpan]       (* fallback.rs 719-723 *)
  | FIdent => [Scalar; Crate FSpan; Scalar]                            (* fallback.rs 797-801 *)
  | FLiteral => [Scalar; Crate FSpan]                                  (* fallback.rs 943-946 *)
  | WTokenStream => [Crate WDeferred; Crate FTokenStream]              (* wrapper.rs 25-28 *)
  | WDeferred => [Compiler CStream; Vec (Compiler CTree)]              (* wrapper.rs 35-38 *)
  | WLexError => [Compiler CLexError; Crate FLexError]                 (* wrapper.rs 40-47 *)
  | WTokenTreeIter => [Compiler CIter; RcVecIntoIter (Crate TokenTree)] (* wrapper.rs 316-319, fallback.rs 314 *)
  | WSpan => [Compiler CSpan; Crate FSpan]                             (* wrapper.rs 374-377 *)
  | WGroup => [Compiler CGroup; Crate FGroup]                          (* wrapper.rs 562-565 *)
  | WIdent => [Compiler CIdent; Crate FIdent]                          (* wrapper.rs 667-670 *)
  | WLiteral => [Compiler CLiteral; Crate FLiteral]                    (* wrapper.rs 762-765 *)
  end.

(** What the type needs to have the trait: [None] if it never has it. *)
Definition needs (tr : trait) (t : type) : option (list (trait * type)) :=
  match t with
  | Scalar => Some []
  | Rc t =>
      match tr with
      | Send | Sync => None
      | UnwindSafe => Some [(RefUnwindSafe, t)]
      | RefUnwindSafe => if rc_ref then Some [(RefUnwindSafe, t)] else None
      | Unpin => Some []
      end
  | Vec t | PhantomData t => Some [(tr, t)]
  | VecIntoIter t =>
      match tr with UnwindSafe => Some [(UnwindSafe, t); (RefUnwindSafe, t)] | _ => Some [(tr, t)] end
  | RcVec t =>                                            (* rcvec.rs 146 *)
      match tr with RefUnwindSafe => Some [(RefUnwindSafe, t)] | _ => Some [(tr, Rc (Vec t))] end
  | RcVecIntoIter t => Some [(tr, VecIntoIter t)]
  | Compiler c => if has c tr then Some [] else None
  | Crate n =>
      match n, tr with
      | ProcMacroAutoTraits, (UnwindSafe | RefUnwindSafe) => Some []   (* marker.rs 16-17 *)
      | _, _ => Some (map (pair tr) (fields n))
      end
  end.

(** A type does not have the trait if following its needs reaches one that cannot
    be met; it has the trait otherwise (cycles are accepted). *)
Inductive lacks : trait -> type -> Prop :=
| lacks_never tr t : needs tr t = None -> lacks tr t
| lacks_need tr t l tr' t' : needs tr t = Some l -> In (tr', t') l -> lacks tr' t' -> lacks tr t.

(** Types a user of the crate can name: lib.rs 165-200 and the [pub] items.
    [LineColumn] needs [span_locations]; the errors of the value accessors need
    [procmacro2_semver_exempt]. *)
Definition public (n : name) : bool :=
  match n with
  | TokenStream | LexError | Span | TokenTree | Group | Delimiter | Punct | Spacing | Ident | Literal | IntoIter
  | DelimSpan => true
  | LineColumn => locations f
  | ConversionErrorKind | EscapeError => exempt f
  | _ => false
  end.
End Declarations.
