(** * What is claimed about compiler-backed and fallback values *)
From Verif Require Import Base Unicode Tokens Lexer Fallback LitNew Wrapper.

(** Arguments of the literal constructors as their Rust types have them. *)
Definition bytes_ok (r : lit_req) : Prop :=
  match r with
  | ReqByteChar b => (b < 256)%N
  | ReqByteString bs => Forall (fun b => (b < 256)%N) bs
  | ReqCString bs => Forall (fun b => (b < 256)%N /\ b <> 0%N) bs
  | _ => True
  end.

Section Spec.
Context {U : unicode} {T : ctypes} {C : compiler} {F : fallback_map}.

(** ** Histories *)

(** The values a call is given. *)
Definition call_args {V} (c : call V) : list V :=
  match c with
  | New _ | Parse _ _ _ | CallSite _ | MixedSite _ | LiteralNew _ _ | LiteralParse _ _ _ | PunctNew _ _ _ => []
  | IsEmpty _ a | Print _ a | FromCompiler _ a | ToCompiler _ a | FromTree _ a | IntoIter _ a | Nth _ a _
  | UnwrapSpan _ a | SourceText _ a | GroupNew _ _ a | GroupDelimiter _ a | GroupStream _ a | GroupOpen _ a
  | GroupClose _ a | IdentNew _ _ a | IdentNewRaw _ _ a | IdentEqStr _ a _ | LiteralSubspan _ a _ _
  | TreeSpan _ a | TreePrint _ a | ErrorSpan _ a => [a]
  | FromTrees _ l | FromStreams _ l => l
  | ExtendTrees _ a l | ExtendStreams _ a l => a :: l
  | ResolvedAt _ a b | LocatedAt _ a b | Join _ a b | SpanEq _ a b | IdentEq _ a b | IdentCmp _ a b
  | TreeSetSpan _ a b => [a; b]
  end.
(** The same call on other values. *)
Definition cmap {V W} (f : V -> W) (c : call V) : call W :=
  match c with
  | New _ => New W
  | Parse _ start src => Parse W start src
  | IsEmpty _ s => IsEmpty W (f s)
  | Print _ s => Print W (f s)
  | FromCompiler _ s => FromCompiler W (f s)
  | ToCompiler _ s => ToCompiler W (f s)
  | FromTree _ t => FromTree W (f t)
  | FromTrees _ ts => FromTrees W (map f ts)
  | FromStreams _ ss => FromStreams W (map f ss)
  | ExtendTrees _ s ts => ExtendTrees W (f s) (map f ts)
  | ExtendStreams _ s ss => ExtendStreams W (f s) (map f ss)
  | IntoIter _ s => IntoIter W (f s)
  | Nth _ ts n => Nth W (f ts) n
  | CallSite _ => CallSite W
  | MixedSite _ => MixedSite W
  | ResolvedAt _ a b => ResolvedAt W (f a) (f b)
  | LocatedAt _ a b => LocatedAt W (f a) (f b)
  | UnwrapSpan _ a => UnwrapSpan W (f a)
  | Join _ a b => Join W (f a) (f b)
  | SpanEq _ a b => SpanEq W (f a) (f b)
  | SourceText _ a => SourceText W (f a)
  | GroupNew _ d s => GroupNew W d (f s)
  | GroupDelimiter _ g => GroupDelimiter W (f g)
  | GroupStream _ g => GroupStream W (f g)
  | GroupOpen _ g => GroupOpen W (f g)
  | GroupClose _ g => GroupClose W (f g)
  | IdentNew _ s sp => IdentNew W s (f sp)
  | IdentNewRaw _ s sp => IdentNewRaw W s (f sp)
  | IdentEq _ a b => IdentEq W (f a) (f b)
  | IdentEqStr _ a s => IdentEqStr W (f a) s
  | IdentCmp _ a b => IdentCmp W (f a) (f b)
  | LiteralNew _ r => LiteralNew W r
  | LiteralParse _ start src => LiteralParse W start src
  | LiteralSubspan _ l a b => LiteralSubspan W (f l) a b
  | PunctNew _ c s => PunctNew W c s
  | TreeSpan _ t => TreeSpan W (f t)
  | TreeSetSpan _ t sp => TreeSetSpan W (f t) (f sp)
  | TreePrint _ t => TreePrint W (f t)
  | ErrorSpan _ e => ErrorSpan W (f e)
  end.

(** A program: each step says what [inside_proc_macro()] answered and which
    call was made on the results of which earlier steps.  It ends at a panic. *)
Definition step := (bool * call nat)%type.
Definition read (regs : list value) (n : nat) : value := nth n regs VNone.
Fixpoint run (regs : list value) (h : list step) : list (outcome value) :=
  match h with
  | [] => []
  | (inside, c) :: h =>
      let o := api inside (cmap (read regs) c) in
      o :: match o with Val v => run (regs ++ [v]) h | _ => [] end
  end.

Definition omap {A B} (f : A -> B) (o : outcome A) : outcome B :=
  match o with Val a => Val (f a) | Mismatch => Mismatch | Panics => Panics | Illtyped => Illtyped end.

(** ** C46: deferred appending *)

(** The stream with everything appended. *)
Definition settle (v : value) : value :=
  match v with VStream (StreamC s extra) => VStream (StreamC (c_extend s extra) []) | v => v end.
(** The same program where every append reaches the compiler at once. *)
Fixpoint run_eager (regs : list value) (h : list step) : list (outcome value) :=
  match h with
  | [] => []
  | (inside, c) :: h =>
      let o := omap settle (api inside (cmap (read regs) c)) in
      o :: match o with Val v => run_eager (regs ++ [v]) h | _ => [] end
  end.
(** Appending to the compiler's stream in two batches is appending in one. *)
Record extend_laws : Prop := {
  extend_nothing : forall s, c_extend s [] = s;
  extend_twice : forall s a b, c_extend (c_extend s a) b = c_extend s (a ++ b);
  extend_is_empty : forall s a, c_is_empty (c_extend s a) = c_is_empty s && match a with [] => true | _ => false end
}.

(** The compiler's stream as a list of trees; [stored t] is what it keeps of
    an appended tree (a negative literal is kept as two trees). *)
Record list_laws (stored : ctree -> list ctree) : Prop := {
  trees_new : c_trees c_new = [];
  trees_from_tree : forall t, c_trees (c_from_tree t) = stored t;
  trees_collect : forall ts, c_trees (c_collect ts) = flat_map stored ts;
  trees_extend : forall s ts, c_trees (c_extend s ts) = c_trees s ++ flat_map stored ts;
  trees_extend_streams : forall s ss, c_trees (c_extend_streams s ss) = c_trees s ++ flat_map c_trees ss;
  trees_is_empty : forall s, c_is_empty s = match c_trees s with [] => true | _ => false end;
  stored_something : forall t, stored t <> []
}.
(** The tokens of a stream. *)
Definition holds (stored : ctree -> list ctree) (s : wstream) (ts : list ctree) : Prop :=
  match s with StreamC s extra => ts = c_trees s ++ flat_map stored extra | StreamF _ => False end.
(** Editing a stream with [extend]. *)
Inductive edit := AppendTrees (ts : list wtree) | AppendStreams (ss : list wstream).
Definition edit_stream (s : wstream) (e : edit) : outcome wstream :=
  match e with AppendTrees ts => extend_trees s ts | AppendStreams ss => extend_streams s ss end.
Fixpoint edit_all (s : wstream) (es : list edit) : outcome wstream :=
  match es with [] => Val s | e :: es => obind (edit_stream s e) (fun s => edit_all s es) end.
(** The compiler's form of a tree. *)
Definition is_compiler_tree (t : wtree) (c : ctree) : Prop :=
  match t, c with
  | GroupC g, CGroup h => g = h
  | PunctW ch s (SpC sp), CPunct ch' s' sp' => ch = ch' /\ s = s' /\ sp = sp'
  | IdentC i, CIdent j => i = j
  | LiteralC l, CLiteral m => l = m
  | _, _ => False
  end.
(** The tokens an edit adds. *)
Inductive adds (stored : ctree -> list ctree) : edit -> list ctree -> Prop :=
| adds_trees ts cs : Forall2 is_compiler_tree ts cs -> adds stored (AppendTrees ts) (flat_map stored cs)
| adds_streams ss css : Forall2 (holds stored) ss css -> adds stored (AppendStreams ss) (concat css).

(** ** C47: kinds *)

Inductive kind := ByCompiler | ByFallback.
(** What [inside_proc_macro()] answers where values of a kind are made. *)
Definition mode (k : kind) : bool := match k with ByCompiler => true | ByFallback => false end.
Definition span_of (k : kind) (s : wspan) : Prop :=
  match s with SpC _ => k = ByCompiler | SpF _ => k = ByFallback end.
(** The tree and everything in it is of the kind. *)
Fixpoint tree_of (k : kind) (t : wtree) : Prop :=
  match t with
  | GroupC _ | IdentC _ | LiteralC _ => k = ByCompiler
  | GroupF _ ts _ =>
      k = ByFallback /\ (fix all ts := match ts with [] => True | t :: ts => tree_of k t /\ all ts end) ts
  | IdentF _ _ _ | LiteralF _ _ => k = ByFallback
  | PunctW _ _ sp => span_of k sp
  end.
Definition value_of (k : kind) (v : value) : Prop :=
  match v with
  | VBool _ | VText _ | VOrder _ | VDelim _ | VNone => True
  | VSpan s => span_of k s
  | VTree t => tree_of k t
  | VTrees ts => Forall (tree_of k) ts
  | VStream (StreamC _ _) => k = ByCompiler
  | VStream (StreamF ts) => k = ByFallback /\ Forall (tree_of k) ts
  | VError ErrC | VError ErrPanic => k = ByCompiler
  | VError (ErrF _) => k = ByFallback
  | VCompiler _ => k = ByCompiler
  end.
Definition to_compiler {V} (c : call V) : bool := match c with ToCompiler _ _ => true | _ => false end.

(** The kind of the outermost part of a value. *)
Definition backing (v : value) : option kind :=
  match v with
  | VSpan (SpC _) => Some ByCompiler
  | VSpan (SpF _) => Some ByFallback
  | VTree (GroupC _) | VTree (IdentC _) | VTree (LiteralC _) | VTree (PunctW _ _ (SpC _)) => Some ByCompiler
  | VTree _ => Some ByFallback
  | VStream (StreamC _ _) => Some ByCompiler
  | VStream (StreamF _) => Some ByFallback
  | _ => None
  end.
Definition mixed (c : call value) : Prop :=
  exists a b, In a (call_args c) /\ In b (call_args c) /\
    backing a = Some ByCompiler /\ backing b = Some ByFallback.
Definition is_tree (v : value) : bool := match v with VTree _ => true | _ => false end.
Definition is_stream (v : value) : bool := match v with VStream _ => true | _ => false end.
Definition is_span (v : value) : bool := match v with VSpan _ => true | _ => false end.
Definition is_group (v : value) : bool :=
  match v with VTree (GroupC _) | VTree (GroupF _ _ _) => true | _ => false end.
Definition is_ident (v : value) : bool :=
  match v with VTree (IdentC _) | VTree (IdentF _ _ _) => true | _ => false end.
Definition is_literal (v : value) : bool :=
  match v with VTree (LiteralC _) | VTree (LiteralF _ _) => true | _ => false end.
(** The arguments have the types Rust asks for. *)
Definition well_typed (c : call value) : bool :=
  match c with
  | New _ | Parse _ _ _ | CallSite _ | MixedSite _ | LiteralNew _ _ | LiteralParse _ _ _ | PunctNew _ _ _ => true
  | IsEmpty _ s | Print _ s | ToCompiler _ s | IntoIter _ s | GroupNew _ _ s => is_stream s
  | FromCompiler _ s => match s with VCompiler _ => true | _ => false end
  | FromTree _ t | TreeSpan _ t | TreePrint _ t => is_tree t
  | FromTrees _ ts => forallb is_tree ts
  | FromStreams _ ss => forallb is_stream ss
  | ExtendTrees _ s ts => is_stream s && forallb is_tree ts
  | ExtendStreams _ s ss => is_stream s && forallb is_stream ss
  | Nth _ ts _ => match ts with VTrees _ => true | _ => false end
  | ResolvedAt _ a b | LocatedAt _ a b | Join _ a b | SpanEq _ a b => is_span a && is_span b
  | UnwrapSpan _ a | SourceText _ a | IdentNew _ _ a | IdentNewRaw _ _ a => is_span a
  | GroupDelimiter _ g | GroupStream _ g | GroupOpen _ g | GroupClose _ g => is_group g
  | IdentEq _ a b | IdentCmp _ a b => is_ident a && is_ident b
  | IdentEqStr _ a _ => is_ident a
  | LiteralSubspan _ l _ _ => is_literal l
  | TreeSetSpan _ t sp => is_tree t && is_span sp
  | ErrorSpan _ e => match e with VError _ => true | _ => false end
  end.
(** The answer documented for a mixture; every other call has to panic. *)
Definition documented (c : call value) : outcome value :=
  match c with Join _ _ _ => Val VNone | SpanEq _ _ _ => Val (VBool false) | _ => Mismatch end.
(** Calls which take a mixture without noticing. *)
Definition silent (inside : bool) (c : call value) : bool :=
  match c with
  | FromTrees _ _ => negb inside
  | ExtendTrees _ (VStream (StreamF _)) _ => true
  | TreeSetSpan _ (VTree (PunctW _ _ _)) _ => true
  | IdentCmp _ _ _ => true
  | _ => false
  end.

(** ** C52: spans *)

(** Forget the spans of fallback values, at every depth. *)
Definition erase_span (s : wspan) : wspan := match s with SpC s => SpC s | SpF _ => SpF call_site end.
Fixpoint erase_tree (t : wtree) : wtree :=
  match t with
  | GroupF d ts _ => GroupF d (map erase_tree ts) call_site
  | PunctW c s sp => PunctW c s (erase_span sp)
  | IdentF s r _ => IdentF s r call_site
  | LiteralF r _ => LiteralF r call_site
  | t => t
  end.
Definition erase (v : value) : value :=
  match v with
  | VSpan s => VSpan (erase_span s)
  | VTree t => VTree (erase_tree t)
  | VTrees ts => VTrees (map erase_tree ts)
  | VStream (StreamF ts) => VStream (StreamF (map erase_tree ts))
  | VError (ErrF _) => VError (ErrF call_site)
  | v => v
  end.
(** The calls which ask about the place of a span. *)
Definition asks_place {V} (c : call V) : bool :=
  match c with Join _ _ _ | SpanEq _ _ _ | SourceText _ _ | LiteralSubspan _ _ _ _ => true | _ => false end.
End Spec.
