(** * Properties C60 and C61: the wrapper is transparent. *)
From Verif Require Import Base Unicode Tokens Lexer Fallback LitNew Wrapper SpecWrapper SpecDirect DirectProofs ToyCompiler.
Import ListNotations.
Local Open Scope N_scope.

(** [direct none f regs h] runs the program [h] with [f] in place of the API. *)

(** ** C60 *)
Theorem c60_fallback : forall (U : unicode) (T : ctypes) (C : compiler) (F : fallback_map) h regs,
  Forall (fun c => to_compiler c = false) h ->
  run (map of_fallback regs) (map (pair false) h) = map (omap of_fallback) (direct FNone fallback_api regs h).
Proof. exact @fallback_run. Qed.
Print Assumptions c60_fallback.
(** The conversion gives the printed text to the compiler's parser. *)
Theorem c60_conversion : forall (U : unicode) (T : ctypes) (C : compiler) (F : fallback_map) i ts,
  api i (ToCompiler _ (of_fallback (FStream ts))) =
  match c_parse (stream_to_string ts) with Parsed s => Val (VCompiler s) | _ => Panics end.
Proof. exact @conversion_text. Qed.
Print Assumptions c60_conversion.
(** Which text each literal constructor produces; C17-C23 and C58 are about these texts. *)
Theorem c60_literals : forall (U : unicode) (F : fallback_map) r,
  fallback_api (LiteralNew _ r) =
  let made text := Val (FTree (TLiteral text call_site)) in
  match r with
  | ReqInt None z => made (int_unsuffixed z)
  | ReqInt (Some t) z => made (int_suffixed t z)
  | ReqFloat None text => made (float_unsuffixed text)
  | ReqFloat (Some t) text => made (float_suffixed t text)
  | ReqString s => made (literal_string s)
  | ReqChar c => made (literal_character c)
  | ReqByteChar b => made (literal_byte_character b)
  | ReqByteString bs => made (literal_byte_string bs)
  | ReqCString bs => match literal_c_string bs with Ok text => made text | _ => Panics end
  end.
Proof. exact @literal_texts. Qed.
Print Assumptions c60_literals.
(** Parse, take apart, rebuild, print. *)
Definition c60_program : list (call nat) :=
  [Parse _ 1 (tag "{a+=b}");                        (* 0 *)
   IntoIter _ 0%nat;                                (* 1 *)
   Nth _ 1%nat 0;                                   (* 2 *)
   GroupStream _ 2%nat;                             (* 3 *)
   LiteralNew _ (ReqInt None (-1)%Z);               (* 4 *)
   ExtendTrees _ 3%nat [4%nat; 2%nat];              (* 5 *)
   Print _ 5%nat;                                   (* 6 *)
   GroupOpen _ 2%nat;                               (* 7 *)
   TreeSetSpan _ 4%nat 7%nat;                       (* 8 *)
   LiteralSubspan _ 8%nat (Included 0) (Excluded 1)]. (* 9 *)
Example c60_example :
  let r := @direct (@fvalue) FNone (@fallback_api sample_unicode toy_map) [] c60_program in
  Forall (fun c => to_compiler c = false) c60_program /\ length r = 10%nat /\
  nth 6 r Illtyped = Val (FText (tag "a += b - 1 { a += b }")) /\
  nth 9 r Illtyped = Val (FSpan (mkspan 1 2)).
Proof. cbv zeta. split; [repeat constructor|]. vm_compute. repeat split; reflexivity. Qed.

(** ** C61 *)
Theorem c61_compiler : forall (U : unicode) (T : ctypes) (C : compiler) (F : fallback_map), extend_laws ->
  forall h regs,
  map (omap settle) (run (map of_compiler regs) (map (pair true) h)) =
  map (omap of_compiler) (direct KNone compiler_api regs h).
Proof. exact @compiler_run. Qed.
Print Assumptions c61_compiler.
Definition c61_program : list (call nat) :=
  [Parse _ 1 (tag "a");                             (* 0 *)
   CallSite _;                                      (* 1 *)
   IdentNew _ (tag "x") 1%nat;                      (* 2 *)
   PunctNew _ "+"%ch Joint;                         (* 3 *)
   ExtendTrees _ 0%nat [2%nat; 3%nat];              (* 4 *)
   ExtendTrees _ 4%nat [2%nat];                     (* 5 *)
   GroupNew _ Brace 5%nat;                          (* 6 *)
   TreePrint _ 6%nat;                               (* 7 *)
   Parse _ 1 (tag "(");                             (* 8 *)
   ErrorSpan _ 8%nat;                               (* 9 *)
   LiteralNew _ (ReqCString [65])].                 (* 10 *)
Example c61_example :
  let r := @direct (@cvalue toy_types) KNone (@compiler_api sample_unicode toy_types toy_compiler) [] c61_program in
  @extend_laws toy_types toy_compiler /\ length r = 11%nat /\
  nth 7 r Illtyped = Val (KText (tag "{ a x + x }")) /\
  nth 8 r Illtyped = Val (KError true) /\
  nth 10 r Illtyped = Val (KTree (@CLiteral toy_types (tag "c""A""", 1%nat))).
Proof. cbv zeta. split; [exact toy_extend_laws|]. vm_compute. repeat split; reflexivity. Qed.
