(** * Parsing through the compiler (C51) and changing spans (C52) *)
From Verif Require Import SpecLex.
From Verif Require Import Base Unicode Tokens Lexer LexProofs Fallback LitNew LitProofs Wrapper SpecWrapper WrapperProofs.
Import ListNotations.
Local Open Scope N_scope.

Section Claims.
Context {U : unicode} {T : ctypes} {C : compiler} {F : fallback_map}.

Lemma parse_guarded start src : start < two32 ->
  ((exists ts, token_stream_from_str start src = Ok (Lexed ts)) /\
   parse_stream true start src =
     Ok ([src], match c_parse src with
                | Parsed s => inl (StreamC s []) | ParseErr => inr ErrC | ParsePanic => inr ErrPanic end)) \/
  ((exists sp, token_stream_from_str start src = Ok (LexError sp)) /\
   parse_stream true start src = Ok ([], inr ErrPanic)).
Proof using.
  intros H. destruct (parse_total U start src H) as [[ts E]|[sp E]]; [left|right]; (split; [eauto|]);
    unfold parse_stream, stream_valid; rewrite E; cbn; [|reflexivity]. now destruct (c_parse src).
Qed.
Lemma parse_lit_guarded start src : start < two32 ->
  ((exists repr sp, literal_from_str start src = Ok (LitOk repr sp)) /\
   parse_lit true start src =
     Ok ([src], match c_literal_parse src with
                | Parsed l => inl (LiteralC l) | ParseErr => inr ErrC | ParsePanic => inr ErrPanic end)) \/
  ((exists sp, literal_from_str start src = Ok (LitErr sp)) /\
   parse_lit true start src = Ok ([], inr ErrPanic)).
Proof using.
  intros H. destruct (literal_total U start src H) as [(repr & sp & E)|[sp E]]; [left|right]; (split; [eauto|]);
    unfold parse_lit, literal_valid; rewrite E; cbn; [|reflexivity]. now destruct (c_literal_parse src).
Qed.
(** Outside a macro the compiler's parser is not called. *)
Lemma parse_fallback start src calls r :
  (parse_stream false start src = Ok (calls, r) -> calls = []).
Proof using.
  unfold parse_stream. destruct (token_stream_from_str start src); cbn; try discriminate. now intros [= <- _].
Qed.
Lemma parse_lit_fallback start src calls r :
  (parse_lit false start src = Ok (calls, r) -> calls = []).
Proof using.
  unfold parse_lit. destruct (literal_from_str start src); cbn; try discriminate. now intros [= <- _].
Qed.
Lemma constructor_texts i r start text : unicode_ok U -> start < two32 -> bytes_ok r ->
  In text (fst (literal_new i r)) -> accepted start text.
Proof using.
  intros UO H B. unfold literal_new. destruct i; [|now intros []]. destruct (by_text r) eqn:E; [|now intros []].
  destruct r; cbn [by_text] in E; try discriminate.
  - cbn. intros [<-|[]]. now apply byte_character_roundtrip.
  - destruct (c_string_roundtrip UO start bs H B) as (repr & R & A & _). cbn [fallback_repr]. rewrite R. cbn.
    intros [<-|[]]. exact A.
Qed.

Lemma run_erase h : forall regs regs', map erase regs = map erase regs' ->
  Forall (fun s => asks_place (snd s) = false) h ->
  map (omap erase) (run regs h) = map (omap erase) (run regs' h).
Proof using.
  induction h as [|[i c] h IH]; intros regs regs' E H; [reflexivity|]. inversion H as [|? ? Hc Hh]; subst.
  cbn [snd] in Hc. cbn [run map].
  assert (R : forall regs n, read (map erase regs) n = erase (read regs n)) by (intros l n; exact (map_nth erase l VNone n)).
  assert (P : forall regs, omap erase (api i (cmap (read regs) c)) = omap erase (api i (cmap (read (map erase regs)) c))).
  { intros l. rewrite (cmap_ext _ _ c (R l)), <- (cmap_cmap (read l) erase). symmetry. apply api_erase.
    clear - Hc. now destruct c. }
  assert (Q : omap erase (api i (cmap (read regs) c)) = omap erase (api i (cmap (read regs') c)))
    by now rewrite (P regs), (P regs'), E.
  f_equal; [exact Q|].
  destruct (api i (cmap (read regs) c)) as [v| | |], (api i (cmap (read regs') c)) as [v'| | |];
    cbn [omap] in Q; try discriminate; try reflexivity.
  apply IH; [|exact Hh]. rewrite !map_app, E. cbn [map]. congruence.
Qed.
Lemma set_span_invisible t sp t' a b h : backing (VTree t) = Some ByFallback -> backing (VSpan sp) = Some ByFallback ->
  w_set_span t sp = Val t' -> Forall (fun s => asks_place (snd s) = false) h ->
  w_span t' = sp /\
  map (omap erase) (run (a ++ VTree t' :: b) h) = map (omap erase) (run (a ++ VTree t :: b) h).
Proof using.
  intros B S E H. destruct (set_span_erase t sp t' B S E) as [E1 E2]. split; [exact E2|].
  apply run_erase; [|exact H]. rewrite !map_app. cbn [map erase]. now rewrite E1.
Qed.
(** The contents of a group keep their spans. *)
Lemma set_span_contents d ts sp sp' : w_set_span (GroupF d ts sp) (SpF sp') = Val (GroupF d ts sp').
Proof using. reflexivity. Qed.
Lemma set_span_total t sp : backing (VTree t) = backing (VSpan sp) -> exists t', w_set_span t sp = Val t'.
Proof using. destruct t as [| |? ? []| | | |], sp; cbn; try discriminate; eauto. Qed.
End Claims.
