(** * The lexer without locations computes what the lexer with locations computes. *)
From Verif Require Import Base Unicode Tokens Lexer.
From Verif Require PlainLexer.
Import ListNotations.

Definition rmap {A B} (f : A -> B) (r : res A) : res B :=
  match r with Ok a => Ok (f a) | Reject => Reject | Panic => Panic | Fuel => Fuel end.
Definition pc (c : cursor) : PlainLexer.cursor := PlainLexer.mkcur (rest c).
Definition pp {A} (x : cursor * A) : PlainLexer.cursor * A := (pc (fst x), snd x).

Lemma rmap_bind {A B C} (g : B -> C) (r : res A) k : rmap g (bind r k) = bind r (fun x => rmap g (k x)).
Proof. now destruct r. Qed.
Lemma bind_rmap {A B C} (g : A -> B) (r : res A) (k : B -> res C) : bind (rmap g r) k = bind r (fun x => k (g x)).
Proof. now destruct r. Qed.

Lemma adv c n : PlainLexer.advance (pc c) n = rmap pc (advance c n).
Proof. unfold PlainLexer.advance, advance. cbn [PlainLexer.rest pc]. now destruct split_at as [[? ?]|]. Qed.

(** Rewrite the calls of the plain lexer, then follow the one with locations. *)
Lemma prest c : PlainLexer.rest (pc c) = rest c. Proof. reflexivity. Qed.
Lemma pstarts c t : PlainLexer.cstarts (pc c) t = cstarts c t. Proof. reflexivity. Qed.
Lemma pstarts_char c t : PlainLexer.cstarts_char (pc c) t = cstarts_char c t. Proof. reflexivity. Qed.
Lemma pfirst_char c : PlainLexer.first_char (pc c) = first_char c. Proof. reflexivity. Qed.
Lemma pfirst_byte c : PlainLexer.first_byte (pc c) = first_byte c. Proof. reflexivity. Qed.
Global Hint Rewrite adv prest pstarts pstarts_char pfirst_char pfirst_byte : plain.
Ltac pairs := repeat match goal with x : (_ * _)%type |- _ => destruct x end.
Ltac go t :=
  lazymatch t with
  | bind ?r _ => go r
  | if_ok ?r _ _ => go r
  | rmap _ ?r => go r
  | (if ?x then _ else _) => go x
  | (match ?x with [] => _ | _ => _ end) => go x
  | (match ?x with Some _ => _ | _ => _ end) => go x
  | (match ?x with O => _ | _ => _ end) => go x
  | (let (_, _) := ?x in _) => go x
  | Ok _ => fail
  | Reject => fail
  | pc _ => fail
  | ?x => destruct x; pairs
  end.
Ltac norm := cbv zeta; cbn [bind if_ok rmap pp fst snd]; repeat (progress autorewrite with plain; cbn [bind if_ok rmap pp fst snd]).
Ltac sim := norm; try reflexivity; repeat (match goal with |- _ = ?t => go t end; norm; try reflexivity).

Ltac simw E := norm; rewrite ?E; try reflexivity; repeat (match goal with |- _ = ?t => go t end; norm; rewrite ?E; try reflexivity).

Lemma ptag c t : PlainLexer.parse_tag (pc c) t = rmap pc (parse_tag c t).
Proof. unfold PlainLexer.parse_tag, parse_tag. sim. Qed.
Global Hint Rewrite ptag : plain.
Lemma newline_loop c chars : forall i, PlainLexer.take_until_newline_loop (pc c) i chars = rmap pp (take_until_newline_loop c i chars).
Proof. induction chars as [|ch t IH]; intros i; cbn [PlainLexer.take_until_newline_loop take_until_newline_loop]; rewrite ?IH; sim. Qed.
Lemma newline c : PlainLexer.take_until_newline_or_eof (pc c) = rmap pp (take_until_newline_or_eof c).
Proof. apply newline_loop. Qed.
Global Hint Rewrite newline : plain.
Lemma block_loop c fuel : forall d i bs, PlainLexer.block_comment_loop (pc c) fuel d i bs = rmap pp (block_comment_loop c fuel d i bs).
Proof.
  induction fuel as [|fuel IH]; intros d i bs; cbn [PlainLexer.block_comment_loop block_comment_loop]; [reflexivity|].
  destruct bs as [|b0 [|b1 t]]; try reflexivity. rewrite !IH. destruct d as [|[|d]]; rewrite ?IH; sim.
Qed.
Lemma block c : PlainLexer.block_comment (pc c) = rmap pp (block_comment c).
Proof. unfold PlainLexer.block_comment, block_comment. norm. rewrite block_loop. sim. Qed.
Global Hint Rewrite block : plain.
Lemma skip_loop fuel : forall c, PlainLexer.skip_whitespace_loop fuel (pc c) = rmap pc (skip_whitespace_loop fuel c).
Proof.
  induction fuel as [|fuel IH]; intros c; cbn [PlainLexer.skip_whitespace_loop skip_whitespace_loop]; [reflexivity|].
  cbv zeta. simw IH.
Qed.
Lemma skip c : PlainLexer.skip_whitespace (pc c) = rmap pc (skip_whitespace c).
Proof. apply skip_loop. Qed.
Global Hint Rewrite skip : plain.

Section WithUnicode.
Context {U : unicode}.

Lemma pbreak c : PlainLexer.word_break (pc c) = rmap pc (word_break c).
Proof. unfold PlainLexer.word_break, word_break. sim. Qed.
Lemma pnot_raw c : PlainLexer.ident_not_raw (pc c) = rmap pp (ident_not_raw c).
Proof. unfold PlainLexer.ident_not_raw, ident_not_raw. sim. Qed.
#[local] Hint Rewrite pbreak pnot_raw : plain.
Lemma pany c : PlainLexer.ident_any (pc c) = rmap pp (ident_any c).
Proof. unfold PlainLexer.ident_any, ident_any. sim. Qed.
#[local] Hint Rewrite pany : plain.
Lemma pident c : PlainLexer.ident (pc c) = rmap pp (ident c).
Proof. unfold PlainLexer.ident, ident. change (existsb (PlainLexer.cstarts (pc c)) ident_reject_prefixes) with (existsb (cstarts c) ident_reject_prefixes). sim. Qed.
Lemma psuffix c : PlainLexer.literal_suffix (pc c) = rmap pc (literal_suffix c).
Proof. unfold PlainLexer.literal_suffix, literal_suffix. sim. Qed.
#[local] Hint Rewrite pident psuffix : plain.
Lemma trailing_loop c fuel : forall last ws, PlainLexer.trailing_backslash_loop (pc c) fuel last ws = rmap pc (trailing_backslash_loop c fuel last ws).
Proof.
  induction fuel as [|fuel IH]; intros last ws; cbn [PlainLexer.trailing_backslash_loop trailing_backslash_loop]; [reflexivity|].
  cbv zeta. simw IH.
Qed.
Lemma ptrailing c last : PlainLexer.trailing_backslash (pc c) last = rmap pc (trailing_backslash c last).
Proof. apply trailing_loop. Qed.
#[local] Hint Rewrite ptrailing : plain.
Lemma cooked_loop fuel : forall c it, PlainLexer.cooked_string_loop fuel (pc c) it = rmap pc (cooked_string_loop fuel c it).
Proof.
  induction fuel as [|fuel IH]; intros c it; cbn [PlainLexer.cooked_string_loop cooked_string_loop]; [reflexivity|].
  simw IH.
Qed.
Lemma pcooked c : PlainLexer.cooked_string (pc c) = rmap pc (cooked_string c).
Proof. apply cooked_loop. Qed.
#[local] Hint Rewrite pcooked : plain.
Lemma delim_loop c bs : forall i, PlainLexer.delimiter_loop (pc c) i bs = rmap pp (delimiter_loop c i bs).
Proof. induction bs as [|b t IH]; intros i; cbn [PlainLexer.delimiter_loop delimiter_loop]; [reflexivity|]. simw IH. Qed.
Lemma pdelim c : PlainLexer.delimiter_of_raw_string (pc c) = rmap pp (delimiter_of_raw_string c).
Proof. apply delim_loop. Qed.
#[local] Hint Rewrite pdelim : plain.
Lemma raw_loop ok c d fuel : forall it, PlainLexer.raw_string_loop ok (pc c) d fuel it = rmap pc (raw_string_loop ok c d fuel it).
Proof.
  induction fuel as [|fuel IH]; intros it; cbn [PlainLexer.raw_string_loop raw_string_loop]; [reflexivity|].
  cbv zeta. simw IH.
Qed.
Lemma praw_with ok c : PlainLexer.raw_string_with ok (pc c) = rmap pc (raw_string_with ok c).
Proof. unfold PlainLexer.raw_string_with, raw_string_with. simw raw_loop. Qed.
Lemma praw c : PlainLexer.raw_string (pc c) = rmap pc (raw_string c). Proof. apply praw_with. Qed.
Lemma prawb c : PlainLexer.raw_byte_string (pc c) = rmap pc (raw_byte_string c). Proof. apply praw_with. Qed.
Lemma prawc c : PlainLexer.raw_c_string (pc c) = rmap pc (raw_c_string c). Proof. apply praw_with. Qed.
#[local] Hint Rewrite praw prawb prawc : plain.
Lemma pstring c : PlainLexer.string_lit (pc c) = rmap pc (string_lit c).
Proof. unfold PlainLexer.string_lit, string_lit. sim. Qed.
Lemma cookedb_loop fuel : forall c it, PlainLexer.cooked_byte_string_loop fuel (pc c) it = rmap pc (cooked_byte_string_loop fuel c it).
Proof.
  induction fuel as [|fuel IH]; intros c it; cbn [PlainLexer.cooked_byte_string_loop cooked_byte_string_loop]; [reflexivity|].
  simw IH.
Qed.
Lemma pcookedb c : PlainLexer.cooked_byte_string (pc c) = rmap pc (cooked_byte_string c).
Proof. apply cookedb_loop. Qed.
Lemma cookedc_loop fuel : forall c it, PlainLexer.cooked_c_string_loop fuel (pc c) it = rmap pc (cooked_c_string_loop fuel c it).
Proof.
  induction fuel as [|fuel IH]; intros c it; cbn [PlainLexer.cooked_c_string_loop cooked_c_string_loop]; [reflexivity|].
  simw IH.
Qed.
Lemma pcookedc c : PlainLexer.cooked_c_string (pc c) = rmap pc (cooked_c_string c).
Proof. apply cookedc_loop. Qed.
#[local] Hint Rewrite pstring pcookedb pcookedc : plain.
Lemma pbyte_string c : PlainLexer.byte_string (pc c) = rmap pc (byte_string c).
Proof. unfold PlainLexer.byte_string, byte_string. sim. Qed.
Lemma pc_string c : PlainLexer.c_string (pc c) = rmap pc (c_string c).
Proof. unfold PlainLexer.c_string, c_string. sim. Qed.
Lemma pbyte c : PlainLexer.byte_lit (pc c) = rmap pc (byte_lit c).
Proof. unfold PlainLexer.byte_lit, byte_lit. sim. Qed.
Lemma pcharacter c : PlainLexer.character (pc c) = rmap pc (character c).
Proof. unfold PlainLexer.character, character. sim. Qed.
Lemma pfloat_digits c : PlainLexer.float_digits (pc c) = rmap pc (float_digits c).
Proof. unfold PlainLexer.float_digits, float_digits. sim. Qed.
Lemma ptail c : PlainLexer.number_tail (pc c) = rmap pc (number_tail c).
Proof. unfold PlainLexer.number_tail, number_tail. sim. Qed.
Lemma pdigits c : PlainLexer.digits (pc c) = rmap pc (digits c).
Proof. unfold PlainLexer.digits, digits. sim. Qed.
#[local] Hint Rewrite pbyte_string pc_string pbyte pcharacter pfloat_digits ptail pdigits : plain.
Lemma pfloat c : PlainLexer.float_lit (pc c) = rmap pc (float_lit c).
Proof. unfold PlainLexer.float_lit, float_lit. sim. Qed.
Lemma pint c : PlainLexer.int_lit (pc c) = rmap pc (int_lit c).
Proof. unfold PlainLexer.int_lit, int_lit. sim. Qed.
#[local] Hint Rewrite pfloat pint : plain.
Lemma pnocapture c : PlainLexer.literal_nocapture (pc c) = rmap pc (literal_nocapture c).
Proof. unfold PlainLexer.literal_nocapture, literal_nocapture. sim. Qed.
#[local] Hint Rewrite pnocapture : plain.
Lemma pliteral c : PlainLexer.literal (pc c) = rmap pp (literal c).
Proof. unfold PlainLexer.literal, literal. sim. Qed.
Lemma ppunct_char c : PlainLexer.punct_char (pc c) = rmap pp (punct_char c).
Proof. unfold PlainLexer.punct_char, punct_char. sim. Qed.
#[local] Hint Rewrite pliteral ppunct_char : plain.
Lemma ppunct c : PlainLexer.punct (pc c) = rmap pp (punct c).
Proof. unfold PlainLexer.punct, punct. sim. Qed.
#[local] Hint Rewrite ppunct : plain.
Lemma pleaf c : PlainLexer.leaf_token (pc c) = rmap pp (leaf_token c).
Proof. unfold PlainLexer.leaf_token, leaf_token. sim. Qed.
Lemma pcontents c : PlainLexer.doc_comment_contents (pc c) = rmap pp (doc_comment_contents c).
Proof. unfold PlainLexer.doc_comment_contents, doc_comment_contents. sim. Qed.
#[local] Hint Rewrite pleaf pcontents : plain.
Definition pd (x : cursor * list token) : PlainLexer.cursor * list token := (pc (fst x), strips (snd x)).
Lemma pdoc c : PlainLexer.doc_comment (pc c) = rmap pd (doc_comment c).
Proof.
  unfold PlainLexer.doc_comment, doc_comment. norm. destruct doc_comment_contents as [[r [t inner]]| | |]; norm; try reflexivity.
  destruct (bare_cr t); [reflexivity|]. now destruct inner.
Qed.
Lemma punct_flat c r t : punct c = Ok (r, t) -> exists ch k, t = TPunct ch k call_site.
Proof.
  unfold punct. destruct (punct_char c) as [[a ch]| | |]; cbn [bind]; try discriminate.
  assert (N : forall ch k b, (let? p := punct_new ch k in Ok (b, p)) = Ok (r, t) ->
    exists ch k, t = TPunct ch k call_site).
  { intros x k b. unfold punct_new. destruct contains; cbn [bind]; [|discriminate].
    intros H. injection H as _ <-. eauto. }
  destruct (ch =? SQUOTE)%N.
  - destruct (ident_any a) as [[af ?]| | |]; cbn [bind]; try discriminate.
    destruct (_ || _); [discriminate|]. apply N.
  - destruct (if_ok _ _ _) as [k| | |]; cbn [bind]; try discriminate. apply N.
Qed.
Lemma leaf_flat c r t sp : leaf_token c = Ok (r, t) -> strip (set_span t sp) = set_span t PlainLexer.no_span.
Proof.
  unfold leaf_token. destruct (literal c) as [[a l]| | |]; cbn [if_ok]; try discriminate.
  { intros H. injection H as _ <-. reflexivity. }
  destruct (punct c) as [[a p]| | |] eqn:E; cbn [if_ok]; try discriminate.
  { intros H. injection H as <- <-. apply punct_flat in E as (ch & k & ->). reflexivity. }
  destruct (ident c) as [[a [sym raw]]| | |]; cbn [if_ok]; try discriminate.
  { intros H. injection H as _ <-. reflexivity. }
  destruct (cstarts c ERROR); [|discriminate].
  destruct (advance c _); cbn [bind]; try discriminate.
  intros H. injection H as _ <-. reflexivity.
Qed.
Definition pframe (f : N * (delimiter * list token)) : delimiter * list token :=
  (fst (snd f), strips (snd (snd f))).
Definition plexed (l : lexed) : lexed :=
  match l with Lexed ts => Lexed (strips ts) | LexError _ => LexError PlainLexer.no_span end.
Lemma strips_app a b : strips (a ++ b) = strips a ++ strips b.
Proof. apply map_app. Qed.
Lemma stream_loop fuel : forall c ts st,
  PlainLexer.token_stream_loop fuel (pc c) (strips ts) (map pframe st) = rmap plexed (token_stream_loop fuel c ts st).
Proof.
  induction fuel as [|fuel IH]; intros c ts st; cbn [PlainLexer.token_stream_loop token_stream_loop]; [reflexivity|].
  norm. destruct (skip_whitespace c) as [a| | |]; norm; try reflexivity.
  rewrite pdoc. destruct (doc_comment a) as [[r d]| | |]; cbn [rmap if_ok pd fst snd]; try reflexivity.
  { rewrite <- IH, strips_app. reflexivity. }
  try rewrite pfirst_byte. destruct (first_byte a) as [b|].
  2: { destruct st as [|[lo f] st]; reflexivity. }
  try change (PlainLexer.open_delimiter (pc a) b) with (open_delimiter a b). destruct (open_delimiter a b) as [d|].
  { try rewrite adv. destruct (advance a 1) as [a'| | |]; cbn [rmap bind]; try reflexivity.
    rewrite <- IH. reflexivity. }
  destruct (close_delimiter b) as [d|].
  { destruct st as [|[lo [od outer]] st]; cbn [map pframe fst snd]; [reflexivity|].
    destruct (negb (delim_eqb od d)); [reflexivity|].
    try rewrite adv. destruct (advance a 1) as [a'| | |]; cbn [rmap bind]; try reflexivity.
    rewrite <- IH, strips_app. reflexivity. }
  try rewrite pleaf. destruct (leaf_token a) as [[r t]| | |] eqn:E; cbn [rmap if_ok pp fst snd]; try reflexivity.
  rewrite <- IH, strips_app. cbn [strips map]. now rewrite (leaf_flat _ _ _ _ E).
Qed.
Theorem plain_stream start src :
  PlainLexer.token_stream_from_str src = rmap plexed (token_stream_from_str start src).
Proof.
  unfold PlainLexer.token_stream_from_str, token_stream_from_str. change (PlainLexer.mkcur src) with (pc (mkcur src start)).
  cbv zeta. try rewrite pstarts. destruct cstarts.
  - try rewrite adv. destruct advance as [c| | |]; cbn [rmap bind]; try reflexivity. apply (stream_loop _ c [] []).
  - cbn [bind]. apply (stream_loop _ _ [] []).
Qed.
Definition plit (l : lit_result) : lit_result :=
  match l with LitOk r _ => LitOk r PlainLexer.no_span | LitErr _ => LitErr PlainLexer.no_span end.
Theorem plain_literal start src :
  PlainLexer.literal_from_str src = rmap plit (literal_from_str start src).
Proof.
  unfold PlainLexer.literal_from_str, literal_from_str. change (PlainLexer.mkcur src) with (pc (mkcur src start)). sim.
Qed.
End WithUnicode.
