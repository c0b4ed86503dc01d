(** * Proofs about sizes *)
From Coq Require Import Lia.
From Verif Require Import Base BaseFacts Unicode Tokens Lexer LitNew Fallback Utf8.
From Verif Require Import SpecText SpecTree SpecLit SpecGrammar SpecPrint SpecSize.
From Verif Require Import LexemeProofs SpacingProofs PrintProofs.

Lemma len_utf8_pos c : 1 <= len_utf8 c.
Proof. unfold len_utf8. destruct (c <? _)%N; [lia|]. destruct (c <? _)%N; [lia|]. destruct (c <? _)%N; lia. Qed.
Lemma length_str_len s : length s <= str_len s.
Proof. induction s as [|c s IH]; cbn; [lia|]. pose proof (len_utf8_pos c). lia. Qed.

(** ** Escapes *)
Lemma hex_ascii d : (d < 16)%N -> len_utf8 (hex_digit_lower d) = 1.
Proof.
  intro H. unfold len_utf8, hex_digit_lower. destruct (d <? 10)%N eqn:E;
  rewrite (proj2 (N.ltb_lt _ 128)); try reflexivity; [apply N.ltb_lt in E; cbn; lia|cbn; lia].
Qed.
Lemma hex_aux_len f : forall v acc, str_len (hex_digits_aux f v acc) <= f + str_len acc.
Proof.
  induction f as [|f IH]; intros v acc; cbn [hex_digits_aux]; [lia|].
  assert (v mod 16 < 16)%N by (apply N.mod_lt; discriminate).
  destruct (v / 16 =? 0)%N.
  - cbn [str_len]. rewrite hex_ascii by assumption. lia.
  - specialize (IH (v / 16)%N (hex_digit_lower (v mod 16) :: acc)). cbn [str_len] in IH. rewrite hex_ascii in IH by assumption. lia.
Qed.
Lemma hex_digits_len v : str_len (hex_digits v) <= 6.
Proof. unfold hex_digits. pose proof (hex_aux_len 6 v []). cbn [str_len] in *. lia. Qed.
Lemma hex_digits_short v : (v < 256)%N -> str_len (hex_digits v) <= 2.
Proof.
  intro H. unfold hex_digits. cbn [hex_digits_aux].
  assert (v mod 16 < 16)%N by (apply N.mod_lt; discriminate).
  destruct (v / 16 =? 0)%N; [cbn [str_len]; rewrite hex_ascii by assumption; lia|].
  assert (v / 16 < 16)%N by (apply N.div_lt_upper_bound; [discriminate|lia]).
  rewrite (proj2 (N.eqb_eq (v / 16 / 16) 0)) by (apply N.div_small; assumption).
  cbn [str_len]. rewrite !hex_ascii by (try apply N.mod_lt; try discriminate; assumption). lia.
Qed.
Lemma escape_unicode_len c : str_len (escape_unicode c) <= 6 * len_utf8 c.
Proof.
  unfold escape_unicode. rewrite !str_len_app. change (str_len (tag "\u{")) with 3. change (str_len (tag "}")) with 1.
  unfold len_utf8. destruct (c <? 128)%N eqn:E.
  - apply N.ltb_lt in E. pose proof (hex_digits_short c). lia.
  - pose proof (hex_digits_len c). destruct (c <? 2048)%N; [lia|]. destruct (c <? 65536)%N; lia.
Qed.

Section WithUnicode.
Context {U : unicode}.

Lemma escape_debug_len c : str_len (escape_debug c) <= 6 * len_utf8 c.
Proof.
  pose proof (len_utf8_pos c). unfold escape_debug.
  destruct (c =? 0)%N; [change (str_len (tag "\0")) with 2; lia|].
  destruct (c =? TAB)%N; [change (str_len (tag "\t")) with 2; lia|].
  destruct (c =? CR)%N; [change (str_len (tag "\r")) with 2; lia|].
  destruct (c =? LF)%N; [change (str_len (tag "\n")) with 2; lia|].
  destruct (_ || _ || _); [cbn [str_len]; change (len_utf8 BACKSLASH) with 1; lia|].
  destruct (is_grapheme_extended c); [apply escape_unicode_len|].
  destruct (is_printable c); [cbn [str_len]; lia|apply escape_unicode_len].
Qed.
Lemma escape_utf8_len s : str_len (escape_utf8 s) <= 6 * str_len s.
Proof.
  induction s as [|c s IH]; [cbn; lia|]. cbn [escape_utf8]. rewrite str_len_app. cbn [str_len].
  pose proof (len_utf8_pos c).
  assert (E : str_len (if (c =? NUL)%N then match s with [] => tag "\0" | n :: _ => if between "0"%ch n "7"%ch then tag "\x00" else tag "\0" end
     else if (c =? SQUOTE)%N then [c] else escape_debug c) <= 6 * len_utf8 c).
  { destruct (c =? NUL)%N.
    - destruct s as [|n s]; [change (str_len (tag "\0")) with 2; lia|].
      destruct (between _ n _); [change (str_len (tag "\x00")) with 4; lia|change (str_len (tag "\0")) with 2; lia].
    - destruct (c =? SQUOTE)%N; [cbn [str_len]; lia|apply escape_debug_len]. }
  lia.
Qed.
Lemma literal_string_len s : str_len (literal_string s) <= 6 * str_len s + 2.
Proof.
  unfold literal_string. rewrite !str_len_app. change (str_len [DQUOTE]) with 1. pose proof (escape_utf8_len s). lia.
Qed.

(** ** Readings *)
Section Measure.
(** [m] measures text, [g] token streams. *)
Variable m : str -> nat.
Variable g : list token -> nat.
Variable c : nat.
Hypothesis m_app : forall a b, m (a ++ b) = m a + m b.
Hypothesis m_char : forall x s, 1 <= m (x :: s).
Hypothesis g_nil : g [] = 0.
Hypothesis g_app : forall k ts, g (k ++ ts) <= g k + g ts.
Hypothesis g_group : forall d inner sp ts, g (TGroup d inner sp :: ts) <= 2 * c + g inner + g ts.
Hypothesis g_leaf : forall t r k sp, lexeme t r k -> g [k sp] <= c * m t.
Hypothesis g_doc : forall inner x sp d, doc_line d inner x \/ doc_block d inner x ->
  g (doc_attribute inner (Lexer.literal_string x) sp) <= c * m d.

Definition piece_size (p : piece) : nat :=
  match p with PTok k => g k | POpen _ _ | PClose _ _ => c | PBad _ => 0 end.
Definition pieces_size (ps : list piece) : nat := list_sum (map piece_size ps).
Lemma pieces_size_app ps ps' : pieces_size (ps ++ ps') = pieces_size ps + pieces_size ps'.
Proof. unfold pieces_size. rewrite map_app, list_sum_app. reflexivity. Qed.
Lemma pieces_size_cons p ps : pieces_size (p :: ps) = piece_size p + pieces_size ps.
Proof. reflexivity. Qed.
Lemma tree_size ps ts : tree ps ts -> g ts <= pieces_size ps.
Proof using g_nil g_app g_group.
  clear m_char g_leaf g_doc m_app. induction 1 as [|k ps ts T IH|d a b ps1 inner ps2 ts T1 IH1 T2 IH2].
  - rewrite g_nil. lia.
  - rewrite pieces_size_cons. cbn [piece_size]. pose proof (g_app k ts). lia.
  - rewrite pieces_size_cons, pieces_size_app, pieces_size_cons. cbn [piece_size].
    pose proof (g_group d inner (mkspan a (b + 1)) ts). lia.
Qed.
Lemma reads_size a s ps : reads a s ps -> pieces_size ps <= c * m s.
Proof using m_app m_char g_leaf g_doc.
  clear g_nil g_app g_group. induction 1 as [a s B|a w s d r ps W O R IH|a w s d r ps W C R IH|a w d r inner x ps W D R IH|a w t r k ps W L R IH|a w s W N].
  - cbn. lia.
  - rewrite pieces_size_cons. cbn [piece_size]. destruct O as (I & -> & _). rewrite !m_app.
    assert (1 <= m (open_char d)) by (destruct I as [<-|[<-|[<-|[]]]]; apply m_char). nia.
  - rewrite pieces_size_cons. cbn [piece_size]. destruct C as (I & ->). rewrite !m_app.
    assert (1 <= m (close_char d)) by (destruct I as [<-|[<-|[<-|[]]]]; apply m_char). nia.
  - rewrite pieces_size_cons. cbn [piece_size]. rewrite !m_app.
    assert (g (doc_attribute inner (Lexer.literal_string x) (mkspan (a + strlen w) (a + strlen w + strlen d))) <= c * m d); [|nia].
    destruct D as [d r inner x D _ _|d r inner x D _ _|d r inner x D _].
    + apply g_doc; auto.
    + rewrite m_app. pose proof (g_doc inner x (mkspan (a + strlen w) (a + strlen w + strlen (d ++ [CR]))) d (or_introl D)). nia.
    + apply g_doc; auto.
  - rewrite pieces_size_cons. cbn [piece_size]. rewrite !m_app. pose proof (g_leaf t r k (mkspan (a + strlen w) (a + strlen w + strlen t)) L). nia.
  - cbn. lia.
Qed.
Lemma parse_size (UO : unicode_ok U) src start : (start + strlen src < two32)%N -> forall ts,
  token_stream_from_str start src = Ok (Lexed ts) -> g ts <= c * m src.
Proof using m_app m_char g_nil g_app g_group g_leaf g_doc.
  intros B ts P. apply (parse_reads UO src start B) in P as (ps & (a & s & N & R) & T).
  apply tree_size in T. apply reads_size in R.
  assert (m s <= m src). { destruct N as [s|s N]; [|lia]. change (0xFEFF%N :: s) with ([0xFEFF%N] ++ s). rewrite m_app. lia. }
  nia.
Qed.
End Measure.

(** ** Trees *)
Lemma count_app a b : count (a ++ b) = count a + count b.
Proof. unfold count. rewrite map_app, list_sum_app. reflexivity. Qed.
Lemma lexeme_leaf t r k sp : lexeme t r k -> tree_count (k sp) = 1 /\ tree_depth (k sp) = 0.
Proof. intros [t' r' L|c r' sg P|t' r' s raw I|r']; split; reflexivity. Qed.
Lemma lexeme_length t r k : lexeme t r k -> 1 <= length t.
Proof. intro L. destruct t; [now destruct (lexeme_nonempty _ _ _ L)|cbn; lia]. Qed.
Lemma doc_length d inner x : doc_line d inner x \/ doc_block d inner x -> 3 + length x <= length d.
Proof. intros [[x' _ _|x' _]|[x' _ _ _|x' _]]; rewrite ?app_length; cbn; lia. Qed.
Lemma doc_str_len d inner x : doc_line d inner x \/ doc_block d inner x -> 3 + str_len x <= str_len d.
Proof.
  intros [[x' _ _|x' _]|[x' _ _ _|x' _]]; rewrite ?str_len_app;
  change (str_len (tag "///")) with 3; change (str_len (tag "//!")) with 3; change (str_len (tag "/**")) with 3;
  change (str_len (tag "/*!")) with 3; lia.
Qed.

Lemma count_bound (UO : unicode_ok U) src start : (start + strlen src < two32)%N -> forall ts,
  token_stream_from_str start src = Ok (Lexed ts) -> count ts <= 2 * length src.
Proof.
  apply (parse_size (@length char) count 2); try exact UO.
  - apply app_length.
  - cbn. lia.
  - reflexivity.
  - intros k ts. rewrite count_app. lia.
  - intros d inner sp ts. change (TGroup d inner sp :: ts) with ([TGroup d inner sp] ++ ts). rewrite count_app.
    unfold count at 1. cbn [map tree_count list_sum fold_right]. fold (count inner). cbn. unfold count. lia.
  - intros t r k sp L. unfold count. cbn [map]. rewrite (proj1 (lexeme_leaf _ _ _ sp L)). cbn. pose proof (lexeme_length _ _ _ L). lia.
  - intros inner x sp d D. pose proof (doc_length _ _ _ D). destruct inner; cbn; lia.
Qed.
Lemma depth_app a b : depth (a ++ b) = max (depth a) (depth b).
Proof. unfold depth. rewrite map_app, list_max_app. reflexivity. Qed.
Lemma depth_bound (UO : unicode_ok U) src start : (start + strlen src < two32)%N -> forall ts,
  token_stream_from_str start src = Ok (Lexed ts) -> 2 * depth ts <= length src.
Proof.
  intros B ts P. rewrite <- (Nat.mul_1_l (length src)).
  revert P. apply (parse_size (@length char) (fun ts => 2 * depth ts) 1); try exact B; try exact UO.
  - apply app_length.
  - cbn. lia.
  - reflexivity.
  - intros k ts'. rewrite depth_app. lia.
  - intros d inner sp ts'. change (TGroup d inner sp :: ts') with ([TGroup d inner sp] ++ ts'). rewrite depth_app.
    assert (depth [TGroup d inner sp] = 1 + depth inner) as -> by (unfold depth; cbn [map tree_depth list_max fold_right]; lia). lia.
  - intros t r k sp L. unfold depth. cbn [map]. rewrite (proj2 (lexeme_leaf _ _ _ sp L)). cbn. lia.
  - intros inner x sp d D. pose proof (doc_length _ _ _ D). destruct inner; cbn; lia.
Qed.

(** ** Printed texts *)
Fixpoint wt (t : token) : nat :=
  match t with
  | TGroup _ ts _ => 4 + list_sum (map wt ts)
  | TIdent s raw _ => (if raw then 2 else 0) + str_len s + 1
  | TPunct c _ _ => len_utf8 c + 1
  | TLiteral r _ => str_len r + 1
  end.
Definition wts (ts : list token) : nat := list_sum (map wt ts).
Scheme tree_text_mut := Minimality for tree_text Sort Prop with trees_text_mut := Minimality for trees_text Sort Prop.
Lemma printed_wts ts x : trees_text ts x -> str_len x <= wts ts - 1.
Proof.
  revert ts x. apply (trees_text_mut (fun t x => str_len x + 1 <= wt t) (fun ts x => str_len x <= wts ts - 1)).
  - intros s sp. cbn. lia.
  - intros s sp. rewrite str_len_app. change (str_len (tag "r#")) with 2. cbn. lia.
  - intros c s sp. cbn. lia.
  - intros r sp. cbn. lia.
  - intros ts sp x _ IH. cbn [wt]. fold (wts ts). rewrite !str_len_app. change (str_len (tag "(")) with 1. change (str_len (tag ")")) with 1. lia.
  - intros ts sp x _ IH. cbn [wt]. fold (wts ts). rewrite !str_len_app. change (str_len (tag "[")) with 1. change (str_len (tag "]")) with 1. lia.
  - intros ts sp x _ IH. cbn [wt]. fold (wts ts). lia.
  - intros sp. cbn [wt map list_sum fold_right]. change (str_len (tag "{ }")) with 3. lia.
  - intros ts sp x N _ IH. cbn [wt]. fold (wts ts). rewrite !str_len_app. change (str_len (tag "{ ")) with 2. change (str_len (tag " }")) with 2.
    assert (1 <= wts ts). { destruct ts as [|t ts]; [now destruct N|]. unfold wts. cbn [map list_sum fold_right]. destruct t; cbn [wt]; lia. }
    lia.
  - cbn. lia.
  - intros t x _ IH. unfold wts. cbn [map list_sum fold_right]. lia.
  - intros c sp t ts y _ IH. unfold wts in *. cbn [map list_sum fold_right] in *. cbn [str_len wt]. lia.
  - intros t x u ts y _ _ IH1 _ IH2. unfold wts in *. cbn [map list_sum fold_right] in *. rewrite !str_len_app.
    change (str_len [SPACE]) with 1. assert (1 <= wt u) by (destruct u; cbn [wt]; lia). lia.
Qed.
Lemma wts_app a b : wts (a ++ b) = wts a + wts b.
Proof. unfold wts. rewrite map_app, list_sum_app. reflexivity. Qed.
Lemma lexeme_wt t r k sp : lexeme t r k -> wt (k sp) = str_len t + 1.
Proof.
  intros [t' r' L|c r' sg P|t' r' s raw I|r']; cbn [wt str_len]; try lia.
  destruct I as [s r' _ _ _|s r' _ _ _]; [lia|]. rewrite str_len_app. change (str_len (tag "r#")) with 2. lia.
Qed.
Lemma printed_bound (UO : unicode_ok U) src start : (start + strlen src < two32)%N -> forall ts,
  token_stream_from_str start src = Ok (Lexed ts) -> str_len (stream_to_string ts) <= 6 * str_len src.
Proof.
  intros B ts P. assert (wts ts <= 6 * str_len src).
  { revert P. apply (parse_size str_len wts 6); try exact B; try exact UO.
    - apply str_len_app.
    - intros x s. cbn [str_len]. pose proof (len_utf8_pos x). lia.
    - reflexivity.
    - intros k ts'. rewrite wts_app. lia.
    - intros d inner sp ts'. unfold wts. cbn [map list_sum fold_right wt]. unfold list_sum. lia.
    - intros t r k sp L. unfold wts. cbn [map list_sum fold_right]. rewrite (lexeme_wt _ _ _ sp L).
      pose proof (lexeme_length _ _ _ L). pose proof (length_str_len t). lia.
    - intros inner x sp d D. pose proof (doc_str_len _ _ _ D). pose proof (literal_string_len x).
      assert (wts (doc_attribute inner (literal_string x) sp) <= 15 + str_len (literal_string x)); [|lia].
      generalize (literal_string x) as l. intro l. unfold wts, doc_attribute.
      destruct inner; cbn [app map list_sum fold_right wt]; change (str_len (tag "doc")) with 3;
      change (len_utf8 "#"%ch) with 1; change (len_utf8 "="%ch) with 1; change (len_utf8 "!"%ch) with 1; lia. }
  destruct (trees_text_spec ts (stream_to_string ts)) as [_ T]. specialize (T eq_refl). apply printed_wts in T. lia.
Qed.

(** ** Texts that reach the bounds *)
Definition rub_out : char := 127%N.
Lemma rub_out_text n : escape_debug rub_out = tag "\u{7f}" ->
  str_len (literal_string (repeat rub_out n)) = 6 * n + 2.
Proof.
  intro E. unfold literal_string. rewrite !str_len_app. change (str_len [DQUOTE]) with 1.
  assert (str_len (escape_utf8 (repeat rub_out n)) = 6 * n); [|lia].
  induction n as [|n IH]; [reflexivity|]. cbn [repeat escape_utf8]. change (rub_out =? NUL)%N with false. change (rub_out =? SQUOTE)%N with false.
  cbn match. rewrite str_len_app, IH, E. change (str_len (tag "\u{7f}")) with 6. lia.
Qed.
Lemma printed_sharp (UO : unicode_ok U) : escape_debug rub_out = tag "\u{7f}" -> forall n, (N.of_nat n + 3 < two32)%N ->
  exists src ts, token_stream_from_str 0 src = Ok (Lexed ts) /\ str_len src = n + 3 /\
    str_len (stream_to_string ts) = 6 * n + 14.
Proof.
  intros E n B. set (x := repeat rub_out n). exists (tag "//!" ++ x).
  assert (NL : ~ In LF x) by (intro I; apply repeat_spec in I; discriminate I).
  exists (doc_attribute true (literal_string x) (mkspan 0 (0 + 0 + strlen (tag "//!" ++ x)))).
  assert (Lx : str_len x = n). { unfold x. clear. induction n as [|n IH]; [reflexivity|]. cbn [repeat str_len]. rewrite IH. reflexivity. }
  split; [|split].
  - apply (parse_reads UO).
    + unfold strlen. rewrite app_length. unfold x. rewrite repeat_length. change (length (tag "//!")) with 3. unfold two32 in *. lia.
    + exists [PTok (doc_attribute true (literal_string x) (mkspan 0 (0 + 0 + strlen (tag "//!" ++ x))))]. split.
      * exists 0%N, (tag "//!" ++ x). split; [constructor; intros t H; discriminate H|].
        rewrite <- (app_nil_r (tag "//!" ++ x)) at 1.
        apply (reads_doc 0 [] (tag "//!" ++ x) [] true x []); [constructor| |].
        { apply doc_at_line; [now constructor|now left|].
          intros (u & v & H & _). assert (I : In CR x) by (rewrite H; apply in_elt). apply repeat_spec in I. discriminate I. }
        apply reads_end. constructor. constructor.
      * rewrite <- (app_nil_r (doc_attribute _ _ _)) at 2. apply tree_tok. constructor.
  - rewrite str_len_app, Lx. change (str_len (tag "//!")) with 3. lia.
  - pose proof (rub_out_text n E) as L. fold x in L.
    match goal with |- str_len (stream_to_string ?a) = _ =>
      assert (T : trees_text a (tag "# ! [doc = " ++ literal_string x ++ tag "]")) end.
    { assert (T : trees_text [TIdent (tag "doc") false (mkspan 0 (0 + 0 + strlen (tag "//!" ++ x))); TPunct "="%ch Alone (mkspan 0 (0 + 0 + strlen (tag "//!" ++ x)));
        TLiteral (literal_string x) (mkspan 0 (0 + 0 + strlen (tag "//!" ++ x)))] (tag "doc" ++ [SPACE] ++ tag "=" ++ [SPACE] ++ literal_string x)).
      { apply ts_space; [discriminate|constructor|]. apply ts_space; [discriminate|constructor|]. apply ts_one. constructor. }
      apply tt_bracket with (sp := mkspan 0 (0 + 0 + strlen (tag "//!" ++ x))) in T.
      apply (ts_space _ (tag "#") _ _ (tag "! [doc = " ++ literal_string x ++ tag "]")); [discriminate|constructor|].
      apply (ts_space _ (tag "!") _ _ (tag "[doc = " ++ literal_string x ++ tag "]")); [discriminate|constructor|].
      apply ts_one. replace (tag "[doc = " ++ literal_string x ++ tag "]") with (tag "[" ++ (tag "doc" ++ [SPACE] ++ tag "=" ++ [SPACE] ++ literal_string x) ++ tag "]")
        by (rewrite <- !app_assoc; reflexivity). exact T. }
    apply trees_text_spec in T. rewrite T, !str_len_app, L. change (str_len (tag "# ! [doc = ")) with 11. change (str_len (tag "]")) with 1. lia.
Qed.

(** ** Constructors *)
Lemma literal_character_len ch : str_len (literal_character ch) <= 6 * len_utf8 ch + 2.
Proof.
  unfold literal_character. rewrite !str_len_app. change (str_len [SQUOTE]) with 1. pose proof (len_utf8_pos ch).
  destruct (ch =? DQUOTE)%N; [cbn [str_len]; lia|]. pose proof (escape_debug_len ch). lia.
Qed.
Lemma hex_upper_ascii d : (d < 16)%N -> len_utf8 (hex_digit_upper d) = 1.
Proof.
  intro H. unfold len_utf8, hex_digit_upper. destruct (d <? 10)%N eqn:E;
  rewrite (proj2 (N.ltb_lt _ 128)); try reflexivity; [apply N.ltb_lt in E; cbn; lia|cbn; lia].
Qed.
Lemma hex_upper2_len b : (b < 256)%N -> str_len (hex_upper2 b) = 4.
Proof.
  intro H. unfold hex_upper2. rewrite str_len_app. change (str_len (tag "\x")) with 2. cbn [str_len].
  rewrite !hex_upper_ascii; [reflexivity|apply N.mod_lt; discriminate|apply N.div_lt_upper_bound; [discriminate|exact H]].
Qed.
Lemma plain_byte b : between 0x20 b 0x7E = true -> str_len [b] = 1.
Proof.
  unfold between. intro H. apply andb_true_iff in H as [_ H]. apply N.leb_le in H. cbn [str_len]. unfold len_utf8.
  rewrite (proj2 (N.ltb_lt b 128)); [reflexivity|lia].
Qed.
Lemma escape_bytes_len bytes : Forall (fun b => b < 256)%N bytes -> str_len (escape_bytes bytes) <= 4 * length bytes.
Proof.
  induction 1 as [|b t B F IH]; [cbn; lia|]. cbn [escape_bytes]. rewrite str_len_app. cbn [length].
  match goal with |- str_len ?e + _ <= _ => assert (str_len e <= 4) end; [|lia].
  destruct (b =? 0)%N.
  { destruct t as [|n t]; [change (str_len (tag "\0")) with 2; lia|].
    destruct (between _ n _); [change (str_len (tag "\x00")) with 4; lia|change (str_len (tag "\0")) with 2; lia]. }
  destruct (b =? TAB)%N; [change (str_len (tag "\t")) with 2; lia|].
  destruct (b =? LF)%N; [change (str_len (tag "\n")) with 2; lia|].
  destruct (b =? CR)%N; [change (str_len (tag "\r")) with 2; lia|].
  destruct (b =? DQUOTE)%N; [change (str_len [BACKSLASH; DQUOTE]) with 2; lia|].
  destruct (b =? BACKSLASH)%N; [change (str_len (tag "\\")) with 2; lia|].
  destruct (between 0x20 b 0x7E) eqn:E; [rewrite plain_byte by exact E; lia|rewrite hex_upper2_len by exact B; lia].
Qed.
Lemma literal_byte_string_len bytes : Forall (fun b => b < 256)%N bytes -> str_len (literal_byte_string bytes) <= 4 * length bytes + 3.
Proof.
  intro F. unfold literal_byte_string. rewrite !str_len_app. change (str_len (tag "b")) with 1. change (str_len [DQUOTE]) with 1.
  pose proof (escape_bytes_len bytes F). lia.
Qed.
Lemma hex_upper2s_len bs : Forall (fun b => b < 256)%N bs -> str_len (flat_map hex_upper2 bs) = 4 * length bs.
Proof. induction 1 as [|b bs B F IH]; [reflexivity|]. cbn [flat_map length]. rewrite str_len_app, IH, hex_upper2_len by exact B. lia. Qed.
Lemma split_bytes_inv v n a b : split_bytes v n = Ok (a, b) -> v = a ++ b /\ length a = n.
Proof.
  unfold split_bytes. destruct (Nat.leb_spec n (length v)); [|discriminate]. intros [= <- <-].
  rewrite firstn_skipn, firstn_length. split; [reflexivity|lia].
Qed.
Lemma c_string_loop_len fuel : forall bytes body, Forall (fun b => b < 256)%N bytes ->
  c_string_loop fuel bytes = Ok body -> str_len body <= 6 * length bytes.
Proof.
  induction fuel as [|fuel IH]; intros bytes body Hb; [discriminate|]. cbn [c_string_loop].
  destruct bytes as [|b0 bt] eqn:Eb; [intros [= <-]; cbn; lia|]. rewrite <- Eb in *. clear Eb b0 bt.
  assert (Hgood := from_utf8_good bytes). unfold utf8_good in Hgood.
  destruct (from_utf8 bytes) as [s|n e].
  - cbn [bind]. destruct (c_string_loop fuel []) as [tail| | |] eqn:Et; cbn [bind]; try discriminate.
    intros [= <-]. cbn [flat_map app]. rewrite str_len_app. apply IH in Et; [|constructor]. cbn [length] in Et.
    destruct Hgood as [<- _]. rewrite length_str_bytes. pose proof (escape_utf8_len s). lia.
  - destruct (split_bytes bytes n) as [[valid rest]| | |] eqn:E1; cbn [bind]; try discriminate.
    assert (Hg2 := from_utf8_good valid). unfold utf8_good in Hg2.
    destruct (from_utf8 valid) as [s|]; [|discriminate]. destruct Hg2 as [Es _].
    destruct (match e with None => Ok (rest, []) | Some k => split_bytes rest k end)
      as [[inv x]| | |] eqn:E2; cbn [bind]; try discriminate.
    destruct (split_bytes bytes (str_len s + length inv)) as [[y next]| | |] eqn:E3; cbn [bind]; try discriminate.
    destruct (c_string_loop fuel next) as [tail| | |] eqn:Et; cbn [bind]; try discriminate.
    intros [= <-]. rewrite !str_len_app. apply split_bytes_inv in E1 as [-> _]. apply Forall_app in Hb as [Hv Hr].
    assert (exists z, rest = inv ++ z) as (z & ->).
    { destruct e as [k|]; [apply split_bytes_inv in E2 as [-> _]; eauto|injection E2 as -> _; exists []; now rewrite app_nil_r]. }
    apply Forall_app in Hr as [Hi Hz]. apply split_bytes_inv in E3 as [E3 L3].
    assert (Hn : Forall (fun b => b < 256)%N next).
    { assert (F : Forall (fun b => b < 256)%N (y ++ next)) by (rewrite <- E3; apply Forall_app; split; [exact Hv|now apply Forall_app]).
      now apply Forall_app in F. }
    apply IH in Et; [|exact Hn]. apply (f_equal (@length _)) in E3. rewrite !app_length, <- Es, length_str_bytes in E3.
    rewrite !app_length, <- Es, length_str_bytes, hex_upper2s_len by exact Hi. pose proof (escape_utf8_len s). lia.
Qed.
Lemma literal_c_string_len bytes r : Forall (fun b => b < 256)%N bytes -> literal_c_string bytes = Ok r ->
  str_len r <= 6 * length bytes + 3.
Proof.
  intro F. unfold literal_c_string. destruct (c_string_loop _ bytes) as [body| | |] eqn:E; cbn [bind]; try discriminate.
  intros [= <-]. apply c_string_loop_len in E; [|exact F]. cbn [app str_len]. rewrite str_len_app. cbn [str_len].
  change (len_utf8 DQUOTE) with 1. change (len_utf8 "c"%ch) with 1. lia.
Qed.

End WithUnicode.
