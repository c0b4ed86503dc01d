(** * The literal constructors build literals that denote their argument. *)
From Verif Require Import Base Unicode Tokens Lexer BaseFacts PureLexer Stable Escaper LitValue SpecLit
  EscaperFacts LitValueFacts Local LexCooked LitNew Utf8.
Import ListNotations.
Local Open Scope N_scope.

(** *** Hexadecimal digits *)

Lemma hex_lower_val d : d < 16 -> hexval (hex_digit_lower d) d.
Proof.
  intro H. unfold hex_digit_lower. destruct (N.ltb_spec d 10).
  - now apply hex_09.
  - replace ("a"%ch + (d - 10)) with (87 + d) by lia. apply hex_lower. lia.
Qed.
Lemma hex_upper_val d : d < 16 -> hexval (hex_digit_upper d) d.
Proof.
  intro H. unfold hex_digit_upper. destruct (N.ltb_spec d 10).
  - now apply hex_09.
  - replace ("A"%ch + (d - 10)) with (55 + d) by lia. apply hex_upper. lia.
Qed.

Lemma hex_digits_aux_spec f : forall v acc, v < 16 ^ N.of_nat (S f) ->
  exists ds n, hex_digits_aux (S f) v acc = ds ++ acc /\ udigits ds n v /\ (n <= S f)%nat.
Proof.
  induction f as [|f IH]; intros v acc Hv;
    assert (Hm := N.mod_lt v 16 ltac:(lia)); assert (Hd := N.div_mod v 16 ltac:(lia)).
  - cbn [hex_digits_aux]. change (16 ^ N.of_nat 1) with 16 in Hv.
    rewrite (N.div_small v 16 Hv). change (0 =? 0) with true. cbn iota.
    exists [hex_digit_lower (v mod 16)], 1%nat. repeat split; [|lia].
    rewrite (N.mod_small v 16 Hv). apply ud_first, hex_lower_val, Hv.
  - remember (S f) as g. cbn [hex_digits_aux].
    destruct (N.eqb_spec (v / 16) 0) as [E|E].
    + exists [hex_digit_lower (v mod 16)], 1%nat. repeat split; [|lia].
      replace (v mod 16) with v by lia. apply ud_first, hex_lower_val. lia.
    + destruct (IH (v / 16) (hex_digit_lower (v mod 16) :: acc)) as (ds & n & Eds & Hu & Hn).
      { apply N.div_lt_upper_bound; [lia|].
        replace (N.of_nat (S g)) with (N.succ (N.of_nat g)) in Hv by lia.
        now rewrite N.pow_succ_r' in Hv. }
      exists (ds ++ [hex_digit_lower (v mod 16)]), (S n). split; [|split; [|lia]].
      * rewrite Eds, <- app_assoc. reflexivity.
      * rewrite Hd at 2. apply ud_digit; [exact Hu|]. now apply hex_lower_val.
Qed.
Lemma hex_digits_spec v : is_scalar v = true ->
  exists n, udigits (hex_digits v) n v /\ (n <= 6)%nat.
Proof.
  intro H. destruct (hex_digits_aux_spec 5 v []) as (ds & n & E & Hu & Hn).
  { unfold is_scalar in H. change (16 ^ N.of_nat 6) with 16777216. lia. }
  rewrite app_nil_r in E. unfold hex_digits. rewrite E. eauto.
Qed.

Lemma escape_unicode_spec k c :
  k <> KByte -> is_scalar c = true -> (k = KC -> c <> 0) ->
  exists e, escape_unicode c = BACKSLASH :: e /\ escape k e (units k c).
Proof.
  intros Hk Hs Hn. destruct (hex_digits_spec c Hs) as (n & Hu & Hle).
  exists (tag "u{" ++ hex_digits c ++ tag "}"). split; [reflexivity|].
  eapply esc_unicode; eauto.
Qed.

(** *** One character *)

(** The piece of text printed for one character: itself, or an escape. *)
Inductive piece (k : kind) (special : char -> Prop) : str -> N -> Prop :=
| piece_plain c : ~ special c -> c <> BACKSLASH -> c <> CR -> char_ok k c -> piece k special [c] c
| piece_escape e c : escape k e (units k c) -> piece k special (BACKSLASH :: e) c.

Lemma piece_cooked k x c s v :
  piece k (fun c => c = DQUOTE) x c -> cooked k s v -> cooked k (x ++ s) (units k c ++ v).
Proof.
  intros [d H1 H2 H3 [H4 H5]|e d He] Hs.
  - cbn. now apply cooked_char.
  - cbn. now apply cooked_escape.
Qed.

Lemma ascii_units k v : v < 128 -> units k v = [v].
Proof. intro H. destruct k; try reflexivity. now apply encode_ascii. Qed.

Lemma simple_piece k special c v :
  In (c, v) [("n"%ch, 10); ("r"%ch, 13); ("t"%ch, 9); ("\"%ch, 92); ("'"%ch, 39); (""""%ch, 34)] ->
  piece k special [BACKSLASH; c] v.
Proof.
  intro H. apply (piece_escape k special [c] v).
  rewrite ascii_units.
  - now apply esc_simple.
  - cbn in H. repeat (destruct H as [H|H]; [injection H as <- <-; lia|]). destruct H.
Qed.

Section WithUnicode.
Context {U : unicode}.

(** [special] characters are escaped by [escape_debug]. *)
Lemma escape_debug_piece k (special : char -> Prop) c :
  (forall c, special c -> c = DQUOTE \/ c = SQUOTE \/ c = LF \/ c = CR \/ c = TAB) ->
  k <> KByte -> is_scalar c = true -> c <> 0 ->
  piece k special (escape_debug c) c.
Proof.
  intros Hsp Hk Hs Hn. unfold escape_debug.
  destruct (N.eqb_spec c 0); [contradiction|].
  destruct (N.eqb_spec c TAB) as [->|Ht]; [apply simple_piece; cbn; tauto|].
  destruct (N.eqb_spec c CR) as [->|Hc]; [apply simple_piece; cbn; tauto|].
  destruct (N.eqb_spec c LF) as [->|Hl]; [apply simple_piece; cbn; tauto|].
  destruct (N.eqb_spec c BACKSLASH) as [->|Hb]; [apply simple_piece; cbn; tauto|].
  destruct (N.eqb_spec c DQUOTE) as [->|Hd]; [apply simple_piece; cbn; tauto|].
  destruct (N.eqb_spec c SQUOTE) as [->|Hq]; [apply simple_piece; cbn; tauto|].
  cbn [orb].
  destruct (escape_unicode_spec k c Hk Hs (fun _ => Hn)) as (e & -> & He).
  destruct (is_grapheme_extended c); [now apply piece_escape|].
  destruct (is_printable c); [|now apply piece_escape].
  apply piece_plain; auto.
  - intro H. apply Hsp in H. tauto.
  - split; [congruence|auto].
Qed.

Lemma hex_upper2_piece k b : b < 256 ->
  (k = KStr -> b < 128) -> (k = KC -> b <> 0) -> escape k (tl (hex_upper2 b)) [b]
  /\ hex_upper2 b = BACKSLASH :: tl (hex_upper2 b).
Proof using.
  intros Hb H1 H2. split; [|reflexivity].
  assert (Hd := N.div_mod b 16 ltac:(lia)). assert (Hm := N.mod_lt b 16 ltac:(lia)).
  assert (b / 16 < 16) by (apply N.div_lt_upper_bound; lia).
  cbn [hex_upper2 tl app]. change (escape k ["x"%ch; hex_digit_upper (b / 16); hex_digit_upper (b mod 16)] [b]).
  rewrite Hd at 3. apply esc_hex; try (now apply hex_upper_val); now rewrite <- Hd.
Qed.

Lemma zero_piece k (n : option N) : k <> KC ->
  let x := match n with
           | Some n => if between "0"%ch n "7"%ch then tag "\x00" else tag "\0"
           | None => tag "\0" end in
  exists e, x = BACKSLASH :: e /\ escape k e [0].
Proof using.
  intros Hk x.
  assert (H0 : exists e, tag "\0" = BACKSLASH :: e /\ escape k e [0]).
  { exists ["0"%ch]. split; [reflexivity|now apply esc_zero]. }
  unfold x. destruct n as [n|]; [|exact H0].
  destruct (between _ n _); [|exact H0].
  exists ["x"%ch; "0"%ch; "0"%ch]. split; [reflexivity|].
  change [0] with [16 * 0 + 0]. apply esc_hex; try (intros; lia); try (intros; congruence).
  - apply (hex_09 0). lia.
  - apply (hex_09 0). lia.
Qed.

(** *** Strings *)

Lemma escape_utf8_cooked k s tail v :
  k <> KByte -> valid_str s -> (k = KC -> ~ In 0 s) -> cooked k tail v ->
  cooked k (escape_utf8 s ++ tail) (flat_map (units k) s ++ v).
Proof.
  intros Hk Hs Hn Ht. induction Hs as [|c s Hc Hs IH]; [exact Ht|].
  cbn [escape_utf8 flat_map]. rewrite <- !app_assoc.
  assert (IH' : cooked k (escape_utf8 s ++ tail) (flat_map (units k) s ++ v)).
  { apply IH. intros E H. apply (Hn E). now right. }
  destruct (N.eqb_spec c NUL) as [->|Hnul].
  - assert (Hk' : k <> KC) by (intro E; apply (Hn E); now left).
    destruct (zero_piece k (match s with n :: _ => Some n | [] => None end) Hk') as (e & Ee & He).
    replace (units k NUL) with [0] by (destruct k; reflexivity).
    destruct s as [|n s]; cbn iota in Ee |- *; rewrite Ee; now apply (cooked_escape k e [0]).
  - destruct (N.eqb_spec c SQUOTE) as [->|Hq].
    + apply cooked_char; try discriminate; auto; lia.
    + apply piece_cooked; [|exact IH']. apply escape_debug_piece; auto.
Qed.

Lemma flat_map_single s : flat_map (units KStr) s = s.
Proof using. induction s as [|c s IH]; [reflexivity|]. cbn in *. now rewrite IH. Qed.

Lemma literal_string_denotes s : valid_str s -> denotes KStr (literal_string s) s.
Proof.
  intro Hs. assert (H := escape_utf8_cooked KStr s [] [] ltac:(discriminate) Hs ltac:(discriminate)
                           (cooked_nil KStr)).
  rewrite !app_nil_r, flat_map_single in H. exact (den_cooked KStr _ _ H).
Qed.

(** *** Byte strings *)

Lemma escape_bytes_cooked bytes : Forall (fun b => b < 256) bytes ->
  cooked KByte (escape_bytes bytes) bytes.
Proof using.
  induction 1 as [|b t Hb Ht IH]; [constructor|]. cbn [escape_bytes].
  change (b :: t) with ([b] ++ t).
  destruct (N.eqb_spec b 0) as [->|H0].
  { destruct (zero_piece KByte (match t with n :: _ => Some n | [] => None end) ltac:(discriminate))
      as (e & Ee & He).
    destruct t as [|n t]; cbn iota in Ee |- *; rewrite Ee; now apply (cooked_escape KByte e [0]). }
  assert (Hs : forall c, In (c, b) [("n"%ch, 10); ("r"%ch, 13); ("t"%ch, 9); ("\"%ch, 92);
                                    ("'"%ch, 39); (""""%ch, 34)] ->
            cooked KByte ([BACKSLASH; c] ++ escape_bytes t) ([b] ++ t)).
  { intros c Hc. apply (piece_cooked KByte [BACKSLASH; c] b); [|exact IH]. now apply simple_piece. }
  destruct (N.eqb_spec b TAB) as [->|Htab]; [apply (Hs "t"%ch); cbn; tauto|].
  destruct (N.eqb_spec b LF) as [->|Hlf]; [apply (Hs "n"%ch); cbn; tauto|].
  destruct (N.eqb_spec b CR) as [->|Hcr]; [apply (Hs "r"%ch); cbn; tauto|].
  destruct (N.eqb_spec b DQUOTE) as [->|Hq]; [apply (Hs """"%ch); cbn; tauto|].
  destruct (N.eqb_spec b BACKSLASH) as [->|Hbs]; [apply (Hs "\"%ch); cbn; tauto|].
  destruct (between 0x20 b 0x7E) eqn:Ebt.
  - apply (cooked_char KByte b); auto; unfold between in Ebt; lia.
  - destruct (hex_upper2_piece KByte b Hb ltac:(discriminate) ltac:(discriminate)) as [He ->].
    now apply (cooked_escape KByte _ [b]).
Qed.
Lemma literal_byte_string_denotes bytes :
  Forall (fun b => b < 256) bytes -> denotes KByte (literal_byte_string bytes) bytes.
Proof using. intro H. exact (den_cooked KByte _ _ (escape_bytes_cooked _ H)). Qed.

(** *** C strings *)

Lemma skipn_plus {A} m : forall n (l : list A), skipn (n + m) l = skipn m (skipn n l).
Proof using.
  induction n as [|n IH]; intro l; [reflexivity|]. destruct l; cbn; [now rewrite skipn_nil|apply IH].
Qed.

Lemma hex_upper2_cooked bs tail v :
  Forall (fun b => b < 256 /\ b <> 0) bs -> cooked KC tail v ->
  cooked KC (flat_map hex_upper2 bs ++ tail) (bs ++ v).
Proof using.
  intros Hb Ht. induction Hb as [|b bs [H1 H2] Hb IH]; [exact Ht|].
  cbn [flat_map]. rewrite <- app_assoc. change ((b :: bs) ++ v) with ([b] ++ bs ++ v).
  destruct (hex_upper2_piece KC b H1 ltac:(discriminate) (fun _ => H2)) as [He ->].
  now apply (cooked_escape KC _ [b]).
Qed.

Lemma str_bytes_no_nul s : ~ In 0 (str_bytes s) -> ~ In 0 s.
Proof using.
  intros H Hin. apply H. unfold str_bytes. apply in_flat_map. exists 0. split; [exact Hin|]. now left.
Qed.

Lemma c_string_loop_spec fuel : forall bytes,
  (length bytes < fuel)%nat -> Forall (fun b => b < 256 /\ b <> 0) bytes ->
  exists body, c_string_loop fuel bytes = Ok body /\ cooked KC body bytes.
Proof.
  induction fuel as [|fuel IH]; intros bytes Hf Hb; [lia|]. cbn [c_string_loop].
  destruct bytes as [|b0 bt] eqn:Eb.
  { exists []. split; [reflexivity|constructor]. }
  rewrite <- Eb in *. assert (Hne : (0 < length bytes)%nat) by (rewrite Eb; cbn; lia). clear Eb b0 bt.
  assert (Hno : forall x, (forall b, In b x -> In b bytes) -> ~ In 0 x).
  { intros x Hx Hin. apply Hx in Hin. rewrite Forall_forall in Hb. now apply Hb in Hin. }
  assert (Hgood := from_utf8_good bytes). unfold utf8_good in Hgood.
  destruct (from_utf8 bytes) as [s|n e].
  - destruct Hgood as [Es Hs]. cbn [bind].
    destruct fuel as [|fuel]; [lia|]. cbn [c_string_loop bind flat_map].
    eexists. split; [reflexivity|]. cbn [app]. rewrite app_nil_r.
    assert (H := escape_utf8_cooked KC s [] [] ltac:(discriminate) Hs).
    rewrite !app_nil_r in H. rewrite <- Es. apply H; [|constructor].
    intros _. apply str_bytes_no_nul. rewrite Es. now apply Hno.
  - destruct Hgood as ((s & Es & Hs) & Hn & He).
    unfold split_bytes at 1. destruct (Nat.leb_spec n (length bytes)); [|lia]. cbn [bind].
    rewrite <- Es, (from_utf8_str s Hs).
    assert (Hl : str_len s = n).
    { rewrite <- length_str_bytes, Es, firstn_length. lia. }
    assert (Hinv : exists inv m, (1 <= m)%nat /\ (n + m <= length bytes)%nat
              /\ inv = firstn m (skipn n bytes) /\ length inv = m
              /\ match e with None => Ok (skipn n bytes, []) | Some k => split_bytes (skipn n bytes) k end
                 = Ok (inv, skipn m (skipn n bytes))).
    { destruct e as [k|].
      - exists (firstn k (skipn n bytes)), k. unfold split_bytes. rewrite skipn_length.
        destruct (Nat.leb_spec k (length bytes - n)); [|lia].
        rewrite firstn_length, skipn_length. repeat split; lia.
      - exists (skipn n bytes), (length bytes - n)%nat.
        rewrite (firstn_all2 (skipn n bytes)) by (rewrite skipn_length; lia).
        rewrite (skipn_all2 (skipn n bytes)) by (rewrite skipn_length; lia).
        rewrite skipn_length. repeat split; lia. }
    destruct Hinv as (inv & m & Hm & Hnm & Einv & Hlinv & ->). cbn [bind].
    unfold split_bytes. rewrite Hl, Hlinv.
    destruct (Nat.leb_spec (n + m) (length bytes)); [|lia]. cbn [bind].
    destruct (IH (skipn (n + m) bytes)) as (body & -> & Hbody).
    { rewrite skipn_length. lia. }
    { rewrite Forall_forall in Hb |- *. intros x Hx. apply Hb.
      rewrite <- (firstn_skipn (n + m) bytes). apply in_or_app. now right. }
    cbn [bind]. eexists. split; [reflexivity|].
    assert (Esplit : bytes = str_bytes s ++ inv ++ skipn (n + m) bytes).
    { rewrite Es, Einv, skipn_plus.
      rewrite (firstn_skipn m (skipn n bytes)). now rewrite firstn_skipn. }
    rewrite Esplit at 1.
    apply (escape_utf8_cooked KC); auto; [discriminate| |].
    + intros _. apply str_bytes_no_nul. rewrite Es. apply Hno.
      intros b Hx. rewrite <- (firstn_skipn n bytes). apply in_or_app. now left.
    + apply hex_upper2_cooked; [|exact Hbody].
      rewrite Forall_forall in Hb |- *. intros x Hx. apply Hb.
      rewrite Einv in Hx. rewrite <- (firstn_skipn n bytes). apply in_or_app. right.
      rewrite <- (firstn_skipn m (skipn n bytes)). apply in_or_app. now left.
Qed.

Lemma literal_c_string_denotes bytes :
  Forall (fun b => b < 256 /\ b <> 0) bytes ->
  exists repr, literal_c_string bytes = Ok repr /\ denotes KC repr (bytes ++ [0]).
Proof.
  intro H. unfold literal_c_string.
  destruct (c_string_loop_spec (S (length bytes)) bytes ltac:(lia) H) as (body & -> & Hc).
  cbn [bind]. eexists. split; [reflexivity|]. exact (den_cooked KC _ _ Hc).
Qed.

(** *** Characters and bytes *)

Lemma literal_character_denotes c : is_scalar c = true -> char_denotes KStr (literal_character c) c.
Proof.
  intro Hs. unfold literal_character.
  destruct (N.eqb_spec c DQUOTE) as [->|Hq].
  { apply (chd_plain KStr); try discriminate. }
  destruct (N.eqb_spec c 0) as [->|H0].
  { apply (chd_escape KStr ["0"%ch] 0). apply esc_zero. discriminate. }
  assert (H := escape_debug_piece KStr (fun c => c = SQUOTE \/ c = LF \/ c = TAB) c).
  assert (Hp : piece KStr (fun c => c = SQUOTE \/ c = LF \/ c = TAB) (escape_debug c) c).
  { apply H; auto; [|discriminate]. intros d Hd. tauto. }
  inversion Hp as [d H1 H2 H3 [H4 H5] E|e d He E]; subst.
  - apply (chd_plain KStr); auto.
  - rewrite <- app_comm_cons. exact (chd_escape KStr e c He).
Qed.

Lemma literal_byte_character_denotes b : b < 256 -> char_denotes KByte (literal_byte_character b) b.
Proof using.
  intro Hb. unfold literal_byte_character.
  destruct (N.eqb_spec b 0) as [->|H0].
  { apply (chd_escape KByte ["0"%ch] 0). apply esc_zero. discriminate. }
  assert (Hs : forall c, In (c, b) [("n"%ch, 10); ("r"%ch, 13); ("t"%ch, 9); ("\"%ch, 92);
                                    ("'"%ch, 39); (""""%ch, 34)] ->
            char_denotes KByte (tag "b'" ++ [BACKSLASH; c] ++ [SQUOTE]) b).
  { intros c Hc. apply (chd_escape KByte [c] b). now apply esc_simple. }
  destruct (N.eqb_spec b TAB) as [->|Htab]; [apply (Hs "t"%ch); cbn; tauto|].
  destruct (N.eqb_spec b LF) as [->|Hlf]; [apply (Hs "n"%ch); cbn; tauto|].
  destruct (N.eqb_spec b CR) as [->|Hcr]; [apply (Hs "r"%ch); cbn; tauto|].
  destruct (N.eqb_spec b SQUOTE) as [->|Hq]; [apply (Hs "'"%ch); cbn; tauto|].
  destruct (N.eqb_spec b BACKSLASH) as [->|Hbs]; [apply (Hs "\"%ch); cbn; tauto|].
  destruct (between 0x20 b 0x7E) eqn:Ebt.
  - apply (chd_plain KByte b); auto. unfold between in Ebt. lia.
  - destruct (hex_upper2_piece KByte b Hb ltac:(discriminate) ltac:(discriminate)) as [He ->].
    exact (chd_escape KByte _ b He).
Qed.

(** *** All of these are single literal tokens *)

Lemma escape_utf8_no_cr s : valid_str s -> ~ In CR (escape_utf8 s).
Proof.
  induction 1 as [|c s Hc Hs IH]; [auto|]. cbn [escape_utf8]. rewrite in_app_iff. intros [H|H]; [|auto].
  revert H. destruct (N.eqb_spec c NUL) as [->|Hnul].
  - destruct s as [|n s]; [cbn; lia|]. destruct (between _ n _); cbn; lia.
  - destruct (N.eqb_spec c SQUOTE) as [->|Hq]; [cbn; lia|].
    assert (Hp : piece KStr (fun c => c = SQUOTE \/ c = LF \/ c = TAB) (escape_debug c) c).
    { apply escape_debug_piece; auto; [|discriminate]. intros d Hd. tauto. }
    destruct Hp as [d H1 H2 H3 H4|e d He].
    + intros [H|[]]. congruence.
    + intros [H|H]; [discriminate H|]. now apply escape_no_cr in He.
Qed.
Lemma escape_bytes_no_cr bs : Forall (fun b => b < 256) bs -> ~ In CR (escape_bytes bs).
Proof using.
  induction 1 as [|b t Hb Ht IH]; [auto|]. cbn [escape_bytes]. rewrite in_app_iff. intros [H|H]; [|auto].
  revert H.
  destruct (N.eqb_spec b 0); [destruct t as [|n t]; [cbn; lia|]; destruct (between _ n _); cbn; lia|].
  destruct (b =? TAB); [cbn; lia|]. destruct (b =? LF); [cbn; lia|].
  destruct (N.eqb_spec b CR); [cbn; lia|]. destruct (b =? DQUOTE); [cbn; lia|].
  destruct (b =? BACKSLASH); [cbn; lia|]. destruct (between 0x20 b 0x7E); [cbn; lia|].
  destruct (hex_upper2_piece KByte b Hb ltac:(discriminate) ltac:(discriminate)) as [He ->].
  intros [H|H]; [discriminate H|]. now apply escape_no_cr in He.
Qed.
Lemma c_string_loop_no_cr fuel : forall bytes body,
  Forall (fun b => b < 256 /\ b <> 0) bytes -> c_string_loop fuel bytes = Ok body -> ~ In CR body.
Proof.
  induction fuel as [|fuel IH]; intros bytes body Hb; [discriminate|]. cbn [c_string_loop].
  destruct bytes as [|b0 bt] eqn:Eb; [intros [= <-]; auto|]. rewrite <- Eb in *. clear Eb b0 bt.
  assert (Hgood := from_utf8_good bytes). unfold utf8_good in Hgood.
  destruct (from_utf8 bytes) as [s|n e].
  - cbn [bind]. destruct (c_string_loop fuel []) as [tail| | |] eqn:Et; cbn [bind]; try discriminate.
    intros [= <-]. cbn [flat_map app]. rewrite in_app_iff. intros [H|H].
    + now apply escape_utf8_no_cr in H.
    + now apply (IH [] tail) in H.
  - destruct (split_bytes bytes n) as [[valid rest]| | |] eqn:E1; cbn [bind]; try discriminate.
    assert (Hg2 := from_utf8_good valid). unfold utf8_good in Hg2.
    destruct (from_utf8 valid) as [s|]; [|discriminate].
    assert (Hsub : forall (v a b : list N) m, split_bytes v m = Ok (a, b) ->
              (forall x, In x a -> In x v) /\ (forall x, In x b -> In x v)).
    { intros v a b m. unfold split_bytes. destruct (m <=? length v)%nat; [|discriminate].
      intros [= <- <-]. split; intros x Hx; rewrite <- (firstn_skipn m v); apply in_or_app; auto. }
    destruct (match e with None => Ok (rest, []) | Some k => split_bytes rest k end)
      as [[inv x]| | |] eqn:E2; cbn [bind]; try discriminate.
    destruct (split_bytes bytes (str_len s + length inv)) as [[y next]| | |] eqn:E3; cbn [bind];
      try discriminate.
    destruct (c_string_loop fuel next) as [tail| | |] eqn:Et; cbn [bind]; try discriminate.
    intros [= <-]. rewrite !in_app_iff. rewrite Forall_forall in Hb. intros [H|[H|H]].
    + now apply escape_utf8_no_cr in H.
    + apply in_flat_map in H as (b & Hin & H).
      assert (Hbb : b < 256 /\ b <> 0).
      { apply Hb. apply Hsub in E1 as [_ E1]. apply E1. destruct e as [k|].
        - apply Hsub in E2 as [E2 _]. auto.
        - injection E2 as -> _. exact Hin. }
      destruct (hex_upper2_piece KC b (proj1 Hbb) ltac:(discriminate) (fun _ => proj2 Hbb))
        as [He Eh]. rewrite Eh in H.
      destruct H as [H|H]; [discriminate H|]. now apply escape_no_cr in He.
    + apply (IH next tail) in H; auto. apply Forall_forall. intros z Hz. apply Hb.
      apply Hsub in E3 as [_ E3]. auto.
Qed.

Lemma cooked_token k s v : cooked k s v -> ~ In CR s ->
  p_literal (prefix k ++ [DQUOTE] ++ s ++ [DQUOTE]) = Some [].
Proof.
  intros Hc Hn.
  assert (H : p_cooked (esc_of k) (ok_of k) (s ++ [DQUOTE]) = Some []).
  { unfold p_cooked. apply (cooked_lexes k s v Hc Hn). rewrite app_length. cbn. lia. }
  unfold p_literal. rewrite (p_quoted_intro _ []).
  - reflexivity.
  - destruct k; cbn [prefix].
    + left. exact H.
    + right; left. exact H.
    + right; right; left. exact H.
Qed.

Lemma literal_string_token s : valid_str s -> p_literal (literal_string s) = Some [].
Proof.
  intro Hs. assert (H := escape_utf8_cooked KStr s [] [] ltac:(discriminate) Hs ltac:(discriminate)
                           (cooked_nil KStr)).
  rewrite !app_nil_r in H. exact (cooked_token KStr _ _ H (escape_utf8_no_cr _ Hs)).
Qed.
Lemma literal_byte_string_token bs : Forall (fun b => b < 256) bs ->
  p_literal (literal_byte_string bs) = Some [].
Proof. intro H. exact (cooked_token KByte _ _ (escape_bytes_cooked _ H) (escape_bytes_no_cr _ H)). Qed.
Lemma literal_c_string_token bs repr : Forall (fun b => b < 256 /\ b <> 0) bs ->
  literal_c_string bs = Ok repr -> p_literal repr = Some [].
Proof.
  intros H. unfold literal_c_string.
  destruct (c_string_loop_spec (S (length bs)) bs ltac:(lia) H) as (body & E & Hc).
  rewrite E. cbn [bind]. intros [= <-].
  exact (cooked_token KC _ _ Hc (c_string_loop_no_cr _ _ _ H E)).
Qed.

Lemma char_token k repr v : char_denotes k repr v -> k <> KC -> p_literal repr = Some [].
Proof.
  intros H Hk. unfold p_literal. rewrite (p_quoted_intro _ []); [reflexivity|].
  destruct H as [c H1 H2 H3 H4 H5 H6|e v He].
  - destruct k; [| |congruence]; cbn [prefix app].
    + right; right; right; right. unfold q_char. cbn [starts_with]. change ("'"%ch =? SQUOTE) with true.
      cbn [andb skipn]. unfold u_char. destruct (N.eqb_spec c BACKSLASH); [contradiction|]. reflexivity.
    + right; right; right; left. unfold q_byte. cbn [starts_with].
      change ("'"%ch =? SQUOTE) with true. change ("b"%ch =? "b"%ch) with true.
      cbn [andb skipn]. unfold u_byte. destruct (N.eqb_spec c BACKSLASH); [contradiction|].
      unfold is_ascii. destruct (N.ltb_spec c 0x80) as [|Hx]; [reflexivity|].
      specialize (H6 eq_refl). lia.
  - assert (E := esc_of_complete k e [v] [SQUOTE] He).
    destruct k; [| |congruence]; cbn [prefix app]; cbn [esc_of] in E.
    + right; right; right; right. unfold q_char. cbn [starts_with]. change ("'"%ch =? SQUOTE) with true.
      cbn [andb skipn]. unfold u_char. change (BACKSLASH =? BACKSLASH) with true. cbn iota. rewrite E.
      reflexivity.
    + right; right; right; left. unfold q_byte. cbn [starts_with].
      change ("'"%ch =? SQUOTE) with true. change ("b"%ch =? "b"%ch) with true.
      cbn [andb skipn]. unfold u_byte. change (BACKSLASH =? BACKSLASH) with true. cbn iota. rewrite E.
      reflexivity.
Qed.

End WithUnicode.
