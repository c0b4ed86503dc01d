(** * Reading with newer tables. *)
From Coq Require Import Lia.
From Verif Require Import Base BaseFacts Unicode Tokens Lexer Fallback LitNew.
From Verif Require Import SpecText SpecTree SpecLit SpecGrammar SpecFinal LexemeProofs AppendProofs ForeignProofs ReferenceProofs PrintProofs.
From Verif Require Import SpecTables.
From Verif Require LitNewFacts.
Import ListNotations.
Local Open Scope N_scope.

Section Tables.
Context (U V : unicode).
Hypothesis (UO : unicode_ok U) (VO : unicode_ok V) (NW : newer U V).

Lemma start_newer c : @start_char U c -> @start_char V c.
Proof using NW. intros [->|H]; [now left|right; now apply (newer_start U V NW)]. Qed.
Lemma ident_newer s : @ident_text U s -> @ident_text V s.
Proof using NW.
  intros (c & t & -> & C & T). exists c, t. split; [reflexivity|]. split; [now apply start_newer|].
  eapply Forall_impl; [|exact T]. intros x. apply (newer_continue U V NW).
Qed.
Lemma suffix_newer s : @number_suffix U s -> @number_suffix V s.
Proof using NW. intros [->|[H N]]; [now left|right; split; [now apply ident_newer|exact N]]. Qed.
Lemma word_end_older r : @word_end V r -> @word_end U r.
Proof using NW.
  intros H c t E. specialize (H c t E). destruct (@is_xid_continue U c) eqn:C; [|reflexivity].
  apply (newer_continue U V NW) in C. congruence.
Qed.

(** A character new in identifiers begins nothing with the older tables. *)
Lemma novel c : @is_xid_continue V c = true -> @is_xid_continue U c = false -> @begins_nothing U c.
Proof using UO VO.
  intros HV HU. assert (A : 0x80 <= c).
  { destruct (N.lt_ge_cases c 0x80) as [L|L]; [|exact L]. rewrite (xid_continue_ascii V VO c L), <- (xid_continue_ascii U UO c L) in HV. congruence. }
  split; [|split; [exact HU|split; [|split]]].
  - intros [B|[->| ->]]; [apply (xid_not_space V VO) in B; congruence|..]; pose proof (xid_not_marks V VO); intuition congruence.
  - intros I. cbn in I. decompose [or] I; subst; try contradiction; lia.
  - intros I. cbn in I. decompose [or] I; subst; try contradiction; lia.
  - intros ->. lia.
Qed.
Lemma novel_start c : @start_char V c -> ~ @start_char U c -> @begins_nothing U c.
Proof using UO VO NW.
  intros HV HU. apply novel.
  - now apply (start_continue VO).
  - destruct (@is_xid_continue U c) eqn:C; [|reflexivity]. exfalso. apply HU. destruct HV as [->|S]; [now left|right].
    now apply (newer_kept U V NW).
Qed.

(** ** What follows *)
Definition clean (ps : list piece) : Prop := forall p, ~ In (PBad p) ps.
Lemma foreign_first a c t ps : @reads U a (c :: t) ps -> @begins_nothing U c -> ~ clean ps.
Proof using UO.
  intros R F. destruct (@unreadable_foreign U UO c t F) as (B & T & D & O & C & L). intros K.
  remember (c :: t) as s eqn:S. destruct R as [a s H|a w s d r ps Hw Hd _|a w s d r ps Hw Hd _|a w d r inner x ps Hw Hd _
                 |a w u r k ps Hw Hl _|a w s Hw Hs].
  - now apply B.
  - pose proof (T _ _ eq_refl Hw) as ->. exact (O d r Hd).
  - pose proof (T _ _ eq_refl Hw) as ->. exact (C d r Hd).
  - pose proof (T _ _ eq_refl Hw) as ->. exact (D d r _ _ eq_refl Hd).
  - pose proof (T _ _ eq_refl Hw) as ->. exact (L u r _ eq_refl Hl).
  - eapply K. now left.
Qed.
Lemma word_end_newer a r ps : @reads U a r ps -> clean ps -> @word_end U r -> @word_end V r.
Proof using UO VO.
  intros R K W c t ->. destruct (@is_xid_continue V c) eqn:C; [|reflexivity]. exfalso.
  apply (foreign_first a c t ps R); [|exact K]. apply novel; [exact C|now apply (W c t)].
Qed.
Lemma no_word_newer a r ps : @reads U a r ps -> clean ps -> @no_word U r -> @no_word V r.
Proof using UO VO NW.
  intros R K W c t -> C. apply (foreign_first a c t ps R); [|exact K]. apply novel_start; [exact C|now apply (W c t)].
Qed.
(** After a word that is read next. *)
Lemma word_next a t r k ps : @reads U a (t ++ r) ps -> clean ps -> @lexeme U t r k ->
  (exists y z, t = y :: z /\ @is_xid_continue U y = true) -> exists a' ps', @reads U a' r ps' /\ clean ps'.
Proof using UO.
  intros R K L (y & z & -> & Y).
  assert (NB : ~ blank y).
  { intros [B|[->| ->]]; [apply (xid_not_space U UO) in B; congruence|..]; pose proof (xid_not_marks U UO); intuition congruence. }
  assert (NA : forall x, In x (tag "/()[]{}") -> y <> x).
  { intros x I ->. cbn in I. rewrite (xid_continue_ascii U UO) in Y; decompose [or] I; subst; try contradiction; try discriminate Y; reflexivity. }
  assert (T : forall w s, w ++ s = (y :: z) ++ r -> trivia w -> w = []).
  { intros w s E W. destruct (trivia_head w W) as [->|(x & q & -> & H)]; [reflexivity|]. exfalso. injection E as -> _.
    destruct H as [H|H]; [now apply NB|]. revert H. apply NA. cbn. tauto. }
  remember ((y :: z) ++ r) as s eqn:S.
  destruct R as [a s H|a w s d r' ps Hw Hd _|a w s d r' ps Hw Hd _|a w d r' inner x ps Hw Hd _|a w u r' k' ps Hw Hl R|a w s Hw Hs].
  - exfalso. destruct H as [w W|w x W P].
    + pose proof (T w [] ltac:(now rewrite app_nil_r) W) as ->. discriminate S.
    + pose proof (T w _ eq_refl W) as ->. injection S as S _. symmetry in S. revert S. apply NA. cbn. tauto.
  - exfalso. pose proof (T _ _ eq_refl Hw) as ->. cbn [app] in S. destruct Hd as (D & E & _). rewrite S in E. cbn in D.
    destruct D as [<-|[<-|[<-|[]]]]; injection E as E _; revert E; apply NA; cbn; tauto.
  - exfalso. pose proof (T _ _ eq_refl Hw) as ->. cbn [app] in S. destruct Hd as (D & E). rewrite S in E. cbn in D.
    destruct D as [<-|[<-|[<-|[]]]]; injection E as E _; revert E; apply NA; cbn; tauto.
  - exfalso. pose proof (T _ _ eq_refl Hw) as ->. cbn [app] in S. assert (exists q, d = "/"%ch :: q) as (q & ->).
    { destruct Hd as [d r0 inner x [|] _ _|d r0 inner x [|] _ _|d r0 inner x [|] _]; eexists; reflexivity. }
    injection S as E _. symmetry in E. revert E. apply NA. cbn. tauto.
  - pose proof (T _ _ eq_refl Hw) as ->. cbn [app] in S.
    assert (P := proj2 (@p_leaf_iff U UO (u ++ r') r' k') (ex_intro _ u (conj eq_refl Hl))).
    assert (Q := proj2 (@p_leaf_iff U UO ((y :: z) ++ r) r k) (ex_intro _ (y :: z) (conj eq_refl L))).
    rewrite S in P. cbn [app] in P, Q. rewrite P in Q. injection Q as <- _. eexists _, ps. split; [exact R|].
    intros p I. apply (K p). now right.
  - exfalso. eapply K. now left.
Qed.

(** ** Numbers *)
Lemma cut_word t r : @word_end U r -> exists t1 t2, t = t1 ++ t2 /\ Forall (fun c => @is_xid_continue U c = true) t1 /\ @word_end U (t2 ++ r).
Proof using.
  intros W. induction t as [|c t IH]; [exists [], []; repeat split; [constructor|exact W]|].
  destruct (@is_xid_continue U c) eqn:C.
  - destruct IH as (t1 & t2 & -> & F & E). exists (c :: t1), t2. repeat split; auto.
  - exists [], (c :: t). repeat split; [constructor|]. intros x y E. injection E as <- _. exact C.
Qed.
Lemma cut_suffix s r : @number_suffix V s -> @word_end V r ->
  exists s1 s2, s = s1 ++ s2 /\ @number_suffix U s1 /\ @word_end U (s2 ++ r).
Proof using UO NW.
  intros S W. apply word_end_older in W. destruct S as [->|[(c & t & -> & C & T) N]].
  { exists [], []. repeat split; [now left|exact W]. }
  destruct C as [->|C]; [exfalso; apply N; now exists t|].
  destruct (@is_xid_continue U c) eqn:E.
  - pose proof (newer_kept U V NW c E C) as C'. destruct (cut_word t r W) as (t1 & t2 & -> & F & X).
    exists (c :: t1), t2. split; [reflexivity|]. split; [|exact X]. right. split.
    + exists c, t1. repeat split; [now right|exact F].
    + intros (q & Q). apply N. injection Q as -> _. eexists. reflexivity.
  - exists [], (c :: t). split; [reflexivity|]. split; [now left|]. intros x y Q. injection Q as <- _. exact E.
Qed.
Lemma float_older t r : @float_at V t r -> exists t' r', @float_at U t' r' /\ t ++ r = t' ++ r'.
Proof using UO NW.
  intros [d r' D W B|d f s r' D F S W N|d f m e s r' D F M E S W].
  - exists (d ++ tag "."), r'. split; [|reflexivity]. constructor; auto. now apply word_end_older.
  - destruct (cut_suffix s r' S W) as (s1 & s2 & -> & S1 & W1). exists (d ++ tag "." ++ f ++ s1), (s2 ++ r'). split.
    + apply float_fraction; auto. intros m x M ->. rewrite app_assoc. apply (N m (x ++ s2) M). now rewrite <- app_assoc.
    + now rewrite <- !app_assoc.
  - destruct (cut_suffix s r' S W) as (s1 & s2 & -> & S1 & W1). exists (d ++ f ++ m ++ e ++ s1), (s2 ++ r'). split.
    + apply float_exponent; auto.
    + now rewrite <- !app_assoc.
Qed.
Lemma float_newer t r : @float_at U t r -> @word_end V r -> @float_at V t r.
Proof using NW.
  intros [d r' D W B|d f s r' D F S W N|d f m e s r' D F M E S W] H.
  - now constructor.
  - apply float_fraction; auto using suffix_newer.
  - apply float_exponent; auto using suffix_newer.
Qed.
Lemma float_end t r : @float_at U t r -> @word_end U r.
Proof using. now intros []. Qed.
Lemma int_newer t r : @int_at U t r -> @word_end V r -> @int_at V t r.
Proof using NW.
  intros [d s r' D S W N|p b ds s r' R D E S N W] H.
  - apply int_decimal; eauto using suffix_newer.
  - eapply int_radix; eauto using suffix_newer.
Qed.
Lemma int_end t r : @int_at U t r -> @word_end U r.
Proof using. now intros []. Qed.

Lemma literal_newer t r : (@word_end U r -> @word_end V r) -> (@no_word U r -> @no_word V r) ->
  @literal_at U t r -> @literal_at V t r.
Proof using UO VO NW.
  intros HW HN H. destruct H as [q r Q N|q s r Q S W|t r F|t r I N].
  - apply literal_quoted; auto.
  - apply literal_suffixed; auto using ident_newer.
  - apply literal_float. apply float_newer; [exact F|]. apply HW. now apply float_end in F.
  - apply literal_int.
    + apply int_newer; [exact I|]. apply HW. now apply int_end in I.
    + intros x y E H. destruct (float_older x y H) as (x' & y' & H' & E'). apply (N x' y'); [congruence|exact H'].
Qed.

(** ** Lexemes *)
Lemma plain_word s c u : @ident_text U s -> @begins_nothing U c -> @lexeme U s (c :: u) (TIdent s false).
Proof using UO.
  intros I F. constructor. constructor; [exact I|intros x y E; injection E as <- _; apply F|].
  pose proof (not_punct c (nothing_apart c F) SQUOTE ltac:(cbn; tauto)) as N1. pose proof (not_punct c (nothing_apart c F) "#"%ch ltac:(cbn; tauto)) as N2.
  destruct F as (_ & _ & _ & _ & N3). intros [[_ [z Z]]|[[_ [z Z]]|[_ [z Z]]]]; injection Z as Z _; congruence.
Qed.
Lemma ident_first s : @ident_text U s -> exists y z, s = y :: z /\ @is_xid_continue U y = true.
Proof using UO. intros (y & z & -> & Y & _). exists y, z. split; [reflexivity|]. now apply (start_continue UO). Qed.
Lemma lexeme_newer a t r k ps : @lexeme U t r k -> @reads U a r ps -> clean ps -> @lexeme V t r k.
Proof using UO VO NW.
  intros L R K. pose proof (word_end_newer a r ps R K) as HW. pose proof (no_word_newer a r ps R K) as HN.
  destruct L as [t r H|c r sg H|t r s raw H|r].
  - constructor. now apply literal_newer.
  - constructor. destruct H as [c r P Q N1 N2 S|c r P Q N1 N2 S|s after I W A1 A2|s after I N W A1].
    + now apply punct_joint.
    + now apply punct_alone.
    + apply punct_lifetime; auto using ident_newer. intros c u ->. destruct (@is_xid_continue V c) eqn:C; [|reflexivity]. exfalso.
      pose proof (novel c C (W c u eq_refl)) as F.
      destruct (word_next a s (c :: u) _ ps R K (plain_word s c u I F) (ident_first s I)) as (a' & ps' & R' & K').
      exact (foreign_first a' c u ps' R' F K').
    + apply punct_raw_lifetime; auto using ident_newer. intros c u ->. destruct (@is_xid_continue V c) eqn:C; [|reflexivity]. exfalso.
      pose proof (novel c C (W c u eq_refl)) as F. rewrite app_assoc in R.
      destruct (word_next a (tag "r#" ++ s) (c :: u) (TIdent s true) ps R K) as (a' & ps' & R' & K').
      * constructor. now constructor.
      * eexists _, _. split; [reflexivity|]. now rewrite (xid_continue_ascii U UO).
      * exact (foreign_first a' c u ps' R' F K').
  - constructor. destruct H as [s r I W N|s r I N W]; constructor; auto using ident_newer.
  - apply lexeme_error.
Qed.
Lemma lexeme_leaf {W : unicode} t r k : @lexeme W t r k -> forall sp, is_leaf (k sp).
Proof using. intros []; intros; exact I. Qed.

(** ** Texts *)
Inductive alike : list piece -> list piece -> Prop :=
| alike_nil : alike [] []
| alike_open d p ps ps' : alike ps ps' -> alike (POpen d p :: ps) (POpen d p :: ps')
| alike_close d p ps ps' : alike ps ps' -> alike (PClose d p :: ps) (PClose d p :: ps')
| alike_tok t ps ps' : is_leaf t -> alike ps ps' -> alike (PTok [t] :: ps) (PTok [t] :: ps')
| alike_doc inner x sp ps ps' : valid_str x -> alike ps ps' ->
    alike (PTok (doc_attribute inner (@literal_string U x) sp) :: ps) (PTok (doc_attribute inner (@literal_string V x) sp) :: ps').
Lemma doc_valid d r inner x : doc_at d r inner x -> valid_str d -> valid_str x.
Proof using.
  unfold valid_str. intros H. destruct H as [d r inner x L _ _|d r inner x L _ _|d r inner x L _]; intros F.
  - destruct L; now apply Forall_app in F as [_ F].
  - apply Forall_app in F as [F _]. destruct L; now apply Forall_app in F as [_ F].
  - destruct L; apply Forall_app in F as [_ F]; now apply Forall_app in F as [F _].
Qed.
Lemma reads_newer a s ps : @reads U a s ps -> clean ps -> valid_str s -> exists ps', @reads V a s ps' /\ alike ps ps'.
Proof using UO VO NW.
  induction 1 as [a s B|a w s d r ps Hw Hd H IH|a w s d r ps Hw Hd H IH|a w d r inner x ps Hw Hd H IH
                 |a w t r k ps Hw Hl H IH|a w s Hw Hs]; intros K F.
  - exists []. split; [now constructor|constructor].
  - destruct IH as (ps' & R & A); [intros p I; apply (K p); now right| |].
    { destruct Hd as (_ & -> & _). apply Forall_app in F as [_ F]. now apply Forall_app in F as [_ F]. }
    eexists. split; [eapply reads_open; eassumption|now constructor].
  - destruct IH as (ps' & R & A); [intros p I; apply (K p); now right| |].
    { destruct Hd as (_ & ->). apply Forall_app in F as [_ F]. now apply Forall_app in F as [_ F]. }
    eexists. split; [eapply reads_close; eassumption|now constructor].
  - apply Forall_app in F as [_ F]. apply Forall_app in F as [F1 F].
    destruct IH as (ps' & R & A); [intros p I; apply (K p); now right|exact F|].
    eexists. split; [eapply reads_doc; eassumption|]. constructor; [now apply (doc_valid d r inner)|exact A].
  - apply Forall_app in F as [_ F]. apply Forall_app in F as [F1 F].
    assert (K' : clean ps) by (intros p I; apply (K p); now right).
    destruct IH as (ps' & R & A); [exact K'|exact F|].
    eexists. split; [eapply reads_leaf; [exact Hw| |exact R]; now apply (lexeme_newer _ t r k ps Hl H)|].
    constructor; [now apply (@lexeme_leaf U t r)|exact A].
  - exfalso. eapply K. now left.
Qed.
Lemma tree_clean ps ts : tree ps ts -> clean ps.
Proof using.
  induction 1 as [|k ps ts T IH|d a b ps1 inner ps2 ts T1 IH1 T2 IH2]; intros p I; [destruct I|..].
  - destruct I as [I|I]; [discriminate|exact (IH p I)].
  - destruct I as [I|I]; [discriminate|]. apply in_app_or in I as [I|[I|I]]; [exact (IH1 p I)|discriminate|exact (IH2 p I)].
Qed.
Lemma alike_app a b qs : alike (a ++ b) qs -> exists a' b', qs = a' ++ b' /\ alike a a' /\ alike b b'.
Proof using.
  revert qs. induction a as [|x a IH]; intros qs H; [exists [], qs; repeat split; [constructor|exact H]|].
  cbn [app] in H. inversion H as [|d p ps ps' A|d p ps ps' A|t ps ps' L A|inner y sp ps ps' Y A]; subst;
    destruct (IH _ A) as (a' & b' & -> & A1 & A2); (eexists (_ :: a'), b'; split; [reflexivity|]; split; [now constructor|exact A2]).
Qed.
Lemma tree_alike ps ts : tree ps ts -> forall qs, alike ps qs -> exists ts', tree qs ts' /\ respelled ts ts' /\
  (same_printing U V -> ts = ts').
Proof using.
  induction 1 as [|k ps ts T IH|d a b ps1 inner ps2 ts T1 IH1 T2 IH2]; intros qs H.
  - inversion H; subst. exists []. repeat split; constructor.
  - inversion H as [| | |t ps' qs' L A|inner x sp ps' qs' Y A]; subst; destruct (IH _ A) as (ts' & T' & S & E).
    + exists ([t] ++ ts'). split; [now constructor|]. split; [now constructor|]. intros P. now rewrite (E P).
    + eexists (_ ++ ts'). split; [now constructor|]. split.
      * apply re_doc with (v := x); [now apply LitNewFacts.literal_string_denotes..|exact S].
      * intros P. rewrite (E P). do 2 f_equal. unfold literal_string. do 2 f_equal.
        clear -P. induction x as [|c x IH]; [reflexivity|]. cbn [escape_utf8]. rewrite IH. f_equal.
        assert (Q : @escape_debug U c = @escape_debug V c) by (unfold escape_debug; destruct (P c) as [-> ->]; reflexivity).
        destruct x; now rewrite Q.
  - inversion H as [|d0 p0 ps0 qs' A| | |]; subst. apply alike_app in A as (q1 & q2 & -> & A1 & A2).
    inversion A2 as [| |d0 p0 ps0 qs' A| |]; subst.
    destruct (IH1 _ A1) as (i' & I1 & I2 & I3). destruct (IH2 _ A) as (ts' & J1 & J2 & J3). eexists. split; [apply tree_group; eassumption|].
    split; [now constructor|]. intros P. now rewrite (I3 P), (J3 P).
Qed.
Theorem parse_newer start src ts : start + strlen src < two32 -> valid_str src ->
  @token_stream_from_str U start src = Ok (Lexed ts) ->
  exists ts', @token_stream_from_str V start src = Ok (Lexed ts') /\ respelled ts ts' /\ (same_printing U V -> ts = ts').
Proof using UO VO NW.
  intros room Hv H. apply (@parse_reads U UO src start room) in H as (ps & (a & s & B & R) & T).
  assert (Hs : valid_str s) by (destruct B; [now inversion Hv|exact Hv]).
  destruct (reads_newer a s ps R (tree_clean _ _ T) Hs) as (ps' & R' & A).
  destruct (tree_alike ps ts T ps' A) as (ts' & T' & X). exists ts'. split; [|exact X].
  apply (@parse_reads V VO src start room). exists ps'. split; [now exists a, s|exact T'].
Qed.
Theorem literal_from_newer start src repr sp : start + strlen src < two32 ->
  @literal_from_str U start src = Ok (LitOk repr sp) -> @literal_from_str V start src = Ok (LitOk repr sp).
Proof using UO VO NW.
  intros room H. apply (@literal_grammar U UO start src repr sp room) in H. apply (@literal_grammar V VO start src repr sp room).
  destruct H as (-> & -> & H). split; [reflexivity|]. split; [reflexivity|].
  assert (W : @word_end V []) by (intros c t E; discriminate E). assert (N : @no_word V []) by (intros c t E; discriminate E).
  destruct H as [H|(d & u & -> & D & H)]; [left; now apply literal_newer|right].
  exists d, u. split; [reflexivity|]. split; [exact D|]. now apply literal_newer.
Qed.
Theorem ident_new_newer s sp t : (@ident_new U s sp = Ok t -> @ident_new V s sp = Ok t) /\ (@ident_new_raw U s sp = Ok t -> @ident_new_raw V s sp = Ok t).
Proof using UO VO NW.
  split; intros H.
  - unfold ident_new in *. destruct (@validate_ident U s) eqn:E; [|discriminate]. apply (@validate_ident_spec U UO) in E.
    apply ident_newer in E. apply (@validate_ident_spec V VO) in E. now rewrite E.
  - unfold ident_new_raw in *. destruct (@validate_ident_raw U s) eqn:E; [|discriminate]. apply (@validate_raw_spec U UO) in E as [E N].
    apply ident_newer in E. assert (X := proj2 (@validate_raw_spec V VO s) (conj E N)). now rewrite X.
Qed.
End Tables.

(** ** Two tables newer than the sample *)
Definition with_hebrew : unicode := {|
  is_xid_start c := @is_xid_start sample_unicode c || between 0x5D0 c 0x5EA;
  is_xid_continue c := @is_xid_continue sample_unicode c || between 0x5D0 c 0x5EA || (c =? 0xB7);
  is_grapheme_extended := @is_grapheme_extended sample_unicode;
  is_printable c := between 0x20 c 0x7E || between 0xA1 c 0x2600
|}.
Lemma with_hebrew_ok : unicode_ok with_hebrew /\ newer sample_unicode with_hebrew.
Proof.
  split; split; cbn; unfold ascii_letter, is_dec_digit, is_white_space, between; intros; try lia.
Qed.
(** Accents become letters. *)
Definition with_accents : unicode := {|
  is_xid_start c := @is_xid_start sample_unicode c || between 0x300 c 0x36F;
  is_xid_continue := @is_xid_continue sample_unicode;
  is_grapheme_extended := @is_grapheme_extended sample_unicode;
  is_printable := @is_printable sample_unicode
|}.
Lemma with_accents_ok : unicode_ok with_accents /\ (forall c, @is_xid_start sample_unicode c = true -> @is_xid_start with_accents c = true).
Proof.
  split; [split|]; cbn; unfold ascii_letter, is_dec_digit, is_white_space, between; intros; try lia.
Qed.

(** ** The blank characters *)
Lemma blank_chars U : unicode_ok U -> forall start c, start < two32 -> @token_stream_from_str U start [c] = Ok (Lexed []) <-> c = 0xFEFF \/ In c blanks.
Proof.
  intros UO start c B. assert (BL : blank c <-> In c blanks) by (unfold blank, blanks, is_white_space, between; cbn [In]; lia).
  rewrite (blank_source UO) by exact B. rewrite <- BL. clear BL. split.
  - intros (a & t & WB & T). remember [c] as s eqn:E. destruct WB as [t|t _]; [injection E as ->; now left|]. right. subst t.
    assert (TR : forall w, trivia w -> w = [c] -> blank c).
    { intros w [|d v D _|x v _ _|b v P _] E; try discriminate E; [injection E as -> _; exact D|].
      destruct P as [(v' & -> & V) _]. destruct V; discriminate E. }
    remember [c] as s eqn:E. destruct T as [w T|w x T _]; [now apply TR with w|]. destruct w as [|f [|g w]]; discriminate E.
  - intros [->|K].
    + exists (start + 1), []. split; constructor. constructor.
    + exists start, [c]. split; [constructor; intros v V; injection V as -> _; destruct K as [K|[K|K]]; discriminate K|].
      constructor. constructor; [exact K|constructor].
Qed.
