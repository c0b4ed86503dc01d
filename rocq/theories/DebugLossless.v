(** * [Debug] texts determine the trees. *)
From Verif Require Import Base BaseFacts Unicode Tokens Lexer PureLexer Stable Fallback LitNew NumFacts MapClaims.
From Verif Require Import SpecText SpecTree SpecLit SpecPrint SpecGrammar ReferenceProofs SpecDebug Debug DebugProofs.
From Verif Require Import LexerEquiv4 NumGrammar Roundtrip PrintProofs.
Local Open Scope list_scope.

(** ** Reading a text up to a character *)
Lemma split_until (P : N -> Prop) x y c d r s : Forall P x -> Forall P y -> ~ P c -> ~ P d ->
  x ++ c :: r = y ++ d :: s -> x = y /\ c :: r = d :: s.
Proof.
  intros Fx. revert y. induction Fx as [|a x Pa _ IH]; intros y Fy C D E; destruct Fy as [|b y Pb Fy]; cbn in E.
  - now split.
  - injection E as -> _. contradiction.
  - injection E as <- _. contradiction.
  - injection E as <- E. destruct (IH y Fy C D E) as [-> ?]. now split.
Qed.
Lemma prefix_avoiding (x e : str) c r y : ~ In c e -> x ++ c :: r = e ++ y -> exists z, x = e ++ z /\ y = z ++ c :: r.
Proof.
  revert x. induction e as [|a e IH]; intros x N E; cbn in E.
  - exists x. now split.
  - destruct x as [|b x]; cbn in E; injection E as -> E.
    + exfalso. apply N. now left.
    + destruct (IH x) as (z & -> & ->); [intros I; apply N; now right|exact E|]. now exists z.
Qed.

(** ** Undoing the indentation *)
Fixpoint closed (b : bool) (s : str) : Prop :=
  match s with [] => b = true | c :: s => closed (c =? LF)%N s end.
Lemma closed_app b x y : closed b x -> closed true y -> closed b (x ++ y).
Proof. revert b. induction x as [|c x IH]; cbn; intros b H C; [now subst|]. now apply IH. Qed.
Lemma closed_line b x : closed b (x ++ [LF]).
Proof. revert b. induction x as [|c x IH]; intros b; [reflexivity|]. cbn. apply IH. Qed.
Lemma indent_app b x y : closed b x -> indent b (x ++ y) = indent b x ++ indent true y.
Proof.
  revert b. induction x as [|c x IH]; intros b H; [now cbn in H; subst|]. cbn in *. rewrite IH by exact H.
  now rewrite <- app_assoc.
Qed.
Lemma indent_decode x : forall b y c d r s, closed b x -> closed b y -> c <> SPACE -> d <> SPACE ->
  indent b x ++ c :: r = indent b y ++ d :: s -> x = y /\ c :: r = d :: s.
Proof.
  induction x as [|a x IH]; intros b y c d r s Cx Cy C D E; destruct y as [|a' y].
  - now split.
  - cbn in Cx. subst b. cbn in E. injection E as -> _. congruence.
  - cbn in Cy. subst b. cbn in E. injection E as <- _. congruence.
  - cbn [indent] in E. rewrite <- !app_assoc in E. apply app_inv_head in E. cbn in E. injection E as <- E.
    cbn in Cx, Cy. destruct (IH _ _ _ _ _ _ Cx Cy C D E) as [-> ?]. now split.
Qed.

(** ** Structures *)
Definition field_text (f : str * str) : str := fst f ++ tag ": " ++ snd f ++ tag "," ++ [LF].
Lemma closed_field f : closed true (field_text f).
Proof. unfold field_text. rewrite !app_assoc. apply closed_line. Qed.
Lemma closed_fields fs : closed true (flat_map field_text fs).
Proof. induction fs as [|f fs IH]; [reflexivity|]. cbn [flat_map]. apply closed_app; [apply closed_field|exact IH]. Qed.
Lemma struct_fields_body fs : struct_fields true true fs = indent true (flat_map field_text fs) ++ tag "}".
Proof.
  induction fs as [|[n v] fs IH]; [reflexivity|]. cbn [struct_fields flat_map]. rewrite IH, (indent_app true (field_text (n, v))) by apply closed_field.
  rewrite <- (app_assoc (indent true (field_text (n, v)))). reflexivity.
Qed.
Lemma struct_body name f fs :
  debug_struct true name (f :: fs) = name ++ tag " {" ++ [LF] ++ indent true (flat_map field_text (f :: fs)) ++ tag "}".
Proof.
  rewrite <- struct_fields_body. unfold debug_struct. destruct f as [n v]. reflexivity.
Qed.
Definition entry_text (v : str) : str := v ++ tag "," ++ [LF].
Lemma closed_entries vs : closed true (flat_map entry_text vs).
Proof.
  induction vs as [|v vs IH]; [reflexivity|]. cbn [flat_map]. apply closed_app; [|exact IH].
  unfold entry_text. rewrite app_assoc. apply closed_line.
Qed.
Lemma list_entries_body vs : list_entries true true vs = indent true (flat_map entry_text vs).
Proof.
  induction vs as [|v vs IH]; [reflexivity|]. cbn [list_entries flat_map]. rewrite IH, (indent_app true (entry_text v)); [reflexivity|].
  unfold entry_text. rewrite app_assoc. apply closed_line.
Qed.
Lemma list_body v vs : debug_list true (v :: vs) = tag "[" ++ [LF] ++ indent true (flat_map entry_text (v :: vs)) ++ tag "]".
Proof. rewrite <- list_entries_body. reflexivity. Qed.

(** ** Spans *)
Lemma digits_chars n : Forall (fun c => 48 <= c <= 57)%N (dec_digits n).
Proof. exact (proj2 (decimal_digit_chars _ _ (proj1 (dec_digits_canonical n)))). Qed.
Lemma span_decode sp sp' r s : span_debug true sp ++ r = span_debug true sp' ++ s -> sp = sp' /\ r = s.
Proof.
  unfold span_debug. rewrite <- !app_assoc. intros E. apply app_inv_head in E.
  apply (split_until (fun c => 48 <= c <= 57)%N) in E as [A E]; try apply digits_chars; try lia.
  cbn [app] in E. injection E as E.
  apply (split_until (fun c => 48 <= c <= 57)%N) in E as [B E]; try apply digits_chars; try lia.
  cbn [app] in E. injection E as E. split; [|exact E]. destruct sp, sp'. cbn in *.
  apply dec_digits_inj in A, B. now subst.
Qed.
Definition place (sp : span) : str :=
  match span_field true sp with [] => [] | (n, v) :: _ => tag ", " ++ n ++ tag ": " ++ v end.
Lemma place_cases sp : sp = call_site /\ span_field true sp = [] \/
  sp <> call_site /\ span_field true sp = [(tag "span", span_debug true sp)].
Proof.
  unfold span_field. cbn [andb]. destruct (_ && _)%N eqn:E; cbn [negb].
  - left. split; [now apply is_call_site_iff|reflexivity].
  - right. split; [|reflexivity]. intros ->. discriminate E.
Qed.
Lemma place_decode sp sp' r s : place sp ++ tag " }" ++ r = place sp' ++ tag " }" ++ s -> sp = sp' /\ r = s.
Proof.
  unfold place. destruct (place_cases sp) as [[-> ->]|[N ->]], (place_cases sp') as [[-> ->]|[N' ->]]; intros E.
  - split; [reflexivity|]. now injection E as E.
  - discriminate E.
  - discriminate E.
  - rewrite <- !app_assoc in E. do 3 apply app_inv_head in E. apply span_decode in E as [-> E].
    split; [reflexivity|]. now injection E as E.
Qed.
Lemma place_start sp r : exists c t, place sp ++ tag " }" ++ r = c :: t /\ (c = ","%ch \/ c = SPACE).
Proof.
  unfold place. destruct (place_cases sp) as [[-> ->]|[N ->]]; cbn; eauto.
Qed.
Lemma place_lines sp sp' : flat_map field_text (span_field true sp) = flat_map field_text (span_field true sp') -> sp = sp'.
Proof.
  destruct (place_cases sp) as [[-> ->]|[N ->]], (place_cases sp') as [[-> ->]|[N' ->]]; intros E;
    try reflexivity; try discriminate E.
  unfold field_text in E. cbn [flat_map fst snd] in E. rewrite !app_nil_r in E. do 2 apply app_inv_head in E.
  now apply span_decode in E as [-> _].
Qed.

Section WithUnicode.
Context {U : unicode} (UO : unicode_ok U).

(** ** Literals before a separator *)
Definition separator (c : char) : Prop := c = ","%ch \/ c = SPACE.
Lemma separator_not_word c : separator c -> is_xid_continue c = false /\ ~ start_char c.
Proof using UO.
  intros S. assert (C : is_xid_continue c = false).
  { destruct S as [->| ->]; rewrite (xid_continue_ascii U UO) by reflexivity; reflexivity. }
  split; [exact C|]. intros [->|X]; [destruct S; discriminate|]. apply (xid_start_continue U UO) in X. congruence.
Qed.
Lemma separator_word_end c r : separator c -> word_end (c :: r).
Proof using UO. intros S c' t [= <- <-]. now apply separator_not_word. Qed.
Lemma ident_no_separator s c : separator c -> ident_text s -> ~ In c s.
Proof using UO.
  intros S (a & t & -> & H & F) [->|I].
  - now apply separator_not_word in H.
  - pose proof (proj1 (Forall_forall _ _) F c I) as X. cbn in X. rewrite (proj1 (separator_not_word c S)) in X. discriminate.
Qed.

Lemma dec_text_no_separator d c : separator c -> dec_text d -> ~ In c d.
Proof.
  intros S (a & t & -> & H & F) [->|I].
  - unfold dec_digit in H. destruct S as [->| ->]; lia.
  - pose proof (proj1 (Forall_forall _ _) F c I) as X. unfold digit_or_underscore, dec_digit in X.
    destruct S as [->| ->]; destruct X as [X|X]; try discriminate X; lia.
Qed.
Lemma underscores_no_separator u c : separator c -> Forall (fun c => c = "_"%ch) u -> ~ In c u.
Proof.
  intros S F I. pose proof (proj1 (Forall_forall _ _) F c I) as X. cbn in X. subst. destruct S; discriminate.
Qed.
Lemma exponent_no_separator e c : separator c -> exponent_text e -> ~ In c e.
Proof.
  intros S (u & sign & u' & ds & -> & Hu & Hs & Hu' & Hd) I. rewrite !in_app_iff in I.
  destruct I as [I|[I|[I|I]]].
  - now apply (underscores_no_separator u c).
  - destruct Hs as [->|[->| ->]]; [destruct I| |]; destruct I as [I|[]]; subst c; destruct S; discriminate.
  - now apply (underscores_no_separator u' c).
  - now apply (dec_text_no_separator ds c).
Qed.
Lemma suffix_no_separator s c : separator c -> number_suffix s -> ~ In c s.
Proof using UO. intros S [->|[H _]]; [intros []|now apply ident_no_separator]. Qed.
Lemma letter_no_separator m c : separator c -> exponent_letter m -> ~ In c m.
Proof. intros S [->| ->] [I|[]]; subst c; destruct S; discriminate. Qed.
Lemma float_no_separator t r c : separator c -> float_at t r -> ~ In c t.
Proof using UO.
  intros S H. assert (P : ~ In c (tag ".")) by (intros [I|[]]; subst c; destruct S; discriminate).
  destruct H as [d r Hd W N|d f s r Hd Hf Hs W X|d f m e s r Hd Hf Hm He Hs W];
    pose proof (dec_text_no_separator d c S Hd) as Nd; rewrite !in_app_iff.
  - tauto.
  - pose proof (dec_text_no_separator f c S Hf). pose proof (suffix_no_separator s c S Hs). tauto.
  - pose proof (letter_no_separator m c S Hm). pose proof (exponent_no_separator e c S He).
    pose proof (suffix_no_separator s c S Hs).
    assert (~ In c f).
    { destruct Hf as [->|(f' & -> & Hf)]; [intros []|]. rewrite in_app_iff. pose proof (dec_text_no_separator f' c S Hf). tauto. }
    tauto.
Qed.
Lemma word_end_app z x : word_end (z ++ x) -> word_end z.
Proof. intros H c t ->. apply (H c (t ++ x)). reflexivity. Qed.
Lemma float_weaken t z x : float_at t (z ++ x) -> float_at t z.
Proof.
  intros H. remember (z ++ x) as r eqn:E. destruct H as [d r Hd W N|d f s r Hd Hf Hs W X|d f m e s r Hd Hf Hm He Hs W]; subst r.
  - apply float_point; [exact Hd|now apply word_end_app in W|]. intros [w ->]. apply N. now exists (w ++ x).
  - apply float_fraction; [exact Hd|exact Hf|exact Hs|now apply word_end_app in W|].
    intros m y Hm Es (e & w & Ee & He). apply (X m y Hm Es). exists e, (w ++ x). split; [|exact He].
    rewrite app_assoc, Ee. now rewrite <- app_assoc.
  - apply float_exponent; auto. now apply word_end_app in W.
Qed.
Lemma float_before t c r : separator c -> float_at t [] -> float_at t (c :: r).
Proof using UO.
  intros S H. pose proof (separator_word_end c r S) as W'. remember [] as n eqn:E.
  destruct H as [d n Hd W N|d f s n Hd Hf Hs W X|d f m e s n Hd Hf Hm He Hs W]; subst n.
  - apply float_point; [exact Hd|exact W'|]. intros [w [= -> _]]. destruct S; discriminate.
  - apply float_fraction; [exact Hd|exact Hf|exact Hs|exact W'|].
    intros m y Hm Es (e & w & Ee & He). apply (X m y Hm Es).
    apply prefix_avoiding in Ee as (z & -> & _); [|now apply exponent_no_separator].
    exists e, z. now rewrite app_nil_r.
  - now apply float_exponent.
Qed.
Lemma literal_before t c r : separator c -> literal_at t [] -> literal_at t (c :: r).
Proof using UO.
  intros S H. pose proof (separator_word_end c r S) as W'. remember [] as n eqn:E.
  destruct H as [q n Q N|q s n Q I W|t n F|t n I X]; subst n.
  - apply literal_quoted; [exact Q|]. intros c' t [= <- _]. now apply separator_not_word.
  - now apply literal_suffixed.
  - now apply literal_float, float_before.
  - apply literal_int.
    + remember [] as n eqn:E. destruct I as [d s n Hd Hs W R|p b ds s n Hp F Ex Hs Hn W]; subst n.
      * now apply int_decimal.
      * now apply (int_radix p b).
    + intros t' r' Et F. pose proof (float_no_separator _ _ c S F) as Nc.
      apply prefix_avoiding in Et as (z & -> & ->); [|exact Nc].
      apply (X t' z); [now rewrite app_nil_r|]. now apply float_weaken in F.
Qed.
Lemma literal_decode t t' c c' r r' : literal_made t -> literal_made t' -> separator c -> separator c' ->
  t ++ c :: r = t' ++ c' :: r' -> t = t' /\ c :: r = c' :: r'.
Proof using UO.
  intros L L' S S' E.
  assert (X : forall t c r, literal_at t [] \/ t = error_text -> separator c -> lexeme t (c :: r) (TLiteral t)).
  { intros x d s [H| ->] Sd; [|apply lexeme_error]. apply lexeme_literal. now apply literal_before. }
  assert (Y : forall t x, literal_at t [] \/ t = error_text -> forall u, t <> "-"%ch :: u /\ t ++ x <> "-"%ch :: u).
  { intros x w [H| ->] u; [|split; discriminate]. apply (literal_compute UO) in H.
    apply p_literal_first in H as (a & v & -> & Ha). cbn. split; intros [= -> _]; destruct Ha as [Ha|Ha]; try discriminate Ha;
    repeat (destruct Ha as [Ha|Ha]; try discriminate Ha); discriminate Ha. }
  assert (Z : (literal_at t [] \/ t = error_text) \/ exists d u, t = "-"%ch :: d :: u /\ dec_digit d /\ literal_at (d :: u) [])
    by (destruct L as [?|[?|?]]; tauto).
  assert (Z' : (literal_at t' [] \/ t' = error_text) \/ exists d u, t' = "-"%ch :: d :: u /\ dec_digit d /\ literal_at (d :: u) [])
    by (destruct L' as [?|[?|?]]; tauto).
  destruct Z as [Z|(d & u & -> & _ & Z)], Z' as [Z'|(d' & u' & -> & _ & Z')].
  - destruct (lexeme_once UO _ _ _ _ _ _ (X t c r Z S) (X t' c' r' Z' S') E) as (-> & ? & _). now split.
  - exfalso. eapply (proj2 (Y t (c :: r) Z _)). rewrite E. reflexivity.
  - exfalso. eapply (proj2 (Y t' (c' :: r') Z' _)). rewrite <- E. reflexivity.
  - cbn [app] in E. injection E as E.
    destruct (lexeme_once UO _ _ _ _ _ _ (X (d :: u) c r (or_introl Z) S) (X (d' :: u') c' r' (or_introl Z') S')) as (Q & ? & _).
    { cbn. congruence. }
    rewrite Q. now split.
Qed.

(** ** The other leaves *)
Lemma raw_decode s r s' r' : ident_valid s r -> ident_valid s' r' ->
  ident_to_string s r = ident_to_string s' r' -> s = s' /\ r = r'.
Proof using UO.
  intros [(a & t & -> & Sa & Fa) _] [(b & w & -> & Sb & Fb) _]. unfold ident_to_string.
  assert (H : is_xid_continue "#"%ch = false) by (rewrite (xid_continue_ascii U UO) by reflexivity; reflexivity).
  destruct r, r'; cbn [app]; intros E.
  - injection E as -> ->. now split.
  - injection E as <- <-. pose proof (Forall_inv Fb) as X. cbn in X. congruence.
  - injection E as -> ->. pose proof (Forall_inv Fa) as X. cbn in X. congruence.
  - injection E as -> ->. now split.
Qed.
Lemma ident_decode s r s' r' c c' x x' : ident_valid s r -> ident_valid s' r' -> separator c -> separator c' ->
  ident_to_string s r ++ c :: x = ident_to_string s' r' ++ c' :: x' -> s = s' /\ r = r' /\ c :: x = c' :: x'.
Proof using UO.
  intros V V' S S' E. assert (N : forall c, separator c -> ~ (c = "#"%ch \/ is_xid_continue c = true)).
  { intros d D [->|X]; [destruct D; discriminate|]. rewrite (proj1 (separator_not_word d D)) in X. discriminate. }
  apply (split_until (fun c => c = "#"%ch \/ is_xid_continue c = true)) in E as [A B]; auto.
  - destruct (raw_decode _ _ _ _ V V' A) as [-> ->]. auto.
  - apply Forall_forall. intros d. now apply (ident_chars UO).
  - apply Forall_forall. intros d. now apply (ident_chars UO).
Qed.
Lemma char_decode c c' r r' : In c punct_chars -> In c' punct_chars -> char_debug c ++ r = char_debug c' ++ r' -> c = c' /\ r = r'.
Proof using UO.
  intros I I' E. pose proof (punct_range c I) as R. pose proof (punct_range c' I') as R'.
  destruct (char_debug_punct UO c I) as [[A B]|[A B]], (char_debug_punct UO c' I') as [[A' B']|[A' B']]; rewrite B, B' in E.
  - injection E as E. split; congruence.
  - exfalso. assert (X : c' = BACKSLASH) by (cbn in E; congruence). now apply R'.
  - exfalso. assert (X : c = BACKSLASH) by (cbn in E; congruence). now apply R.
  - cbn [app] in E. injection E as -> E. now split.
Qed.
Lemma delimiter_decode d d' r r' : delimiter_debug d ++ tag ", " ++ r = delimiter_debug d' ++ tag ", " ++ r' -> d = d' /\ r = r'.
Proof. destruct d, d'; cbn [delimiter_debug app]; intros E; try discriminate E; injection E as E; now split. Qed.
Lemma spacing_decode d d' r r' : spacing_debug d ++ r = spacing_debug d' ++ r' -> d = d' /\ r = r'.
Proof. destruct d, d'; cbn [spacing_debug app]; intros E; try discriminate E; injection E as E; now split. Qed.

(** ** On one line *)
Lemma one_struct name n v sp : debug_struct false name ([(n, v)] ++ span_field true sp)
  = name ++ tag " { " ++ n ++ tag ": " ++ v ++ place sp ++ tag " }".
Proof. exact (plain_struct name n v [] sp true eq_refl). Qed.
Definition one_line (t : token) : str := tree_debug true false t.
Definition decodes (t : token) : Prop := forall t' r r', made t -> made t' ->
  one_line t ++ r = one_line t' ++ r' -> t = t' /\ r = r'.
Lemma entries_decode ts : Forall decodes ts -> forall ts' r r', Forall made ts -> Forall made ts' ->
  list_entries false true (map one_line ts) ++ tag "]" ++ r = list_entries false true (map one_line ts') ++ tag "]" ++ r' ->
  ts = ts' /\ r = r'.
Proof.
  induction 1 as [|t ts D _ IH]; intros ts' r r' M M' E; destruct ts' as [|t' ts'].
  - split; [reflexivity|]. now injection E as E.
  - discriminate E.
  - discriminate E.
  - cbn [map list_entries] in E. rewrite <- !app_assoc in E. apply app_inv_head in E.
    apply D in E as [-> E]; [|exact (Forall_inv M)|exact (Forall_inv M')].
    apply IH in E as [-> E]; [|exact (Forall_inv_tail M)|exact (Forall_inv_tail M')]. now split.
Qed.
Lemma one_line_head t : exists c s, one_line t = c :: s /\ c <> "]"%ch.
Proof. destruct t; unfold one_line; cbn [tree_debug]; unfold debug_struct; eexists _, _; (split; [reflexivity|discriminate]). Qed.
Lemma list_decode ts ts' r r' : Forall decodes ts -> Forall made ts -> Forall made ts' ->
  debug_list false (map one_line ts) ++ r = debug_list false (map one_line ts') ++ r' -> ts = ts' /\ r = r'.
Proof.
  intros D M M' E. unfold debug_list in E. rewrite <- !app_assoc in E. apply app_inv_head in E.
  destruct ts as [|t ts], ts' as [|t' ts'].
  - split; [reflexivity|]. now injection E as E.
  - exfalso. destruct (one_line_head t') as (c & s & Q & N). cbn [map list_entries] in E. rewrite Q in E.
    injection E as E. congruence.
  - exfalso. destruct (one_line_head t) as (c & s & Q & N). cbn [map list_entries] in E. rewrite Q in E.
    injection E as E. congruence.
  - cbn [map list_entries] in E. rewrite <- !app_assoc in E. cbn [app] in E.
    apply (Forall_inv D) in E as [-> E]; [|exact (Forall_inv M)|exact (Forall_inv M')].
    apply entries_decode in E as [-> E]; [|exact (Forall_inv_tail D)|exact (Forall_inv_tail M)|exact (Forall_inv_tail M')].
    now split.
Qed.
Lemma tree_decode t : decodes t.
Proof using UO.
  induction t as [d ts sp IH|s w sp|c s sp|x sp] using token_nested_ind;
    intros [d' ts' sp'|s' w' sp'|c' s' sp'|x' sp'] r r' M M' E; try discriminate E;
    inversion M as [? ? ? A|? ? ? A|? ? ? A|? ? A]; inversion M' as [? ? ? A'|? ? ? A'|? ? ? A'|? ? A']; subst; clear M M';
    unfold one_line in E; cbn [tree_debug] in E.
  - rewrite !plain_struct2, <- !app_assoc in E. do 4 apply app_inv_head in E.
    apply (delimiter_decode d d') in E as [-> E]. do 3 apply app_inv_head in E.
    apply (list_decode ts ts') in E as [-> E]; auto.
    apply (place_decode sp sp') in E as [-> E]. now split.
  - rewrite !one_struct, <- !app_assoc in E. do 4 apply app_inv_head in E.
    destruct (place_start sp r) as (k & y & Y & S), (place_start sp' r') as (k' & y' & Y' & S').
    rewrite Y, Y' in E. apply ident_decode in E as (-> & -> & E); auto. rewrite <- Y, <- Y' in E.
    apply place_decode in E as [-> E]. now split.
  - rewrite !plain_struct2, <- !app_assoc in E. do 4 apply app_inv_head in E.
    apply char_decode in E as [-> E]; auto. do 3 apply app_inv_head in E.
    apply spacing_decode in E as [-> E].
    apply (place_decode sp sp') in E as [-> E]. now split.
  - rewrite !one_struct, <- !app_assoc in E. do 4 apply app_inv_head in E.
    destruct (place_start sp r) as (k & y & Y & S), (place_start sp' r') as (k' & y' & Y' & S').
    rewrite Y, Y' in E. apply literal_decode in E as (-> & E); auto. rewrite <- Y, <- Y' in E.
    apply place_decode in E as [-> E]. now split.
Qed.

(** ** On several lines *)
Definition lines (t : token) : str := tree_debug true true t.
Definition decodes_lines (t : token) : Prop := forall t' r r', made t -> made t' ->
  lines t ++ r = lines t' ++ r' -> t = t' /\ r = r'.
Lemma entry_lines_decode ts : Forall decodes_lines ts -> forall ts', Forall made ts -> Forall made ts' ->
  flat_map entry_text (map lines ts) = flat_map entry_text (map lines ts') -> ts = ts'.
Proof.
  induction 1 as [|t ts D _ IH]; intros ts' M M' E; destruct ts' as [|t' ts'].
  - reflexivity.
  - cbn [map flat_map] in E. unfold entry_text in E at 1. destruct (lines t'); discriminate E.
  - cbn [map flat_map] in E. unfold entry_text in E at 1. destruct (lines t); discriminate E.
  - cbn [map flat_map] in E. unfold entry_text in E at 1 3. rewrite <- !app_assoc in E.
    apply D in E as [-> E]; [|exact (Forall_inv M)|exact (Forall_inv M')]. do 2 apply app_inv_head in E.
    apply IH in E as ->; [reflexivity|exact (Forall_inv_tail M)|exact (Forall_inv_tail M')].
Qed.
Lemma list_lines_decode ts ts' r r' : Forall decodes_lines ts -> Forall made ts -> Forall made ts' ->
  debug_list true (map lines ts) ++ r = debug_list true (map lines ts') ++ r' -> ts = ts' /\ r = r'.
Proof.
  intros D M M' E. destruct ts as [|t ts], ts' as [|t' ts'].
  - split; [reflexivity|]. now injection E as E.
  - discriminate E.
  - discriminate E.
  - cbn [map] in E. rewrite !list_body, <- !app_assoc in E. do 2 apply app_inv_head in E.
    apply indent_decode in E as [B E]; try apply closed_entries; try discriminate.
    apply (entry_lines_decode (t :: ts) D (t' :: ts') M M') in B. split; [exact B|]. now injection E as E.
Qed.
Lemma tree_lines_decode t : decodes_lines t.
Proof using UO.
  induction t as [d ts sp IH|s w sp|c s sp|x sp] using token_nested_ind;
    intros [d' ts' sp'|s' w' sp'|c' s' sp'|x' sp'] r r' M M' E; try discriminate E;
    inversion M as [? ? ? A|? ? ? A|? ? ? A|? ? A]; inversion M' as [? ? ? A'|? ? ? A'|? ? ? A'|? ? A']; subst; clear M M';
    unfold lines in E; cbn [tree_debug] in E;
    match type of E with debug_struct _ _ (?l ++ ?m) ++ _ = debug_struct _ _ (?l' ++ ?m') ++ _ =>
      set (b := m) in E; set (b' := m') in E; cbn [app] in E; rewrite !struct_body, <- !app_assoc in E;
      do 3 apply app_inv_head in E;
      apply indent_decode in E as [B E]; try apply closed_fields; try discriminate;
      assert (R : r = r') by (now injection E as E); clear E; subst r'; split; [|reflexivity];
      cbn [flat_map] in B; unfold field_text in B; cbn [fst snd] in B; rewrite <- !app_assoc in B; fold field_text in B;
      do 2 apply app_inv_head in B
    end.
  - destruct d, d'; try discriminate B; apply app_inv_head in B; do 4 apply app_inv_head in B;
    apply (app_inv_head (tag "TokenStream ")) in B; apply (list_lines_decode ts ts') in B as [-> B]; auto; do 2 apply app_inv_head in B; apply place_lines in B as ->; reflexivity.
  - apply (ident_decode _ _ _ _ ","%ch ","%ch) in B as (-> & -> & B); auto; try (now left).
    injection B as B. now apply place_lines in B as ->.
  - apply char_decode in B as [-> B]; auto. do 4 apply app_inv_head in B.
    apply spacing_decode in B as [-> B]. do 2 apply app_inv_head in B. now apply place_lines in B as ->.
  - apply (literal_decode _ _ ","%ch ","%ch) in B as (-> & B); auto; try (now left).
    injection B as B. now apply place_lines in B as ->.
Qed.

(** ** Streams *)
Lemma streams_decode alt ts ts' : Forall made ts -> Forall made ts' ->
  stream_debug true alt ts = stream_debug true alt ts' -> ts = ts'.
Proof using UO.
  intros M M' E. unfold stream_debug in E. apply app_inv_head in E.
  apply (f_equal (fun x => x ++ [])) in E. destruct alt.
  - apply (list_lines_decode ts ts') in E as [-> _]; auto. apply Forall_forall. intros t _. apply tree_lines_decode.
  - apply (list_decode ts ts') in E as [-> _]; auto. apply Forall_forall. intros t _. apply tree_decode.
Qed.
Lemma tree_debug_strip alt t : tree_debug false alt t = tree_debug true alt (strip t).
Proof.
  induction t as [d ts sp IH|s w sp|c s sp|x sp] using token_nested_ind; try reflexivity.
  cbn [tree_debug strip]. rewrite map_map. rewrite (map_ext_Forall _ (fun t => tree_debug true alt (strip t)) IH). reflexivity.
Qed.
Lemma stream_debug_strips alt ts : stream_debug false alt ts = stream_debug true alt (strips ts).
Proof.
  unfold stream_debug, strips. rewrite map_map. now rewrite (map_ext _ _ (tree_debug_strip alt)).
Qed.
Lemma strip_made t : made t -> made (strip t).
Proof.
  induction t as [d ts sp IH|s w sp|c s sp|x sp] using token_nested_ind; intros M; inversion M; subst; constructor; auto.
  apply Forall_map. rewrite Forall_forall in *. auto.
Qed.
Lemma strips_made ts : Forall made ts -> Forall made (strips ts).
Proof. intros F. apply Forall_map. eapply Forall_impl; [|exact F]. exact strip_made. Qed.
Lemma streams_decode_strips alt ts ts' : Forall made ts -> Forall made ts' ->
  stream_debug false alt ts = stream_debug false alt ts' <-> strips ts = strips ts'.
Proof using UO.
  intros M M'. rewrite !stream_debug_strips. split; [|now intros ->].
  apply streams_decode; now apply strips_made.
Qed.

(** ** Where trees come from *)
Lemma literal_made_iff start t : (start < two32)%N ->
  literal_made t <-> t = error_text \/ exists sp, literal_from_str start t = Ok (LitOk t sp).
Proof using UO.
  intros Hs. rewrite literal_from_str_spec by exact Hs. unfold p_literal_from_str.
  assert (Hminus : forall u, ~ literal_at ("-"%ch :: u) []).
  { intros u H. apply (literal_compute UO) in H. revert H. unfold p_literal. cbn. discriminate. }
  split.
  - intros [H|[->|(d & u & -> & D & H)]].
    + right. destruct (head_is "-"%ch t) eqn:Eh.
      * exfalso. destruct t as [|c u]; [discriminate|]. cbn [head_is] in Eh. apply N.eqb_eq in Eh as <-. now apply Hminus in H.
      * cbn [andb]. apply (literal_compute UO) in H. rewrite H. eauto.
    + now left.
    + right. change (head_is "-"%ch ("-"%ch :: d :: u)) with true. cbn [skipn andb]. apply digit_is in D. rewrite D.
      cbn [negb]. apply (literal_compute UO) in H. rewrite H. eauto.
  - intros [->|[sp H]]; [right; now left|]. destruct (head_is "-"%ch t) eqn:Eh.
    + destruct t as [|c u]; [discriminate|]. cbn [head_is] in Eh. apply N.eqb_eq in Eh as <-. cbn [skipn andb] in H.
      destruct u as [|d u]; [discriminate|]. destruct (is_dec_digit d) eqn:D; cbn [negb] in H; [|discriminate].
      destruct (p_literal (d :: u)) as [[|]|] eqn:L; try discriminate H. right. right. exists d, u.
      split; [reflexivity|]. split; [now apply digit_is|now apply (literal_compute UO)].
    + cbn [andb] in H. destruct (p_literal t) as [[|]|] eqn:L; try discriminate H. left. now apply (literal_compute UO).
Qed.
Lemma parsed_made start src ts : (start < two32)%N -> valid_str src ->
  token_stream_from_str start src = Ok (Lexed ts) -> Forall made ts.
Proof using UO.
  intros Hs Hv H. pose proof (valid_text_occurs UO _ _ _ Hs Hv H) as V. clear H.
  assert (A : forall t, (forall u, occurs u [t] -> tree_valid token_literal u) -> made t).
  { induction t as [d us sp IH|s w sp|c s sp|x sp] using token_nested_ind; intros W.
    - constructor. rewrite Forall_forall in *. intros u I. apply IH; [exact I|]. intros v O. apply W.
      apply (occurs_inside _ d us sp); [now left|]. inversion O as [? J|? ? ? ? J K]; subst.
      + destruct J as [->|[]]. now apply occurs_here.
      + destruct J as [->|[]]. now apply (occurs_inside _ d0 inner sp0).
    - constructor. exact (W _ (occurs_here _ [_] (in_eq _ []))).
    - constructor. exact (proj1 (W _ (occurs_here _ [_] (in_eq _ [])))).
    - constructor. destruct (W _ (occurs_here _ [_] (in_eq _ []))) as [L|L].
      + left. now apply (literal_compute UO).
      + right. now left. }
  apply Forall_forall. intros t I. apply A. intros u O. apply V.
  inversion O as [? J|? ? ? ? J K]; subst; destruct J as [J|[]]; subst.
  - now apply occurs_here.
  - eapply occurs_inside; eassumption.
Qed.
Lemma made_leaves start : (start < two32)%N ->
  (forall s w sp, made (TIdent s w sp) <-> (if w then ident_new_raw s sp else ident_new s sp) = Ok (TIdent s w sp)) /\
  (forall c s sp, made (TPunct c s sp) <-> punct_new c s = Ok (TPunct c s call_site)) /\
  (forall t sp, made (TLiteral t sp) <-> t = error_text \/ exists sp', literal_from_str start t = Ok (LitOk t sp')) /\
  (forall d ts sp, made (TGroup d ts sp) <-> Forall made ts).
Proof using UO.
  intros Hs. split; [|split; [|split]].
  - intros s w sp. transitivity (ident_valid s w).
    { split; [intros M; now inversion M|now constructor]. }
    unfold ident_valid. split.
    + intros [I N]. destruct w; [now apply (ident_new_raw_spec UO); auto|now apply (ident_new_spec UO)].
    + intros E. destruct w.
      * apply ident_new_raw_inv in E as [_ E]. apply (validate_raw_spec UO) in E. tauto.
      * apply ident_new_inv in E as [_ E]. apply (validate_ident_spec UO) in E. split; [exact E|discriminate].
  - intros c s sp. transitivity (In c punct_chars).
    { split; [intros M; now inversion M|now constructor]. }
    destruct (punct_new_spec c s) as [A B]. split; [exact A|]. intros E.
    destruct (in_dec N.eq_dec c punct_chars) as [I|I]; [exact I|]. rewrite (B I) in E. discriminate.
  - intros t sp. rewrite <- (literal_made_iff start) by exact Hs. split; [intros M; now inversion M|now constructor].
  - intros d ts sp. split; [intros M; now inversion M|now constructor].
Qed.
End WithUnicode.

(** ** Padding *)
Lemma repeat_only (c : char) n : Forall (fun x => x = c) (repeat c n).
Proof. induction n; now constructor. Qed.
Lemma only_repeat (c : char) x : Forall (fun x => x = c) x -> x = repeat c (length x).
Proof. induction 1 as [|y x -> _ IH]; [reflexivity|]. cbn. now f_equal. Qed.
Lemma firstn_cut f s : cut f s (match precision f with Some n => firstn n s | None => s end).
Proof.
  unfold cut. destruct (precision f) as [n|]; [|reflexivity]. exists (skipn n s). split; [symmetry; apply firstn_skipn|].
  rewrite firstn_length. destruct (Nat.le_gt_cases n (length s)) as [L|L]; [left; lia|]. right.
  split; [apply skipn_all2; lia|lia].
Qed.
Lemma cut_once f s a b : cut f s a -> cut f s b -> a = b.
Proof.
  unfold cut. destruct (precision f) as [n|]; [|congruence].
  intros (x & -> & A) (y & E & B).
  assert (L : length a = length b).
  { apply (f_equal (@length _)) in E as L. rewrite !app_length in L.
    destruct A as [A|[-> A]], B as [B|[-> B]]; cbn in L; lia. }
  clear A B. revert b E L. induction a as [|c a IH]; intros [|d b] E L; try discriminate L; [reflexivity|].
  cbn in E. injection E as -> E. f_equal. apply IH; [exact E|]. now injection L as L.
Qed.
Lemma pad_padded f s : padded f s (pad f s).
Proof.
  unfold pad. set (t := match precision f with Some n => firstn n s | None => s end).
  assert (C : cut f s t) by apply firstn_cut. destruct (width f) as [w|] eqn:W.
  - set (k := w - length t). set (b := match align f with None | Some ALeft => 0 | Some ARight => k | Some ACenter => k / 2 end).
    assert (B : (b <= k)%nat).
    { unfold b. destruct (align f) as [[]|]; lia. }
    exists t, (repeat (fill f) b), (repeat (fill f) (k - b)).
    split; [exact C|]. split; [reflexivity|]. split; [apply repeat_only|]. split; [apply repeat_only|].
    rewrite W, !repeat_length. split; [unfold k in *; lia|]. unfold b. destruct (align f) as [[]|].
    + reflexivity.
    + now rewrite Nat.sub_diag.
    + pose proof (Nat.div_mod k 2). pose proof (Nat.mod_upper_bound k 2). lia.
    + reflexivity.
  - exists t, [], []. rewrite app_nil_r. repeat split; try constructor; try exact C. now rewrite W.
Qed.
Lemma padded_once f s x y : padded f s x -> padded f s y -> x = y.
Proof.
  intros (t & l & r & C & -> & Fl & Fr & A) (t' & l' & r' & C' & -> & Fl' & Fr' & A').
  destruct (cut_once _ _ _ _ C C'). rewrite (only_repeat _ _ Fl), (only_repeat _ _ Fr), (only_repeat _ _ Fl'), (only_repeat _ _ Fr').
  destruct (width f) as [w|].
  - destruct A as [A P], A' as [A' P'].
    assert (E : length l = length l' /\ length r = length r').
    { destruct (align f) as [[]|]; subst; cbn in *; lia. }
    destruct E as [-> ->]. reflexivity.
  - destruct A as [-> ->], A' as [-> ->]. reflexivity.
Qed.
Lemma pad_iff f s x : pad f s = x <-> padded f s x.
Proof. split; [intros <-; apply pad_padded|]. intros P. exact (padded_once _ _ _ _ (pad_padded f s) P). Qed.
Lemma char_display_pad f c : char_display f c = pad f [c].
Proof. unfold char_display. destruct f as [? ? [] [] ?]; reflexivity. Qed.

(** ** Statements for the properties *)
Lemma set_span_moves t sp : at_span (set_span t sp) sp /\ moved t (set_span t sp) /\ (forall sp', at_span t sp' <-> token_span t = sp').
Proof.
  split; [destruct t; constructor|]. split; [destruct t; constructor|]. intros sp'. split.
  - intros []; reflexivity.
  - intros <-. destruct t; constructor.
Qed.
Lemma literal_display f t sp x : tree_display f (TLiteral t sp) = x <-> padded f t x.
Proof. exact (pad_iff f t x). Qed.
Lemma punct_display f c s sp x : tree_display f (TPunct c s sp) = x <-> padded f [c] x.
Proof. cbn [tree_display]. rewrite char_display_pad. apply pad_iff. Qed.
Lemma padded_plain f s : width f = None -> precision f = None -> padded f s s.
Proof. intros W P. exists s, [], []. unfold cut. rewrite W, P, app_nil_r. repeat split; constructor. Qed.
Lemma tree_display_options f t :
  match t with
  | TGroup _ _ _ | TIdent _ _ _ => tree_display f t = tree_to_string t
  | TPunct c _ _ => forall x, tree_display f t = x <-> padded f [c] x
  | TLiteral repr _ => forall x, tree_display f t = x <-> padded f repr x
  end.
Proof.
  destruct t as [d ts sp|s r sp|c s sp|x sp].
  - apply tree_display_any. left. exact I.
  - apply tree_display_any. right. eauto.
  - intros y. apply punct_display.
  - intros y. apply literal_display.
Qed.
Lemma tree_display_no_options f t : width f = None -> precision f = None -> tree_display f t = tree_to_string t.
Proof.
  intros W P. pose proof (tree_display_options f t) as H.
  destruct t as [d ts sp|s r sp|c s sp|x sp]; try exact H; apply H; now apply padded_plain.
Qed.
Lemma span_debug_exact sp x : (span_debug true sp = x <-> span_text sp x) /\ span_debug false sp = tag "Span" /\
  (forall d ts, delim_span_debug true (TGroup d ts sp) = x <-> span_text sp x) /\
  (forall d ts, delim_span_debug false (TGroup d ts sp) = tag "Span").
Proof.
  assert (A : span_debug true sp = x <-> span_text sp x) by (rewrite span_text_iff; split; congruence).
  split; [exact A|]. split; [reflexivity|]. split; [intros d ts; exact A|reflexivity].
Qed.
Lemma one_field name n v : no_lf v -> no_lf n ->
  debug_struct true name [(n, v)] = render [(0, name ++ tag " {"); (1, n ++ tag ": " ++ v ++ tag ","); (0, tag "}")].
Proof.
  intros V N. rewrite struct_body. cbn [flat_map]. rewrite app_nil_r. unfold field_text. cbn [fst snd].
  replace (n ++ tag ": " ++ v ++ tag "," ++ [LF]) with ((n ++ tag ": " ++ v ++ tag ",") ++ [LF] ++ [])
    by now rewrite <- !app_assoc.
  rewrite indent_line.
  - cbn [render]. unfold line_text. cbn [fst snd Nat.mul Nat.add repeat app]. rewrite <- !app_assoc. reflexivity.
  - unfold no_lf in *. rewrite !Forall_app. repeat split; auto; repeat constructor; discriminate.
Qed.
Lemma lex_error_exact f sp x : span_text sp x ->
  lex_error_display f sp = tag "cannot parse string into token stream" /\
  lex_error_debug true false sp = tag "LexError { span: " ++ x ++ tag " }" /\
  lex_error_debug true true sp = render [(0, tag "LexError {"); (1, tag "span: " ++ x ++ tag ","); (0, tag "}")] /\
  lex_error_debug false false sp = tag "LexError { span: Span }" /\
  lex_error_debug false true sp = render [(0, tag "LexError {"); (1, tag "span: Span,"); (0, tag "}")].
Proof.
  intros H. apply span_text_iff in H as ->. split; [reflexivity|]. split.
  { unfold lex_error_debug, debug_struct. cbn [struct_fields]. reflexivity. }
  split; [|split; reflexivity].
  unfold lex_error_debug. rewrite one_field; [reflexivity|apply span_no_lf|]. repeat constructor; discriminate.
Qed.
Section WithUnicode2.
Context {U : unicode} (UO : unicode_ok U).
Lemma ident_debug_exact s raw sp :
  ident_debug false false s raw sp = tag "Ident(" ++ shown_ident s raw ++ tag ")" /\
  (forall alt, ident_debug true alt s raw sp = tree_debug true alt (TIdent s raw sp)) /\
  (ident_valid s raw ->
   ident_debug false true s raw sp
   = render [(0, tag "Ident("); (1, shown_ident s raw ++ tag ","); (0, tag ")")]).
Proof using UO.
  rewrite shown_ident_eq. split; [reflexivity|]. split; [reflexivity|]. intros V.
  pose proof (ident_no_lf UO s raw V) as N. unfold ident_debug, debug_tuple1.
  replace (ident_to_string s raw ++ tag "," ++ [LF]) with ((ident_to_string s raw ++ tag ",") ++ [LF] ++ [])
    by now rewrite <- !app_assoc.
  rewrite indent_line.
  - cbn [render]. unfold line_text. cbn [fst snd Nat.mul Nat.add repeat app]. rewrite <- !app_assoc. reflexivity.
  - unfold no_lf in *. rewrite !Forall_app. repeat split; auto; repeat constructor; discriminate.
Qed.
Lemma tree_debug_exact loc t : made t ->
  tree_line loc t (tree_debug loc false t) /\
  exists b, tree_layout loc t b /\ (forall b', tree_layout loc t b' -> b' = b) /\ tree_debug loc true t = render b.
Proof using UO.
  intros M. split; [now apply (tree_text_line UO)|]. destruct (tree_pretty UO loc t M) as (b & L & R & _).
  exists b. split; [exact L|]. split; [|exact R]. intros b' L'. exact (tree_layout_once loc t _ _ L' L).
Qed.
Lemma trees_prefix_free alt t t' r r' : made t -> made t' ->
  tree_debug true alt t ++ r = tree_debug true alt t' ++ r' -> t = t' /\ r = r'.
Proof using UO. destruct alt; [apply (tree_lines_decode UO)|apply (tree_decode UO)]. Qed.
End WithUnicode2.
