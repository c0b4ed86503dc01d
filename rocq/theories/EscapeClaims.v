(** * Reports of the escaper: the claims. *)
From Verif Require Import Base Unicode BaseFacts Escaper LitValue SpecLit SpecEscape EscaperFacts.
From Verif Require Import SpecLex LitValueFacts EscapeReports.
From Coq Require Import Sorting.Sorted.
Import ListNotations.
Local Open Scope N_scope.

Lemma str_exactly : exactly KStr str_unescaper (fun c => [c]).
Proof.
  split; cbn; auto.
  - intro c. apply (it_value KStr); discriminate.
  - intro b. now destruct (b <? 128).
Qed.
Lemma byte_exactly : exactly KByte byte_unescaper (fun c => [c]).
Proof.
  split; cbn; auto. intro c. unfold char2byte.
  destruct (N.ltb_spec c 0x80); [apply (it_value KByte)|apply it_high]; auto. discriminate.
Qed.
Lemma c_exactly : exactly KC c_unescaper push_mixed.
Proof.
  split; cbn -[push_mixed]; auto.
  - intro c. unfold mixed_of_char, nonzero_char_new. destruct (N.eqb_spec c 0).
    + now apply it_nul.
    + apply (it_value KC); auto. discriminate.
  - intro b. unfold mixed_of_byte. destruct (b =? 0); [reflexivity|]. cbn [out]. now rewrite push_nonzero.
  - intro c. unfold mixed_of_char, nonzero_char_new. now destruct (c =? 0).
Qed.

(** ** Raw text *)
Lemma check_raw_exact {A} k (f : char -> uresult A) push :
  (forall c, itself k c (out push (f c))) ->
  forall s, exists ev, check_raw f s = Ok ev /\
    forall ev', raw_reports k 0 s ev' <-> ev' = map (shown_event push) ev.
Proof.
  intros Hf s. unfold check_raw.
  assert (Hc : forall p s ev', raw_reports k p s ev' -> forall total, total = (p + str_len s)%nat ->
            exists ev, check_raw_loop f total s = Ok ev /\ ev' = map (shown_event push) ev).
  { clear s. induction 1 as [p|p s ev H IH|p c s x ev H1 Hx H IH]; intros total Ht; cbn [check_raw_loop].
    - now exists [].
    - cbn [str_len] in Ht. change (len_utf8 CR) with 1%nat in Ht.
      destruct (IH total ltac:(lia)) as (ev' & Hev & ->).
      rewrite checked_sub_ok by lia. cbn [bind]. change (len_utf8 CR) with 1%nat.
      rewrite checked_sub_ok by lia. cbn [bind]. change (CR =? CR) with true. cbv iota.
      rewrite Hev. cbn [bind]. eexists. split; [reflexivity|]. cbn [map].
      f_equal. unfold shown_event. cbn [fst snd out]. replace (total - str_len s - 1)%nat with p by lia. now replace (total - str_len s)%nat with (p + 1)%nat by lia.
    - cbn [str_len] in Ht. destruct (IH total ltac:(lia)) as (ev' & Hev & ->).
      rewrite checked_sub_ok by lia. cbn [bind]. rewrite checked_sub_ok by lia. cbn [bind].
      apply N.eqb_neq in H1. rewrite H1, Hev. cbn [bind]. eexists. split; [reflexivity|].
      cbn [map]. f_equal. unfold shown_event. cbn [fst snd].
      replace (total - str_len s - len_utf8 c)%nat with p by lia.
      replace (total - str_len s)%nat with (p + len_utf8 c)%nat by lia.
      now rewrite (itself_fun k c _ _ Hx (Hf c)). }
  assert (He : forall s p, exists ev, raw_reports k p s ev).
  { clear s. induction s as [|c s IH]; intro p; [exists []; constructor|].
    destruct (N.eq_dec c CR) as [->|H].
    - destruct (IH (p + 1)%nat) as [ev Hev]. eexists. constructor. exact Hev.
    - destruct (IH (p + len_utf8 c)%nat) as [ev Hev]. eexists. constructor; eauto. }
  destruct (He s 0%nat) as [ev0 H0]. destruct (Hc _ _ _ H0 _ eq_refl) as (ev & Hev & ->).
  exists ev. split; [exact Hev|]. intro ev'. split.
  - intro H. destruct (Hc _ _ _ H _ eq_refl) as (ev1 & Hev1 & ->). cbn [Nat.add] in *. congruence.
  - intros ->. exact H0.
Qed.

Lemma str_raw_itself c : itself KStr c (out (fun c => [c]) (str_raw_unit c)).
Proof. apply (it_value KStr); discriminate. Qed.
Lemma byte_raw_itself c : itself KByte c (out (fun c => [c]) (byte_raw_unit c)).
Proof. apply (ex_char _ _ _ byte_exactly). Qed.
Lemma c_raw_itself c : itself KC c (out encode_utf8 (c_raw_unit c)).
Proof.
  unfold c_raw_unit, nonzero_char_new. destruct (N.eqb_spec c 0).
  - now apply it_nul.
  - apply (it_value KC); auto. discriminate.
Qed.

(** ** Reports and values *)
Lemma is_fatal_warning e : is_fatal e = false <-> warning e.
Proof.
  unfold warning. split; [destruct e; auto; discriminate|]. now intros [-> | ->].
Qed.

Lemma ev_value_shown {A} (push : A -> list N) ev v :
  ev_value push ev = Some v <->
  only_warnings (map (shown_event push) ev) /\ v = values (map (shown_event push) ev).
Proof.
  revert v. induction ev as [|[g [a|e]] ev IH]; intro v; cbn [ev_value map].
  - split; [intros [= <-]; split; [intros ? ? []|reflexivity]|now intros [_ ->]].
  - unfold values in *. cbn [flat_map shown_event fst snd out] in *.
    destruct (ev_value push ev) as [w|]; cbn [option_map].
    + destruct (proj1 (IH w) eq_refl) as [Hw Ev]. split.
      * intros [= <-]. split; [|now rewrite <- Ev].
        intros g' e [H|H]; [discriminate|]. now apply (Hw g').
      * intros [_ ->]. now rewrite <- Ev.
    + split; [discriminate|]. intros [Hw _]. exfalso.
      assert (None = Some (flat_map (fun x : range * uresult (list N) => match snd x with UOk v => v | UErr _ => [] end)
                             (map (shown_event push) ev))); [|discriminate].
      apply IH. split; [|reflexivity]. intros g' e H. apply (Hw g'). now right.
  - unfold values in *. cbn [flat_map shown_event fst snd out app] in *. destruct (is_fatal e) eqn:Ef.
    + split; [discriminate|]. intros [Hw _]. exfalso. specialize (Hw g e (or_introl eq_refl)).
      apply is_fatal_warning in Hw. congruence.
    + rewrite IH. split; intros [Hw ->]; (split; [|reflexivity]).
      * intros g' e' [H|H]; [|now apply (Hw g')]. injection H as _ <-. now apply is_fatal_warning.
      * intros g' e' H. apply (Hw g'). now right.
Qed.

Lemma collect_last {A} (push : A -> list N) ev v e0 :
  snd (collect push v e0 ev) =
  match snd (collect push [] None ev) with Some e => Some e | None => e0 end.
Proof.
  assert (Hv : forall ev v v' e0, snd (collect push v e0 ev) = snd (collect push v' e0 ev)).
  { clear. induction ev as [|[g [a|e]] ev IH]; intros v v' e0; cbn [collect]; auto. }
  revert v e0. induction ev as [|[g [a|e]] ev IH]; intros v e0; cbn [collect].
  - reflexivity.
  - rewrite IH. rewrite (Hv ev ([] ++ push a) []). reflexivity.
  - destruct (is_fatal e) eqn:Ef.
    + rewrite (IH v (Some e)), (IH [] (Some e)). now destruct (snd (collect push [] None ev)).
    + apply IH.
Qed.
Lemma collect_none {A} (push : A -> list N) ev :
  snd (collect push [] None ev) = None <-> only_warnings (map (shown_event push) ev).
Proof.
  assert (H := collect_value push [] ev). assert (Hs := ev_value_shown push ev).
  destruct (ev_value push ev) as [x|].
  - rewrite H. cbn [snd]. split; [intros _|reflexivity]. now apply (Hs x).
  - destruct H as (v' & e & ->). cbn [snd]. split; [discriminate|]. intro Hw. exfalso.
    assert (None = Some (values (map (shown_event push) ev))); [|discriminate]. apply Hs. auto.
Qed.
Lemma collect_some {A} (push : A -> list N) ev e :
  snd (collect push [] None ev) = Some e <-> last_error (map (shown_event push) ev) e.
Proof.
  induction ev as [|[g r] ev IH].
  - cbn. split; [discriminate|]. intros (a & g & b & H & _). destruct a; discriminate.
  - assert (Hlast : last_error (map (shown_event push) ev) e ->
              last_error (map (shown_event push) ((g, r) :: ev)) e).
    { intros (a & g' & b & E & Hw & Hb). exists (shown_event push (g, r) :: a), g', b.
      cbn [map]. rewrite E. auto. }
    assert (Hinv : last_error (map (shown_event push) ((g, r) :: ev)) e ->
              last_error (map (shown_event push) ev) e
              \/ (out push r = UErr e /\ ~ warning e /\ only_warnings (map (shown_event push) ev))).
    { intros (a & g' & b & E & Hw & Hb). cbn [map] in E. destruct a as [|y a].
      - right. cbn [app] in E. unfold shown_event at 1 in E. cbn [fst snd] in E.
        injection E as _ E Eb. rewrite Eb. repeat split; auto.
      - left. injection E as _ E. exists a, g', b. auto. }
    destruct r as [a|e1]; cbn [collect].
    + rewrite collect_last. destruct (snd (collect push [] None ev)) as [e'|] eqn:Es.
      * split; [intro H; apply Hlast, IH, H|]. intro H. destruct (Hinv H) as [H'|[H' _]]; [|discriminate].
        now apply IH.
      * split; [discriminate|]. intro H. destruct (Hinv H) as [H'|[H' _]]; [|discriminate].
        now apply IH.
    + rewrite collect_last. destruct (snd (collect push [] None ev)) as [e'|] eqn:Es.
      * rewrite IH. split; [exact Hlast|]. intro H. destruct (Hinv H) as [H'|[_ [_ H']]]; [exact H'|].
        apply collect_none in H'. congruence.
      * assert (Hn := proj1 (collect_none push ev) Es). destruct (is_fatal e1) eqn:Ef.
        -- split.
           ++ intros [= <-]. exists [], g, (map (shown_event push) ev). split; [reflexivity|].
              split; [|exact Hn]. intro Hw. apply is_fatal_warning in Hw. congruence.
           ++ intro H. destruct (Hinv H) as [H'|[H' _]]; [apply IH in H'; discriminate|].
              now injection H' as ->.
        -- split; [discriminate|]. intro H. destruct (Hinv H) as [H'|(H' & Hw & _)].
           ++ apply IH in H'. discriminate.
           ++ injection H' as <-. apply is_fatal_warning in Ef. contradiction.
Qed.

Section Kind.
Context {A : Type} (k : kind) (u : unescaper A) (push : A -> list N).
Context (I : implements k u push) (X : exactly k u push).

Lemma reports_cooked s ev :
  reports k 0 s ev -> forall v, cooked k s v <-> only_warnings ev /\ v = values ev.
Proof.
  intros Hr v. destruct (unescape_exact k u push I X s) as (ev0 & Hev & Hiff).
  apply Hiff in Hr. subst ev. rewrite <- ev_value_shown. unfold unescape in Hev. split.
  - intro H. destruct (unescape_loop_complete k u push I _ _ H (S (length s)) (str_len s) ltac:(lia) (le_n _))
      as (ev & E & Hv). congruence.
  - intro H. destruct (unescape_loop_sound k u push I (S (length s)) (str_len s) s ltac:(lia) (le_n _))
      as (ev & E & Hv). apply Hv. congruence.
Qed.

Lemma unescaped_failed ending s e :
  unescaped u push ending s = Ok (CFailed e) <-> exists ev, reports k 0 s ev /\ last_error ev e.
Proof.
  unfold unescaped. destruct (unescape_exact k u push I X s) as (ev & -> & Hiff). cbn [bind].
  assert (Hc := collect_some push ev e).
  destruct (collect push [] None ev) as [v [e'|]]; cbn [snd] in Hc.
  - transitivity (Some e' = Some e).
    { split; [now intros [= ->]|now intros [= ->]]. }
    rewrite Hc. split.
    + intro H. exists (map (shown_event push) ev). split; [now apply Hiff|exact H].
    + intros (ev' & H1 & H2). apply Hiff in H1. now subst ev'.
  - split; [discriminate|]. intros (ev' & H1 & H2). apply Hiff in H1. subst ev'.
    apply Hc in H2. discriminate.
Qed.
End Kind.

Lemma reports_total k s : exists ev, reports k 0 s ev.
Proof.
  destruct k.
  - eapply reports_exist; [apply str_implements|apply str_exactly|apply le_n].
  - eapply reports_exist; [apply byte_implements|apply byte_exactly|apply le_n].
  - eapply reports_exist; [apply c_implements|apply c_exactly|apply le_n].
Qed.
Lemma reports_fun k s ev ev' : reports k 0 s ev -> reports k 0 s ev' -> ev = ev'.
Proof.
  intros H H'. destruct k.
  - destruct (unescape_exact _ _ _ str_implements str_exactly s) as (x & _ & E).
    apply E in H, H'. congruence.
  - destruct (unescape_exact _ _ _ byte_implements byte_exactly s) as (x & _ & E).
    apply E in H, H'. congruence.
  - destruct (unescape_exact _ _ _ c_implements c_exactly s) as (x & _ & E).
    apply E in H, H'. congruence.
Qed.
Lemma reports_meaning k s ev :
  reports k 0 s ev -> forall v, cooked k s v <-> only_warnings ev /\ v = values ev.
Proof.
  destruct k; eapply reports_cooked;
    first [apply str_implements|apply byte_implements|apply c_implements
          |apply str_exactly|apply byte_exactly|apply c_exactly].
Qed.

Lemma value_failed k repr e :
  value_of k repr = Ok (CFailed e) <->
  exists q ev, repr = prefix k ++ [DQUOTE] ++ q ++ [DQUOTE] /\ reports k 0 q ev /\ last_error ev e.
Proof.
  assert (Hq : forall q, value_of k (prefix k ++ [DQUOTE] ++ q ++ [DQUOTE]) = Ok (CFailed e) <->
             exists ev, reports k 0 q ev /\ last_error ev e).
  { intro q. destruct k; cbn [value_of].
    - unfold str_value. destruct (quoted_text_spec (tag """") (prefix KStr ++ [DQUOTE] ++ q ++ [DQUOTE]))
        as (o & -> & Ho). assert (o = Some q) by now apply Ho. subst o. cbn [bind].
      apply unescaped_failed; [apply str_implements|apply str_exactly].
    - unfold byte_str_value. destruct (quoted_text_spec (tag "b""") (prefix KByte ++ [DQUOTE] ++ q ++ [DQUOTE]))
        as (o & -> & Ho). assert (o = Some q) by now apply Ho. subst o. cbn [bind].
      apply unescaped_failed; [apply byte_implements|apply byte_exactly].
    - unfold cstr_value. destruct (quoted_text_spec (tag "c""") (prefix KC ++ [DQUOTE] ++ q ++ [DQUOTE]))
        as (o & -> & Ho). assert (o = Some q) by now apply Ho. subst o. cbn [bind].
      apply unescaped_failed; [apply c_implements|apply c_exactly]. }
  split.
  - intro H. destruct (proj1 (proj2 (value_error_kind k repr)) (ex_intro _ e H)) as (q & -> & _).
    apply Hq in H. destruct H as (ev & H). exists q, ev. auto.
  - intros (q & ev & -> & H). apply Hq. eauto.
Qed.

(** ** Where *)
Lemma after_slash_cut s a e t : s = a ++ BACKSLASH :: e ++ t ->
  cut s (str_len a, (str_len a + 1 + str_len e)%nat).
Proof.
  intros ->. exists a, (BACKSLASH :: e), t. split; [reflexivity|]. split; [discriminate|].
  rewrite str_len_app. cbn [str_len]. change (len_utf8 BACKSLASH) with 1%nat. f_equal. lia.
Qed.
Lemma char_cut s a c t : s = a ++ c :: t -> cut s (str_len a, (str_len a + len_utf8 c)%nat).
Proof.
  intros ->. exists a, [c], t. split; [reflexivity|]. split; [discriminate|].
  rewrite str_len_app. cbn [str_len]. f_equal. lia.
Qed.

Lemma reports_where k p s ev : reports k p s ev -> forall a, p = str_len a ->
  Forall (fun x => cut (a ++ s) (fst x)) ev /\ Forall (fun x => (p <= fst (fst x))%nat) ev /\
  StronglySorted in_order ev.
Proof.
  assert (Hone : forall p q r x (ev : list (event (list N))), (p < q)%nat -> r = (p, q) ->
    Forall (fun x => (q <= fst (fst x))%nat) ev /\ StronglySorted in_order ev ->
    Forall (fun x => (p <= fst (fst x))%nat) ((r, x) :: ev) /\ StronglySorted in_order ((r, x) :: ev)).
  { intros p0 q r x ev0 Hpq -> [Hf Hs]. split; constructor; cbn [fst]; auto.
    - eapply Forall_impl; [|exact Hf]. cbn. lia.
    - eapply Forall_impl; [|exact Hf]. intros y Hy. cbv beta in Hy. unfold in_order. cbn [fst snd]. split; [eapply Nat.le_trans; [|exact Hy]; lia|auto]. }
  induction 1 as [p|p s ev H IH|p s ev H IH|p c s x ev H1 H2 H3 Hx H IH|p e s x ev Hn Ha H IH
                 |p ws s q w w' ev Hw Hs Hq H1 H2 H IH]; intros a Hp.
  - repeat constructor.
  - destruct (IH (a ++ [DQUOTE])) as (Hc & Hr). { rewrite str_len_app, <- Hp. reflexivity. }
    rewrite <- app_assoc in Hc. split; [|eapply Hone; [|reflexivity|exact Hr]; lia].
    constructor; [|exact Hc]. cbn [fst]. rewrite Hp. now apply (char_cut _ a DQUOTE s).
  - destruct (IH (a ++ [CR])) as (Hc & Hr). { rewrite str_len_app, <- Hp. reflexivity. }
    rewrite <- app_assoc in Hc. split; [|eapply Hone; [|reflexivity|exact Hr]; lia].
    constructor; [|exact Hc]. cbn [fst]. rewrite Hp. now apply (char_cut _ a CR s).
  - destruct (IH (a ++ [c])) as (Hc & Hr). { rewrite str_len_app. cbn [str_len]. lia. }
    assert (Hl := len_utf8_pos c).
    rewrite <- app_assoc in Hc. split; [|eapply Hone; [|reflexivity|exact Hr]; lia].
    constructor; [|exact Hc]. cbn [fst]. rewrite Hp. now apply (char_cut _ a c s).
  - destruct (IH (a ++ BACKSLASH :: e)) as (Hc & Hr).
    { rewrite str_len_app. cbn [str_len]. change (len_utf8 BACKSLASH) with 1%nat. lia. }
    rewrite <- app_assoc in Hc. split; [|eapply Hone; [|reflexivity|exact Hr]; lia].
    constructor; [|exact Hc]. cbn [fst]. rewrite Hp. now apply (after_slash_cut _ a e s).
  - destruct (IH (a ++ BACKSLASH :: LF :: ws)) as (Hc & Hf & Hr).
    { rewrite str_len_app. cbn [str_len]. change (len_utf8 BACKSLASH) with 1%nat.
      change (len_utf8 LF) with 1%nat. lia. }
    rewrite <- app_assoc in Hc. cbn [app] in Hc.
    assert (Hwc : Forall (fun x => cut (a ++ BACKSLASH :: LF :: ws ++ s) (fst x) /\ fst (fst x) = p
                     /\ exists e, snd x = UErr e /\ warning e) (w ++ w')).
    { apply Forall_app. split.
      - destruct H1 as [[_ ->]|[_ ->]]; [|constructor]. constructor; [|constructor]. cbn [fst snd].
        split; [|split; [reflexivity|eexists; split; [reflexivity|now right]]].
        exists a, (BACKSLASH :: LF :: ws), s. split; [reflexivity|]. split; [discriminate|].
        rewrite Hq, Hp, str_len_app. cbn [str_len]. change (len_utf8 BACKSLASH) with 1%nat.
        change (len_utf8 LF) with 1%nat. f_equal. lia.
      - destruct H2 as [(c & t & -> & _ & ->)|[_ ->]]; [|constructor]. constructor; [|constructor]. cbn [fst snd].
        split; [|split; [reflexivity|eexists; split; [reflexivity|now left]]].
        exists a, (BACKSLASH :: LF :: ws ++ [c]), t. split; [cbn; now rewrite <- app_assoc|].
        split; [discriminate|].
        rewrite Hq, Hp, str_len_app. cbn [str_len]. rewrite str_len_app. cbn [str_len].
        change (len_utf8 BACKSLASH) with 1%nat. change (len_utf8 LF) with 1%nat. f_equal. lia. }
    rewrite app_assoc. clear H1 H2. induction Hwc as [|x l (Hx1 & Hx2 & e & Hx3 & Hx4) Hl IHl].
    + split; [exact Hc|]. split; [|exact Hr]. eapply Forall_impl; [|exact Hf]. cbn. lia.
    + destruct IHl as (I1 & I2 & I3). cbn [app]. split; [now constructor|].
      split; [constructor; [now apply Nat.eq_le_incl|exact I2]|]. constructor; [exact I3|].
      eapply Forall_impl; [|exact I2]. intros y Hy. unfold in_order. cbv beta in Hy.
      split; [now rewrite Hx2|]. rewrite Hx3. intro Hn. exfalso. apply (Hn e eq_refl Hx4).
Qed.
Lemma reports_cut k s ev : reports k 0 s ev ->
  Forall (fun x => cut s (fst x)) ev /\ StronglySorted in_order ev.
Proof. intro H. destruct (reports_where _ _ _ _ H [] eq_refl) as (H1 & _ & H2). auto. Qed.

(** ** Characters *)
Lemma escape_unit k e x : k <> KC -> escape k e x -> exists v, x = [v].
Proof. intros Hk [c v _|_|a b y z _ _ _ _|ds n v _ _ _ _ _]; eauto. destruct k; cbn; eauto. contradiction. Qed.
Lemma after_slash_value k e t x : after_slash k e t (UOk x) <-> escape k e x.
Proof. split; [now inversion 1|apply as_value]. Qed.
Lemma after_slash_error k e t x : after_slash k e t (UErr x) -> ~ warning x.
Proof.
  intros H [Hw|Hw]; subst x; inversion H as [| | | | | | | | | | | | | |ds n v e' r _ Hb]; inversion Hb.
Qed.
Lemma itself_error k c x : itself k c (UErr x) -> ~ warning x.
Proof. intros H [Hw|Hw]; subst x; inversion H. Qed.
Lemma single_error_fatal k s n x : single_report k s n (UErr x) -> ~ warning x.
Proof.
  intro H. inversion H as [|c t _|t|c t e _ Hi|c y _ _|c y d t _ _|e t y Ha|e y Ha|e y d t Ha];
    subst; try (intros [Hw|Hw]; discriminate).
  - now apply itself_error in Hi.
  - now apply after_slash_error in Ha.
Qed.

Lemma single_value k s n x : k <> KC ->
  (single_report k s n (UOk x) <->
   n = str_len s /\ exists v, x = [v] /\ char_denotes k (prefix k ++ [SQUOTE] ++ s ++ [SQUOTE]) v).
Proof.
  intro Hk. split.
  - intro H. inversion H as [|c t _|t|c t e _ Hi|c y Hn Hi|c y d t _ _|e t y Ha|e y Ha|e y d t Ha]; subst.
    + split; [cbn; lia|]. inversion Hi as [H1 H2| |]. exists c.
      split; [destruct k; auto; contradiction|].
      apply (chd_plain k c); auto; intros ->; apply Hn; cbn; tauto.
    + split; [reflexivity|]. apply after_slash_value in Ha.
      destruct (escape_unit _ _ _ Hk Ha) as [v ->]. exists v. split; [reflexivity|].
      apply (chd_escape k e v Ha).
  - intros [-> (v & -> & H)]. inversion H as [c H1 H2 H3 H4 H5 H6 E|e w He E].
    + apply app_inv_head in E. injection E as E.
      assert (s = [c]); [|subst s].
      { change ([c] ++ [SQUOTE] = s ++ [SQUOTE]) in E. now apply app_inv_tail in E. }
      replace (str_len [c]) with (len_utf8 c) by (cbn; lia).
      subst v. replace [c] with (units k c) at 2 by (destruct k; [reflexivity|reflexivity|contradiction]).
      apply sr_char.
      * intro Hin. cbn in Hin. repeat (destruct Hin as [Hin|Hin]; [now subst c|]). exact Hin.
      * apply it_value; [exact H6|]. intro. contradiction.
    + apply app_inv_head in E. injection E as E.
      change ((BACKSLASH :: e) ++ [SQUOTE] = s ++ [SQUOTE]) in E. apply app_inv_tail in E. subst s w.
      cbn [str_len]. apply sr_escape. now apply as_value.
Qed.

Lemma single_iff {A} k (u : unescaper A) push s v : k <> KC -> implements k u push -> exactly k u push ->
  (forall x y, push x = push y -> x = y) -> forall a, push a = [v] ->
  snd (unescape_single u s) = UOk a <-> char_denotes k (prefix k ++ [SQUOTE] ++ s ++ [SQUOTE]) v.
Proof.
  intros Hk I X Hinj a Ha. destruct (single_exact _ _ _ I X s) as (t & r & -> & Hl & H). cbn [snd].
  assert (Hs := proj2 (H _ (out push r)) (conj eq_refl eq_refl)). split.
  - intros ->. cbn [out] in Hs. rewrite Ha in Hs. apply single_value in Hs; [|exact Hk].
    destruct Hs as (_ & v' & [= <-] & Hd). exact Hd.
  - intro Hd. assert (Hs' : single_report k s (str_len s) (UOk [v])).
    { apply single_value; eauto. }
    apply H in Hs'. destruct Hs' as [_ E]. destruct r as [a'|e]; [|discriminate].
    cbn [out] in E. injection E as E. f_equal. apply Hinj. congruence.
Qed.
Lemma unescape_char_value s c :
  unescape_char s = UOk c <-> char_denotes KStr ([SQUOTE] ++ s ++ [SQUOTE]) c.
Proof.
  apply (single_iff KStr str_unescaper (fun c => [c])); auto;
    [discriminate|apply str_implements|apply str_exactly|now intros x y [= ->]].
Qed.
Lemma unescape_byte_value s b :
  unescape_byte s = UOk b <-> char_denotes KByte (tag "b'" ++ s ++ [SQUOTE]) b.
Proof.
  apply (single_iff KByte byte_unescaper (fun c => [c])); auto;
    [discriminate|apply byte_implements|apply byte_exactly|now intros x y [= ->]].
Qed.
Lemma single_computed {A} k (u : unescaper A) push s : implements k u push -> exactly k u push ->
  forall x, out push (snd (unescape_single u s)) = x <-> exists n, single_report k s n x.
Proof.
  intros I X x. destruct (single_exact _ _ _ I X s) as (t & r & -> & Hl & H). cbn [snd]. split.
  - intros <-. eexists. apply H. auto.
  - intros [n Hs]. apply H in Hs. symmetry. apply Hs.
Qed.
Lemma unescape_char_error s e :
  unescape_char s = UErr e <-> exists n, single_report KStr s n (UErr e).
Proof.
  rewrite <- (single_computed KStr str_unescaper (fun c => [c]));
    [|apply str_implements|apply str_exactly].
  unfold unescape_char. destruct (snd (unescape_single str_unescaper s)); cbn [out]; split; congruence.
Qed.
Lemma unescape_byte_error s e :
  unescape_byte s = UErr e <-> exists n, single_report KByte s n (UErr e).
Proof.
  rewrite <- (single_computed KByte byte_unescaper (fun c => [c]));
    [|apply byte_implements|apply byte_exactly].
  unfold unescape_byte. destruct (snd (unescape_single byte_unescaper s)); cbn [out]; split; congruence.
Qed.

(** ** Checks *)
Lemma only_errors_of {A} (push : A -> list N) ev : errors_of (map (shown_event push) ev) (only_errors ev).
Proof.
  unfold errors_of. induction ev as [|[g [a|e]] ev IH]; [reflexivity|exact IH|].
  cbn [map filter]. unfold only_errors in *. cbn. now rewrite IH.
Qed.
Lemma errors_of_fun {A} (ev : list (event A)) x y : errors_of ev x -> errors_of ev y -> x = y.
Proof.
  unfold errors_of. intros H H'. rewrite <- H' in H. clear H'. revert y H. induction x as [|[g e] x IH]; intros [|[g' e'] y] H; try discriminate.
  - reflexivity.
  - cbn in H. injection H as -> -> H. f_equal. now apply IH.
Qed.
Lemma check_exact m s :
  exists errs, check_for_errors s m = Ok errs /\
    exists ev, (forall ev', mode_reports m s ev' <-> ev' = ev) /\ errors_of ev errs.
Proof.
  assert (Hs : forall A k (u : unescaper A) push, implements k u push -> exactly k u push ->
    exists errs, single_error u s = Ok errs /\
      exists ev, (forall ev', (exists n x, single_report k s n x /\ ev' = [((O, n), x)]) <-> ev' = ev) /\
                 errors_of ev errs).
  { intros A k u push I X. unfold single_error.
    destruct (single_exact _ _ _ I X s) as (t & r & -> & Hl & H).
    assert (Hev : forall ev', (exists n x, single_report k s n x /\ ev' = [((O, n), x)])
              <-> ev' = [((O, (str_len s - str_len t)%nat), out push r)]).
    { intro ev'. split.
      - intros (n & x & Hx & ->). apply H in Hx. destruct Hx as [-> ->]. reflexivity.
      - intros ->. do 2 eexists. split; [apply H; split; reflexivity|reflexivity]. }
    destruct r as [a|e].
    - eexists. split; [reflexivity|]. eexists. split; [exact Hev|reflexivity].
    - rewrite checked_sub_ok by lia. cbn [bind]. eexists. split; [reflexivity|].
      eexists. split; [exact Hev|reflexivity]. }
  assert (Hc : forall A k (u : unescaper A) push, implements k u push -> exactly k u push ->
    exists errs, (let? ev := unescape u s in Ok (only_errors ev)) = Ok errs /\
      exists ev, (forall ev', reports k 0 s ev' <-> ev' = ev) /\ errors_of ev errs).
  { intros A k u push I X. destruct (unescape_exact _ _ _ I X s) as (ev & -> & H). cbn [bind].
    eexists. split; [reflexivity|]. eexists. split; [exact H|]. apply only_errors_of. }
  assert (Hr : forall A k (f : char -> uresult A) push, (forall c, itself k c (out push (f c))) ->
    exists errs, (let? ev := check_raw f s in Ok (only_errors ev)) = Ok errs /\
      exists ev, (forall ev', raw_reports k 0 s ev' <-> ev' = ev) /\ errors_of ev errs).
  { intros A k f push Hf. destruct (check_raw_exact k f push Hf s) as (ev & -> & H). cbn [bind].
    eexists. split; [reflexivity|]. eexists. split; [exact H|]. apply only_errors_of. }
  destruct m; unfold mode_reports, mode_form; cbn [check_for_errors].
  - exact (Hs _ _ _ _ str_implements str_exactly).
  - exact (Hs _ _ _ _ byte_implements byte_exactly).
  - exact (Hc _ _ _ _ str_implements str_exactly).
  - exact (Hr _ _ _ _ str_raw_itself).
  - exact (Hc _ _ _ _ byte_implements byte_exactly).
  - exact (Hr _ _ _ _ byte_raw_itself).
  - exact (Hc _ _ _ _ c_implements c_exactly).
  - exact (Hr _ _ _ _ c_raw_itself).
Qed.

Lemma raw_valid k p s ev : raw_reports k p s ev ->
  (only_warnings ev <-> ~ In CR s /\ Forall (raw_allowed k) s).
Proof.
  induction 1 as [p|p s ev H IH|p c s x ev H1 Hx H IH].
  - split; [split; [tauto|constructor]|intros _ ? ? []].
  - split.
    + intro Hw. exfalso. destruct (Hw _ _ (or_introl eq_refl)); discriminate.
    + intros [Hn _]. destruct Hn. now left.
  - assert (Ha : raw_allowed k c <-> exists v, x = UOk v).
    { destruct Hx as [Hb Hc|Hk Hc|Hk Hc].
      - split; [eauto|intros _]. destruct k; cbn; auto.
      - subst k. cbn. split; [lia|intros [? ?]; discriminate].
      - subst k. cbn. split; [contradiction|intros [? ?]; discriminate]. }
    split.
    + intro Hw. destruct (proj1 IH) as [I1 I2].
      { intros g e Hin. apply (Hw g). now right. }
      split; [intros [E|E]; auto|]. constructor; [|exact I2]. apply Ha. destruct x as [v|e]; [eauto|].
      exfalso. apply (itself_error _ _ _ Hx). apply (Hw _ _ (or_introl eq_refl)).
    + intros [Hn Hf] g e [E|Hin].
      * assert (Hc := Forall_inv Hf). apply Ha in Hc. destruct Hc as [v ->]. discriminate.
      * apply (proj2 IH) with g; [|exact Hin]. split; [|exact (Forall_inv_tail Hf)].
        intro Hin'. apply Hn. now right.
Qed.

Lemma errors_in {A} (ev : list (event A)) errs : errors_of ev errs ->
  forall g e, In (g, e) errs <-> In (g, UErr e) ev.
Proof.
  unfold errors_of. intros H g e.
  transitivity (In (g, @UErr A e) (map (fun x => (fst x, UErr (snd x))) errs)).
  - rewrite in_map_iff. split.
    + intro Hin. exists (g, e). auto.
    + intros ([g' e'] & [= <- <-] & Hin). exact Hin.
  - rewrite H, filter_In. cbn. tauto.
Qed.

Lemma check_valid m s :
  mode_valid m s <->
  exists errs, check_for_errors s m = Ok errs /\ forall g e, In (g, e) errs -> warning e.
Proof.
  destruct (check_exact m s) as (errs & Hc & ev & Hev & He). rewrite Hc.
  assert (Hr : mode_reports m s ev) by now apply Hev.
  transitivity (only_warnings ev).
  2:{ unfold only_warnings. split.
      - intro Hw. exists errs. split; [reflexivity|]. intros g e Hin. apply (Hw g).
        now apply (errors_in _ _ He).
      - intros (x & [= <-] & Hw) g e Hin. apply (Hw g). now apply (errors_in _ _ He). }
  unfold mode_reports in Hr. unfold mode_valid. destruct (mode_form m) as [[| |] k] eqn:Em.
  - assert (Hk : k <> KC) by (destruct m; cbn in Em; congruence).
    destruct Hr as (n & x & Hs & ->). split.
    + intros [v Hv]. assert (Hs' : single_report k s (str_len s) (UOk [v])).
      { apply single_value; eauto. }
      assert (E : [((O, str_len s), UOk [v])] = [((O, n), x)]).
      { apply Hev. unfold mode_reports. rewrite Em. eauto. }
      injection E as _ <-. intros g e [E|[]]. discriminate.
    + intro Hw. destruct x as [x|e].
      * apply single_value in Hs; [|exact Hk]. destruct Hs as (_ & v & _ & Hv). eauto.
      * exfalso. apply (single_error_fatal _ _ _ _ Hs). apply (Hw _ _ (or_introl eq_refl)).
  - split.
    + intros [v Hv]. now apply (reports_meaning _ _ _ Hr) in Hv.
    + intro Hw. exists (values ev). now apply (reports_meaning _ _ _ Hr).
  - symmetry. eapply raw_valid. exact Hr.
Qed.

Lemma mode_table m :
  prefix_noraw m = prefix (snd (mode_form m)) /\
  (in_double_quotes m = false <-> fst (mode_form m) = Single).
Proof. destruct m; cbn; split; auto; split; congruence. Qed.

Lemma callbacks s :
  (exists ev, unescape str_unescaper s = Ok ev /\
     forall ev', reports KStr 0 s ev' <-> ev' = map (shown_event (fun c => [c])) ev) /\
  (exists ev, unescape byte_unescaper s = Ok ev /\
     forall ev', reports KByte 0 s ev' <-> ev' = map (shown_event (fun b => [b])) ev) /\
  (exists ev, unescape c_unescaper s = Ok ev /\
     forall ev', reports KC 0 s ev' <-> ev' = map (shown_event push_mixed) ev).
Proof.
  split; [|split].
  - exact (unescape_exact _ _ _ str_implements str_exactly s).
  - exact (unescape_exact _ _ _ byte_implements byte_exactly s).
  - exact (unescape_exact _ _ _ c_implements c_exactly s).
Qed.
Lemma raw_callbacks s :
  (exists ev, check_raw str_raw_unit s = Ok ev /\
     forall ev', raw_reports KStr 0 s ev' <-> ev' = map (shown_event (fun c => [c])) ev) /\
  (exists ev, check_raw byte_raw_unit s = Ok ev /\
     forall ev', raw_reports KByte 0 s ev' <-> ev' = map (shown_event (fun b => [b])) ev) /\
  (exists ev, check_raw c_raw_unit s = Ok ev /\
     forall ev', raw_reports KC 0 s ev' <-> ev' = map (shown_event encode_utf8) ev).
Proof.
  split; [|split].
  - exact (check_raw_exact _ _ _ str_raw_itself s).
  - exact (check_raw_exact _ _ _ byte_raw_itself s).
  - exact (check_raw_exact _ _ _ c_raw_itself s).
Qed.
