(** Every byte that is passed is paid for: the counted lexer takes at least as many steps
    as the accepted text has bytes. *)
From Verif Require Import Base BaseFacts Unicode Tokens Lexer Timed TimedErase TimedBounds.

Definition atleast {A} (left : A -> nat) (h : nat) (m : timed A) : Prop :=
  forall x, fst m = Ok x -> h <= snd m + left x.

Lemma a_charge {A} (left : A -> nat) h n m : atleast left h m -> atleast left h (charge n m).
Proof. intros H x E. specialize (H x E). cbn [charge snd]. lia. Qed.
Lemma a_ret {A} (left : A -> nat) h a : h <= left a -> atleast left h (ret a).
Proof. intros H x [= <-]. cbn. lia. Qed.
Lemma a_reject {A} (left : A -> nat) h : atleast left h reject. Proof. intros x [=]. Qed.
Lemma a_panic {A} (left : A -> nat) h : atleast left h panic. Proof. intros x [=]. Qed.
Lemma a_fuel {A} (left : A -> nat) h : atleast left h no_fuel. Proof. intros x [=]. Qed.
Lemma a_work {A} (left : A -> nat) h n r : (forall x, r = Ok x -> h <= left x) -> atleast left h (work n r).
Proof. intros H x E. specialize (H x E). cbn. lia. Qed.
Lemma a_bind {A B} (mid : A -> nat) (left : B -> nat) h m f :
  atleast mid h m -> (forall x, fst m = Ok x -> atleast left (mid x) (f x)) -> atleast left h (tbind m f).
Proof.
  intros H1 H2. destruct m as [[a| | |] n]; cbn [tbind]; intros x E; try discriminate E.
  specialize (H1 a eq_refl). specialize (H2 a eq_refl x E). cbn [snd charge] in *. lia.
Qed.
Lemma a_bind_any {A B} (left : B -> nat) h (m : timed A) f :
  (forall x, fst m = Ok x -> atleast left h (f x)) -> atleast left h (tbind m f).
Proof. intros H. apply a_bind with (mid := fun _ => h); [|exact H]. intros x _. lia. Qed.
Lemma a_if_ok {A B} (mid : A -> nat) (left : B -> nat) h m f e :
  atleast mid h m -> (forall x, fst m = Ok x -> atleast left (mid x) (f x)) -> atleast left h e ->
  atleast left h (t_if_ok m f e).
Proof.
  intros H1 H2 H3. destruct m as [[a| | |] n]; cbn [t_if_ok]; intros x E; try discriminate E.
  - specialize (H1 a eq_refl). specialize (H2 a eq_refl x E). cbn [snd charge] in *. lia.
  - specialize (H3 x E). cbn [snd charge]. lia.
Qed.
Lemma a_advance c n : atleast len (len c) (t_advance c n).
Proof.
  intros c' E. unfold t_advance in *. cbn [fst snd work] in *. unfold advance in E.
  destruct (split_at (rest c) n) as [[p r]|] eqn:E'; [|discriminate]. injection E as <-.
  apply split_at_inv in E' as [E' ->]. unfold len. cbn [rest]. rewrite E', str_len_app. lia.
Qed.

Create HintDb pay discriminated.
#[export] Hint Constants Opaque : pay.
#[export] Hint Resolve a_advance a_reject a_panic a_fuel : pay.
Definition len1 {A} (x : cursor * A) : nat := len (fst x).
Ltac paystep := cbv beta; lazymatch goal with
  | |- forall _, _ => intros ?
  | |- atleast _ (len1 (?c, _)) _ => change (len1 (c, _)) with (len c)
  | |- atleast _ _ (charge _ _) => apply a_charge
  | |- atleast _ _ (ret _) => apply a_ret; unfold len1; cbn [fst]; lia
  | |- atleast _ _ (work _ (Ok _)) =>
      apply a_work; let E := fresh in intros ? E; injection E as <-; unfold len1; cbn [fst]; lia
  | |- atleast _ _ (tbind _ _) =>
      first [ eapply a_bind; [solve [auto 2 with pay nocore]|] | apply a_bind_any ]
  | |- atleast _ _ (t_if_ok _ _ _) => eapply a_if_ok; [solve [auto 2 with pay nocore]| |]
  | |- atleast _ _ (match ?x with _ => _ end) => destruct x
  | |- atleast _ _ _ => solve [auto 2 with pay nocore]
  end.
Ltac pay := cbv zeta; repeat paystep.

Lemma a_parse_tag c t : atleast len (len c) (t_parse_tag c t).
Proof. unfold t_parse_tag. pay. Qed.
Lemma a_take_loop input i chars : atleast len1 (len input) (t_take_until_newline_loop input i chars).
Proof. revert i. induction chars as [|ch t IH]; intros i; cbn [t_take_until_newline_loop]; pay; apply IH. Qed.
Lemma a_take input : atleast len1 (len input) (t_take_until_newline_or_eof input).
Proof. apply a_take_loop. Qed.
Lemma a_block_loop input fuel depth i bs : atleast len1 (len input) (t_block_comment_loop input fuel depth i bs).
Proof.
  revert depth i bs. induction fuel as [|fuel IH]; intros depth i bs; cbn [t_block_comment_loop]; pay; apply IH.
Qed.
#[export] Hint Resolve a_parse_tag a_take a_block_loop : pay.
Lemma a_block input : atleast len1 (len input) (t_block_comment input).
Proof. unfold t_block_comment. pay. Qed.
#[export] Hint Resolve a_block : pay.
Lemma a_skip_loop fuel s : atleast len (len s) (t_skip_whitespace_loop fuel s).
Proof. revert s. induction fuel as [|fuel IH]; intros s; cbn [t_skip_whitespace_loop]; pay; apply IH. Qed.
Lemma a_skip s : atleast len (len s) (t_skip_whitespace s).
Proof. apply a_skip_loop. Qed.
#[export] Hint Resolve a_skip : pay.

Section WithUnicode.
Context {U : unicode}.

Lemma a_ident_not_raw c : atleast len1 (len c) (t_ident_not_raw c).
Proof. unfold t_ident_not_raw. pay. Qed.
Hint Resolve a_ident_not_raw : pay.
Lemma a_ident_any c : atleast len1 (len c) (t_ident_any c).
Proof. unfold t_ident_any. pay.  Qed.
Hint Resolve a_ident_any : pay.
Lemma a_ident c : atleast len1 (len c) (t_ident c).
Proof. unfold t_ident. pay. Qed.
Lemma a_suffix c : atleast len (len c) (t_literal_suffix c).
Proof. unfold t_literal_suffix. pay. Qed.
Hint Resolve a_ident a_suffix : pay.
Lemma a_word_break c : atleast len (len c) (t_word_break c).
Proof.
  unfold t_word_break. apply a_work. unfold word_break. intros x.
  destruct (first_char c); [destruct (is_ident_continue _)|]; intros [= <-]; lia.
Qed.
Hint Resolve a_word_break : pay.
Lemma a_trail_loop input fuel last ws : atleast len (len input) (t_trailing_backslash_loop input fuel last ws).
Proof.
  revert last ws. induction fuel as [|fuel IH]; intros last ws; cbn [t_trailing_backslash_loop]; pay; apply IH.
Qed.
Lemma a_trail input last : atleast len (len input) (t_trailing_backslash input last).
Proof. apply a_trail_loop. Qed.
Hint Resolve a_trail : pay.
Lemma a_cooked_loop fuel input it : atleast len (len input) (t_cooked_string_loop fuel input it).
Proof.
  revert input it. induction fuel as [|fuel IH]; intros input it; cbn [t_cooked_string_loop]; pay; apply IH.
Qed.
Lemma a_cooked input : atleast len (len input) (t_cooked_string input).
Proof. apply a_cooked_loop. Qed.
Lemma a_cooked_byte_loop fuel input it : atleast len (len input) (t_cooked_byte_string_loop fuel input it).
Proof.
  revert input it. induction fuel as [|fuel IH]; intros input it; cbn [t_cooked_byte_string_loop]; pay; apply IH.
Qed.
Lemma a_cooked_byte input : atleast len (len input) (t_cooked_byte_string input).
Proof. apply a_cooked_byte_loop. Qed.
Lemma a_cooked_c_loop fuel input it : atleast len (len input) (t_cooked_c_string_loop fuel input it).
Proof.
  revert input it. induction fuel as [|fuel IH]; intros input it; cbn [t_cooked_c_string_loop]; pay; apply IH.
Qed.
Lemma a_cooked_c input : atleast len (len input) (t_cooked_c_string input).
Proof. apply a_cooked_c_loop. Qed.
Hint Resolve a_cooked a_cooked_byte a_cooked_c : pay.
Lemma a_delim_loop input i bs : atleast len1 (len input) (t_delimiter_loop input i bs).
Proof. revert i. induction bs as [|b t IH]; intros i; cbn [t_delimiter_loop]; pay; apply IH. Qed.
Lemma a_delim input : atleast len1 (len input) (t_delimiter_of_raw_string input).
Proof. apply a_delim_loop. Qed.
Lemma a_raw_loop ok input delim fuel it : atleast len (len input) (t_raw_string_loop ok input delim fuel it).
Proof. revert it. induction fuel as [|fuel IH]; intros it; cbn [t_raw_string_loop]; pay; apply IH. Qed.
Hint Resolve a_delim a_raw_loop : pay.
Lemma a_raw ok input : atleast len (len input) (t_raw_string_with ok input).
Proof. unfold t_raw_string_with. pay. Qed.
Lemma a_raw1 input : atleast len (len input) (t_raw_string input). Proof. apply a_raw. Qed.
Lemma a_raw2 input : atleast len (len input) (t_raw_byte_string input). Proof. apply a_raw. Qed.
Lemma a_raw3 input : atleast len (len input) (t_raw_c_string input). Proof. apply a_raw. Qed.
Hint Resolve a_raw1 a_raw2 a_raw3 : pay.
Lemma a_string c : atleast len (len c) (t_string_lit c).
Proof. unfold t_string_lit. pay. Qed.
Lemma a_byte_string c : atleast len (len c) (t_byte_string c).
Proof. unfold t_byte_string. pay. Qed.
Lemma a_c_string c : atleast len (len c) (t_c_string c).
Proof. unfold t_c_string. pay. Qed.
Lemma a_byte_lit c : atleast len (len c) (t_byte_lit c).
Proof. unfold t_byte_lit. pay. Qed.
Lemma a_character c : atleast len (len c) (t_character c).
Proof. unfold t_character. pay. Qed.
Hint Resolve a_string a_byte_string a_c_string a_byte_lit a_character : pay.
Lemma a_float_digits c : atleast len (len c) (t_float_digits c).
Proof.
  unfold t_float_digits. apply a_charge. destruct (rest c) as [|ch t]; [pay|].
  destruct (is_dec_digit ch); [|pay]. apply a_bind_any. intros [[[n has_dot] has_exp] chars] _.
  destruct (negb (has_dot || has_exp)); [pay|]. destruct has_exp; [|pay].
  apply a_bind with (mid := fun o => match o with Some c' => len c' | None => len c end).
  - destruct has_dot; [|pay]. eapply a_bind; [apply a_advance|]. intros c' _. pay.
  - intros o Ho. apply a_bind_any. intros [m|] _; [|destruct o; pay].
    destruct has_dot.
    + (* the earlier end of the mantissa is not used *)
      intros r Hr. destruct o as [c'|]; [|exact (a_advance c m r Hr)].
      assert (Hc : len c' <= len c).
      { cbn in Ho. unfold t_advance in Ho. destruct (advance c (n - 1)) as [c2| | |] eqn:E; cbn in Ho; try discriminate.
        injection Ho as <-. unfold advance in E. destruct (split_at (rest c) (n - 1)) as [[p r']|] eqn:E'; [|discriminate].
        injection E as <-. apply split_at_inv in E' as [E' _]. unfold len. cbn [rest]. rewrite E', str_len_app. lia. }
      pose proof (a_advance c m r Hr). lia.
    + injection Ho as <-. apply a_advance.
Qed.
Hint Resolve a_float_digits : pay.
Lemma a_number_tail c : atleast len (len c) (t_number_tail c).
Proof.
  unfold t_number_tail. apply a_bind with (mid := len); [|pay]. pay.
Qed.
Hint Resolve a_number_tail : pay.
Lemma a_float c : atleast len (len c) (t_float_lit c).
Proof. unfold t_float_lit. pay. Qed.
Lemma a_digits c : atleast len (len c) (t_digits c).
Proof. unfold t_digits. apply a_bind with (mid := len1); pay. Qed.
Hint Resolve a_digits : pay.
Lemma a_int c : atleast len (len c) (t_int_lit c).
Proof. unfold t_int_lit. pay. Qed.
Hint Resolve a_float a_int : pay.
Lemma a_literal_nocapture c : atleast len (len c) (t_literal_nocapture c).
Proof. unfold t_literal_nocapture. pay. Qed.
Hint Resolve a_literal_nocapture : pay.
Lemma a_literal c : atleast len1 (len c) (t_literal c).
Proof. unfold t_literal. pay. Qed.
Lemma a_punct_char c : atleast len1 (len c) (t_punct_char c).
Proof. unfold t_punct_char. pay. Qed.
Hint Resolve a_literal a_punct_char : pay.
Lemma a_punct c : atleast len1 (len c) (t_punct c).
Proof.
  unfold t_punct. eapply a_bind; [apply a_punct_char|]. intros [r ch] _. unfold len1 at 2. cbn [fst].
  destruct (ch =? SQUOTE)%N; apply a_bind_any; pay.
Qed.
Hint Resolve a_punct : pay.
Lemma a_leaf c : atleast len1 (len c) (t_leaf_token c).
Proof. unfold t_leaf_token. pay. Qed.
Lemma a_doc_contents c : atleast len1 (len c) (t_doc_comment_contents c).
Proof. unfold t_doc_comment_contents. pay. Qed.
Hint Resolve a_leaf a_doc_contents : pay.
Lemma a_doc c : atleast len1 (len c) (t_doc_comment c).
Proof. unfold t_doc_comment. pay. Qed.
Hint Resolve a_doc : pay.

Definition reads_all (h : nat) (m : timed lexed) : Prop := forall ts, fst m = Ok (Lexed ts) -> h <= snd m.
Lemma r_charge h n m : reads_all h m -> reads_all h (charge n m).
Proof. intros H ts E. specialize (H ts E). cbn [charge snd]. lia. Qed.
Lemma r_bind {A} (mid : A -> nat) h m f :
  atleast mid h m -> (forall x, reads_all (mid x) (f x)) -> reads_all h (tbind m f).
Proof.
  intros H1 H2. destruct m as [[a| | |] n]; cbn [tbind]; intros ts E; try discriminate E.
  specialize (H1 a eq_refl). specialize (H2 a ts E). cbn [snd charge] in *. lia.
Qed.
Lemma r_if_ok {A} (mid : A -> nat) h m f e :
  atleast mid h m -> (forall x, reads_all (mid x) (f x)) -> reads_all h e -> reads_all h (t_if_ok m f e).
Proof.
  intros H1 H2 H3. destruct m as [[a| | |] n]; cbn [t_if_ok]; intros ts E; try discriminate E.
  - specialize (H1 a eq_refl). specialize (H2 a ts E). cbn [snd charge] in *. lia.
  - specialize (H3 ts E). cbn [snd charge]. lia.
Qed.
Lemma r_error h e : reads_all h (ret (LexError e)).
Proof. intros ts [=]. Qed.

Lemma r_stream_loop fuel c ts stack : reads_all (len c) (t_token_stream_loop fuel c ts stack).
Proof.
  revert c ts stack. induction fuel as [|fuel IH]; intros c ts stack; cbn [t_token_stream_loop]; [intros ? [=]|].
  eapply r_bind; [apply a_skip|]. intros c1.
  eapply r_if_ok; [apply a_doc| |].
  { intros [r doc]. apply IH. }
  apply r_charge. destruct (first_byte c1) as [b|] eqn:Eb.
  2: { destruct stack as [|[lo fr] stack]; [|apply r_error]. intros ? _. unfold first_byte in Eb. unfold len.
       destruct (rest c1) as [|ch t]; [cbn; lia|].
       destruct (first_byte_char ch t) as (b & u & E & _). rewrite E in Eb. discriminate. }
  apply r_charge. destruct (open_delimiter c1 b) as [d|].
  { eapply r_bind; [apply a_advance|]. intros c2. apply r_charge, IH. }
  destruct (close_delimiter b) as [d|].
  { destruct stack as [|[lo [od outer]] stack]; [apply r_error|].
    destruct (negb (delim_eqb od d)); [apply r_error|].
    eapply r_bind; [apply a_advance|]. intros c2. apply r_charge, IH. }
  eapply r_if_ok; [apply a_leaf| |apply r_error].
  intros [r tok]. apply r_charge, IH.
Qed.
Lemma stream_reads start src ts :
  token_stream_from_str start src = Ok (Lexed ts) ->
  str_len src <= snd (t_token_stream_from_str start src).
Proof.
  intros H. rewrite <- (er_from_str start src) in H. revert ts H.
  change (reads_all (len (mkcur src start)) (t_token_stream_from_str start src)).
  unfold t_token_stream_from_str. eapply r_bind with (mid := len).
  - apply a_charge. destruct (cstarts _ _); [apply a_advance|apply a_ret; lia].
  - intros c. apply r_stream_loop.
Qed.
Lemma literal_reads start src r sp :
  literal_from_str start src = Ok (LitOk r sp) ->
  str_len src <= snd (t_literal_from_str start src).
Proof.
  intros H. rewrite <- (er_literal_from_str start src) in H. revert H.
  unfold t_literal_from_str. set (c := mkcur src start). change (str_len src) with (len c).
  set (after := charge 2 _). intros H.
  assert (Ha : atleast len (len c) after).
  { unfold after. pay. }
  revert H. generalize after, Ha. clear after Ha. intros after Ha.
  destruct after as [[c1| | |] n]; cbn [t_if_ok charge ret fst snd]; try discriminate.
  specialize (Ha c1 eq_refl). cbn [snd] in Ha.
  pose proof (a_literal c1) as Hl.
  destruct (t_literal c1) as [[[c2 repr]| | |] m]; cbn [t_if_ok charge ret fst snd]; try discriminate.
  specialize (Hl _ eq_refl). unfold len1 in Hl. cbn [fst snd] in Hl.
  destruct (rest c2) eqn:E; [|discriminate]. intros _. unfold len in Hl at 2. rewrite E in Hl. cbn [str_len] in Hl. lia.
Qed.
End WithUnicode.
