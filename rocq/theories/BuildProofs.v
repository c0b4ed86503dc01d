(** * The build script: proofs *)
From Verif Require Import Base BaseFacts LitNew Utf8 BuildWorld Build SpecBuild.
Import ListNotations.
Local Open Scope N_scope.

(** ** Pieces *)

Lemma split_not_nil sep s : split sep s <> [].
Proof. destruct s as [|c s]; cbn; [discriminate|]. destruct (c =? sep); [discriminate|]. now destruct (split sep s). Qed.

Lemma split_pieces sep s : Forall (fun f => ~ In sep f) (split sep s).
Proof.
  induction s as [|c s IH]; cbn.
  - repeat constructor. intros [].
  - destruct (N.eqb_spec c sep) as [->|D]; [constructor; [intros []|assumption]|].
    destruct (split sep s) as [|p ps]; [repeat constructor; intros [E|[]]; auto|].
    inversion IH; subst. constructor; [|assumption]. intros [E|E]; auto.
Qed.

Lemma split_joined sep s : joined sep (split sep s) = s.
Proof.
  induction s as [|c s IH]; [reflexivity|]. cbn [split].
  pose proof (split_not_nil sep s) as D.
  destruct (N.eqb_spec c sep) as [->|E].
  - destruct (split sep s) as [|p ps]; [easy|]. change (sep :: joined sep (p :: ps) = sep :: s). now rewrite IH.
  - destruct (split sep s) as [|p ps]; [easy|].
    rewrite <- IH. now destruct ps.
Qed.

Lemma split_app sep p s : ~ In sep p -> split sep (p ++ sep :: s) = p :: split sep s.
Proof.
  induction p as [|c p IH]; intro D; cbn.
  - now rewrite N.eqb_refl.
  - destruct (N.eqb_spec c sep) as [->|_]; [destruct D; now left|].
    rewrite IH by (intro; apply D; now right). reflexivity.
Qed.

Lemma split_none sep p : ~ In sep p -> split sep p = [p].
Proof.
  induction p as [|c p IH]; intro D; cbn; [reflexivity|].
  destruct (N.eqb_spec c sep) as [->|_]; [destruct D; now left|].
  rewrite IH by (intro; apply D; now right). reflexivity.
Qed.

Lemma joined_split sep fs : fs <> [] -> Forall (fun f => ~ In sep f) fs -> split sep (joined sep fs) = fs.
Proof.
  induction fs as [|f fs IH]; intros D H; [easy|].
  inversion H; subst. destruct fs as [|g fs]; [now apply split_none|].
  change (split sep (f ++ sep :: joined sep (g :: fs)) = f :: g :: fs).
  rewrite split_app by assumption. now rewrite IH.
Qed.

(** ** Numbers *)

Lemma digit_spec c : is_dec_digit c = true <-> digit c.
Proof. unfold is_dec_digit, between, digit. lia. Qed.

Lemma parse_digits_spec s : forall acc n, acc <= u32_max ->
  (parse_digits acc s = Some n <->
   Forall digit s /\ n = acc * 10 ^ N.of_nat (length s) + number s /\ n <= u32_max).
Proof.
  induction s as [|c s IH]; intros acc n B; cbn [parse_digits number length].
  - change (10 ^ N.of_nat 0) with 1. split.
    + intros [= <-]. split; [constructor|lia].
    + intros [_ [-> _]]. f_equal. lia.
  - assert (P : 1 <= 10 ^ N.of_nat (length s)) by (pose proof (N.pow_nonzero 10 (N.of_nat (length s))); lia).
    assert (E : forall d, (acc * 10 + d) * 10 ^ N.of_nat (length s) + number s
      = acc * 10 ^ N.of_nat (S (length s)) + (d * 10 ^ N.of_nat (length s) + number s)).
    { intro d. rewrite Nat2N.inj_succ, N.pow_succ_r'. lia. }
    destruct (is_dec_digit c) eqn:Dc.
    + apply digit_spec in Dc.
      destruct (N.leb_spec (acc * 10 + (c - 48)) u32_max) as [L|L].
      * rewrite IH by assumption. rewrite E. split; intros [F R]; (split; [|exact R]).
        -- now constructor.
        -- now inversion F.
      * split; [discriminate|]. intros [_ [-> U]]. rewrite <- E in U. nia.
    + split; [discriminate|]. intros [F _]. inversion F; subst.
      apply digit_spec in H1. congruence.
Qed.

Lemma parse_u32_spec s n : parse_u32 s = Some n <-> writes s n.
Proof.
  assert (K : forall ds, ds <> [] -> (parse_digits 0 ds = Some n <->
    ds <> [] /\ Forall digit ds /\ number ds = n /\ n < 2 ^ 32)).
  { intros ds D. rewrite parse_digits_spec by (unfold u32_max; lia).
    change (2 ^ 32) with (u32_max + 1). split.
    - intros (F & -> & L). repeat split; auto; lia.
    - intros (_ & F & <- & L). repeat split; auto; lia. }
  unfold writes. destruct s as [|c r]; cbn [parse_u32].
  - split; [discriminate|]. intros (sign & ds & E & _ & D & _).
    symmetry in E. apply app_eq_nil in E as [_ ->]. easy.
  - destruct (N.eqb_spec c 43) as [->|D].
    + destruct r as [|d r].
      * split; [discriminate|]. intros (sign & ds & E & [->| ->] & D & F & _).
        -- cbn in E. subst ds. inversion F; subst. unfold digit in *; lia.
        -- injection E as <-. easy.
      * rewrite K by discriminate. split.
        -- intros (A & B & C & L). exists (lit "+"), (d :: r). repeat split; auto.
        -- intros (sign & ds & E & [->| ->] & A & F & C & L).
           ++ cbn in E. subst ds. inversion F; subst. unfold digit in *; lia.
           ++ injection E as <-. repeat split; auto.
    + rewrite K by discriminate. split.
      * intros (A & B & C & L). exists [], (c :: r). repeat split; auto.
      * intros (sign & ds & E & [->| ->] & A & F & C & L).
        -- cbn in E. subst ds. repeat split; auto.
        -- injection E as -> _. easy.
Qed.

Lemma valid_app a b : valid_str (a ++ b) <-> valid_str a /\ valid_str b.
Proof. apply Forall_app. Qed.

Lemma from_utf8_iff v s : from_utf8 v = Utf8Ok s <-> valid_str s /\ v = str_bytes s.
Proof.
  split.
  - intro E. pose proof (from_utf8_good v) as G. unfold utf8_good in G. rewrite E in G.
    intuition.
  - intros [V ->]. now apply from_utf8_str.
Qed.

Lemma minor_of_spec v n : minor_of v = Some n <-> says v n.
Proof.
  unfold minor_of, says. split.
  - destruct (from_utf8 v) as [s|] eqn:E; [|discriminate]. apply from_utf8_iff in E as [V ->].
    pose proof (split_joined "."%ch s) as J. pose proof (split_pieces "."%ch s) as F.
    destruct (split "."%ch s) as [|major [|minor ps]]; try discriminate;
      destruct (str_eqb major (lit "rustc 1")) eqn:Q; try discriminate.
    destruct (str_eqb_spec major (lit "rustc 1")) as [->|]; [|discriminate]. intro P.
    exists minor, (match ps with [] => [] | _ => lit "." ++ joined "."%ch ps end).
    assert (Es : s = lit "rustc 1." ++ minor ++ match ps with [] => [] | _ => lit "." ++ joined "."%ch ps end).
    { rewrite <- J. destruct ps; cbn; rewrite ?app_nil_r; reflexivity. }
    rewrite Es in V. apply valid_app in V. split; [apply V|]. split; [now rewrite Es at 1|].
    split; [now inversion F as [|? ? _ F']; inversion F'|].
    split; [destruct ps; [now left|right; eauto]|]. now apply parse_u32_spec.
  - intros (minor & rest & V & -> & D & R & W).
    rewrite from_utf8_str.
    2:{ apply valid_app. split; [|assumption]. repeat constructor. }
    change (lit "rustc 1." ++ minor ++ rest) with (lit "rustc 1" ++ "."%ch :: (minor ++ rest)).
    rewrite split_app by (cbn; intuition discriminate).
    change (str_eqb (lit "rustc 1") (lit "rustc 1")) with true. cbn iota.
    apply parse_u32_spec in W.
    destruct R as [->|[more ->]].
    + now rewrite app_nil_r, split_none.
    + change (lit "." ++ more) with ("."%ch :: more). now rewrite split_app.
Qed.

(** ** Probes *)

Lemma filled_iff w key vs : filled w key vs <-> vs = nonempty (var w key).
Proof.
  unfold filled, nonempty. destruct (var w key) as [[|b v]|]; split; intro H.
  - destruct H as [(v & [= <-] & D & _)|[_ ->]]; easy.
  - right; auto.
  - destruct H as [(v' & [= <-] & D & ->)|[[[=]|[=]] _]]; easy.
  - left. exists (b :: v). repeat split; [discriminate|assumption].
  - destruct H as [(v & [=] & _)|[_ ->]]; easy.
  - right; auto.
Qed.

Lemma target_iff w ts : target w ts <->
  ts = match var w (lit "TARGET") with Some t => [lit "--target"; t] | None => [] end.
Proof.
  unfold target. destruct (var w (lit "TARGET")) as [t|]; split; intro H.
  - destruct H as [(t' & [= <-] & ->)|[[=] _]]. reflexivity.
  - left. eauto.
  - destruct H as [(t' & [=] & _)|[_ ->]]. reflexivity.
  - right. auto.
Qed.

Lemma flags_iff w fs : flags w fs <->
  fs = match var w (lit "CARGO_ENCODED_RUSTFLAGS") with
       | Some v => match from_utf8 v with Utf8Ok (_ :: _) => split 31 v | _ => [] end
       | None => []
       end.
Proof.
  unfold flags. destruct (var w (lit "CARGO_ENCODED_RUSTFLAGS")) as [v|].
  - destruct (from_utf8 v) as [[|c s]|] eqn:E.
    + apply from_utf8_iff in E as [_ ->]. split.
      * intros [(s & v & [= <-] & _ & _ & D & _)|[-> _]]; easy.
      * intros ->. right. split; [reflexivity|]. intros s v [= <-] D. easy.
    + apply from_utf8_iff in E as [V E]. split.
      * intros [(s' & v' & [= <-] & _ & _ & _ & D & J & F)|[-> N]].
        -- now rewrite <- J, joined_split.
        -- exfalso. apply (N (c :: s) v); auto. subst v. rewrite str_bytes_cons.
           destruct (encode_nonempty c) as (b & t & ->). discriminate.
      * intros ->. left. exists (c :: s), v. repeat split; auto.
        -- subst v. rewrite str_bytes_cons. destruct (encode_nonempty c) as (b & t & ->). discriminate.
        -- apply split_not_nil.
        -- apply split_joined.
        -- apply split_pieces.
    + split.
      * intros [(s & v' & [= <-] & -> & V & _)|[-> _]]; [|reflexivity].
        rewrite from_utf8_str in E by assumption. discriminate.
      * intros ->. right. split; [reflexivity|]. intros s v' [= <-] D [V ->].
        rewrite from_utf8_str in E by assumption. discriminate.
  - split.
    + intros [(s & v & [=] & _)|[-> _]]. reflexivity.
    + intros ->. right. split; [reflexivity|discriminate].
Qed.

Lemma below_iff dir name path : below dir name path <-> path = join_path dir name.
Proof.
  unfold below, join_path. destruct (rev dir) as [|c r] eqn:E.
  - assert (dir = []) as -> by (rewrite <- (rev_involutive dir), E; reflexivity).
    split; [|intros ->; now left].
    intros [[_ ->]|[(d & D & _)|[D _]]]; auto; [|easy]. symmetry in D. apply app_eq_nil in D as [_ [=]].
  - assert (Ed : dir = rev r ++ [c]) by (rewrite <- (rev_involutive dir), E; reflexivity).
    assert (N : dir <> []) by (rewrite Ed; intro K; apply app_eq_nil in K as [_ [=]]).
    destruct (N.eqb_spec c 47) as [->|Dc].
    + change [47] with (lit "/") in Ed. split.
      * intros [[D _]|[(d & D & ->)|(_ & D & _)]]; [easy| |].
        -- rewrite D. now rewrite <- app_assoc.
        -- destruct D. eauto.
      * intros ->. right. left. exists (rev r). split; [assumption|]. rewrite Ed at 1. now rewrite <- app_assoc.
    + split.
      * intros [[D _]|[(d & D & ->)|(_ & D & ->)]]; [easy| |reflexivity].
        rewrite Ed in D. apply app_inj_tail in D as [_ D]. easy.
      * intros ->. right. right. split; [assumption|]. split; [|reflexivity].
        intros [d D]. rewrite Ed in D. apply app_inj_tail in D as [_ D]. easy.
Qed.

Lemma words_split (words : list (list byte)) p args rest : words <> [] ->
  p :: args = words ++ rest <-> p = hd [] words /\ args = tl words ++ rest.
Proof. destruct words as [|x xs]; [easy|]. cbn. split; [intros [= -> ->]; auto|intros [-> ->]; auto]. Qed.

Lemma probe_iff w feature keep dir c : probe w feature keep dir c <->
  exists rustc out, var w (lit "RUSTC") = Some rustc /\ var w (lit "OUT_DIR") = Some out /\
    dir = join_path out (lit "probe") /\ c = probe_command w rustc dir feature keep.
Proof.
  assert (K : forall rustc (a b : list (list byte)), a ++ b ++ [rustc] <> []).
  { intros rustc a b E. apply app_eq_nil in E as [_ E]. apply app_eq_nil in E as [_ [=]]. }
  unfold probe. split.
  - intros (rustc & out & a & b & ts & fs & R & O & B & A1 & A2 & T & F & P & Q).
    exists rustc, out. apply below_iff in B. apply filled_iff in A1, A2. apply target_iff in T. apply flags_iff in F.
    repeat split; auto. subst a b ts fs. destruct c as [p args bs]. cbn [program arguments BuildWorld.bootstrap] in *.
    unfold probe_command. f_equal; [| |exact Q];
      match type of P with _ = ?a ++ ?b ++ [?r; ?x1; ?x2; ?x3; ?x4; ?x5; ?x6; ?x7; ?x8; ?x9] ++ ?z =>
        replace (a ++ b ++ [r; x1; x2; x3; x4; x5; x6; x7; x8; x9] ++ z)
          with ((a ++ b ++ [r]) ++ [x1; x2; x3; x4; x5; x6; x7; x8; x9] ++ z) in P
          by (rewrite <- !app_assoc; reflexivity) end;
      apply words_split in P as [P1 P2]; auto.
  - intros (rustc & out & R & O & -> & ->).
    exists rustc, out, (nonempty (var w (lit "RUSTC_WRAPPER"))), (nonempty (var w (lit "RUSTC_WORKSPACE_WRAPPER"))).
    do 2 eexists. rewrite !filled_iff, target_iff, flags_iff, below_iff. repeat (split; [eassumption || reflexivity|]).
    split; [|reflexivity]. cbn [program arguments probe_command].
    match goal with |- _ = ?a ++ ?b ++ [?r; ?x1; ?x2; ?x3; ?x4; ?x5; ?x6; ?x7; ?x8; ?x9] ++ ?z =>
        replace (a ++ b ++ [r; x1; x2; x3; x4; x5; x6; x7; x8; x9] ++ z)
          with ((a ++ b ++ [r]) ++ [x1; x2; x3; x4; x5; x6; x7; x8; x9] ++ z)
          by (rewrite <- !app_assoc; reflexivity) end.
    apply words_split; auto.
Qed.

(** ** Runs *)

Lemma bind_done {A B} (m : script A) (f : A -> script B) n b n2 es :
  bind m f n = (Some (b, n2), es) ->
  exists a n1 e1 e2, m n = (Some (a, n1), e1) /\ f a n1 = (Some (b, n2), e2) /\ es = e1 ++ e2.
Proof.
  unfold bind. destruct (m n) as [[[a n1]|] e1]; [|discriminate]. cbv zeta.
  destruct (f a n1) as [r e2] eqn:E. cbn [fst snd]. intros [= -> <-].
  exists a, n1, e1, e2. auto.
Qed.
Lemma bind_exit {A B} (m : script A) (f : A -> script B) n es :
  bind m f n = (None, es) ->
  m n = (None, es) \/ exists a n1 e1 e2, m n = (Some (a, n1), e1) /\ f a n1 = (None, e2) /\ es = e1 ++ e2.
Proof.
  unfold bind. destruct (m n) as [[[a n1]|] e1]; [|intros [= <-]; auto]. cbv zeta.
  destruct (f a n1) as [r e2] eqn:E. cbn [fst snd]. intros [= -> <-].
  right. exists a, n1, e1, e2. auto.
Qed.

Definition opt (b : bool) (es : list event) : list event := if b then es else [].
Lemma when_run b m es : (forall n, m n = (Some (tt, n), es)) -> forall n, when b m n = (Some (tt, n), opt b es).
Proof. intros H n. destruct b; cbn; auto. Qed.
Lemma when_cfg b name n : when b (rustc_cfg name) n = (Some (tt, n), opt b [cfg name]).
Proof. now destruct b. Qed.
Lemma bind_run {A B} (m : script A) (f : A -> script B) n a n1 e1 : m n = (Some (a, n1), e1) ->
  bind m f n = (fst (f a n1), e1 ++ snd (f a n1)).
Proof. unfold bind. intros ->. reflexivity. Qed.

Definition heads (w : world) (k : N) : list event :=
  opt (80 <=? k) (map check_cfg check_cfgs) ++
  opt (semver_exempt w) [cfg (lit "procmacro2_semver_exempt")] ++
  opt (semver_exempt w || span_feature w) [cfg (lit "span_locations")] ++
  opt (k <? 57) [cfg (lit "no_is_available")] ++
  opt (k <? 66) [cfg (lit "no_source_text")] ++
  opt (k <? 79) [cfg (lit "no_literal_byte_character"); cfg (lit "no_literal_c_string")].
Definition number_of (w : world) : N :=
  match var w (lit "RUSTC") with
  | Some rustc =>
      match version w rustc with
      | Some stdout => match minor_of stdout with Some n => n | None => u32_max end
      | None => u32_max
      end
  | None => u32_max
  end.
Definition tails (w : world) : script unit :=
  if negb (macro_feature w) then println (lit "cargo:rerun-if-changed=build.rs")
  else
    let* probed := probe_span w in
    when (fst probed || negb (semver_exempt w)) (rustc_cfg (lit "wrap_proc_macro"));;
    when (fst probed) (rustc_cfg (lit "proc_macro_span"));;
    let* location := or_else (fst probed) (88 <=? number_of w) (compile_probe_stable w (lit "proc_macro_span_location")) in
    when location (rustc_cfg (lit "proc_macro_span_location"));;
    let* file := or_else (fst probed) (88 <=? number_of w) (compile_probe_stable w (lit "proc_macro_span_file")) in
    when file (rustc_cfg (lit "proc_macro_span_file"));;
    when (semver_exempt w && fst probed) (rustc_cfg (lit "super_unstable"));;
    when (snd probed) (println (lit "cargo:rerun-if-env-changed=RUSTC_BOOTSTRAP")).

Lemma main_eq w n : main w n =
  match var w (lit "RUSTC") with
  | None => (None, [])
  | Some _ => (fst (tails w n), heads w (number_of w) ++ snd (tails w n))
  end.
Proof.
  unfold main, rustc_minor_version, cargo_env_var, tails, number_of.
  destruct (var w (lit "RUSTC")) as [rustc|]; [|reflexivity].
  rewrite (bind_run _ _ n (match version w rustc with None => None | Some stdout => minor_of stdout end) n [])
    by reflexivity.
  set (k := match version w rustc with
      | Some stdout => match minor_of stdout with Some n => n | None => u32_max end
      | None => u32_max
      end).
  replace (match match version w rustc with Some stdout => minor_of stdout | None => None end with
    | Some n => n | None => u32_max end) with k
    by (unfold k; destruct (version w rustc); reflexivity).
  rewrite (bind_run _ _ n tt n (opt (80 <=? k) (map check_cfg check_cfgs))) by (now destruct (80 <=? k)).
  rewrite (bind_run _ _ n tt n _ (when_cfg _ _ n)).
  rewrite (bind_run _ _ n tt n _ (when_cfg _ _ n)).
  rewrite (bind_run _ _ n tt n _ (when_cfg _ _ n)).
  rewrite (bind_run _ _ n tt n _ (when_cfg _ _ n)).
  rewrite (bind_run _ _ n tt n (opt (k <? 79) [cfg (lit "no_literal_byte_character"); cfg (lit "no_literal_c_string")]))
    by (now destruct (k <? 79)).
  cbn [fst snd app]. unfold heads. rewrite <- !app_assoc. reflexivity.
Qed.

Lemma number_known w m : release w m -> number_of w = m /\ m <= u32_max.
Proof.
  intros (rustc & stdout & R & V & S). unfold number_of. rewrite R, V.
  assert (L : m <= u32_max).
  { destruct S as (? & ? & _ & _ & _ & _ & W). destruct W as (? & ? & _ & _ & _ & _ & _ & W).
    change (2 ^ 32) with (u32_max + 1) in W. lia. }
  apply minor_of_spec in S. now rewrite S.
Qed.
Lemma number_unknown w : var w (lit "RUSTC") <> None -> release w (number_of w) \/ (number_of w = u32_max /\ forall m, ~ release w m).
Proof.
  intro D. unfold number_of. destruct (var w (lit "RUSTC")) as [rustc|] eqn:R; [|easy].
  destruct (version w rustc) as [stdout|] eqn:V.
  - destruct (minor_of stdout) as [m|] eqn:M.
    + left. exists rustc, stdout. now rewrite minor_of_spec in M.
    + right. split; [reflexivity|]. intros m (r & s & R' & V' & S). apply minor_of_spec in S. congruence.
  - right. split; [reflexivity|]. intros m (r & s & R' & V' & S). congruence.
Qed.
Lemma older_iff w j : var w (lit "RUSTC") <> None -> j <= u32_max -> (number_of w <? j = true <-> older w j).
Proof.
  intros D L. rewrite N.ltb_lt. split.
  - intro K. destruct (number_unknown w D) as [R|[R _]]; [|lia]. exists (number_of w). auto.
  - intros (m & R & K). apply number_known in R as [-> _]. assumption.
Qed.
Lemma since_iff w j : var w (lit "RUSTC") <> None -> j <= u32_max -> (j <=? number_of w = true <-> since w j).
Proof.
  intros D L. rewrite N.leb_le. split.
  - intros K m R. apply number_known in R as [<- _]. assumption.
  - intro H. destruct (number_unknown w D) as [R|[R _]]; [now apply H|lia].
Qed.

(** A finished probe. *)
Lemma probe_done w feature keep n b m es :
  do_compile_probe w feature keep n = (Some (b, m), es) ->
  m = S n /\ mkdir w n <> DirFailed /\ cleaned w n /\
  exists dir c, probe w feature keep dir c /\ es = [watches_file feature; Mkdir dir; Ran c; Rmdir dir] /\
    (b = true <-> compile w c = Some true).
Proof.
  unfold do_compile_probe. intro H.
  apply bind_done in H as (a1 & n1 & e1 & r1 & E1 & H & ->). injection E1 as <- <- <-.
  apply bind_done in H as (rustc & n2 & e2 & r2 & E2 & H & ->).
  unfold cargo_env_var in E2. destruct (var w (lit "RUSTC")) as [r|] eqn:R; [|discriminate]. injection E2 as <- <- <-.
  apply bind_done in H as (out & n3 & e3 & r3 & E3 & H & ->).
  unfold cargo_env_var in E3. destruct (var w (lit "OUT_DIR")) as [o|] eqn:O; [|discriminate]. injection E3 as <- <- <-.
  apply bind_done in H as (a4 & n4 & e4 & r4 & E4 & H & ->).
  unfold create_dir in E4. assert (Em : a4 = tt /\ n4 = n /\ mkdir w n <> DirFailed /\ e4 = [Mkdir (join_path o (lit "probe"))])
    by (destruct a4; destruct (mkdir w n); try discriminate E4; now injection E4 as <- <-).
  destruct Em as (-> & -> & M & ->).
  apply bind_done in H as (a5 & n5 & e5 & r5 & E5 & H & ->). injection E5 as <- <- <-.
  apply bind_done in H as (a6 & n6 & e6 & r6 & E6 & H & ->). injection H as <- <- <-.
  assert (Er : n6 = S n /\ cleaned w n /\ e6 = [Rmdir (join_path o (lit "probe"))]).
  { unfold remove_dir in E6. unfold cleaned. destruct (rmdir w n) as [| |[x|]]; try discriminate E6;
      try (injection E6 as <- <- <-; auto).
    destruct (N.eq_dec x 39) as [->|D].
    - destruct (linux w); [|discriminate E6]. injection E6 as <- <- <-. auto 10.
    - assert (X : match x with 39 => if linux w then Some (tt, S n) else None | _ => None end = None).
      { destruct x; try reflexivity. repeat (destruct p; try reflexivity; try (exfalso; now apply D)). }
      rewrite X in E6. discriminate. }
  destruct Er as (-> & C & ->). split; [reflexivity|]. split; [assumption|]. split; [assumption|].
  exists (join_path o (lit "probe")), (probe_command w r (join_path o (lit "probe")) feature keep).
  split; [apply probe_iff; exists r, o; auto|]. split; [reflexivity|].
  destruct (compile w _) as [[]|]; split; congruence.
Qed.

Lemma probe_unique w feature keep dir c dir' c' : probe w feature keep dir c -> probe w feature keep dir' c' -> dir = dir' /\ c = c'.
Proof.
  intros P Q. apply probe_iff in P as (r & o & R & O & -> & ->). apply probe_iff in Q as (r' & o' & R' & O' & -> & ->).
  rewrite R in R'. rewrite O in O'. injection R' as <-. injection O' as <-. auto.
Qed.

Lemma probe_answer w feature keep n b m es :
  do_compile_probe w feature keep n = (Some (b, m), es) -> (b = true <-> accepted w feature keep).
Proof.
  intro H. apply probe_done in H as (_ & _ & _ & dir & c & P & _ & A). rewrite A. unfold accepted. split.
  - intro K. eauto.
  - intros (dir' & c' & P' & K). destruct (probe_unique _ _ _ _ _ _ _ P P') as [_ ->]. assumption.
Qed.
