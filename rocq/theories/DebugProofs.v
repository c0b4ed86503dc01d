(** * Proofs about [Debug] texts and formatting options. *)
From Verif Require Import Base BaseFacts Unicode Tokens Lexer Fallback LitNew NumFacts LitProofs.
From Verif Require Import SpecText SpecTree SpecLit SpecPrint SpecGrammar SpecDebug Debug.
Local Open Scope list_scope.

(** ** Decimal texts *)
Lemma decimal_digit_chars ds v : decimal ds v -> ds <> [] /\ Forall (fun c => 48 <= c <= 57)%N ds.
Proof.
  induction 1 as [d Hd|ds v d H [N F] Hd].
  - split; [discriminate|]. repeat constructor; lia.
  - split; [now destruct ds|]. apply Forall_app. split; [exact F|]. repeat constructor; lia.
Qed.
Lemma decimal_cases ds v : decimal ds v ->
  (exists d, d < 10 /\ ds = [48 + d] /\ v = d)%N \/
  (exists es w d, decimal es w /\ d < 10 /\ ds = es ++ [48 + d] /\ v = 10 * w + d)%N.
Proof. destruct 1; [left|right]; eauto 10. Qed.
Lemma decimal_zero ds : decimal ds 0 -> exists t, ds = "0"%ch :: t.
Proof.
  remember 0%N as v eqn:E. intros H. revert E. induction H as [d Hd|ds v d H IH Hd]; intros E.
  - exists []. rewrite E. reflexivity.
  - destruct IH as [t ->]; [lia|]. exists (t ++ [48 + d]%N). reflexivity.
Qed.
Lemma canonical_once v : forall ds ds', canonical_decimal ds v -> canonical_decimal ds' v -> ds = ds'.
Proof.
  induction v as [v IH] using (well_founded_induction N.lt_wf_0). intros ds ds' [H C] [H' C'].
  assert (S : forall es w d, canonical_decimal (es ++ [48 + d]%N) (10 * w + d) -> decimal es w ->
                w <> 0%N /\ canonical_decimal es w).
  { intros es w d [_ Z] E. assert (Zs : forall t, es = "0"%ch :: t -> False).
    { intros t ->. specialize (Z _ eq_refl). now destruct t. }
    split; [|split; [exact E|intros t Q; now apply Zs in Q]].
    intros ->. apply decimal_zero in E as [t Et]. eauto. }
  destruct (decimal_cases _ _ H) as [(d & Hd & E1 & E2)|(es & w & d & He & Hd & E1 & E2)];
  destruct (decimal_cases _ _ H') as [(d' & Hd' & E1' & E2')|(es' & w' & d' & He' & Hd' & E1' & E2')].
  - congruence.
  - exfalso. subst ds'. assert (Z : w' <> 0%N). { eapply S; [|exact He']. rewrite <- E2'. now split. } lia.
  - exfalso. subst ds. assert (Z : w <> 0%N). { eapply S; [|exact He]. rewrite <- E2. now split. } lia.
  - subst ds ds'. assert (A : w <> 0%N /\ canonical_decimal es w) by (eapply S; [rewrite <- E2; split; eauto|exact He]).
    assert (A' : w' <> 0%N /\ canonical_decimal es' w') by (eapply S; [rewrite <- E2'; split; eauto|exact He']).
    assert (w = w' /\ d = d')%N as [-> ->] by lia. f_equal. apply (IH w'); [lia|apply A|apply A'].
Qed.
Lemma canonical_dec ds v : canonical_decimal ds v -> ds = dec_digits v.
Proof. intros H. eapply canonical_once; [exact H|apply dec_digits_canonical]. Qed.
Lemma span_text_iff sp x : span_text sp x <-> x = span_debug true sp.
Proof.
  split.
  - intros (a & b & Ha & Hb & ->). apply canonical_dec in Ha as ->. now apply canonical_dec in Hb as ->.
  - intros ->. exists (dec_digits (lo sp)), (dec_digits (hi sp)). split; [apply dec_digits_canonical|].
    split; [apply dec_digits_canonical|reflexivity].
Qed.
Lemma is_call_site_iff sp : ((lo sp =? 0) && (hi sp =? 0))%N = true <-> sp = call_site.
Proof.
  destruct sp as [a b]. cbn. split.
  - intros H. unfold call_site. f_equal; lia.
  - intros [= -> ->]. reflexivity.
Qed.

(** ** Display *)
Lemma char_display_plain c : char_display plain c = [c]. Proof. reflexivity. Qed.
Lemma str_display_plain s : str_display plain s = s. Proof. reflexivity. Qed.
Lemma print_trees_ext f g first joint ts : Forall (fun t => f t = g t) ts ->
  print_trees f first joint ts = print_trees g first joint ts.
Proof.
  intros H. revert first joint. induction H as [|t ts E _ IH]; intros first joint; [reflexivity|].
  cbn. now rewrite E, IH.
Qed.
Lemma tree_display_plain t : tree_display plain t = tree_to_string t.
Proof.
  induction t as [d ts sp IH|s r sp|c s sp|x sp] using token_nested_ind; try reflexivity.
  cbn. now rewrite (print_trees_ext _ _ _ _ _ IH).
Qed.
Lemma stream_display_any f ts : stream_display f ts = stream_to_string ts.
Proof.
  apply print_trees_ext. apply Forall_forall. intros t _. apply tree_display_plain.
Qed.
Lemma tree_display_any f t : is_group t \/ (exists s r sp, t = TIdent s r sp) ->
  tree_display f t = tree_to_string t.
Proof.
  destruct t as [d ts sp|s r sp|c s sp|x sp]; cbn; try reflexivity.
  - intros _. rewrite (print_trees_ext _ tree_to_string); [reflexivity|].
    apply Forall_forall. intros t _. apply tree_display_plain.
  - intros [[]|(? & ? & ? & ?)]; discriminate.
  - intros [[]|(? & ? & ? & ?)]; discriminate.
Qed.

(** ** Indentation *)
Definition no_lf (s : str) : Prop := Forall (fun c => c <> LF) s.
Definition out (b : SpecDebug.layout) : str := flat_map (fun x => line_text x ++ [LF]) b.
Lemma out_app a b : out (a ++ b) = out a ++ out b. Proof. apply flat_map_app. Qed.
Lemma out_cons x b : out (x :: b) = line_text x ++ [LF] ++ out b.
Proof. cbn. now rewrite <- app_assoc. Qed.
Lemma render_out b : b <> [] -> render b ++ [LF] = out b.
Proof.
  induction b as [|x [|y b] IH]; intros N; [congruence| |].
  - cbn. now rewrite app_nil_r.
  - rewrite out_cons, <- IH by discriminate. change (render (x :: y :: b)) with (line_text x ++ [LF] ++ render (y :: b)).
    now rewrite <- !app_assoc.
Qed.
Definition flat (b : SpecDebug.layout) : Prop := Forall (fun x => no_lf (snd x)) b.
Lemma indent_false s x : no_lf s -> indent false (s ++ x) = s ++ indent false x.
Proof.
  induction 1 as [|c s Hc _ IH]; [reflexivity|]. cbn. destruct (N.eqb_spec c LF); [congruence|]. now rewrite IH.
Qed.
Lemma indent_line s x : no_lf s -> indent true (s ++ [LF] ++ x) = tag "    " ++ s ++ [LF] ++ indent true x.
Proof.
  intros H. destruct s as [|c s]; [reflexivity|]. inversion H; subst. cbn.
  destruct (N.eqb_spec c LF); [congruence|]. do 5 f_equal. now rewrite indent_false.
Qed.
Lemma repeat_no_lf n : no_lf (repeat SPACE n).
Proof. induction n; constructor; [discriminate|assumption]. Qed.
Lemma line_text_deeper d l : line_text (S d, l) = tag "    " ++ line_text (d, l).
Proof. unfold line_text. cbn [fst snd]. replace (4 * S d) with (4 + 4 * d) by lia. reflexivity. Qed.
Lemma indent_out b : flat b -> indent true (out b) = out (deeper b).
Proof.
  induction 1 as [|[d l] b H _ IH]; [reflexivity|].
  cbn [deeper map]. rewrite !out_cons, line_text_deeper. rewrite indent_line.
  - rewrite IH. now rewrite <- !app_assoc.
  - apply Forall_app. split; [apply repeat_no_lf|exact H].
Qed.

(** A value written as a block that starts on the current line. *)
Definition block (value : str) (b : SpecDebug.layout) : Prop :=
  value = render b /\ flat b /\ exists l b', b = (0, l) :: b'.
Lemma put_after_render b s : b <> [] -> render (put_after b s) = render b ++ s.
Proof.
  induction b as [|[d l] [|y b] IH]; intros N; [congruence| |].
  - cbn. unfold line_text. cbn. now rewrite <- app_assoc.
  - change (put_after ((d, l) :: y :: b) s) with ((d, l) :: put_after (y :: b) s).
    assert (R : forall x c, c <> [] -> render (x :: c) = line_text x ++ [LF] ++ render c) by now intros x [].
    rewrite !R by (try discriminate; destruct y, b; discriminate).
    rewrite IH by discriminate. now rewrite <- !app_assoc.
Qed.
Lemma put_after_flat b s : flat b -> no_lf s -> flat (put_after b s).
Proof.
  intros H Hs. induction H as [|[d l] b Hl Hb IH]; [constructor|]. cbn [put_after].
  destruct b as [|y b]; [|now constructor]. repeat constructor. cbn in *. now apply Forall_app.
Qed.
Lemma put_after_head l b s : exists l' b', put_after ((0, l) :: b) s = (0, l') :: b'.
Proof. destruct b; cbn; eauto. Qed.
Lemma item_out name value b : no_lf name -> block value b ->
  indent true (name ++ value ++ tag "," ++ [LF]) = out (item name b).
Proof.
  intros Hn (-> & F & l & b' & ->).
  assert (X : name ++ render ((0, l) :: b') ++ tag "," ++ [LF]
              = out (put_before name (put_after ((0, l) :: b') (tag ",")))).
  { destruct (put_after_head l b' (tag ",")) as (l2 & b2 & E). rewrite (app_assoc (render _)).
    rewrite <- put_after_render by discriminate. rewrite E. cbn [put_before].
    rewrite render_out by discriminate. rewrite !out_cons. unfold line_text. cbn [fst snd repeat app Nat.mul].
    now rewrite <- !app_assoc. }
  rewrite X. unfold item. rewrite indent_out; [reflexivity|].
  assert (P : flat (put_after ((0, l) :: b') (tag ","))).
  { apply put_after_flat; [exact F|]. repeat constructor. discriminate. }
  destruct (put_after_head l b' (tag ",")) as (l2 & b2 & E). rewrite E in *. cbn [put_before].
  inversion P; subst. constructor; [|assumption]. cbn in *. now apply Forall_app.
Qed.
Lemma item_flat name value b : no_lf name -> block value b -> flat (item name b).
Proof.
  intros Hn (_ & F & l & b' & ->). unfold item, deeper.
  assert (P : flat (put_after ((0, l) :: b') (tag ","))).
  { apply put_after_flat; [exact F|]. repeat constructor. discriminate. }
  destruct (put_after_head l b' (tag ",")) as (l2 & b2 & E). rewrite E in *. cbn [put_before].
  apply Forall_map. eapply Forall_impl with (P := fun x => no_lf (snd x)); [intros []; auto|].
  inversion P; subst. constructor; [|assumption]. cbn in *. now apply Forall_app.
Qed.
Lemma block_text s : no_lf s -> block s [(0, s)].
Proof. intros H. split; [reflexivity|]. split; [now repeat constructor|eauto]. Qed.
Lemma split_lines_spec s : flat (raw_lines s) /\ s = render (raw_lines s) /\ exists l b, raw_lines s = (0, l) :: b.
Proof.
  unfold raw_lines. induction s as [|c s (F & E & l & b & Q)].
  - split; [constructor; constructor|]. split; [reflexivity|cbn; eauto].
  - cbn [split_lines]. destruct (split_lines s) as [|y ls]; [discriminate Q|]. clear Q.
    destruct (N.eqb_spec c LF) as [->|N].
    + split; [constructor; [constructor|exact F]|]. split; [|cbn; eauto].
      rewrite E at 1. reflexivity.
    + split; [constructor; [constructor; [exact N|exact (Forall_inv F)]|exact (Forall_inv_tail F)]|].
      split; [|cbn; eauto]. rewrite E at 1. destruct ls; reflexivity.
Qed.
Lemma block_raw s : block s (raw_lines s).
Proof. destruct (split_lines_spec s) as (F & E & H). now split. Qed.

(** ** Structures and lists *)
Definition good_fields (alt : bool) (fields : list (str * str)) (bs : list SpecDebug.layout) : Prop :=
  Forall2 (fun '(n, v) b => no_lf n /\ block v b) fields bs.
Lemma pretty_fields fields bs h : good_fields true fields bs ->
  struct_fields true true fields
  = out (concat (map (fun '((n, _), b) => item (n ++ tag ": ") b) (combine fields bs))) ++ tag "}" /\
  (h = false -> fields <> [] -> struct_fields true h fields = tag " {" ++ [LF] ++ struct_fields true true fields).
Proof.
  intros G. split.
  - induction G as [|[n v] b fields bs [Hn Hb] G IH]; [reflexivity|].
    cbn [struct_fields combine map concat]. rewrite out_app, IH, !app_assoc. do 2 f_equal. cbn [app].
    rewrite <- item_out with (value := v); [|apply Forall_app; split; [exact Hn|repeat constructor; discriminate]|exact Hb].
    now rewrite <- !app_assoc.
  - intros -> N. destruct fields as [|[n v] fields]; [congruence|]. cbn [struct_fields app].
    reflexivity.
Qed.
Lemma pretty_struct name fields bs : no_lf name -> fields <> [] -> good_fields true fields bs ->
  block (debug_struct true name fields)
    ([(0, name ++ tag " {")] ++ concat (map (fun '((n, _), b) => item (n ++ tag ": ") b) (combine fields bs))
     ++ [(0, tag "}")]).
Proof.
  intros Hn N G. split; [|split].
  - unfold debug_struct. destruct (pretty_fields fields bs false G) as [A B]. rewrite B, A by auto.
    apply app_inv_tail with (l := [LF]). rewrite render_out by discriminate.
    rewrite !out_app. cbn [out flat_map]. unfold line_text. cbn. rewrite !app_nil_r, <- !app_assoc. cbn [app]. now rewrite <- app_assoc.
  - apply Forall_app. split; [repeat constructor; cbn; apply Forall_app; split; [exact Hn|]; repeat constructor; discriminate|].
    apply Forall_app. split; [|repeat constructor; discriminate].
    clear N. induction G as [|[n v] b fields bs [Hn' Hb] G IH]; [constructor|]. cbn [combine map concat].
    apply Forall_app. split; [|exact IH]. eapply item_flat; [|exact Hb].
    apply Forall_app. split; [exact Hn'|]. repeat constructor; discriminate.
  - cbn. eauto.
Qed.
Lemma pretty_entries vs bs h : Forall2 block vs bs ->
  list_entries true true vs = out (concat (map (item []) bs)) /\
  (h = false -> vs <> [] -> list_entries true h vs = [LF] ++ list_entries true true vs).
Proof.
  intros G. split.
  - induction G as [|v b vs bs Hb G IH]; [reflexivity|].
    cbn [list_entries map concat]. rewrite out_app, IH. f_equal. rewrite <- (item_out [] v b); [reflexivity|constructor|exact Hb].
  - intros -> N. destruct vs as [|v vs]; [congruence|]. reflexivity.
Qed.
Lemma pretty_stream vs bs : Forall2 block vs bs ->
  block (tag "TokenStream " ++ debug_list true vs)
    (match bs with
     | [] => [(0, tag "TokenStream []")]
     | _ => [(0, tag "TokenStream [")] ++ concat (map (item []) bs) ++ [(0, tag "]")]
     end).
Proof.
  intros G. destruct G as [|v b vs bs Hb G].
  { apply block_text. repeat constructor; discriminate. }
  assert (F : Forall2 block (v :: vs) (b :: bs)) by now constructor. split; [|split].
  - unfold debug_list. destruct (pretty_entries _ _ false F) as [A B]. rewrite B, A by (auto; discriminate).
    apply app_inv_tail with (l := [LF]). rewrite render_out by discriminate. rewrite !out_app.
    unfold out at 1 3. cbn [flat_map]. unfold line_text. cbn [app fst snd repeat Nat.mul].
    rewrite <- !app_assoc. reflexivity.
  - constructor; [repeat constructor; discriminate|]. apply Forall_app. split; [|repeat constructor; discriminate].
    clear Hb G. induction F as [|v' b' vs' bs' Hb F IH]; [constructor|]. cbn [map concat].
    apply Forall_app. split; [|exact IH]. eapply item_flat; [constructor|exact Hb].
  - cbn. eauto.
Qed.

(** ** Texts of the leaves *)
Lemma place_once loc sp p q : place_line loc sp p -> place_line loc sp q -> p = q.
Proof.
  destruct 1 as [sp x L N X|sp O]; destruct 1 as [sp y L' N' Y|sp O']; try reflexivity.
  - apply span_text_iff in X, Y. congruence.
  - destruct O'; congruence.
  - destruct O; congruence.
Qed.
Lemma place_text_once loc sp p q : place_text loc sp p -> place_text loc sp q -> p = q.
Proof.
  destruct 1 as [sp x L N X|sp O]; destruct 1 as [sp y L' N' Y|sp O']; try reflexivity.
  - apply span_text_iff in X, Y. congruence.
  - destruct O'; congruence.
  - destruct O; congruence.
Qed.
Lemma shown_char_once c x y : shown_char c x -> shown_char c y -> x = y.
Proof. intros [[A ->]|[A ->]] [[B ->]|[B ->]]; congruence. Qed.

Lemma digits_no_lf n : no_lf (dec_digits n).
Proof.
  destruct (decimal_digit_chars _ _ (proj1 (dec_digits_canonical n))) as [_ F].
  eapply Forall_impl; [|exact F]. cbn. intros c H ->. lia.
Qed.
Lemma span_no_lf sp : no_lf (span_debug true sp).
Proof.
  unfold span_debug, no_lf. rewrite !Forall_app.
  repeat split; try apply digits_no_lf; repeat constructor; discriminate.
Qed.
Lemma place_spec loc sp : exists pb, good_fields true (span_field loc sp) pb /\
  place_line loc sp (concat (map (fun '((n, _), b) => item (n ++ tag ": ") b) (combine (span_field loc sp) pb))).
Proof.
  unfold span_field. destruct loc; cbn [andb].
  - destruct (negb _) eqn:E.
    + exists [[(0, span_debug true sp)]]. split.
      * constructor; [split; [repeat constructor; discriminate|apply block_text, span_no_lf]|constructor].
      * cbn [combine map concat]. rewrite app_nil_r. apply place_shown; [reflexivity| |now apply span_text_iff].
        intros ->. discriminate E.
    + exists []. split; [constructor|]. apply place_omitted. right. apply is_call_site_iff.
      now apply negb_false_iff in E.
  - exists []. split; [constructor|]. apply place_omitted. now left.
Qed.
Lemma place_text_spec loc sp :
  place_text loc sp (match span_field loc sp with [] => [] | (n, v) :: _ => tag ", " ++ n ++ tag ": " ++ v end).
Proof.
  unfold span_field. destruct loc; cbn [andb].
  - destruct (negb _) eqn:E.
    + apply (place_text_shown true sp (span_debug true sp)); [reflexivity| |now apply span_text_iff].
      intros ->. discriminate E.
    + apply place_text_omitted. right. apply is_call_site_iff. now apply negb_false_iff in E.
  - apply place_text_omitted. now left.
Qed.
Lemma span_field_one loc sp : span_field loc sp = [] \/ exists v, span_field loc sp = [(tag "span", v)].
Proof. unfold span_field. destruct (_ && _); eauto. Qed.

Section WithUnicode.
Context {U : unicode} (UO : unicode_ok U).

Lemma ident_chars s r c : ident_valid s r -> In c (ident_to_string s r) ->
  c = "#"%ch \/ is_xid_continue c = true.
Proof using UO.
  intros [(a & t & -> & S & F) _] H. assert (A : forall c, In c (a :: t) -> is_xid_continue c = true).
  { intros x [<-|I]; [|now apply (proj1 (Forall_forall _ _) F)]. destruct S as [->|S].
    - rewrite (xid_continue_ascii U UO) by reflexivity. reflexivity.
    - now apply (xid_start_continue U UO). }
  unfold ident_to_string in H. apply in_app_iff in H as [H|H]; [|right; auto].
  destruct r; [|destruct H]. destruct H as [<-|[<-|[]]]; [right|now left].
  rewrite (xid_continue_ascii U UO) by reflexivity. reflexivity.
Qed.
Lemma ident_no_lf s r : ident_valid s r -> no_lf (ident_to_string s r).
Proof using UO.
  intros H. apply Forall_forall. intros c I ->. destruct (ident_chars _ _ _ H I) as [E|E]; [discriminate|].
  rewrite (xid_not_space U UO) in E by reflexivity. discriminate.
Qed.
Lemma punct_range c : In c punct_chars -> (0x20 <= c <= 0x7E /\ c <> BACKSLASH /\ c <> DQUOTE)%N.
Proof.
  intros H. assert (A : Forall (fun c => 0x20 <= c <= 0x7E /\ c <> BACKSLASH /\ c <> DQUOTE)%N punct_chars)
    by (repeat constructor; discriminate).
  now apply (proj1 (Forall_forall _ _) A).
Qed.
Lemma char_debug_punct c : In c punct_chars -> shown_char c (char_debug c).
Proof using UO.
  intros H. apply punct_range in H as (R & B & D). destruct (printable_ascii U UO c R) as [P G].
  unfold char_debug, escape_debug, shown_char.
  destruct (N.eqb_spec c SQUOTE) as [->|N].
  - left. split; [reflexivity|]. reflexivity.
  - right. split; [exact N|].
    destruct (N.eqb_spec c DQUOTE); [congruence|]. destruct (N.eqb_spec c 0); [lia|].
    destruct (N.eqb_spec c TAB); [lia|]. destruct (N.eqb_spec c CR); [lia|]. destruct (N.eqb_spec c LF); [lia|].
    destruct (N.eqb_spec c BACKSLASH); [congruence|]. cbn [orb]. rewrite G, P. reflexivity.
Qed.
Lemma char_debug_no_lf c : In c punct_chars -> no_lf (char_debug c).
Proof using UO.
  intros H. destruct (char_debug_punct c H) as [[_ ->]|[_ ->]]; repeat constructor; try discriminate.
  apply punct_range in H as (R & _). intros ->. lia.
Qed.
Lemma shown_ident_eq s r : shown_ident s r = ident_to_string s r.
Proof. destruct r; reflexivity. Qed.

(** ** Pretty texts *)
Lemma tree_pretty loc t : made t -> exists b, tree_layout loc t b /\ block (tree_debug loc true t) b.
Proof using UO.
  induction t as [d ts sp IH|s r sp|c s sp|x sp] using token_nested_ind; intros M; inversion M as [? ? ? A|? ? ? A|? ? ? A|? ? A]; subst;
    destruct (place_spec loc sp) as (pb & G & P).
  - assert (E : exists bs, Forall2 block (map (tree_debug loc true) ts) bs /\
      entries_layout loc ts (concat (map (item []) bs)) /\ length bs = length ts).
    { clear M P G. induction IH as [|t ts It _ IHts].
      - exists []. repeat constructor.
      - destruct (It (Forall_inv A)) as (b & Hb & Bb). destruct (IHts (Forall_inv_tail A)) as (bs & F & L & E).
        exists (b :: bs). split; [now constructor|]. split; [now constructor|]. cbn. now rewrite E. }
    destruct E as (bs & F & L & E). pose proof (pretty_stream _ _ F) as S.
    match type of S with block _ ?b => set (sb := b) in * end.
    eexists. split; cycle 1.
    + cbn [tree_debug]. apply pretty_struct with (bs := [(0, delimiter_debug d)] :: sb :: pb).
      * repeat constructor; discriminate.
      * discriminate.
      * constructor; [split; [repeat constructor; discriminate|apply block_text; destruct d; repeat constructor; discriminate]|].
        constructor; [|exact G]. split; [repeat constructor; discriminate|exact S].
    + cbn [combine map concat app]. rewrite <- ?app_assoc. change (delimiter_debug d) with (shown_delimiter d).
      apply (layout_group loc d ts sp sb); [|exact P]. unfold sb. destruct bs as [|b bs], ts as [|t ts]; try discriminate E.
      * constructor.
      * now apply layout_some.
  - eexists. split; cycle 1.
    + cbn [tree_debug]. apply pretty_struct with (bs := [(0, ident_to_string s r)] :: pb).
      * repeat constructor; discriminate.
      * discriminate.
      * constructor; [|exact G]. split; [repeat constructor; discriminate|]. now apply block_text, ident_no_lf.
    + cbn [combine map concat app]. rewrite <- ?app_assoc. rewrite <- shown_ident_eq. now apply (layout_ident loc s r sp).
  - eexists. split; cycle 1.
    + cbn [tree_debug]. apply pretty_struct with (bs := [(0, char_debug c)] :: [(0, spacing_debug s)] :: pb).
      * repeat constructor; discriminate.
      * discriminate.
      * constructor; [split; [repeat constructor; discriminate|now apply block_text, char_debug_no_lf]|].
        constructor; [|exact G]. split; [repeat constructor; discriminate|]. apply block_text. destruct s; repeat constructor; discriminate.
    + cbn [combine map concat app]. rewrite <- ?app_assoc. apply (layout_punct loc c s sp); [now apply char_debug_punct|exact P].
  - eexists. split; cycle 1.
    + cbn [tree_debug]. apply pretty_struct with (bs := raw_lines x :: pb).
      * repeat constructor; discriminate.
      * discriminate.
      * constructor; [|exact G]. split; [repeat constructor; discriminate|]. apply block_raw.
    + cbn [combine map concat app]. rewrite <- ?app_assoc. now apply (layout_literal loc x sp).
Qed.

Lemma tree_layout_once loc t : forall b b', tree_layout loc t b -> tree_layout loc t b' -> b = b'.
Proof.
  induction t as [d ts sp IH|s r sp|c s sp|x sp] using token_nested_ind; intros b b' H H'.
  - assert (E : forall c c', entries_layout loc ts c -> entries_layout loc ts c' -> c = c').
    { clear H H'. induction IH as [|t ts It _ IHts]; intros c c' H H'; inversion H; inversion H'; subst; [reflexivity|].
      f_equal; [f_equal; now apply It|now apply IHts]. }
    inversion H as [| | |? ? ? sb p S P]; inversion H' as [| | |? ? ? sb' p' S' P']; subst.
    rewrite (place_once _ _ _ _ P P'). replace sb' with sb; [reflexivity|].
    inversion S; inversion S'; subst; try reflexivity; try discriminate.
    match goal with H : _ :: _ = _ :: _ |- _ => injection H as -> -> end.
    do 2 f_equal. now apply E.
  - inversion H as [? ? ? p P| | |]; inversion H' as [? ? ? p' P'| | |]; subst. now rewrite (place_once _ _ _ _ P P').
  - inversion H as [|? ? ? y p C P| |]; inversion H' as [|? ? ? y' p' C' P'| |]; subst.
    now rewrite (place_once _ _ _ _ P P'), (shown_char_once _ _ _ C C').
  - inversion H as [| |? ? p P|]; inversion H' as [| |? ? p' P'|]; subst. now rewrite (place_once _ _ _ _ P P').
Qed.
Lemma entries_once loc ts : forall c c', entries_layout loc ts c -> entries_layout loc ts c' -> c = c'.
Proof.
  induction ts as [|t ts IH]; intros c c' H H'; inversion H; inversion H'; subst; [reflexivity|].
  f_equal; [f_equal; eapply tree_layout_once; eassumption|now apply IH].
Qed.
Lemma stream_once loc ts c c' : stream_layout loc ts c -> stream_layout loc ts c' -> c = c'.
Proof.
  destruct ts as [|t ts]; intros S S'; inversion S; inversion S'; subst; [reflexivity|].
  do 2 f_equal. eapply entries_once; eassumption.
Qed.
Lemma entries_pretty loc ts : Forall made ts -> exists bs, Forall2 block (map (tree_debug loc true) ts) bs /\
  entries_layout loc ts (concat (map (item []) bs)) /\ length bs = length ts.
Proof using UO.
  induction 1 as [|t ts M _ (bs & F & L & E)].
  - exists []. repeat constructor.
  - destruct (tree_pretty loc t M) as (b & Hb & Bb).
    exists (b :: bs). split; [now constructor|]. split; [now constructor|]. cbn. now rewrite E.
Qed.
Lemma stream_pretty loc ts : Forall made ts -> exists b, stream_layout loc ts b /\
  (forall b', stream_layout loc ts b' -> b' = b) /\ stream_debug loc true ts = render b.
Proof using UO.
  intros M. destruct (entries_pretty loc ts M) as (bs & F & L & E).
  destruct (pretty_stream _ _ F) as (R & _ & _).
  match type of R with _ = render ?x => set (b := x) in * end.
  assert (S : stream_layout loc ts b).
  { unfold b. destruct bs as [|y bs], ts as [|t ts]; try discriminate E; [constructor|now apply layout_some]. }
  exists b. split; [exact S|]. split; [|exact R]. intros b' S'. now apply (stream_once loc ts).
Qed.

(** ** Texts on one line *)
Lemma plain_struct name n v fields sp loc : fields = [] ->
  debug_struct false name ((n, v) :: fields ++ span_field loc sp)
  = name ++ tag " { " ++ n ++ tag ": " ++ v
    ++ (match span_field loc sp with [] => [] | (n, v) :: _ => tag ", " ++ n ++ tag ": " ++ v end) ++ tag " }".
Proof.
  intros ->. unfold debug_struct. cbn [struct_fields app]. destruct (span_field_one loc sp) as [->|[w ->]]; cbn;
  now rewrite <- ?app_assoc.
Qed.
Lemma plain_struct2 name n v n2 v2 sp loc :
  debug_struct false name ([(n, v); (n2, v2)] ++ span_field loc sp)
  = name ++ tag " { " ++ n ++ tag ": " ++ v ++ tag ", " ++ n2 ++ tag ": " ++ v2
    ++ (match span_field loc sp with [] => [] | (n, v) :: _ => tag ", " ++ n ++ tag ": " ++ v end) ++ tag " }".
Proof.
  unfold debug_struct. cbn [struct_fields app]. destruct (span_field_one loc sp) as [->|[w ->]]; cbn;
  now rewrite <- ?app_assoc.
Qed.
Lemma list_entries_true vs : list_entries false true vs = flat_map (fun v => tag ", " ++ v) vs.
Proof. induction vs as [|v vs IH]; [reflexivity|]. cbn. now rewrite IH. Qed.
Lemma entries_text loc ts : Forall (fun t => tree_line loc t (tree_debug loc false t)) ts ->
  entries_line loc ts (list_entries false false (map (tree_debug loc false) ts)).
Proof.
  induction 1 as [|t ts H F IH]; [constructor|]. destruct ts as [|u ts].
  - cbn [map list_entries app]. rewrite app_nil_r. now constructor.
  - cbn [map list_entries app] in *. rewrite <- ?app_assoc. now apply (line_more loc t).
Qed.
Lemma tree_text_line loc t : made t -> tree_line loc t (tree_debug loc false t).
Proof using UO.
  induction t as [d ts sp IH|s r sp|c s sp|x sp] using token_nested_ind; intros M;
    inversion M as [? ? ? A|? ? ? A|? ? ? A|? ? A]; subst; cbn [tree_debug].
  - rewrite plain_struct2. apply (line_group loc d ts sp); [|apply place_text_spec]. constructor. apply entries_text.
    clear M. induction IH as [|t ts It _ IHts]; [constructor|].
    constructor; [apply It, (Forall_inv A)|apply IHts, (Forall_inv_tail A)].
  - change ([(tag "sym", ident_to_string s r)] ++ span_field loc sp)
      with ((tag "sym", ident_to_string s r) :: [] ++ span_field loc sp).
    rewrite plain_struct by reflexivity. rewrite <- shown_ident_eq. apply (line_ident loc s r sp), place_text_spec.
  - rewrite plain_struct2. apply (line_punct loc c s sp); [now apply char_debug_punct|apply place_text_spec].
  - change ([(tag "lit", x)] ++ span_field loc sp) with ((tag "lit", x) :: [] ++ span_field loc sp).
    rewrite plain_struct by reflexivity. apply (line_literal loc x sp), place_text_spec.
Qed.
Lemma tree_line_once loc t : forall b b', tree_line loc t b -> tree_line loc t b' -> b = b'.
Proof.
  induction t as [d ts sp IH|s r sp|c s sp|x sp] using token_nested_ind; intros b b' H H'.
  - assert (E : forall c c', entries_line loc ts c -> entries_line loc ts c' -> c = c').
    { clear H H'. induction IH as [|t ts It _ IHts]; intros c c' H H'; inversion H; inversion H'; subst; try reflexivity; try discriminate.
      - now apply It.
      - f_equal; [now apply It|]. f_equal. apply IHts; congruence. }
    inversion H as [| | |? ? ? sb p S P]; inversion H' as [| | |? ? ? sb' p' S' P']; subst.
    rewrite (place_text_once _ _ _ _ P P'). inversion S as [? y Y]; inversion S' as [? y' Y']; subst.
    now rewrite (E _ _ Y Y').
  - inversion H as [? ? ? p P| | |]; inversion H' as [? ? ? p' P'| | |]; subst. now rewrite (place_text_once _ _ _ _ P P').
  - inversion H as [|? ? ? y p C P| |]; inversion H' as [|? ? ? y' p' C' P'| |]; subst.
    now rewrite (place_text_once _ _ _ _ P P'), (shown_char_once _ _ _ C C').
  - inversion H as [| |? ? p P|]; inversion H' as [| |? ? p' P'|]; subst. now rewrite (place_text_once _ _ _ _ P P').
Qed.
Lemma stream_text_line loc ts x : Forall made ts -> stream_debug loc false ts = x <-> stream_line loc ts x.
Proof using UO.
  intros M. assert (S : stream_line loc ts (stream_debug loc false ts)).
  { constructor. apply entries_text. eapply Forall_impl; [|exact M]. intros t. apply tree_text_line. }
  split; [now intros <-|]. intros S'. remember (stream_debug loc false ts) as z eqn:Z. clear Z.
  destruct S as [ts y Y]. inversion S' as [? y' Y']; subst.
  assert (E : forall ts c c', entries_line loc ts c -> entries_line loc ts c' -> c = c').
  { clear. induction ts as [|t ts IH]; intros c c' H H'; inversion H; inversion H'; subst; try reflexivity; try discriminate.
    - eapply tree_line_once; eassumption.
    - f_equal; [eapply tree_line_once; eassumption|]. f_equal. apply IH; congruence. }
  now rewrite <- (E _ _ _ Y Y').
Qed.
End WithUnicode.
