(** * C37 to C45: spans and the source map.

    [S] is any binary search that meets the documented contract of
    [slice::binary_search_by]. *)
From Verif Require Import Base Unicode Tokens Lexer Fallback SpecText SpecTree SourceMap SpecMap MapFacts MapProofs MapClaims.

(** Two texts, one of them with multi-byte characters and several lines. *)
Definition text1 : str := lit "fn f" ++ [LF] ++ lit " ( """ ++ [0xE9%N; 0x1F600%N; LF] ++ lit "x"" )".
Definition text2 : str := lit "a" ++ [CR; LF; LF] ++ lit "b /* " ++ [0x4E2D%N] ++ lit " */ 'c'".
Definition ops0 : list op := [OParse text1; OLiteral (lit "7u8"); OParse text2; OCallSite; OParse (lit ")")].
Definition after {A B} (r : res (A * B)) (d : A) : A := match r with Ok (a, _) => a | _ => d end.
Definition st0 : state := after (@run sample_unicode std_new initial ops0) initial.
Definition s0 : spec := fst (@spec_run sample_unicode spec_initial ops0).
Example reached0 : @reached sample_unicode std_new ops0 st0 s0.
Proof.
  split; [cbn [room ops0]; vm_compute; repeat split; discriminate|].
  eexists _, _. split; [vm_compute; reflexivity|vm_compute; reflexivity].
Qed.
Example places0 : places s0 = [mkplace 1 0 2; mkplace 1 3 4; mkplace 1 6 16; mkplace 1 8 14;
  mkplace 2 0 3; mkplace 3 0 1; mkplace 3 4 5; mkplace 3 14 17; mkplace 0 0 0; mkplace 4 0 0].
Proof. vm_compute. reflexivity. Qed.

(** Both implementations shipped by the standard library meet the contract. *)
Theorem c40_std_search : search_ok std_old /\ search_ok std_new.
Proof. exact (conj std_old_ok std_new_ok). Qed.
Print Assumptions c40_std_search.

(** ** C37 *)
Theorem c37_start : forall S, search_ok S -> forall U os st s, @reached U S os st s ->
  forall k sp p, known st s k sp p -> exists t x, nth_error (texts s) (pfile p) = Some t /\
  span_start (smap st) sp = Ok x /\ is_line_column t (pfrom p) x.
Proof. exact @start_position. Qed.
Print Assumptions c37_start.
Theorem c37_end : forall S, search_ok S -> forall U os st s, @reached U S os st s ->
  forall k sp p, known st s k sp p -> exists t x, nth_error (texts s) (pfile p) = Some t /\
  span_end (smap st) sp = Ok x /\ is_line_column t (pto p) x.
Proof. exact @end_position. Qed.
Print Assumptions c37_end.
Example c37_example :
  map (fun sp => (@span_start std_new (smap st0) sp, @span_end std_old (smap st0) sp)) (firstn 4 (pool st0)) =
  [(Ok (mklc 1 0), Ok (mklc 1 2)); (Ok (mklc 1 3), Ok (mklc 1 4));
   (Ok (mklc 2 1), Ok (mklc 3 4)); (Ok (mklc 2 3), Ok (mklc 3 2))].
Proof. vm_compute. reflexivity. Qed.

(** ** C38 *)
Theorem c38_byte_range : forall S, search_ok S -> forall U os st s, @reached U S os st s ->
  forall k sp p, known st s k sp p -> exists t m, nth_error (texts s) (pfile p) = Some t /\
  span_byte_range (smap st) sp =
    Ok (m, (length (str_bytes (firstn (pfrom p) t)), length (str_bytes (firstn (pto p) t)))).
Proof. exact @range_answer. Qed.
Print Assumptions c38_byte_range.
(** Spans 2 and 3 asked in different orders, with the cache filled in between. *)
Example c38_example :
  snd (snd (match @run sample_unicode std_new st0 [ORange 2; ORange 3; ORange 7; ORange 2; ORange 1; ORange 8] with
       | Ok r => (true, r) | _ => (false, (st0, [])) end)) =
  [Range (6, 20); Range (8, 18); Range (16, 19); Range (6, 20); Range (3, 4); Range (0, 0)].
Proof. vm_compute. reflexivity. Qed.

(** ** C39 *)
Theorem c39_source_text : forall S, search_ok S -> forall U os st s, @reached U S os st s ->
  forall k sp p, known st s k sp p -> exists t m, nth_error (texts s) (pfile p) = Some t /\
  span_source_text (smap st) sp =
    Ok (m, if pfile p =? 0 then None else Some (firstn (pto p - pfrom p) (skipn (pfrom p) t))).
Proof. exact @text_answer. Qed.
Print Assumptions c39_source_text.
Theorem c39_call_site : forall S, search_ok S -> forall U os st s, @reached U S os st s ->
  forall k sp p, known st s k sp p -> (pfile p = 0 <-> sp = call_site).
Proof. exact @call_site_iff. Qed.
Print Assumptions c39_call_site.
(** A token just parsed, after any history: its source text is what it prints as. *)
Theorem c39_token_text : forall S, search_ok S -> forall U os st s, @reached U S os st s -> unicode_ok U ->
  forall src, (total (texts s) + N.of_nat (length src) + 1 <= two32)%N ->
  exists m l, parse (smap st) src = Ok (m, l) /\
  forall ts t, l = Lexed ts -> occurs t ts -> ~ is_group t ->
  exists m' x, span_source_text m (token_span t) = Ok (m', Some x) /\ (x = tree_to_string t \/ doc_text x).
Proof. exact @token_text. Qed.
Print Assumptions c39_token_text.
(** The same some time later, after any operations but invalidation. *)
Theorem c39_token_later : forall S, search_ok S -> forall U os st s, @reached U S os st s -> unicode_ok U ->
  forall src os', room (total (texts s)) (OParse src :: os') -> ~ In OInvalidate os' ->
  exists m l st' xs, parse (smap st) src = Ok (m, l) /\
  run (mkstate m (pool st ++ lexed_spans l)) os' = Ok (st', xs) /\
  forall ts t, l = Lexed ts -> occurs t ts -> ~ is_group t ->
  exists m' x, span_source_text (smap st') (token_span t) = Ok (m', Some x) /\ (x = tree_to_string t \/ doc_text x).
Proof. exact @token_later. Qed.
Print Assumptions c39_token_later.
(** Of a group some time later: the spans of its delimiters read them, and its own reads from one to the other. *)
Theorem c39_group_later : forall S, search_ok S -> forall U os st s, @reached U S os st s -> unicode_ok U ->
  forall src os', room (total (texts s)) (OParse src :: os') -> ~ In OInvalidate os' ->
  exists m l st' xs, parse (smap st) src = Ok (m, l) /\
  run (mkstate m (pool st ++ lexed_spans l)) os' = Ok (st', xs) /\
  forall ts d inner sp, l = Lexed ts -> occurs (TGroup d inner sp) ts ->
  (exists m1 m2 m3 mid, d <> DNone /\
    span_source_text (smap st') (span_open (TGroup d inner sp)) = Ok (m1, Some (open_char d)) /\
    span_source_text (smap st') (span_close (TGroup d inner sp)) = Ok (m2, Some (close_char d)) /\
    span_source_text (smap st') sp = Ok (m3, Some (open_char d ++ mid ++ close_char d))) \/
  (exists m1 x, span_source_text (smap st') sp = Ok (m1, Some x) /\ doc_text x).
Proof. exact @group_later. Qed.
Print Assumptions c39_group_later.
Example c39_later_example :
  let later := [OParse text2; ORange 10; OText 2; OLiteral (lit "1")] in
  room (total (texts s0)) (OParse text1 :: later) /\ ~ In OInvalidate later /\
  exists m l, @parse sample_unicode (smap st0) text1 = Ok (m, l) /\
    let st := after (@run sample_unicode std_new (mkstate m (pool st0 ++ lexed_spans l)) later) st0 in
    exists ts t m', l = Lexed ts /\ occurs t ts /\ ~ is_group t /\
      @span_source_text std_new (smap st) (token_span t) = Ok (m', Some (tree_to_string t)) /\ length (tree_to_string t) = 6.
Proof.
  cbv zeta. split; [vm_compute; repeat split; discriminate|]. split; [intros [H|[H|[H|[H|[]]]]]; discriminate H|].
  eexists _, _. split; [vm_compute; reflexivity|]. eexists _, _, _. split; [vm_compute; reflexivity|].
  split; [|split; [|split]].
  - eapply occurs_inside; [right; right; left; reflexivity|]. apply occurs_here. left. reflexivity.
  - intros [].
  - vm_compute. reflexivity.
  - vm_compute. reflexivity.
Qed.
Example c39_group_example :
  let later := [OParse text2; ORange 10; OText 2; OLiteral (lit "1")] in
  exists m l, @parse sample_unicode (smap st0) text1 = Ok (m, l) /\
    let st := after (@run sample_unicode std_new (mkstate m (pool st0 ++ lexed_spans l)) later) st0 in
    exists ts d inner sp m1 m2, l = Lexed ts /\ occurs (TGroup d inner sp) ts /\
      @span_source_text std_new (smap st) (span_open (TGroup d inner sp)) = Ok (m1, Some (open_char d)) /\
      @span_source_text std_new (smap st) (span_close (TGroup d inner sp)) = Ok (m2, Some (close_char d)).
Proof.
  cbv zeta. eexists _, _. split; [vm_compute; reflexivity|]. eexists _, _, _, _, _, _. split; [vm_compute; reflexivity|].
  split; [|split].
  - apply occurs_here. right; right; left. reflexivity.
  - vm_compute. reflexivity.
  - vm_compute. reflexivity.
Qed.
Example c39_example :
  snd (snd (match @run sample_unicode std_new st0 [OText 3; OText 8; OText 4; OText 9; OText 3] with
       | Ok r => (true, r) | _ => (false, (st0, [])) end)) =
  [Text (Some (lit """" ++ [0xE9%N; 0x1F600%N; LF] ++ lit "x""")); Text None; Text (Some (lit "7u8")); Text (Some []);
   Text (Some (lit """" ++ [0xE9%N; 0x1F600%N; LF] ++ lit "x"""))].
Proof. vm_compute. reflexivity. Qed.

(** ** C40 *)
(** No history panics, and every answer is the one computed from the texts. *)
Theorem c40_history : forall S, search_ok S -> forall U os, room 1 os ->
  exists st, @run U S initial os = Ok (st, snd (@spec_run U spec_initial os)).
Proof. exact @history. Qed.
Print Assumptions c40_history.
Theorem c40_all_known : forall S, search_ok S -> forall U os st s, @reached U S os st s ->
  forall k sp, nth_error (pool st) k = Some sp -> exists p, known st s k sp p.
Proof. exact @known_all. Qed.
Print Assumptions c40_all_known.
Example c40_example :
  let os := [OParse text1; OJoin 0 3; OLast 4; OSubspan 3 (Included 1) (Excluded 3); OText 6; ORange 6; OFile 5;
             OInvalidate; OParse text2; OText 2; OEnd 2] in
  room 1 os /\ exists st, @run sample_unicode std_old initial os =
    Ok (st, [Nothing; Made true; Made true; Made true; Text (Some [0xE9%N; 0x1F600%N]); Range (9, 15);
             Path (lit "<parsed string 1>"); Nothing; Nothing; Text (Some (lit "'c'")); Position (mklc 3 13)]).
Proof. cbv zeta. split; [vm_compute; repeat split; discriminate|eexists; vm_compute; reflexivity]. Qed.

(** ** C41 *)
Theorem c41_join : forall S, search_ok S -> forall U os st s, @reached U S os st s ->
  forall k a p k' b q, known st s k a p -> known st s k' b q ->
  (pfile p <> pfile q /\ span_join (smap st) a b = Ok None) \/
  (pfile p = pfile q /\ exists r, span_join (smap st) a b = Ok (Some r) /\ covers r a /\ covers r b /\
     forall w, covers w a -> covers w b -> covers w r).
Proof. exact @join_answer. Qed.
Print Assumptions c41_join.
Theorem c41_commutative : forall S, search_ok S -> forall U os st s, @reached U S os st s ->
  forall k a p k' b q, known st s k a p -> known st s k' b q ->
  span_join (smap st) a b = span_join (smap st) b a.
Proof. exact @join_comm. Qed.
Print Assumptions c41_commutative.
Theorem c41_idempotent : forall S, search_ok S -> forall U os st s, @reached U S os st s ->
  forall k a p, known st s k a p -> span_join (smap st) a a = Ok (Some a).
Proof. exact @join_idem. Qed.
Print Assumptions c41_idempotent.
Theorem c41_associative : forall S, search_ok S -> forall U os st s, @reached U S os st s ->
  forall k a p k' b q k'' c r, known st s k a p -> known st s k' b q -> known st s k'' c r ->
  (let? x := span_join (smap st) a b in then_join (smap st) x c) =
  (let? x := span_join (smap st) b c in join_with (smap st) a x).
Proof. exact @join_assoc. Qed.
Print Assumptions c41_associative.
Example c41_example : exists a b c, known st0 s0 1 a (mkplace 1 3 4) /\ known st0 s0 3 b (mkplace 1 8 14) /\
  known st0 s0 4 c (mkplace 2 0 3) /\
  @span_join std_new (smap st0) b a = Ok (Some (span_at (texts s0) (mkplace 1 3 14))) /\
  @span_join std_new (smap st0) a c = Ok None.
Proof. eexists _, _, _. unfold known. vm_compute. repeat split; reflexivity. Qed.

(** ** C42 *)
Theorem c42_subspan : forall sp s e, (lo sp <= hi sp)%N -> (hi sp < two32)%N ->
  subspan sp s e =
  let len := (hi sp - lo sp)%N in
  if ((range_start s <=? range_end len e) && (range_end len e <=? len))%N
  then Some (mkspan (lo sp + range_start s) (lo sp + range_end len e)) else None.
Proof. exact subspan_spec. Qed.
Print Assumptions c42_subspan.
Example c42_example :
  subspan (mkspan 10 20) (Included 2) (Excluded 5) = Some (mkspan 12 15) /\
  subspan (mkspan 10 20) (Excluded 2) Unbounded = Some (mkspan 13 20) /\
  subspan (mkspan 10 20) (Included 2) (Included 10) = None /\
  subspan (mkspan 10 20) (Included 0) (Included (2 ^ 64 - 1)%N) = None /\
  subspan (mkspan 10 20) (Included 6) (Excluded 5) = None.
Proof. vm_compute. repeat split; reflexivity. Qed.
(** lib.rs documents the range as "source bytes"; it counts characters.  In the
    literal below the bytes 1..3 are the one character U+E9; the answer is a span
    of two characters and six bytes. *)
Theorem c42_bytes_refuted : exists sp p sub m r, known st0 s0 3 sp p /\
  subspan sp (Included 1) (Excluded 3) = Some sub /\
  span_byte_range (S := std_new) (smap st0) sp = Ok (m, r) /\
  exists m' r', span_byte_range (S := std_new) (smap st0) sub = Ok (m', r') /\
  r' <> (fst r + 1, fst r + 3).
Proof. eexists _, _, _, _, _. split; [split; vm_compute; reflexivity|]. split; [vm_compute; reflexivity|].
  split; [vm_compute; reflexivity|]. eexists _, _. split; [vm_compute; reflexivity|]. discriminate. Qed.
Print Assumptions c42_bytes_refuted.

(** ** C43 *)
Theorem c43_files : forall S, search_ok S -> forall U os st s, @reached U S os st s ->
  forall k sp p k' sp' p', known st s k sp p -> known st s k' sp' p' ->
  (span_file (smap st) sp = span_file (smap st) sp' <-> pfile p = pfile p').
Proof. exact @same_file. Qed.
Print Assumptions c43_files.
Theorem c43_name : forall S, search_ok S -> forall U os st s, @reached U S os st s ->
  forall k sp p, known st s k sp p -> exists x, span_file (smap st) sp = Ok x /\ is_file_name (pfile p) x.
Proof. exact @name_answer. Qed.
Print Assumptions c43_name.
Example c43_example :
  map (@span_file std_new (smap st0)) (pool st0) =
  map (fun x => Ok (lit x)) (repeat "<parsed string 1>"%string 4 ++ ["<parsed string 2>"%string] ++
    repeat "<parsed string 3>"%string 3 ++ ["<unspecified>"%string; "<parsed string 4>"%string]).
Proof. vm_compute. reflexivity. Qed.

(** ** C44 *)
(** After invalidation a thread cannot be told from a new one. *)
Theorem c44_fresh_start : forall S, search_ok S -> forall U os st s, @reached U S os st s ->
  forall os2, room 1 os2 -> exists st1 st2 xs,
  run (mkstate (invalidate (smap st)) []) os2 = Ok (st1, xs) /\ run initial os2 = Ok (st2, xs) /\ pool st1 = pool st2.
Proof. exact @fresh_start. Qed.
Print Assumptions c44_fresh_start.
Theorem c44_call_site : forall S, search_ok S -> forall U os st s, @reached U S os st s ->
  exists st1 xs, run st [OInvalidate] = Ok (st1, xs) /\ pool st1 = filter is_call_site (pool st) /\
    Forall (fun sp => sp = call_site /\ span_file (smap st1) sp = Ok (tag "<unspecified>") /\
      span_start (smap st1) sp = Ok (mklc 1 0) /\ span_end (smap st1) sp = Ok (mklc 1 0) /\
      (exists m, span_byte_range (smap st1) sp = Ok (m, (0, 0))) /\
      (exists m, span_source_text (smap st1) sp = Ok (m, None))) (pool st1).
Proof. exact @call_site_stays. Qed.
Print Assumptions c44_call_site.
Example c44_example :
  let os2 := [OParse text2; OText 1; OStart 2; OFile 1] in
  room 1 os2 /\ exists st1,
  @run sample_unicode std_new (mkstate (invalidate (smap st0)) []) os2 =
    Ok (st1, [Nothing; Text (Some (lit "b")); Position (mklc 3 10); Path (lit "<parsed string 1>")]).
Proof. cbv zeta. split; [vm_compute; repeat split; discriminate|eexists; vm_compute; reflexivity]. Qed.

(** ** C45 *)
Theorem c45_lexicographic : forall a b,
  (lc_cmp a b = Lt <-> line a < line b \/ line a = line b /\ column a < column b) /\
  (lc_cmp a b = Eq <-> a = b) /\
  (lc_cmp a b = Gt <-> line b < line a \/ line a = line b /\ column b < column a).
Proof. exact lc_cmp_lex. Qed.
Print Assumptions c45_lexicographic.
Theorem c45_total_order : forall a b c,
  lc_cmp b a = CompOpp (lc_cmp a b) /\ (lc_cmp a b <> Gt -> lc_cmp b c <> Gt -> lc_cmp a c <> Gt).
Proof. exact lc_cmp_total. Qed.
Print Assumptions c45_total_order.
(** [c37_start] and [c37_end] show that the answers meet [is_line_column]. *)
Theorem c45_text_order : forall t a b x y, a <= length t -> b <= length t ->
  is_line_column t a x -> is_line_column t b y -> lc_cmp x y = Nat.compare a b.
Proof. exact text_order. Qed.
Print Assumptions c45_text_order.
Example c45_example : lc_cmp (line_column_at text1 7) (line_column_at text1 15) = Lt /\
  line_column_at text1 15 = mklc 3 3 /\ line_column_at text1 7 = mklc 2 2.
Proof. vm_compute. repeat split; reflexivity. Qed.
