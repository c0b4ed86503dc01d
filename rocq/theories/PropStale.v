(** * Property C95: caught panics and invalidated spans. *)
From Verif Require Import Base Unicode Tokens Lexer SourceMap SpecMap MapRelease MapCaught SpecStale StaleProofs.
Import ListNotations.

(** The program's own operations get the answers they would get without the others. *)
Theorem c95_history : forall S, search_ok S -> search_strict S -> forall U cs,
  Forall span_in_order cs -> Forall short (own_ops cs) ->
  own_answers cs (snd (@caught_run S U initial cs)) = snd (@caught_spec U spec_initial (own_ops cs)).
Proof. exact (fun S HS HT U => @caught_history U S HS HT). Qed.
Print Assumptions c95_history.
(** A query about any span panics and leaves the map alone, or the span is one of a part of the
    texts of now and the answer is about that part. *)
Theorem c95_any_span : forall S, search_ok S -> search_strict S -> forall U os st s q sp,
  @reached U S os st s -> (lo sp <= hi sp)%N ->
  (exists p, valid_place (texts s) p /\ sp = span_at (texts s) p /\ answer_at s p q (snd (ask (smap st) q sp))) \/
  ((forall p, valid_place (texts s) p -> sp <> span_at (texts s) p) /\ ask (smap st) q sp = (smap st, Panicked)).
Proof. exact (fun S HS HT U => @any_span U S HS HT). Qed.
Print Assumptions c95_any_span.
Theorem c95_searches : search_strict std_old /\ search_strict std_new.
Proof. exact (conj std_old_strict std_new_strict). Qed.
Print Assumptions c95_searches.
Example c95_example :
  let cs := [Own (OParse (tag "a b")); Own (OText 1); Own OInvalidate; Foreign QText (mkspan 3 4);
             Own (OParse (tag "xyz")); Foreign QText (mkspan 3 4); Foreign QRange (mkspan 3 9);
             Foreign (QJoin (mkspan 1 2)) (mkspan 2 3); Own (OText 0); Own (ORange 0)] in
  Forall span_in_order cs /\ Forall short (own_ops cs) /\
  snd (@caught_run std_new sample_unicode initial cs) =
    [Answer Nothing; Answer (Text (Some (tag "b"))); Answer Nothing; Panicked; Answer Nothing;
     Answer (Text (Some (tag "z"))); Panicked; Answer (Made true); Answer (Text (Some (tag "xyz"))); Answer (Range (0, 3))].
Proof.
  cbv zeta. split; [|split; [|vm_compute; reflexivity]].
  - repeat constructor; cbn; discriminate.
  - repeat constructor.
Qed.
