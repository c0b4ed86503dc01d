(** * Property C97: what the panics say. *)
From Verif Require Import Base Unicode Tokens Lexer Fallback LitNew SourceMap SpecTree SpecLit SpecMap MapCaught SpecStale.
From Verif Require Import Messages SpecMessages MessagesProofs.
From Verif Require MapFacts StaleProofs.
Import ListNotations.
Local Open Scope N_scope.

Theorem c97_ident : forall U s sp, valid_str s ->
  match @ident_new_says U s sp with
  | Returns t => t = TIdent s false sp /\ ident_text s
  | Panics m => ident_complaint s m
  end.
Proof. exact @ident_says. Qed.
Print Assumptions c97_ident.
Theorem c97_raw : forall U s sp, valid_str s ->
  match @ident_new_raw_says U s sp with
  | Returns t => t = TIdent s true sp /\ ident_text s /\ ~ In s never_raw
  | Panics m => raw_complaint s m
  end.
Proof. exact @raw_says. Qed.
Print Assumptions c97_raw.
Theorem c97_punct : forall U c s, is_scalar c = true ->
  match @punct_new_says U c s with
  | Returns t => t = TPunct c s call_site /\ In c punct_chars
  | Panics m => punct_complaint c m
  end.
Proof. exact @punct_says. Qed.
Print Assumptions c97_punct.
(** They are the constructors of the other claims. *)
Theorem c97_agrees : forall U s sp c sc,
  @ident_new U s sp = match @ident_new_says U s sp with Returns t => Ok t | Panics _ => Panic end /\
  @ident_new_raw U s sp = match @ident_new_raw_says U s sp with Returns t => Ok t | Panics _ => Panic end /\
  punct_new c sc = match @punct_new_says U c sc with Returns t => Ok t | Panics _ => Panic end.
Proof. exact (fun U s sp c sc => conj (@ident_agrees U s sp) (conj (@raw_agrees U s sp) (@punct_agrees U c sc))). Qed.
Print Assumptions c97_agrees.
(** The message tells the argument, except which number it was. *)
Theorem c97_tells : forall U s t m,
  (@ident_complaint U s m -> ident_complaint t m -> s = t \/ Forall decimal_digit s /\ Forall decimal_digit t) /\
  (@raw_complaint U s m -> raw_complaint t m -> s = t \/ Forall decimal_digit s /\ Forall decimal_digit t) /\
  (forall c d, punct_complaint c m -> punct_complaint d m -> c = d).
Proof. exact (fun U s t m => conj (@ident_tells U s t m) (conj (@raw_tells U s t m) (fun c d => punct_tells c d m))). Qed.
Print Assumptions c97_tells.
Example c97_example :
  @ident_new_says sample_unicode (tag "it's ""a""") call_site = Panics (tag """it's \""a\"""" is not a valid Ident") /\
  @ident_new_says sample_unicode (tag "007") call_site = Panics (tag "Ident cannot be a number; use Literal instead") /\
  @ident_new_says sample_unicode [] call_site = Panics (tag "Ident is not allowed to be empty; use Option<Ident>") /\
  @ident_new_raw_says sample_unicode (tag "Self") call_site = Panics (tag "`r#Self` cannot be a raw identifier") /\
  @ident_new_says sample_unicode (tag "Self") call_site = Returns (TIdent (tag "Self") false call_site) /\
  @punct_new_says sample_unicode SQUOTE Joint = Returns (TPunct SQUOTE Joint call_site) /\
  @punct_new_says sample_unicode DQUOTE Alone = Panics (tag "unsupported proc macro punctuation character '""'") /\
  @punct_new_says sample_unicode LF Alone = Panics (tag "unsupported proc macro punctuation character '\n'").
Proof. vm_compute. repeat split. Qed.

(** The span queries: one message for spans that meet no text, another for those that meet
    one without being inside it. *)
Theorem c97_span : forall S, search_ok S -> search_strict S -> search_honest S -> forall U os st s sp,
  @reached U S os st s -> (lo sp <= hi sp)%N ->
  match find_says (smap st) sp with
  | Returns i => exists p, valid_place (texts s) p /\ sp = span_at (texts s) p /\ i = pfile p
  | Panics m => span_complaint (texts s) sp m
  end.
Proof. exact (fun S HS HT HH U => @span_says U S HS HT HH). Qed.
Print Assumptions c97_span.
Theorem c97_span_tells : forall ts sp m m', span_complaint ts sp m -> span_complaint ts sp m' -> m = m'.
Proof. exact span_tells. Qed.
Print Assumptions c97_span_tells.
(** Every panic of a query is that of the search for the text. *)
Theorem c97_query : forall S, search_ok S -> search_strict S -> search_honest S -> forall U os st s q sp,
  @reached U S os st s -> (lo sp <= hi sp)%N ->
  snd (ask (smap st) q sp) = Panicked <-> exists m, find_says (smap st) sp = Panics m.
Proof. exact (fun S HS HT HH U => @query_says U S HS HT HH). Qed.
Print Assumptions c97_query.
Theorem c97_searches : search_honest std_old /\ search_honest std_new.
Proof. exact (conj std_old_honest std_new_honest). Qed.
Print Assumptions c97_searches.
(** After two texts, and after they were invalidated. *)
Example c97_span_example :
  let after os := match @run sample_unicode std_new initial os with Ok (st, _) => smap st | _ => [] end in
  let m := after [OParse (tag "ab c"); OParse (tag "xyz")] in
  m <> [] /\
  @find_says std_new m (mkspan 4 5) = Returns 1%nat /\
  @find_says std_new m (mkspan 6 9) = Returns 2%nat /\
  @find_says std_new m (mkspan 4 7) = Panics (tag "assertion failed: file.span_within(span)") /\
  @find_says std_new m (mkspan 10 11) = Panics (tag "internal error: entered unreachable code: Invalid span with no related FileInfo!") /\
  @find_says std_new (after [OParse (tag "ab c"); OInvalidate]) (mkspan 4 5) =
    Panics (tag "internal error: entered unreachable code: Invalid span with no related FileInfo!").
Proof. vm_compute. repeat split. discriminate. Qed.
