(** * Auto traits: proofs. *)
From Coq Require Import List Bool.
From Verif Require Import AutoTraits SpecTraits.
Import ListNotations.

Section Fixed.
Variable has : ctype -> trait -> bool.
Variable rc_ref : bool.
Variable f : features.
Notation lacks := (lacks has rc_ref f).
Notation needs := (needs has rc_ref f).

Lemma marker_lacks tr : tr = Send \/ tr = Sync -> lacks tr marker.
Proof.
  intros H. apply lacks_need with (l := [(tr, PhantomData (Rc Scalar))]) (tr' := tr) (t' := PhantomData (Rc Scalar)).
  - now destruct H as [-> | ->].
  - now left.
  - apply lacks_need with (l := [(tr, Rc Scalar)]) (tr' := tr) (t' := Rc Scalar); [reflexivity|now left|].
    apply lacks_never. now destruct H as [-> | ->].
Qed.
Lemma field_lacks tr n t : n <> ProcMacroAutoTraits -> In t (fields f n) -> lacks tr t -> lacks tr (Crate n).
Proof.
  intros Hn Hi H. apply lacks_need with (l := map (pair tr) (fields f n)) (tr' := tr) (t' := t); [|now apply in_map|exact H].
  destruct n; try reflexivity. now destruct (Hn eq_refl).
Qed.
Lemma marked tr n : tr = Send \/ tr = Sync -> n <> ProcMacroAutoTraits -> In marker (fields f n) -> lacks tr (Crate n).
Proof. intros H Hn Hi. apply (field_lacks _ _ marker); auto. now apply marker_lacks. Qed.
Lemma stream_lacks tr : tr = Send \/ tr = Sync -> lacks tr (Crate FTokenStream).
Proof.
  intros H. apply (field_lacks _ _ (RcVec (Crate TokenTree))); [discriminate|now left|].
  apply lacks_need with (l := [(tr, Rc (Vec (Crate TokenTree)))]) (tr' := tr) (t' := Rc (Vec (Crate TokenTree)));
    [now destruct H as [-> | ->]|now left|].
  apply lacks_never. now destruct H as [-> | ->].
Qed.
Lemma span_lacks tr : tr = Send \/ tr = Sync -> lacks tr (Crate Span).
Proof. intros H. apply marked; [exact H|discriminate|]. right. now left. Qed.
Lemma group_lacks tr : tr = Send \/ tr = Sync -> lacks tr (Crate Group).
Proof.
  intros H. apply (field_lacks _ _ (imp f WGroup FGroup)); [discriminate|now left|].
  assert (G : lacks tr (Crate FGroup)).
  { apply (field_lacks _ _ (Crate FTokenStream)); [discriminate|right; now left|now apply stream_lacks]. }
  unfold imp. destruct (wrap f); [|exact G].
  apply (field_lacks _ _ (Crate FGroup)); [discriminate|right; now left|exact G].
Qed.
Lemma token_types_confined n : token_type n -> lacks Send (Crate n) /\ lacks Sync (Crate n).
Proof.
  intros Hn. assert (A : forall tr, tr = Send \/ tr = Sync -> lacks tr (Crate n)); [|auto].
  intros tr H. destruct Hn; try (apply marked; [exact H|discriminate|cbn; auto; fail]).
  - apply (field_lacks _ _ (Crate Group)); [discriminate|now left|now apply group_lacks].
  - now apply group_lacks.
  - apply (field_lacks _ _ (Crate Span)); [discriminate|right; right; now left|now apply span_lacks].
Qed.

(** Following the needs from the crate's types meets [Rc] only in these places,
    and types of the compiler only in the wrapper. *)
Definition of_wrapper (n : name) : bool :=
  match n with
  | WTokenStream | WDeferred | WLexError | WTokenTreeIter | WSpan | WGroup | WIdent | WLiteral => true
  | _ => false
  end.
Fixpoint clean (t : type) : Prop :=
  match t with
  | Scalar => True
  | Compiler _ => wrap f = true
  | Crate n => of_wrapper n = true -> wrap f = true
  | Rc _ | PhantomData _ => False
  | Vec t | VecIntoIter t | RcVec t | RcVecIntoIter t => clean t
  end.
Definition reached (tr : trait) (t : type) : Prop :=
  clean t \/ (exists t', t = Rc t' /\ clean t' /\ tr <> RefUnwindSafe) \/ (tr = Unpin /\ t = PhantomData (Rc Scalar)).
Lemma fields_clean n t : In t (fields f n) -> (of_wrapper n = true -> wrap f = true) ->
  clean t \/ n = ProcMacroAutoTraits /\ t = PhantomData (Rc Scalar).
Proof.
  destruct n; cbn [fields of_wrapper]; unfold imp, marker; try destruct (wrap f) eqn:W; try destruct (locations f); cbn;
    intros H Hw; try (discriminate (Hw eq_refl)); repeat (destruct H as [<-|H]; [cbn; rewrite ?W; auto|]); destruct H.
Qed.

Variable Q : trait -> Prop.
Hypothesis Q_closed : forall tr, Q tr -> tr = Unpin \/ (tr = UnwindSafe \/ tr = RefUnwindSafe) /\ Q RefUnwindSafe.
Hypothesis Q_compiler : wrap f = true -> forall c tr, Q tr -> has c tr = true.
Lemma not_lacks tr t : lacks tr t -> Q tr -> reached tr t -> False.
Proof.
  induction 1 as [tr t Hn|tr t l tr' t' Hn Hi Hl IH]; intros Hq Hr.
  - destruct t; cbn in Hn; try discriminate.
    + destruct Hr as [[]|[(t' & E & _ & Hr)|[_ Hr]]]; [|discriminate].
      destruct (Q_closed tr Hq) as [->|[[->| ->] _]]; try discriminate. now apply Hr.
    + destruct tr; discriminate.
    + destruct tr; discriminate.
    + destruct Hr as [Hr|[(t' & E & _)|[_ E]]]; try discriminate. cbn in Hr. rewrite (Q_compiler Hr) in Hn; [discriminate|exact Hq].
    + destruct n; destruct tr; discriminate.
  - assert (R : Q tr' /\ reached tr' t'); [|exact (IH (proj1 R) (proj2 R))]. clear IH Hl.
    destruct t; cbn in Hn.
    + injection Hn as <-. destruct Hi.
    + destruct Hr as [[]|[(t0 & E & Hc & Hr)|[_ Hr]]]; [|discriminate]. injection E as ->.
      destruct (Q_closed tr Hq) as [->|[[->| ->] Hq']]; try (injection Hn as <-).
      * destruct Hi.
      * destruct Hi as [E|[]]. injection E as <- <-. split; [exact Hq'|now left].
      * now destruct (Hr eq_refl).
    + injection Hn as <-. destruct Hi as [E|[]]. injection E as <- <-. split; [exact Hq|].
      destruct Hr as [Hr|[(t0 & E & _)|[_ E]]]; try discriminate. now left.
    + destruct Hr as [Hr|[(t0 & E & _)|[_ E]]]; try discriminate. cbn in Hr.
      destruct (Q_closed tr Hq) as [->|[[->| ->] Hq']]; injection Hn as <-; cbn in Hi.
      * destruct Hi as [E|[]]. injection E as <- <-. split; [exact Hq|now left].
      * destruct Hi as [E|[E|[]]]; injection E as <- <-; (split; [assumption|now left]).
      * destruct Hi as [E|[]]. injection E as <- <-. split; [exact Hq|now left].
    + injection Hn as <-. destruct Hi as [E|[]]. injection E as <- <-. split; [exact Hq|].
      destruct Hr as [[]|[(t0 & E & _)|[-> E]]]; try discriminate. injection E as ->.
      right. left. exists Scalar. split; [reflexivity|]. split; [exact I|discriminate].
    + destruct Hr as [Hr|[(t0 & E & _)|[_ E]]]; try discriminate. cbn in Hr.
      destruct (Q_closed tr Hq) as [->|[[->| ->] Hq']]; injection Hn as <-; cbn in Hi;
        destruct Hi as [E|[]]; injection E as <- <-; (split; [assumption|]).
      * right. left. eexists. split; [reflexivity|]. split; [exact Hr|discriminate].
      * right. left. eexists. split; [reflexivity|]. split; [exact Hr|discriminate].
      * now left.
    + injection Hn as <-. destruct Hi as [E|[]]. injection E as <- <-. split; [exact Hq|].
      destruct Hr as [Hr|[(t0 & E & _)|[_ E]]]; try discriminate. now left.
    + destruct (has c tr); [|discriminate]. injection Hn as <-. destruct Hi.
    + destruct Hr as [Hr|[(t0 & E & _)|[_ E]]]; try discriminate. cbn in Hr.
      assert (D : Q tr /\ n = ProcMacroAutoTraits /\ l = [] \/
                  (n <> ProcMacroAutoTraits \/ tr = Unpin) /\ l = map (pair tr) (fields f n)).
      { destruct n; try (right; split; [left; discriminate|now injection Hn as <-]).
        destruct (Q_closed tr Hq) as [->|[[->| ->] Hq']]; injection Hn as <-; [right|left|left]; auto. }
      destruct D as [(_ & _ & ->)|[D ->]]; [destruct Hi|].
      apply in_map_iff in Hi as (t0 & E & Hi). injection E as <- <-. split; [exact Hq|].
      apply (fun H => fields_clean _ _ H Hr) in Hi as [Hi|[-> ->]]; [now left|].
      destruct D as [D| ->]; [now destruct D|]. right. right. split; reflexivity.
Qed.
Lemma crate_reached tr n : of_wrapper n = false -> reached tr (Crate n).
Proof. intros H. left. cbn. rewrite H. discriminate. Qed.
End Fixed.

Lemma public_of_crate f n : public f n = true -> of_wrapper n = false.
Proof. now destruct n. Qed.
Lemma unwind_safe has rc_ref f :
  (wrap f = true -> forall c, has c UnwindSafe = true /\ has c RefUnwindSafe = true) ->
  forall n, public f n = true -> ~ lacks has rc_ref f UnwindSafe (Crate n) /\ ~ lacks has rc_ref f RefUnwindSafe (Crate n).
Proof.
  intros H n Hp. split; intros L.
  all: apply (not_lacks has rc_ref f (fun tr => tr = UnwindSafe \/ tr = RefUnwindSafe)) in L; auto.
  all: try (intros Hw c tr [-> | ->]; apply (H Hw)).
  all: now apply crate_reached, (public_of_crate f).
Qed.
Lemma unpin has rc_ref f : (wrap f = true -> forall c, has c Unpin = true) ->
  forall n, public f n = true -> ~ lacks has rc_ref f Unpin (Crate n).
Proof.
  intros H n Hp L. apply (not_lacks has rc_ref f (fun tr => tr = Unpin)) in L; auto.
  - intros Hw c tr ->. apply (H Hw).
  - now apply crate_reached, (public_of_crate f).
Qed.
Lemma plain_shared has rc_ref f n tr : plain_type n -> ~ lacks has rc_ref f tr (Crate n).
Proof.
  assert (S : ~ lacks has rc_ref f tr Scalar).
  { intros H. inversion H as [? ? E|? ? ? ? ? E Hi]; subst; [discriminate|]. injection E as <-. destruct Hi. }
  assert (X : ~ lacks has rc_ref f tr (Crate EscapeError)).
  { intros H. inversion H as [? ? E|? ? ? ? ? E Hi]; subst; [discriminate|]. injection E as <-. destruct Hi. }
  intros Hp H. destruct Hp; inversion H as [? ? E|? ? ? ? ? E Hi Hl]; subst; try discriminate E; injection E as <-; cbn in Hi;
    repeat (destruct Hi as [E|Hi]; [injection E as <- <-; auto|]); destruct Hi.
Qed.
Lemma no_stronger has rc_ref f n c tr : wrap f = true -> wraps n c -> has c tr = false ->
  lacks has rc_ref f tr (Crate n).
Proof.
  intros W Hw H. assert (C : lacks has rc_ref f tr (Compiler c)) by (apply lacks_never; cbn; now rewrite H).
  assert (F : forall n t, n <> ProcMacroAutoTraits -> In t (fields f n) -> lacks has rc_ref f tr t -> lacks has rc_ref f tr (Crate n))
    by (intros; eapply field_lacks; eauto).
  assert (I : forall n w fb, n <> ProcMacroAutoTraits -> In (imp f w fb) (fields f n) -> w <> ProcMacroAutoTraits ->
    In (Compiler c) (fields f w) -> lacks has rc_ref f tr (Crate n)).
  { intros n0 w fb H1 H2 H3 H4. apply (F n0 _ H1 H2). unfold imp. rewrite W. now apply (F w (Compiler c)). }
  assert (Sp : c = CSpan -> lacks has rc_ref f tr (Crate Span)).
  { intros ->. apply (I Span WSpan FSpan); cbn; auto; discriminate. }
  assert (Pu : c = CSpan -> lacks has rc_ref f tr (Crate Punct)).
  { intros E. apply (F _ (Crate Span)); cbn; auto; discriminate. }
  destruct Hw.
  - apply (F _ (imp f WTokenStream FTokenStream)); [discriminate|now left|]. unfold imp. rewrite W.
    apply (F _ (Crate WDeferred)); [discriminate|now left|]. apply (F _ (Compiler CStream)); [discriminate|now left|exact C].
  - apply (F _ (imp f WTokenStream FTokenStream)); [discriminate|now left|]. unfold imp. rewrite W.
    apply (F _ (Crate WDeferred)); [discriminate|now left|]. apply (F _ (Vec (Compiler CTree))); [discriminate|right; now left|].
    eapply lacks_need; [reflexivity|now left|exact C].
  - apply (I _ WLexError FLexError); cbn; auto; discriminate.
  - apply (F _ (Crate WTokenTreeIter)); [discriminate|cbn; rewrite W; now left|]. apply (F _ (Compiler CIter)); cbn; auto; discriminate.
  - auto.
  - auto.
  - apply (F _ (Crate DelimSpanEnum)); [discriminate|now left|]. apply (F _ (Compiler CSpan)); [discriminate|cbn; rewrite W; now left|exact C].
  - apply (I _ WGroup FGroup); cbn; auto; discriminate.
  - apply (I _ WIdent FIdent); cbn; auto; discriminate.
  - apply (I _ WLiteral FLiteral); cbn; auto; discriminate.
  - apply (F _ (Crate Group)); [discriminate|now left|]. apply (I _ WGroup FGroup); cbn; auto; discriminate.
  - apply (F _ (Crate Ident)); [discriminate|right; now left|]. apply (I _ WIdent FIdent); cbn; auto; discriminate.
  - apply (F _ (Crate Punct)); cbn; auto; discriminate.
  - apply (F _ (Crate Literal)); [discriminate|cbn; auto|]. apply (I _ WLiteral FLiteral); cbn; auto; discriminate.
Qed.
Lemma public_kinds f n : public f n = true -> token_type n \/ plain_type n.
Proof. destruct n; cbn; intros H; try discriminate H; (left; constructor; fail) || (right; constructor). Qed.
