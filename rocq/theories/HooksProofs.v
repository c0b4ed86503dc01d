(** * Proofs about a program that changes its panic hook *)
From Coq Require Import List Arith Bool Lia.
From Verif Require Import Detection SpecDetect DetectProofs Unwind SpecUnwind UnwindProofs Hooks SpecHooks.
Import ListNotations.

Section Proofs.
Context {D : detection}.

Lemma hsteps_app P s es s' es' s'' : hsteps P s es s' -> hsteps P s' es' s'' -> hsteps P s (es ++ es') s''.
Proof using. induction 1; cbn; intros G; [exact G|]. econstructor; eauto. Qed.
Lemma hsteps_rev (R : state -> hevent -> state -> Prop) (P : state -> list hevent -> Prop) s0 : P s0 [] ->
  (forall s es e s', hsteps R s0 es s -> P s es -> hstep s e s' -> R s e s' -> P s' (es ++ [e])) ->
  forall es s, hsteps R s0 es s -> P s es.
Proof using.
  intros H0 HS. enough (G : forall s es s', hsteps R s es s' -> forall es0, hsteps R s0 es0 s -> P s es0 -> P s' (es0 ++ es)).
  { intros es s H. exact (G s0 es s H [] (hsteps_nil R s0) H0). }
  induction 1 as [s|s e s' es s'' H1 HR H2 IH]; intros es0 RU HP; [now rewrite app_nil_r|].
  replace (es0 ++ e :: es) with ((es0 ++ [e]) ++ es) by now rewrite <- app_assoc.
  apply IH; [eapply hsteps_app; [exact RU|econstructor; [exact H1|exact HR|constructor]]|eapply HS; eassumption].
Qed.
Lemma hsteps_any P s es s' : hsteps P s es s' -> hsteps any s es s'.
Proof using. induction 1; econstructor; unfold any; eauto. Qed.

Lemma own_app h es es' : own h (es ++ es') = own (own h es) es'.
Proof using. revert h. induction es as [|[e p|t h'|t h'] es IH]; intros h; cbn; auto. Qed.
Lemma noted_app es e k : fold_left note (es ++ [e]) k = note (fold_left note es k) e.
Proof using. now rewrite fold_left_app. Qed.
Lemma crate_app es es' : crate_events (es ++ es') = crate_events es ++ crate_events es'.
Proof using. unfold crate_events. now rewrite flat_map_app. Qed.
Lemma in_crate es e p : In (Crate e p) es -> In e (crate_events es).
Proof using. intros I. apply in_flat_map. exists (Crate e p). split; [exact I|now left]. Qed.

(** ** States do not depend on the hook *)
Lemma sane_hook s h : sane s -> sane (with_hook s h).
Proof using. intros [Z V W O R K T G]. now split. Qed.
Lemma sane_hstep s e s' : hstep s e s' -> sane s -> sane s'.
Proof using. intros [s1 e1 s2 H|s1 t th h E A|s1 t th E A] S; [eapply sane_step; eassumption|now apply sane_hook..]. Qed.
Lemma sane_hsteps P es s : hsteps P initial es s -> sane s.
Proof using.
  intros H. assert (G : forall s0, sane s0 -> forall es s, hsteps P s0 es s -> sane s).
  { intros s0 S0 es0 s1 H1. induction H1 as [|s0 e s' es1 s'' H1 _ _ IH]; [exact S0|]. apply IH. eapply sane_hstep; eassumption. }
  exact (G initial sane_initial es s H).
Qed.
Lemma doing_hook s h t : doing (with_hook s h) t = doing s t.
Proof using. reflexivity. Qed.

(** ** Where the threads are *)
(** How one thread and the hook change in a step. *)
Inductive move : option init_pc -> hook -> event -> option init_pc -> hook -> Prop :=
| move_none h e : (forall p, e = Panicked p -> True) -> move None h e None h
| move_start h e : move None h e (Some start_init) h
| move_query h e b : move (Some IQuery) h e (Some (IStore b)) h
| move_store h e b : move (Some (IStore b)) h e (Some IDone) h
| move_done h e : (forall t, e <> Panicked t) -> move (Some IDone) h e None h
| move_take h e : move (Some PTake) h e (Some (PSetNull h)) Default
| move_set_null h e o : move (Some (PSetNull o)) h e (Some (PProbe o)) Null
| move_probe h e o b : move (Some (PProbe o)) h e (Some (PStore o b)) h
| move_probe_store h e o b : move (Some (PStore o b)) h e (Some (PTakeNull o)) h
| move_take_null h e o : move (Some (PTakeNull o)) h e (Some (PSetOriginal o h)) Default
| move_set_original h e o g : move (Some (PSetOriginal o g)) h e (Some (PCheck g)) o
| move_check h e g : ((exists t, e = Panicked t) <-> g <> Null) -> move (Some (PCheck g)) h e None h.
Lemma doing_update s t th th' m o h : nth_error (threads s) t = Some th ->
  doing {| messages := m; threads := update (threads s) t th'; init_once := o; the_hook := h |} t =
  match at_ th' with Initializing _ p => Some p | _ => None end.
Proof using. intros E. unfold doing. cbn [threads]. now rewrite (update_same _ _ _ _ E). Qed.
Lemma doing_other s t u th' m o h : u <> t ->
  doing {| messages := m; threads := update (threads s) t th'; init_once := o; the_hook := h |} u = doing s u.
Proof using. intros N. unfold doing. cbn [threads]. now rewrite update_other by congruence. Qed.
Lemma doing_at s t th : nth_error (threads s) t = Some th -> doing s t = match at_ th with Initializing _ p => Some p | _ => None end.
Proof using. unfold doing. now intros ->. Qed.
Ltac cases_step H :=
  destruct H as
    [s t th E A|s t th E A|s t th E A|s t th E A|s t th u thu E A Eu
    |s t th ts b E A I L|s t th ts x E A I NB L|s t th E A OI|s t th v E A OC|s t th E A OP
    |s t th ts E A FR|s t th c E A|s t th c b ts E A FR|s t th c E A
    |s t th c E A|s t th c o E A|s t th c o E A|s t th c o b ts E A FR|s t th c o E A|s t th c o g E A|s t th c E A|s t th c g E A NN].
Lemma step_move s e s' : step s e s' ->
  move (doing s (mover e)) (the_hook s) e (doing s' (mover e)) (the_hook s') /\
  forall u, u <> mover e -> doing s' u = doing s u.
Proof using.
  intros H. cases_step H;
    unfold goto, put, with_hook, with_once, with_message, finish, abort, goto, put, with_once, returned in *; try destruct c;
    cbn [messages threads init_once the_hook view at_ fst snd mover] in *;
    rewrite (doing_at _ _ _ E), A;
    try (rewrite (doing_update _ _ _ _ _ _ _ E); cbn [at_]; split; [|intros; now apply doing_other]);
    try (constructor; discriminate || (intros; exact I) || (intros; exact Logic.I)).
  - (* spawn *) split.
    + unfold doing. cbn [threads]. rewrite nth_error_app1 by (apply nth_error_Some; congruence). rewrite E, A. now constructor.
    + intros u N. unfold doing. cbn [threads]. destruct (Nat.lt_ge_cases u (length (threads s))) as [L|L].
      * now rewrite nth_error_app1 by exact L.
      * rewrite nth_error_app2 by exact L. rewrite (proj2 (nth_error_None (threads s) u) L).
        destruct (u - length (threads s)) as [|[|k]]; reflexivity.
  - constructor. split; [intros [t' X]; discriminate X|congruence].
  - constructor. split; [intros [t' X]; discriminate X|congruence].
  - constructor. split; [auto|eauto].
  - constructor. split; [auto|eauto].
Qed.
(** The only thread inside [initialize], if any. *)
Inductive phase (s : state) : option init_pc -> Prop :=
| phase_none : (forall t, doing s t = None) -> phase s None
| phase_some t p : doing s t = Some p -> (forall u, u <> t -> doing s u = None) -> phase s (Some p).
Lemma phase_hook s h op : phase s op -> phase (with_hook s h) op.
Proof using. intros [H|t p H G]; [now constructor|]. now apply (phase_some _ t). Qed.
Lemma phase_step s e s' op : step s e s' -> solo s' -> phase s op ->
  (phase s' op /\ doing s (mover e) = None /\ the_hook s' = the_hook s) \/
  (exists op', phase s' op' /\ doing s (mover e) = op /\ move op (the_hook s) e op' (the_hook s')).
Proof using.
  intros H SO PH. destruct (step_move _ _ _ H) as [M O]. set (m := mover e) in *.
  destruct (doing s m) as [p|] eqn:P.
  - right. exists (doing s' m). destruct PH as [N|t q Q N]; [rewrite N in P; discriminate|].
    destruct (Nat.eq_dec m t) as [->|NE]; [|rewrite (N m NE) in P; discriminate]. rewrite P in Q. injection Q as <-.
    split; [|auto]. destruct (doing s' t) as [p'|] eqn:P'.
    + apply (phase_some _ t); [exact P'|]. intros u NE. rewrite O by exact NE. now apply N.
    + apply phase_none. intros u. destruct (Nat.eq_dec u t) as [->|NE]; [exact P'|]. rewrite O by exact NE. now apply N.
  - destruct (doing s' m) as [p'|] eqn:P'.
    + right. exists (Some p'). destruct PH as [N|t q Q N].
      * split; [|auto]. apply (phase_some _ m); [exact P'|]. intros u NE. rewrite O by exact NE. apply N.
      * exfalso. assert (NE : t <> m) by congruence. rewrite <- (O t NE) in Q. apply NE. apply SO; eapply doing_initializing; eassumption.
    + left. inversion M; subst. split; [|auto]. destruct PH as [N|t q Q N].
      * apply phase_none. intros u. destruct (Nat.eq_dec u m) as [->|NE]; [exact P'|]. now rewrite O.
      * assert (NE : t <> m) by congruence. apply (phase_some _ t); [now rewrite O|]. intros u NU.
        destruct (Nat.eq_dec u m) as [->|NE']; [exact P'|]. rewrite O by exact NE'. now apply N.
Qed.
Lemma phase_initial : phase initial None.
Proof using. apply phase_none. intros [|[|t]]; reflexivity. Qed.
Lemma phase_idle s op : phase s op -> (forall t, ~ initializing s t) -> op = None.
Proof using. intros [H|t p H _] N; [reflexivity|]. destruct (N t). eapply doing_initializing. exact H. Qed.
Lemma phase_doing s op t p : phase s op -> doing s t = Some p -> op = Some p.
Proof using.
  intros [H|u q H N] G; [rewrite H in G; discriminate|]. destruct (Nat.eq_dec t u) as [->|NE]; [congruence|].
  rewrite (N t NE) in G. discriminate.
Qed.
Lemma initializing_doing s t : initializing s t -> exists p, doing s t = Some p.
Proof using. intros (th & c & p & E & A). exists p. unfold doing. now rewrite E, A. Qed.

(** ** The compiler has [is_available] *)
Lemma available_hook P es s : by_hook = false -> hsteps P initial es s -> the_hook s = own (Installed program_hook) es.
Proof using.
  intros B. revert es s. apply (hsteps_rev P (fun s es => the_hook s = own (Installed program_hook) es)); [reflexivity|].
  intros s es e s' R IH H _. rewrite own_app. pose proof (sane_hsteps _ _ _ R) as SA.
  destruct H as [s e s' H|s t th h E A|s t th E A]; cbn [own the_hook with_hook]; [|reflexivity..].
  destruct (step_move _ _ _ H) as [M _]. rewrite <- IH.
  destruct (doing s (mover e)) as [p|] eqn:P0.
  - destruct (doing_thread _ _ _ P0) as (th & c & E & A). pose proof (sane_config s SA _ _ _ _ E A) as C. rewrite B in C.
    inversion M; subst; try discriminate C; reflexivity.
  - inversion M; subst; reflexivity.
Qed.

(** ** Changes while nobody detects *)
Definition at_hook (o : hook) (op : option init_pc) (h : hook) : Prop :=
  match op with
  | None | Some IQuery | Some (IStore _) | Some IDone | Some PTake => h = o
  | Some (PSetNull o') => o' = o
  | Some (PProbe o') | Some (PStore o' _) | Some (PTakeNull o') => o' = o /\ h = Null
  | Some (PSetOriginal o' g) => o' = o /\ g = Null
  | Some (PCheck g) => g = Null /\ h = o
  end.
Lemma at_hook_start o h : at_hook o (Some start_init) h <-> h = o.
Proof using. unfold start_init. destruct by_hook; reflexivity. Qed.
Lemma polite_invariant es s : hsteps polite initial es s ->
  (exists op, phase s op /\ at_hook (own (Installed program_hook) es) op (the_hook s)) /\ init_once s <> Poisoned /\
  (forall t p, ~ In (Crate (Panicked t) p) es).
Proof using.
  revert es s. apply (hsteps_rev polite (fun s es =>
    (exists op, phase s op /\ at_hook (own (Installed program_hook) es) op (the_hook s)) /\ init_once s <> Poisoned /\
    (forall t p, ~ In (Crate (Panicked t) p) es))).
  { split; [|split; [discriminate|intros t p []]]. exists None. split; [apply phase_initial|reflexivity]. }
  intros s es e s' R ((op & PH & K) & NP & NI) H [SO PO]. rewrite own_app.
  destruct H as [s e s' H|s t th h E A|s t th E A]; cbn [own the_hook with_hook init_once].
  - assert (NPE : forall t, e <> Panicked t).
    { intros t ->. destruct (panicked_cause _ _ _ H) as [X|(g & X & Y)]; [now apply NP|].
      pose proof (phase_doing _ _ _ _ PH X) as ->. apply Y, K. }
    split; [|split].
    + destruct (phase_step _ _ _ _ H SO PH) as [(PH' & _ & HH)|(op' & PH' & DO & M)].
      * exists op. split; [exact PH'|]. now rewrite HH.
      * exists op'. split; [exact PH'|]. clear DO; inversion M; subst; try (apply at_hook_start; cbn [at_hook] in K; congruence); cbn [at_hook] in *; try tauto; intuition congruence.
    + intros X. assert (Y : exists t, e = Panicked t).
      { cases_step H; unfold goto, put, with_hook, with_once, with_message, finish, abort in X; try destruct c;
          cbn [messages threads init_once the_hook] in X; try contradiction; try discriminate X; eauto. }
      destruct Y as [t Y]. now apply (NPE t).
    + intros t p I. apply in_app_iff in I. destruct I as [I|[I|[]]]; [now apply (NI t p)|]. injection I as -> _. now apply (NPE t).
  - pose proof (phase_idle _ _ PH (PO eq_refl)) as ->. split; [|split; [exact NP|]].
    + exists None. split; [now apply phase_hook|reflexivity].
    + intros t' p' I. apply in_app_iff in I. destruct I as [I|[I|[]]]; [now apply (NI t' p')|discriminate I].
  - pose proof (phase_idle _ _ PH (PO eq_refl)) as ->. split; [|split; [exact NP|]].
    + exists None. split; [now apply phase_hook|reflexivity].
    + intros t' p' I. apply in_app_iff in I. destruct I as [I|[I|[]]]; [now apply (NI t' p')|discriminate I].
Qed.
Lemma polite_hook es s : hsteps polite initial es s ->
  ((forall t, ~ initializing s t) -> the_hook s = own (Installed program_hook) es) /\ (forall t p, ~ In (Crate (Panicked t) p) es).
Proof using.
  intros H. destruct (polite_invariant es s H) as ((op & PH & K) & _ & N). split; [|exact N].
  intros I. now rewrite (phase_idle _ _ PH I) in K.
Qed.
Lemma polite_removes es s t h s' : hsteps polite initial es s -> hstep s (Removes t h) s' ->
  (forall u, ~ initializing s u) -> h = own (Installed program_hook) es.
Proof using. intros H ST N. inversion ST; subst. now apply polite_hook. Qed.

(** ** Changes at any time *)
(** The events since [set_hook(null_hook)], and the ones between the two. *)
Definition since_null (es es2 : list hevent) : Prop :=
  exists es1 e o, es = es1 ++ Crate e (Some (PSetNull o)) :: es2 /\ Forall hands_off es2.
Definition while_null (es es2 : list hevent) : Prop :=
  exists es1 e o e' o' es3, es = es1 ++ Crate e (Some (PSetNull o)) :: es2 ++ Crate e' (Some (PTakeNull o')) :: es3 /\
    Forall hands_off es2 /\ (forall x o, ~ In (Crate x (Some (PSetNull o))) es3).
Lemma since_snoc es es2 e : since_null es es2 -> hands_off e -> since_null (es ++ [e]) (es2 ++ [e]).
Proof using.
  intros (es1 & x & o & -> & F) HO. exists es1, x, o. split; [now rewrite <- app_assoc|]. apply Forall_app. auto.
Qed.
Lemma while_snoc es es2 e : while_null es es2 -> (forall x o, e <> Crate x (Some (PSetNull o))) -> while_null (es ++ [e]) es2.
Proof using.
  intros (es1 & x & o & x' & o' & es3 & -> & F & N) NE. exists es1, x, o, x', o', (es3 ++ [e]). split; [|split; [exact F|]].
  - rewrite <- app_assoc. f_equal. rewrite <- app_comm_cons. f_equal. rewrite <- app_assoc. reflexivity.
  - intros y q I. apply in_app_iff in I. destruct I as [I|[I|[]]]; [now apply (N y q)|now apply (NE y q)].
Qed.
Definition left_at (es : list hevent) (op : option init_pc) (h : hook) : Prop :=
  let k := fold_left note es (Installed program_hook, Installed program_hook) in
  match op with
  | None | Some IQuery | Some (IStore _) | Some IDone | Some PTake => h = fst k
  | Some (PSetNull o) => o = snd k
  | Some (PProbe o) | Some (PStore o _) | Some (PTakeNull o) => o = snd k /\ exists es2, since_null es es2 /\ h = own Null es2
  | Some (PSetOriginal o g) => o = snd k /\ exists es2, while_null es es2 /\ g = own Null es2
  | Some (PCheck g) => h = fst k /\ exists es2, while_null es es2 /\ g = own Null es2
  end.
Lemma left_at_start es h : left_at es (Some start_init) h <-> h = left_with es.
Proof using. unfold start_init. destruct by_hook; reflexivity. Qed.
Lemma hands_off_none e : hands_off (Crate e None).
Proof using. intros x p [= _ X]; discriminate X. Qed.
Lemma left_neutral es e op h : (forall k, note k e = k) -> hands_off e -> (forall k, own k [e] = k) ->
  left_at es op h -> left_at (es ++ [e]) op h.
Proof using.
  intros N HO OW K. unfold left_at in *. rewrite fold_left_app. cbn [fold_left]. rewrite N.
  assert (NE : forall x o, e <> Crate x (Some (PSetNull o))).
  { intros x o ->. specialize (HO x _ eq_refl). discriminate HO. }
  destruct op as [[ | | | |o|o|o b|o|o g|g]|]; try exact K.
  all: destruct K as [K (es2 & S & ->)]; (split; [exact K|]).
  all: first [exists (es2 ++ [e]); (split; [now apply since_snoc|]); rewrite own_app; symmetry; apply OW
             | exists es2; split; [now apply while_snoc|reflexivity]].
Qed.
Lemma left_change es e op h : changes e = true -> left_at es op h ->
  left_at (es ++ [e]) op (match e with Installs _ h' => h' | _ => Default end).
Proof using.
  intros C K. unfold left_at in *. rewrite fold_left_app. cbn [fold_left].
  assert (HO : hands_off e) by (intros x p ->; discriminate C).
  assert (NE : forall x o, e <> Crate x (Some (PSetNull o))) by (intros x o ->; discriminate C).
  destruct e as [e p|t h'|t h']; [discriminate C|..]; cbn [note fst snd];
    (destruct op as [[ | | | |o|o|o b|o|o g|g]|]; try reflexivity; try exact K).
  all: destruct K as [K (es2 & S & HH)]; (split; [first [exact K|reflexivity]|]).
  all: first [ exists es2; split; [now apply while_snoc|exact HH]
             | eexists (es2 ++ [_]); split; [apply since_snoc; [exact S|exact HO]|now rewrite own_app] ].
Qed.
Lemma left_invariant es s : hsteps single initial es s -> exists op, phase s op /\ left_at es op (the_hook s).
Proof using.
  revert es s. apply (hsteps_rev single (fun s es => exists op, phase s op /\ left_at es op (the_hook s))).
  { exists None. split; [apply phase_initial|reflexivity]. }
  intros s es e s' R (op & PH & K) H SO. unfold single in SO.
  destruct H as [s e s' H|s t th h E A|s t th E A].
  - destruct (phase_step _ _ _ _ H SO PH) as [(PH' & DO & HH)|(op' & PH' & DO & M)].
    + exists op. split; [exact PH'|]. rewrite HH, DO. now apply left_neutral; [| apply hands_off_none| |].
    + exists op'. split; [exact PH'|]. rewrite DO. clear DO.
      inversion M; subst.
      all: try (apply left_at_start; unfold left_with; rewrite fold_left_app; exact K).
      all: unfold left_at in *; rewrite fold_left_app; cbn [fold_left note fst snd] in *; try exact K; try reflexivity.
      * (* set_null *) split; [exact K|]. exists []. split; [|reflexivity]. eexists es, e, _. split; [reflexivity|constructor].
      * (* probe *) destruct K as [K (es2 & S & HH)]. split; [exact K|]. eexists (es2 ++ [_]). split; [apply since_snoc; [exact S|]|now rewrite own_app].
        intros x p [= _ <-]. reflexivity.
      * destruct K as [K (es2 & S & HH)]. split; [exact K|]. eexists (es2 ++ [_]). split; [apply since_snoc; [exact S|]|now rewrite own_app].
        intros x p [= _ <-]. reflexivity.
      * (* take_null *) destruct K as [K (es2 & (es1 & x & q & -> & F) & HH)]. split; [exact K|]. exists es2. split; [|exact HH].
        eexists es1, x, q, _, _, []. split; [rewrite <- app_assoc; reflexivity|]. split; [exact F|intros y r []].
      * (* set_original *) destruct K as [-> (es2 & S & HH)]. split; [reflexivity|]. exists es2. split; [apply while_snoc; [exact S|discriminate]|exact HH].
      * apply K.
  - exists op. split; [now apply phase_hook|]. exact (left_change es (Installs t h) op _ eq_refl K).
  - exists op. split; [now apply phase_hook|]. exact (left_change es (Removes t (the_hook s)) op _ eq_refl K).
Qed.
Lemma single_hook es s : hsteps single initial es s -> hook_free s -> the_hook s = left_with es.
Proof using.
  intros H F. destruct (left_invariant es s H) as (op & PH & K). destruct PH as [N|t p Q N]; [exact K|].
  specialize (F t p Q). destruct p; try contradiction; try exact K. apply K.
Qed.
Lemma check_step s e s' t g : step s e s' -> mover e = t -> doing s t = Some (PCheck g) -> (e = Panicked t <-> g <> Null).
Proof using.
  intros H M DO. destruct (step_move _ _ _ H) as [MV _]. rewrite M, DO in MV. inversion MV as [ | | | | | | | | | | |h e' g' IFF]; subst.
  rewrite <- IFF. split; [eauto|]. intros [t E]. rewrite E. reflexivity.
Qed.
Lemma single_noticed es s t g : hsteps single initial es s -> doing s t = Some (PCheck g) ->
  exists es1 e1 o es2 e2 o' es3,
    es = es1 ++ Crate e1 (Some (PSetNull o)) :: es2 ++ Crate e2 (Some (PTakeNull o')) :: es3 /\
    Forall hands_off es2 /\ (forall x o, ~ In (Crate x (Some (PSetNull o))) es3) /\
    forall e p s', hstep s (Crate e p) s' -> mover e = t -> (e = Panicked t <-> own Null es2 <> Null).
Proof using.
  intros H DO. destruct (left_invariant es s H) as (op & PH & K). rewrite (phase_doing _ _ _ _ PH DO) in K.
  destruct K as [_ (es2 & (es1 & x & o & x' & o' & es3 & E & F & N) & ->)]. exists es1, x, o, es2, x', o', es3.
  split; [exact E|]. split; [exact F|]. split; [exact N|]. intros e p s' ST M. inversion ST; subst. eapply check_step; eauto.
Qed.
(** Without [unforce] no two threads are inside. *)
Lemma inside_single P es s : hsteps P initial es s -> no_unforce (crate_events es) -> hsteps (fun s e s' => single s e s' /\ P s e s') initial es s.
Proof using.
  enough (G : forall s0 es s, hsteps P s0 es s -> sane s0 -> no_direct s0 -> no_unforce (crate_events es) ->
    hsteps (fun s e s' => single s e s' /\ P s e s') s0 es s).
  { intros H N. apply G; auto using sane_initial, no_direct_initial. }
  clear es s. induction 1 as [s|s e s' es s'' H1 HP H2 IH]; intros S ND NU; [constructor|].
  pose proof (sane_hstep _ _ _ H1 S) as S'.
  assert (ND' : no_direct s').
  { destruct H1 as [s e s' H1|s t th h E A|s t th E A]; [|exact ND..].
    apply (no_direct_step _ _ _ H1); [|exact ND]. intros t ->. apply (NU t). now left. }
  econstructor; [exact H1|split; [now apply solo_no_direct|exact HP]|]. apply IH; auto.
  intros t I. apply (NU t). change (e :: es) with ([e] ++ es). rewrite crate_app. apply in_app_iff. now right.
Qed.
Lemma hsteps_weaken (P Q : state -> hevent -> state -> Prop) s es s' : (forall s e s', P s e s' -> Q s e s') -> hsteps P s es s' -> hsteps Q s es s'.
Proof using. intros W. induction 1; econstructor; eauto. Qed.
Lemma inside_hook es s : hsteps any initial es s -> no_unforce (crate_events es) -> hook_free s -> the_hook s = left_with es.
Proof using.
  intros H N. apply single_hook. eapply hsteps_weaken; [|exact (inside_single _ _ _ H N)]. now intros ? ? ? [X _].
Qed.

(** ** Answers *)
Lemma agreeing_hook s es h : agreeing s es -> agreeing (with_hook s h) es.
Proof using. intros [X|(r & L & X)]; [left; exact X|right; exists r; split; [exact L|exact X]]. Qed.
Lemma hlength P es s : hsteps P initial es s -> 0 < length (threads s).
Proof using.
  revert es s. apply (hsteps_rev P (fun s es => 0 < length (threads s))); [cbn; lia|]. intros s es e s' _ L H _.
  destruct H as [s e s' H|s t th h E A|s t th E A]; [pose proof (step_length _ _ _ H); lia|exact L..].
Qed.
Lemma hagreement es s : hsteps any initial es s -> no_force (crate_events es) -> no_unforce (crate_events es) ->
  exists r, r < length (threads s) /\ forall t b p, In (Crate (Returned t b) p) es -> b = available r.
Proof using.
  intros H NF NU. enough (A : agreeing s (crate_events es)).
  { destruct A as [(_ & _ & _ & A)|(r & L & _ & _ & _ & A)].
    - exists 0. split; [exact (hlength _ _ _ H)|]. intros t b p I. destruct (A t b). eapply in_crate. exact I.
    - exists r. split; [exact L|]. intros t b p I. eapply A. eapply in_crate. exact I. }
  revert NF NU. revert es s H. refine (hsteps_rev _ _ initial _ _).
  - intros _ _. apply agreeing_initial.
  - intros s es e s' R IH H _ NF NU. rewrite crate_app in *.
    assert (NF' : no_force (crate_events es)) by (intros t I; apply (NF t); apply in_app_iff; auto).
    assert (NU' : no_unforce (crate_events es)) by (intros t I; apply (NU t); apply in_app_iff; auto).
    specialize (IH NF' NU').
    destruct H as [s e s' H|s t th h E A|s t th E A]; [|cbn [crate_events flat_map app]; rewrite app_nil_r; now apply agreeing_hook..].
    cbn [crate_events flat_map app] in *.
    assert (N1 : forall t, e <> CallForce t) by (intros t ->; apply (NF t), in_app_iff; right; now left).
    assert (N2 : forall t, e <> CallUnforce t) by (intros t ->; apply (NU t), in_app_iff; right; now left).
    destruct IH as [X|(r & L & X)].
    + eapply undecided_step; eassumption.
    + right. exists r. split; [pose proof (step_length _ _ _ H); lia|]. eapply decided_step; eassumption.
Qed.

(** ** A thread which knows the answer *)
Definition settled (s : state) (t : nat) : Prop :=
  exists th, nth_error (threads s) t = Some th /\ 0 < view th /\ (at_ th = Idle \/ at_ th = Loading \/ at_ th = Forcing).
Lemma settled_step s e s' q : step s e s' -> sane s -> settled s q -> e <> CallUnforce q -> settled s' q /\ e <> Panicked q.
Proof using.
  intros H SA (th0 & E0 & V & AT) NU.
  assert (ND : forall th c p, nth_error (threads s) q = Some th -> at_ th <> Initializing c p) by (intros th c p X Y; rewrite E0 in X; injection X as <-; intuition congruence).
  assert (NE : forall th, nth_error (threads s) q = Some th -> at_ th <> Entering) by (intros th X Y; rewrite E0 in X; injection X as <-; intuition congruence).
  assert (KEEP : forall t' th th', nth_error (threads s) t' = Some th ->
    (t' = q -> th = th0 -> 0 < view th' /\ (at_ th' = Idle \/ at_ th' = Loading \/ at_ th' = Forcing)) ->
    exists th, nth_error (update (threads s) t' th') q = Some th /\ 0 < view th /\ (at_ th = Idle \/ at_ th = Loading \/ at_ th = Forcing)).
  { intros t' th th' E' K. destruct (Nat.eq_dec t' q) as [->|N].
    - exists th'. split; [eapply update_same; exact E'|]. apply K; [reflexivity|congruence].
    - exists th0. rewrite update_other by exact N. auto. }
  cases_step H; unfold settled, goto, put, with_hook, with_once, with_message, finish, abort, goto, put, with_once, returned in *; try destruct c;
    cbn [messages threads init_once the_hook view at_ fst snd] in *;
    (split; [|try discriminate]).
  all: try (apply (KEEP _ _ _ E); intros -> ->; cbn [view at_];
            solve [ exfalso; eapply ND; eassumption | exfalso; eapply NE; eassumption | exfalso; now apply NU | auto
                  | split; [lia|auto] | split; [destruct FR; lia|auto] ]).
  - exists th0. rewrite nth_error_app1 by (apply nth_error_Some; congruence). auto.
  - apply (KEEP _ _ _ E). intros -> ->. exfalso.
    destruct (sane_values s SA _ _ I) as [[-> _]|[_ [b ->]]]; [lia|now apply (NB b)].
  - intros X. injection X as X. subst q. now apply (NE th).
  - intros X. injection X as X. subst q. now apply (ND _ _ _ E A).
  - intros X. injection X as X. subst q. now apply (ND _ _ _ E A).
Qed.
Lemma settled_quiet P es0 s t es s' : hsteps P initial es0 s -> has_seen s t 1 -> ~ in_call s t -> hsteps P s es s' ->
  (forall p, ~ In (Crate (CallUnforce t) p) es) -> forall p, ~ In (Crate (Panicked t) p) es.
Proof using.
  intros R (th & E & V) NC H NU.
  assert (S : settled s t).
  { exists th. split; [exact E|]. split; [lia|]. left. destruct (at_ th) eqn:A; [reflexivity|exfalso..]; apply NC; exists th; (split; [exact E|congruence]). }
  pose proof (sane_hsteps _ _ _ R) as SA. clear R th E V NC es0.
  induction H as [s|s e s' es s'' H1 HP H2 IH]; [intros p []|].
  assert (G : settled s' t /\ forall p, e <> Crate (Panicked t) p).
  { destruct H1 as [s e s' H1|s t' th h E A|s t' th E A]; [|split; [exact S|discriminate]..].
    destruct (settled_step _ _ _ _ H1 SA S) as [S' NP].
    - intros ->. eapply NU. now left.
    - split; [exact S'|]. intros p [= X _]. now apply NP. }
  destruct G as [S' NP]. intros p [X|I]; [now apply (NP p)|].
  refine (IH _ S' (sane_hstep _ _ _ H1 SA) p I). intros q J. apply (NU q). now right.
Qed.
End Proofs.
