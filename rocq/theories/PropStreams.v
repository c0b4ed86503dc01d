(** * Properties C32-C36: shared token storage. *)
From Verif Require Import Base Unicode Tokens Lexer SpecText SpecTree Fallback RcHeap SpecStreams RcProofs.
Import ListNotations.

(** ** C32 *)
Theorem c32_lists : forall os,
  match exec_all ([], []) os, aexec_all [] os with
  | Done (h, e), Some ae => Forall2 (olooks h) e ae
  | Illtyped, None => True
  | _, _ => False
  end.
Proof. exact history_is_lists. Qed.
Print Assumptions c32_lists.
Theorem c32_stream : forall h l ts, looks h (VStream l) (AStream ts) ->
  stream_len h l = Done (length ts) /\ (stream_is_empty h l = Done true <-> ts = []) /\
  (stream_is_empty h l = Done false <-> ts <> []).
Proof. exact stream_observed. Qed.
Print Assumptions c32_stream.
Theorem c32_size_hint : forall h v ts, looks h (VIter v) (AIter ts) -> size_hint v = (length ts, Some (length ts)).
Proof. exact iter_observed. Qed.
Print Assumptions c32_size_hint.
Theorem c32_one_meaning : forall h v a b, looks h v a -> looks h v b -> a = b.
Proof. exact looks_det. Qed.
Print Assumptions c32_one_meaning.

Definition sp := call_site.
(** Clone a stream, put one copy in a group, extend the other with the group, a
    negative literal and the stream of the group; iterate. *)
Definition history : list op :=
  [OParse [TIdent (tag "a") false sp; TGroup Brace [TPunct "+"%ch Alone sp] sp];   (* 0 *)
   OClone 0;                                   (* 1 *)
   OGroup Parenthesis 1;
   OStreamOf 1;                                (* 2 *)
   OClone 1;                                   (* 3 *)
   OLeaf (TLiteral (tag "-1") sp);             (* 4 *)
   OExtendTrees 0 [3; 4];
   OExtendStreams 2 [0];
   OClone 2;                                   (* 5 *)
   OIntoIter 5;
   ONext 5].                                   (* 6 *)
Example c32_example :
  let inner := [TPunct "+"%ch Alone sp] in
  let first := [TIdent (tag "a") false sp; TGroup Brace inner sp] in
  let rest := [TGroup Brace inner sp; TIdent (tag "a") false sp; TGroup Brace inner sp;
               TGroup Parenthesis first sp; TPunct "-"%ch Alone sp; TLiteral (tag "1") sp] in
  (exists st, exec_all ([], []) history = Done st) /\
  aexec_all [] history =
    Some [None; Some (ATree (TGroup Parenthesis first sp)); Some (AStream (TIdent (tag "a") false sp :: rest)); None; None;
          Some (AIter rest); Some (ATree (TIdent (tag "a") false sp))].
Proof. cbn zeta. split; [eexists; vm_compute; reflexivity|vm_compute; reflexivity]. Qed.

(** ** C33 *)
Theorem c33_no_negative_literal : forall U, unicode_ok U -> forall os h e i v a,
  Forall api_op os -> exec_all ([], []) os = Done (h, e) -> lookup e i = Some v -> looks h v a ->
  match a with
  | AStream ts | AIter ts => forall repr sp, occurs (TLiteral repr sp) ts -> ~ negative repr
  | ATree (TGroup _ ts _) => forall repr sp, occurs (TLiteral repr sp) ts -> ~ negative repr
  | ATree _ => True
  end.
Proof. exact @no_negative_literal. Qed.
Print Assumptions c33_no_negative_literal.
Example c33_example :
  let os := [OLeaf (TLiteral (tag "-1.5") sp); OFromTree 0; OGroup Bracket 0; OClone 0; OFromTrees [0; 1]] in
  Forall (@api_op sample_unicode) os /\
  aexec_all [] os =
    let g := TGroup Bracket [TPunct "-"%ch Alone sp; TLiteral (tag "1.5") sp] sp in
    Some [None; None; Some (AStream [g; g])].
Proof.
  cbn zeta. split; [|vm_compute; reflexivity]. repeat constructor. exists 0%N. eexists. split; [reflexivity|].
  vm_compute. reflexivity.
Qed.

(** ** C34 *)
Theorem c34_others_unchanged : forall os h e o h' e' i v,
  exec_all ([], []) os = Done (h, e) -> exec (h, e) o = Done (h', e') -> ~ In i (writes o) -> lookup e i = Some v ->
  lookup e' i = Some v /\ forall a, looks h v a <-> looks h' v a.
Proof. exact others_unchanged. Qed.
Print Assumptions c34_others_unchanged.
Theorem c34_clone : forall os h e i h' e' v,
  exec_all ([], []) os = Done (h, e) -> exec (h, e) (OClone i) = Done (h', e') -> lookup e i = Some v ->
  lookup e' i = Some v /\ lookup e' (length e) = Some v /\ forall a, looks h v a <-> looks h' v a.
Proof. exact clone_looks. Qed.
Print Assumptions c34_clone.
(** Both handles are the same cell, and extending one leaves the other. *)
Example c34_example :
  let os := [OParse [TPunct "+"%ch Alone sp]; OClone 0; OLeaf (TIdent (tag "x") false sp)] in
  match exec_all ([], []) os with
  | Done (h, e) =>
      lookup e 0 = Some (VStream 0) /\ lookup e 1 = Some (VStream 0) /\
      match exec (h, e) (OExtendTrees 0 [2]) with
      | Done (h', e') => lookup e' 1 = Some (VStream 0) /\ lookup e' 0 = Some (VStream 1) /\
          looks h' (VStream 0) (AStream [TPunct "+"%ch Alone sp]) /\
          looks h' (VStream 1) (AStream [TPunct "+"%ch Alone sp; TIdent (tag "x") false sp])
      | _ => False
      end
  | _ => False
  end.
Proof. vm_compute. repeat split; eexists; (split; [reflexivity|repeat constructor]). Qed.

(** ** C35 *)
Theorem c35_never_faults : forall os, exec_all ([], []) os <> Fault.
Proof. exact never_faults. Qed.
Print Assumptions c35_never_faults.
Theorem c35_counts : forall os h e, exec_all ([], []) os = Done (h, e) ->
  forall l, match get h l with
            | Some c => rc c = env_refs l e + heap_refs l h /\ rc c <> 0
            | None => env_refs l e = 0 /\ heap_refs l h = 0
            end.
Proof. exact counts_exact. Qed.
Print Assumptions c35_counts.
Theorem c35_no_garbage : forall os h e, exec_all ([], []) os = Done (h, e) ->
  forall l c, get h l = Some c -> reachable h e l.
Proof. exact no_garbage. Qed.
Print Assumptions c35_no_garbage.
Theorem c35_all_freed : forall os h e, exec_all ([], []) os = Done (h, e) -> (forall i, lookup e i = None) ->
  forall l, get h l = None.
Proof. exact all_dropped_frees. Qed.
Print Assumptions c35_all_freed.
Example c35_example :
  exec_all ([], []) (history ++ [ODrop 2; ODrop 1; ODrop 5; ODrop 6])
  = Done ([None; None; None; None], [None; None; None; None; None; None; None]).
Proof. vm_compute. reflexivity. Qed.

(** ** C36 *)
Theorem c36_bounded_stack : forall os h e i v f,
  exec_all ([], []) os = Done (h, e) -> lookup e i = Some v -> drop_entry v = Some f ->
  (exists n h', n <= 10 * (heap_size h + match v with VIter v => length v | _ => 0 end) + 4 /\ drop_run n h [f] h' []) /\
  (forall n h' fs, drop_run n h [f] h' fs -> length fs <= 3).
Proof. exact drop_bounded. Qed.
Print Assumptions c36_bounded_stack.
(** A tower of 500 groups. *)
Fixpoint tower (n : nat) : list token :=
  match n with O => [] | S n => [TGroup Parenthesis (tower n) sp] end.
Example c36_example :
  match exec_all ([], []) [OParse (tower 500)] with
  | Done (h, e) => lookup e 0 = Some (VStream 500) /\ length h = 501 /\ forallb (fun x => match x with Some _ => true | None => false end) h = true
  | _ => False
  end /\
  match exec_all ([], []) [OParse (tower 500); ODrop 0] with
  | Done (h, e) => forallb (fun x => match x with Some _ => false | None => true end) h = true
  | _ => False
  end.
Proof. vm_compute. repeat split. Qed.
