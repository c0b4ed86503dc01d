(** * Properties of copying *)
From Verif Require Import Base Tokens RcHeap SpecStreams SpecCopy CopyProofs.

(** ** C87 *)
Theorem c87_cells : forall os h e o h' e', exec_all ([], []) os = Done (h, e) -> exec (h, e) o = Done (h', e') ->
  length h' = length h + cells_made h e o.
Proof. exact cells_exact. Qed.
Print Assumptions c87_cells.
Theorem c87_clone : forall os h e i h' e', exec_all ([], []) os = Done (h, e) ->
  exec (h, e) (OClone i) = Done (h', e') \/ exec (h, e) (OStreamOf i) = Done (h', e') ->
  length h' = length h /\ same_cells h h'.
Proof. exact clones_nothing. Qed.
Print Assumptions c87_clone.
Theorem c87_in_place : forall os h e i l c o h' e', exec_all ([], []) os = Done (h, e) ->
  lookup e i = Some (VStream l) -> get h l = Some c -> holders h e l = 1 -> extends_trees i o -> exec (h, e) o = Done (h', e') ->
  lookup e' i = Some (VStream l) /\ same_but l h h' /\ exists w, get h' l = Some (mkcell 1 (elems c ++ w)).
Proof. exact extends_in_place. Qed.
Print Assumptions c87_in_place.
Theorem c87_streams_in_place : forall os h e i l c js h' e', exec_all ([], []) os = Done (h, e) ->
  lookup e i = Some (VStream l) -> get h l = Some c -> holders h e l = 1 -> exec (h, e) (OExtendStreams i js) = Done (h', e') ->
  lookup e' i = Some (VStream l).
Proof. exact extends_streams_in_place. Qed.
Print Assumptions c87_streams_in_place.
Theorem c87_one_level : forall os h e i l c o h' e', exec_all ([], []) os = Done (h, e) ->
  lookup e i = Some (VStream l) -> get h l = Some c -> 2 <= holders h e l -> extends_trees i o -> exec (h, e) o = Done (h', e') ->
  lookup e' i = Some (VStream (length h)) /\ (exists w, get h' (length h) = Some (mkcell 1 (elems c ++ w))) /\
  forall x, x < length h -> option_map elems (get h' x) = option_map elems (get h x).
Proof. exact extends_copy. Qed.
Print Assumptions c87_one_level.
Theorem c87_into_iter : forall os h e i l c h' e', exec_all ([], []) os = Done (h, e) ->
  lookup e i = Some (VStream l) -> get h l = Some c -> exec (h, e) (OIntoIter i) = Done (h', e') ->
  lookup e' i = Some (VIter (elems c)) /\
  (holders h e l = 1 -> get h' l = None /\ same_but l h h') /\ (2 <= holders h e l -> same_cells h h').
Proof. exact into_iter_moves. Qed.
Print Assumptions c87_into_iter.

(** A stream with a group, cloned: the first extension copies, the second does not, and
    the group stays shared. *)
Definition sp : span := call_site.
Definition shared : list op :=
  [OParse [TGroup Brace [TPunct "+"%ch Alone sp] sp]; OClone 0; OLeaf (TIdent (tag "x") false sp); OLeaf (TIdent (tag "y") false sp)].
Example c87_example :
  exists h e h1 e1 h2 e2, exec_all ([], []) shared = Done (h, e) /\ lookup e 0 = Some (VStream 1) /\ holders h e 1 = 2 /\
    exec (h, e) (OExtendTrees 0 [2]) = Done (h1, e1) /\ cells_made h e (OExtendTrees 0 [2]) = 1 /\
    lookup e1 0 = Some (VStream 2) /\ holders h1 e1 2 = 1 /\
    exec (h1, e1) (OExtendTrees 0 [3]) = Done (h2, e2) /\ cells_made h1 e1 (OExtendTrees 0 [3]) = 0 /\
    get h2 2 = Some (mkcell 1 [HGroup Brace 0 sp; HIdent (tag "x") false sp; HIdent (tag "y") false sp]) /\
    get h2 1 = Some (mkcell 1 [HGroup Brace 0 sp]) /\ get h2 0 = Some (mkcell 2 [HPunct "+"%ch Alone sp]).
Proof. do 6 eexists. repeat split; vm_compute; reflexivity. Qed.
