(** * C104: iterating over a stream one tree at a time.

    The compiler is the parameter [C], its iterator's [size_hint] the parameter [H]. *)
From Verif Require Import Base Unicode Tokens SpecTree Wrapper SpecWrapper ToyCompiler WrapIter SpecIter IterProofs.
Import ListNotations.

Theorem c104_history : forall (T : ctypes) (C : compiler) (H : compiler_hint) stored, list_laws stored -> truthful H ->
  forall os, follows stored [] os (iter_run [] os).
Proof. exact @iter_history. Qed.
Print Assumptions c104_history.
(** The trees got one at a time are those [Wrapper.into_iter] gives at once. *)
Theorem c104_all_at_once : forall (T : ctypes) (C : compiler) inside s l,
  into_iter s = Val l <-> nexts inside (length l + 1) (iter_start s) = map (fun t => Val (Some t)) l ++ [Val None].
Proof. exact @all_at_once. Qed.
Print Assumptions c104_all_at_once.
(** A stream of the compiler with a character no [Punct] has: the call that meets it panics,
    those before it and after it do not, and a clone made in between meets it too. *)
Definition toy_hint : @compiler_hint toy_types := fun ts => (length ts, Some (length ts)).
Definition odd_stream : @wstream toy_types :=
  @StreamC toy_types [ToyPunct "+"%ch Joint 4; ToyPunct "\"%ch Alone 5] [@CIdent toy_types (tag "x", 6)].
Example c104_example : @list_laws toy_types toy_compiler toy_stored /\ @truthful toy_types toy_hint /\
  @iter_run toy_types toy_compiler toy_hint []
    [IStart odd_stream; INext true 0; IClone 0; IHint 0; INext false 0; INext true 0; INext true 0; IHint 0; IHint 1; INext true 1; INext true 1]
  = [Quiet; Said (Val (Some (PunctW "+"%ch Joint (@SpC toy_types 4)))); Quiet; Hint (2, Some 2); Said Panics;
     Said (Val (Some (@IdentC toy_types (tag "x", 6)))); Said (Val None); Hint (0, Some 0); Hint (2, Some 2); Said Panics;
     Said (Val (Some (@IdentC toy_types (tag "x", 6))))].
Proof. split; [exact toy_list_laws|]. split; [intros ts; split; cbn; lia|]. vm_compute. reflexivity. Qed.
Example c104_once_example :
  let s := @StreamC toy_types [ToyPunct "+"%ch Joint 4] [@CIdent toy_types (tag "x", 6)] in
  let l := [PunctW "+"%ch Joint (@SpC toy_types 4); @IdentC toy_types (tag "x", 6)] in
  @into_iter toy_types toy_compiler s = Val l /\ @into_iter toy_types toy_compiler odd_stream = Panics.
Proof. split; reflexivity. Qed.
