(** * A small compiler, to check that the assumptions made about the compiler can be met. *)
From Verif Require Import Base Unicode Tokens Lexer Fallback LitNew Wrapper SpecWrapper.
Import ListNotations.

Inductive toy :=
| ToyGroup (d : delimiter) (ts : list toy) (sp : nat)
| ToyPunct (c : char) (s : spacing) (sp : nat)
| ToyIdent (s : str) (sp : nat)
| ToyLiteral (s : str) (sp : nat).
Definition toy_types : ctypes :=
  {| cspan := nat; cstream := list toy; cgroup := delimiter * list toy * nat; cident := str * nat; cliteral := str * nat |}.
#[local] Existing Instance toy_types.
Definition toy_of (t : ctree) : toy :=
  match t with
  | CGroup (d, ts, sp) => ToyGroup d ts sp
  | CPunct c s sp => ToyPunct c s sp
  | CIdent (s, sp) => ToyIdent s sp
  | CLiteral (s, sp) => ToyLiteral s sp
  end.
Definition toy_to (t : toy) : ctree :=
  match t with
  | ToyGroup d ts sp => CGroup (d, ts, sp)
  | ToyPunct c s sp => CPunct c s sp
  | ToyIdent s sp => CIdent (s, sp)
  | ToyLiteral s sp => CLiteral (s, sp)
  end.
(** A negative literal is kept as two trees. *)
Definition toy_stored (t : ctree) : list ctree :=
  match t with
  | CLiteral (c :: s, sp) => if N.eqb c "-"%ch then [CPunct "-"%ch Alone sp; CLiteral (s, sp)] else [t]
  | t => [t]
  end.
Definition toy_append (s : list toy) (ts : list ctree) : list toy := s ++ map toy_of (flat_map toy_stored ts).
Fixpoint toy_text (t : toy) : str :=
  match t with
  | ToyGroup d ts _ => open_text d ++ flat_map (fun t => toy_text t ++ [SPACE]) ts ++ close_text d
  | ToyPunct c _ _ => [c]
  | ToyIdent s _ => s
  | ToyLiteral s _ => s
  end.
Definition toy_compiler : @compiler toy_types := {|
  c_call_site := 1%nat;
  c_mixed_site := 2%nat;
  c_resolved_at := fun a _ => a;
  c_located_at := fun _ b => b;
  c_join := fun a b => Some (Nat.max a b);
  c_span_eq := Nat.eqb;
  c_source_text := fun _ => None;
  c_new := [];
  c_parse := fun s => match s with [] => Parsed [] | c :: _ => if N.eqb c "p"%ch then ParsePanic else Parsed [ToyIdent s 0] end;
  c_is_empty := fun s => match s with [] => true | _ => false end;
  c_display := flat_map (fun t => toy_text t ++ [SPACE]);
  c_from_tree := fun t => toy_append [] [t];
  c_collect := toy_append [];
  c_extend := toy_append;
  c_extend_streams := fun s ss => s ++ concat ss;
  c_trees := map toy_to;
  c_group_new := fun d s => (d, s, 1%nat);
  c_delimiter := fun g => fst (fst g);
  c_group_stream := fun g => snd (fst g);
  c_group_span := snd;
  c_group_open := snd;
  c_group_close := snd;
  c_group_set_span := fun g sp => (fst g, sp);
  c_group_display := fun g => toy_text (ToyGroup (fst (fst g)) (snd (fst g)) 0);
  c_ident_new := fun s sp => match s with [] => None | _ => Some (s, sp) end;
  c_ident_new_raw := fun s sp => match s with [] => None | _ => Some (tag "r#" ++ s, sp) end;
  c_ident_span := snd;
  c_ident_set_span := fun i sp => (fst i, sp);
  c_ident_display := fst;
  c_literal_new := fun _ => (tag "1", 1%nat);
  c_literal_parse := fun s => Parsed (s, 1%nat);
  c_literal_span := snd;
  c_literal_set_span := fun i sp => (fst i, sp);
  c_literal_subspan := fun _ _ _ => None;
  c_literal_display := fst;
  no_byte_character := true;
  no_c_string := true
|}.
Definition toy_map : fallback_map := {| f_join := fun _ _ => None; f_source_text := fun _ => None |}.

Lemma toy_to_of t : toy_to (toy_of t) = t.
Proof. now destruct t as [[[]]| |[]|[]]. Qed.
Lemma toy_stored_some t : toy_stored t <> [].
Proof. destruct t as [| | |[[|c s] sp]]; try discriminate. cbn. destruct (N.eqb c "-"%ch); discriminate. Qed.
Lemma toy_extend_laws : @extend_laws toy_types toy_compiler.
Proof.
  split; cbn; unfold toy_append.
  - intros s. apply app_nil_r.
  - intros s a b. now rewrite flat_map_app, map_app, app_assoc.
  - intros [|x s] [|t a]; try reflexivity. cbn. pose proof (toy_stored_some t). now destruct (toy_stored t).
Qed.
Lemma toy_list_laws : @list_laws toy_types toy_compiler toy_stored.
Proof.
  assert (E : forall l, map toy_to (map toy_of l) = l)
    by (intros l; rewrite map_map, (map_ext _ (fun t => t)), map_id; [reflexivity|exact toy_to_of]).
  split; cbn; unfold toy_append; cbn [app].
  - reflexivity.
  - intros t. cbn. now rewrite E, app_nil_r.
  - intros ts. apply E.
  - intros s ts. now rewrite map_app, E.
  - intros s ss. now rewrite map_app, concat_map, <- flat_map_concat_map.
  - intros []; reflexivity.
  - exact toy_stored_some.
Qed.
