(** * Newer tables of Unicode properties. *)
From Verif Require Import Base Unicode Tokens SpecText SpecTree SpecLit.
Import ListNotations.

(** Characters become identifier characters, but none that only could continue an
    identifier becomes one that can start it. *)
Record newer (U V : unicode) : Prop := mknewer {
  newer_start : forall c, @is_xid_start U c = true -> @is_xid_start V c = true;
  newer_continue : forall c, @is_xid_continue U c = true -> @is_xid_continue V c = true;
  newer_kept : forall c, @is_xid_continue U c = true -> @is_xid_start V c = true -> @is_xid_start U c = true
}.
(** The tables by which strings are printed with escapes. *)
Definition same_printing (U V : unicode) : Prop :=
  forall c, @is_printable U c = @is_printable V c /\ @is_grapheme_extended U c = @is_grapheme_extended V c.

Definition is_leaf (t : token) : Prop := match t with TGroup _ _ _ => False | _ => True end.
(** The same trees, but for the spelling of the strings of doc comments. *)
Inductive respelled : list token -> list token -> Prop :=
| re_nil : respelled [] []
| re_leaf t ts ts' : is_leaf t -> respelled ts ts' -> respelled (t :: ts) (t :: ts')
| re_group d i i' sp ts ts' : respelled i i' -> respelled ts ts' -> respelled (TGroup d i sp :: ts) (TGroup d i' sp :: ts')
| re_doc inner l l' v sp ts ts' : denotes KStr l v -> denotes KStr l' v -> respelled ts ts' ->
    respelled (doc_attribute inner l sp ++ ts) (doc_attribute inner l' sp ++ ts').

(** The characters with the property White_Space, and the two directional marks. *)
Definition blanks : list char :=
  [0x9; 0xA; 0xB; 0xC; 0xD; 0x20; 0x85; 0xA0; 0x1680; 0x2000; 0x2001; 0x2002; 0x2003; 0x2004; 0x2005; 0x2006; 0x2007;
   0x2008; 0x2009; 0x200A; 0x200E; 0x200F; 0x2028; 0x2029; 0x202F; 0x205F; 0x3000]%N.
