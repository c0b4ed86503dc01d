(** * Printing call by call: src/fallback.rs 225-246, 759-784, 910-918, 1199-1203 and
    src/lib.rs 887-891, without formatting options.

    [Fallback.v] has the text that is printed.  Here are the calls of [write_str] (and
    [write_char]) that print it, to a writer that may refuse any of them.  The number
    given to the writer is how many [fmt] functions of the fallback are active. *)
From Verif Require Import Base Unicode Tokens Fallback.
Import ListNotations.

Section Writer.
(** [true] is [Ok]. *)
Context {W : Type} (write : nat -> W -> str -> W * bool).

(** The operator [?]. *)
Definition and_then (r : W * bool) (k : W -> W * bool) : W * bool :=
  if snd r then k (fst r) else r.

(** fallback.rs 226-245: the loop of [Display for TokenStream]; [first] is [i == 0]. *)
Definition fmt_trees (f : nat -> token -> W -> W * bool) (active : nat) : bool -> bool -> list token -> W -> W * bool :=
  fix go (first joint : bool) (ts : list token) (w : W) : W * bool :=
    match ts with
    | [] => (w, true)
    | t :: ts =>
        and_then (if negb first && negb joint then write active w [SPACE] else (w, true)) (fun w =>
        and_then (f (S active) t w) (fun w => go false (is_joint t) ts w))
    end.
(** fallback.rs 767-783 (Group), 911-917 (Ident), 1200-1202 (Literal), lib.rs 888-890 (Punct). *)
Fixpoint fmt_tree (active : nat) (t : token) (w : W) : W * bool :=
  match t with
  | TGroup d ts _ =>
      and_then (write active w (open_text d)) (fun w =>
      and_then (fmt_trees fmt_tree (S active) true false ts w) (fun w =>
      and_then (match d, ts with Brace, _ :: _ => write active w [SPACE] | _, _ => (w, true) end) (fun w =>
      write active w (close_text d))))
  | TIdent sym raw _ =>
      and_then (if raw then write active w (tag "r#") else (w, true)) (fun w => write active w sym)
  | TPunct c _ _ => write active w [c]
  | TLiteral repr _ => write active w repr
  end.
Definition fmt_stream (ts : list token) (w : W) : W * bool := fmt_trees fmt_tree 1 true false ts w.
End Writer.
