(** * Questions about spans through the wrapper: src/wrapper.rs 430-492, 978-987,
    src/extra.rs 76-151.

    Configuration [wrap_proc_macro] and [span_locations].  The compiler's answers
    are parameters, and so are the flags set by build.rs. *)
From Verif Require Import Base Unicode Tokens Lexer Fallback SourceMap Wrapper.

(** [proc_macro::Span] (src/probe).  Lines and columns count from 1. *)
Class span_compiler {T : ctypes} := {
  c_byte_range : cspan -> nat * nat;
  c_line : cspan -> nat;
  c_column : cspan -> nat;
  c_end : cspan -> cspan;
  c_file : cspan -> str;
  c_local_file : cspan -> option (list Base.byte)
}.
(** [cfg(proc_macro_span)], [cfg(proc_macro_span_location)], [cfg(proc_macro_span_file)] *)
Record config := mkconfig { with_span : bool; with_location : bool; with_file : bool }.

Section Spans.
Context {S : std_search} {T : ctypes} {C : compiler} {Q : span_compiler}.
Context (g : config).

(** 430-439 *)
Definition w_byte_range (m : source_map) (sp : wspan) : res (source_map * (nat * nat)) :=
  match sp with
  | SpC s => Ok (m, if with_span g then c_byte_range s else (0, 0))
  | SpF s => span_byte_range m s
  end.
(** 441-453; [saturating_sub] is the subtraction of natural numbers *)
Definition w_start (m : source_map) (sp : wspan) : res line_column :=
  match sp with
  | SpC s => Ok (if with_location g then mklc (c_line s) (c_column s - 1) else mklc 0 0)
  | SpF s => span_start m s
  end.
(** 455-470 *)
Definition w_end (m : source_map) (sp : wspan) : res line_column :=
  match sp with
  | SpC s => Ok (if with_location g then let e := c_end s in mklc (c_line e) (c_column e - 1) else mklc 0 0)
  | SpF s => span_end m s
  end.
(** 472-481 *)
Definition w_file (m : source_map) (sp : wspan) : res str :=
  match sp with
  | SpC s => Ok (if with_file g then c_file s else tag "<token stream>")
  | SpF s => span_file m s
  end.
(** 483-492; fallback.rs 611-614 *)
Definition w_local_file (sp : wspan) : option (list Base.byte) :=
  match sp with
  | SpC s => if with_file g then c_local_file s else None
  | SpF _ => None
  end.

(** 978-987 *)
Definition w_invalidate (inside : bool) (m : source_map) : res source_map :=
  if inside then Panic else Ok (invalidate m).

(** extra.rs 82-99: a [DelimSpan] *)
Inductive delim_span := DelimC (join open close : cspan) | DelimF (sp : span).
(** extra.rs 101-121 on a group; other trees have none *)
Definition delim_new (t : wtree) : option delim_span :=
  match t with
  | GroupC h => Some (DelimC (c_group_span h) (c_group_open h) (c_group_close h))
  | GroupF _ _ sp => Some (DelimF sp)
  | _ => None
  end.
(** extra.rs 123-148 *)
Definition delim_join (d : delim_span) : wspan :=
  match d with DelimC j _ _ => SpC j | DelimF sp => SpF sp end.
Definition delim_open (d : delim_span) : wspan :=
  match d with DelimC _ o _ => SpC o | DelimF sp => SpF (sp_first_byte sp) end.
Definition delim_close (d : delim_span) : wspan :=
  match d with DelimC _ _ c => SpC c | DelimF sp => SpF (sp_last_byte sp) end.
End Spans.
