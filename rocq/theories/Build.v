(** * The build script: build.rs

    A script prints lines, starts compilers, makes and removes a directory,
    and ends normally or by [process::exit(1)].  Strings of the operating
    system are lists of bytes; the texts the script itself writes are ASCII,
    so their bytes are their characters.  Messages on stderr are left out, and
    so are the messages of the compilers it starts ([Stdio::null()]). *)
From Verif Require Import Base LitNew.
From Verif Require Export BuildWorld.
Import ListNotations.
Local Open Scope N_scope.

(** The state is the number of directories made so far; the result is [None]
    after [process::exit(1)]. *)
Definition script (A : Type) := nat -> option (A * nat) * list event.
Definition ret {A} (a : A) : script A := fun n => (Some (a, n), []).
Definition bind {A B} (m : script A) (f : A -> script B) : script B := fun n =>
  match m n with
  | (Some (a, n'), es) => let r := f a n' in (fst r, es ++ snd r)
  | (None, es) => (None, es)
  end.
Definition exit_1 {A} : script A := fun _ => (None, []).
Definition emit (e : event) : script unit := fun n => (Some (tt, n), [e]).
Definition println (s : str) : script unit := emit (Line s).
Definition when (b : bool) (m : script unit) : script unit := if b then m else ret tt.
Notation "'let*' x := m 'in' f" := (bind m (fun x => f)) (at level 61, x name, m at next level, right associativity).
Notation "m ;; f" := (bind m (fun _ => f)) (at level 61, right associativity).

(** [u32::MAX] *)
Definition u32_max : N := 4294967295.

(** [str::split] with a character: one more piece than there are separators. *)
Fixpoint split (sep : N) (s : list N) : list (list N) :=
  match s with
  | [] => [[]]
  | c :: s =>
      if c =? sep then [] :: split sep s
      else match split sep s with
           | p :: ps => (c :: p) :: ps
           | [] => [[c]]
           end
  end.

(** [str::parse::<u32>] (core::num): an optional plus sign and at least one
    decimal digit; [None] is an error, of overflow or of form. *)
Fixpoint parse_digits (acc : N) (s : str) : option N :=
  match s with
  | [] => Some acc
  | c :: s =>
      if is_dec_digit c then
        let n := acc * 10 + (c - 48) in
        if n <=? u32_max then parse_digits n s else None
      else None
  end.
Definition parse_u32 (s : str) : option N :=
  match s with
  | [] => None
  | c :: r =>
      if c =? "+"%ch then match r with [] => None | _ => parse_digits 0 r end
      else parse_digits 0 s
  end.

(** build.rs 259-267: [cargo_env_var] *)
Definition cargo_env_var (w : world) (key : str) : script (list byte) :=
  match var w key with
  | Some v => ret v
  | None => exit_1
  end.

(** build.rs 248-257: [rustc_minor_version] *)
Definition minor_of (stdout : list byte) : option N :=
  match from_utf8 stdout with
  | Utf8Err _ _ => None
  | Utf8Ok version =>
      match split "."%ch version with
      | major :: pieces =>
          if str_eqb major (lit "rustc 1") then
            match pieces with
            | minor :: _ => parse_u32 minor
            | [] => None
            end
          else None
      | [] => None
      end
  end.
Definition rustc_minor_version (w : world) : script (option N) :=
  let* rustc := cargo_env_var w (lit "RUSTC") in
  ret (match version w rustc with
       | None => None
       | Some stdout => minor_of stdout
       end).

(** [Path::join] on Unix with a relative second part. *)
Definition join_path (dir name : list byte) : list byte :=
  match rev dir with
  | [] => name
  | c :: _ => if c =? "/"%ch then dir ++ name else dir ++ lit "/" ++ name
  end.

(** [.filter(|wrapper| !wrapper.is_empty())], as the iterator it becomes *)
Definition nonempty (v : option (list byte)) : list (list byte) :=
  match v with
  | Some [] | None => []
  | Some v => [v]
  end.

(** build.rs 183-219: the command line of a probe.  [chain]ing the wrappers
    before the compiler leaves at least one word, whose first is the program. *)
Definition probe_command (w : world) (rustc out_subdir : list byte) (feature : str) (rustc_bootstrap : bool) : command :=
  let words := nonempty (var w (lit "RUSTC_WRAPPER"))
    ++ nonempty (var w (lit "RUSTC_WORKSPACE_WRAPPER")) ++ [rustc] in
  {| program := hd [] words;
     arguments := tl words
       ++ [lit "--cfg=procmacro2_build_probe"; lit "--edition=2021"; lit "--crate-name=proc_macro2";
           lit "--crate-type=lib"; lit "--cap-lints=allow"; lit "--emit=dep-info,metadata";
           lit "--out-dir"; out_subdir; lit "src/probe/" ++ feature ++ lit ".rs"]
       ++ match var w (lit "TARGET") with
          | Some target => [lit "--target"; target]
          | None => []
          end
       ++ match var w (lit "CARGO_ENCODED_RUSTFLAGS") with
          | Some rustflags =>
              match from_utf8 rustflags with
              | Utf8Ok (_ :: _) => split 31 rustflags
              | _ => []
              end
          | None => []
          end;
     bootstrap := if rustc_bootstrap then var w (lit "RUSTC_BOOTSTRAP") else None |}.

(** build.rs 165-246: [do_compile_probe] *)
Definition create_dir (w : world) (dir : list byte) : script unit := fun n =>
  (match mkdir w n with
   | DirMade | DirExists => Some (tt, n)
   | DirFailed => None
   end, [Mkdir dir]).
Definition remove_dir (w : world) (dir : list byte) : script unit := fun n =>
  (match rmdir w n with
   | DirRemoved | DirNotFound => Some (tt, S n)
   | DirError (Some 39) => if linux w then Some (tt, S n) else None
   | DirError _ => None
   end, [Rmdir dir]).
Definition do_compile_probe (w : world) (feature : str) (rustc_bootstrap : bool) : script bool :=
  println (lit "cargo:rerun-if-changed=src/probe/" ++ feature ++ lit ".rs");;
  let* rustc := cargo_env_var w (lit "RUSTC") in
  let* out_dir := cargo_env_var w (lit "OUT_DIR") in
  let out_subdir := join_path out_dir (lit "probe") in
  create_dir w out_subdir;;
  let cmd := probe_command w rustc out_subdir feature rustc_bootstrap in
  emit (Ran cmd);;
  remove_dir w out_subdir;;
  ret (match compile w cmd with
       | Some success => success
       | None => false
       end).

(** build.rs 150-163: [compile_probe_unstable], [compile_probe_stable] *)
Definition compile_probe_unstable (w : world) (feature : str) (rustc_bootstrap : bool) : script bool :=
  match var w (lit "RUSTC_STAGE") with
  | Some _ => ret false
  | None => do_compile_probe w feature rustc_bootstrap
  end.
Definition compile_probe_stable (w : world) (feature : str) : script bool :=
  match var w (lit "RUSTC_STAGE") with
  | Some _ => ret true
  | None => do_compile_probe w feature true
  end.

(** build.rs 18-33 *)
Definition check_cfgs : list str := [
  lit "fuzzing"; lit "no_is_available"; lit "no_literal_byte_character"; lit "no_literal_c_string";
  lit "no_source_text"; lit "proc_macro_span"; lit "proc_macro_span_file"; lit "proc_macro_span_location";
  lit "procmacro2_backtrace"; lit "procmacro2_build_probe"; lit "procmacro2_nightly_testing";
  lit "procmacro2_semver_exempt"; lit "randomize_layout"; lit "span_locations"; lit "super_unstable";
  lit "wrap_proc_macro"].
Definition check_cfg (name : str) : event :=
  Line (lit "cargo:rustc-check-cfg=cfg(" ++ name ++ lit ")").
Definition rustc_cfg (name : str) : script unit := println (lit "cargo:rustc-cfg=" ++ name).

(** build.rs 74-107: whether the unstable interface of [Span] can be used, and
    whether that hangs on [RUSTC_BOOTSTRAP] *)
Definition probe_span (w : world) : script (bool * bool) :=
  let* without := compile_probe_unstable w (lit "proc_macro_span") false in
  if without then ret (true, false)
  else match var w (lit "RUSTC_BOOTSTRAP") with
       | Some rustc_bootstrap =>
           let* within := compile_probe_unstable w (lit "proc_macro_span") true in
           if within then ret (true, true)
           else if str_eqb rustc_bootstrap (lit "1") then ret (false, false)
           else ret (false, true)
       | None => ret (false, true)
       end.

(** [a || (b && m)], which runs [m] only if it decides *)
Definition or_else (a b : bool) (m : script bool) : script bool :=
  if a then ret true else if b then m else ret false.

(** build.rs 14-148: [main] *)
Definition main (w : world) : script unit :=
  let* minor := rustc_minor_version w in
  let rustc := match minor with Some n => n | None => u32_max end in
  when (80 <=? rustc) (fun n => (Some (tt, n), map check_cfg check_cfgs));;
  when (semver_exempt w) (rustc_cfg (lit "procmacro2_semver_exempt"));;
  when (semver_exempt w || span_feature w) (rustc_cfg (lit "span_locations"));;
  when (rustc <? 57) (rustc_cfg (lit "no_is_available"));;
  when (rustc <? 66) (rustc_cfg (lit "no_source_text"));;
  when (rustc <? 79)
    (rustc_cfg (lit "no_literal_byte_character");; rustc_cfg (lit "no_literal_c_string"));;
  if negb (macro_feature w) then println (lit "cargo:rerun-if-changed=build.rs")
  else
    let* probed := probe_span w in
    when (fst probed || negb (semver_exempt w)) (rustc_cfg (lit "wrap_proc_macro"));;
    when (fst probed) (rustc_cfg (lit "proc_macro_span"));;
    let* location := or_else (fst probed) (88 <=? rustc) (compile_probe_stable w (lit "proc_macro_span_location")) in
    when location (rustc_cfg (lit "proc_macro_span_location"));;
    let* file := or_else (fst probed) (88 <=? rustc) (compile_probe_stable w (lit "proc_macro_span_file")) in
    when file (rustc_cfg (lit "proc_macro_span_file"));;
    when (semver_exempt w && fst probed) (rustc_cfg (lit "super_unstable"));;
    when (snd probed) (println (lit "cargo:rerun-if-env-changed=RUSTC_BOOTSTRAP")).

(** ** Conditional compilation in the crate

    Each row is a use of an item and the item it needs: the condition under
    which the use is compiled, including the condition of the module it is in,
    and the condition under which the item exists.  [wrapper.rs] and
    [detection.rs] are compiled under [wrap_proc_macro] (lib.rs 149-150,
    161-163), the files of [src/probe] under the names in probe.rs 3-10. *)
Notation wrap := (Flag (lit "wrap_proc_macro")).
Notation semver := (Flag (lit "procmacro2_semver_exempt")).
Notation locations := (Flag (lit "span_locations")).
Notation unstable := (Flag (lit "super_unstable")).
Notation span := (Flag (lit "proc_macro_span")).
Notation span_file := (Flag (lit "proc_macro_span_file")).
Notation span_location := (Flag (lit "proc_macro_span_location")).
Notation macro := (Feature (lit "proc-macro")).

Definition gated_uses : list (gate * gate) := [
  (* [extern crate proc_macro] (lib.rs 141-142) in wrapper.rs, detection.rs,
     extra.rs 89, lib.rs 457 and 463; fallback.rs 255, 262, 1238, lib.rs 278,
     286; the three files of src/probe *)
  (wrap, macro); (macro, macro); (span, macro); (span_file, macro); (span_location, macro);
  (* [mod detection] in wrapper.rs 1, fallback.rs 43, 50 *)
  (wrap, wrap);
  (* [mod location] in wrapper.rs 3, fallback.rs 3, lib.rs 195 *)
  (All [wrap; locations], locations); (locations, locations);
  (* [probe::proc_macro_span] in wrapper.rs 5, 433, 496, 939 *)
  (All [wrap; span], span); (All [wrap; locations; span], span);
  (* the imports of [probe::proc_macro_span_file] and [proc_macro_span_location]
     (wrapper.rs 7, 9) and their uses in wrapper.rs 444, 458, 475, 486 *)
  (All [wrap; locations; span_file], span_file);
  (All [wrap; locations; span_file], All [wrap; locations; span_file]);
  (All [wrap; locations; span_location], span_location);
  (All [wrap; locations; span_location], All [wrap; locations; span_location]);
  (* [ToOwned] (wrapper.rs 12) for wrapper.rs 477 *)
  (All [wrap; locations; Not span_file], All [wrap; locations; Not span_file]);
  (* [imp::Span::def_site] (wrapper.rs 396, fallback.rs 542) in lib.rs 429 *)
  (semver, Any [All [wrap; unstable]; All [Not wrap; semver]]);
  (* [fallback::Span::def_site] (fallback.rs 542) in wrapper.rs 401 *)
  (All [wrap; unstable], semver);
  (* [imp::Span::eq] (wrapper.rs 504, derived in fallback.rs 519) in lib.rs 551 *)
  (semver, Any [All [wrap; unstable]; Not wrap]);
  (* [imp::Span]'s methods on locations (wrapper.rs 430-483, fallback.rs
     558-599) in lib.rs 478-531 *)
  (locations, Any [All [wrap; locations]; All [Not wrap; locations]]);
  (* [fallback::invalidate_current_thread_spans] (fallback.rs 339) in wrapper.rs
     986, [imp::invalidate_current_thread_spans] in extra.rs 74 *)
  (All [wrap; locations], locations);
  (locations, Any [All [wrap; locations]; All [Not wrap; locations]]);
  (* [feature(proc_macro_span)] (lib.rs 88) for src/probe/proc_macro_span.rs *)
  (span, Any [span; unstable]);
  (* [feature(proc_macro_def_site)] (lib.rs 89) for wrapper.rs 399 *)
  (All [wrap; unstable], unstable);
  (* [mod num], [mod rustc_literal_escaper] (lib.rs 168-172) in lib.rs 176-1465 *)
  (semver, semver);
  (* [fallback::FromStr2] (fallback.rs 1238) in wrapper.rs 2, and its
     [from_str_checked] (fallback.rs 1243) in wrapper.rs *)
  (wrap, macro); (wrap, All [macro; wrap]);
  (* [imp::Span::unwrap] (wrapper.rs 423) in lib.rs 457 *)
  (wrap, wrap);
  (* [imp::Group::Compiler], [imp::Literal::Fallback] in fallback.rs 115, 150
     and extra.rs 100-140 *)
  (wrap, wrap)].

(** Functions of the compiler's library and the release that has them:
    [is_available] (detection.rs 26), [Span::source_text] (wrapper.rs 515),
    [Literal::byte_character] and [Literal::c_string] (wrapper.rs 878, 905). *)
Definition version_uses : list (gate * N) := [
  (All [wrap; Not (Flag (lit "no_is_available"))], 57);
  (All [wrap; Not (Flag (lit "no_source_text"))], 66);
  (All [wrap; Not (Flag (lit "no_literal_byte_character"))], 79);
  (All [wrap; Not (Flag (lit "no_literal_c_string"))], 79)].

(** [compile_error!] in lib.rs 121-127 and 129-136 *)
Definition exempt_error : gate := All [semver; wrap; Not unstable].
Definition testing_error : gate := All [Flag (lit "procmacro2_nightly_testing"); macro; Not span].
