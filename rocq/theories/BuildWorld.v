(** * The build script's surroundings: build.rs is run by Cargo in an
    environment, starts the compiler and prints lines.  Data shared by the
    model ([Build.v]) and its specification ([SpecBuild.v]). *)
From Verif Require Import Base.
Import ListNotations.

(** A started compiler: its program, its arguments and the value of
    [RUSTC_BOOTSTRAP] it sees.  The rest of its environment is inherited. *)
Record command := Command {
  program : list byte;
  arguments : list (list byte);
  bootstrap : option (list byte) }.

(** Results of [fs::create_dir] and [fs::remove_dir_all]; [DirError] carries
    [raw_os_error]. *)
Inductive mkdir_result := DirMade | DirExists | DirFailed.
Inductive rmdir_result := DirRemoved | DirNotFound | DirError (errno : option N).

Record world := World {
  var : str -> option (list byte);             (* [env::var_os] *)
  semver_exempt : bool;                        (* [cfg!(procmacro2_semver_exempt)] *)
  span_feature : bool;                         (* [cfg!(feature = "span-locations")] *)
  macro_feature : bool;                        (* [cfg!(feature = "proc-macro")] *)
  linux : bool;                                (* [cfg!(target_os = "linux")] *)
  version : list byte -> option (list byte);   (* stdout of [rustc --version], if it can be run *)
  compile : command -> option bool;            (* [status().success()], if it can be run *)
  mkdir : nat -> mkdir_result;                 (* what the n-th [create_dir] does *)
  rmdir : nat -> rmdir_result }.

Inductive event :=
| Line (text : str)                            (* [println!] *)
| Mkdir (dir : list byte)
| Ran (c : command)
| Rmdir (dir : list byte).

(** A condition on configuration names: what is written in [#[cfg(...)]]. *)
Inductive gate :=
| Flag (name : str)
| Feature (name : str)
| All (gs : list gate)
| Any (gs : list gate)
| Not (g : gate).
