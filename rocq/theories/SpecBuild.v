(** * What the build script should do: specification for C67-C72. *)
From Verif Require Import Base BuildWorld.
Import ListNotations.
Local Open Scope N_scope.

(** ** The compiler's version *)

Definition digit (c : N) : Prop := 48 <= c <= 57.
(** The number written by decimal digits, most significant first. *)
Fixpoint number (ds : str) : N :=
  match ds with
  | [] => 0
  | d :: ds => (d - 48) * 10 ^ N.of_nat (length ds) + number ds
  end.
(** An optional plus sign and digits, for a number of 32 bits. *)
Definition writes (s : str) (n : N) : Prop :=
  exists sign ds, s = sign ++ ds /\ (sign = [] \/ sign = lit "+") /\
    ds <> [] /\ Forall digit ds /\ number ds = n /\ n < 2 ^ 32.
(** What [rustc --version] prints begins with [rustc 1.N], up to a dot or the end. *)
Definition says (stdout : list byte) (n : N) : Prop :=
  exists minor rest,
    valid_str (minor ++ rest) /\
    stdout = str_bytes (lit "rustc 1." ++ minor ++ rest) /\
    ~ In "."%ch minor /\ (rest = [] \/ exists more, rest = lit "." ++ more) /\
    writes minor n.
Definition release (w : world) (n : N) : Prop :=
  exists rustc stdout, var w (lit "RUSTC") = Some rustc /\ version w rustc = Some stdout /\ says stdout n.
(** A compiler whose release cannot be read counts as newer than all. *)
Definition older (w : world) (n : N) : Prop := exists m, release w m /\ m < n.
Definition since (w : world) (n : N) : Prop := forall m, release w m -> n <= m.

(** ** The probes *)

(** The value of a variable that is set, and not to the empty text. *)
Definition filled (w : world) (key : str) (vs : list (list byte)) : Prop :=
  (exists v, var w key = Some v /\ v <> [] /\ vs = [v]) \/
  ((var w key = None \/ var w key = Some []) /\ vs = []).
Fixpoint joined (sep : N) (fs : list (list N)) : list N :=
  match fs with
  | [] => []
  | [f] => f
  | f :: fs => f ++ [sep] ++ joined sep fs
  end.
(** Cargo's encoding of flags: separated by the character 0x1F.  A value that
    is not UTF-8 counts for nothing. *)
Definition flags (w : world) (fs : list (list byte)) : Prop :=
  (exists s v, var w (lit "CARGO_ENCODED_RUSTFLAGS") = Some v /\ v = str_bytes s /\ valid_str s /\ v <> [] /\
     fs <> [] /\ joined 0x1F fs = v /\ Forall (fun f => ~ In 0x1F f) fs) \/
  (fs = [] /\ forall s v, var w (lit "CARGO_ENCODED_RUSTFLAGS") = Some v -> v <> [] -> ~ (valid_str s /\ v = str_bytes s)).
Definition target (w : world) (ts : list (list byte)) : Prop :=
  (exists t, var w (lit "TARGET") = Some t /\ ts = [lit "--target"; t]) \/
  (var w (lit "TARGET") = None /\ ts = []).
(** [name] in directory [dir]. *)
Definition below (dir name path : list byte) : Prop :=
  (dir = [] /\ path = name) \/
  (exists d, dir = d ++ lit "/" /\ path = d ++ lit "/" ++ name) \/
  (dir <> [] /\ ~ (exists d, dir = d ++ lit "/") /\ path = dir ++ lit "/" ++ name).

(** The compilation of src/probe/[feature].rs: through the wrappers Cargo uses,
    for the target and with the flags that Cargo uses, and with
    [RUSTC_BOOTSTRAP] or ([keep = false]) without it. *)
Definition probe (w : world) (feature : str) (keep : bool) (dir : list byte) (c : command) : Prop :=
  exists rustc out wrapper workspace ts fs,
    var w (lit "RUSTC") = Some rustc /\ var w (lit "OUT_DIR") = Some out /\ below out (lit "probe") dir /\
    filled w (lit "RUSTC_WRAPPER") wrapper /\ filled w (lit "RUSTC_WORKSPACE_WRAPPER") workspace /\
    target w ts /\ flags w fs /\
    program c :: arguments c =
      wrapper ++ workspace ++
      [rustc; lit "--cfg=procmacro2_build_probe"; lit "--edition=2021"; lit "--crate-name=proc_macro2";
       lit "--crate-type=lib"; lit "--cap-lints=allow"; lit "--emit=dep-info,metadata"; lit "--out-dir"; dir;
       lit "src/probe/" ++ feature ++ lit ".rs"] ++ ts ++ fs /\
    bootstrap c = (if keep then var w (lit "RUSTC_BOOTSTRAP") else None).
Definition accepted (w : world) (feature : str) (keep : bool) : Prop :=
  exists dir c, probe w feature keep dir c /\ compile w c = Some true.

(** ** The configuration *)

(** The unstable interface of [Span] is there: with [RUSTC_BOOTSTRAP] as it is
    set, or without it; never in a bootstrap of the compiler. *)
Definition nightly (w : world) : Prop :=
  macro_feature w = true /\ var w (lit "RUSTC_STAGE") = None /\
  (accepted w (lit "proc_macro_span") false \/ accepted w (lit "proc_macro_span") true).
(** A part of it that was made stable in 1.88. *)
Definition stable (w : world) (feature : str) : Prop :=
  macro_feature w = true /\ since w 88 /\ (var w (lit "RUSTC_STAGE") <> None \/ accepted w feature true).

Inductive wanted (w : world) : str -> Prop :=
| want_exempt : semver_exempt w = true -> wanted w (lit "procmacro2_semver_exempt")
| want_locations : semver_exempt w = true \/ span_feature w = true -> wanted w (lit "span_locations")
| want_no_available : older w 57 -> wanted w (lit "no_is_available")
| want_no_text : older w 66 -> wanted w (lit "no_source_text")
| want_no_byte : older w 79 -> wanted w (lit "no_literal_byte_character")
| want_no_c : older w 79 -> wanted w (lit "no_literal_c_string")
| want_wrap : macro_feature w = true -> semver_exempt w = false \/ nightly w -> wanted w (lit "wrap_proc_macro")
| want_span : nightly w -> wanted w (lit "proc_macro_span")
| want_location : nightly w \/ stable w (lit "proc_macro_span_location") -> wanted w (lit "proc_macro_span_location")
| want_file : nightly w \/ stable w (lit "proc_macro_span_file") -> wanted w (lit "proc_macro_span_file")
| want_unstable : semver_exempt w = true -> nightly w -> wanted w (lit "super_unstable").

Definition cfg (name : str) : event := Line (lit "cargo:rustc-cfg=" ++ name).
Definition declares (name : str) : event := Line (lit "cargo:rustc-check-cfg=cfg(" ++ name ++ lit ")").
(** All the names, those that the script or a user of the crate can set. *)
Definition declared : list str := [
  lit "fuzzing"; lit "no_is_available"; lit "no_literal_byte_character"; lit "no_literal_c_string";
  lit "no_source_text"; lit "proc_macro_span"; lit "proc_macro_span_file"; lit "proc_macro_span_location";
  lit "procmacro2_backtrace"; lit "procmacro2_build_probe"; lit "procmacro2_nightly_testing";
  lit "procmacro2_semver_exempt"; lit "randomize_layout"; lit "span_locations"; lit "super_unstable";
  lit "wrap_proc_macro"].
Definition watches_file (feature : str) : event := Line (lit "cargo:rerun-if-changed=src/probe/" ++ feature ++ lit ".rs").
Definition watches_bootstrap : event := Line (lit "cargo:rerun-if-env-changed=RUSTC_BOOTSTRAP").

(** The names set by the lines, in order. *)
Definition set_name (e : event) : list str :=
  match e with
  | Line t => if starts_with t (lit "cargo:rustc-cfg=") then [skipn 16 t] else []
  | _ => []
  end.
Definition set_names (es : list event) : list str := flat_map set_name es.

(** ** The course of a run *)

Definition cleaned (w : world) (n : nat) : Prop :=
  rmdir w n = DirRemoved \/ rmdir w n = DirNotFound \/ (linux w = true /\ rmdir w n = DirError (Some 39)).
Definition probed (feature : str) : Prop :=
  feature = lit "proc_macro_span" \/ feature = lit "proc_macro_span_location" \/ feature = lit "proc_macro_span_file".
(** Lines, and probes between the making and the removing of their directory. *)
Inductive course (w : world) : nat -> list event -> Prop :=
| course_end n : course w n []
| course_line n s es : course w n es -> course w n (Line s :: es)
| course_probe n feature keep dir c es :
    probed feature -> probe w feature keep dir c -> mkdir w n <> DirFailed -> cleaned w n -> course w (S n) es ->
    course w n (watches_file feature :: Mkdir dir :: Ran c :: Rmdir dir :: es).

(** What can stop the script: Cargo's variables or the file system. *)
Definition trouble (w : world) : Prop :=
  var w (lit "RUSTC") = None \/
  (macro_feature w = true /\ var w (lit "RUSTC_STAGE") = None /\
   (var w (lit "OUT_DIR") = None \/ exists n, (n < 4)%nat /\ (mkdir w n = DirFailed \/ ~ cleaned w n))).

(** ** Two runs *)

(** The same surroundings with another [RUSTC_BOOTSTRAP]. *)
Definition same_but_bootstrap (w v : world) : Prop :=
  (forall key, key <> lit "RUSTC_BOOTSTRAP" -> var v key = var w key) /\
  semver_exempt v = semver_exempt w /\ span_feature v = span_feature w /\ macro_feature v = macro_feature w /\
  linux v = linux w /\ version v = version w /\ compile v = compile w /\ mkdir v = mkdir w /\ rmdir v = rmdir w.
(** The same surroundings with another [RUSTC_STAGE]. *)
Definition same_but_stage (w v : world) : Prop :=
  (forall key, key <> lit "RUSTC_STAGE" -> var v key = var w key) /\
  semver_exempt v = semver_exempt w /\ span_feature v = span_feature w /\ macro_feature v = macro_feature w /\
  linux v = linux w /\ version v = version w /\ compile v = compile w /\ mkdir v = mkdir w /\ rmdir v = rmdir w.
(** The same surroundings with another compiler. *)
Definition same_but_compile (w v : world) : Prop :=
  (forall key, var v key = var w key) /\ semver_exempt v = semver_exempt w /\ span_feature v = span_feature w /\
  macro_feature v = macro_feature w /\ linux v = linux w /\ version v = version w /\ mkdir v = mkdir w /\ rmdir v = rmdir w.
(** The value 1 allows whatever another value allows, or none. *)
Definition one_is_most (w : world) : Prop :=
  forall c d, program d = program c -> arguments d = arguments c -> bootstrap d = Some (lit "1") ->
    compile w c = Some true -> compile w d = Some true.
(** What needs no unstable feature does not depend on the value. *)
Definition stable_anyway (w : world) : Prop :=
  forall feature keep dir c d, feature <> lit "proc_macro_span" -> probe w feature keep dir c ->
    program d = program c -> arguments d = arguments c -> compile w d = compile w c.
(** A value only ever allows more. *)
Definition value_allows (w : world) : Prop :=
  forall c d, program d = program c -> arguments d = arguments c -> bootstrap c = None ->
    compile w c = Some true -> compile w d = Some true.

(** ** Conditional compilation *)

Fixpoint holds (flag feature : str -> bool) (g : gate) : bool :=
  match g with
  | Flag name => flag name
  | Feature name => feature name
  | All gs => forallb (holds flag feature) gs
  | Any gs => existsb (holds flag feature) gs
  | Not g => negb (holds flag feature g)
  end.
(** The crate is compiled with the flags that the script printed and those
    given to the compiler, of which the script does not print [extra]. *)
Definition compiled_with (es : list event) (extra : str -> bool) (flag : str -> bool) : Prop :=
  forall name, flag name = true <-> In (cfg name) es \/ extra name = true.
Definition printable (name : str) : Prop :=
  In name [lit "procmacro2_semver_exempt"; lit "span_locations"; lit "no_is_available"; lit "no_source_text";
    lit "no_literal_byte_character"; lit "no_literal_c_string"; lit "wrap_proc_macro"; lit "proc_macro_span";
    lit "proc_macro_span_location"; lit "proc_macro_span_file"; lit "super_unstable"].
