(** * Values of string literals: src/lib.rs 1310-1477. *)
From Verif Require Import Base Unicode Escaper.
Import ListNotations.
Local Open Scope N_scope.

(** lib.rs 1455-1463: [ConversionErrorKind]; with the success case. *)
Inductive conversion (A : Type) :=
| COk (a : A)
| CFailed (e : escape_error)
| CInvalidKind.
Arguments COk {A} a.
Arguments CFailed {A} e.
Arguments CInvalidKind {A}.

(** The callbacks of lib.rs 1319-1326, 1353-1363, 1394-1401: values are appended,
    the last fatal error is kept. *)
Fixpoint collect {A} (push : A -> list N) (value : list N) (error : option escape_error)
  (events : list (event A)) : list N * option escape_error :=
  match events with
  | [] => (value, error)
  | (_, UOk a) :: t => collect push (value ++ push a) error t
  | (_, UErr e) :: t => collect push value (if is_fatal e then Some e else error) t
  end.

Definition unescaped {A} (u : unescaper A) (push : A -> list N) (ending : list N)
  (quoted : str) : res (conversion (list N)) :=
  let? events := unescape u quoted in
  match collect push [] None events with
  | (_, Some e) => Ok (CFailed e)
  | (value, None) => Ok (COk (value ++ ending))
  end.

(** [str::trim_start_matches], [str::trim_end_matches] with a character. *)
Fixpoint trim_start (s : str) (c : char) : str :=
  match s with
  | [] => []
  | d :: t => if d =? c then trim_start t c else s
  end.
Definition trim_end (s : str) (c : char) : str := rev (trim_start (rev s) c).

(** lib.rs 1466-1477. *)
Definition get_raw (repr : str) : res (option str) :=
  let? pounds := checked_sub (str_len repr) (str_len (trim_start repr "#"%ch)) in
  if negb (pounds + 1 + 1 + pounds <=? str_len repr)%nat then Ok None else
  let? from_pounds := slice_from repr pounds in
  if negb (starts_with from_pounds [DQUOTE]) then Ok None else
  if negb (str_len (trim_end repr "#"%ch) + pounds =? str_len repr)%nat then Ok None else
  let? keep := checked_sub (str_len repr) pounds in
  let? upto := slice_to repr keep in
  if negb (ends_with upto [DQUOTE]) then Ok None else
  let? last := checked_sub keep 1 in
  let? raw := slice repr (pounds + 1)%nat last in
  Ok (Some raw).

(** lib.rs 1314-1315, 1347-1348, 1389-1390: the text starts with [open], what
    follows ends with a double quote; the text in between. *)
Definition quoted_text (open repr : str) : res (option str) :=
  if negb (starts_with repr open) then Ok None else
  let? tail := slice_from repr (str_len open) in
  if negb (ends_with tail [DQUOTE]) then Ok None else
  let? last := checked_sub (str_len repr) 1 in
  let? quoted := slice repr (str_len open) last in
  Ok (Some quoted).
(** lib.rs 1333-1334, 1374-1375, 1407-1408. *)
Definition raw_text (open repr : str) : res (option str) :=
  if negb (starts_with repr open) then Ok None else
  let? tail := slice_from repr (str_len open) in
  get_raw tail.

(** lib.rs 1312-1339. *)
Definition str_value (repr : str) : res (conversion (list N)) :=
  let? q := quoted_text (tag """") repr in
  match q with
  | Some quoted => unescaped str_unescaper (fun c => [c]) [] quoted
  | None =>
      let? r := raw_text (tag "r") repr in
      match r with
      | Some raw => Ok (COk raw)
      | None => Ok CInvalidKind
      end
  end.

(** lib.rs 1353-1357. *)
Definition push_mixed (m : mixed_unit) : list N :=
  match m with MChar c => encode_utf8 c | MHighByte b => [b] end.

(** lib.rs 1343-1383. *)
Definition cstr_value (repr : str) : res (conversion (list N)) :=
  let? q := quoted_text (tag "c""") repr in
  match q with
  | Some quoted => unescaped c_unescaper push_mixed [0] quoted
  | None =>
      let? r := raw_text (tag "cr") repr in
      match r with
      | Some raw => Ok (COk (str_bytes raw ++ [0]))
      | None => Ok CInvalidKind
      end
  end.

(** lib.rs 1386-1414. *)
Definition byte_str_value (repr : str) : res (conversion (list N)) :=
  let? q := quoted_text (tag "b""") repr in
  match q with
  | Some quoted => unescaped byte_unescaper (fun b => [b]) [] quoted
  | None =>
      let? r := raw_text (tag "br") repr in
      match r with
      | Some raw => Ok (COk (str_bytes raw))
      | None => Ok CInvalidKind
      end
  end.
