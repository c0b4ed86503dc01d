(** * Token trees of the fallback: printing, identifiers, stream building.

    Model of src/fallback.rs outside the lexer and the source map, with the thin
    lib.rs layer above it.  A stream is the list of its trees; the shared vectors
    underneath are modelled in RcHeap.v. *)
From Verif Require Import Base Unicode Tokens Lexer.

(** ** Display *)

(** fallback.rs 910-918: [Display for Ident]. *)
Definition ident_to_string (sym : str) (raw : bool) : str :=
  (if raw then tag "r#" else []) ++ sym.

(** fallback.rs 768-773. *)
Definition open_text (d : delimiter) : str :=
  match d with
  | Parenthesis => tag "(" | Brace => tag "{ " | Bracket => tag "[" | DNone => []
  end.
Definition close_text (d : delimiter) : str :=
  match d with
  | Parenthesis => tag ")" | Brace => tag "}" | Bracket => tag "]" | DNone => []
  end.

(** fallback.rs 233-238: the [joint] flag after printing a tree. *)
Definition is_joint (t : token) : bool :=
  match t with TPunct _ Joint _ => true | _ => false end.

(** fallback.rs 226-245: the loop of [Display for TokenStream]; [first] is [i == 0]. *)
Definition print_trees (f : token -> str) : bool -> bool -> list token -> str :=
  fix go (first joint : bool) (ts : list token) : str :=
    match ts with
    | [] => []
    | t :: ts => (if negb first && negb joint then [SPACE] else []) ++ f t ++ go false (is_joint t) ts
    end.

(** fallback.rs 759-784 (Group), 910-918 (Ident), 1197-1201 (Literal), lib.rs
    888-892 (Punct). *)
Fixpoint tree_to_string (t : token) : str :=
  match t with
  | TGroup d ts _ =>
      open_text d ++ print_trees tree_to_string true false ts
      ++ (match d, ts with Brace, _ :: _ => [SPACE] | _, _ => [] end) ++ close_text d
  | TIdent sym raw _ => ident_to_string sym raw
  | TPunct c _ _ => [c]
  | TLiteral repr _ => repr
  end.
Definition stream_to_string (ts : list token) : str := print_trees tree_to_string true false ts.

(** ** Identifiers *)
Section WithUnicode.
Context {U : unicode}.

(** fallback.rs 859-871. *)
Definition ident_ok (s : str) : bool :=
  match s with
  | [] => false
  | c :: t => is_ident_start c && forallb is_ident_continue t
  end.

(** fallback.rs 850-876: [true] when no panic is raised. *)
Definition validate_ident (s : str) : bool :=
  match s with [] => false | _ => true end
  && negb (forallb is_dec_digit (str_bytes s))
  && ident_ok s.
(** fallback.rs 879-888; the five names are those of parse.rs (not_raw_names). *)
Definition validate_ident_raw (s : str) : bool :=
  validate_ident s
  && negb (existsb (str_eqb s)
             [tag "_"; tag "super"; tag "self"; tag "Self"; tag "crate"]).

(** fallback.rs 805-830 behind lib.rs 1020-1033. *)
Definition ident_new (s : str) (sp : span) : res token :=
  if validate_ident s then Ok (TIdent s false sp) else Panic.
Definition ident_new_raw (s : str) (sp : span) : res token :=
  if validate_ident_raw s then Ok (TIdent s true sp) else Panic.

End WithUnicode.

(** fallback.rs 890-894, 896-908. *)
Definition ident_eqb (s1 : str) (r1 : bool) (s2 : str) (r2 : bool) : bool :=
  str_eqb s1 s2 && Bool.eqb r1 r2.
Definition ident_eq_str (sym : str) (raw : bool) (other : str) : res bool :=
  if raw then
    if starts_with other (tag "r#") then
      let? o := slice_from other 2 in Ok (str_eqb sym o)
    else Ok false
  else Ok (str_eqb sym other).

(** [Ord for str]: lexicographic on bytes. *)
Fixpoint bytes_cmp (a b : list byte) : comparison :=
  match a, b with
  | [], [] => Eq
  | [], _ :: _ => Lt
  | _ :: _, [] => Gt
  | x :: a, y :: b => match N.compare x y with Eq => bytes_cmp a b | c => c end
  end.
(** lib.rs 1070-1074. *)
Definition ident_cmp (s1 : str) (r1 : bool) (s2 : str) (r2 : bool) : comparison :=
  bytes_cmp (str_bytes (ident_to_string s1 r1)) (str_bytes (ident_to_string s2 r2)).
(** lib.rs 1076-1080: the bytes fed to the hasher ([str::hash] appends 0xFF). *)
Definition ident_hash_input (s : str) (r : bool) : list byte :=
  str_bytes (ident_to_string s r) ++ [0xFF%N].

(** ** Building streams *)

(** fallback.rs 111-134: [push_token_from_proc_macro]. *)
Definition push_token (v : list token) (t : token) : list token :=
  match t with
  | TLiteral (c :: repr) sp =>
      if (c =? "-"%ch)%N then v ++ [TPunct "-"%ch Alone sp; TLiteral repr sp] else v ++ [t]
  | _ => v ++ [t]
  end.
(** fallback.rs 269-277: [From<TokenTree>]. *)
Definition stream_from_tree (t : token) : list token := push_token [] t.
(** ** Spans (configuration [span_locations]) *)

(** fallback.rs 669-687. *)
Definition sp_first_byte (sp : span) : span :=
  mkspan (lo sp) (N.min (N.min (lo sp + 1) (two32 - 1)) (hi sp)).
Definition sp_last_byte (sp : span) : span :=
  mkspan (N.max (hi sp - 1) (lo sp)) (hi sp).
(** fallback.rs 746-752 and extra.rs 97-139: [Group::span_open/span_close] and [DelimSpan]. *)
Definition span_open (t : token) : span := sp_first_byte (token_span t).
Definition span_close (t : token) : span := sp_last_byte (token_span t).

(** fallback.rs 1157-1194: [Literal::subspan]. *)
Inductive bound := Included (n : N) | Excluded (n : N) | Unbounded.
Definition try_u32 (n : N) : option N := if (n <? two32)%N then Some n else None.
Definition checked_add (a b : N) : option N := try_u32 (a + b).
Definition obind' {A B} (o : option A) (f : A -> option B) : option B :=
  match o with Some a => f a | None => None end.
Definition subspan (sp : span) (start fin : bound) : option span :=
  obind' (match start with
          | Included n => obind' (try_u32 n) (fun n => checked_add (lo sp) n)
          | Excluded n => obind' (try_u32 n) (fun n =>
                            obind' (checked_add (lo sp) n) (fun x => checked_add x 1))
          | Unbounded => Some (lo sp)
          end) (fun l =>
  obind' (match fin with
          | Included n => obind' (try_u32 n) (fun n =>
                            obind' (checked_add (lo sp) n) (fun x => checked_add x 1))
          | Excluded n => obind' (try_u32 n) (fun n => checked_add (lo sp) n)
          | Unbounded => Some (hi sp)
          end) (fun h =>
  if ((l <=? h) && (h <=? hi sp))%N then Some (mkspan l h) else None)).

Example print_example :
  stream_to_string
    [TIdent (lit "fn") false call_site; TIdent (lit "f") true call_site;
     TGroup Parenthesis [TPunct "-"%ch Joint call_site; TPunct ">"%ch Alone call_site;
                         TGroup Brace [] call_site] call_site;
     TGroup Brace [TLiteral (lit "1") call_site] call_site]
  = lit "fn r#f (-> { }) { 1 }".
Proof. reflexivity. Qed.
