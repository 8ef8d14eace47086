(** Errors as text: [Display for Error], /repo/src/error.rs. *)
From Coq Require Import Ascii String ZArith NArith Bool.
From Coq Require Import List.
From Verif Require Import Res BMap Str Profile Tag Num Value Metadata Err Fmt Path.
Import ListNotations.

(** [Display for std::panic::Location]. *)
Definition fmt_location (l : location) : ustr :=
  loc_file l ++ lit ":" ++ fmt_nat (loc_line l) ++ lit ":" ++ fmt_nat (loc_col l).

(** [Display for Source], metadata.rs:289-304. *)
Definition fmt_source (cwd : option ustr) (s : source) : ustr := source_str cwd fmt_location s.

(** [Display for Error], error.rs:479-504.  [cwd] is [std::env::current_dir().ok()] at the
    time of the call. *)
Fixpoint fmt_error (cwd : option ustr) (e : error) : ustr :=
  let 'MkError _ profile metadata path kind prev := e in
  fmt_kind kind ++
  match profile, metadata with
  | Some p, Some md =>
      if is_nil path then [] else lit " for key " ++ fmt_debug_str (md_interpolate md p path)
  | _, _ => []
  end ++
  match metadata with
  | Some md =>
      match md_source md with
      | Some source => lit " in " ++ fmt_source cwd source ++ lit " " ++ md_name md
      | None => lit " in " ++ md_name md
      end
  | None => []
  end ++
  match prev with
  | Some e' => 10%N :: fmt_error cwd e'
  | None => []
  end.
