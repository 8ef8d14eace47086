(** The two other ways to serialize a [RelativePathBuf]: /repo/src/value/magic.rs:341-386. *)
From Coq Require Import Ascii String NArith Bool.
From Coq Require Import List.
From Verif Require Import Res BMap Str Profile Tag Num Value Metadata Err Figment De Ser Path Data.
Import ListNotations.

(** [RelativePathBuf::serialize_original], magic.rs:358-362: the path itself.  [Path] serializes as
    a string (every path is text here, so this does not fail). *)
Definition serialize_original (r : dval) : res error value :=
  match rel_original r with
  | Some p => serialize (EVPath p)
  | None => serialize r
  end.

(** [RelativePathBuf::serialize_relative], magic.rs:382-386: the path [relative] answers. *)
Definition serialize_relative (fs : fsys) (r : dval) : res error value :=
  match rel_original r with
  | Some p => serialize (EVPath (relative fs (rel_source r) p))
  | None => serialize r
  end.
