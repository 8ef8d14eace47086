(** What an error message should tell. *)
From Coq Require Import Ascii String ZArith NArith Bool.
From Coq Require Import List.
From Verif Require Import Res BMap Str Profile Metadata Err Fmt Display.
Import ListNotations.

(** How a provider is named: its source, if it has one, and its name. *)
Definition origin (cwd : option ustr) (md : metadata) : ustr :=
  match md_source md with Some s => fmt_source cwd s ++ lit " " | None => [] end ++ md_name md.

(** Characters that appear as they are between double quotes. *)
Definition unescaped (c : uchar) : Prop :=
  (32 <= c < 127 /\ c <> 34 /\ c <> 92)%N.
