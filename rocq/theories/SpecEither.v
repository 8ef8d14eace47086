(** Vocabulary for [Either] and for putting [Tagged] and [RelativePathBuf] back. *)
From Coq Require Import Ascii String ZArith NArith Bool.
From Coq Require Import List.
From Verif Require Import Res BMap Str Profile Tag Num Value Metadata Err Coalesce Figment De.
From Verif Require Import SpecExtract.
Import ListNotations.

(** [Either<A, B>]: what [A] gives, marked left; where [A] gives nothing, what [B] gives,
    marked right. *)
Definition either (A B : dval -> Prop) (y : dval) : Prop :=
  (exists x, A x /\ y = EVLeft x) \/ ((forall x, ~ A x) /\ exists x, B x /\ y = EVRight x).

(** The tag or the file kept by a stored magic value, else the ones of its new home. *)
Definition kept_tag (stored home : tag) : tag := if N.eqb (tag_raw stored) 0 then home else stored.
Definition kept_file (stored home : option ustr) : option ustr :=
  match stored with Some p => Some p | None => home end.
