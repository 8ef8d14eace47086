(** What bytes that need not be UTF-8 are taken for (Unicode Standard, section 3.9, "U+FFFD
    Substitution of Maximal Subparts"). *)
From Coq Require Import NArith Bool.
From Coq Require Import List.
From Verif Require Import Res BMap Str SpecText.
Import ListNotations.
Local Open Scope N_scope.

(** A character, other than a surrogate. *)
Definition character (c : uchar) : Prop := c < 55296 \/ (57343 < c /\ c < 1114112).

(** The beginning of a character, with something missing. *)
Definition incomplete (p : list N) : Prop :=
  exists c q, character c /\ utf8_of c = p ++ q /\ q <> [].

Inductive decoded : list N -> ustr -> Prop :=
| dd_end : decoded [] []
| dd_char c r s : character c -> decoded r s -> decoded (utf8_of c ++ r) (c :: s)
| dd_bad a p r s :
    (* no character is here *)
    (forall c r', character c -> a :: p ++ r <> utf8_of c ++ r') ->
    (* one byte, or as much as could have begun one *)
    (p = [] \/ incomplete (a :: p)) -> (forall b r', r = b :: r' -> ~ incomplete (a :: p ++ [b])) ->
    decoded r s -> decoded (a :: p ++ r) (65533 :: s).
