(** Specification vocabulary for lists of names in a message. *)
From Coq Require Import Ascii String NArith Bool.
From Coq Require Import List.
From Verif Require Import Str.
Import ListNotations.

(** The texts between pairs of backquotes, in order; [open] holds what was read since one was opened. *)
Fixpoint quotes (open : option ustr) (s : ustr) : list ustr :=
  match s with
  | [] => []
  | c :: r =>
      if N.eqb c (ch "`") then
        match open with Some t => rev t :: quotes None r | None => quotes (Some []) r end
      else quotes (option_map (cons c) open) r
  end.
