(** Specification vocabulary for keys with capital letters. *)
From Coq Require Import NArith.
From Coq Require Import List.
From Verif Require Import Str.

Definition capital_letter (c : uchar) : Prop := (65 <= c <= 90)%N.
Definition has_capital (k : ustr) : Prop := exists c, In c k /\ capital_letter c.
