(** Specification of the lossy conversions of values to booleans and numbers. *)
From Coq Require Import Ascii String ZArith NArith Bool.
From Coq Require Import List.
From Verif Require Import Res BMap Str Profile Tag Num Value NumParse SpecParse SpecNear.
Import ListNotations.

(** The same letters up to ASCII case. *)
Definition same_letters (a b : ustr) : Prop := lower a = lower b.
Definition yes_words : list ustr := [lit "true"; lit "yes"; lit "1"; lit "on"].
Definition no_words : list ustr := [lit "false"; lit "no"; lit "0"; lit "off"].

Inductive boolish : value -> bool -> Prop :=
| bl_bool t b : boolish (VBool t b) b
| bl_zero t k : boolish (VNum t (NInt k 0)) false
| bl_one t k : boolish (VNum t (NInt k 1)) true
| bl_yes t s w : In w yes_words -> same_letters s w -> boolish (VString t s) true
| bl_no t s w : In w no_words -> same_letters s w -> boolish (VString t s) false.

(** The integers an integer type holds. *)
Definition holds (k : ikind) (z : Z) : Prop :=
  match k with
  | U8 => 0 <= z < 2 ^ 8
  | U16 => 0 <= z < 2 ^ 16
  | U32 => 0 <= z < 2 ^ 32
  | U64 | USize => 0 <= z < 2 ^ 64
  | U128 => 0 <= z < 2 ^ 128
  | I8 => - 2 ^ 7 <= z < 2 ^ 7
  | I16 => - 2 ^ 15 <= z < 2 ^ 15
  | I32 => - 2 ^ 31 <= z < 2 ^ 31
  | I64 | ISize => - 2 ^ 63 <= z < 2 ^ 63
  | I128 => - 2 ^ 127 <= z < 2 ^ 127
  end%Z.
(** [k] is the first of [ks] that holds [z]. *)
Definition first_holding (ks : list ikind) (z : Z) (k : ikind) : Prop :=
  exists a b, ks = a ++ k :: b /\ holds k z /\ Forall (fun k' => ~ holds k' z) a.

(** The number a (trimmed) text is converted to. *)
Inductive lossy_num : ustr -> num -> Prop :=
| ln_nat ds z k :
    numeral ds z -> first_holding [U8; U16; U32; U64; U128] z k -> lossy_num ds (NInt k z)
| ln_plus ds z k :
    numeral ds z -> first_holding [U8; U16; U32; U64; U128] z k ->
    lossy_num (ch "+" :: ds) (NInt k z)
| ln_minus ds z k :
    numeral ds z -> first_holding [I8; I16; I32; I64; I128] (- z) k ->
    lossy_num (ch "-" :: ds) (NInt k (- z))
| ln_short s neg m e x :
    In (ch ".") s -> (byte_len s <= 7)%N -> decimal_text s neg m e ->
    rounds_to 24 128 neg (decimal_value neg m e) x -> lossy_num s (NF32 x)
| ln_long s neg m e x :
    In (ch ".") s -> (7 < byte_len s)%N -> decimal_text s neg m e ->
    rounds_to 53 1024 neg (decimal_value neg m e) x -> lossy_num s (NF64 x).
