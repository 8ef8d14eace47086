(** Numbers: [Num], /repo/src/value/value.rs:543-754.

    Integers are [Z]; each variant's range is [num_ok].  Floats are IEEE 754 values
    ([spec_float] of the standard library); [F32] values are binary32, [F64] binary64.
    [usize]/[isize] are 64 bits wide (a 64-bit target). *)
From Coq Require Import ZArith Bool.
From Coq Require Import Floats.SpecFloat.
From Coq Require Import List.
Import ListNotations.
Local Open Scope Z_scope.

(** Integer variants of [enum Num], value.rs:543-568. *)
Inductive ikind := U8 | U16 | U32 | U64 | U128 | USize | I8 | I16 | I32 | I64 | I128 | ISize.

Definition ikind_signed (k : ikind) : bool :=
  match k with I8 | I16 | I32 | I64 | I128 | ISize => true | _ => false end.

Definition ikind_bits (k : ikind) : Z :=
  match k with
  | U8 | I8 => 8 | U16 | I16 => 16 | U32 | I32 => 32 | U64 | I64 => 64
  | U128 | I128 => 128 | USize | ISize => 64
  end.

Definition ikind_min (k : ikind) : Z :=
  if ikind_signed k then - 2 ^ (ikind_bits k - 1) else 0.
Definition ikind_max (k : ikind) : Z :=
  if ikind_signed k then 2 ^ (ikind_bits k - 1) - 1 else 2 ^ ikind_bits k - 1.

(** [z] is representable in the Rust type of kind [k]. *)
Definition in_range (k : ikind) (z : Z) : bool := (ikind_min k <=? z) && (z <=? ikind_max k).

(** Rust's [z as T] between integer types: two's-complement truncation. *)
Definition wrap (k : ikind) (z : Z) : Z :=
  let m := z mod 2 ^ ikind_bits k in
  if ikind_signed k && (2 ^ (ikind_bits k - 1) <=? m) then m - 2 ^ ikind_bits k else m.

(** Floats. *)
Definition f32_prec := 24. Definition f32_emax := 128.
Definition f64_prec := 53. Definition f64_emax := 1024.

(** [enum Num], value.rs:543-573. *)
Inductive num :=
| NInt (k : ikind) (z : Z)
| NF32 (f : spec_float)
| NF64 (f : spec_float).

(** Representation invariant: the payload fits the variant. *)
Definition num_ok (n : num) : bool :=
  match n with
  | NInt k z => in_range k z
  | NF32 f => valid_binary f32_prec f32_emax f
  | NF64 f => valid_binary f64_prec f64_emax f
  end.

(** [v as f64] for [v : f32] (exact: every binary32 value is a binary64 value). *)
Definition f32_to_f64 (f : spec_float) : spec_float :=
  match f with
  | S754_finite s m e => binary_normalize f64_prec f64_emax (cond_Zopp s (Zpos m)) e s
  | _ => f
  end.

(** [v as f32] for [v : f64] (rounds to nearest even). *)
Definition f64_to_f32 (f : spec_float) : spec_float :=
  match f with
  | S754_finite s m e => binary_normalize f32_prec f32_emax (cond_Zopp s (Zpos m)) e s
  | _ => f
  end.

(** [v as f32]/[v as f64] for an integer [v] (rounds to nearest even). *)
Definition int_to_float (prec emax z : Z) : spec_float := binary_normalize prec emax z 0 false.

(** [Num::to_u32], value.rs:590-597. *)
Definition num_to_u32 (n : num) : option Z :=
  match n with
  | NInt U8 v => Some v
  | NInt U16 v => Some v
  | NInt U32 v => Some v
  | _ => None
  end.

(** [Num::to_u128], value.rs:609-619. *)
Definition num_to_u128 (n : num) : option Z :=
  match n with
  | NInt U8 v => Some v
  | NInt U16 v => Some v
  | NInt U32 v => Some v
  | NInt U64 v => Some v
  | NInt U128 v => Some v
  | NInt USize v => Some v
  | _ => None
  end.

(** [Num::to_u128_lossy], value.rs:635-651. *)
Definition num_to_u128_lossy (n : num) : option Z :=
  match n with
  | NInt U8 v => Some v
  | NInt U16 v => Some v
  | NInt U32 v => Some v
  | NInt U64 v => Some v
  | NInt U128 v => Some v
  | NInt USize v => Some v
  | NInt I8 v => if 0 <=? v then Some v else None
  | NInt I16 v => if 0 <=? v then Some v else None
  | NInt I32 v => if 0 <=? v then Some v else None
  | NInt I64 v => if 0 <=? v then Some v else None
  | NInt I128 v => if 0 <=? v then Some v else None
  | NInt ISize v => if 0 <=? v then Some v else None
  | _ => None
  end.

(** [Num::to_i128], value.rs:664-674. *)
Definition num_to_i128 (n : num) : option Z :=
  match n with
  | NInt I8 v => Some v
  | NInt I16 v => Some v
  | NInt I32 v => Some v
  | NInt I64 v => Some v
  | NInt I128 v => Some v
  | NInt ISize v => Some v
  | _ => None
  end.

(** [Num::to_f64], value.rs:687-693. *)
Definition num_to_f64 (n : num) : option spec_float :=
  match n with
  | NF32 f => Some (f32_to_f64 f)
  | NF64 f => Some f
  | _ => None
  end.
