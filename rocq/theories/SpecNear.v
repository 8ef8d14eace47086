(** Rounding to the nearest floating-point number, stated with rational numbers. *)
From Coq Require Import ZArith QArith Qabs Bool.
From Coq Require Import Floats.SpecFloat.
From Coq Require Import List.
Local Open Scope Z_scope.

Definition two_to (e : Z) : Q := ((2 # 1) ^ e)%Q.

(** The rational numbers a binary format with [prec] bits and exponents up to [emax] can hold:
    [m * 2^e] with less than [prec + 1] bits in [m] and [e] in range. *)
Definition emin_of (prec emax : Z) : Z := 3 - emax - prec.
Definition representable (prec emax : Z) (w : Q) : Prop :=
  exists m e, Z.abs m < 2 ^ prec /\ emin_of prec emax <= e <= emax - prec /\
              (w == inject_Z m * two_to e)%Q.

(** From here on numbers round to infinity: the greatest number, and half a unit more. *)
Definition too_large (prec emax : Z) (q : Q) : Prop :=
  (inject_Z (2 ^ (prec + 1) - 1) * two_to (emax - prec - 1) <= Qabs q)%Q.

(** The value of a float that is a number. *)
Definition signed (neg : bool) (q : Q) : Q := if neg then (- q)%Q else q.
Definition fvalue (x : spec_float) : Q :=
  match x with
  | S754_finite s m e => signed s (inject_Z (Zpos m) * two_to e)%Q
  | _ => 0%Q
  end.

Definition float_sign (x : spec_float) : bool :=
  match x with S754_finite s _ _ | S754_zero s | S754_infinity s => s | S754_nan => false end.

(** [v] is as near to [q] as any number of the format; [even] if another one is as near. *)
Definition nearest_value (prec emax : Z) (q v : Q) (even : Prop) : Prop :=
  forall w, representable prec emax w ->
    (Qabs (v - q) <= Qabs (w - q))%Q /\
    (~ (w == v)%Q -> (Qabs (v - q) == Qabs (w - q))%Q -> even).

(** [x] is [q], of sign [neg], rounded to the format: to the nearest number, to the one with an
    even significand when there are two, to infinity beyond the largest number. *)
Definition rounds_to (prec emax : Z) (neg : bool) (q : Q) (x : spec_float) : Prop :=
  match x with
  | S754_nan => False
  | S754_infinity s => s = neg /\ too_large prec emax q
  | S754_zero s => s = neg /\ ~ too_large prec emax q /\ nearest_value prec emax q 0 True
  | S754_finite s m e =>
      s = neg /\ ~ too_large prec emax q /\
      (* significand of full length, or the smallest exponent *)
      Zpos m < 2 ^ prec /\ emin_of prec emax <= e <= emax - prec /\
      (2 ^ (prec - 1) <= Zpos m \/ e = emin_of prec emax) /\
      nearest_value prec emax q (fvalue x) (Z.Even (Zpos m))
  end.

(** [x] in another format. *)
Definition converted (prec emax : Z) (x y : spec_float) : Prop :=
  match x with
  | S754_finite s _ _ => rounds_to prec emax s (fvalue x) y
  | _ => y = x
  end.

(** An integer in a format. *)
Definition from_int (prec emax z : Z) (x : spec_float) : Prop :=
  rounds_to prec emax (z <? 0) (inject_Z z) x.

(** The number a decimal numeral denotes. *)
Definition decimal_value (neg : bool) (m e : Z) : Q :=
  signed neg (inject_Z m * (10 # 1) ^ e)%Q.
