(** Reading numbers from text: the parts of Rust's [str::parse] that Figment uses, and
    [Num::from_str], /repo/src/value/value.rs:504-533. *)
From Coq Require Import Ascii String ZArith NArith Bool.
From Coq Require Import Floats.SpecFloat.
From Coq Require Import List.
From Verif Require Import Res BMap Str Profile Tag Num Value.
Import ListNotations.

Definition digit_value (c : uchar) : option Z :=
  if ((ch "0" <=? c) && (c <=? ch "9"))%N then Some (Z.of_N (c - ch "0")) else None.

(** A run of ASCII digits as a number: [None] if another character occurs. *)
Fixpoint digits_value (acc : Z) (s : ustr) : option Z :=
  match s with
  | [] => Some acc
  | c :: r => match digit_value c with
              | Some d => digits_value (10 * acc + d)%Z r
              | None => None
              end
  end.

(** [str::parse::<T>()] for an integer type [T]: an optional [+], for signed types also
    [-], then one or more ASCII digits; out-of-range numbers are errors.  (Rust standard
    library, [from_str_radix] with radix 10; the kind of error is not kept.) *)
Definition parse_int (k : ikind) (s : ustr) : option Z :=
  let unsigned d := match d with [] => None | _ => digits_value 0 d end in
  let z := match s with
           | c :: r =>
               if (c =? ch "+")%N then unsigned r
               else if (c =? ch "-")%N then
                 if ikind_signed k then option_map Z.opp (unsigned r) else None
               else unsigned s
           | [] => None
           end in
  match z with
  | Some z => if in_range k z then Some z else None
  | None => None
  end.

(** Leading ASCII digits: their value, their number, and the rest. *)
Fixpoint span_digits (acc : Z) (n : Z) (s : ustr) : Z * Z * ustr :=
  match s with
  | c :: r => match digit_value c with
              | Some d => span_digits (10 * acc + d)%Z (n + 1)%Z r
              | None => (acc, n, s)
              end
  | [] => (acc, n, s)
  end.

(** Exponent part: [e] or [E], optional sign, digits to the end. *)
Definition parse_exponent (s : ustr) : option Z :=
  match s with
  | [] => Some 0%Z
  | c :: r =>
      if ((c =? ch "e") || (c =? ch "E"))%N then
        match r with
        | [] => None
        | d :: r' =>
            if (d =? ch "+")%N then match r' with [] => None | _ => digits_value 0 r' end
            else if (d =? ch "-")%N then
              match r' with [] => None | _ => option_map Z.opp (digits_value 0 r') end
            else digits_value 0 r
        end
      else None
  end.

(** The decimal number [(-1)^neg * m * 10^e] denoted by a string, in the grammar of Rust's
    [f32]/[f64] [FromStr]: [sign? (D+ | D+ . D* | D* . D+) exponent?].  The words [inf],
    [infinity] and [nan], which Rust also accepts, are left out: Figment only parses
    floats from strings that contain a [.]. *)
Definition parse_decimal (s : ustr) : option (bool * Z * Z) :=
  let '(neg, s1) := match s with
                    | c :: r => if (c =? ch "-")%N then (true, r)
                                else if (c =? ch "+")%N then (false, r) else (false, s)
                    | [] => (false, [])
                    end in
  let '(m1, n1, s2) := span_digits 0 0 s1 in
  let '(m2, n2, s3) := match s2 with
                       | c :: r => if (c =? dot)%N then
                                     let '(m, n, r') := span_digits m1 0 r in (m, n, r')
                                   else (m1, 0%Z, s2)
                       | [] => (m1, 0%Z, s2)
                       end in
  if (n1 + n2 =? 0)%Z then None
  else match parse_exponent s3 with
       | Some e => Some (neg, m2, (e - n2)%Z)
       | None => None
       end.

(** The IEEE 754 number nearest to [(-1)^neg * m * 10^e] (ties to even).  For a negative
    exponent this is the correctly rounded quotient [m / 10^-e], computed as division of
    floats is ([SFdiv], SpecFloat), but from unrounded operands. *)
Definition decimal_to_float (prec emax : Z) (neg : bool) (m e : Z) : spec_float :=
  match m with
  | Zpos p =>
      if (0 <=? e)%Z
      then binary_normalize prec emax (cond_Zopp neg (Zpos p * 10 ^ e)) 0 neg
      else match (10 ^ (- e))%Z with
           | Zpos q => let '(mz, ez, lz) := SFdiv_core_binary prec emax (Zpos p) 0 (Zpos q) 0 in
                       binary_round_aux prec emax neg mz ez lz
           | _ => S754_nan
           end
  | _ => S754_zero neg
  end.

(** [str::parse::<f32>()] and [str::parse::<f64>()], for strings with a [.]. *)
Definition parse_float (prec emax : Z) (s : ustr) : option spec_float :=
  match parse_decimal s with
  | Some (neg, m, e) => Some (decimal_to_float prec emax neg m e)
  | None => None
  end.
Definition parse_f32 : ustr -> option spec_float := parse_float f32_prec f32_emax.
Definition parse_f64 : ustr -> option spec_float := parse_float f64_prec f64_emax.

(** [try_convert!], value.rs:504-510: the first listed type that can hold the number. *)
Fixpoint try_convert (z : Z) (ks : list ikind) (last : ikind) : num :=
  match ks with
  | k :: r => if in_range k z then NInt k z else try_convert z r last
  | [] => NInt last z
  end.

(** [FromStr for Num], value.rs:512-533.  [f32::DIGITS] is 6.  Errors are not kept. *)
Definition num_from_str (s : ustr) : option num :=
  let string := trim s in
  if contains_c dot string then
    if (byte_len string <=? 6 + 1)%N
    then option_map NF32 (parse_f32 string)
    else option_map NF64 (parse_f64 string)
  else if match string with c :: _ => (c =? ch "-")%N | [] => false end then
    match parse_int I128 string with
    | Some int => Some (try_convert int [I8; I16; I32; I64] I128)
    | None => None
    end
  else
    match parse_int U128 string with
    | Some uint => Some (try_convert uint [U8; U16; U32; U64] U128)
    | None => None
    end.

(** [Value::to_num_lossy], value.rs:364-370. *)
Definition to_num_lossy (v : value) : option num :=
  match v with
  | VNum _ n => Some n
  | VString _ s => num_from_str s
  | _ => None
  end.
