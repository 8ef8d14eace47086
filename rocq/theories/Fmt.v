(** Text output: Rust's [Display]/[Debug] for numbers, characters and strings, and the
    [Display] impls of /repo/src/error.rs for [Actual], [Kind] and [OneOf]. *)
From Coq Require Import Ascii String ZArith NArith Bool.
From Coq Require Import Floats.SpecFloat.
From Coq Require Import List.
From Verif Require Import Res BMap Str Profile Tag Num Value NumParse Metadata Err.
Import ListNotations.

(** [Display for u128] and narrower: digits are produced from the least significant one. *)
Fixpoint fmt_digits (fuel : nat) (n : N) (acc : ustr) : ustr :=
  match fuel with
  | O => acc
  | S f => let '(q, r) := N.div_eucl n 10 in
           let acc := (48 + r)%N :: acc in
           match q with N0 => acc | _ => fmt_digits f q acc end
  end.
Definition fmt_nat (n : N) : ustr := fmt_digits (S (N.size_nat n)) n [].

(** [Display for i128] and narrower. *)
Definition fmt_int (z : Z) : ustr :=
  match z with
  | Zneg p => ch "-" :: fmt_nat (Npos p)
  | _ => fmt_nat (Z.to_N z)
  end.

(** [Display for f64]: the shortest digits [d] and exponent [k] with
    [d * 10^k] rounding back to the number, the closest such, printed without exponent.
    The candidates with [n] digits are the two neighbours of the number on the grid of the
    decimal exponent. *)
Definition pow10_floor (p q : Z) : Z :=
  (* the largest [k] with [10^k <= p/q], for positive [p], [q]; the estimate from the
     binary lengths is a little low, so a few corrections suffice *)
  let est := ((Z.log2 p - Z.log2 q) * 3 / 10 - 4)%Z in
  let ok k := if (0 <=? k)%Z then (q * 10 ^ k <=? p)%Z else (q <=? p * 10 ^ (- k))%Z in
  let fix up (n : nat) (k : Z) : Z :=
      match n with O => k | S n' => if ok (k + 1)%Z then up n' (k + 1)%Z else k end in
  up 9%nat est.

Fixpoint shortest (fuel : nat) (p q k10 n : Z) (is_it : Z -> Z -> bool) : Z * Z :=
  let e := (k10 - n + 1)%Z in
  let '(a, b) := if (0 <=? e)%Z then (p, q * 10 ^ e)%Z else (p * 10 ^ (- e), q)%Z in
  let '(lo, r) := Z.div_eucl a b in
  match fuel with
  | O => (lo, e)
  | S f =>
      match is_it lo e, is_it (lo + 1)%Z e with
      | true, true => (if (2 * r <? b)%Z then lo else lo + 1, e)%Z
      | true, false => (lo, e)
      | false, true => (lo + 1, e)%Z
      | false, false => shortest f p q k10 (n + 1) is_it
      end
  end.

Definition sf_same (a b : spec_float) : bool := SFeqb a b.

Definition fmt_positional (m e : Z) : ustr :=
  let ds := fmt_nat (Z.to_N m) in
  if (0 <=? e)%Z then ds ++ repeat (ch "0") (Z.to_nat e)
  else let n := Z.of_nat (length ds) in
       if (n <=? - e)%Z
       then lit "0." ++ repeat (ch "0") (Z.to_nat (- e - n)) ++ ds
       else firstn (Z.to_nat (n + e)) ds ++ ch "." :: skipn (Z.to_nat (n + e)) ds.

(** Trailing zeros of the digits move into the exponent. *)
Fixpoint strip_zeros (fuel : nat) (m e : Z) : Z * Z :=
  match fuel with
  | O => (m, e)
  | S f => if (m mod 10 =? 0)%Z then strip_zeros f (m / 10)%Z (e + 1)%Z else (m, e)
  end.

Definition fmt_f64 (x : spec_float) : ustr :=
  match x with
  | S754_nan => lit "NaN"
  | S754_infinity s => (if s then lit "-" else []) ++ lit "inf"
  | S754_zero s => (if s then lit "-" else []) ++ lit "0"
  | S754_finite s m e =>
      let '(p, q) := if (0 <=? e)%Z then (Zpos m * 2 ^ e, 1)%Z else (Zpos m, 2 ^ (- e))%Z in
      let k10 := pow10_floor p q in
      let '(d, k) := shortest 17 p q k10 1
                       (fun d k => sf_same (decimal_to_float f64_prec f64_emax false d k)
                                           (S754_finite false m e)) in
      let '(d, k) := strip_zeros 20 d k in
      (if s then lit "-" else []) ++ fmt_positional d k
  end.

(** [{:x}] without leading zeros. *)
Definition hex_digit (n : N) : uchar := (if n <? 10 then 48 + n else 87 + n)%N.
Fixpoint fmt_hex (fuel : nat) (n : N) (acc : ustr) : ustr :=
  match fuel with
  | O => acc
  | S f => let acc := hex_digit (n mod 16)%N :: acc in
           match (n / 16)%N with N0 => acc | q => fmt_hex f q acc end
  end.

(** [char::escape_debug_ext].  Simplification: of the characters outside ASCII only the
    C1 controls and the soft hyphen are treated as unprintable; Rust consults Unicode
    tables. *)
Definition escape_debug (quote : uchar) (c : uchar) : ustr :=
  if (c =? 0)%N then lit "\0"
  else if (c =? 9)%N then lit "\t"
  else if (c =? 13)%N then lit "\r"
  else if (c =? 10)%N then lit "\n"
  else if (c =? ch "\")%N then lit "\\"
  else if (c =? quote)%N then ch "\" :: [quote]
  else if ((c <? 32) || ((127 <=? c) && (c <=? 160)) || (c =? 173))%N
       then lit "\u{" ++ fmt_hex 8 c [] ++ lit "}"
  else [c].

(** [Debug for str] and [Debug for char]. *)
Definition fmt_debug_str (s : ustr) : ustr :=
  ch """" :: flat_map (escape_debug (ch """")) s ++ [ch """"].
Definition fmt_debug_char (c : uchar) : ustr := ch "'" :: escape_debug (ch "'") c ++ [ch "'"].

(** [Debug for Vec<u8>]. *)
Definition fmt_debug_bytes (l : list N) : ustr :=
  lit "[" ++ join (lit ", ") (map fmt_nat l) ++ lit "]".

(** [Display for Actual], error.rs:323-346. *)
Definition fmt_actual (a : actual) : ustr :=
  match a with
  | ABool b => lit "bool " ++ (if b then lit "true" else lit "false")
  | AUnsigned z => lit "unsigned int `" ++ fmt_int z ++ lit "`"
  | ASigned z => lit "signed int `" ++ fmt_int z ++ lit "`"
  | AFloat f => lit "float `" ++ fmt_f64 f ++ lit "`"
  | AChar c => lit "char " ++ fmt_debug_char c
  | AStr s => lit "string " ++ fmt_debug_str s
  | ABytes l => lit "bytes " ++ fmt_debug_bytes l
  | AUnit => lit "unit"
  | AOption => lit "option"
  | ANewtypeStruct => lit "new-type struct"
  | ASeq => lit "sequence"
  | AMap => lit "map"
  | AEnum => lit "enum"
  | AUnitVariant => lit "unit variant"
  | ANewtypeVariant => lit "new-type variant"
  | ATupleVariant => lit "tuple variant"
  | AStructVariant => lit "struct variant"
  | AOther s => s
  end.

(** [Display for OneOf], error.rs:510-529. *)
Definition fmt_one_of (l : list ustr) : ustr :=
  let quoted s := lit "`" ++ s ++ lit "`" in
  match l with
  | [] => lit "none"
  | [a] => quoted a
  | [a; b] => quoted a ++ lit " or " ++ quoted b
  | _ => lit "one of " ++ join (lit ", ") (map quoted l)
  end.

(** [Display for Kind], error.rs:438-479. *)
Definition fmt_kind (k : kind) : ustr :=
  match k with
  | KMessage s => s
  | KInvalidType v exp => lit "invalid type: found " ++ fmt_actual v ++ lit ", expected " ++ exp
  | KInvalidValue v exp => lit "invalid value " ++ fmt_actual v ++ lit ", expected " ++ exp
  | KInvalidLength n exp => lit "invalid length " ++ fmt_nat n ++ lit ", expected " ++ exp
  | KUnknownVariant v exp =>
      lit "unknown variant: found `" ++ v ++ lit "`, expected `" ++ fmt_one_of exp ++ lit "`"
  | KUnknownField v exp =>
      lit "unknown field: found `" ++ v ++ lit "`, expected `" ++ fmt_one_of exp ++ lit "`"
  | KMissingField v => lit "missing field `" ++ v ++ lit "`"
  | KDuplicateField v => lit "duplicate field `" ++ v ++ lit "`"
  | KISizeOutOfRange z => lit "signed integer `" ++ fmt_int z ++ lit "` is out of range"
  | KUSizeOutOfRange z => lit "unsigned integer `" ++ fmt_int z ++ lit "` is out of range"
  | KUnsupported a => lit "unsupported type `" ++ fmt_actual a ++ lit "`"
  | KUnsupportedKey a e =>
      lit "unsupported type `" ++ fmt_actual a ++ lit "` for key: must be `" ++ e ++ lit "`"
  end.

Global Arguments fmt_nat : simpl never.
Global Arguments fmt_int : simpl never.
Global Arguments fmt_f64 : simpl never.
