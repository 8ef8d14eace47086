(** [Debug] output ([{:?}]): /repo/src/value/value.rs:424-436, /repo/src/value/tag.rs:163-170, and
    [Display] of a profile, /repo/src/profile.rs:234-238.  The alternate form ([{:#?}]) is left out. *)
From Coq Require Import Ascii String ZArith NArith Bool.
From Coq Require Import Floats.SpecFloat.
From Coq Require Import List.
From Verif Require Import Res BMap Str Profile Tag Num Value NumParse Fmt.
Import ListNotations.

(** [Debug for f32] and [f64]: the shortest digits that read back as the number (as in [fmt_f64]),
    with at least one digit after the point; with an exponent from 1e16 on and below 1e-4. *)
Definition float_digits (prec emax : Z) (m : positive) (e : Z) : Z * Z :=
  let '(p, q) := if (0 <=? e)%Z then (Zpos m * 2 ^ e, 1)%Z else (Zpos m, 2 ^ (- e))%Z in
  let '(d, k) := shortest 17 p q (pow10_floor p q) 1
                   (fun d k => sf_same (decimal_to_float prec emax false d k) (S754_finite false m e)) in
  strip_zeros 20 d k.
Definition fmt_pointed (d k : Z) : ustr :=
  if (0 <=? k)%Z then fmt_nat (Z.to_N d) ++ repeat (ch "0") (Z.to_nat k) ++ lit ".0" else fmt_positional d k.
Definition fmt_scientific (d k : Z) : ustr :=
  match fmt_nat (Z.to_N d) with
  | [] => []
  | [c] => c :: ch "e" :: fmt_int k
  | c :: r => c :: ch "." :: r ++ ch "e" :: fmt_int (k + Z.of_nat (length r))
  end.
Definition debug_float (prec emax : Z) (x : spec_float) : ustr :=
  match x with
  | S754_nan => lit "NaN"
  | S754_infinity s => (if s then lit "-" else []) ++ lit "inf"
  | S754_zero s => (if s then lit "-" else []) ++ lit "0.0"
  | S754_finite s m e =>
      let '(d, k) := float_digits prec emax m e in
      (if s then lit "-" else []) ++
      if SFleb (decimal_to_float prec emax false 1 16) (S754_finite false m e) ||
         SFltb (S754_finite false m e) (decimal_to_float prec emax false 1 (-4))
      then fmt_scientific d k else fmt_pointed d k
  end.

(** The names of the variants of [Num] in value.rs:543-573, as [derive(Debug)] prints them. *)
Definition ikind_name (k : ikind) : ustr :=
  match k with
  | U8 => lit "U8" | U16 => lit "U16" | U32 => lit "U32" | U64 => lit "U64" | U128 => lit "U128"
  | USize => lit "USize" | I8 => lit "I8" | I16 => lit "I16" | I32 => lit "I32" | I64 => lit "I64"
  | I128 => lit "I128" | ISize => lit "ISize"
  end.

(** [Formatter::debug_tuple] with one field, [debug_list] and [debug_map]. *)
Definition debug_tuple (name field : ustr) : ustr := name ++ ch "(" :: field ++ [ch ")"].
Definition debug_list (l : list ustr) : ustr := ch "[" :: join (lit ", ") l ++ [ch "]"].
Definition debug_map (l : list (ustr * ustr)) : ustr :=
  ch "{" :: join (lit ", ") (map (fun kv => fst kv ++ lit ": " ++ snd kv) l) ++ [ch "}"].

(** [derive(Debug) for Num], value.rs:543, and [for Empty], value.rs:757. *)
Definition debug_num (n : num) : ustr :=
  match n with
  | NInt k z => debug_tuple (ikind_name k) (fmt_int z)
  | NF32 x => debug_tuple (lit "F32") (debug_float f32_prec f32_emax x)
  | NF64 x => debug_tuple (lit "F64") (debug_float f64_prec f64_emax x)
  end.
Definition debug_empty (e : empty) : ustr := match e with ENone => lit "None" | EUnit => lit "Unit" end.

Section debug.
  (** Which characters Unicode's tables, as compiled into Rust's standard library, take for
      unprintable or for marks that combine with the one before: anything. *)
  Variable unprintable : uchar -> bool.

  (** [char::escape_debug_ext]. *)
  Definition escape_char (quote : uchar) (c : uchar) : ustr :=
    if (c =? 0)%N then lit "\0"
    else if (c =? 9)%N then lit "\t"
    else if (c =? 13)%N then lit "\r"
    else if (c =? 10)%N then lit "\n"
    else if (c =? ch "\")%N then lit "\\"
    else if (c =? quote)%N then ch "\" :: [quote]
    else if unprintable c then lit "\u{" ++ fmt_hex 8 c [] ++ lit "}"
    else [c].
  Definition debug_str (s : ustr) : ustr :=
    ch """" :: flat_map (escape_char (ch """")) s ++ [ch """"].
  Definition debug_char (c : uchar) : ustr := ch "'" :: escape_char (ch "'") c ++ [ch "'"].

  (** [Debug for Value], value.rs:424-436: the tag is left out. *)
  Fixpoint debug_value (v : value) : ustr :=
    match v with
    | VString _ s => debug_tuple (lit "String") (debug_str s)
    | VChar _ c => debug_tuple (lit "Char") (debug_char c)
    | VBool _ b => debug_tuple (lit "Bool") (if b then lit "true" else lit "false")
    | VNum _ n => debug_tuple (lit "Num") (debug_num n)
    | VEmpty _ e => debug_tuple (lit "Empty") (debug_empty e)
    | VDict _ d => debug_tuple (lit "Dict") (debug_map (map (fun kv => (debug_str (fst kv), debug_value (snd kv))) d))
    | VArray _ l => debug_tuple (lit "Array") (debug_list (map debug_value l))
    end.
End debug.

(** [Debug for Tag], tag.rs:163-170, and [derive(Debug) for ProfileTag], profile.rs:19-25. *)
Definition debug_profile_tag (p : profile_tag) : ustr :=
  match p with PTDefault => lit "Default" | PTGlobal => lit "Global" | PTCustom => lit "Custom" end.
Definition debug_tag (t : tag) : ustr :=
  if is_default t then lit "Tag::Default"
  else lit "Tag(" ++ debug_profile_tag (tag_profile_tag t) ++ lit ", " ++ fmt_nat (metadata_id t) ++ lit ")".

(** [Display for Profile], profile.rs:234-238: the text the profile was made from. *)
Definition fmt_profile (p : profile) : ustr := pname p.
