(** Values as Rust can have them, and what [Debug] output looks like. *)
From Coq Require Import Ascii String ZArith QArith Qabs NArith Bool.
From Coq Require Import Floats.SpecFloat.
From Coq Require Import List.
From Verif Require Import Res BMap Str Tag Num Value SpecNear SpecParse SpecShown.
Import ListNotations.
Local Open Scope N_scope.

(** Characters are code points and floats are of their format. *)
Definition code_point (c : uchar) : Prop := c < 0x110000.
Inductive sound : value -> Prop :=
| so_string t s : Forall code_point s -> sound (VString t s)
| so_char t c : code_point c -> sound (VChar t c)
| so_bool t b : sound (VBool t b)
| so_int t k z : sound (VNum t (NInt k z))
| so_single t x : valid_binary 24 128 x = true -> sound (VNum t (NF32 x))
| so_double t x : valid_binary 53 1024 x = true -> sound (VNum t (NF64 x))
| so_empty t e : sound (VEmpty t e)
| so_dict t d : Forall (fun kv => Forall code_point (fst kv) /\ sound (snd kv)) d -> sound (VDict t d)
| so_array t l : Forall sound l -> sound (VArray t l).

(** [escaped u q c t]: between quotes [q], the character [c] is written [t]; [u] holds of what
    cannot be printed. *)
Definition letters : list (uchar * uchar) :=
  [(0, ch "0"); (9, ch "t"); (10, ch "n"); (13, ch "r"); (ch "\", ch "\")].
Inductive escaped (u : uchar -> bool) (q : uchar) : uchar -> ustr -> Prop :=
| es_letter c l : In (c, l) letters -> escaped u q c [ch "\"; l]
| es_quote : escaped u q q [ch "\"; q]
| es_hex c h : ~ In c (q :: map fst letters) -> u c = true -> hex_number h c ->
    escaped u q c (lit "\u{" ++ h ++ lit "}")
| es_plain c : ~ In c (q :: map fst letters) -> u c = false -> escaped u q c [c].
Inductive escaped_all (u : uchar -> bool) (q : uchar) : ustr -> ustr -> Prop :=
| ea_nil : escaped_all u q [] []
| ea_cons c s t t' : escaped u q c t -> escaped_all u q s t' -> escaped_all u q (c :: s) (t ++ t').

(** Texts with a comma and a space between each two. *)
Inductive separated : list ustr -> ustr -> Prop :=
| sp_nil : separated [] []
| sp_one s : separated [s] s
| sp_more s l t : l <> [] -> separated l t -> separated (s :: l) (s ++ lit ", " ++ t).

(** A float is written with the fewest digits that still mean it, the nearest such. *)
Inductive float_printed (prec emax : Z) : spec_float -> ustr -> Prop :=
| fp_nan : float_printed prec emax S754_nan (lit "NaN")
| fp_inf : float_printed prec emax (S754_infinity false) (lit "inf")
| fp_neg_inf : float_printed prec emax (S754_infinity true) (lit "-inf")
| fp_number x t neg m e n :
    match x with S754_finite _ _ _ | S754_zero _ => True | _ => False end ->
    In (ch ".") t \/ In (ch "e") t ->
    decimal_text t neg m e -> rounds_to prec emax neg (decimal_value neg m e) x ->
    in_digits n (decimal_value neg m e) ->
    (forall n' w, in_digits n' w -> rounds_to prec emax neg w x ->
      (n <= n')%Z /\ (n' = n -> (Qabs (decimal_value neg m e - fvalue x) <= Qabs (w - fvalue x))%Q)) ->
    float_printed prec emax x t.

Definition width_name (k : ikind) : ustr :=
  match k with
  | U8 => lit "U8" | U16 => lit "U16" | U32 => lit "U32" | U64 => lit "U64" | U128 => lit "U128"
  | USize => lit "USize" | I8 => lit "I8" | I16 => lit "I16" | I32 => lit "I32" | I64 => lit "I64"
  | I128 => lit "I128" | ISize => lit "ISize"
  end.

(** [printed u v t]: the value [v] is written [t]. *)
Inductive printed (u : uchar -> bool) : value -> ustr -> Prop :=
| pr_string g s t : escaped_all u (ch """") s t -> printed u (VString g s) (lit "String(""" ++ t ++ lit """)")
| pr_char g c t : escaped u (ch "'") c t -> printed u (VChar g c) (lit "Char('" ++ t ++ lit "')")
| pr_true g : printed u (VBool g true) (lit "Bool(true)")
| pr_false g : printed u (VBool g false) (lit "Bool(false)")
| pr_unsigned g k z ds : (0 <= z)%Z -> numeral ds z ->
    printed u (VNum g (NInt k z)) (lit "Num(" ++ width_name k ++ lit "(" ++ ds ++ lit "))")
| pr_negative g k z ds : (z < 0)%Z -> numeral ds (- z) ->
    printed u (VNum g (NInt k z)) (lit "Num(" ++ width_name k ++ lit "(-" ++ ds ++ lit "))")
| pr_single g x t : float_printed 24 128 x t -> printed u (VNum g (NF32 x)) (lit "Num(F32(" ++ t ++ lit "))")
| pr_double g x t : float_printed 53 1024 x t -> printed u (VNum g (NF64 x)) (lit "Num(F64(" ++ t ++ lit "))")
| pr_none g : printed u (VEmpty g ENone) (lit "Empty(None)")
| pr_unit g : printed u (VEmpty g EUnit) (lit "Empty(Unit)")
| pr_array g l ts t : Forall2 (printed u) l ts -> separated ts t ->
    printed u (VArray g l) (lit "Array([" ++ t ++ lit "])")
| pr_dict g d ts t : Forall2 (entry_printed u) d ts -> separated ts t ->
    printed u (VDict g d) (lit "Dict({" ++ t ++ lit "})")
with entry_printed (u : uchar -> bool) : ustr * value -> ustr -> Prop :=
| en_printed k v kt vt : escaped_all u (ch """") k kt -> printed u v vt ->
    entry_printed u (k, v) (lit """" ++ kt ++ lit """: " ++ vt).
