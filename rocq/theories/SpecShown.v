(** Values an error message shows completely. *)
From Coq Require Import ZArith QArith NArith Bool.
From Coq Require Import Floats.SpecFloat.
From Coq Require Import List.
From Verif Require Import Res BMap Str Tag Num Value Err SpecNear.

(** What serde has no word for is described freely; everything else is identified.  Floats are
    doubles. *)
Definition identified (a : actual) : Prop :=
  match a with
  | AOther _ => False
  | AFloat x => valid_binary 53 1024 x = true
  | _ => True
  end.

(** A float as a double. *)
Inductive as_double : num -> spec_float -> Prop :=
| ad_single f x : converted 53 1024 f x -> as_double (NF32 f) x
| ad_double x : as_double (NF64 x) x.

(** Values that look the same in a message: scalars of one kind with the same content, integers
    of one signedness with the same value, and all dictionaries, and all arrays. *)
Inductive alike : value -> value -> Prop :=
| al_string t u s : alike (VString t s) (VString u s)
| al_char t u c : alike (VChar t c) (VChar u c)
| al_bool t u b : alike (VBool t b) (VBool u b)
| al_int t u k l z : ikind_signed k = ikind_signed l -> alike (VNum t (NInt k z)) (VNum u (NInt l z))
| al_float t u m n x : as_double m x -> as_double n x -> alike (VNum t m) (VNum u n)
| al_empty t u e : alike (VEmpty t e) (VEmpty u e)
| al_dict t u d d' : alike (VDict t d) (VDict u d')
| al_array t u l l' : alike (VArray t l) (VArray u l').

(** The number in a value, if it is one, is in the range of its type. *)
Definition proper (v : value) : Prop := match v with VNum _ n => num_ok n = true | _ => True end.

(** ** What a message says is wrong *)
Inductive trouble :=
| WrongType | WrongValue | WrongLength | NoSuchVariant | NoSuchField | MissingField
| DuplicateField | TooWideSigned | TooWideUnsigned | Unsupported.

(** A provider's own message says whatever it likes. *)
Definition trouble_of (k : kind) : option trouble :=
  match k with
  | KMessage _ => None
  | KInvalidType _ _ => Some WrongType
  | KInvalidValue _ _ => Some WrongValue
  | KInvalidLength _ _ => Some WrongLength
  | KUnknownVariant _ _ => Some NoSuchVariant
  | KUnknownField _ _ => Some NoSuchField
  | KMissingField _ => Some MissingField
  | KDuplicateField _ => Some DuplicateField
  | KISizeOutOfRange _ => Some TooWideSigned
  | KUSizeOutOfRange _ => Some TooWideUnsigned
  | KUnsupported _ | KUnsupportedKey _ _ => Some Unsupported
  end.

(** [c'] is [c] as an ASCII capital. *)
Definition capital (c c' : uchar) : Prop :=
  (97 <= c <= 122 /\ c' = c - 32)%N \/ (~ (97 <= c <= 122)%N /\ c' = c).

(** [v] is a decimal with at most [n] significant digits. *)
Definition in_digits (n : Z) (v : Q) : Prop :=
  exists m e, (Z.abs m < 10 ^ n)%Z /\ (v == inject_Z m * (10 # 1) ^ e)%Q.
