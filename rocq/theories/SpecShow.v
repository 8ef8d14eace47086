(** A textual form for values: decimal digits, quoted strings in which everything but
    plain printable ASCII is escaped, and bracketed lists. *)
From Coq Require Import Ascii String ZArith NArith Bool.
From Coq Require Import List.
From Verif Require Import Res BMap Str Profile Tag Num Value.
Import ListNotations.
Local Open Scope N_scope.

(** Decimal digits, most significant first. *)
Fixpoint digits_fuel (fuel : nat) (n : N) : ustr :=
  match fuel with
  | O => [48 + n]
  | S f => if n <? 10 then [48 + n] else digits_fuel f (n / 10) ++ [48 + n mod 10]
  end.
Definition decimal (n : N) : ustr := digits_fuel (N.size_nat n) n.

Definition show_int (z : Z) : ustr :=
  if (z <? 0)%Z then ch "-" :: decimal (Z.to_N (- z)) else decimal (Z.to_N z).

(** Fixed-width hexadecimal. *)
Definition nibble (n : N) : uchar := if n <? 10 then 48 + n else 97 + (n - 10).
Fixpoint hex_fixed (width : nat) (n : N) : ustr :=
  match width with
  | O => []
  | S w => hex_fixed w (n / 16) ++ [nibble (n mod 16)]
  end.

Definition plain_char (c : uchar) : bool :=
  (32 <=? c) && (c <? 127) && negb (c =? ch """") && negb (c =? ch "\").
Definition show_char (c : uchar) : ustr :=
  if plain_char c then [c] else ch "\" :: ch "U" :: hex_fixed 8 c.
Definition show_str (s : ustr) : ustr := ch """" :: flat_map show_char s ++ [ch """"].

Fixpoint comma_separated (l : list ustr) : ustr :=
  match l with
  | [] => []
  | [x] => x
  | x :: r => x ++ ch "," :: comma_separated r
  end.

Fixpoint show (v : value) : ustr :=
  match v with
  | VString _ s => show_str s
  | VChar _ c => [ch "'"; c; ch "'"]
  | VBool _ true => lit "true"
  | VBool _ false => lit "false"
  | VNum _ (NInt _ z) => show_int z
  | VNum _ _ => []
  | VEmpty _ _ => []
  | VArray _ l => ch "[" :: comma_separated (map show l) ++ [ch "]"]
  | VDict _ d => ch "{" :: comma_separated (map (fun kv => show_str (fst kv) ++ ch "=" :: show (snd kv)) d)
                     ++ [ch "}"]
  end.

(** The values that have a textual form: untagged; unsigned integers up to 64 bits as
    [USize], negative ones as [ISize]; no floats and no empty values. *)
Definition text (s : ustr) : Prop := Forall (fun c => scalar c = true) s.
Inductive showable : value -> Prop :=
| sh_string s : text s -> showable (VString tag_default s)
| sh_char c : showable (VChar tag_default c)
| sh_bool b : showable (VBool tag_default b)
| sh_nat z : (0 <= z < 2 ^ 64)%Z -> showable (VNum tag_default (NInt USize z))
| sh_neg z : (- 2 ^ 63 <= z < 0)%Z -> showable (VNum tag_default (NInt ISize z))
| sh_array l : Forall showable l -> showable (VArray tag_default l)
| sh_dict (d : dict) :
    sorted d -> Forall (fun kv => text (fst kv)) d -> Forall (fun kv => showable (snd kv)) d ->
    showable (VDict tag_default d).
