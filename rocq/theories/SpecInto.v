(** What numbers give when asked for a type, and what Rust values become as [Value]s. *)
From Coq Require Import Ascii String ZArith NArith Bool.
From Coq Require Import Floats.SpecFloat.
From Coq Require Import List.
From Verif Require Import BMap Str Tag Num Value Into De SpecNear.
Import ListNotations.
Local Open Scope Z_scope.

(** ** Numbers *)
(** The integer types no wider than 32 bits and without a sign. *)
Definition narrow : list ikind := [U8; U16; U32].
Definition unsigned_types : list ikind := [U8; U16; U32; U64; U128; USize].
Definition signed_types : list ikind := [I8; I16; I32; I64; I128; ISize].

(** [n] is the integer [z] in one of the types [ks]. *)
Definition integer_of (ks : list ikind) (n : num) (z : Z) : Prop :=
  exists k, In k ks /\ n = NInt k z.
(** [n] is a float whose value as a double is [f]. *)
Definition double_of (n : num) (f : spec_float) : Prop :=
  n = NF64 f \/ exists x, n = NF32 x /\ converted 53 1024 x f.

(** ** Conversions *)
(** The last entry of [l] with the key [k]. *)
Definition given {A} (l : list (ustr * A)) (k : ustr) (x : A) : Prop :=
  exists l1 l2, l = l1 ++ (k, x) :: l2 /\ forall y, ~ In (k, y) l2.

(** [v] holds what [s] holds: the same text, the same number of the same type, the same elements
    in the same order, under every key what was last given for it; where a [Value] was given,
    that very value, and no source anywhere else. *)
Inductive holds : source -> value -> Prop :=
| ho_str s : holds (FStr s) (VString tag_default s)
| ho_char c : holds (FChar c) (VChar tag_default c)
| ho_bool b : holds (FBool b) (VBool tag_default b)
| ho_num n : holds (FNum n) (VNum tag_default n)
| ho_empty e : holds (FEmpty e) (VEmpty tag_default e)
| ho_list l vs : Forall2 holds l vs -> holds (FList l) (VArray tag_default vs)
| ho_map l d :
    sorted d ->
    (forall k s, given l k s -> exists v, In (k, v) d /\ holds s v) ->
    (forall k v, In (k, v) d -> exists s, given l k s) ->
    holds (FMap l) (VDict tag_default d)
| ho_value v : holds (FValue v) v.

(** What [s] is to serde. *)
Fixpoint serde_of (s : source) : dval :=
  match s with
  | FStr s => EVStr s
  | FChar c => EVChar c
  | FBool b => EVBool b
  | FNum (NInt k z) => EVInt k z
  | FNum (NF32 x) => EVF32 x
  | FNum (NF64 x) => EVF64 x
  | FEmpty ENone => EVNone
  | FEmpty EUnit => EVUnit
  | FList l => EVSeq (map serde_of l)
  | FMap l => EVMap (map (fun kv => (fst kv, serde_of (snd kv))) l)
  | FValue v => EVValue v
  end.
