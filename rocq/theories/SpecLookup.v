(** Specification of dotted paths, nesting, error chains and value equality. *)
From Coq Require Import ZArith NArith Bool List.
From Coq Require Import Floats.SpecFloat.
From Verif Require Import Res BMap Str Profile Tag Num Value Metadata Err Coalesce Figment
  SpecValue SpecFigment.
Import ListNotations.

(** A key that can be written in a dotted path. *)
Definition plain_key (k : ustr) : Prop := k <> [] /\ ~ In dot k.

(** [path] spells the keys [ks]: the keys joined by dots, optionally followed by an empty
    component and anything after it. *)
Definition spells (path : ustr) (ks : list ustr) : Prop :=
  Forall plain_key ks /\
  (path = join [dot] ks \/ exists rest, path = join [dot] (ks ++ [] :: rest)).

(** Along [ks], [v] holds dictionaries or nothing. *)
Definition dicts_along (ks : list ustr) (v : value) : Prop :=
  forall p x, prefix_of p ks -> at_path p v = Some x -> is_dict x = true.

(** Repeatedly calling [next] from a state until it is exhausted. *)
Inductive yields : option error -> list error -> Prop :=
| Y_end st : iter_next st = None -> yields st []
| Y_next st e st' l : iter_next st = Some (e, st') -> yields st' l -> yields st (e :: l).

(** Equality of values: same structure, same scalars; integers of the same signedness by
    value; floats as IEEE numbers; tags ignored. *)
Definition float_of (n : num) : option spec_float :=
  match n with NF32 f => Some (f32_to_f64 f) | NF64 f => Some f | NInt _ _ => None end.
Definition is_zero_float (f : spec_float) : bool :=
  match f with S754_zero _ => true | _ => false end.
Definition same_float (x y : spec_float) : Prop :=
  x <> S754_nan /\ y <> S754_nan /\ (x = y \/ (is_zero_float x = true /\ is_zero_float y = true)).
Definition same_num (a b : num) : Prop :=
  match a, b with
  | NInt k x, NInt l y => ikind_signed k = ikind_signed l /\ x = y
  | _, _ => exists x y, float_of a = Some x /\ float_of b = Some y /\ same_float x y
  end.
Inductive same_value : value -> value -> Prop :=
| SV_string t1 t2 s : same_value (VString t1 s) (VString t2 s)
| SV_char t1 t2 c : same_value (VChar t1 c) (VChar t2 c)
| SV_bool t1 t2 b : same_value (VBool t1 b) (VBool t2 b)
| SV_num t1 t2 a b : same_num a b -> same_value (VNum t1 a) (VNum t2 b)
| SV_empty t1 t2 e : same_value (VEmpty t1 e) (VEmpty t2 e)
| SV_dict t1 t2 a b :
    Forall2 (fun x y => fst x = fst y /\ same_value (snd x) (snd y)) a b ->
    same_value (VDict t1 a) (VDict t2 b)
| SV_array t1 t2 a b : Forall2 same_value a b -> same_value (VArray t1 a) (VArray t2 b).

(** A result without the error. *)
Definition res_ok {E A} (r : res E A) : option A := match r with Ok a => Some a | Err _ => None end.
