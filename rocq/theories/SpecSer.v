(** What Rust values are written as, said without functions of the model. *)
From Coq Require Import Ascii String ZArith NArith Bool.
From Coq Require Import Floats.SpecFloat.
From Coq Require Import List.
From Verif Require Import Res BMap Str Profile Tag Num Value Err De.
Import ListNotations.

(** The dictionary has the last entry of every key. *)
Definition has_last {V} (l : list (ustr * V)) (d : bmap ustr V) : Prop :=
  sorted d /\
  forall k v, In (k, v) d <-> exists a b, l = a ++ (k, v) :: b /\ forall w, ~ In (k, w) b.

(** Pointer-sized integers are written as 64-bit ones. *)
Definition written_kind (k : ikind) : ikind :=
  match k with USize => U64 | ISize => I64 | _ => k end.

(** A [Value] written: the same, with default tags. *)
Inductive rewritten : value -> value -> Prop :=
| rw_string t s : rewritten (VString t s) (VString tag_default s)
| rw_char t c : rewritten (VChar t c) (VChar tag_default c)
| rw_bool t b : rewritten (VBool t b) (VBool tag_default b)
| rw_int t k z : rewritten (VNum t (NInt k z)) (VNum tag_default (NInt (written_kind k) z))
| rw_f32 t x : rewritten (VNum t (NF32 x)) (VNum tag_default (NF32 x))
| rw_f64 t x : rewritten (VNum t (NF64 x)) (VNum tag_default (NF64 x))
| rw_empty t e : rewritten (VEmpty t e) (VEmpty tag_default e)
| rw_dict t d l d' : Forall2 (fun x y => fst x = fst y /\ rewritten (snd x) (snd y)) d l -> has_last l d' ->
    rewritten (VDict t d) (VDict tag_default d')
| rw_array t l l' : Forall2 rewritten l l' -> rewritten (VArray t l) (VArray tag_default l').

(** A Rust value written. *)
Inductive written : dval -> value -> Prop :=
| wr_bool b : written (EVBool b) (VBool tag_default b)
| wr_int k z : written (EVInt k z) (VNum tag_default (NInt (written_kind k) z))
| wr_f32 x : written (EVF32 x) (VNum tag_default (NF32 x))
| wr_f64 x : written (EVF64 x) (VNum tag_default (NF64 x))
| wr_char c : written (EVChar c) (VChar tag_default c)
| wr_str s : written (EVStr s) (VString tag_default s)
| wr_path s : written (EVPath s) (VString tag_default s)
| wr_profile p : written (EVProfile p) (VString tag_default (pname p))
| wr_unit : written EVUnit (VEmpty tag_default EUnit)
| wr_ignored : written EVIgnored (VEmpty tag_default EUnit)
| wr_none : written EVNone (VEmpty tag_default ENone)
| wr_tag n : written (EVTag (Tag n)) (VNum tag_default (NInt U64 (Z.of_N n)))
| wr_some d v : written d v -> written (EVSome d) v
| wr_newtype d v : written d v -> written (EVNewtype d) v
| wr_left d v : written d v -> written (EVLeft d) v
| wr_right d v : written d v -> written (EVRight d) v
| wr_value v w : rewritten v w -> written (EVValue v) w
| wr_seq l l' : Forall2 written l l' -> written (EVSeq l) (VArray tag_default l')
| wr_tuple l l' : Forall2 written l l' -> written (EVTuple l) (VArray tag_default l')
| wr_map l l' d : entries l l' -> has_last l' d -> written (EVMap l) (VDict tag_default d)
| wr_struct l l' d : entries l l' -> has_last l' d -> written (EVStruct l) (VDict tag_default d)
| wr_pairs l l' d : Forall2 (fun x y => written (fst x) (VString tag_default (fst y)) /\ written (snd x) (snd y)) l l' ->
    has_last l' d -> written (EVPairs l) (VDict tag_default d)
| wr_unit_variant n : written (EVVariant n ShUnit) (VString tag_default n)
| wr_new_variant n d v : written d v -> written (EVVariant n (ShNew d)) (VDict tag_default [(n, v)])
| wr_tuple_variant n l l' : Forall2 written l l' ->
    written (EVVariant n (ShTuple l)) (VDict tag_default [(n, VArray tag_default l')])
| wr_struct_variant n l l' d : entries l l' -> has_last l' d ->
    written (EVVariant n (ShStruct l)) (VDict tag_default [(n, VDict tag_default d)])
with entries : list (ustr * dval) -> list (ustr * value) -> Prop :=
| en_nil : entries [] []
| en_cons k d v l l' : written d v -> entries l l' -> entries ((k, d) :: l) ((k, v) :: l').

(** What the message about a key shows of it. *)
Inductive pictured : value -> actual -> Prop :=
| pc_char t c : pictured (VChar t c) (AChar c)
| pc_bool t b : pictured (VBool t b) (ABool b)
| pc_unsigned t k z : ikind_signed k = false -> pictured (VNum t (NInt k z)) (AUnsigned z)
| pc_signed t k z : ikind_signed k = true -> pictured (VNum t (NInt k z)) (ASigned z)
| pc_f32 t x : pictured (VNum t (NF32 x)) (AFloat (f32_to_f64 x))
| pc_f64 t x : pictured (VNum t (NF64 x)) (AFloat x)
| pc_none t : pictured (VEmpty t ENone) AOption
| pc_unit t : pictured (VEmpty t EUnit) AUnit
| pc_dict t d : pictured (VDict t d) AMap
| pc_array t l : pictured (VArray t l) ASeq.

(** The first key, in the order of writing, that is not written as a string: what the message shows
    of it.  Only the keys of maps other than those with string keys can be to blame. *)
Inductive bad_key : dval -> actual -> Prop :=
| bk_some d a : bad_key d a -> bad_key (EVSome d) a
| bk_newtype d a : bad_key d a -> bad_key (EVNewtype d) a
| bk_left d a : bad_key d a -> bad_key (EVLeft d) a
| bk_right d a : bad_key d a -> bad_key (EVRight d) a
| bk_seq l a : bad_in l a -> bad_key (EVSeq l) a
| bk_tuple l a : bad_in l a -> bad_key (EVTuple l) a
| bk_map l a : bad_in (map snd l) a -> bad_key (EVMap l) a
| bk_struct l a : bad_in (map snd l) a -> bad_key (EVStruct l) a
| bk_pairs l a : bad_pair l a -> bad_key (EVPairs l) a
| bk_new_variant n d a : bad_key d a -> bad_key (EVVariant n (ShNew d)) a
| bk_tuple_variant n l a : bad_in l a -> bad_key (EVVariant n (ShTuple l)) a
| bk_struct_variant n l a : bad_in (map snd l) a -> bad_key (EVVariant n (ShStruct l)) a
with bad_in : list dval -> actual -> Prop :=
| bi_here d l a : bad_key d a -> bad_in (d :: l) a
| bi_later d v l a : written d v -> bad_in l a -> bad_in (d :: l) a
with bad_pair : list (dval * dval) -> actual -> Prop :=
| bp_within k x l a : bad_key k a -> bad_pair ((k, x) :: l) a
| bp_key k x l v a : written k v -> pictured v a -> bad_pair ((k, x) :: l) a
| bp_value k x l s a : written k (VString tag_default s) -> bad_key x a -> bad_pair ((k, x) :: l) a
| bp_later k x l s v a : written k (VString tag_default s) -> written x v -> bad_pair l a ->
    bad_pair ((k, x) :: l) a.
