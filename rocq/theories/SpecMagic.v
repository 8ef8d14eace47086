(** Specification vocabulary for extracting [Value], [Tagged] and pairs. *)
From Coq Require Import Ascii String ZArith NArith Bool.
From Coq Require Import List.
From Verif Require Import Res BMap Str Profile Tag Num Value Metadata Err Coalesce Figment De.
From Verif Require Import SpecValue SpecParse SpecLossy SpecDe.
Import ListNotations.

(** A tag with its default replaced by that of the enclosing value. *)
Definition inherits (outer t : tag) : tag := if N.eqb (metadata_id t) 0 then outer else t.

(** A fixed-width integer type for [usize] and [isize] values: the smallest that holds them. *)
Definition fixed_width (n n' : num) : Prop :=
  match n with
  | NInt USize z => exists k, first_holding [U8; U16; U32; U64] z k /\ n' = NInt k z
  | NInt ISize z => exists k, first_holding [I8; I16; I32; I64] z k /\ n' = NInt k z
  | _ => n' = n
  end.

(** [w] holds the data of [v], found inside something tagged [outer]: same structure, same
    scalars (but for the width of pointer-sized integers), every tag, with untagged values
    taking the tag of what encloses them. *)
Inductive read_as : tag -> value -> value -> Prop :=
| ra_string o t s : read_as o (VString t s) (VString (inherits o t) s)
| ra_char o t c : read_as o (VChar t c) (VChar (inherits o t) c)
| ra_bool o t b : read_as o (VBool t b) (VBool (inherits o t) b)
| ra_num o t n n' : fixed_width n n' -> read_as o (VNum t n) (VNum (inherits o t) n')
| ra_empty o t e : read_as o (VEmpty t e) (VEmpty (inherits o t) e)
| ra_dict o t d d' :
    Forall2 (fun a b => fst b = fst a /\ read_as (inherits o t) (snd a) (snd b)) d d' ->
    read_as o (VDict t d) (VDict (inherits o t) d')
| ra_array o t l l' :
    Forall2 (read_as (inherits o t)) l l' -> read_as o (VArray t l) (VArray (inherits o t) l').

(** No dictionary in [v] has one of the keys reserved for the encoding of values. *)
Definition magic_free (v : value) : Prop :=
  forall p x, reach p v x ->
    match x with
    | VDict _ d => ~ In value_id (map fst d) /\ ~ In value_value (map fst d)
    | _ => True
    end.

(** Pointer-sized integers are in range (the Rust types guarantee it). *)
Definition sized (v : value) : Prop :=
  forall p x, reach p v x ->
    match x with
    | VNum _ (NInt USize z) => holds USize z
    | VNum _ (NInt ISize z) => holds ISize z
    | _ => True
    end.
Definition no_pointer_sized (v : value) : Prop :=
  forall p x, reach p v x ->
    match x with VNum _ (NInt (USize | ISize) _) => False | _ => True end.

(** What [Tagged] stores. *)
Definition tagged_result (t : tag) (x : dval) : dval :=
  EVStruct [(tagged_tag, EVTag t); (tagged_value, x)].

(** [v] does not itself look like an encoded [Tagged]. *)
Definition not_tagged (v : value) : Prop :=
  match v with
  | VDict _ d => ~ In tagged_tag (map fst d) /\ ~ In tagged_value (map fst d)
  | _ => True
  end.

(** What [bool_from_str_or_int] accepts. *)
Inductive switch : value -> bool -> Prop :=
| sw_bool t b : switch (VBool t b) b
| sw_zero t k : narrow k -> switch (VNum t (NInt k 0)) false
| sw_one t k : narrow k -> switch (VNum t (NInt k 1)) true
| sw_true t s : same_letters s (lit "true") -> switch (VString t s) true
| sw_false t s : same_letters s (lit "false") -> switch (VString t s) false.

(** Types that are written as strings, and the text of their values. *)
Definition textual (t : ty) : Prop :=
  match t with
  | TString | TPath | TProfile => True
  | TEnum _ vs => NoDup (map fst vs) /\ Forall (fun nv => snd nv = ShUnit) vs
  | _ => False
  end.
Definition text_of (d : dval) : ustr :=
  match d with
  | EVStr s | EVPath s => s
  | EVProfile p => pname p
  | EVVariant name _ => name
  | _ => []
  end.
