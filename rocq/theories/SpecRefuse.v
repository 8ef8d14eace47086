(** Which error typed extraction gives: where it points and what it complains about.  Together
    with [SpecGives.gives] this says what extraction does with every value at every type. *)
From Coq Require Import Ascii String ZArith NArith Bool.
From Coq Require Import Floats.SpecFloat.
From Coq Require Import List.
From Verif Require Import Res BMap Str Profile Tag Num Value Metadata Err Figment Fmt De SpecNear.
From Verif Require Import SpecValue SpecShow SpecLossy SpecDe SpecMagic SpecExtract SpecDoc SpecTaken SpecGives.
Import ListNotations.

(** ** Values of a wrong kind *)

(** How a value that is not of the kind wanted is described. *)
Inductive described : value -> actual -> Prop :=
| dc_string t s : described (VString t s) (AStr s)
| dc_char t c : described (VChar t c) (AStr [c])
| dc_bool t b : described (VBool t b) (ABool b)
| dc_signed t j z : In j [I8; I16; I32; I64; ISize] -> described (VNum t (NInt j z)) (ASigned z)
| dc_unsigned t j z : In j [U8; U16; U32; U64; USize] -> described (VNum t (NInt j z)) (AUnsigned z)
| dc_i128 t z : described (VNum t (NInt I128 z)) (AOther (lit "integer `" ++ show_int z ++ lit "` as i128"))
| dc_u128 t z : described (VNum t (NInt U128 z)) (AOther (lit "integer `" ++ show_int z ++ lit "` as u128"))
| dc_f32 t x y : converted 53 1024 x y -> described (VNum t (NF32 x)) (AFloat y)
| dc_f64 t x : described (VNum t (NF64 x)) (AFloat x)
| dc_unit t : described (VEmpty t EUnit) AUnit
| dc_none t : described (VEmpty t ENone) AOption
| dc_dict t d : described (VDict t d) AMap
| dc_array t l : described (VArray t l) ASeq.

(** What a type says it wants. *)
Definition called (k : ikind) : ustr :=
  match k with
  | U8 => lit "u8" | U16 => lit "u16" | U32 => lit "u32" | U64 => lit "u64"
  | U128 => lit "u128" | USize => lit "usize"
  | I8 => lit "i8" | I16 => lit "i16" | I32 => lit "i32" | I64 => lit "i64"
  | I128 => lit "i128" | ISize => lit "isize"
  end.
Definition wants (t : ty) : ustr :=
  match t with
  | TBool | TBoolish => lit "a boolean"
  | TInt k => called k
  | TF32 => lit "f32"
  | TF64 => lit "f64"
  | TChar => lit "a character"
  | TString | TProfile => lit "a string"
  | TPath => lit "path string"
  | TUnit => lit "unit"
  | TOption _ => lit "option"
  | TSeq _ => lit "a sequence"
  | TTuple ts => lit "a tuple of size " ++ decimal (N.of_nat (length ts))
  | TMap _ | TPairs _ _ => lit "a map"
  | TStruct _ ident _ _ => lit "struct " ++ ident
  | TNewtype ident _ | TTupleStruct ident _ => lit "tuple struct " ++ ident
  | TUnitStruct ident => lit "unit struct " ++ ident
  | TEnum ident _ => lit "enum " ++ ident
  | TTag => lit "a 64-bit metadata id integer"
  | TValue | TIgnored | TEither _ _ => []
  end.
Definition counted (n : nat) : ustr :=
  lit " with " ++ decimal (N.of_nat n) ++ match n with 1 => lit " element" | _ => lit " elements" end.

(** A refusal: the value, where in it, and why. *)
Definition refusal := value -> list ustr -> kind -> Prop.

Definition unwanted (exp : ustr) : refusal := fun v p k =>
  p = [] /\ exists a, described v a /\ k = KInvalidType a exp.

Definition is_array (v : value) : Prop := exists g l, v = VArray g l.
Definition is_dict (v : value) : Prop := exists g d, v = VDict g d.

(** ** Numbers *)
Definition int_shown (j : ikind) (z : Z) : actual :=
  match j with
  | I8 | I16 | I32 | I64 | I128 | ISize => ASigned z
  | U8 | U16 | U32 | U64 | U128 | USize => AUnsigned z
  end.

(** [k]: the integer type wanted; too large or small, or a number but not an integer of at most
    64 bits, or no number. *)
Definition int_refused (i : interp) (k : ikind) : refusal := fun v p kd =>
  (exists j z, stands_for_num i v (NInt j z) /\ narrow j /\ ~ holds k z /\
     p = [] /\ kd = KInvalidValue (int_shown j z) (called k)) \/
  (exists n, stands_for_num i v n /\ (forall j z, n = NInt j z -> ~ narrow j) /\
     unwanted (called k) (VNum tag_default n) p kd) \/
  ((forall n, ~ stands_for_num i v n) /\ unwanted (called k) v p kd).

Definition float_refused (i : interp) (exp : ustr) : refusal := fun v p kd =>
  (exists j z, stands_for_num i v (NInt j z) /\ ~ narrow j /\ unwanted exp (VNum tag_default (NInt j z)) p kd) \/
  ((forall n, ~ stands_for_num i v n) /\ unwanted exp v p kd).

(** ** Compound data *)

(** What is known of a part: whether it may be left out, when it is fine, when it is refused. *)
Definition part := (Prop * (value -> Prop) * refusal)%type.
Definition may_lack (r : part) : Prop := fst (fst r).
Definition fine (r : part) : value -> Prop := snd (fst r).
Definition refused (r : part) : refusal := snd r.

(** The first element that is not fine. *)
Definition element_refused (r : part) (l : list value) (p : list ustr) (k : kind) : Prop :=
  exists a x b q, l = a ++ x :: b /\ Forall (fine r) a /\ refused r x q k /\
    p = decimal (N.of_nat (length a)) :: q.

(** The same when every position has a type of its own; there can also be too few elements. *)
Definition position_refused (rs : list part) (exp : ustr) (l : list value) (p : list ustr) (k : kind) : Prop :=
  (exists ra r rb a x b q, rs = ra ++ r :: rb /\ l = a ++ x :: b /\ Forall2 fine ra a /\ refused r x q k /\
     p = decimal (N.of_nat (length a)) :: q) \/
  (exists ra r rb, rs = ra ++ r :: rb /\ Forall2 fine ra l /\
     p = [] /\ k = KInvalidLength (N.of_nat (length l)) exp).

(** The first entry, in the order of the keys, that is not fine. *)
Definition entry_refused (ok : ustr -> value -> Prop) (bad : ustr -> refusal) (d : dict)
                         (p : list ustr) (k : kind) : Prop :=
  exists a key x b q, d = a ++ (key, x) :: b /\ Forall (fun e => ok (fst e) (snd e)) a /\ bad key x q k /\
    p = key :: q.

(** The fields of a struct: first every entry, in the order of the keys; then, in the order of
    their declaration, the fields without one. *)
Definition known (deny : bool) (fs : list (ustr * part)) (key : ustr) (x : value) : Prop :=
  (deny = true -> In key (map fst fs)) /\ forall r, In (key, r) fs -> fine r x.
Definition fields_refused (deny : bool) (fs : list (ustr * part)) (d : dict) (p : list ustr) (k : kind) : Prop :=
  entry_refused (known deny fs)
    (fun key x q kd =>
       (deny = true /\ ~ In key (map fst fs) /\ q = [] /\ kd = KUnknownField key (map fst fs)) \/
       exists r, In (key, r) fs /\ refused r x q kd) d p k \/
  (Forall (fun e => known deny fs (fst e) (snd e)) d /\
   exists a n r b, fs = a ++ (n, r) :: b /\ ~ may_lack r /\ ~ In n (map fst d) /\
     Forall (fun f => In (fst f) (map fst d) \/ may_lack (snd f)) a /\
     p = [] /\ k = KMissingField n).
Definition struct_refused (deny : bool) (fs : list (ustr * part)) (exp : ustr) : refusal := fun v p k =>
  (exists g d, v = VDict g d /\ fields_refused deny fs d p k) \/
  (exists g l, v = VArray g l /\ position_refused (map snd fs) (exp ++ counted (length fs)) l p k) \/
  (~ is_dict v /\ ~ is_array v /\ unwanted exp v p k).
Definition tuple_refused (rs : list part) (exp short : ustr) : refusal := fun v p k =>
  (exists g l, v = VArray g l /\ position_refused rs short l p k) \/
  (~ is_array v /\ unwanted exp v p k).

(** A variant with a payload given by its name alone. *)
Inductive lacks_payload {A} : shape A -> ustr -> Prop :=
| lp_new a : lacks_payload (ShNew a) (lit "newtype variant")
| lp_tuple l : lacks_payload (ShTuple l) (lit "tuple variant")
| lp_struct l : lacks_payload (ShStruct l) (lit "struct variant").
Definition name_refused {A} (vs : list (ustr * shape A)) (s : ustr) (k : kind) : Prop :=
  (~ In s (map fst vs) /\ k = KUnknownVariant s (map fst vs)) \/
  exists sh exp, variant vs s sh /\ lacks_payload sh exp /\ k = KInvalidType AUnitVariant exp.

(** [full]: the variant's name with that of its enum. *)
Definition payload_refused (full : ustr) (s : shape part) : refusal :=
  match s with
  | ShUnit => fun v p k => (forall g, v <> VEmpty g EUnit) /\ unwanted (lit "unit") v p k
  | ShNew r => refused r
  | ShTuple rs => tuple_refused rs (lit "tuple variant " ++ full) (lit "tuple variant " ++ full ++ counted (length rs))
  | ShStruct fs => struct_refused false fs (lit "struct variant " ++ full)
  end.

Definition enum_refused (ident : ustr) (vs : list (ustr * shape part)) : refusal := fun v p k =>
  (exists g s, v = VString g s /\ p = [] /\ name_refused vs s k) \/
  (exists g n z, v = VNum g n /\ unsigned32 n z /\ p = [] /\
     ((nth_error vs (Z.to_nat z) = None /\
       k = KInvalidValue (AUnsigned z) (lit "variant index 0 <= i < " ++ decimal (N.of_nat (length vs)))) \/
      exists s sh exp, nth_error vs (Z.to_nat z) = Some (s, sh) /\ lacks_payload sh exp /\
        k = KInvalidType AUnitVariant exp)) \/
  (exists g, v = VDict g [] /\ p = [] /\ k = KInvalidType AMap (lit "enum")) \/
  (exists g key x r q, v = VDict g ((key, x) :: r) /\ p = key :: q /\
     ((~ In key (map fst vs) /\ q = [] /\ k = KUnknownVariant key (map fst vs)) \/
      exists sh, variant vs key sh /\ payload_refused (ident ++ lit "::" ++ key) sh x q k)) \/
  (~ is_dict v /\ (forall g s, v <> VString g s) /\ (forall g n z, v = VNum g n -> ~ unsigned32 n z) /\
   unwanted (lit "enum " ++ ident) v p k).

(** ** Values taken as they are *)

(** Only a [value_id] that is no such number cannot be copied.  What is inside an entry or an
    element is, when sources are kept, found below the reserved key [value_value]. *)
Definition copied_fine (kept : bool) (key : ustr) (x : value) : Prop :=
  (key = value_id -> exists t, id_number x t) /\ (key <> value_id -> exists u, taken kept x u).
Definition below (kept : bool) (q : list ustr) : list ustr := if kept then value_value :: q else q.
Inductive uncopied (kept : bool) : value -> list ustr -> kind -> Prop :=
| uc_id g a x b kd : Forall (fun e => copied_fine kept (fst e) (snd e)) a ->
    (forall t, ~ id_number x t) -> unwanted (wants TTag) x [] kd ->
    uncopied kept (VDict g (a ++ (value_id, x) :: b)) [value_id] kd
| uc_value g a x b q kd : Forall (fun e => copied_fine kept (fst e) (snd e)) a ->
    uncopied kept x q kd -> uncopied kept (VDict g (a ++ (value_value, x) :: b)) (value_value :: q) kd
| uc_entry g a key x b q kd : Forall (fun e => copied_fine kept (fst e) (snd e)) a ->
    ~ In key [value_id; value_value] ->
    uncopied kept x q kd -> uncopied kept (VDict g (a ++ (key, x) :: b)) (key :: below kept q) kd
| uc_element g a x b q kd : Forall (fun y => exists u, taken kept y u) a ->
    uncopied kept x q kd ->
    uncopied kept (VArray g (a ++ x :: b)) (decimal (N.of_nat (length a)) :: below kept q) kd.

(** Two types refused, the second one reading [u]'s entry [k] if there is one. *)
Definition both_refused (key : ustr) (a b : refusal) (u : value) (p : list ustr) (k : kind) : Prop :=
  exists u' pa ka pb kb, a u pa ka /\ entry_or_self key u u' /\ b u' pb kb /\
    p = [] /\ k = KMessage (fmt_kind ka ++ lit "; " ++ fmt_kind kb).

(** The key [s] of a map refused by the key type [t]. *)
Definition key_refused (t : ty) (s : ustr) (k : kind) : Prop :=
  match t with
  | TString | TPath | TProfile | TIgnored | TValue => False
  | TChar => (forall c, s <> [c]) /\ k = KInvalidValue (AStr s) (wants t)
  | TBoolish => (forall b, ~ switch (VString tag_default s) b) /\ k = KInvalidValue (AStr s) (lit "true or false")
  | TEnum _ vs => name_refused vs s k
  | _ => k = KInvalidType (AStr s) (wants t)
  end.

(** ** All types *)

(** [refuses m t v p k]: extracting [t] from [v] fails, at [p] in [v], for the reason [k]. *)
Fixpoint refuses (m : mode) (t : ty) (v : value) (p : list ustr) (k : kind) {struct t} : Prop :=
  match t with
  | TBool => (forall b, ~ stands_for_bool (reading m) v b) /\ unwanted (wants t) v p k
  | TInt U128 => p = [] /\ k = KMessage (lit "u128 is not supported")
  | TInt I128 => p = [] /\ k = KMessage (lit "i128 is not supported")
  | TInt j => int_refused (reading m) j v p k
  | TF32 | TF64 => float_refused (reading m) (wants t) v p k
  | TString | TPath | TProfile => (forall s, ~ text v s) /\ unwanted (wants t) v p k
  | TChar =>
      (exists s, text v s /\ (forall c, s <> [c]) /\ p = [] /\ k = KInvalidValue (AStr s) (wants t)) \/
      ((forall s, ~ text v s) /\ unwanted (wants t) v p k)
  | TUnit | TUnitStruct _ => (forall g, v <> VEmpty g EUnit) /\ unwanted (wants t) v p k
  | TIgnored => False
  | TTag => (forall g n z, v = VNum g n -> ~ unsigned64 n z) /\ unwanted (wants t) v p k
  | TBoolish =>
      (forall b, ~ switch v b) /\
      ((exists g j z, v = VNum g (NInt j z) /\ narrow j /\ p = [] /\
          k = KInvalidValue (int_shown j z) (lit "0 or 1")) \/
       (exists s, text v s /\ p = [] /\ k = KInvalidValue (AStr s) (lit "true or false")) \/
       ((forall g j z, v = VNum g (NInt j z) -> ~ narrow j) /\ (forall s, ~ text v s) /\
        unwanted (wants t) v p k))
  | TOption t => (forall g e, v <> VEmpty g e) /\ refuses m t v p k
  | TNewtype _ t => refuses m t v p k
  | TSeq u =>
      let r := (optional u, fun v => exists y, gives m u v y, refuses m u) in
      (exists g l, v = VArray g l /\ element_refused r l p k) \/ (~ is_array v /\ unwanted (wants t) v p k)
  | TTuple ts =>
      tuple_refused (map (fun u => (optional u, fun v => exists y, gives m u v y, refuses m u)) ts)
        (wants t) (wants t) v p k
  | TTupleStruct _ ts =>
      tuple_refused (map (fun u => (optional u, fun v => exists y, gives m u v y, refuses m u)) ts)
        (wants t) (wants t ++ counted (length ts)) v p k
  | TMap u =>
      (exists g d, v = VDict g d /\
         entry_refused (fun _ x => exists y, gives m u x y) (fun _ => refuses m u) d p k) \/
      (~ is_dict v /\ unwanted (wants t) v p k)
  | TPairs kt u =>
      let key_fine s :=
        match kt with
        | TValue => True
        | TEither a b => exists f y, last_of_fields a f /\
            first_else f (gives MPlain a) (gives MPlain b) (VString tag_default s) y
        | _ => exists y, reads_key kt s y
        end in
      let key_bad s kd :=
        match kt with
        | TEither a b => exists f, last_of_fields a f /\
            both_refused f (refuses MPlain a) (refuses MPlain b) (VString tag_default s) [] kd
        | _ => key_refused kt s kd
        end in
      (exists g d, v = VDict g d /\
         entry_refused (fun s x => key_fine s /\ exists y, gives m u x y)
           (fun s x q kd => (q = [] /\ key_bad s kd) \/ (key_fine s /\ refuses m u x q kd)) d p k) \/
      (~ is_dict v /\ unwanted (wants t) v p k)
  | TStruct name _ deny fs =>
      exists w, presents m name v w /\
        struct_refused deny
          (map (fun f => (fst f, (optional (snd f), fun v => exists y, gives m (snd f) v y, refuses m (snd f)))) fs)
          (wants t) w p k
  | TEnum ident vs =>
      enum_refused ident
        (map (fun nv => (fst nv,
           match snd nv with
           | ShUnit => ShUnit
           | ShNew u => ShNew (optional u, fun v => exists y, gives m u v y, refuses m u)
           | ShTuple ts => ShTuple (map (fun u => (optional u, fun v => exists y, gives m u v y, refuses m u)) ts)
           | ShStruct fs => ShStruct (map (fun f =>
               (fst f, (optional (snd f), fun v => exists y, gives m (snd f) v y, refuses m (snd f)))) fs)
           end)) vs) v p k
  | TValue => exists q, uncopied (tracked m) v q k /\ p = below (tracked m) q
  | TEither a b =>
      exists w, presents m (name_of a) v w /\
        (uncopied (tracked m) w p k \/
         exists u f, taken (tracked m) w u /\ last_of_fields a f /\
           both_refused f (refuses MPlain a) (refuses MPlain b) u p k)
  end.
