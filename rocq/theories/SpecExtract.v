(** What typed extraction is supposed to mean: which values give which data at which type. *)
From Coq Require Import Ascii String ZArith NArith Bool.
From Coq Require Import Floats.SpecFloat.
From Coq Require Import List.
From Verif Require Import Res BMap Str Profile Tag Num Value NumParse De SpecNear.
From Verif Require Import SpecValue SpecParse SpecLossy SpecDe SpecMagic.
Import ListNotations.

(** ** Scalars *)

(** The boolean and the number a value stands for: in lossy extraction also what it spells. *)
Inductive stands_for_bool : interp -> value -> bool -> Prop :=
| sb_bool i t b : stands_for_bool i (VBool t b) b
| sb_lossy v b : boolish v b -> stands_for_bool Lossy v b.
Inductive stands_for_num : interp -> value -> num -> Prop :=
| sn_num i t n : stands_for_num i (VNum t n) n
| sn_lossy t s n : lossy_num (trim s) n -> stands_for_num Lossy (VString t s) n.

(** The text a value is. *)
Inductive text : value -> ustr -> Prop :=
| tx_string t s : text (VString t s) s
| tx_char t c : text (VChar t c) [c].

(** A number as a double or single. *)
Inductive as_double : num -> spec_float -> Prop :=
| ad_int j z x : narrow j -> from_int 53 1024 z x -> as_double (NInt j z) x
| ad_f64 x : as_double (NF64 x) x
| ad_f32 x y : converted 53 1024 x y -> as_double (NF32 x) y.
Inductive as_single : num -> spec_float -> Prop :=
| as_int j z x : narrow j -> from_int 24 128 z x -> as_single (NInt j z) x
| as_f32 x : as_single (NF32 x) x
| as_f64 x y : converted 24 128 x y -> as_single (NF64 x) y.

(** An unsigned integer of at most 64 (or 32) bits. *)
Definition unsigned64 (n : num) (z : Z) : Prop :=
  exists j, n = NInt j z /\ In j [U8; U16; U32; U64; USize].
Definition unsigned32 (n : num) (z : Z) : Prop := exists j, n = NInt j z /\ In j [U8; U16; U32].

(** ** Compound data *)

(** The first elements of [l], in order; whatever follows them does not matter. *)
Fixpoint leading (rs : list (value -> dval -> Prop)) (l : list value) (ys : list dval) : Prop :=
  match rs, l, ys with
  | [], _, [] => True
  | r :: rs, v :: l, y :: ys => r v y /\ leading rs l ys
  | _, _, _ => False
  end.

(** A type whose values may be left out. *)
Definition optional (t : ty) : Prop := exists u, t = TOption u.

(** The fields of a struct, each from the entry of its name. *)
Fixpoint by_name (fs : list (ustr * (Prop * (value -> dval -> Prop)))) (d : dict)
                 (ys : list (ustr * dval)) : Prop :=
  match fs, ys with
  | [], [] => True
  | (n, (opt, r)) :: fs, (n', y) :: ys =>
      n' = n /\ match get n d with Some v => r v y | None => opt /\ y = EVNone end /\ by_name fs d ys
  | _, _ => False
  end.

(** The variant called [name]. *)
Definition variant {A} (vs : list (ustr * shape A)) (name : ustr) (s : shape A) : Prop :=
  In (name, s) vs.

(** Reading the payload of a variant from the value [v]. *)
Inductive payload (s : shape (Prop * (value -> dval -> Prop))) (v : value) : shape dval -> Prop :=
| pl_unit t : s = ShUnit -> v = VEmpty t EUnit -> payload s v ShUnit
| pl_new o r y : s = ShNew (o, r) -> r v y -> payload s v (ShNew y)
| pl_tuple rs t l ys : s = ShTuple rs -> v = VArray t l -> leading (map snd rs) l ys ->
    payload s v (ShTuple ys)
| pl_fields fs t d ys : s = ShStruct fs -> v = VDict t d -> by_name fs d ys -> payload s v (ShStruct ys)
| pl_elems fs t l ys : s = ShStruct fs -> v = VArray t l -> leading (map (fun f => snd (snd f)) fs) l ys ->
    payload s v (ShStruct (combine (map fst fs) ys)).

(** What the key [s] of a map gives at the key type [t]. *)
Definition reads_key (t : ty) (s : ustr) (y : dval) : Prop :=
  match t with
  | TString => y = EVStr s
  | TPath => y = EVPath s
  | TProfile => y = EVProfile (mkProfile s)
  | TIgnored => y = EVIgnored
  | TChar => exists c, s = [c] /\ y = EVChar c
  | TBoolish => exists b, switch (VString tag_default s) b /\ y = EVBool b
  | TEnum _ vs => variant vs s ShUnit /\ y = EVVariant s ShUnit
  | _ => False
  end.

(** [extracts i t v y]: from the value [v], at type [t], one gets [y]. *)
Fixpoint extracts (i : interp) (t : ty) (v : value) (y : dval) {struct t} : Prop :=
  match t with
  | TBool => exists b, stands_for_bool i v b /\ y = EVBool b
  | TInt k => exists j z, stands_for_num i v (NInt j z) /\ narrow j /\ holds k z /\ y = EVInt k z
  | TF64 => exists n x, stands_for_num i v n /\ as_double n x /\ y = EVF64 x
  | TF32 => exists n x, stands_for_num i v n /\ as_single n x /\ y = EVF32 x
  | TString => exists s, text v s /\ y = EVStr s
  | TPath => exists s, text v s /\ y = EVPath s
  | TProfile => exists s, text v s /\ y = EVProfile (mkProfile s)
  | TChar => exists c, text v [c] /\ y = EVChar c
  | TUnit | TUnitStruct _ => (exists g, v = VEmpty g EUnit) /\ y = EVUnit
  | TIgnored => y = EVIgnored
  | TTag => exists g n z, v = VNum g n /\ unsigned64 n z /\ y = EVTag (Tag (Z.to_N z))
  | TBoolish => exists b, switch v b /\ y = EVBool b
  | TOption t =>
      ((exists g e, v = VEmpty g e) /\ y = EVNone) \/
      (~ (exists g e, v = VEmpty g e) /\ exists x, extracts i t v x /\ y = EVSome x)
  | TNewtype _ t => exists x, extracts i t v x /\ y = EVNewtype x
  | TSeq t => exists g l ys, v = VArray g l /\ Forall2 (extracts i t) l ys /\ y = EVSeq ys
  | TTuple ts | TTupleStruct _ ts =>
      exists g l ys, v = VArray g l /\ leading (map (extracts i) ts) l ys /\ y = EVTuple ys
  | TMap t =>
      exists g d ys, v = VDict g d /\
        Forall2 (fun kv ky => fst ky = fst kv /\ extracts i t (snd kv) (snd ky)) d ys /\ y = EVMap ys
  | TPairs k t =>
      exists g d ys, v = VDict g d /\
        Forall2 (fun kv ky => reads_key k (fst kv) (fst ky) /\ extracts i t (snd kv) (snd ky)) d ys /\
        y = EVPairs ys
  | TStruct _ _ deny fs =>
      let fields := map (fun f => (fst f, (optional (snd f), extracts i (snd f)))) fs in
      (exists g d ys, v = VDict g d /\
         (deny = true -> forall k x, In (k, x) d -> In k (map fst fs)) /\
         by_name fields d ys /\ y = EVStruct ys) \/
      (exists g l ys, v = VArray g l /\ leading (map (fun f => snd (snd f)) fields) l ys /\
         y = EVStruct (combine (map fst fs) ys))
  | TEnum _ vs =>
      let shapes :=
        map (fun nv => (fst nv,
               match snd nv with
               | ShUnit => ShUnit
               | ShNew t => ShNew (optional t, extracts i t)
               | ShTuple ts => ShTuple (map (fun t => (optional t, extracts i t)) ts)
               | ShStruct fs => ShStruct (map (fun f => (fst f, (optional (snd f), extracts i (snd f)))) fs)
               end)) vs in
      (* a unit variant by name or, for unsigned integers of at most 32 bits, by position *)
      (exists g s, v = VString g s /\ variant shapes s ShUnit /\ y = EVVariant s ShUnit) \/
      (exists g n z s, v = VNum g n /\ unsigned32 n z /\
         nth_error shapes (Z.to_nat z) = Some (s, ShUnit) /\ y = EVVariant s ShUnit) \/
      (* any variant by name, with its payload: only the first entry counts *)
      (exists g k x r s p, v = VDict g ((k, x) :: r) /\ variant shapes k s /\ payload s x p /\
         y = EVVariant k p)
  | TValue | TEither _ _ => False
  end.

(** The types of the statement: those of [ordinary] with distinct field and variant names. *)
Fixpoint named_apart (t : ty) : Prop :=
  match t with
  | TOption t | TSeq t | TMap t | TNewtype _ t => named_apart t
  | TPairs a b | TEither a b => named_apart a /\ named_apart b
  | TTuple ts | TTupleStruct _ ts => all (map named_apart ts)
  | TStruct _ _ _ fs => NoDup (map fst fs) /\ all (map (fun f => named_apart (snd f)) fs)
  | TEnum _ vs =>
      NoDup (map fst vs) /\
      all (map (fun nv => match snd nv with
                          | ShUnit => True
                          | ShNew t => named_apart t
                          | ShTuple ts => all (map named_apart ts)
                          | ShStruct fs => NoDup (map fst fs) /\
                                           all (map (fun f => named_apart (snd f)) fs)
                          end) vs)
  | _ => True
  end.
