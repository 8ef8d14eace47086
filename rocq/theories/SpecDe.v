(** Specification vocabulary for typed extraction. *)
From Coq Require Import Ascii String ZArith NArith Bool.
From Coq Require Import Floats.SpecFloat.
From Coq Require Import List.
From Verif Require Import Res BMap Str Profile Tag Num Value NumParse Metadata Err Coalesce Figment De.
From Verif Require Import SpecValue SpecParse SpecShow SpecLossy.
Import ListNotations.

(** ** Where a value is *)

(** [c] is directly inside [v], under the key [k] of a dictionary or at the decimal index
    [k] of an array. *)
Inductive child : ustr -> value -> value -> Prop :=
| child_dict t d k x : In (k, x) d -> child k (VDict t d) x
| child_array t l i x : nth_error l i = Some x -> child (decimal (N.of_nat i)) (VArray t l) x.

(** Following [path] from [v] leads through the values [vs], from [v] itself to the last. *)
Inductive trail : list ustr -> value -> list value -> Prop :=
| trail_here v : trail [] v [v]
| trail_down k ks v c vs : child k v c -> trail ks c vs -> trail (k :: ks) v (v :: vs).

(** The key [k] names the step [s]. *)
Inductive step_of : ustr -> step -> Prop :=
| so_key k : step_of k (SKey k)
| so_elem k : step_of k SElem.

(** [t] is the tag of the innermost of [vs] that has one. *)
Definition nearest (vs : list value) (t : tag) : Prop :=
  (exists a x b, vs = a ++ x :: b /\ vtag x = t /\ t <> tag_default /\
                 Forall (fun y => vtag y = tag_default) b)
  \/ (t = tag_default /\ Forall (fun y => vtag y = tag_default) vs).

Definition ends_with (path : list ustr) (k : ustr) : Prop := exists q, path = q ++ [k].

(** ** What an error says about a value *)

(** [a] describes [x]: it is what [x] is; or the only character of a text; or a number too
    wide for serde's description; or "a unit variant", which strings and small numbers stand
    for; or, in lossy extraction, the number a string was read as. *)
Inductive shown_num : num -> actual -> Prop :=
| sn_self n : shown_num n (num_to_actual n)
| sn_u128 z : shown_num (NInt U128 z) (AOther (lit "integer `" ++ show_int z ++ lit "` as u128"))
| sn_i128 z : shown_num (NInt I128 z) (AOther (lit "integer `" ++ show_int z ++ lit "` as i128")).
Inductive shown_as : interp -> value -> actual -> Prop :=
| sa_self i x : shown_as i x (to_actual x)
| sa_char i t c : shown_as i (VChar t c) (AStr [c])
| sa_num i t n a : shown_num n a -> shown_as i (VNum t n) a
| sa_name i t s : shown_as i (VString t s) AUnitVariant
| sa_index i t n : shown_as i (VNum t n) AUnitVariant
| sa_lossy t s n a : lossy_num (trim s) n -> shown_num n a -> shown_as Lossy (VString t s) a.

(** A complaint about the key [s] of an entry. *)
Inductive about_key (s : ustr) : kind -> Prop :=
| ak_type exp : about_key s (KInvalidType (AStr s) exp)
| ak_value exp : about_key s (KInvalidValue (AStr s) exp)
| ak_variant exp : about_key s (KInvalidType AUnitVariant exp)
| ak_unknown_variant exp : ~ In s exp -> about_key s (KUnknownVariant s exp)
| ak_unknown_field exp : ~ In s exp -> about_key s (KUnknownField s exp).

(** The complaint [k] is true of the value [x] found at the end of [path]. *)
Inductive accounts (i : interp) : list ustr -> value -> kind -> Prop :=
| ac_type p x a exp : shown_as i x a -> accounts i p x (KInvalidType a exp)
| ac_value p x a exp : shown_as i x a -> accounts i p x (KInvalidValue a exp)
| ac_length p t l exp : accounts i p (VArray t l) (KInvalidLength (N.of_nat (length l)) exp)
| ac_missing p t d n : ~ In n (map fst d) -> accounts i p (VDict t d) (KMissingField n)
| ac_variant p t s exp : ~ In s exp -> accounts i p (VString t s) (KUnknownVariant s exp)
| ac_key p x s k : ends_with p s -> about_key s k -> accounts i p x k.

(** The error [e] of extracting from [v] points at a value of [v], blames the provider and
    profile of that value (or of the closest enclosing one with a tag) and complains about
    that very value. *)
Record pinpoints (i : interp) (f : figment) (v : value) (e : error) : Prop := {
  pp_trail : exists vs x, trail (e_path e) v vs /\ last vs v = x /\
                          nearest vs (e_tag e) /\ accounts i (e_path e) x (e_kind e);
  pp_metadata : e_metadata e = get (e_tag e) (f_metadata f);
  pp_profile : e_profile e = Some (match tag_profile (e_tag e) with
                                   | Some p => p
                                   | None => f_profile f
                                   end);
  pp_prev : e_prev e = None
}.

(** The target types of the statement: everything but 128-bit integers, [Value], [Either] and
    the magic structs. *)
Definition all (ps : list Prop) : Prop := fold_right and True ps.
Fixpoint ordinary (t : ty) : Prop :=
  match t with
  | TInt k => k <> U128 /\ k <> I128
  | TOption t | TSeq t | TMap t | TNewtype _ t => ordinary t
  | TPairs k t => ordinary k /\ ordinary t
  | TTuple ts | TTupleStruct _ ts => all (map ordinary ts)
  | TStruct name _ _ fs =>
      ~ In name [value_name; rel_name; tagged_name] /\ all (map (fun f => ordinary (snd f)) fs)
  | TEnum _ vs =>
      all (map (fun nv => match snd nv with
                          | ShUnit => True
                          | ShNew t => ordinary t
                          | ShTuple ts => all (map ordinary ts)
                          | ShStruct fs => all (map (fun f => ordinary (snd f)) fs)
                          end) vs)
  | TValue | TEither _ _ => False
  | _ => True
  end.

(** ** Integers *)

(** Integer types of 8 to 64 bits. *)
Definition narrow (k : ikind) : Prop := match k with U128 | I128 => False | _ => True end.

(** [v] is the integer [z] stored as a [j], or, in lossy extraction, a text for it. *)
Inductive reads_int : interp -> value -> ikind -> Z -> Prop :=
| ri_num i t j z : reads_int i (VNum t (NInt j z)) j z
| ri_text t s j z : lossy_num (trim s) (NInt j z) -> reads_int Lossy (VString t s) j z.
