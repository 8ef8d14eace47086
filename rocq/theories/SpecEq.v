(** When the things the crate hands out count as the same. *)
From Coq Require Import Ascii String ZArith NArith Bool.
From Coq Require Import Floats.SpecFloat.
From Coq Require Import List.
From Verif Require Import Res BMap Str Profile Tag Num Value Metadata Path Err.
From Verif Require Import SpecFigment SpecLookup.
Import ListNotations.

(** Two spellings of one path: both from the root or neither, both starting with [.] or neither,
    with the same steps; empty steps and steps [.] do not count. *)
Definition step_counts (s : ustr) : bool := negb (ueqb s []) && negb (ueqb s (lit ".")).
Definition steps_of (p : ustr) : list ustr := filter step_counts (split_on slash p).
Definition starts_at_root (p : ustr) : Prop := exists r, p = slash :: r.
Definition starts_here (p : ustr) : Prop := p = lit "." \/ exists r, p = lit "./" ++ r.
Definition same_path (p q : ustr) : Prop :=
  (starts_at_root p <-> starts_at_root q) /\ (starts_here p <-> starts_here q) /\ steps_of p = steps_of q.

Inductive same_source : source -> source -> Prop :=
| ss_file p q : same_path p q -> same_source (SFile p) (SFile q)
| ss_code l : same_source (SCode l) (SCode l)
| ss_custom s : same_source (SCustom s) (SCustom s).

Inductive same_option {A} (R : A -> A -> Prop) : option A -> option A -> Prop :=
| sp_none : same_option R None None
| sp_some x y : R x y -> same_option R (Some x) (Some y).

(** Metadata: the name and the source; not the place of the call, not the way of showing keys. *)
Definition same_metadata (a b : metadata) : Prop :=
  md_name a = md_name b /\ same_option same_source (md_source a) (md_source b).

(** What an error complains about: a float complained about is compared as a number. *)
Inductive same_actual : actual -> actual -> Prop :=
| sa_float x y : same_float x y -> same_actual (AFloat x) (AFloat y)
| sa_other a : (forall x, a <> AFloat x) -> same_actual a a.
Inductive same_kind : kind -> kind -> Prop :=
| sk_type a b s : same_actual a b -> same_kind (KInvalidType a s) (KInvalidType b s)
| sk_value a b s : same_actual a b -> same_kind (KInvalidValue a s) (KInvalidValue b s)
| sk_unsupported a b : same_actual a b -> same_kind (KUnsupported a) (KUnsupported b)
| sk_key a b s : same_actual a b -> same_kind (KUnsupportedKey a s) (KUnsupportedKey b s)
| sk_other k : (forall a s, k <> KInvalidType a s /\ k <> KInvalidValue a s /\ k <> KUnsupported a /\
                            k <> KUnsupportedKey a s) -> same_kind k k.

(** Errors: the identifier of the tag, the profile whatever its case, the metadata as above, the
    path, the kind; and so on along the chain. *)
Inductive same_error : error -> error -> Prop :=
| se t t' p p' m m' path k k' v v' :
    metadata_id t = metadata_id t' -> same_option same_profile p p' -> same_option same_metadata m m' ->
    same_kind k k' -> same_option same_error v v' ->
    same_error (MkError t p m path k v) (MkError t' p' m' path k' v').

(** No error of the chain complains about a float that is not a number. *)
Definition names_nan (k : kind) : Prop :=
  exists s, k = KInvalidType (AFloat S754_nan) s \/ k = KInvalidValue (AFloat S754_nan) s \/
            k = KUnsupported (AFloat S754_nan) \/ k = KUnsupportedKey (AFloat S754_nan) s.
Definition no_nan (e : error) : Prop := forall x, In x (errors_of e) -> ~ names_nan (e_kind x).

(** No number inside is not a number. *)
Inductive has_nan : value -> Prop :=
| hn_num t n : float_of n = Some S754_nan -> has_nan (VNum t n)
| hn_dict t d k x : In (k, x) d -> has_nan x -> has_nan (VDict t d)
| hn_array t l x : In x l -> has_nan x -> has_nan (VArray t l).

Definition symmetric {A} (R : A -> A -> bool) : Prop := forall a b, R a b = R b a.
Definition transitive {A} (R : A -> A -> bool) : Prop :=
  forall a b c, R a b = true -> R b c = true -> R a c = true.
Definition reflexive {A} (R : A -> A -> bool) : Prop := forall a, R a a = true.
