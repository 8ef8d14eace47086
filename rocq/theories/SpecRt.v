(** Specification vocabulary for serialization round trips. *)
From Coq Require Import Ascii String ZArith NArith Bool.
From Coq Require Import Floats.SpecFloat.
From Coq Require Import List.
From Verif Require Import Res BMap Str Profile Tag Num Value Metadata Err Coalesce Figment De.
From Verif Require Import SpecLookup SpecParse SpecLossy SpecDe.
Import ListNotations.

(** The Rust value [d] has type [t]. *)
Inductive inhabits : ty -> dval -> Prop :=
| ih_bool b : inhabits TBool (EVBool b)
| ih_int k z : holds k z -> inhabits (TInt k) (EVInt k z)
| ih_f32 x : inhabits TF32 (EVF32 x)
| ih_f64 x : inhabits TF64 (EVF64 x)
| ih_char c : inhabits TChar (EVChar c)
| ih_string s : inhabits TString (EVStr s)
| ih_unit : inhabits TUnit EVUnit
| ih_none t : inhabits (TOption t) EVNone
| ih_some t d : inhabits t d -> inhabits (TOption t) (EVSome d)
| ih_seq t l : Forall (inhabits t) l -> inhabits (TSeq t) (EVSeq l)
| ih_tuple ts l : Forall2 inhabits ts l -> inhabits (TTuple ts) (EVTuple l)
| ih_map t (l : bmap ustr dval) :
    sorted l -> Forall (fun kv => inhabits t (snd kv)) l -> inhabits (TMap t) (EVMap l)
| ih_pairs k t l :
    Forall (fun kv => inhabits k (fst kv) /\ inhabits t (snd kv)) l -> inhabits (TPairs k t) (EVPairs l)
| ih_struct n i dn fs l :
    Forall2 (fun f y => fst f = fst y /\ inhabits (snd f) (snd y)) fs l ->
    inhabits (TStruct n i dn fs) (EVStruct l)
| ih_newtype i t d : inhabits t d -> inhabits (TNewtype i t) (EVNewtype d)
| ih_tuple_struct i ts l : Forall2 inhabits ts l -> inhabits (TTupleStruct i ts) (EVTuple l)
| ih_unit_struct i : inhabits (TUnitStruct i) EVUnit
| ih_unit_variant i vs name :
    In (name, ShUnit) vs -> inhabits (TEnum i vs) (EVVariant name ShUnit)
| ih_new_variant i vs name t d :
    In (name, ShNew t) vs -> inhabits t d -> inhabits (TEnum i vs) (EVVariant name (ShNew d))
| ih_tuple_variant i vs name ts l :
    In (name, ShTuple ts) vs -> Forall2 inhabits ts l ->
    inhabits (TEnum i vs) (EVVariant name (ShTuple l))
| ih_struct_variant i vs name fs l :
    In (name, ShStruct fs) vs ->
    Forall2 (fun f y => fst f = fst y /\ inhabits (snd f) (snd y)) fs l ->
    inhabits (TEnum i vs) (EVVariant name (ShStruct l))
| ih_value v : inhabits TValue (EVValue v)
| ih_tag t : inhabits TTag (EVTag t)
| ih_profile p : inhabits TProfile (EVProfile p)
| ih_path s : inhabits TPath (EVPath s)
| ih_ignored : inhabits TIgnored EVIgnored
| ih_boolish b : inhabits TBoolish (EVBool b)
| ih_left a b d : inhabits a d -> inhabits (TEither a b) (EVLeft d)
| ih_right a b d : inhabits b d -> inhabits (TEither a b) (EVRight d).

(** Some value of [t] is represented by an empty value. *)
Fixpoint vanishing (t : ty) : Prop :=
  match t with
  | TUnit | TUnitStruct _ | TOption _ | TIgnored => True
  | TNewtype _ t => vanishing t
  | _ => False
  end.

(** The types that survive a round trip: no 128-bit integers, no option of a type with empty
    values, distinct field and variant names; [Value], [Either], pairs and the magic structs
    are not covered. *)
Fixpoint restorable (t : ty) : Prop :=
  match t with
  | TInt k => narrow k
  | TOption t => restorable t /\ ~ vanishing t
  | TSeq t | TMap t | TNewtype _ t => restorable t
  | TTuple ts | TTupleStruct _ ts => all (map restorable ts)
  | TStruct name _ _ fs =>
      ~ In name [value_name; rel_name; tagged_name] /\ NoDup (map fst fs) /\
      all (map (fun f => restorable (snd f)) fs)
  | TEnum _ vs =>
      NoDup (map fst vs) /\
      all (map (fun nv => match snd nv with
                          | ShUnit => True
                          | ShNew t => restorable t
                          | ShTuple ts => all (map restorable ts)
                          | ShStruct fs => NoDup (map fst fs) /\
                                           all (map (fun f => restorable (snd f)) fs)
                          end) vs)
  | TValue | TEither _ _ | TPairs _ _ => False
  | _ => True
  end.

(** A value without its tags. *)
Fixpoint untag (v : value) : value :=
  match v with
  | VString _ s => VString tag_default s
  | VChar _ c => VChar tag_default c
  | VBool _ b => VBool tag_default b
  | VNum _ n => VNum tag_default n
  | VEmpty _ e => VEmpty tag_default e
  | VDict _ d => VDict tag_default (map (fun kv => (fst kv, untag (snd kv))) d)
  | VArray _ l => VArray tag_default (map untag l)
  end.

(** The keys a [Serialized] provider nests its value under. *)
Definition key_path (key : option ustr) (ks : list ustr) : Prop :=
  match key with Some k => spells k ks | None => ks = [] end.

(** [w] is [v] nested under the keys [ks]: each level holds exactly one key. *)
Inductive nested_under : list ustr -> value -> value -> Prop :=
| nu_here v : nested_under [] v v
| nu_down k ks v w : nested_under ks v w -> nested_under (k :: ks) v (VDict tag_default [(k, w)]).
