(** What is left of values, results and errors when one forgets where they come from. *)
From Coq Require Import Ascii String ZArith NArith Bool.
From Coq Require Import List.
From Verif Require Import Res BMap Str Profile Tag Num Value Metadata Err Coalesce Figment De.
From Verif Require Import SpecFigment SpecRt.
Import ListNotations.

(** An extracted value without the sources it may carry: the tags of a [Value], the tag of a
    [Tagged] and the file of a [RelativePathBuf]. *)
Definition blur (field : ustr) (y : dval) : dval :=
  if ueqb field tagged_tag then match y with EVTag _ => EVUnit | _ => y end
  else if ueqb field rel_metadata_path
  then match y with EVNone | EVSome (EVPath _) => EVUnit | _ => y end
  else y.
Fixpoint forget (y : dval) : dval :=
  match y with
  | EVSome x => EVSome (forget x)
  | EVSeq l => EVSeq (map forget l)
  | EVTuple l => EVTuple (map forget l)
  | EVMap l => EVMap (map (fun kx => (fst kx, forget (snd kx))) l)
  | EVPairs l => EVPairs (map (fun kx => (forget (fst kx), forget (snd kx))) l)
  | EVStruct l =>
      EVStruct (map (fun kx => (fst kx, blur (fst kx) (forget (snd kx)))) l)
  | EVNewtype x => EVNewtype (forget x)
  | EVVariant n s =>
      EVVariant n (match s with
                   | ShUnit => ShUnit
                   | ShNew x => ShNew (forget x)
                   | ShTuple l => ShTuple (map forget l)
                   | ShStruct l => ShStruct (map (fun kx => (fst kx, forget (snd kx))) l)
                   end)
  | EVValue v => EVValue (untag v)
  | EVLeft x => EVLeft (forget x)
  | EVRight x => EVRight (forget x)
  | _ => y
  end.

(** What an error says, without whom it blames: the path and the kind of every error of its
    chain. *)
Definition report (e : error) : list (list ustr * kind) :=
  map (fun x => (e_path x, e_kind x)) (errors_of e).

(** What a caller sees of a result. *)
Definition seen {A B} (h : A -> B) (r : res error A) : res (list (list ustr * kind)) B :=
  match r with Ok x => Ok (h x) | Err e => Err (report e) end.

(** Types whose structs do not usurp the names with which the crate marks its own: [Value],
    [RelativePathBuf] and [Tagged]. *)
Inductive unreserved : ty -> Prop :=
| ur_basic t :
    In t [TBool; TF32; TF64; TChar; TString; TUnit; TValue; TTag; TProfile; TPath; TIgnored; TBoolish] ->
    unreserved t
| ur_int k : unreserved (TInt k)
| ur_unit_struct i : unreserved (TUnitStruct i)
| ur_option t : unreserved t -> unreserved (TOption t)
| ur_seq t : unreserved t -> unreserved (TSeq t)
| ur_map t : unreserved t -> unreserved (TMap t)
| ur_pairs k t : unreserved k -> unreserved t -> unreserved (TPairs k t)
| ur_newtype i t : unreserved t -> unreserved (TNewtype i t)
| ur_tuple ts : Forall unreserved ts -> unreserved (TTuple ts)
| ur_tuple_struct i ts : Forall unreserved ts -> unreserved (TTupleStruct i ts)
| ur_struct n i d fs : ~ In n [value_name; rel_name; tagged_name] ->
    (forall k t, In (k, t) fs -> unreserved t) -> unreserved (TStruct n i d fs)
| ur_enum i vs :
    (forall n t, In (n, ShNew t) vs -> unreserved t) ->
    (forall n ts t, In (n, ShTuple ts) vs -> In t ts -> unreserved t) ->
    (forall n fs k t, In (n, ShStruct fs) vs -> In (k, t) fs -> unreserved t) ->
    unreserved (TEnum i vs)
| ur_relative : unreserved TRelative
| ur_tagged t : unreserved t -> unreserved (TTagged t)
| ur_either a b : unreserved a -> unreserved b -> unreserved (TEither a b).

(** The same data for the same profiles, whatever the tags; or errors that say the same. *)
Definition dict_data (d : dict) : list (ustr * value) := map (fun kx => (fst kx, untag (snd kx))) d.
Definition data_data (m : bmap profile dict) : list (profile * list (ustr * value)) :=
  map (fun pd => (fst pd, dict_data (snd pd))) m.
Definition same_data (a b : res error (bmap profile dict)) : Prop := seen data_data a = seen data_data b.

(** Two Figments with the same profile and the same data: their metadata may differ. *)
Definition same_config (f g : figment) : Prop :=
  f_profile f = f_profile g /\ same_data (f_value f) (f_value g).

(** The same operations, with providers that have the same data and set the same profile; the
    places they are called from and the metadata may differ. *)
Inductive same_op : op -> op -> Prop :=
| so_select p : same_op (OpSelect p) (OpSelect p)
| so_provide loc loc' o p p' :
    same_data (pv_data p) (pv_data p') -> pv_profile p = pv_profile p' ->
    same_op (OpProvide loc o p) (OpProvide loc' o p').
