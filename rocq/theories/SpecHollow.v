(** What a round trip through a configuration forgets: that there was a [Some] around nothing. *)
From Coq Require Import ZArith NArith Bool.
From Coq Require Import List.
From Verif Require Import Res BMap Str Profile Tag Num Value De SpecDe SpecRt.
Import ListNotations.

(** Nothing, however wrapped. *)
Fixpoint hollow (d : dval) : bool :=
  match d with
  | EVUnit | EVNone | EVIgnored => true
  | EVSome d | EVNewtype d => hollow d
  | _ => false
  end.

(** [d] with every [Some] of nothing replaced by [None]. *)
Fixpoint forgetful (d : dval) : dval :=
  match d with
  | EVSome x => if hollow x then EVNone else EVSome (forgetful x)
  | EVSeq l => EVSeq (map forgetful l)
  | EVTuple l => EVTuple (map forgetful l)
  | EVMap l => EVMap (map (fun kv => (fst kv, forgetful (snd kv))) l)
  | EVStruct l => EVStruct (map (fun kv => (fst kv, forgetful (snd kv))) l)
  | EVNewtype x => EVNewtype (forgetful x)
  | EVVariant name s =>
      EVVariant name match s with
                     | ShUnit => ShUnit
                     | ShNew x => ShNew (forgetful x)
                     | ShTuple l => ShTuple (map forgetful l)
                     | ShStruct l => ShStruct (map (fun kv => (fst kv, forgetful (snd kv))) l)
                     end
  | d => d
  end.

(** [restorable] without the condition on options. *)
Fixpoint storable (t : ty) : Prop :=
  match t with
  | TInt k => narrow k
  | TOption t | TSeq t | TMap t | TNewtype _ t => storable t
  | TTuple ts | TTupleStruct _ ts => all (map storable ts)
  | TStruct name _ _ fs =>
      ~ In name [value_name; rel_name; tagged_name] /\ NoDup (map fst fs) /\
      all (map (fun f => storable (snd f)) fs)
  | TEnum _ vs =>
      NoDup (map fst vs) /\
      all (map (fun nv => match snd nv with
                          | ShUnit => True
                          | ShNew t => storable t
                          | ShTuple ts => all (map storable ts)
                          | ShStruct fs => NoDup (map fst fs) /\
                                           all (map (fun f => storable (snd f)) fs)
                          end) vs)
  | TValue | TEither _ _ | TPairs _ _ => False
  | _ => True
  end.
