(** Types whose values can be saved as a configuration and read back. *)
From Coq Require Import List.
From Verif Require Import Res BMap Str Num Value De SpecDe SpecHollow.
Import ListNotations.

(** Nothing in [t] is skipped over ([serde::de::IgnoredAny]). *)
Fixpoint notices (t : ty) : Prop :=
  match t with
  | TIgnored => False
  | TOption t | TSeq t | TMap t | TNewtype _ t => notices t
  | TPairs k t => notices k /\ notices t
  | TTuple ts | TTupleStruct _ ts => all (map notices ts)
  | TStruct _ _ _ fs => all (map (fun f => notices (snd f)) fs)
  | TEnum _ vs =>
      all (map (fun nv => match snd nv with
                          | ShUnit => True
                          | ShNew t => notices t
                          | ShTuple ts => all (map notices ts)
                          | ShStruct fs => all (map (fun f => notices (snd f)) fs)
                          end) vs)
  | TEither a b => notices a /\ notices b
  | _ => True
  end.
Definition savable (t : ty) : Prop := storable t /\ notices t.
