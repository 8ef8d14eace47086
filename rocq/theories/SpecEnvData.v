(** What the environment's variables contribute. *)
From Coq Require Import Ascii String ZArith NArith Bool.
From Coq Require Import List.
From Verif Require Import Res BMap Str Profile Tag Num Value Parse Env SpecValue SpecLookup SpecEnv.
Import ListNotations.

(** [assigned var ks y]: the variable (key and text) says that [y] is at [ks]. *)
Definition assigned (var : ustr * ustr) (ks : list ustr) (y : value) : Prop :=
  ks <> [] /\ Forall plain_key ks /\ fst var = join [dot] ks /\ value_from_str (snd var) = Ret y.

(** [sets var p x]: it puts the scalar or array [x] at [p]. *)
Definition sets (var : ustr * ustr) (p : list ustr) (x : value) : Prop :=
  exists ks y r, assigned var ks y /\ p = ks ++ r /\ leaf_at r y x.

(** [spares var p]: it says nothing that would replace a scalar or array at [p]: its key does
    not begin with [p], and if [p] begins with its key, then its value has only dictionaries on
    the way to [p], and nothing there. *)
Definition spares (var : ustr * ustr) (p : list ustr) : Prop :=
  forall ks y, assigned var ks y ->
    ~ prefix_of p ks /\ forall r, p = ks ++ r -> open_at r y.
