(** Specification vocabulary for extracting a struct field by field. *)
From Coq Require Import List.
From Verif Require Import Res BMap Str Value Err Coalesce Figment De.
From Verif Require Import SpecExtract.
Import ListNotations.

(** [on_its_own i f ks t y]: what is at [ks], extracted on its own at the type [t], is [y]; or there
    is nothing there, and nothing need be. *)
Definition on_its_own (i : interp) (f : figment) (ks : list ustr) (t : ty) (y : dval) : Prop :=
  (fig_contains f (join [dot] ks) = true /\ extract_inner i f t (join [dot] ks) = Ok y) \/
  (fig_contains f (join [dot] ks) = false /\ optional t /\ y = EVNone).

(** The same fails, with this path inside and this complaint. *)
Definition fails_on_its_own (i : interp) (f : figment) (ks : list ustr) (t : ty) (q : list ustr) (k : kind) : Prop :=
  exists e, fig_contains f (join [dot] ks) = true /\ extract_inner i f t (join [dot] ks) = Err e /\
    e_path e = q ++ ks /\ e_kind e = k.
