(** Tags: /repo/src/value/tag.rs. *)
From Coq Require Import NArith List.
From Verif Require Import Res BMap Str Profile.
Import ListNotations.
Local Open Scope N_scope.

(** [struct Tag(u64)], tag.rs:16-17. *)
Inductive tag := Tag (raw : N).
Definition tag_raw (t : tag) : N := let 'Tag r := t in r.

(** Unsigned 64-bit complement ([!x] on [u64]). *)
Definition u64_max : N := 0xFFFFFFFFFFFFFFFF.
Definition u64_not (x : N) : N := N.lxor x u64_max.

(** [Tag::Default] and the masks, tag.rs:30-36. *)
Definition tag_default : tag := Tag 0.
Definition profile_tag_shift : N := 62.
Definition profile_tag_mask : N := N.shiftl 3 profile_tag_shift.
Definition metadata_id_shift : N := 0.
Definition metadata_id_mask : N := N.shiftl (u64_not profile_tag_mask) metadata_id_shift.

(** [Tag::new], tag.rs:38-43. *)
Definition tag_new (metadata_id : N) (pt : profile_tag) : tag :=
  Tag (N.lor (N.land (N.shiftl metadata_id metadata_id_shift) metadata_id_mask)
             (N.land (N.shiftl (profile_tag_bits pt) profile_tag_shift) profile_tag_mask)).

(** [Tag::metadata_id], tag.rs:55-57. *)
Definition metadata_id (t : tag) : N :=
  N.shiftr (N.land (tag_raw t) metadata_id_mask) metadata_id_shift.

(** [Tag::profile_tag], tag.rs:59-62. *)
Definition tag_profile_tag (t : tag) : profile_tag :=
  profile_tag_of_bits (N.shiftr (N.land (tag_raw t) profile_tag_mask) profile_tag_shift).

(** [Tag::for_profile], tag.rs:64-66. *)
Definition for_profile (t : tag) (p : profile) : tag :=
  tag_new (metadata_id t) (tag_of_profile p).

(** [Tag::is_default], tag.rs:77-79: compares all bits. *)
Definition is_default (t : tag) : bool := tag_raw t =? tag_raw tag_default.

(** [Tag::profile], tag.rs:92-94. *)
Definition tag_profile (t : tag) : option profile := profile_of_tag (tag_profile_tag t).

(** [PartialEq for Tag], tag.rs:103-107, and [Ord for Tag], tag.rs:111-121: by identifier. *)
Definition tag_eqb (a b : tag) : bool := metadata_id a =? metadata_id b.
#[export] Instance Cmp_tag : Cmp tag := fun a b => metadata_id a ?= metadata_id b.

(** The global [COUNTER] starts at 1, tag.rs:19-23. *)
Definition counter_init : N := 1.

(** [Tag::next], tag.rs:46-53: the atomic [fetch_add] returns the old value and stores
    the incremented one modulo 2^64; the check happens afterwards. *)
Definition tag_next (counter : N) : out tag * N :=
  let id := counter in
  let counter' := (counter + 1) mod 0x10000000000000000 in
  (if metadata_id_mask <? id then Panic else Ret (tag_new id PTDefault), counter').

(** Keep tactics from unfolding the bit arithmetic. *)
Global Arguments tag_new : simpl never.
Global Arguments metadata_id : simpl never.
Global Arguments tag_profile_tag : simpl never.
Global Arguments for_profile : simpl never.
Global Arguments tag_profile : simpl never.
Global Arguments tag_next : simpl never.
