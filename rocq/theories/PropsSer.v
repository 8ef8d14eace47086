(** C83: what Rust values are written as. *)
From Coq Require Import Ascii String ZArith NArith Bool.
From Coq Require Import List.
From Verif Require Import Res BMap Str Profile Tag Num Value Metadata Err Figment Fmt De Ser SpecRt SpecSer SerExactProofs.
Import ListNotations.

(** ** C83 *)

(** [Value::serialize] gives exactly what the specification says a Rust value is written as. *)
Theorem C83_written : forall d v, serialize d = Ok v <-> written d v.
Proof. intros d. apply serialize_exact. Qed.
Print Assumptions C83_written.

(** It fails for one reason only: a key that is not written as a string; the message shows the first
    such key, and the error has no path and no metadata. *)
Theorem C83_error : forall d e, serialize d = Err e <->
  exists a, bad_key d a /\ e_kind e = KUnsupportedKey a (lit "string") /\
    e_path e = [] /\ e_metadata e = None /\ e_profile e = None /\ e_prev e = None /\ e_tag e = tag_default.
Proof.
  intros d e. rewrite (proj2 (serialize_exact d) e). split.
  - intros (a & H & ->). exists a. repeat split. exact H.
  - intros (a & H & E1 & E2 & E3 & E4 & E5 & E6). exists a. split; [exact H|].
    destruct e. cbn in *. now subst.
Qed.
Print Assumptions C83_error.

(** So a Rust value is written, or has such a key, and never both. *)
Theorem C83_either : forall d,
  ((exists v, written d v) /\ forall a, ~ bad_key d a) \/ ((exists a, bad_key d a) /\ forall v, ~ written d v).
Proof.
  intros d. destruct (serialize_exact d) as [A B]. destruct (serialize d) as [v|e] eqn:E.
  - left. split; [exists v; now apply A|]. intros a H.
    pose proof (proj2 (B (key_trouble a)) ltac:(eauto)). discriminate.
  - right. split; [destruct (proj1 (B e) eq_refl) as (a & H & _); eauto|]. intros v H. apply A in H. discriminate.
Qed.
Print Assumptions C83_either.

(** Keys that are characters can be read but not written. *)
Theorem C83_char : exists d,
  inhabits (TPairs TChar TBool) d /\ (exists v, value_deserialize (TPairs TChar TBool) v = Ok d) /\
  forall v, ~ written d v.
Proof.
  exists (EVPairs [(EVChar (ch "k"), EVBool true)]). split; [repeat constructor|]. split.
  - exists (VDict tag_default [(lit "k", VBool tag_default true)]). reflexivity.
  - intros v H. apply C83_written in H. discriminate H.
Qed.
Print Assumptions C83_char.

Example C83_ex : exists v,
  serialize (EVStruct [(lit "b", EVInt USize 7); (lit "a", EVVariant (lit "X") (ShNew (EVSome (EVChar (ch "c")))))]) = Ok v /\
  v = VDict tag_default
        [(lit "a", VDict tag_default [(lit "X", VChar tag_default (ch "c"))]);
         (lit "b", VNum tag_default (NInt U64 7))].
Proof. eexists. split; reflexivity. Qed.
Example C83_ex_error :
  bad_key (EVStruct [(lit "a", EVBool true); (lit "m", EVPairs [(EVStr (lit "k"), EVUnit); (EVInt I8 (-3), EVUnit)])]) (ASigned (-3)).
Proof.
  apply bk_struct. cbn. eapply bi_later; [constructor|]. apply bi_here, bk_pairs.
  eapply bp_later; [constructor|constructor|]. eapply bp_key; [constructor|]. now constructor.
Qed.
