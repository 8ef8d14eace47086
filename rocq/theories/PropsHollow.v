(** C38: what comes back from a round trip, in every case. *)
From Coq Require Import Ascii String ZArith NArith Bool.
From Coq Require Import List.
From Verif Require Import Res BMap Str Profile Tag Num Value Metadata Err Coalesce Figment De Ser.
From Verif Require Import SpecDe SpecRt SpecHollow RtProofs DeProofs HollowProofs.
Import ListNotations.

(** ** C38 *)

(** Options of any type allowed: what comes back is the value with every [Some] of nothing, that
    is, of a unit or a [None] however wrapped, replaced by [None]. *)
Theorem C38_exact : forall t d, storable t -> inhabits t d ->
  exists v, serialize d = Ok v /\
    forall v', untag v' = untag v ->
      (forall i f, deserialize t (DConf i f v') = Ok (forgetful d)) /\ value_deserialize t v' = Ok (forgetful d).
Proof.
  intros t d Ht Hd. destruct (come_back t Ht d Hd) as (v & [Hs Hr] & _). exists v. split; [exact Hs|].
  intros v' U. split; [intros i f; exact (Hr (MConf i f) v' U)|exact (Hr MPlain v' U)].
Qed.
Print Assumptions C38_exact.

(** So exactly the values without a [Some] of nothing are restored. *)
Theorem C38_iff : forall t d v i f, storable t -> inhabits t d -> serialize d = Ok v ->
  (deserialize t (DConf i f v) = Ok d <-> forgetful d = d).
Proof.
  intros t d v i f Ht Hd Hv. destruct (C38_exact t d Ht Hd) as (v0 & E & H). rewrite Hv in E. injection E as <-.
  destruct (H v eq_refl) as [D _]. rewrite D. split; [intros X; now injection X|congruence].
Qed.
Print Assumptions C38_iff.

(** What has come back once comes back unchanged ever after. *)
Theorem C38_settles : forall t d v d' i f, storable t -> inhabits t d -> serialize d = Ok v ->
  deserialize t (DConf i f v) = Ok d' ->
  exists v', serialize d' = Ok v' /\ forall i f, deserialize t (DConf i f v') = Ok d'.
Proof.
  intros t d v d' i f Ht Hd Hv Hd'. destruct (C38_exact t d Ht Hd) as (v0 & E & H). rewrite Hv in E. injection E as <-.
  destruct (H v eq_refl) as [D _]. rewrite D in Hd'. injection Hd' as <-.
  destruct (C38_exact t (forgetful d) Ht (inhabits_forgetful t d Hd)) as (v' & E' & H').
  exists v'. split; [exact E'|]. intros j g. destruct (H' v' eq_refl) as [D' _]. rewrite D'. now rewrite forgetful_idem.
Qed.
Print Assumptions C38_settles.

Definition ex_hollow_ty : ty := TStruct (lit "C") (lit "C") false
  [(lit "a", TOption (TOption TBool)); (lit "b", TSeq (TOption TUnit)); (lit "c", TOption (TNewtype (lit "N") (TOption (TInt U8))))].
Definition ex_hollow : dval := EVStruct
  [(lit "a", EVSome EVNone); (lit "b", EVSeq [EVSome EVUnit; EVNone]); (lit "c", EVSome (EVNewtype (EVSome (EVInt U8 3))))].
Example C38_exact_ex : storable ex_hollow_ty /\ inhabits ex_hollow_ty ex_hollow /\
  forgetful ex_hollow = EVStruct
    [(lit "a", EVNone); (lit "b", EVSeq [EVNone; EVNone]); (lit "c", EVSome (EVNewtype (EVSome (EVInt U8 3))))].
Proof.
  split; [|split; [|reflexivity]].
  - cbn. repeat split; try (repeat constructor; cbn; intuition discriminate).
  - repeat constructor; cbn; discriminate.
Qed.
