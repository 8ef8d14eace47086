(** Property C64: what extraction gives, at every type; and what that means for [Tagged],
    [RelativePathBuf] and [Either] (C41, C42, C55), reserved keys included. *)
From Coq Require Import Ascii String ZArith NArith Bool Lia.
From Coq Require Import Floats.SpecFloat.
From Coq Require Import List.
From Verif Require Import Res BMap BMapProofs Str StrProofs Profile Tag Num Value Metadata Err Coalesce Figment De.
From Verif Require Import SpecValue SpecFigment SpecLookup SpecLossy SpecDe SpecMagic SpecExtract SpecDoc SpecTaken SpecGives.
From Verif Require Import ValueProofs FigmentProofs FigmentProofs2 LookupProofs DeProofs BlameProofs ExtractProofs IntoProofs
  MeaningProofs TakenProofs GivesProofs PropsCoalesce PropsFigment.
Import ListNotations.

(** ** C64 *)

(** Extraction from a Figment's value, for every type, every value, strictly or leniently. *)
Theorem C64_configured : forall i f t v y, wf v -> named_apart t ->
  deserialize t (DConf i f v) = Ok y <-> gives (MConf i f) t v y.
Proof.
  intros i f t v y W N. exact (mn_value _ _ _ _ (proj1 (extraction_granted t N) (MConf i f)) v y W).
Qed.
Print Assumptions C64_configured.

(** [Value::deserialize]. *)
Theorem C64_value : forall t v y, wf v -> named_apart t ->
  value_deserialize t v = Ok y <-> gives MPlain t v y.
Proof.
  intros t v y W N. exact (mn_value _ _ _ _ (proj1 (extraction_granted t N) MPlain) v y W).
Qed.
Print Assumptions C64_value.

(** [extract] and [extract_lossy] of any Figment that can be built. *)
Theorem C64_extract : forall H i f t y, reachable H f -> named_apart t ->
  extract i f t = Ok y <-> exists v, merged f = Ok v /\ gives (MConf i f) t v y.
Proof.
  intros H i f t y R N. unfold extract. rewrite res_bind_ok. split; intros (v & M & G); exists v; (split; [exact M|]);
    assert (W := reachable_merged_wf _ _ _ R M); apply C64_configured; assumption.
Qed.
Print Assumptions C64_extract.

(** [extract_inner], [extract_inner_lossy] and their shorthands. *)
Theorem C64_inner : forall H i f t path ks y, reachable H f -> named_apart t -> spells path ks ->
  extract_inner i f t path = Ok y <->
  exists v x, merged f = Ok v /\ at_path ks v = Some x /\ gives (MConf i f) t x y.
Proof.
  intros H i f t path ks y R N S. unfold extract_inner. rewrite res_bind_ok. split.
  - intros (x & F & G). apply map_err_ok in G. apply (find_value_spec _ _ _ _ S) in F. destruct F as (v & M & P).
    assert (W := reachable_merged_wf _ _ _ R M). exists v, x. split; [exact M|]. split; [exact P|].
    apply C64_configured; auto. eapply at_path_wf; eassumption.
  - intros (v & x & M & P & G). assert (W := reachable_merged_wf _ _ _ R M). exists x. split.
    + apply (find_value_spec _ _ _ _ S). eauto.
    + apply map_err_ok. apply C64_configured; auto. eapply at_path_wf; eassumption.
Qed.
Print Assumptions C64_inner.

(** ** C41: [Tagged], also of values with the reserved keys *)
Theorem C41_exact : forall i f t v y, wf v -> named_apart t ->
  deserialize (TTagged t) (DConf i f v) = Ok y <->
  exists tg z, y = EVStruct [(tagged_tag, EVTag tg); (tagged_value, z)] /\
    ((~ says_source v /\ tg = vtag v /\
      exists x, entry_or_self tagged_value v x /\ gives (MConf i f) t x z) \/
     (exists g d n, v = VDict g d /\ In (tagged_tag, n) d /\ id_number n tg /\ tg <> tag_default /\
        ((exists x, In (tagged_value, x) d /\ gives (MConf i f) t x z) \/
         ((forall x, ~ In (tagged_value, x) d) /\ optional t /\ z = EVNone)))).
Proof. exact tagged_exact. Qed.
Print Assumptions C41_exact.

(** ** C42: [RelativePathBuf], also of values with the reserved keys *)
Theorem C42_exact : forall i f v y, wf v ->
  deserialize TRelative (DConf i f v) = Ok y <->
  exists m p, y = EVStruct [(rel_metadata_path, m); (rel_path, EVPath p)] /\
    ((~ says_file v /\ (exists x, entry_or_self rel_path v x /\ text x p) /\
      ((exists q, from_file f v q /\ m = EVSome (EVPath q)) \/
       ((forall q, ~ from_file f v q) /\ m = EVNone))) \/
     (exists g d x s q, v = VDict g d /\ In (rel_path, x) d /\ text x p /\
        In (rel_metadata_path, s) d /\ text s q /\ m = EVSome (EVPath q))).
Proof. exact relative_exact. Qed.
Print Assumptions C42_exact.

(** ** C55: [Either], in every mode and with any keys *)

(** The value, as it is presented to the first type, is copied, and both types read the copy
    strictly. *)
Theorem C55_exact : forall i f a b v y, wf v -> named_apart a -> named_apart b ->
  deserialize (TEither a b) (DConf i f v) = Ok y <->
  exists w u k, presents (MConf i f) (name_of a) v w /\ taken true w u /\ last_of_fields a k /\
    first_else k (gives MPlain a) (gives MPlain b) u y.
Proof. intros i f a b v y W A B. apply (C64_configured i f (TEither a b) v y W). split; assumption. Qed.
Print Assumptions C55_exact.

(** Lenient extraction of an [Either] is strict extraction. *)
Theorem C55_lossy_exact : forall f a b v y, wf v -> named_apart a -> named_apart b ->
  deserialize (TEither a b) (DConf Lossy f v) = Ok y <-> deserialize (TEither a b) (DConf Exact f v) = Ok y.
Proof.
  intros f a b v y W A B. rewrite !C55_exact by assumption.
  assert (P : forall i j w, presents (MConf i f) (name_of a) v w -> presents (MConf j f) (name_of a) v w).
  { intros i j w P. inversion P; subst; try (constructor; assumption); eapply pr_in_file || eapply pr_no_file; eassumption. }
  split; intros (w & u & k & H & R); exists w, u, k; (split; [eapply P; exact H|exact R]).
Qed.
Print Assumptions C55_lossy_exact.

(** *** Examples *)
Definition ex_g : value :=
  VDict (Tag 3) [(lit "a", VString (Tag 3) (lit "7"));
                 (lit "b", VDict (Tag 4) [(tagged_tag, VNum (Tag 4) (NInt U8 9)); (tagged_value, VBool (Tag 4) true)]);
                 (lit "c", VArray (Tag 3) [VNum (Tag 3) (NInt USize 300); VChar (Tag 5) 120%N])].
Definition ex_gt : ty :=
  TStruct (lit "S") (lit "S") true
    [(lit "a", TEither (TTagged (TInt U8)) TString); (lit "b", TTagged TBool); (lit "c", TSeq TValue);
     (lit "d", TOption (TInt U128))].
Example C64_ex : wf ex_g /\ named_apart ex_gt /\
  deserialize ex_gt (DConf Lossy fig_new ex_g) =
  Ok (EVStruct [(lit "a", EVRight (EVStr (lit "7")));
                (lit "b", EVStruct [(tagged_tag, EVTag (Tag 9)); (tagged_value, EVBool true)]);
                (lit "c", EVSeq [EVValue (VNum (Tag 3) (NInt U16 300)); EVValue (VChar (Tag 5) 120%N)]);
                (lit "d", EVNone)]).
Proof.
  split; [cbn; auto 20|]. split; [|vm_compute; reflexivity].
  cbn. split; [|split; [|split; [|auto]]]; try split; auto; repeat constructor; cbn; intros H;
    decompose [or] H; discriminate || contradiction.
Qed.
(** The same by the specification alone, for the first field. *)
Example C64_ex_spec : gives (MConf Lossy fig_new) (TEither (TTagged (TInt U8)) TString)
  (VString (Tag 3) (lit "7")) (EVRight (EVStr (lit "7"))).
Proof.
  cbn [gives]. exists (VDict tag_default [(tagged_tag, VNum tag_default (NInt U64 3)); (tagged_value, VString (Tag 3) (lit "7"))]).
  eexists. exists tagged_value. split; [|split; [|split]].
  - apply (pr_untagged Lossy fig_new (VString (Tag 3) (lit "7"))).
    + intros (t & d & x & t' & E & _). discriminate E.
    + apply es_self. intros t d x E. discriminate E.
  - apply (tk_dict true _ _ [(tagged_tag, VNum tag_default (NInt U64 3)); (tagged_value, VString (Tag 3) (lit "7"))]).
    + intros x [E|[E|[]]]; discriminate E.
    + intros x [E|[E|[]]]; discriminate E.
    + cbn. auto.
    + intros k x [[= <- <-]|[[= <- <-]|[]]] _; eexists; (split; [constructor; reflexivity|]); [left|right; left]; reflexivity.
    + intros k w [[= <- <-]|[[= <- <-]|[]]]; (split; [discriminate|]); eexists; [left|right; left]; reflexivity.
  - apply (lf_some _ _ _ [(tagged_tag, TTag)]).
  - right. split.
    + intros x G. cbn [gives map fst snd TTagged] in G. destruct G as (w & P & G). inversion P; subst.
      destruct G as [(g & d & ys & [= <- <-] & _ & B & _)|(g & l & ys & E & _)]; [|discriminate E].
      destruct ys as [|[n1 y1] [|[n2 y2] ys]]; cbn [by_name] in B; try (destruct B; fail); decompose [and] B; try contradiction.
      match goal with X : context [get tagged_value] |- _ => vm_compute in X; destruct X as (_ & j & z & Y & _); inversion Y end.
    + exists (VString (Tag 3) (lit "7")), (EVStr (lit "7")). split; [|split; [|reflexivity]].
      * apply es_entry. right. left. reflexivity.
      * exists (lit "7"). split; [constructor|reflexivity].
Qed.
Example C41_ex_exact :
  deserialize (TTagged (TOption TBool)) (DConf Exact fig_new (VDict (Tag 4) [(tagged_tag, VNum (Tag 4) (NInt U8 9))])) =
    Ok (EVStruct [(tagged_tag, EVTag (Tag 9)); (tagged_value, EVNone)]) /\
  deserialize (TTagged TBool) (DConf Exact fig_new (VDict (Tag 4) [(tagged_value, VBool (Tag 6) true)])) =
    Ok (EVStruct [(tagged_tag, EVTag (Tag 4)); (tagged_value, EVBool true)]).
Proof. split; vm_compute; reflexivity. Qed.
Example C42_ex_exact :
  deserialize TRelative (DConf Exact fig_new (VDict (Tag 4) [(rel_metadata_path, VString (Tag 4) (lit "/x/y")); (rel_path, VChar (Tag 6) 97%N)])) =
    Ok (EVStruct [(rel_metadata_path, EVSome (EVPath (lit "/x/y"))); (rel_path, EVPath (lit "a"))]).
Proof. vm_compute; reflexivity. Qed.
