(** Properties C39 and C40: extraction as [Value], reserved keys included. *)
From Coq Require Import Ascii String ZArith NArith Bool.
From Coq Require Import List.
From Verif Require Import Res BMap BMapProofs Str StrProofs Profile Tag Num Value Metadata Err Figment De
  SpecValue SpecLossy SpecMagic SpecDoc SpecTaken ValueProofs TakenProofs.
Import ListNotations.

(** ** C39 *)

(** What extraction as [Value] gives, whatever the keys. *)
Theorem C39_exact : forall i f v w, wf v ->
  deserialize TValue (DConf i f v) = Ok (EVValue w) <-> exists u, taken true v u /\ w = sourced (vtag v) u.
Proof. exact value_taken. Qed.
Print Assumptions C39_exact.

(** The same of what the code calls, visit by visit: [deserialize_struct] with the reserved name and
    [ValueVisitor], over the map of two keys made for it (the tag's number and the value). *)
Theorem C39_visits : forall i f v w, wf v ->
  de_struct value_name (DConf i f v) value_visitor = Ok w <-> exists u, taken true v u /\ w = sourced (vtag v) u.
Proof.
  intros i f v w W. rewrite <- DeProofs.value_de_struct. rewrite <- (C39_exact i f v w W).
  cbn [deserialize]. destruct (deserialize_value (DConf i f v)) as [x|e]; cbn [res_map res_bind]; split; intros E;
    try discriminate; injection E as <-; reflexivity.
Qed.
Print Assumptions C39_visits.

(** The same of [Value::deserialize], which knows no sources. *)
Theorem C39_plain_exact : forall v w, wf v ->
  value_deserialize TValue v = Ok (EVValue w) <-> taken false v w.
Proof. exact value_taken_plain. Qed.
Print Assumptions C39_plain_exact.

(** ** C40 *)

(** Extraction as [Value] fails exactly if somewhere in the value the reserved key of the
    source's number holds something else. *)
Theorem C40_fails : forall i f v, wf v ->
  (exists e, deserialize TValue (DConf i f v) = Err e) <->
  exists p t d x, reach p v (VDict t d) /\ In (value_id, x) d /\ forall t', ~ id_number x t'.
Proof.
  intros i f v W. split.
  - intros [e E].
    assert (D : (forall p t d x, reach p v (VDict t d) -> In (value_id, x) d -> exists t', id_number x t') \/
                exists p t d x, reach p v (VDict t d) /\ In (value_id, x) d /\ forall t', ~ id_number x t').
    { apply forged_or_not. exact W. }
    destruct D as [D|D]; [|exact D]. exfalso.
    destruct (taken_total true v W D) as [u U].
    assert (X := proj2 (value_taken i f v (sourced (vtag v) u) W) (ex_intro _ u (conj U eq_refl))). congruence.
  - intros (p & t & d & x & R & I & N). destruct (deserialize TValue (DConf i f v)) as [y|e] eqn:E; [|eauto].
    exfalso. assert (exists w, y = EVValue w) as [w ->].
    { cbn [deserialize] in E. apply DeProofs.res_map_ok in E. destruct E as (w & _ & ->). eauto. }
    apply value_taken in E; [|exact W]. destruct E as (u & U & _).
    destruct (taken_ids _ _ _ U W p t d x R I) as [t' T]. exact (N t' T).
Qed.
Print Assumptions C40_fails.

(** Every source in the result is that of some part of the value, or a number that the value
    has under the reserved key. *)
Theorem C40_tags : forall i f v w, wf v -> deserialize TValue (DConf i f v) = Ok (EVValue w) ->
  all_tags (fun t => t = tag_default \/ named_source v t) w.
Proof.
  intros i f v w W E. apply value_taken in E; [|exact W]. destruct E as (u & U & ->).
  apply all_tags_sourced; [|apply taken_sources; assumption].
  right. left. exists [], v. split; [constructor|reflexivity].
Qed.
Print Assumptions C40_tags.

(** A forged source and a dropped key beside an honest one. *)
Definition ex_reserved : value :=
  VDict (Tag 5)
    [(lit "a", VDict (Tag 6) [(value_id, VNum (Tag 6) (NInt U8 9)); (value_value, VBool (Tag 6) true)]);
     (lit "b", VDict (Tag 7) [(value_id, VNum (Tag 7) (NInt U64 3)); (lit "c", VChar (Tag 7) 99%N)])].
Example C40_ex_exact : wf ex_reserved /\
  deserialize TValue (DConf Exact fig_new ex_reserved) =
  Ok (EVValue (VDict (Tag 5)
    [(lit "a", VBool (Tag 9) true); (lit "b", VDict (Tag 7) [(lit "c", VChar (Tag 7) 99%N)])])).
Proof. split; [cbn; auto 20|vm_compute; reflexivity]. Qed.
Example C40_ex_fails : let v := VArray (Tag 1) [VDict (Tag 1) [(value_id, VBool (Tag 1) true)]] in
  wf v /\ exists e, deserialize TValue (DConf Exact fig_new v) = Err e.
Proof. split; [cbn; auto 20|eexists; vm_compute; reflexivity]. Qed.
