(** C65: where data comes from never changes what it is. *)
From Coq Require Import Ascii String ZArith NArith Bool.
From Coq Require Import List.
From Verif Require Import Res BMap Str Profile Tag Num Value Metadata Err Coalesce Figment De.
From Verif Require Import SpecFigment SpecRt SpecBlind BlindProofs.
From Verif Require BlameProofs.
Import ListNotations.

(** ** C65 *)

(** Values that differ in tags only are extracted alike at every type: both succeed, with results
    that differ in sources only, or both fail, with errors that say the same. *)
Theorem C65_value : forall t v w, unreserved t -> untag v = untag w ->
  seen forget (value_deserialize t v) = seen forget (value_deserialize t w).
Proof.
  intros t v w U H. apply agree_seen. apply deserialize_blind; [exact U|]. constructor. exact H.
Qed.
Print Assumptions C65_value.

(** Equal operations on Figments, performed at other places, at other times, between other Figments
    and with other metadata, lead to Figments with the same data. *)
Theorem C65_history : forall l l' c c' f g n n', Forall2 same_op l l' ->
  run l fig_new c = (Ret f, n) -> run l' fig_new c' = (Ret g, n') -> same_config f g.
Proof.
  intros l l' c c' f g n n' H. apply (run_same l l' H). split; reflexivity.
Qed.
Print Assumptions C65_history.

(** From Figments with the same data one extracts the same, strictly or leniently, as a whole or
    at a key. *)
Theorem C65_extract : forall i f g t, same_config f g -> unreserved t ->
  seen forget (extract i f t) = seen forget (extract i g t).
Proof. intros i f g t H U. apply agree_seen. now apply extract_same. Qed.
Print Assumptions C65_extract.

Theorem C65_inner : forall i f g t k, same_config f g -> unreserved t ->
  seen forget (extract_inner i f t k) = seen forget (extract_inner i g t k).
Proof. intros i f g t k H U. apply agree_seen. now apply extract_inner_same. Qed.
Print Assumptions C65_inner.

(** Every other question gets the same answer, and focusing, selecting and providing keep it that
    way. *)
Theorem C65_queries : forall f g k, same_config f g ->
  seen untag (find_value f k) = seen untag (find_value g k) /\
  fig_contains f k = fig_contains g k /\
  fig_profiles f = fig_profiles g /\
  same_config (focus f k) (focus g k) /\
  (forall p, same_config (fig_select f p) (fig_select g p)) /\
  (forall loc loc' p o c c' f' g' n n',
     provide loc f p o c = (Ret f', n) -> provide loc' g p o c' = (Ret g', n') -> same_config f' g').
Proof.
  intros f g k H. split; [apply agree_seen; now apply find_value_same|].
  split; [now apply contains_same|]. split; [now apply profiles_same|].
  split; [now apply focus_same|]. split.
  - intros p. split; [reflexivity|]. apply H.
  - intros. eapply provide_same; try eassumption; reflexivity.
Qed.
Print Assumptions C65_queries.

(** A Figment used as a provider contributes its data and profile only. *)
Theorem C65_figment : forall f g f2 g2 loc loc' o c c' f' g' n n',
  same_config f g -> same_config f2 g2 ->
  provide loc f (figment_provider f2) o c = (Ret f', n) ->
  provide loc' g (figment_provider g2) o c' = (Ret g', n') -> same_config f' g'.
Proof.
  intros f g f2 g2 loc loc' o c c' f' g' n n' H H2. apply provide_same; [exact H|apply H2|].
  cbn. f_equal. apply H2.
Qed.
Print Assumptions C65_figment.

(** End to end. *)
Theorem C65_end_to_end : forall l l' c c' f g n n' i t, Forall2 same_op l l' -> unreserved t ->
  run l fig_new c = (Ret f, n) -> run l' fig_new c' = (Ret g, n') ->
  seen forget (extract i f t) = seen forget (extract i g t) /\
  forall k, seen forget (extract_inner i f t k) = seen forget (extract_inner i g t k).
Proof.
  intros l l' c c' f g n n' i t H U E1 E2. pose proof (C65_history _ _ _ _ _ _ _ _ H E1 E2) as HC.
  split; [now apply C65_extract|]. intros k. now apply C65_inner.
Qed.
Print Assumptions C65_end_to_end.

(** *** A case: two runs of a program, the second after four other Figments, from another file *)
Definition bl_data : bmap profile dict :=
  [(p_default, [(lit "file", VString tag_default (lit "a.txt")); (lit "port", VNum tag_default (NInt U16 80))])].
Definition bl_first : list op :=
  [OpProvide (mkLoc (lit "a.rs") 1 1) Merge (mkProvider (md_from (lit "TOML file") (SFile (lit "/etc/a.toml"))) (Ok bl_data) None None);
   OpSelect p_default].
Definition bl_second : list op :=
  [OpProvide (mkLoc (lit "b.rs") 9 9) Merge (mkProvider (md_from (lit "TOML file") (SFile (lit "/opt/b.toml"))) (Ok bl_data) None None);
   OpSelect p_default].
Definition bl_fig (l : list op) (c : N) : figment :=
  match run l fig_new c with (Ret f, _) => f | _ => fig_new end.
Definition bl_ty : ty :=
  TStruct (lit "Config") (lit "Config") false
    [(lit "file", TRelative); (lit "port", TTagged (TInt U16)); (lit "other", TOption TValue)].

Example C65_ex :
  Forall2 same_op bl_first bl_second /\ unreserved bl_ty /\
  extract Exact (bl_fig bl_first 1) bl_ty <> extract Exact (bl_fig bl_second 5) bl_ty /\
  seen forget (extract Exact (bl_fig bl_first 1) bl_ty) =
    Ok (EVStruct [(lit "file", EVStruct [(rel_metadata_path, EVUnit); (rel_path, EVPath (lit "a.txt"))]);
                  (lit "port", EVStruct [(tagged_tag, EVUnit); (tagged_value, EVInt U16 80)]);
                  (lit "other", EVNone)]).
Proof.
  split; [repeat (constructor; try reflexivity)|]. split; [|split; [|vm_compute; reflexivity]].
  - apply ur_struct; [intros [E|[E|[E|[]]]]; discriminate|].
    intros k t [E|[E|[E|[]]]]; injection E as <- <-.
    + apply ur_relative.
    + apply ur_tagged. apply ur_int.
    + apply ur_option. apply ur_basic. cbn. tauto.
  - vm_compute. discriminate.
Qed.

(** Errors say the same, whomever they blame. *)
Example C65_ex_error :
  let t := TStruct (lit "Config") (lit "Config") false [(lit "port", TInt U8); (lit "file", TBool)] in
  seen forget (extract Exact (bl_fig bl_first 1) t) = seen forget (extract Exact (bl_fig bl_second 5) t) /\
  seen forget (extract Exact (bl_fig bl_first 1) t) =
    Err [([lit "file"], KInvalidType (AStr (lit "a.txt")) (lit "a boolean"))].
Proof. split; vm_compute; reflexivity. Qed.

(** A struct of one's own with the serde name of [Tagged] sees the tag as a number, and with it how
    many providers the process has used before. *)
Theorem C65_reserved_refuted : exists t, Forall2 same_op bl_first bl_second /\
  seen forget (extract_inner Exact (bl_fig bl_first 1) t (lit "port")) <>
  seen forget (extract_inner Exact (bl_fig bl_second 5) t (lit "port")).
Proof.
  exists (TStruct (lit "___figment_tagged_item") (lit "Mine") false [(lit "___figment_tagged_value", TInt U16); (lit "___figment_tagged_tag", TInt U64)]).
  split; [repeat (constructor; try reflexivity)|]. vm_compute. discriminate.
Qed.
Print Assumptions C65_reserved_refuted.

(** The serde name of a struct makes no difference unless it is one of three; each of these does make
    one: of an empty struct that denies unknown fields, it decides what a text is taken for. *)
Theorem C65_names :
  let reserved := [lit "___figment_value"; lit "___figment_relative_path_buf"; lit "___figment_tagged_item"] in
  (forall n n' ident deny fs d, ~ In n reserved -> ~ In n' reserved ->
     deserialize (TStruct n ident deny fs) d = deserialize (TStruct n' ident deny fs) d) /\
  forall n, In n reserved -> exists i f s k k', k <> k' /\
    (exists e, deserialize (TStruct n (lit "Mine") true []) (DConf i f (VString tag_default s)) = Err e /\ e_kind e = k) /\
    (exists e, deserialize (TStruct (lit "Mine") (lit "Mine") true []) (DConf i f (VString tag_default s)) = Err e /\ e_kind e = k').
Proof.
  intros reserved. split.
  - intros n n' ident deny fs d H H'. cbn [deserialize]. destruct d; try reflexivity. cbn [de_struct].
    rewrite !BlameProofs.magic_map_none by assumption. reflexivity.
  - intros n I. exists Exact, (bl_fig bl_first 1), (lit "x").
    cbn in I. destruct I as [<-|[<-|[<-|[]]]]; do 2 eexists;
      (split; [|split; eexists; (split; [vm_compute; reflexivity|vm_compute; reflexivity])]); vm_compute; discriminate.
Qed.
Print Assumptions C65_names.
