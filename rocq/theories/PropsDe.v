(** Properties C20-C24: typed extraction. *)
From Coq Require Import Ascii String ZArith NArith Bool Lia.
From Coq Require Import Floats.SpecFloat.
From Coq Require Import List.
From Verif Require Import Res BMap Str Profile Tag Num Value NumParse Metadata Err Coalesce Figment Fmt De Ser.
From Verif Require Import SpecValue SpecFigment SpecLookup SpecParse SpecShow SpecLossy SpecDe.
From Verif Require Import ValueProofs LossyProofs DeProofs BlameProofs LossyDeProofs ExtractProofs
  PropsCoalesce PropsFigment.
Import ListNotations.

(** ** C20 *)

(** Every error of a typed extraction names, by its path, a value of the configuration; is
    attributed to the provider and profile of that value (or of the closest enclosing tagged
    one); and complains about that very value or its key. *)
Theorem C20_pinpoints : forall i f v t e,
  merged f = Ok v -> wf v -> ordinary t -> extract i f t = Err e -> pinpoints i f v e.
Proof. exact extract_pinpoints. Qed.
Print Assumptions C20_pinpoints.

(** In every Figment that can be built: the error is attributed to the provider that supplied
    the offending value, at that very path and in that very profile. *)
Theorem C20_names_provider : forall H i f v t e,
  reachable H f -> merged f = Ok v -> ordinary t -> extract i f t = Err e -> e_path e <> [] ->
  exists sp x q,
    Forall2 step_of (e_path e) sp /\ reach sp v x /\ accounts i (e_path e) x (e_kind e) /\
    e_tag e = vtag x /\ traced H f q sp x /\
    e_metadata e = get_metadata f (vtag x) /\ e_profile e = Some q.
Proof. exact extract_names_provider. Qed.
Print Assumptions C20_names_provider.

(** 128-bit targets: an error without any attribution. *)
Theorem C20_wide_refuted : exists H f x e,
  reachable H f /\ find_value f (lit "b") = Ok x /\ (exists m, get_metadata f (vtag x) = Some m) /\
  extract_inner Exact f (TInt U128) (lit "b") = Err e /\ e_metadata e = None /\ e_profile e = None.
Proof.
  do 4 eexists. split; [exact ex_f2_reachable|]. split; [reflexivity|].
  split; [eexists; reflexivity|]. split; [reflexivity|]. split; reflexivity.
Qed.
Print Assumptions C20_wide_refuted.

Definition st (name : ustr) (fs : list (ustr * ty)) : ty := TStruct name name false fs.
Definition ex_ty : ty :=
  st (lit "Config")
     [(lit "a", st (lit "Inner") [(lit "y", TSeq (TInt U8)); (lit "x", TOption TString)])].
Definition ex_ty2 : ty :=
  st (lit "Config") [(lit "a", st (lit "Inner") [(lit "y", TTuple [TInt U8; TBool])])].
Example C20_ex :
  reachable [mkProvision ex_loc ex_p1; mkProvision ex_loc ex_p2] ex_f2 /\
  ordinary ex_ty /\ ordinary ex_ty2 /\
  (exists e, extract Exact ex_f2 ex_ty = Err e /\ e_path e = [lit "a"; lit "x"] /\
             e_kind e = KInvalidType (ASigned 7) (lit "a string") /\
             option_map md_name (e_metadata e) = Some (lit "B") /\ e_profile e = Some p_default) /\
  (exists e, extract Lossy ex_f2 ex_ty2 = Err e /\ e_path e = [lit "a"; lit "y"; lit "1"] /\
             e_kind e = KInvalidType (ASigned 3) (lit "a boolean")).
Proof.
  split; [exact ex_f2_reachable|].
  split; [|split]; [cbn; repeat split; try discriminate; intuition discriminate..|].
  split; (eexists; split; [reflexivity|]); repeat split.
Qed.

(** ** C21 *)

(** False: the path inside the value comes first, the requested path last. *)
Theorem C21_full_path_refuted : exists H f v x t e0 e,
  reachable H f /\ merged f = Ok v /\ at_path [lit "a"] v = Some x /\
  deserialize t (DConf Exact f x) = Err e0 /\
  extract_inner Exact f t (lit "a") = Err e /\
  e_path e <> [lit "a"] ++ e_path e0 /\ ~ exists vs, trail (e_path e) v vs.
Proof.
  do 2 eexists. do 2 eexists. exists (st (lit "Inner") [(lit "x", TString)]). do 2 eexists.
  split; [exact ex_f2_reachable|]. split; [reflexivity|]. split; [reflexivity|].
  split; [reflexivity|]. split; [reflexivity|]. split; [discriminate|].
  intros [vs H]. inversion H as [|k ks v c vs' Hc _]; subst.
  inversion Hc as [t d k' x' Hin|]; subst.
  repeat (destruct Hin as [Hin|Hin]; [discriminate Hin|]). destruct Hin.
Qed.
Print Assumptions C21_full_path_refuted.

(** What holds: the error is one that pinpoints a value inside the requested value, with the
    requested path appended to its path. *)
Theorem C21_inner_partial : forall i f t ks v x e,
  merged f = Ok v -> wf v -> ordinary t -> Forall plain_key ks -> at_path ks v = Some x ->
  extract_inner i f t (join [dot] ks) = Err e ->
  exists e0, pinpoints i f x e0 /\
    e = MkError (e_tag e0) (e_profile e0) (e_metadata e0) (e_path e0 ++ ks) (e_kind e0) (e_prev e0).
Proof. exact extract_inner_path. Qed.
Print Assumptions C21_inner_partial.

(** So the path is right when the requested value itself is at fault. *)
Theorem C21_here_partial : forall i f t ks v x e,
  merged f = Ok v -> wf v -> ordinary t -> Forall plain_key ks -> at_path ks v = Some x ->
  extract_inner i f t (join [dot] ks) = Err e -> length (e_path e) = length ks ->
  e_path e = ks /\ e_tag e = vtag x /\ e_metadata e = get_metadata f (vtag x) /\
  accounts i [] x (e_kind e).
Proof.
  intros i f t ks v x e Hm W O Hk Ha H Hl.
  destruct (extract_inner_path _ _ _ _ _ _ _ Hm W O Hk Ha H) as (e0 & [(vs & y & H1 & <- & H2 & H3) H4 _ _] & ->).
  cbn in *. rewrite app_length in Hl.
  assert (E : e_path e0 = []) by (destruct (e_path e0); [reflexivity|cbn in Hl; lia]).
  rewrite E in *. inversion H1; subst. cbn in H3.
  assert (Et : e_tag e0 = vtag x).
  { destruct H2 as [(a & z & b & Eq & <- & _ & _)|[-> Hall]].
    - destruct a as [|? [|? ?]]; [|discriminate Eq..]. injection Eq as -> _. reflexivity.
    - inversion Hall; congruence. }
  repeat split; auto. rewrite H4, Et. reflexivity.
Qed.
Print Assumptions C21_here_partial.

Example C21_ex : exists e,
  extract_inner Exact ex_f2 TBool (join [dot] [lit "a"; lit "x"]) = Err e /\
  e_path e = [lit "a"; lit "x"] /\ length (e_path e) = 2%nat.
Proof. eexists. split; [reflexivity|]. split; reflexivity. Qed.

(** ** C22 *)

(** Into an integer type of at most 64 bits: success exactly for integers (or, lossily,
    texts of integers) in the range of the type, stored in at most 64 bits; and then the
    result is that integer. *)
Theorem C22_integers : forall i f k v d, narrow k ->
  (deserialize (TInt k) (DConf i f v) = Ok d <->
   exists j z, reads_int i v j z /\ narrow j /\ holds k z /\ d = EVInt k z).
Proof. exact int_extracted. Qed.
Print Assumptions C22_integers.

(** Hence never a different integer. *)
Theorem C22_same_integer : forall i f k t j z d,
  deserialize (TInt k) (DConf i f (VNum t (NInt j z))) = Ok d -> d = EVInt k z /\ holds k z.
Proof.
  intros i f k t j z d H.
  assert (Hk : narrow k) by (destruct k; try exact I; discriminate H).
  apply int_extracted in H; [|exact Hk]. destruct H as (j' & z' & Hr & _ & Hh & ->).
  inversion Hr; subst. auto.
Qed.
Print Assumptions C22_same_integer.

(** Integers stored in 128 bits are rejected even when they are in range. *)
Theorem C22_wide_refuted : forall i f t k j z, j = U128 \/ j = I128 ->
  exists e, deserialize (TInt k) (DConf i f (VNum t (NInt j z))) = Err e.
Proof.
  intros i f t k j z Hj.
  destruct (deserialize (TInt k) (DConf i f (VNum t (NInt j z)))) as [d|e] eqn:E; [|eauto].
  assert (Hk : narrow k) by (destruct k; try exact I; discriminate E).
  apply int_extracted in E; [|exact Hk]. destruct E as (j' & z' & Hr & Hn & _).
  inversion Hr; subst. destruct Hj; subst; destruct Hn.
Qed.
Print Assumptions C22_wide_refuted.

Example C22_ex :
  deserialize (TInt U8) (DConf Exact ex_f2 (VNum (Tag 1) (NInt I64 200))) = Ok (EVInt U8 200) /\
  is_ok (deserialize (TInt U8) (DConf Exact ex_f2 (VNum (Tag 1) (NInt I64 256)))) = false /\
  is_ok (deserialize (TInt U8) (DConf Exact ex_f2 (VNum (Tag 1) (NInt U128 1)))) = false /\
  deserialize (TInt I16) (DConf Lossy ex_f2 (VString (Tag 1) (lit " -300 "))) = Ok (EVInt I16 (-300)).
Proof. repeat split. Qed.

(** ** C23 *)

(** No 128-bit integer can be extracted as a 128-bit integer. *)
Theorem C23_never_refuted : forall i f k z, k = U128 \/ k = I128 ->
  exists v e, serialize (EVInt k z) = Ok v /\ deserialize (TInt k) (DConf i f v) = Err e.
Proof. intros i f k z [->| ->]; do 2 eexists; split; reflexivity. Qed.
Print Assumptions C23_never_refuted.

(** Nothing at all can be: the target type is unusable in a Figment. *)
Theorem C23_unusable : forall i f k v, k = U128 \/ k = I128 ->
  exists e, deserialize (TInt k) (DConf i f v) = Err e.
Proof. intros i f k v [->| ->]; eexists; reflexivity. Qed.
Print Assumptions C23_unusable.

(** Extracted as a [Value] they survive. *)
Theorem C23_value_partial : forall i f k z t, k = U128 \/ k = I128 ->
  serialize (EVInt k z) = Ok (VNum tag_default (NInt k z)) /\
  deserialize TValue (DConf i f (VNum t (NInt k z))) = Ok (EVValue (VNum t (NInt k z))).
Proof.
  intros i f k z t [->| ->]; split; try reflexivity.
  all: cbn; unfold map_tag; cbn; reflexivity.
Qed.
Print Assumptions C23_value_partial.

(** ** C24 *)
Theorem C24_lossy_extends : forall f t d, extract Exact f t = Ok d -> extract Lossy f t = Ok d.
Proof.
  intros f t d. unfold extract. destruct (merged f) as [v|e]; [|discriminate].
  apply (deserialize_mono t (DConf Exact f v)).
Qed.
Print Assumptions C24_lossy_extends.

Theorem C24_lossy_extends_inner : forall f t path d,
  extract_inner Exact f t path = Ok d -> extract_inner Lossy f t path = Ok d.
Proof.
  intros f t path d. unfold extract_inner. destruct (find_value f path) as [v|e]; [|discriminate].
  cbn [res_bind]. rewrite !map_err_ok. apply (deserialize_mono t (DConf Exact f v)).
Qed.
Print Assumptions C24_lossy_extends_inner.

(** Lossy extraction really accepts more. *)
Example C24_ex :
  extract_inner Exact ex_f2 (TOption (TInt U8)) (lit "b") = Ok (EVSome (EVInt U8 2)) /\
  is_ok (extract_inner Exact ex_f2 TBool (lit "k")) = false /\
  extract_inner Lossy ex_f2 TBool (lit "k") = Ok (EVBool true).
Proof. repeat split. Qed.
