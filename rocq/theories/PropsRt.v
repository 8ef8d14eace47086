(** Properties C38-C41 and C48-C50: serialization, round trips, values and tags. *)
From Coq Require Import Ascii String ZArith NArith Bool Lia Permutation.
From Coq Require Import Floats.SpecFloat.
From Coq Require Import List.
From Verif Require Import Res BMap Str Profile Tag Num Value NumParse Metadata Err Coalesce Figment Fmt De Ser.
From Verif Require Import SpecValue SpecFigment SpecLookup SpecParse SpecLossy SpecDe SpecRt SpecMagic.
From Verif Require Import ValueProofs LossyProofs DeProofs BlameProofs FigmentProofs2 ExtractProofs RtProofs
  SerProofs MagicProofs PropsCoalesce PropsFigment PropsDe.
Import ListNotations.

(** ** C38 *)

(** What a value serializes to is read back as the same value, whatever tags it got in the
    meantime, in exact and lossy extraction and from a bare [Value]. *)
Theorem C38_round_trip : forall t d, restorable t -> inhabits t d ->
  exists v, serialize d = Ok v /\
    forall v', untag v' = untag v ->
      (forall i f, deserialize t (DConf i f v') = Ok d) /\ value_deserialize t v' = Ok d.
Proof.
  intros t d Ht Hd. destruct (roundtrip t Ht d Hd) as (v & [Hs Hr] & _). exists v. split; [exact Hs|].
  intros v' U. split; [intros i f; exact (Hr (MConf i f) v' U)|exact (Hr MPlain v' U)].
Qed.
Print Assumptions C38_round_trip.

(** A Figment of one [Serialized] provider gives back the value it was made from. *)
Theorem C38_figment : forall loc tn s o c f c' t i,
  restorable t -> inhabits t (sz_value s) -> sz_key s = None ->
  provide loc fig_new (serialized_provider tn s) o c = (Ret f, c') ->
  is_ok (sz_data s) = true ->
  extract i (fig_select f (sz_profile s)) t = Ok (sz_value s).
Proof. exact serialized_extracted. Qed.
Print Assumptions C38_figment.

Theorem C38_nested : forall loc tn s o c f c' t i key ks,
  restorable t -> inhabits t (sz_value s) -> sz_key s = Some key -> spells key ks -> ks <> [] ->
  provide loc fig_new (serialized_provider tn s) o c = (Ret f, c') ->
  extract_inner i (fig_select f (sz_profile s)) t key = Ok (sz_value s).
Proof. exact nested_extracted. Qed.
Print Assumptions C38_nested.

(** An option of a unit, or of an option, is not restored: [Some(())] and [Some(None)] come
    back as [None]. *)
Theorem C38_option_refuted : exists t d v d',
  inhabits t d /\ serialize d = Ok v /\ value_deserialize t v = Ok d' /\ d' <> d /\
  (t = TOption TUnit \/ t = TOption (TOption TBool)).
Proof.
  exists (TOption (TOption TBool)), (EVSome EVNone), (VEmpty tag_default ENone), EVNone.
  split; [repeat constructor|]. repeat split; [discriminate|auto].
Qed.
Print Assumptions C38_option_refuted.

Definition ex_rt_ty : ty :=
  st (lit "Config")
     [(lit "name", TString);
      (lit "port", TOption (TInt U16));
      (lit "mode", TEnum (lit "Mode") [(lit "Off", ShUnit); (lit "Level", ShNew (TInt I8));
                                       (lit "Pos", ShTuple [TInt U8; TF64]);
                                       (lit "Named", ShStruct [(lit "x", TChar)])]);
      (lit "rest", TMap (TSeq TBool))].
Definition ex_rt_val (mode : shape dval) (name : ustr) : dval :=
  EVStruct [(lit "name", EVStr (lit "n")); (lit "port", EVSome (EVInt U16 80));
            (lit "mode", EVVariant name mode);
            (lit "rest", EVMap [(lit "k", EVSeq [EVBool true; EVBool false])])].
Lemma ex_rt_restorable : restorable ex_rt_ty.
Proof.
  cbn. repeat split; try tauto; try (intuition discriminate).
  all: repeat constructor; cbn; intuition discriminate.
Qed.
Lemma ex_rt_inhabits : inhabits ex_rt_ty (ex_rt_val (ShStruct [(lit "x", EVChar 99%N)]) (lit "Named")).
Proof.
  unfold ex_rt_ty, ex_rt_val, st. constructor. repeat constructor; cbn [fst snd]; try lia.
  - apply ih_struct_variant with (fs := [(lit "x", TChar)]).
    + cbn. auto.
    + repeat constructor.
Qed.
Definition ex_rt_sz : serialized :=
  sz_from (ex_rt_val (ShStruct [(lit "x", EVChar 99%N)]) (lit "Named")) p_debug ex_loc.
Example C38_ex :
  restorable ex_rt_ty /\ inhabits ex_rt_ty (sz_value ex_rt_sz) /\
  (exists f c', provide ex_loc fig_new (serialized_provider (lit "Config") ex_rt_sz) Merge 1%N = (Ret f, c') /\
                is_ok (sz_data ex_rt_sz) = true /\
                extract Exact (fig_select f p_debug) ex_rt_ty = Ok (sz_value ex_rt_sz)).
Proof.
  split; [exact ex_rt_restorable|]. split; [exact ex_rt_inhabits|].
  do 2 eexists. split; [reflexivity|]. split; reflexivity.
Qed.
Example C38_nested_ex :
  exists f c', provide ex_loc fig_new (serialized_provider (lit "u8") (sz_default (lit "a.b") (EVInt U8 7) ex_loc))
                 Merge 1%N = (Ret f, c') /\
    extract_inner Lossy (fig_select f p_default) (TInt U8) (lit "a.b") = Ok (EVInt U8 7).
Proof. do 2 eexists. split; reflexivity. Qed.

(** ** C39 *)

(** Any value of a Figment, extracted as [Value]: the same structure and scalars, every tag
    kept, untagged values taking the tag of the value around them. *)
Theorem C39_value : forall i f v, wf v -> sized v -> magic_free v ->
  exists w, deserialize TValue (DConf i f v) = Ok (EVValue w) /\ read_as (vtag v) v w.
Proof.
  intros i f v W S M. exists (as_read (vtag v) v). split; [|apply as_read_spec; assumption].
  cbn [deserialize]. rewrite (value_read i f v W M). reflexivity.
Qed.
Print Assumptions C39_value.

(** In every Figment that can be built, all of it is returned unchanged. *)
Theorem C39_figment : forall H i f v, reachable H f -> merged f = Ok v ->
  no_pointer_sized v -> magic_free v -> extract i f TValue = Ok (EVValue v).
Proof.
  intros H i f v Hr Hm S M. assert (W := reachable_merged_wf _ _ _ Hr Hm).
  unfold extract. rewrite Hm. cbn [res_bind deserialize]. rewrite (value_read i f v W M). cbn [res_map].
  do 2 f_equal. apply as_read_exact; auto using inherits_self.
  intros p x Hp Hn. destruct (merged_traced _ _ _ _ _ Hr Hm Hn Hp) as (q & _ & n & m & d & y & Hnp & _).
  intros E. rewrite E in Hnp. discriminate.
Qed.
Print Assumptions C39_figment.

(** A pointer-sized integer comes back as a fixed-width one. *)
Theorem C39_pointer_sized_refuted : exists v,
  wf v /\ magic_free v /\ forall i f, deserialize TValue (DConf i f v) <> Ok (EVValue v).
Proof.
  exists (VNum (Tag 1) (NInt USize 7)). split; [exact I|]. split.
  - intros p x Hp. inversion Hp; subst; exact I.
  - intros i f H. cbv in H. discriminate.
Qed.
Print Assumptions C39_pointer_sized_refuted.

Example C39_ex :
  exists v, merged ex_f2 = Ok v /\ wf v /\ no_pointer_sized v /\ magic_free v /\ vtag v = tag_default /\
            (exists d, v = VDict tag_default d /\ length d = 4) /\
            extract Exact ex_f2 TValue = Ok (EVValue v).
Proof.
  destruct (merged ex_f2) as [v|e] eqn:Hm; [|discriminate Hm].
  exists v. split; [reflexivity|].
  split; [exact (reachable_merged_wf _ _ _ ex_f2_reachable Hm)|].
  vm_compute in Hm. injection Hm as <-.
  split; [apply no_pointer_sized_dec; reflexivity|].
  split; [apply magic_free_dec; reflexivity|].
  split; [reflexivity|]. split; [eexists; split; reflexivity|]. reflexivity.
Qed.

(** ** C40 *)

(** Data can be attributed to a provider that did not supply it: provider [B] supplies a
    dictionary with the reserved keys, and reading the configuration as a map of values shows
    a string with the tag of provider [A], which supplied no string at all. *)
Definition ex_forger : provider :=
  ex_provider (lit "B") [(p_default,
    [(lit "x", dct [(lit "___figment_value_id", VNum tag_default (NInt U8 1));
                    (lit "___figment_value_value", VString tag_default (lit "evil"))])])].
Definition ex_forged : figment := given ex_f1 ex_forger Merge 2.
Lemma ex_forged_reachable : reachable [mkProvision ex_loc ex_p1; mkProvision ex_loc ex_forger] ex_forged.
Proof.
  apply (RC_provide [mkProvision ex_loc ex_p1] ex_f1 ex_loc Merge ex_forger ex_forged 3);
    [apply ex_f1_reachable| |reflexivity].
  apply plain_ok; [|reflexivity]. vm_compute. repeat constructor; auto.
Qed.
Theorem C40_forged_refuted : exists H f l t m,
  reachable H f /\ extract Exact f (TMap TValue) = Ok (EVMap l) /\
  In (lit "x", EVValue (VString t (lit "evil"))) l /\
  get_metadata f t = Some m /\ md_name m = lit "A" /\
  (forall d, pv_data ex_p1 = Ok d -> forall q e, In (q, e) d -> ~ In (lit "x") (map fst e)).
Proof.
  exists [mkProvision ex_loc ex_p1; mkProvision ex_loc ex_forger], ex_forged.
  do 3 eexists. split; [exact ex_forged_reachable|]. split; [reflexivity|].
  split; [right; right; left; reflexivity|]. split; [reflexivity|]. split; [reflexivity|].
  intros d Hd q e Hin. vm_compute in Hd. injection Hd as <-. cbn in Hin.
  destruct Hin as [Hin|[]]. injection Hin as <- <-. cbn. intuition discriminate.
Qed.
Print Assumptions C40_forged_refuted.

(** Keys can disappear: next to a reserved key, the other keys of a dictionary are dropped. *)
Theorem C40_dropped_refuted : forall i f, exists t d l,
  wf (VDict t d) /\
  deserialize (TMap TValue) (DConf i f (VDict t [(lit "x", VDict t d)])) =
    Ok (EVMap [(lit "x", EVValue l)]) /\
  In (lit "other") (map fst d) /\ as_dict l = None.
Proof.
  intros i f. exists (Tag 1), [(lit "___figment_value_value", VBool (Tag 1) true); (lit "other", VBool (Tag 1) false)].
  eexists. split; [vm_compute; repeat constructor; auto|]. split; [reflexivity|]. split; [right; left; reflexivity|reflexivity].
Qed.
Print Assumptions C40_dropped_refuted.

(** Without the reserved keys inside its values, a dictionary read as a map of values keeps
    every key, and everything inside every value keeps its tag. *)
Theorem C40_values_partial : forall i f t d,
  wf (VDict t d) -> Forall (fun kv => sized (snd kv) /\ magic_free (snd kv)) d ->
  exists l, deserialize (TMap TValue) (DConf i f (VDict t d)) = Ok (EVMap l) /\
    Forall2 (fun kv e => fst e = fst kv /\
               exists w, snd e = EVValue w /\ read_as (vtag (snd kv)) (snd kv) w) d l.
Proof. exact value_map_read. Qed.
Print Assumptions C40_values_partial.

Example C40_ex :
  wf (VDict (Tag 1) [(lit "x", VArray (Tag 2) [VBool (Tag 3) true; VNum tag_default (NInt USize 300)])]) /\
  deserialize (TMap TValue) (DConf Exact ex_f1
      (VDict (Tag 1) [(lit "x", VArray (Tag 2) [VBool (Tag 3) true; VNum tag_default (NInt USize 300)])])) =
    Ok (EVMap [(lit "x", EVValue (VArray (Tag 2) [VBool (Tag 3) true; VNum (Tag 2) (NInt U16 300)]))]).
Proof. split; [vm_compute; repeat constructor; auto|reflexivity]. Qed.

(** ** C41 *)

(** [Tagged<T>] succeeds exactly when [T] does, with the same value and the tag of the value
    it was read from. *)
Theorem C41_tagged : forall t i f v d, not_tagged v ->
  (deserialize (TTagged t) (DConf i f v) = Ok d <->
   exists x, deserialize t (DConf i f v) = Ok x /\ d = tagged_result (vtag v) x).
Proof. exact tagged_ok. Qed.
Print Assumptions C41_tagged.

(** When [T] fails, [Tagged<T>] fails for the same reason. *)
Theorem C41_same_failure : forall t i f v e, not_tagged v ->
  deserialize (TTagged t) (DConf i f v) = Err e ->
  exists e', deserialize t (DConf i f v) = Err e' /\ e_kind e = e_kind e'.
Proof. intros t i f v e N H. destruct (tagged_err _ _ _ _ _ N H) as (e' & A & B & _). eauto. Qed.
Print Assumptions C41_same_failure.

(** But the path of the error then contains a key that is not in the configuration. *)
Theorem C41_error_path_refuted : forall t i f v e, not_tagged v ->
  deserialize (TTagged t) (DConf i f v) = Err e ->
  exists e', deserialize t (DConf i f v) = Err e' /\ e_path e = tagged_value :: e_path e'.
Proof. intros t i f v e N H. destruct (tagged_err _ _ _ _ _ N H) as (e' & A & _ & B). eauto. Qed.
Print Assumptions C41_error_path_refuted.

(** A dictionary with the reserved keys chooses its own tag. *)
Theorem C41_forged_refuted : forall i f, exists v t t' x,
  deserialize (TTagged TBool) (DConf i f v) = Ok (tagged_result t' x) /\ vtag v = t /\ t <> t'.
Proof.
  intros i f.
  exists (VDict (Tag 7) [(tagged_tag, VNum (Tag 7) (NInt U8 1)); (tagged_value, VBool (Tag 7) true)]).
  exists (Tag 7), (Tag 1), (EVBool true). split; [destruct i; reflexivity|]. split; [reflexivity|discriminate].
Qed.
Print Assumptions C41_forged_refuted.

Example C41_ex :
  not_tagged (VString (Tag 7) (lit "on")) /\
  deserialize (TTagged TBool) (DConf Lossy ex_f1 (VString (Tag 7) (lit "on"))) =
    Ok (tagged_result (Tag 7) (EVBool true)) /\
  exists e, deserialize (TTagged TBool) (DConf Exact ex_f1 (VString (Tag 7) (lit "on"))) = Err e /\
            e_path e = [lit "___figment_tagged_value"].
Proof. split; [exact I|]. split; [reflexivity|]. eexists. split; reflexivity. Qed.

(** ** C48 *)

(** What a [Serialized] provider emits: its profile, and in it the value nested under its
    key, one key per level. *)
Theorem C48_data : forall s v ks m, serialize (sz_value s) = Ok v -> key_path (sz_key s) ks ->
  (sz_data s = Ok m <-> exists t d, nested_under ks v (VDict t d) /\ m = [(sz_profile s, d)]).
Proof. exact sz_data_spec. Qed.
Print Assumptions C48_data.

(** When it fails. *)
Theorem C48_error : forall s e ks, key_path (sz_key s) ks ->
  (sz_data s = Err e <->
   serialize (sz_value s) = Err e \/
   exists v, serialize (sz_value s) = Ok v /\ ks = [] /\ is_dict v = false /\
             e = err_of_kind (KInvalidType (to_actual v) (lit "map"))).
Proof. exact sz_data_err. Qed.
Print Assumptions C48_error.

(** A pair [(key, value)] as a provider: the value under the key in the global profile. *)
Theorem C48_pair : forall kn vn key v loc w ks m, serialize v = Ok w -> spells key ks ->
  (pv_data (tuple_provider kn vn key v loc) = Ok m <->
   exists t d, nested_under ks w (VDict t d) /\ m = [(p_global, d)]).
Proof.
  intros kn vn key v loc w ks m Hw Hk. exact (sz_data_spec (sz_global key v loc) w ks m Hw Hk).
Qed.
Print Assumptions C48_pair.

Example C48_ex :
  spells (lit "a.b") [lit "a"; lit "b"] /\ spells (lit "a..b") [lit "a"] /\ spells [] [] /\
  sz_data (sz_default (lit "a.b") (EVBool true) ex_loc) =
    Ok [(p_default, [(lit "a", VDict tag_default [(lit "b", VBool tag_default true)])])] /\
  sz_data (sz_default (lit "a..b") (EVBool true) ex_loc) = Ok [(p_default, [(lit "a", VBool tag_default true)])] /\
  sz_data (sz_default [] (EVBool true) ex_loc) = Err (err_of_kind (KInvalidType (ABool true) (lit "map"))).
Proof.
  assert (P : forall c, c <> dot -> plain_key [c]).
  { intros c H. split; [discriminate|]. intros [X|[]]. congruence. }
  split; [split; [repeat constructor; apply P; discriminate|left; reflexivity]|].
  split; [split; [repeat constructor; apply P; discriminate|right; exists [lit "b"]; reflexivity]|].
  split; [split; [constructor|left; reflexivity]|]. repeat split.
Qed.

(** Which constructor puts a value where. *)
Theorem C48_constructors : forall v w loc m, serialize v = Ok w ->
  (sz_data (sz_defaults v loc) = Ok m <-> exists t d, w = VDict t d /\ m = [(p_default, d)]) /\
  (sz_data (sz_globals v loc) = Ok m <-> exists t d, w = VDict t d /\ m = [(p_global, d)]) /\
  (forall p, sz_data (sz_from v p loc) = Ok m <-> exists t d, w = VDict t d /\ m = [(p, d)]) /\
  (forall key ks, spells key ks ->
     (sz_data (sz_default key v loc) = Ok m <->
        exists t d, nested_under ks w (VDict t d) /\ m = [(p_default, d)]) /\
     (sz_data (sz_global key v loc) = Ok m <->
        exists t d, nested_under ks w (VDict t d) /\ m = [(p_global, d)])).
Proof.
  intros v w loc m Hw.
  assert (HF : forall p, sz_data (sz_from v p loc) = Ok m <-> exists t d, w = VDict t d /\ m = [(p, d)]).
  { intros p. rewrite (sz_data_spec (sz_from v p loc) w [] m Hw eq_refl). cbn [sz_from sz_profile].
    split; intros (t & d & H & E); exists t, d; (split; [|exact E]).
    - inversion H; reflexivity.
    - rewrite H. constructor. }
  split; [apply HF|]. split; [apply HF|]. split; [exact HF|]. intros key ks HK. split.
  - exact (sz_data_spec (sz_default key v loc) w ks m Hw HK).
  - exact (sz_data_spec (sz_global key v loc) w ks m Hw HK).
Qed.
Print Assumptions C48_constructors.

(** The builder: [profile] and [key] set what they say and leave the rest; the last call counts. *)
Theorem C48_builder : forall s p q k l,
  sz_with_profile (sz_with_profile s p) q = sz_with_profile s q /\
  sz_with_key (sz_with_key s k) l = sz_with_key s l /\
  sz_with_key (sz_with_profile s p) k = sz_with_profile (sz_with_key s k) p /\
  (forall v ks m, serialize (sz_value s) = Ok v -> spells k ks ->
     (sz_data (sz_with_profile (sz_with_key s k) p) = Ok m <->
      exists t d, nested_under ks v (VDict t d) /\ m = [(p, d)])) /\
  (forall name, md_source (pv_metadata (serialized_provider name (sz_with_profile (sz_with_key s k) p)))
     = Some (SCode (sz_loc s))).
Proof.
  intros s p q k l. split; [reflexivity|]. split; [reflexivity|]. split; [reflexivity|]. split; [|reflexivity].
  intros v ks m Hv Hk. exact (sz_data_spec (sz_with_profile (sz_with_key s k) p) v ks m Hv Hk).
Qed.
Print Assumptions C48_builder.

Example C48_ex_constructors :
  let v := EVStruct [(lit "a", EVBool true)] in
  sz_data (sz_globals v ex_loc) = Ok [(p_global, [(lit "a", VBool tag_default true)])] /\
  sz_data (sz_with_profile (sz_defaults v ex_loc) (mkProfile (lit "debug"))) =
    Ok [(mkProfile (lit "debug"), [(lit "a", VBool tag_default true)])].
Proof. split; reflexivity. Qed.

(** ** C49 *)

(** The lenient boolean accepts exactly the values of [switch], with their meaning. *)
Theorem C49_partial : forall v d,
  (forall i f, deserialize TBoolish (DConf i f v) = Ok d <-> exists b, d = EVBool b /\ switch v b) /\
  (value_deserialize TBoolish v = Ok d <-> exists b, d = EVBool b /\ switch v b).
Proof.
  intros v d. split; [intros i f; exact (switch_spec (MConf i f) v d)|exact (switch_spec MPlain v d)].
Qed.
Print Assumptions C49_partial.

(** The 128-bit integers 0 and 1 are not accepted. *)
Theorem C49_wide_refuted : forall i f t k z, k = U128 \/ k = I128 ->
  exists e, deserialize TBoolish (DConf i f (VNum t (NInt k z))) = Err e.
Proof. intros i f t k z [->| ->]; eexists; reflexivity. Qed.
Print Assumptions C49_wide_refuted.

Example C49_ex :
  switch (VString (Tag 1) (lit "tRuE")) true /\ switch (VNum (Tag 1) (NInt I64 0)) false /\
  deserialize TBoolish (DConf Exact ex_f1 (VString (Tag 1) (lit "tRuE"))) = Ok (EVBool true) /\
  is_ok (deserialize TBoolish (DConf Lossy ex_f1 (VString (Tag 1) (lit "yes")))) = false /\
  is_ok (deserialize TBoolish (DConf Lossy ex_f1 (VNum (Tag 1) (NInt I64 2)))) = false.
Proof. split; [constructor; reflexivity|]. split; [constructor; exact I|]. repeat split. Qed.

(** ** C50 *)

(** Pairs with distinct textual keys survive a round trip through a map, up to order: they
    come back in the order of their keys' text, so in the same order if they were sorted. *)
Theorem C50_pairs_partial : forall k t l, textual k -> restorable t ->
  inhabits (TPairs k t) (EVPairs l) -> NoDup (map fst l) ->
  exists v l', serialize (EVPairs l) = Ok v /\ Permutation l l' /\
    (forall v', untag v' = untag v ->
       (forall i f, deserialize (TPairs k t) (DConf i f v') = Ok (EVPairs l')) /\
       value_deserialize (TPairs k t) v' = Ok (EVPairs l')) /\
    (sorted (K := ustr) (map (fun p => (text_of (fst p), snd p)) l) -> l' = l).
Proof.
  intros k t l T R H N. destruct (pairs_restored k t l T R H N) as (v & l' & A & B & C & D).
  exists v, l'. split; [exact A|]. split; [exact B|]. split; [|exact D].
  intros v' U. split; [intros i f; exact (C (MConf i f) v' U)|exact (C MPlain v' U)].
Qed.
Print Assumptions C50_pairs_partial.

(** Keys of a newtype around a string serialize but cannot be read back. *)
Theorem C50_newtype_refuted : forall n, exists l v e,
  inhabits (TPairs (TNewtype n TString) TBool) (EVPairs l) /\ NoDup (map fst l) /\
  serialize (EVPairs l) = Ok v /\ value_deserialize (TPairs (TNewtype n TString) TBool) v = Err e.
Proof.
  intros n. exists [(EVNewtype (EVStr (lit "k")), EVBool true)]. do 2 eexists.
  split; [repeat constructor|]. split; [repeat constructor; intros []|]. split; reflexivity.
Qed.
Print Assumptions C50_newtype_refuted.

(** With equal keys the last pair wins. *)
Theorem C50_duplicates_refuted : exists l v,
  inhabits (TPairs TString TBool) (EVPairs l) /\ serialize (EVPairs l) = Ok v /\
  value_deserialize (TPairs TString TBool) v = Ok (EVPairs [(EVStr (lit "k"), EVBool false)]) /\
  length l = 2.
Proof.
  exists [(EVStr (lit "k"), EVBool true); (EVStr (lit "k"), EVBool false)]. eexists.
  split; [repeat constructor|]. split; [reflexivity|]. split; reflexivity.
Qed.
Print Assumptions C50_duplicates_refuted.

Example C50_ex :
  textual TProfile /\ textual (TEnum (lit "E") [(lit "A", ShUnit); (lit "B", ShUnit)]) /\
  inhabits (TPairs TString (TInt U8)) (EVPairs [(EVStr (lit "b"), EVInt U8 1); (EVStr (lit "a"), EVInt U8 2)]) /\
  (exists v, serialize (EVPairs [(EVStr (lit "b"), EVInt U8 1); (EVStr (lit "a"), EVInt U8 2)]) = Ok v /\
     value_deserialize (TPairs TString (TInt U8)) v =
       Ok (EVPairs [(EVStr (lit "a"), EVInt U8 2); (EVStr (lit "b"), EVInt U8 1)])).
Proof.
  split; [exact I|]. split; [split; repeat constructor; cbn; intuition discriminate|].
  split; [repeat constructor; cbn; lia|]. eexists. split; reflexivity.
Qed.
