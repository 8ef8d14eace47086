(** Property C84: which error typed extraction gives, at every type: the path to the first value
    at fault, and the complaint about it. *)
From Coq Require Import Ascii String ZArith NArith Bool Lia.
From Coq Require Import Floats.SpecFloat.
From Coq Require Import List.
From Verif Require Import Res BMap BMapProofs Str StrProofs Profile Tag Num Value Metadata Err Coalesce Figment Fmt De.
From Verif Require Import SpecValue SpecFigment SpecLookup SpecShow SpecLossy SpecDe SpecMagic SpecExtract SpecDoc SpecTaken SpecGives SpecRefuse.
From Verif Require Import ValueProofs FigmentProofs FigmentProofs2 LookupProofs DeProofs ExtractProofs GivesProofs RefusalProofs
  PropsCoalesce PropsFigment.
Import ListNotations.

(** ** C84 *)

(** Extraction from a Figment's value fails exactly as specified, strictly or leniently. *)
Theorem C84_configured : forall i f t v p k, wf v -> named_apart t ->
  (exists e, deserialize t (DConf i f v) = Err e /\ e_path e = p /\ e_kind e = k) <-> refuses (MConf i f) t v p k.
Proof. intros i f t v p k W N. exact (proj1 (extraction_told t N) (MConf i f) v p k W). Qed.
Print Assumptions C84_configured.

(** [Value::deserialize]. *)
Theorem C84_value : forall t v p k, wf v -> named_apart t ->
  (exists e, value_deserialize t v = Err e /\ e_path e = p /\ e_kind e = k) <-> refuses MPlain t v p k.
Proof. intros t v p k W N. exact (proj1 (extraction_told t N) MPlain v p k W). Qed.
Print Assumptions C84_value.

(** Every value is either taken or refused, never both, and refused in one way only. *)
Theorem C84_outcome : forall m t v, wf v -> named_apart t ->
  ((exists y, gives m t v y) \/ (exists p k, refuses m t v p k)) /\
  (forall y p k, gives m t v y -> ~ refuses m t v p k) /\
  (forall p k p' k', refuses m t v p k -> refuses m t v p' k' -> p = p' /\ k = k').
Proof.
  intros m t v W N. assert (R := fun p k => proj1 (extraction_told t N) m v p k W).
  assert (G := fun y => granted_at t m v y W N). unfold RefuseProofs.says in R. split; [|split].
  - destruct (deserialize t (mk_de m v)) as [y|e]; [left; exists y; apply G; reflexivity|right].
    exists (e_path e), (e_kind e). apply R. exists e. auto.
  - intros y p k Y X. apply G in Y. apply R in X. destruct X as (e & X & _). congruence.
  - intros p k p' k' X Y. apply R in X, Y. destruct X as (e & X & <- & <-), Y as (e' & Y & <- & <-).
    rewrite Y in X. injection X as ->. auto.
Qed.
Print Assumptions C84_outcome.

(** [extract] and [extract_lossy] of any Figment that can be built and whose providers all
    succeeded. *)
Theorem C84_extract : forall H i f t v p k, reachable H f -> merged f = Ok v -> named_apart t ->
  (exists e, extract i f t = Err e /\ e_path e = p /\ e_kind e = k) <-> refuses (MConf i f) t v p k.
Proof.
  intros H i f t v p k R M N. unfold extract. rewrite M. cbn [res_bind].
  apply C84_configured; [exact (reachable_merged_wf _ _ _ R M)|exact N].
Qed.
Print Assumptions C84_extract.

(** [extract_inner], [extract_inner_lossy] and their shorthands: the path asked for comes after
    the path inside its value (see C21). *)
Theorem C84_inner : forall H i f t ks v x p k, reachable H f -> merged f = Ok v -> named_apart t ->
  Forall plain_key ks -> at_path ks v = Some x ->
  (exists e, extract_inner i f t (join [dot] ks) = Err e /\ e_path e = p /\ e_kind e = k) <->
  exists q, refuses (MConf i f) t x q k /\ p = q ++ ks.
Proof.
  intros H i f t ks v x p k R M N K A. assert (W := at_path_wf _ _ _ (reachable_merged_wf _ _ _ R M) A).
  assert (S : spells (join [dot] ks) ks) by (split; auto).
  assert (E := fun q => C84_configured i f t x q k W N).
  assert (F : find_value f (join [dot] ks) = Ok x) by (apply (find_value_spec _ _ _ _ S); eauto).
  unfold extract_inner. rewrite F. cbn [res_bind]. setoid_rewrite <- E.
  destruct (deserialize t (DConf i f x)) as [y|e]; cbn [res_map_err].
  - split; [intros (e & X & _); discriminate X|intros (q & (e & X & _) & _); discriminate X].
  - destruct e as [tg pr md pa kd pv]. cbn [with_path]. rewrite nonempty_components by exact K. split.
    + intros (e & [= <-] & <- & <-). cbn. exists pa. split; [|reflexivity]. eexists. split; [reflexivity|]. auto.
    + intros (q & (e & [= <-] & <- & <-) & ->). cbn. eexists. split; [reflexivity|]. auto.
Qed.
Print Assumptions C84_inner.
(** Where there is nothing, just that is said. *)
Theorem C84_nothing : forall i f t ks v, merged f = Ok v -> Forall plain_key ks -> at_path ks v = None ->
  exists e, extract_inner i f t (join [dot] ks) = Err e /\ e_path e = [] /\ e_kind e = KMissingField (join [dot] ks).
Proof.
  intros i f t ks v M K A. assert (S : spells (join [dot] ks) ks) by (split; auto).
  assert (F := fun x => find_value_spec f (join [dot] ks) ks x S). unfold extract_inner, find_value in *. rewrite M in *.
  destruct (vfind (join [dot] ks) v) as [x|].
  - destruct (proj1 (F x) eq_refl) as (v' & [= <-] & X). congruence.
  - cbn [res_bind]. eexists. split; [reflexivity|]. auto.
Qed.
Print Assumptions C84_nothing.

(** A struct with a wrong entry, one it does not know, and a missing field: the wrong entry comes
    first, by its key; without it, the unknown one; and then the missing one. *)
Definition ex_struct : ty := TStruct (lit "S") (lit "Config") true
  [(lit "port", TInt U8); (lit "mode", TEnum (lit "Mode") [(lit "fast", ShUnit); (lit "slow", ShNew TBool)]);
   (lit "extra", TOption TString); (lit "zone", TTuple [TString; TBool])].
Definition ex_dict (d : list (ustr * value)) : value := VDict (Tag 4) d.
Definition ex_num (z : Z) : value := VNum (Tag 4) (NInt U16 z).
Definition ex_said (v : value) : option (list ustr * kind) :=
  match deserialize ex_struct (DConf Exact fig_new v) with Err e => Some (e_path e, e_kind e) | Ok _ => None end.
Example C84_ex : named_apart ex_struct /\
  ex_said (ex_dict [(lit "port", ex_num 300); (lit "unknown", ex_num 1)]) =
    Some ([lit "port"], KInvalidValue (AUnsigned 300) (lit "u8")) /\
  ex_said (ex_dict [(lit "port", ex_num 30); (lit "unknown", ex_num 1)]) =
    Some ([lit "unknown"], KUnknownField (lit "unknown") [lit "port"; lit "mode"; lit "extra"; lit "zone"]) /\
  ex_said (ex_dict [(lit "port", ex_num 30)]) = Some ([], KMissingField (lit "mode")) /\
  ex_said (ex_dict [(lit "mode", VString (Tag 4) (lit "slow")); (lit "port", ex_num 30)]) =
    Some ([lit "mode"], KInvalidType AUnitVariant (lit "newtype variant")) /\
  ex_said (ex_dict [(lit "mode", ex_dict [(lit "slow", ex_num 1)])]) =
    Some ([lit "mode"; lit "slow"], KInvalidType (AUnsigned 1) (lit "a boolean")) /\
  ex_said (ex_dict [(lit "mode", ex_num 2)]) =
    Some ([lit "mode"], KInvalidValue (AUnsigned 2) (lit "variant index 0 <= i < 2")) /\
  ex_said (ex_dict [(lit "zone", VArray (Tag 4) [VString (Tag 4) (lit "a"); ex_num 3])]) =
    Some ([lit "zone"; lit "1"], KInvalidType (AUnsigned 3) (lit "a boolean")) /\
  ex_said (ex_dict [(lit "zone", VArray (Tag 4) [VString (Tag 4) (lit "a")])]) =
    Some ([lit "zone"], KInvalidLength 1 (lit "a tuple of size 2")) /\
  ex_said (VArray (Tag 4) [ex_num 3]) =
    Some ([], KInvalidLength 1 (lit "struct Config with 4 elements")) /\
  ex_said (ex_num 3) = Some ([], KInvalidType (AUnsigned 3) (lit "struct Config")).
Proof.
  split.
  { cbn. repeat split; repeat constructor; cbn; intros H; decompose [or] H; discriminate || contradiction. }
  repeat (split; [vm_compute; reflexivity|]). vm_compute. reflexivity.
Qed.
(** The same by the specification alone, for the missing field. *)
Example C84_ex_spec : refuses (MConf Exact fig_new) ex_struct (ex_dict [(lit "port", ex_num 30)]) [] (KMissingField (lit "mode")).
Proof.
  cbn [refuses ex_struct]. exists (ex_dict [(lit "port", ex_num 30)]). split.
  - apply pr_usual. cbn. intros [H|[H|[H|[]]]]; discriminate H.
  - left. exists (Tag 4), [(lit "port", ex_num 30)]. split; [reflexivity|]. right. split.
    + constructor; [|constructor]. split; [left; reflexivity|]. intros r [H|[H|[H|[H|[]]]]]; try discriminate H.
      injection H as <-. exists (EVInt U8 30). cbn. split; [exact I|]. exists U16, 30%Z.
      split; [constructor|]. split; [exact I|]. split; [unfold holds; cbn; lia|reflexivity].
    + cbn [map fst snd]. eexists [_], (lit "mode"), _, _. split; [reflexivity|]. split; [intros [u E]; discriminate E|].
      split; [cbn; intros [H|[]]; discriminate H|]. split; [constructor; [left; left; reflexivity|constructor]|auto].
Qed.

(** ** What the path does not always say *)

(** The paths of errors about [Value], [Tagged] and [RelativePathBuf] name reserved keys, which
    are nowhere in the configuration. *)
Theorem C84_reserved_refuted :
  (exists i f t v e, wf v /\ named_apart t /\ deserialize t (DConf i f v) = Err e /\
     (forall p t' d x, reach p v (VDict t' d) -> ~ In (tagged_value, x) d) /\ In tagged_value (e_path e)) /\
  (exists i f v e, wf v /\ deserialize TValue (DConf i f v) = Err e /\
     (forall p t' d x, reach p v (VDict t' d) -> ~ In (value_value, x) d) /\ In value_value (e_path e)).
Proof.
  split.
  - exists Exact, fig_new, (TStruct (lit "S") (lit "S") false [(lit "port", TTagged (TInt U8))]),
      (ex_dict [(lit "port", ex_num 300)]).
    eexists. split; [cbn; auto|]. split.
    { cbn. repeat split; repeat constructor; cbn; intros H; decompose [or] H; discriminate || contradiction. }
    split; [vm_compute; reflexivity|]. split.
    + intros p t' d x R I. inversion R as [y|k r u e z y G R'|]; subst.
      * destruct I as [I|[]]. discriminate I.
      * apply get_In in G. destruct G as [? [_ [[= <- <-]|[]]]]. inversion R'.
    + cbn. auto.
  - exists Exact, fig_new, (ex_dict [(lit "a", ex_dict [(value_id, VBool (Tag 4) true)])]).
    eexists. split; [cbn; auto 6|]. split; [vm_compute; reflexivity|]. split.
    + intros p t' d x R I. inversion R as [y|k r u e z y G R'|]; subst.
      * destruct I as [I|[]]. discriminate I.
      * apply get_In in G. destruct G as [? [_ [[= <- <-]|[]]]].
        inversion R' as [y|k' r' u' e' z' y' G' R''|]; subst.
        -- destruct I as [I|[]]. discriminate I.
        -- apply get_In in G'. destruct G' as [? [_ [[= <- <-]|[]]]]. inversion R''.
    + cbn. auto.
Qed.
Print Assumptions C84_reserved_refuted.
