(** Properties C55 and C56: [Either], and [Tagged] and [RelativePathBuf] put back. *)
From Coq Require Import Ascii String ZArith NArith Bool Lia.
From Coq Require Import List.
From Verif Require Import Res BMap Str Profile Tag Num Value NumParse Metadata Err Coalesce Figment Fmt De Ser Path Data Magic.
From Verif Require Import BMapProofs StrProofs ValueProofs FigmentProofs FigmentProofs2 LookupProofs PriorityProofs2
  ExtractProofs SpecValue SpecFigment SpecLookup SpecParse SpecLossy SpecDe SpecRt SpecMagic SpecExtract SpecPath SpecData
  SpecEither DeProofs RtProofs MagicProofs DataProofs MeaningProofs EitherProofs PropsFigment PropsFile.
Import ListNotations.

(** ** C55 *)

(** [Either<Tagged<T>, B>] is what [T] gives, with the tag; where [T] gives nothing, what [B]
    gives.  Both read the same data. *)
Theorem C55_tagged : forall t b i f v, ordinary t -> named_apart t -> ordinary b -> named_apart b ->
  wf v -> sized v -> magic_free v -> not_tagged v ->
  exists w, read_as (vtag v) v w /\
    forall y, deserialize (TEither (TTagged t) b) (DConf i f v) = Ok y <->
      either (fun x => exists x0, extracts Exact t w x0 /\ x = tagged_result (vtag v) x0)
             (extracts Exact b w) y.
Proof.
  intros t b i f v O N Ob Nb W S M T. exists (as_read (vtag v) v).
  split; [apply as_read_spec; assumption|]. intros y. apply either_tagged; assumption.
Qed.
Print Assumptions C55_tagged.

(** [Either<RelativePathBuf, B>] likewise, with the file the value came from. *)
Theorem C55_relative : forall b i f v, ordinary b -> named_apart b ->
  wf v -> sized v -> magic_free v -> not_relative v ->
  exists w, read_as (vtag v) v w /\
    forall y, deserialize (TEither TRelative b) (DConf i f v) = Ok y <->
      either (fun x => exists s, text v s /\ x = rel_result (file_named f (vtag v)) (EVPath s))
             (extracts Exact b w) y.
Proof.
  intros b i f v Ob Nb W S M T. exists (as_read (vtag v) v).
  split; [apply as_read_spec; assumption|]. intros y. apply either_rel; assumption.
Qed.
Print Assumptions C55_relative.

Lemma reach_app p q a b c : reach p a b -> reach q b c -> reach (p ++ q) a c.
Proof. induction 1; intros R; [exact R| |]; econstructor; eauto. Qed.

Lemma found_as_read H f key x : reachable H f -> find_value f key = Ok x -> no_pointer_sized x ->
  wf x /\ as_read (vtag x) x = x.
Proof.
  intros R F S. unfold find_value in F. destruct (merged f) as [v|] eqn:M; [|discriminate].
  destruct (vfind key v) as [y|] eqn:E; [|discriminate]. injection F as ->.
  destruct (spells_total key) as [ks Hk]. rewrite (vfind_spec _ _ _ Hk) in E.
  assert (W : wf x) by (eapply ExtractProofs.at_path_wf; [eapply reachable_merged_wf; eauto|exact E]).
  split; [exact W|]. apply as_read_exact; auto using inherits_self.
  intros p z Hp Hn. assert (P := reach_app _ _ _ _ _ (at_path_reach _ _ _ E) Hp).
  assert (NE : map SKey ks ++ p <> []) by (destruct p; [contradiction|]; destruct ks; discriminate).
  destruct (merged_traced _ _ _ _ _ R M NE P)
    as (q & _ & n & m & d & y & Hnp & _).
  intros X. rewrite X in Hnp. discriminate.
Qed.

(** In every Figment that can be built, both read the value found. *)
Theorem C55_figment : forall H t b i f key v y, reachable H f -> find_value f key = Ok v ->
  no_pointer_sized v -> magic_free v ->
  ordinary t -> named_apart t -> ordinary b -> named_apart b ->
  (not_tagged v ->
   (extract_inner i f (TEither (TTagged t) b) key = Ok y <->
    either (fun x => exists x0, extracts Exact t v x0 /\ x = tagged_result (vtag v) x0)
           (extracts Exact b v) y)) /\
  (not_relative v ->
   (extract_inner i f (TEither TRelative b) key = Ok y <->
    either (fun x => exists s, text v s /\ x = rel_result (file_named f (vtag v)) (EVPath s))
           (extracts Exact b v) y)).
Proof.
  intros H t b i f key v y R F S M O N Ob Nb. destruct (found_as_read _ _ _ _ R F S) as [W E].
  unfold extract_inner. rewrite F. cbn [res_bind]. split; intros T; rewrite map_err_ok.
  - assert (X := either_tagged t b i f v y O N Ob Nb W M T). rewrite E in X. exact X.
  - assert (X := either_rel b i f v y Ob Nb W M T). rewrite E in X. exact X.
Qed.
Print Assumptions C55_figment.

(** When both fail, the error is the text of the two reasons, and nothing else: it does not say
    where the value is or which provider it came from. *)
Theorem C55_error : forall t b i f v e, wf v -> magic_free v -> not_tagged v ->
  deserialize (TEither (TTagged t) b) (DConf i f v) = Err e ->
  exists w ea eb, value_deserialize t w = Err ea /\ value_deserialize b w = Err eb /\
    e = err_msg (fmt_kind (e_kind ea) ++ lit "; " ++ fmt_kind (e_kind eb)) /\
    e_path e = [] /\ e_metadata e = None /\ e_tag e = tag_default.
Proof.
  intros t b i f v e W M T H. rewrite (either_tagged_unfold t b i f v W M T) in H. unfold right_side in H.
  exists (as_read (vtag v) v). unfold value_deserialize.
  destruct (deserialize t _) as [x|ea]; [discriminate|]. destruct (deserialize b _) as [x|eb]; [discriminate|].
  injection H as <-. exists ea, eb. repeat split.
Qed.
Print Assumptions C55_error.

(** [Either] is never lossy: the left side refuses what lossy extraction of the same type
    accepts. *)
Theorem C55_lossy_refuted : forall f, exists t v x,
  deserialize (TTagged t) (DConf Lossy f v) = Ok x /\
  deserialize (TEither (TTagged t) TString) (DConf Lossy f v) <> Ok (EVLeft x).
Proof.
  intros f. exists TBool, (VString (Tag 1) (lit "true")), (tagged_result (Tag 1) (EVBool true)).
  split; [reflexivity|]. intros H. cbv in H. discriminate.
Qed.
Print Assumptions C55_lossy_refuted.

Example C55_ex :
  deserialize (TEither (TTagged (TInt U8)) TString) (DConf Exact fig_new (VNum (Tag 5) (NInt I64 7)))
    = Ok (EVLeft (tagged_result (Tag 5) (EVInt U8 7))) /\
  deserialize (TEither (TTagged (TInt U8)) TString) (DConf Exact fig_new (VString (Tag 5) (lit "hi")))
    = Ok (EVRight (EVStr (lit "hi"))) /\
  deserialize (TEither TRelative (TInt U8)) (DConf Exact ex_rel_fig (VString (Tag 2) (lit "k")))
    = Ok (EVLeft (rel_result (Some (lit "/etc/app/conf.toml")) (EVPath (lit "k")))) /\
  deserialize (TEither TRelative (TInt U8)) (DConf Exact ex_rel_fig (VNum (Tag 2) (NInt I64 9)))
    = Ok (EVRight (EVInt U8 9)) /\
  exists e, deserialize (TEither (TTagged (TInt U8)) (TSeq TBool)) (DConf Exact fig_new (VString (Tag 5) (lit "hi")))
    = Err e.
Proof. repeat split; try reflexivity. eexists. reflexivity. Qed.
Example C55_hyps :
  let v := VString (Tag 5) (lit "hi") in
  wf v /\ sized v /\ magic_free v /\ not_tagged v /\ not_relative v /\
  ordinary (TInt U8) /\ named_apart (TInt U8) /\ ordinary TString /\ named_apart TString.
Proof.
  cbn. repeat split; auto; try discriminate.
  - intros p x R. inversion R; subst. exact I.
  - apply string_magic_free.
Qed.
Example C55_found : exists v, find_value ex_f2 (lit "k") = Ok v /\ no_pointer_sized v /\ magic_free v /\
  not_tagged v /\ not_relative v /\
  extract_inner Exact ex_f2 (TEither (TTagged (TInt U8)) TString) (lit "k") =
    Ok (EVLeft (tagged_result (vtag v) (EVInt U8 1))).
Proof.
  eexists. split; [reflexivity|]. split; [|split; [apply num_magic_free|repeat split]].
  intros p x R. inversion R; subst. exact I.
Qed.

(** ** C56 *)

(** A serialized [Tagged] is read back with its value; its tag is kept, unless it has none:
    then it takes that of its new home. *)
Theorem C56_tagged : forall t g x, restorable t -> inhabits t x ->
  exists v, serialize (tagged_result g x) = Ok v /\
    forall v', untag v' = untag v ->
      (forall i f, deserialize (TTagged t) (DConf i f v') = Ok (tagged_result (kept_tag g (vtag v')) x)) /\
      value_deserialize (TTagged t) v' = Ok (tagged_result g x).
Proof.
  intros t g x Ht Hx. destruct (roundtrip t Ht x Hx) as (v & [Hs Hr] & _).
  exists (VDict tag_default [(tagged_tag, VNum tag_default (NInt U64 (Z.of_N (tag_raw g)))); (tagged_value, v)]).
  split.
  { unfold tagged_result. cbn [serialize map all_ok named fst snd res_bind res_map]. rewrite Hs. reflexivity. }
  intros v' U. apply ut_dict in U. destruct U as (u & d' & -> & F).
  inversion F as [|a [k1 n'] ? r [E1 U1] F1]; subst. inversion F1 as [|b [k2 w'] ? r' [E2 U2] F2]; subst.
  inversion F2; subst. cbn [fst snd] in *. subst k1 k2.
  apply ut_num in U1. destruct U1 as (h & ->). split.
  - intros i f. rewrite stored_tagged. rewrite (Hr (MConf i f) w' U2 : deserialize t (DConf i f w') = _). reflexivity.
  - unfold value_deserialize, TTagged. cbn [deserialize map fst snd de_struct de_any vtag value_visit].
    cbn [map_access map fst snd]. unfold visit_map. cbn [struct_visitor v_map].
    rewrite (tagged_fields _ _ _ _ _ _ (EVTag g)).
    + rewrite (Hr MPlain w' U2 : deserialize t (DPlain w') = _). reflexivity.
    + cbn. rewrite N2Z.id. destruct g; reflexivity.
Qed.
Print Assumptions C56_tagged.

(** A serialized [RelativePathBuf] keeps its path, and its file if it has one. *)
Theorem C56_relative : forall src s,
  exists v, serialize (rel_result src (EVPath s)) = Ok v /\
    forall v', untag v' = untag v ->
      (forall i f, deserialize TRelative (DConf i f v') =
         Ok (rel_result (kept_file src (file_named f (vtag v'))) (EVPath s))) /\
      value_deserialize TRelative v' = Ok (rel_result src (EVPath s)).
Proof.
  intros src s.
  exists (VDict tag_default [(rel_metadata_path, stored_file tag_default src); (rel_path, VString tag_default s)]).
  split; [destruct src; reflexivity|].
  intros v' U. apply ut_dict in U. destruct U as (u & d' & -> & F).
  inversion F as [|a [k1 n'] ? r [E1 U1] F1]; subst. inversion F1 as [|b [k2 w'] ? r' [E2 U2] F2]; subst.
  inversion F2; subst. cbn [fst snd] in *. subst k1 k2.
  apply ut_string in U2. destruct U2 as (h2 & ->).
  assert (X : exists h, n' = stored_file h src).
  { destruct src; [apply ut_string in U1|apply ut_empty in U1]; exact U1. }
  destruct X as (h & ->). split.
  - intros i f. rewrite stored_rel. reflexivity.
  - unfold value_deserialize. destruct src; reflexivity.
Qed.
Print Assumptions C56_relative.

Example C56_ex :
  inhabits (TInt U8) (EVInt U8 7) /\ restorable (TInt U8) /\
  (exists v, serialize (tagged_result (Tag 5) (EVInt U8 7)) = Ok v /\
    deserialize (TTagged (TInt U8)) (DConf Exact fig_new (map_tag (fun _ => Tag 9) v)) =
      Ok (tagged_result (Tag 5) (EVInt U8 7))) /\
  (exists v, serialize (tagged_result tag_default (EVInt U8 7)) = Ok v /\
    deserialize (TTagged (TInt U8)) (DConf Exact fig_new (map_tag (fun _ => Tag 9) v)) =
      Ok (tagged_result (Tag 9) (EVInt U8 7))) /\
  (exists v, serialize (rel_result (Some (lit "/a/b.toml")) (EVPath (lit "k"))) = Ok v /\
    deserialize TRelative (DConf Exact ex_rel_fig (map_tag (fun _ => Tag 2) v)) =
      Ok (rel_result (Some (lit "/a/b.toml")) (EVPath (lit "k")))) /\
  (exists v, serialize (rel_result None (EVPath (lit "k"))) = Ok v /\
    deserialize TRelative (DConf Exact ex_rel_fig (map_tag (fun _ => Tag 2) v)) =
      Ok (rel_result (Some (lit "/etc/app/conf.toml")) (EVPath (lit "k")))).
Proof.
  split; [apply ih_int; cbn; split; discriminate || reflexivity|]. split; [exact I|].
  repeat split; eexists; (split; [reflexivity|vm_compute; reflexivity]).
Qed.

(** Written as its original path, a [RelativePathBuf] belongs to wherever it is put: it resolves as
    before if that comes from the same file. *)
Theorem C56_original : forall src s,
  exists v, serialize_original (rel_result src (EVPath s)) = Ok v /\
    forall v', untag v' = untag v -> forall i f,
      deserialize TRelative (DConf i f v') = Ok (rel_result (file_named f (vtag v')) (EVPath s)) /\
      forall fs, file_named f (vtag v') = src ->
        relative fs (file_named f (vtag v')) s = relative fs src s.
Proof.
  intros src s. exists (VString tag_default s). split; [reflexivity|]. intros v' U i f.
  destruct v' as [t x| | | | | |]; cbn in U; try discriminate. injection U as ->. cbn [vtag].
  split; [apply rel_text|]. intros fs ->. reflexivity.
Qed.
Print Assumptions C56_original.

(** Written as its resolved path, it leads to the same place wherever it is put, if the resolved path
    is absolute: then no later reader changes it. *)
Theorem C56_resolved : forall fs src s, ~ relative_path (relative fs src s) ->
  exists v, serialize_relative fs (rel_result src (EVPath s)) = Ok v /\
    forall v', untag v' = untag v -> forall i f, exists r,
      deserialize TRelative (DConf i f v') = Ok r /\
      rel_original r = Some (relative fs src s) /\
      forall fs', relative fs' (rel_source r) (relative fs src s) = relative fs src s.
Proof.
  intros fs src s H. exists (VString tag_default (relative fs src s)). split.
  { unfold serialize_relative, rel_result, rel_original, rel_source. destruct src; reflexivity. }
  intros v' U i f. destruct v' as [t x| | | | | |]; cbn in U; try discriminate. injection U as ->.
  eexists. split; [apply rel_text|]. split; [reflexivity|]. intros fs'. apply C42_unchanged. now left.
Qed.
Print Assumptions C56_resolved.

(** A file given by a relative path makes resolved paths relative; put into a value of that same
    file, they lead elsewhere. *)
Theorem C56_resolved_refuted : exists fs f v src s r,
  file_named f (vtag v) = Some src /\
  serialize_relative fs (rel_result (Some src) (EVPath s)) = Ok (untag v) /\
  deserialize TRelative (DConf Exact f v) = Ok r /\
  forall p, rel_original r = Some p ->
    locate [] (relative fs (rel_source r) p) <> locate [] (relative fs (Some src) s).
Proof.
  exists (mkFsys (fun _ => false) (fun _ => false) (fun _ => Err (lit "no such file")) None),
    (mkFigment p_default [(Tag 2, md_from (lit "TOML file") (SFile (lit "conf/app.toml")))] (Ok [])),
    (VString (Tag 2) (lit "conf/key.pem")), (lit "conf/app.toml"), (lit "key.pem").
  eexists. split; [reflexivity|]. split; [vm_compute; reflexivity|]. split; [vm_compute; reflexivity|].
  intros p E. vm_compute in E. injection E as <-. vm_compute. discriminate.
Qed.
Print Assumptions C56_resolved_refuted.

Example C56_ex_written : let fs := ex_fs in
  ~ relative_path (relative fs (Some (lit "/etc/app/conf.toml")) (lit "tls/key.pem")) /\
  serialize_relative fs (rel_result (Some (lit "/etc/app/conf.toml")) (EVPath (lit "tls/key.pem"))) =
    Ok (VString tag_default (lit "/etc/app/tls/key.pem")) /\
  serialize_original (rel_result (Some (lit "/etc/app/conf.toml")) (EVPath (lit "tls/key.pem"))) =
    Ok (VString tag_default (lit "tls/key.pem")).
Proof.
  split; [|split; vm_compute; reflexivity]. intros H.
  assert (E : relative ex_fs (Some (lit "/etc/app/conf.toml")) (lit "tls/key.pem") = lit "/etc/app/tls/key.pem")
    by (vm_compute; reflexivity).
  rewrite E in H. exact (H (lit "etc/app/tls/key.pem") eq_refl).
Qed.
