(** Proofs about [Either], and about [Tagged] and [RelativePathBuf] put back. *)
From Coq Require Import Ascii String ZArith NArith Bool Lia Permutation.
From Coq Require Import Floats.SpecFloat.
From Coq Require Import List.
From Verif Require Import Res BMap Str Profile Tag Num Value NumParse Metadata Err Coalesce Figment Fmt De Ser Path Data.
From Verif Require Import BMapProofs StrProofs ProfileProofs ValueProofs CoalesceProofs FigmentProofs LookupProofs
  LossyProofs.
From Verif Require Import SpecValue SpecFigment SpecLookup SpecParse SpecLossy SpecDe SpecRt SpecMagic SpecExtract
  SpecPath SpecData SpecEither DeProofs BlameProofs RtProofs MagicProofs DataProofs MeaningProofs.
Import ListNotations.

Lemma as_read_wf : forall v o, wf v -> wf (as_read o v).
Proof.
  induction v as [t s|t c|t b0|t n|t e|t d IH|t l IH] using value_ind'; intros o W; cbn [as_read]; try exact I.
  - apply wf_VDict in W. apply wf_VDict. destruct W as [S W]. split.
    + apply (sorted_keys (K := ustr) d); [|exact S]. unfold keys. rewrite map_map. reflexivity.
    + rewrite Forall_forall in *. intros kx H. apply in_map_iff in H. destruct H as (y & <- & Hy).
      cbn [snd]. apply (IH _ Hy). exact (W _ Hy).
  - apply wf_VArray in W. apply wf_VArray. rewrite Forall_forall in *. intros x H.
    apply in_map_iff in H. destruct H as (y & <- & Hy). apply (IH _ Hy). exact (W _ Hy).
Qed.

Lemma de_struct_map {A} name i f v (vis : visitor A) d m :
  magic_map name f v = Some m -> visit_map vis (map_access (DConf i f) m) = Ok d ->
  de_struct name (DConf i f v) vis = Ok d.
Proof. intros M H. cbn [de_struct]. rewrite M. apply settle_ok. exact H. Qed.

Lemma entries_read i f (m : dict) : sorted m -> ~ In value_id (map fst m) -> ~ In value_value (map fst m) ->
  Forall (fun kv => wf (snd kv) /\ magic_free (snd kv)) m ->
  visit_map value_visitor (map_access (DConf i f) m) =
  Ok (VDict tag_default (map (fun kv => (fst kv, as_read (vtag (snd kv)) (snd kv))) m)).
Proof.
  intros S N1 N2 F. unfold visit_map. cbn [value_visitor v_map].
  change (DConf i f) with (mk_de (MConf i f)). rewrite value_entries_plain; auto.
  - do 2 f_equal. apply (extend_mapped m (fun x => as_read (vtag x) x)). exact S.
  - rewrite Forall_forall in *. intros kv H. destruct (F _ H). cbn [mk_de]. apply value_read; assumption.
Qed.

Lemma magic_free_scalar v : (forall p x, reach p v x -> match x with VDict _ _ => False | _ => True end) ->
  magic_free v.
Proof. intros H p x R. specialize (H p x R). destruct x; tauto. Qed.

Lemma num_magic_free t n : magic_free (VNum t n).
Proof. apply magic_free_scalar. intros p x R. inversion R; subst; exact I. Qed.
Lemma string_magic_free t n : magic_free (VString t n).
Proof. apply magic_free_scalar. intros p x R. inversion R; subst; exact I. Qed.

(** What [Either<Tagged<T>, B>] reads first. *)
Lemma tagged_value_read i f v : wf v -> magic_free v -> not_tagged v ->
  de_struct tagged_name (DConf i f v) value_visitor =
  Ok (VDict tag_default [(tagged_tag, value_of_tag (vtag v)); (tagged_value, as_read (vtag v) v)]).
Proof.
  intros W M T. eapply de_struct_map; [reflexivity|].
  rewrite (tagged_magic_fresh v T). rewrite entries_read.
  - reflexivity.
  - apply (sorted_keys (K := ustr) [(tagged_tag, VEmpty tag_default EUnit); (tagged_value, VEmpty tag_default EUnit)]);
      [reflexivity|]. repeat constructor.
  - cbn. intros H; decompose [or] H; discriminate || contradiction.
  - cbn. intros H; decompose [or] H; discriminate || contradiction.
  - repeat constructor; cbn [snd]; auto; try exact I. apply num_magic_free.
Qed.

Lemma tagged_plain t u g w : deserialize (TTagged t) (DPlain (VDict u [(tagged_tag, value_of_tag g); (tagged_value, w)])) =
  res_map_err (retagged u) (res_map (tagged_result g) (at_key tagged_value (vtag w) (deserialize t (DPlain w)))).
Proof.
  unfold TTagged. cbn [deserialize map fst snd de_struct de_any vtag value_visit]. f_equal.
  cbn [map_access map fst snd]. unfold visit_map. cbn [struct_visitor v_map].
  rewrite (tagged_fields _ _ _ _ _ _ (EVTag g)).
  - destruct (at_key tagged_value (vtag w) (deserialize t (DPlain w))); reflexivity.
  - cbn. rewrite N2Z.id. destruct g; reflexivity.
Qed.

Definition right_side (b : ty) (ea : error) (w : value) : res error dval :=
  match deserialize b (DPlain w) with
  | Ok x => Ok (EVRight x)
  | Err eb => Err (err_msg (fmt_kind (e_kind ea) ++ lit "; " ++ fmt_kind (e_kind eb)))
  end.

Lemma either_tagged_unfold t b i f v : wf v -> magic_free v -> not_tagged v ->
  deserialize (TEither (TTagged t) b) (DConf i f v) =
  match deserialize t (DPlain (as_read (vtag v) v)) with
  | Ok x => Ok (EVLeft (tagged_result (vtag v) x))
  | Err ea => right_side b ea (as_read (vtag v) v)
  end.
Proof.
  intros W M T. cbn [deserialize].
  change (struct_name (TTagged t)) with tagged_name. rewrite (tagged_value_read i f v W M T).
  cbn [res_bind]. change (fun f0 : ustr * ty => (fst f0, deserialize (snd f0))) with
    (fun f0 : ustr * ty => (fst f0, deserialize (snd f0))).
  match goal with |- match ?a with _ => _ end = _ =>
    change a with (deserialize (TTagged t) (DPlain (VDict tag_default
      [(tagged_tag, value_of_tag (vtag v)); (tagged_value, as_read (vtag v) v)]))) end.
  rewrite tagged_plain. unfold at_key, right_side.
  destruct (deserialize t (DPlain (as_read (vtag v) v))) as [x|ea]; [reflexivity|].
  cbn [res_map_err res_map].
  change (option_bind _ _) with (Some (as_read (vtag v) v)). cbn match.
  destruct (deserialize b _); [reflexivity|]. do 2 f_equal. f_equal.
  unfold retagged, prefixed. destruct ea. cbn.
  repeat match goal with |- context [if ?b then _ else _] => destruct b end; reflexivity.
Qed.

Lemma either_ok (A B : dval -> Prop) (ra rb : res error dval) (h : dval -> dval) (g : error -> error -> error) y :
  (forall x, ra = Ok x <-> A x) -> (forall x, rb = Ok x <-> B x) ->
  match ra with Ok x => Ok (EVLeft (h x)) | Err ea =>
    match rb with Ok x => Ok (EVRight x) | Err eb => Err (g ea eb) end end = Ok y <->
  either (fun x => exists x0, A x0 /\ x = h x0) B y.
Proof.
  intros HA HB. unfold either. destruct ra as [x|ea].
  - split.
    + intros E. injection E as <-. left. exists (h x). split; [|reflexivity]. exists x.
      split; [apply HA; reflexivity|reflexivity].
    + intros [(x' & (x0 & HX & ->) & ->)|[N _]].
      * apply HA in HX. injection HX as ->. reflexivity.
      * exfalso. apply (N (h x)). exists x. split; [apply HA; reflexivity|reflexivity].
  - assert (NA : forall x, ~ A x) by (intros x HX; apply HA in HX; discriminate).
    destruct rb as [x|eb].
    + split.
      * intros E. injection E as <-. right. split.
        -- intros x' (x0 & HX & _). exact (NA _ HX).
        -- exists x. split; [apply HB; reflexivity|reflexivity].
      * intros [(x' & (x0 & HX & _) & _)|(_ & x' & HX & ->)]; [destruct (NA _ HX)|].
        apply HB in HX. injection HX as ->. reflexivity.
    + split; [discriminate|].
      intros [(x' & (x0 & HX & _) & _)|(_ & x' & HX & ->)]; [destruct (NA _ HX)|].
      apply HB in HX. discriminate.
Qed.

Lemma either_tagged t b i f v y : ordinary t -> named_apart t -> ordinary b -> named_apart b ->
  wf v -> magic_free v -> not_tagged v ->
  deserialize (TEither (TTagged t) b) (DConf i f v) = Ok y <->
  either (fun x => exists x0, extracts Exact t (as_read (vtag v) v) x0 /\ x = tagged_result (vtag v) x0)
         (extracts Exact b (as_read (vtag v) v)) y.
Proof.
  intros O N Ob Nb W M T. rewrite (either_tagged_unfold t b i f v W M T). unfold right_side.
  apply either_ok.
  - intros x. exact (mn_value _ _ _ _ (extraction_meant t O N MPlain) _ x (as_read_wf v _ W)).
  - intros x. exact (mn_value _ _ _ _ (extraction_meant b Ob Nb MPlain) _ x (as_read_wf v _ W)).
Qed.

(** ** Relative paths *)
Lemma rel_value_read i f v : wf v -> magic_free v -> not_relative v ->
  de_struct rel_name (DConf i f v) value_visitor =
  Ok (VDict tag_default (match file_named f (vtag v) with
                         | Some p => [(rel_metadata_path, VString tag_default p); (rel_path, as_read (vtag v) v)]
                         | None => [(rel_path, as_read (vtag v) v)]
                         end)).
Proof.
  intros W M T. eapply de_struct_map; [reflexivity|].
  rewrite (rel_magic_fresh f v T). rewrite entries_read.
  - destruct (file_named f (vtag v)); reflexivity.
  - destruct (file_named f (vtag v)).
    + apply (sorted_keys (K := ustr) [(rel_metadata_path, VEmpty tag_default EUnit); (rel_path, VEmpty tag_default EUnit)]);
        [reflexivity|]. repeat constructor.
    + apply (sorted_keys (K := ustr) [(rel_path, VEmpty tag_default EUnit)]); [reflexivity|]. repeat constructor.
  - destruct (file_named f (vtag v)); cbn; intros H; decompose [or] H; discriminate || contradiction.
  - destruct (file_named f (vtag v)); cbn; intros H; decompose [or] H; discriminate || contradiction.
  - destruct (file_named f (vtag v)); repeat constructor; cbn [snd]; auto; try exact I. apply string_magic_free.
Qed.

Lemma rel_plain u src w : deserialize TRelative (DPlain (VDict u (match src with
    | Some p => [(rel_metadata_path, VString tag_default p); (rel_path, w)]
    | None => [(rel_path, w)] end))) =
  res_map_err (retagged u) (res_map (rel_result src) (at_key rel_path (vtag w) (deserialize TPath (DPlain w)))).
Proof.
  unfold TRelative. cbn [deserialize map fst snd de_struct de_any vtag value_visit]. f_equal.
  destruct src as [p|]; cbn [map_access map fst snd]; unfold visit_map; cbn [struct_visitor v_map].
  - rewrite (rel_fields1 _ _ _ _ _ _ (EVSome (EVPath p))); [|reflexivity].
    destruct (at_key rel_path (vtag w) _); reflexivity.
  - rewrite (rel_fields2 _ _ _ _ EVNone); [|reflexivity].
    destruct (at_key rel_path (vtag w) _); reflexivity.
Qed.

Lemma either_rel_unfold b i f v : wf v -> magic_free v -> not_relative v ->
  deserialize (TEither TRelative b) (DConf i f v) =
  match deserialize TPath (DPlain (as_read (vtag v) v)) with
  | Ok x => Ok (EVLeft (rel_result (file_named f (vtag v)) x))
  | Err ea => right_side b ea (as_read (vtag v) v)
  end.
Proof.
  intros W M T. cbn [deserialize].
  change (struct_name TRelative) with rel_name. rewrite (rel_value_read i f v W M T).
  cbn [res_bind].
  match goal with |- match ?a with _ => _ end = _ =>
    change a with (deserialize TRelative (DPlain (VDict tag_default
      (match file_named f (vtag v) with
       | Some p => [(rel_metadata_path, VString tag_default p); (rel_path, as_read (vtag v) v)]
       | None => [(rel_path, as_read (vtag v) v)] end)))) end.
  rewrite rel_plain. unfold at_key, right_side.
  change (deserialize TPath (DPlain (as_read (vtag v) v))) with
    (de_any (DPlain (as_read (vtag v) v)) (str_visitor (lit "path string") (fun s => Ok (EVPath s)))).
  destruct (de_any (DPlain (as_read (vtag v) v)) _) as [x|ea]; [reflexivity|].
  cbn [res_map_err res_map].
  replace (option_bind _ _) with (Some (as_read (vtag v) v))
    by (destruct (file_named f (vtag v)); reflexivity). cbn match.
  destruct (deserialize b _); [reflexivity|]. do 2 f_equal. f_equal.
  unfold retagged, prefixed. destruct ea. cbn.
  repeat match goal with |- context [if ?b then _ else _] => destruct b end; reflexivity.
Qed.

Lemma either_rel b i f v y : ordinary b -> named_apart b -> wf v -> magic_free v -> not_relative v ->
  deserialize (TEither TRelative b) (DConf i f v) = Ok y <->
  either (fun x => exists s, text v s /\ x = rel_result (file_named f (vtag v)) (EVPath s))
         (extracts Exact b (as_read (vtag v) v)) y.
Proof.
  intros Ob Nb W M T. rewrite (either_rel_unfold b i f v W M T). unfold right_side.
  rewrite (either_ok (extracts Exact TPath (as_read (vtag v) v)) (extracts Exact b (as_read (vtag v) v))).
  - unfold either. assert (X : forall s, text (as_read (vtag v) v) s <-> text v s).
    { intros s. destruct v; cbn [as_read]; (split; intros H; inversion H; subst; constructor). }
    assert (Y : forall x, (exists x0, extracts Exact TPath (as_read (vtag v) v) x0 /\
                x = rel_result (file_named f (vtag v)) x0) <->
             (exists s, text v s /\ x = rel_result (file_named f (vtag v)) (EVPath s))).
    { intros x. cbn [extracts]. split.
      - intros (x0 & (s & H & ->) & ->). exists s. split; [apply X; exact H|reflexivity].
      - intros (s & H & ->). eexists. split; [|reflexivity]. exists s. split; [apply X; exact H|reflexivity]. }
    setoid_rewrite Y. reflexivity.
  - intros x. exact (mn_value _ _ _ _ (extraction_meant TPath I I MPlain) _ x (as_read_wf v _ W)).
  - intros x. exact (mn_value _ _ _ _ (extraction_meant b Ob Nb MPlain) _ x (as_read_wf v _ W)).
Qed.

(** ** Putting [Tagged] back *)
Lemma stored_tagged t i f u h g w :
  deserialize (TTagged t) (DConf i f (VDict u [(tagged_tag, VNum h (NInt U64 (Z.of_N (tag_raw g)))); (tagged_value, w)])) =
  settle f u (res_map (tagged_result (kept_tag g u))
                      (at_key tagged_value (vtag w) (deserialize t (DConf i f w)))).
Proof.
  unfold TTagged. cbn [deserialize map fst snd de_struct].
  match goal with |- context [magic_map tagged_name f ?v] =>
    change (magic_map tagged_name f v) with (Some (tagged_magic v)) end. cbn match. cbn [vtag]. f_equal.
  unfold tagged_magic. cbn [as_dict].
  match goal with |- context [get tagged_tag ?d] =>
    change (get tagged_tag d) with (Some (VNum h (NInt U64 (Z.of_N (tag_raw g))))) end. cbn match.
  match goal with |- context [deserialize_tag ?d] =>
    change (deserialize_tag d) with (Ok (E := error) (Tag (Z.to_N (Z.of_N (tag_raw g))))) end. cbn match.
  rewrite N2Z.id. unfold is_default, kept_tag. cbn [tag_raw tag_default].
  replace (Tag (tag_raw g)) with g by (destruct g; reflexivity).
  match goal with |- context [vfind_ref tagged_value ?v] =>
    change (vfind_ref tagged_value v) with (Some w) end. cbn match.
  change (tag_raw (Tag 0)) with 0%N.
  destruct (N.eqb (tag_raw g) 0).
  - change (insert tagged_value w _) with [(tagged_tag, value_of_tag u); (tagged_value, w)].
    cbn [map_access map fst snd]. unfold visit_map. cbn [struct_visitor v_map].
    rewrite (tagged_fields _ _ _ _ _ _ (EVTag u)).
    + destruct (at_key tagged_value (vtag w) _); reflexivity.
    + rewrite deserialize_tag_of_tag. reflexivity.
  - cbn [map_access map fst snd]. unfold visit_map. cbn [struct_visitor v_map].
    rewrite (tagged_fields _ _ _ _ _ _ (EVTag g)).
    + destruct (at_key tagged_value (vtag w) _); reflexivity.
    + cbn. rewrite N2Z.id. destruct g; reflexivity.
Qed.

Definition stored_file (h : tag) (src : option ustr) : value :=
  match src with Some p => VString h p | None => VEmpty h ENone end.

Lemma stored_rel i f u h src w :
  deserialize TRelative (DConf i f (VDict u [(rel_metadata_path, stored_file h src); (rel_path, w)])) =
  settle f u (res_map (rel_result (kept_file src (file_named f u)))
                      (at_key rel_path (vtag w) (deserialize TPath (DConf i f w)))).
Proof.
  unfold TRelative. cbn [deserialize map fst snd de_struct].
  match goal with |- context [magic_map rel_name f ?v] =>
    change (magic_map rel_name f v) with (Some (rel_magic f v)) end. cbn match. cbn [vtag]. f_equal.
  unfold rel_magic. cbn [as_dict vtag].
  match goal with |- context [get rel_metadata_path ?d] =>
    change (get rel_metadata_path d) with (Some (stored_file h src)) end. cbn match.
  destruct src as [p|]; cbn [stored_file to_empty kept_file].
  - cbn [map_access map fst snd]. unfold visit_map. cbn [struct_visitor v_map].
    rewrite (rel_fields1 _ _ _ _ _ _ (EVSome (EVPath p))); [|reflexivity].
    destruct (at_key rel_path (vtag w) _); reflexivity.
  - match goal with |- context [vfind_ref rel_path ?v] =>
      change (vfind_ref rel_path v) with (Some w) end. cbn match.
    replace (option_bind (get_metadata f u) _) with (file_named f u).
    2:{ unfold file_named, get_metadata. destruct (get u (f_metadata f)) as [md|]; cbn [option_bind]; [|reflexivity].
        destruct (md_source md) as [[q|l|c]|]; reflexivity. }
    destruct (file_named f u) as [p|].
    + change (insert rel_path w _) with [(rel_metadata_path, VString tag_default p); (rel_path, w)].
      cbn [map_access map fst snd]. unfold visit_map. cbn [struct_visitor v_map].
      rewrite (rel_fields1 _ _ _ _ _ _ (EVSome (EVPath p))); [|reflexivity].
      destruct (at_key rel_path (vtag w) _); reflexivity.
    + change (insert rel_path w _) with [(rel_path, w)].
      cbn [map_access map fst snd]. unfold visit_map. cbn [struct_visitor v_map].
      rewrite (rel_fields2 _ _ _ _ EVNone); [|reflexivity].
      destruct (at_key rel_path (vtag w) _); reflexivity.
Qed.
