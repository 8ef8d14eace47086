(** Lossy extraction succeeds with the same result whenever exact extraction succeeds. *)
From Coq Require Import Ascii String ZArith NArith Bool Lia.
From Coq Require Import Floats.SpecFloat.
From Coq Require Import List.
From Verif Require Import Res BMap Str Profile Tag Num Value NumParse Metadata Err Coalesce Figment Fmt De.
From Verif Require Import DeProofs.
Import ListNotations.

(** The same deserializer, with the lossy interpreter. *)
Definition L (d : deser) : deser :=
  match d with DConf _ f v => DConf Lossy f v | _ => d end.
Definition Le (x : entry) : entry := let '(k, t, d) := x in (k, t, L d).
Definition La (a : enum_access) : enum_access :=
  match a with EUnitOnly d => EUnitOnly (L d) | EMap l => EMap (map Le l) end.

Definition mono {A} (rec : deser -> res error A) : Prop :=
  forall d x, rec d = Ok x -> rec (L d) = Ok x.

Record vis_mono {A} (vis : visitor A) : Prop := {
  vm_some : forall d x, visit_some vis d = Ok x -> visit_some vis (L d) = Ok x;
  vm_newtype : forall d x, visit_newtype vis d = Ok x -> visit_newtype vis (L d) = Ok x;
  vm_seq : forall l x, visit_seq vis l = Ok x -> visit_seq vis (map L l) = Ok x;
  vm_map : forall l x, visit_map vis l = Ok x -> visit_map vis (map Le l) = Ok x;
  vm_enum : forall a x, visit_enum vis a = Ok x -> visit_enum vis (La a) = Ok x
}.

Lemma map_access_L i f d : map Le (map_access (DConf i f) d) = map_access (DConf Lossy f) d.
Proof. unfold map_access. rewrite map_map. reflexivity. Qed.

Lemma map_L i f l : map L (map (DConf i f) l) = map (DConf Lossy f) l.
Proof. rewrite map_map. reflexivity. Qed.

Lemma value_visit_mono {A} (vis : visitor A) i f v x :
  vis_mono vis ->
  value_visit (DConf i f) v vis = Ok x -> value_visit (DConf Lossy f) v vis = Ok x.
Proof.
  intros M H. destruct v as [t s|t c|t b|t n|t e|t d|t l]; cbn [value_visit] in *; auto.
  - rewrite <- (map_access_L i). apply (vm_map _ M). assumption.
  - rewrite <- (map_L i). apply (vm_seq _ M). assumption.
Qed.

Lemma de_any_mono {A} (vis : visitor A) : vis_mono vis -> mono (fun d => de_any d vis).
Proof.
  intros M d x H. destruct d as [i f v|v|s|z|n]; auto.
  cbn [L de_any] in *. rewrite settle_ok in *. eapply value_visit_mono; eassumption.
Qed.

Lemma de_option_mono {A} (vis : visitor A) : vis_mono vis -> mono (fun d => de_option d vis).
Proof.
  intros M d x H. destruct d as [i f v|v|s|z|n]; auto.
  cbn [L de_option] in *. rewrite settle_ok in *.
  destruct v; auto; apply (vm_some _ M) in H; exact H.
Qed.

Lemma de_enum_mono {A} (vis : visitor A) : vis_mono vis -> mono (fun d => de_enum d vis).
Proof.
  intros M d x H. destruct d as [i f v|v|s|z|n]; auto.
  cbn [L de_enum] in *. rewrite settle_ok in *.
  assert (HA : de_any (DConf i f v) vis = Ok x -> de_any (DConf Lossy f v) vis = Ok x).
  { apply (de_any_mono vis M (DConf i f v)). }
  destruct v as [t s|t c|t b|t n|t e|t d|t l]; cbn [enum_visit] in *; auto.
  - apply (vm_enum _ M) in H. cbn [La] in H. rewrite map_access_L in H. exact H.
Qed.

Lemma de_newtype_mono {A} (vis : visitor A) : vis_mono vis -> mono (fun d => de_newtype d vis).
Proof.
  intros M d x H. destruct d as [i f v|v|s|z|n]; auto.
  apply (vm_newtype _ M) in H. exact H.
Qed.

Lemma de_struct_mono {A} name (vis : visitor A) : vis_mono vis -> mono (fun d => de_struct name d vis).
Proof.
  intros M d x H. destruct d as [i f v|v|s|z|n]; auto.
  cbn [L de_struct] in *. rewrite settle_ok in *.
  destruct (magic_map name f v) as [m|].
  - rewrite <- (map_access_L i). apply (vm_map _ M). assumption.
  - apply (de_any_mono vis M (DConf i f v)). assumption.
Qed.

Lemma de_128_mono {A} b (vis : visitor A) : mono (fun d => de_128 b d vis).
Proof. intros d x H. destruct d; auto; discriminate. Qed.

(** A number visitor succeeds only on numbers, the boolean visitor only on booleans, where
    interpretation does nothing. *)
Lemma de_bool_mono : mono (fun d => de_bool d bool_visitor).
Proof.
  intros d x H. destruct d as [i f v|v|s|z|n]; auto.
  cbn [L de_bool] in *. rewrite settle_ok in *. cbn [de_any] in *. rewrite map_err_ok in *.
  destruct i; [|assumption]. cbn [interpret_as_bool] in H.
  destruct v as [t s|t c|t b|t n|t e|t d|t l]; try discriminate; auto.
  - destruct n as [k z|y|y]; [destruct k|..]; discriminate.
Qed.

Lemma de_num_mono (vis : visitor dval) :
  v_bool vis = None -> v_char vis = None -> v_str vis = None -> v_none vis = None ->
  v_unit vis = None -> v_map vis = None -> v_seq vis = None ->
  mono (fun d => de_num d vis).
Proof.
  intros E1 E2 E3 E4 E5 E6 E7 d x H. destruct d as [i f v|v|s|z|n]; auto.
  cbn [L de_num] in *. rewrite settle_ok in *. cbn [de_any] in *. rewrite map_err_ok in *.
  destruct i; [|assumption]. cbn [interpret_as_num] in *.
  destruct v as [t s|t c|t b|t n|t e|t d|t l]; cbn [value_visit] in *.
  - unfold visit_str in H. rewrite E3 in H. discriminate.
  - unfold visit_char, visit_str in H. rewrite E2, E3 in H. discriminate.
  - unfold visit_bool in H. rewrite E1 in H. discriminate.
  - assumption.
  - unfold empty_visit, visit_unit, visit_none in H. rewrite E4, E5 in H. destruct e; discriminate.
  - unfold visit_map in H. rewrite E6 in H. discriminate.
  - unfold visit_seq in H. rewrite E7 in H. discriminate.
Qed.

(** Values and tags do not depend on the interpreter. *)
Lemma raw_value_interp i f v : raw_value (MConf i f) v = raw_value (MConf Lossy f) v.
Proof.
  induction v as [t s|t c|t b|t n|t e|t d IH|t l IH] using ValueProofs.value_ind'; try reflexivity.
  - cbn [raw_value mode_settle vtag]. f_equal. generalize (@nil (ustr * value)) as acc, (@None tag) as id, (@None value) as raw.
    induction IH as [|[k x] r Hx Hr IHr]; intros acc id raw; [reflexivity|].
    cbn [snd] in Hx. rewrite Hx. cbn [value_of_raw].
    assert (ET : deserialize_tag (DConf i f x) = deserialize_tag (DConf Lossy f x)).
    { unfold deserialize_tag, de_any. destruct x; reflexivity. }
    cbn [mk_de]. rewrite ET.
    destruct (ueqb k value_id).
    { destruct (deserialize_tag (DConf Lossy f x)); [|reflexivity]. cbn. apply IHr. }
    destruct (ueqb k value_value).
    { destruct (raw_value (MConf Lossy f) x); [|reflexivity]. cbn. apply IHr. }
    match goal with |- res_bind ?a _ = _ => destruct a end; [|reflexivity]. cbn. apply IHr.
  - cbn [raw_value mode_settle vtag]. f_equal. f_equal. generalize 0%N.
    induction IH as [|x r Hx Hr IHr]; intros n; [reflexivity|].
    rewrite Hx. cbn [value_of_raw].
    match goal with |- res_bind ?a _ = _ => destruct a end; [|reflexivity]. cbn. rewrite IHr. reflexivity.
Qed.

Lemma deserialize_value_mono : mono deserialize_value.
Proof.
  intros d x H. destruct d as [i f v|v|s|z|n]; auto.
  cbn [L deserialize_value] in *. rewrite <- (raw_value_interp i). exact H.
Qed.
Lemma deserialize_raw_mono : mono deserialize_raw.
Proof.
  intros d x H. destruct d as [i f v|v|s|z|n]; auto.
  cbn [L deserialize_raw] in *. rewrite <- (raw_value_interp i). exact H.
Qed.

Ltac none := intros; match goal with H : _ = Ok _ |- _ => discriminate H end.

Lemma deserialize_tag_mono : mono deserialize_tag.
Proof. apply de_any_mono. constructor; none. Qed.

Lemma next_value_mono {A} (rec : deser -> res error A) x y :
  mono rec -> next_value rec x = Ok y -> next_value rec (Le x) = Ok y.
Proof. intros M. destruct x as [[k t] d]. cbn. rewrite !map_err_ok. apply M. Qed.

Lemma next_key_L {A} (rec : deser -> res error A) x : next_key rec (Le x) = next_key rec x.
Proof. destruct x as [[k t] d]. reflexivity. Qed.

Lemma next_element_mono {A} (rec : deser -> res error A) n d y :
  mono rec -> next_element rec n d = Ok y -> next_element rec n (L d) = Ok y.
Proof. intros M. unfold next_element. rewrite !map_err_ok. apply M. Qed.

Lemma Le_key x : fst (fst (Le x)) = fst (fst x).
Proof. destruct x as [[k t] d]. reflexivity. Qed.

Lemma value_entries_mono l : forall acc id raw y,
  value_entries l acc id raw = Ok y -> value_entries (map Le l) acc id raw = Ok y.
Proof.
  induction l as [|x r IH]; intros acc id raw y; [auto|].
  cbn [map value_entries]. rewrite Le_key.
  destruct (ueqb _ value_id).
  { rewrite !res_bind_ok. intros (t & H1 & H2). exists t. split; [|auto].
    apply next_value_mono; auto. apply deserialize_tag_mono. }
  destruct (ueqb _ value_value).
  { rewrite !res_bind_ok. intros (t & H1 & H2). exists t. split; [|auto].
    apply next_value_mono; auto. apply deserialize_raw_mono. }
  rewrite !res_bind_ok. intros (t & H1 & H2). exists t. split; [|auto].
  apply next_value_mono; auto. apply deserialize_value_mono.
Qed.

Lemma value_elements_mono l : forall n y,
  value_elements l n = Ok y -> value_elements (map L l) n = Ok y.
Proof.
  induction l as [|x r IH]; intros n y; [auto|].
  cbn [map value_elements]. rewrite !res_bind_ok. intros (t & H1 & H2). exists t. split.
  - apply next_element_mono; auto. apply deserialize_value_mono.
  - rewrite res_map_ok in *. destruct H2 as (z & H2 & ->). eauto.
Qed.

Lemma value_visitor_mono : vis_mono value_visitor.
Proof.
  constructor.
  - intros d x. apply deserialize_raw_mono.
  - none.
  - intros l x. cbn. rewrite !res_map_ok. intros (y & H & ->). eauto using value_elements_mono.
  - intros l x. apply value_entries_mono.
  - intros [d|l] x; [auto|]. cbn. unfold enum_first. destruct l as [|e r]; [auto|]. cbn [map].
    rewrite !res_map_ok. intros (y & H & ->). exists y. rewrite Le_key. split; [|reflexivity].
    apply next_value_mono; auto. apply deserialize_value_mono.
Qed.

(** ** The visitors of the target types *)
Lemma all_elements_mono rec l : mono rec -> forall n y,
  all_elements rec l n = Ok y -> all_elements rec (map L l) n = Ok y.
Proof.
  intros M. induction l as [|x r IH]; intros n y; [auto|].
  cbn [map all_elements]. rewrite !res_bind_ok. intros (t & H1 & H2). exists t. split.
  - apply next_element_mono; auto.
  - rewrite res_map_ok in *. destruct H2 as (z & H2 & ->). eauto.
Qed.

Lemma tuple_elements_mono recs short : Forall mono recs -> forall l n y,
  tuple_elements recs short l n = Ok y -> tuple_elements recs short (map L l) n = Ok y.
Proof.
  induction 1 as [|rec rs M Ms IH]; intros l n y; [auto|].
  cbn [tuple_elements]. destruct l as [|d r]; [discriminate|]. cbn [map].
  rewrite !res_bind_ok. intros (t & H1 & H2). exists t. split.
  - apply next_element_mono; auto.
  - rewrite res_map_ok in *. destruct H2 as (z & H2 & ->). eauto.
Qed.

Lemma map_entries_mono rec l : mono rec -> forall acc y,
  map_entries rec l acc = Ok y -> map_entries rec (map Le l) acc = Ok y.
Proof.
  intros M. induction l as [|x r IH]; intros acc y; [auto|].
  cbn [map map_entries]. rewrite next_key_L, !res_bind_ok. intros (k & H1 & H2).
  exists k. split; [assumption|]. rewrite res_bind_ok in *. destruct H2 as (z & H2 & H3).
  exists z. split; [apply next_value_mono; auto|auto].
Qed.

Lemma pair_entries_mono reck rec l : mono rec -> forall y,
  pair_entries reck rec l = Ok y -> pair_entries reck rec (map Le l) = Ok y.
Proof.
  intros M. induction l as [|x r IH]; intros y; [auto|].
  cbn [map pair_entries]. rewrite next_key_L, !res_bind_ok. intros (k & H1 & H2).
  exists k. split; [assumption|]. rewrite res_bind_ok in *. destruct H2 as (z & H2 & H3).
  exists z. split; [apply next_value_mono; auto|]. rewrite res_map_ok in *.
  destruct H3 as (w & H3 & ->). eauto.
Qed.

Definition fields_mono (fs : list (ustr * (deser -> res error dval))) : Prop :=
  Forall (fun f => mono (snd f)) fs.

Lemma field_entries_mono deny fs l : fields_mono fs -> forall slots y,
  field_entries deny fs l slots = Ok y -> field_entries deny fs (map Le l) slots = Ok y.
Proof.
  intros M. induction l as [|x r IH]; intros slots y; [auto|].
  cbn [map field_entries]. rewrite next_key_L, !res_bind_ok. intros (k & H1 & H2).
  exists k. split; [assumption|]. destruct k as [k|]; [|auto].
  destruct (assoc k fs) as [rec|] eqn:E; [|auto].
  destruct (assoc k slots); [discriminate|].
  rewrite res_bind_ok in *. destruct H2 as (z & H2 & H3).
  exists z. split; [|auto]. apply next_value_mono; auto.
  apply assoc_In in E. unfold fields_mono in M. rewrite Forall_forall in M.
  apply (M _ E).
Qed.

Lemma struct_visitor_mono exp deny fs h : fields_mono fs -> vis_mono (struct_visitor exp deny fs h).
Proof.
  intros M. constructor; try none.
  - intros l x. cbn. rewrite !res_map_ok. intros (y & H & ->). exists y. split; [|reflexivity].
    apply tuple_elements_mono; [|assumption].
    unfold fields_mono in M. rewrite Forall_forall in *. intros rec HI.
    apply in_map_iff in HI. destruct HI as (p & <- & HI). auto.
  - intros l x. cbn. rewrite !res_map_ok. intros (y & H & ->). exists y. split; [|reflexivity].
    rewrite res_bind_ok in *. destruct H as (s & H & H2). exists s. split; [|assumption].
    apply field_entries_mono; assumption.
Qed.

Lemma tuple_visitor_mono exp recs h : Forall mono recs -> vis_mono (tuple_visitor exp recs h).
Proof.
  intros M. constructor; try none.
  intros l x. cbn. rewrite !res_map_ok. intros (y & H & ->). exists y. split; [|reflexivity].
  apply tuple_elements_mono; assumption.
Qed.

Lemma newtype_visitor_mono exp rec : mono rec -> vis_mono (newtype_visitor exp rec).
Proof.
  intros M. constructor; try none.
  - intros d x. cbn. rewrite !res_map_ok. intros (y & H & ->). exists y. split; [apply M; assumption|reflexivity].
  - intros l x. unfold visit_seq, newtype_visitor. cbn [v_seq]. rewrite !res_map_ok.
    intros (y & H & ->). exists y. split; [|reflexivity].
    apply tuple_elements_mono; auto.
Qed.

Definition shape_mono (s : shape (deser -> res error dval)) : Prop :=
  match s with
  | ShUnit => True
  | ShNew rec => mono rec
  | ShTuple recs => Forall mono recs
  | ShStruct fs => fields_mono fs
  end.

Lemma variant_key_L vs d : variant_key vs (L d) = variant_key vs d.
Proof. destruct d; reflexivity. Qed.

Lemma variant_value_mono full s x y :
  shape_mono s -> variant_value full s x = Ok y -> variant_value full s (Le x) = Ok y.
Proof.
  intros M. destruct s as [|rec|recs|fs]; cbn [variant_value shape_mono] in *;
    rewrite !res_map_ok; intros (z & H & ->); exists z; (split; [|reflexivity]);
    (eapply next_value_mono in H; [exact H|]).
  - apply de_any_mono. constructor; none.
  - assumption.
  - apply de_any_mono, tuple_visitor_mono. assumption.
  - apply de_any_mono, struct_visitor_mono. assumption.
Qed.

Lemma enum_visitor_mono ident vs :
  Forall (fun v => shape_mono (snd v)) vs -> vis_mono (enum_visitor ident vs).
Proof.
  intros M. constructor; try none.
  intros [d|l] x; unfold visit_enum, enum_visitor; cbn [v_enum La].
  - rewrite variant_key_L. auto.
  - unfold enum_first. destruct l as [|e r]; [auto|]. cbn [map]. rewrite next_key_L.
    rewrite !res_bind_ok. intros (k & H1 & H2). exists k. split; [assumption|].
    destruct (assoc k vs) as [s|] eqn:E; [|assumption].
    rewrite res_map_ok in *. destruct H2 as (y & H2 & ->). exists y. split; [|reflexivity].
    apply variant_value_mono; [|assumption].
    apply assoc_In in E. rewrite Forall_forall in M. apply (M _ E).
Qed.

Theorem deserialize_mono t : mono (deserialize t).
Proof.
  induction t as [|k| | | | | |t IH|t IH|ts IH|t IH|k t IHk IH|n i dn fs IH|i t IH|i ts IH|i|i vs IH| | | | | | |a b IHa IHb]
    using ty_ind'; cbn [deserialize].
  - apply de_bool_mono.
  - destruct k; try (apply de_128_mono); apply de_num_mono; reflexivity.
  - apply de_num_mono; reflexivity.
  - apply de_num_mono; reflexivity.
  - apply de_any_mono. constructor; none.
  - apply de_any_mono. constructor; none.
  - apply de_any_mono. constructor; none.
  - apply de_option_mono. constructor; try none.
    intros d x. cbn. rewrite !res_map_ok. intros (y & H & ->). exists y. split; [apply IH; assumption|reflexivity].
  - apply de_any_mono. constructor; try none.
    intros l x. cbn. rewrite !res_map_ok. intros (y & H & ->). exists y. split; [|reflexivity].
    apply all_elements_mono; assumption.
  - apply de_any_mono. constructor; try none.
    intros l x. cbn. rewrite !res_map_ok. intros (y & H & ->). exists y. split; [|reflexivity].
    apply tuple_elements_mono; [|assumption]. rewrite Forall_map. exact IH.
  - apply de_any_mono. constructor; try none.
    intros l x. cbn. rewrite !res_map_ok. intros (y & H & ->). exists y. split; [|reflexivity].
    apply map_entries_mono; assumption.
  - apply de_any_mono. constructor; try none.
    intros l x. cbn. rewrite !res_map_ok. intros (y & H & ->). exists y. split; [|reflexivity].
    apply pair_entries_mono; assumption.
  - apply de_struct_mono, struct_visitor_mono. unfold fields_mono. rewrite Forall_map. exact IH.
  - apply de_newtype_mono, newtype_visitor_mono. assumption.
  - apply de_any_mono, tuple_visitor_mono. rewrite Forall_map. exact IH.
  - apply de_any_mono. constructor; none.
  - apply de_enum_mono, enum_visitor_mono. rewrite Forall_map.
    eapply Forall_impl; [|exact IH]. intros [n [|t|ts|fs]]; cbn; auto.
    + intros H. rewrite Forall_map. exact H.
    + intros H. unfold fields_mono. rewrite Forall_map. exact H.
  - intros d x. rewrite !res_map_ok. intros (y & H & ->). exists y. split; [|reflexivity].
    apply deserialize_value_mono. assumption.
  - intros d x. rewrite !res_map_ok. intros (y & H & ->). exists y. split; [|reflexivity].
    apply deserialize_tag_mono. assumption.
  - apply de_any_mono. constructor; none.
  - apply de_any_mono. constructor; none.
  - intros d x. destruct d; auto.
  - apply de_any_mono. constructor; none.
  - intros d x. rewrite !res_bind_ok. intros (v & H & H2). exists v. split; [|assumption].
    apply (de_struct_mono _ _ value_visitor_mono). assumption.
Qed.
