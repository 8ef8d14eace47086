(** C59, C60: documents in a data format. *)
From Coq Require Import Ascii String ZArith NArith Bool.
From Coq Require Import Floats.SpecFloat.
From Coq Require Import List.
From Verif Require Import Res BMap BMapProofs Str Profile Tag Num Value Metadata Err Coalesce Figment De Path Data Doc
  SpecValue SpecFigment SpecPriority SpecLookup SpecRt SpecInto SpecData SpecDoc
  ProfileProofs PriorityProofs PriorityProofs2 LookupProofs SerProofs FigmentProofs DocProofs.
Import ListNotations.

(** ** C59 *)
(** A document becomes exactly the value it says. *)
Theorem C59_reads : forall d v, doc_value d = Ok v <-> reads d v.
Proof. exact doc_value_reads. Qed.
Print Assumptions C59_reads.

(** Without the reserved keys every document is read, and no part of it has a source yet. *)
Theorem C59_total : forall d, plain_doc d -> exists v, reads d v /\ all_tags (eq tag_default) v.
Proof. intros d P. destruct (plain_reads d P) as [v R]. exists v. split; [exact R|]. exact (plain_tags d v P R). Qed.
Print Assumptions C59_total.

(** The only mistake a value can contain is a reserved [value_id] that is no number. *)
Theorem C59_fails : forall d e, doc_value d = Err e ->
  exists l x, inside d (DocMap l) /\ In (value_id, x) l /\ (forall t, ~ doc_id x t) /\
    e = KInvalidType (doc_actual x) (lit "a 64-bit metadata id integer").
Proof. exact doc_value_err. Qed.
Print Assumptions C59_fails.

(** And the complaint names what is there instead. *)
Theorem C59_found : forall b k z s c l x d,
  doc_actual (DocBool b) = ABool b /\
  doc_actual (DocInt k z) =
    match k with
    | I128 => AOther (lit "integer `" ++ Fmt.fmt_int z ++ lit "` as i128")
    | U128 => AOther (lit "integer `" ++ Fmt.fmt_int z ++ lit "` as u128")
    | I8 | I16 | I32 | I64 | ISize => ASigned z
    | U8 | U16 | U32 | U64 | USize => AUnsigned z
    end /\
  doc_actual (DocF64 x) = AFloat x /\ doc_actual (DocStr s) = AStr s /\ doc_actual (DocChar c) = AStr [c] /\
  doc_actual (DocSeq l) = ASeq /\ (forall m, doc_actual (DocMap m) = AMap) /\ doc_actual DocNull = AUnit /\
  doc_actual DocNone = AOption /\ doc_actual (DocSome d) = AOption /\ doc_actual (DocEnum s d) = AEnum.
Proof. intros b k z s c l x d. repeat split. destruct k; reflexivity. Qed.
Print Assumptions C59_found.

(** At the top level, a map becomes a dictionary, key by key; the reserved keys are ordinary
    keys there, and anything but a map is refused. *)
Theorem C59_dict : forall d m, doc_dict d = Ok m <-> exists l, d = DocMap l /\ says l m.
Proof. exact doc_dict_says. Qed.
Print Assumptions C59_dict.

(** What a text in the format contributes under a profile. *)
Theorem C59_source : forall nm parse mistake custom p text r,
  parsed (doc_format nm parse mistake custom) (Some p) text r ->
  match parse text with
  | Err e => r = Err (err_msg e)
  | Ok d => (exists l m, d = DocMap l /\ says l m /\ r = Ok [(p, m)]) \/
            (exists k, r = Err (err_msg (mistake text k)) /\ forall l m, d = DocMap l -> ~ says l m)
  end.
Proof. exact doc_source. Qed.
Print Assumptions C59_source.

(** Such a provider meets what C10 to C15 and C54 ask of a provider, and has at every path what
    the document has there, and nothing else. *)
Theorem C59_provider : forall nm parse mistake custom fs dd pr p text l,
  data_provider (doc_format nm parse mistake custom) fs dd = Ret pr ->
  parsed (doc_format nm parse mistake custom) (Some p) text (pv_data pr) ->
  parse text = Ok (DocMap l) -> (forall k x, In (k, x) l -> plain_doc x) ->
  plain pr /\
  (forall ks y, ks <> [] -> doc_at (DocMap l) ks y -> exists v, supplies p ks pr = Some v /\ reads y v) /\
  (forall ks v, ks <> [] -> (forall k x, In (k, x) l -> untagged_doc x) -> supplies p ks pr = Some v ->
    exists y, doc_at (DocMap l) ks y /\ reads y v).
Proof.
  intros nm parse mistake custom fs dd pr p text l D Pa E P.
  destruct (plain_provider _ _ _ _ _ _ _ _ _ _ D Pa E P) as (Pl & m & Hd & S). split; [exact Pl|].
  assert (Q : forall ks, supplies p ks pr = at_path ks (VDict tag_default m)).
  { intros ks. unfold supplies. rewrite Hd. cbn [get]. rewrite cmp_refl. reflexivity. }
  split.
  - intros ks y N A. destruct (says_at _ _ _ _ S P N A) as (v & V & R). exists v. split; [rewrite Q; apply V|exact R].
  - intros ks v N U A. rewrite Q in A. apply (at_says l m ks tag_default v S); auto. intros k x I. split; eauto.
Qed.
Print Assumptions C59_provider.

(** A configuration made from the one document gives back, by its dotted path, what the document
    says there. *)
Theorem C59_figment : forall nm parse mistake custom fs dd pr p text l loc o c f c' path ks y,
  data_provider (doc_format nm parse mistake custom) fs dd = Ret pr ->
  parsed (doc_format nm parse mistake custom) (Some p) text (pv_data pr) ->
  parse text = Ok (DocMap l) -> (forall k x, In (k, x) l -> plain_doc x) ->
  provide loc fig_new pr o c = (Ret f, c') ->
  spells path ks -> ks <> [] -> doc_at (DocMap l) ks y ->
  exists x v, find_value (fig_select f p) path = Ok x /\ strip x = strip v /\ reads y v.
Proof.
  intros nm parse mistake custom fs dd pr p text l loc o c f c' path ks y D Pa E P Hp Sp N A.
  destruct (plain_provider _ _ _ _ _ _ _ _ _ _ D Pa E P) as (_ & m & Hd & S).
  destruct (single_merged _ _ _ _ _ _ _ _ Hp Hd) as [g Hm]; [apply S|].
  destruct (says_at _ _ _ _ S P N A) as (v & V & R).
  exists (map_tag g v), v. split; [|split; [apply strip_map_tag|exact R]].
  apply (find_value_spec _ _ _ _ Sp). eexists. split; [exact Hm|].
  destruct ks as [|k ks]; [congruence|].
  assert (X := at_path_map_tag g (k :: ks) (VDict tag_default m)). rewrite V in X. exact X.
Qed.
Print Assumptions C59_figment.

Definition ex_doc : list (ustr * doc) :=
  [(lit "name", DocStr (lit "first"));
   (lit "port", DocInt U64 80);
   (lit "none", DocNull);
   (lit "limits", DocMap [(lit "json", DocInt I64 (-1)); (lit "list", DocSeq [DocBool true; DocNull])]);
   (lit "kind", DocEnum (lit "a.b") (DocStr (lit "x")));
   (lit "name", DocSome (DocStr (lit "second")))].

Example C59_ex : says ex_doc
  [(lit "kind", VDict tag_default [(lit "a", VDict tag_default [(lit "b", VString tag_default (lit "x"))])]);
   (lit "limits", VDict tag_default
      [(lit "json", VNum tag_default (NInt I64 (-1)));
       (lit "list", VArray tag_default [VBool tag_default true; VEmpty tag_default EUnit])]);
   (lit "name", VString tag_default (lit "second"));
   (lit "none", VEmpty tag_default EUnit);
   (lit "port", VNum tag_default (NInt U64 80))].
Proof.
  assert (H : doc_dict (DocMap ex_doc) = Ok
    [(lit "kind", VDict tag_default [(lit "a", VDict tag_default [(lit "b", VString tag_default (lit "x"))])]);
     (lit "limits", VDict tag_default
        [(lit "json", VNum tag_default (NInt I64 (-1)));
         (lit "list", VArray tag_default [VBool tag_default true; VEmpty tag_default EUnit])]);
     (lit "name", VString tag_default (lit "second"));
     (lit "none", VEmpty tag_default EUnit);
     (lit "port", VNum tag_default (NInt U64 80))]) by reflexivity.
  apply doc_dict_says in H. destruct H as (l & [= <-] & S). exact S.
Qed.

Ltac scalar := apply pd_scalar; intros; discriminate.
Example C59_ex_plain : forall k x, In (k, x) ex_doc -> plain_doc x.
Proof.
  intros k x H. cbn in H. repeat destruct H as [[= <- <-]|H]; try scalar.
  - apply pd_map.
    + intros k x [[= <- <-]|[[= <- <-]|[]]]; split; discriminate.
    + apply Forall_cons; [scalar|]. apply Forall_cons; [|apply Forall_nil]. cbn. apply pd_seq.
      apply Forall_cons; [scalar|]. apply Forall_cons; [scalar|apply Forall_nil].
  - apply pd_enum. scalar.
  - apply pd_some. scalar.
  - destruct H.
Qed.

Example C59_ex_at : doc_at (DocMap ex_doc) [lit "limits"; lit "json"] (DocInt I64 (-1)) /\
  doc_at (DocMap ex_doc) [lit "kind"; lit "a"; lit "b"] (DocStr (lit "x")).
Proof.
  assert (G : forall k x, last_of k ex_doc = Some x -> given ex_doc k x) by (intros; apply last_of_some; assumption).
  split.
  - eapply da_key; [apply G; reflexivity|]. eapply da_key; [apply last_of_some; reflexivity|]. constructor.
  - eapply da_key; [apply G; reflexivity|]. apply (da_enum (lit "a.b") [lit "a"; lit "b"] _ []); [|constructor].
    split; [|left; reflexivity]. repeat constructor; try discriminate; intros H; cbn in H;
      repeat destruct H as [H|H]; try discriminate; destruct H.
Qed.

(** A text in that format, and the provider made from it. *)
Definition ex_fmt : format := doc_format (lit "JSON") (fun _ => Ok (DocMap ex_doc)) (fun _ _ => []) (fun s => s).
Definition ex_nofs : fsys := mkFsys (fun _ => false) (fun _ => false) (fun _ => Err []) None.
Example C59_ex_provider : exists pr f c',
  data_provider ex_fmt ex_nofs (data_string (lit "text")) = Ret pr /\
  parsed ex_fmt (Some p_default) (lit "text") (pv_data pr) /\
  provide (mkLoc [] 1 1) fig_new pr Merge 1 = (Ret f, c') /\
  res_map untag (find_value (fig_select f p_default) (lit "limits.json")) =
    Ok (VNum tag_default (NInt I64 (-1))).
Proof. eexists. eexists. eexists. split; [reflexivity|]. split; [reflexivity|]. split; [vm_compute; reflexivity|vm_compute; reflexivity]. Qed.

(** The reserved keys are not data: what stands beside [value_value] is lost, and a text chooses
    which source its settings are said to come from. *)
Theorem C59_reserved_refuted : exists l v, reads (DocMap l) v /\
  (exists k x, given l k x /\ k <> value_id /\ k <> value_value /\ at_path [k] v = None) /\
  vtag v <> tag_default.
Proof.
  exists [(lit "port", DocInt U64 80); (value_value, DocStr (lit "x")); (value_id, DocInt U64 7)],
    (VString (Tag 7) (lit "x")).
  split; [apply doc_value_reads; reflexivity|]. split; [|discriminate].
  exists (lit "port"), (DocInt U64 80). split; [apply last_of_some; reflexivity|].
  split; [discriminate|]. split; [discriminate|reflexivity].
Qed.
Print Assumptions C59_reserved_refuted.

(** ** C60 *)
(** A nested document: each top-level key names a profile and holds that profile's settings. *)
Theorem C60_sections : forall d m, doc_profiles d = Ok m <-> exists l, d = DocMap l /\ says_profiles l m.
Proof. exact doc_profiles_says. Qed.
Print Assumptions C60_sections.

Theorem C60_source : forall nm parse mistake custom text r,
  parsed (doc_format nm parse mistake custom) None text r ->
  match parse text with
  | Err e => r = Err (err_msg e)
  | Ok d => (exists l m, d = DocMap l /\ says_profiles l m /\ r = Ok m) \/
            (exists k, r = Err (err_msg (mistake text k)) /\ forall l m, d = DocMap l -> ~ says_profiles l m)
  end.
Proof. exact doc_nested_source. Qed.
Print Assumptions C60_source.

(** The provider has for each profile what its section says, and nothing for a profile without
    a section. *)
Theorem C60_provider : forall nm parse mistake custom fs dd pr text l,
  data_provider (doc_format nm parse mistake custom) fs dd = Ret pr ->
  parsed (doc_format nm parse mistake custom) None text (pv_data pr) ->
  parse text = Ok (DocMap l) ->
  (forall k x, In (k, x) l -> exists lx, x = DocMap lx /\ forall k' y, In (k', y) lx -> plain_doc y) ->
  plain pr /\
  (forall q lx ks y, section l q (DocMap lx) -> ks <> [] -> doc_at (DocMap lx) ks y ->
    exists v, supplies q ks pr = Some v /\ reads y v) /\
  (forall q ks v, ks <> [] -> supplies q ks pr = Some v ->
    exists lx, section l q (DocMap lx) /\
      ((forall k x, In (k, x) lx -> untagged_doc x) -> exists y, doc_at (DocMap lx) ks y /\ reads y v)).
Proof.
  intros nm parse mistake custom fs dd pr text l D Pa E P.
  destruct (nested_provider _ _ _ _ _ _ _ _ _ D Pa E P) as (Pl & m & Hd & S). split; [exact Pl|].
  destruct S as (S1 & S2 & S3 & S4 & S5).
  assert (P' : forall q lx, section l q (DocMap lx) -> forall k y, In (k, y) lx -> plain_doc y).
  { intros q lx (l1 & k & l2 & -> & _) k' y I. destruct (P k (DocMap lx)) as (ly & [= <-] & Py); [apply in_elt|].
    exact (Py _ _ I). }
  split.
  - intros q lx ks y X N A. destruct (S3 _ _ X) as (ly & mx & [= <-] & G & Sx).
    destruct (says_at _ _ _ _ Sx (P' _ _ X) N A) as (v & V & R). exists v. split; [|exact R].
    unfold supplies. rewrite Hd, G. apply V.
  - intros q ks v N A. unfold supplies in A. rewrite Hd in A. destruct (get q m) as [mx|] eqn:G; [|discriminate].
    destruct (S4 _ _ G) as [x X]. destruct (S3 _ _ X) as (lx & mx' & -> & G' & Sx).
    assert (mx' = mx) by congruence. subst. exists lx. split; [exact X|]. intros U.
    apply (at_says lx mx ks tag_default v Sx); auto. intros k x I. split; [exact (P' _ _ X _ _ I)|exact (U _ _ I)].
Qed.
Print Assumptions C60_provider.

Definition ex_nested : list (ustr * doc) :=
  [(lit "default", DocMap [(lit "port", DocInt I64 80)]);
   (lit "Debug", DocMap [(lit "port", DocInt I64 81); (lit "log", DocStr (lit "all"))]);
   (lit "debug", DocMap [(lit "port", DocInt I64 82)])].
Definition ex_nested_map : bmap profile dict :=
  [(mkProfile (lit "Debug"), [(lit "port", VNum tag_default (NInt I64 82))]);
   (mkProfile (lit "default"), [(lit "port", VNum tag_default (NInt I64 80))])].
Example C60_ex : says_profiles ex_nested ex_nested_map.
Proof.
  assert (H : doc_profiles (DocMap ex_nested) = Ok ex_nested_map) by reflexivity.
  apply doc_profiles_says in H. destruct H as (l & [= <-] & S). exact S.
Qed.
Example C60_ex_section : section ex_nested (mkProfile (lit "DEBUG")) (DocMap [(lit "port", DocInt I64 82)]) /\
  (forall k x, In (k, x) ex_nested -> exists lx, x = DocMap lx /\ forall k' y, In (k', y) lx -> plain_doc y).
Proof.
  split.
  - exists (firstn 2 ex_nested), (lit "debug"), []. split; [reflexivity|]. split; [reflexivity|intros ? ? []].
  - intros k x H. cbn in H. repeat destruct H as [[= <- <-]|H]; [| | |destruct H];
      (eexists; split; [reflexivity|]; intros k' y I; cbn in I; repeat destruct I as [[= <- <-]|I]; try scalar; destruct I).
Qed.

(** Two sections whose names differ only in case are different keys to the format; of the two
    only the second counts, and settings that only the first has are lost. *)
Theorem C60_case_refuted : exists l k1 k2 l1 m,
  NoDup (map fst l) /\ In (k1, DocMap l1) l /\ k1 <> k2 /\ In k2 (map fst l) /\
  same_profile (mkProfile k1) (mkProfile k2) /\ says_profiles l m /\
  exists k x, given l1 k x /\ match get (mkProfile k1) m with Some d => get k d = None | None => True end.
Proof.
  exists ex_nested, (lit "Debug"), (lit "debug"), [(lit "port", DocInt I64 81); (lit "log", DocStr (lit "all"))], ex_nested_map.
  split; [repeat constructor; cbn; intuition discriminate|]. split; [right; left; reflexivity|].
  split; [discriminate|]. split; [right; right; left; reflexivity|]. split; [reflexivity|]. split; [exact C60_ex|].
  exists (lit "log"), (DocStr (lit "all")). split; [apply last_of_some; reflexivity|reflexivity].
Qed.
Print Assumptions C60_case_refuted.
