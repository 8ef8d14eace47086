(** C73: merge keys in YAML documents. *)
From Coq Require Import Ascii String ZArith NArith Bool.
From Coq Require Import List.
From Verif Require Import Res BMap BMapProofs Str Profile Tag Num Value Metadata Err Coalesce Figment De Path Data Doc Yaml.
From Verif Require Import SpecValue SpecFigment SpecPriority SpecLookup SpecRt SpecInto SpecData SpecDoc SpecYaml.
From Verif Require Import DocProofs YamlProofs PropsDoc.
Import ListNotations.

(** ** C73 *)

(** What merge keys lead to: every map has its own entries, and those of its bases it has not. *)
Theorem C73_resolved : forall d d', once d -> apply_merge d = Ok d' -> resolved d d'.
Proof. exact apply_merge_resolved. Qed.
Print Assumptions C73_resolved.

(** A document is refused exactly if something other than maps is to be merged. *)
Theorem C73_fails : forall d, once d -> ((exists e, apply_merge d = Err e) <-> unmergeable d).
Proof.
  intros d O. split; [intros [e E]; now apply (apply_merge_err d e)|]. intros U.
  destruct (apply_merge d) as [d'|e] eqn:E; [|eauto]. now destruct (unmergeable_err d U O d').
Qed.
Print Assumptions C73_fails.

(** A document without merge keys means the same to [Yaml] and to [YamlExtended]. *)
Theorem C73_mergeless : forall nm parse mistake custom text,
  (forall d, parse text = Ok d -> mergeless d) ->
  fm_dict (yaml_extended parse mistake custom) text = fm_dict (doc_format nm parse mistake custom) text /\
  fm_map (yaml_extended parse mistake custom) text = fm_map (doc_format nm parse mistake custom) text.
Proof.
  intros nm parse mistake custom text M. cbn [yaml_extended doc_format fm_dict fm_map].
  destruct (parse text) as [d|e]; cbn [res_bind]; [|split; reflexivity].
  rewrite (mergeless_same d (M d eq_refl)). split; reflexivity.
Qed.
Print Assumptions C73_mergeless.

(** The provider has at every path what the document has there with its merge keys honoured, and
    nothing else. *)
Theorem C73_provider : forall parse mistake custom fs dd pr p text d d',
  data_provider (yaml_extended parse mistake custom) fs dd = Ret pr ->
  parsed (yaml_extended parse mistake custom) (Some p) text (pv_data pr) ->
  parse text = Ok d -> once d -> plain_doc d -> apply_merge d = Ok d' -> (exists l, d' = DocMap l) ->
  plain pr /\
  (forall ks y, ks <> [] -> written_at d ks y ->
     exists y' v, resolved y y' /\ reads y' v /\ supplies p ks pr = Some v) /\
  (forall ks v, ks <> [] -> untagged_doc d -> supplies p ks pr = Some v ->
     exists y y', written_at d ks y /\ resolved y y' /\ reads y' v).
Proof.
  intros parse mistake custom fs dd pr p text d d' HD HP HT O P E [l ->].
  assert (R := apply_merge_resolved d _ O E).
  assert (P' := resolved_plain d _ P R).
  assert (PL : forall k x, In (k, x) l -> plain_doc x).
  { intros k x I. eapply plain_child; [exact P'|]. econstructor; exact I. }
  assert (HT' : res_bind (parse text) apply_merge = Ok (DocMap l)) by (rewrite HT; exact E).
  destruct (C59_provider _ _ _ _ _ _ _ _ _ _ HD HP HT' PL) as (H1 & H2 & H3). split; [exact H1|]. split.
  - intros ks y N W. destruct (resolved_at d ks y W _ R) as (y' & A & RY).
    destruct (H2 ks y' N A) as (v & S & RV). exists y', v. auto.
  - intros ks v N U S. destruct (H3 ks v N) as (y' & A & RV); [|exact S|].
    + intros k x I. eapply untagged_child; [exact (resolved_untagged d _ U R)|]. econstructor; exact I.
    + destruct (resolved_from _ ks y' A d R) as (y & W & RY). exists y, y'. auto.
Qed.
Print Assumptions C73_provider.

(** *** The example of the documentation *)
Definition ym_point : doc := DocMap [(lit "x", DocInt U64 1); (lit "y", DocInt U64 2)].
Definition ym_radius : doc := DocMap [(lit "r", DocInt U64 10)].
Definition ym_doc : doc :=
  DocMap
    [(lit "point", ym_point); (lit "radius", ym_radius);
     (lit "circle1", DocMap [(lit "<<", ym_point); (lit "r", DocInt U64 3)]);
     (lit "circle2", DocMap [(lit "<<", DocSeq [ym_point; ym_radius])]);
     (lit "circle3", DocMap [(lit "<<", DocSeq [ym_point; ym_radius]); (lit "y", DocInt U64 14); (lit "r", DocInt U64 20)])].

(** A check that no map names a key twice. *)
Fixpoint distinct (l : list ustr) : bool :=
  match l with [] => true | k :: r => negb (existsb (ueqb k) r) && distinct r end.
Fixpoint once_b (d : doc) : bool :=
  match d with
  | DocSome x | DocEnum _ x => once_b x
  | DocSeq l => forallb once_b l
  | DocMap l => distinct (map fst l) && forallb (fun kx => once_b (snd kx)) l
  | _ => true
  end.
Lemma distinct_nodup l : distinct l = true -> NoDup l.
Proof.
  induction l as [|k r IH]; intros H; [constructor|]. apply andb_prop in H. destruct H as [H1 H2].
  constructor; [|auto]. intros I. apply negb_true_iff in H1. rewrite <- not_true_iff_false in H1. apply H1.
  apply existsb_exists. exists k. split; [exact I|]. now apply StrProofs.ueqb_eq.
Qed.
Lemma once_check d : once_b d = true -> once d.
Proof.
  intros H l I. remember (DocMap l) as x eqn:E.
  induction I as [d|d y I IH|l0 x y J I IH|l0 k x y J I IH|n d y I IH]; subst; auto.
  - cbn in H. apply andb_prop in H. now apply distinct_nodup.
  - apply IH; [|reflexivity]. cbn in H. rewrite forallb_forall in H. now apply H.
  - apply IH; [|reflexivity]. cbn in H. apply andb_prop in H. destruct H as [_ H].
    rewrite forallb_forall in H. exact (H (k, x) J).
Qed.

Lemma ym_once : once ym_doc.
Proof. now apply once_check. Qed.

Definition ym_circle : ty := TStruct (lit "Circle") (lit "Circle") false
  [(lit "x", TInt U64); (lit "y", TInt U64); (lit "r", TInt U64)].
Definition ym_config : ty := TStruct (lit "Config") (lit "Config") false
  [(lit "circle1", ym_circle); (lit "circle2", ym_circle); (lit "circle3", ym_circle)].
Definition ym_value (x y r : Z) : dval :=
  EVStruct [(lit "x", EVInt U64 x); (lit "y", EVInt U64 y); (lit "r", EVInt U64 r)].
Definition ym_parse : ustr -> res ustr doc := fun _ => Ok ym_doc.
Definition ym_fmt : format := yaml_extended ym_parse (fun _ _ => []) (fun s => s).
Definition ym_plain_fmt : format := doc_format (lit "YAML") ym_parse (fun _ _ => []) (fun s => s).
Definition ym_figment (fm : format) : figment :=
  match data_provider fm ex_nofs (data_string (lit "text")) with
  | Ret pr => match provide (mkLoc [] 1 1) fig_new pr Merge 1 with (Ret f, _) => f | _ => fig_new end
  | _ => fig_new
  end.
Example C73_documented :
  once ym_doc /\
  extract Exact (ym_figment ym_fmt) ym_config =
    Ok (EVStruct [(lit "circle1", ym_value 1 2 3); (lit "circle2", ym_value 1 2 10); (lit "circle3", ym_value 1 14 20)]) /\
  exists e, extract Exact (ym_figment ym_plain_fmt) ym_config = Err e.
Proof.
  split; [exact ym_once|]. split; [vm_compute; reflexivity|]. eexists. vm_compute. reflexivity.
Qed.

(** The hypotheses of C73_provider are met, and paths lead through merge keys. *)
Example C73_ex :
  (exists l, apply_merge ym_doc = Ok (DocMap l)) /\ plain_doc ym_doc /\ untagged_doc ym_doc /\
  written_at ym_doc [lit "circle3"; lit "x"] (DocInt U64 1) /\
  written_at ym_doc [lit "circle3"; lit "y"] (DocInt U64 14).
Proof.
  split; [eexists; vm_compute; reflexivity|]. split; [|split; [|split]].
  - unfold ym_doc, ym_point, ym_radius.
    repeat first
      [ apply pd_map; [intros ? ? I; cbn in I; repeat (destruct I as [[= <- <-]|I]; [split; discriminate|]); destruct I|]
      | apply pd_seq | apply Forall_nil | apply Forall_cons; cbn [snd]
      | apply pd_scalar; intros; discriminate ].
  - unfold ym_doc, ym_point, ym_radius.
    repeat first
      [ apply ud_map | apply ud_seq | apply Forall_nil | apply Forall_cons; cbn [snd]
      | apply ud_scalar; intros; discriminate ].
  - eapply wa_key; [apply wr_own; [discriminate|]; do 4 right; left; reflexivity|].
    eapply wa_key; [|constructor].
    eapply (wr_base _ _ _ _ [] [(lit "x", DocInt U64 1); (lit "y", DocInt U64 2)] [[(lit "r", DocInt U64 10)]]);
      [left; reflexivity| |left; reflexivity| |intros ? ? []].
    + apply (bs_many [[(lit "x", DocInt U64 1); (lit "y", DocInt U64 2)]; [(lit "r", DocInt U64 10)]]).
    + right. intros y [[=]|[[=]|[[=]|[]]]].
  - eapply wa_key; [apply wr_own; [discriminate|]; do 4 right; left; reflexivity|].
    eapply wa_key; [|constructor]. apply wr_own; [discriminate|]. right. left. reflexivity.
Qed.

Example C73_fails_ex : unmergeable (DocMap [(lit "a", DocMap [(lit "<<", DocStr (lit "b"))])]).
Proof.
  eapply (um_map _ (lit "a")); [apply wr_own; [discriminate|left; reflexivity]|].
  eapply um_here; [left; reflexivity|]. intros ms B. inversion B.
Qed.

(** Merging is not transitive: where a base has a merge key itself, what that brings in is missing
    from the map, and a key [<<] appears in the configuration instead.  The specification of merge
    keys the documentation refers to merges the base as it is after its own merge. *)
Theorem C73_chain_refuted : exists point circle big d',
  point = DocMap [(lit "x", DocInt U64 1)] /\
  circle = DocMap [(lit "<<", point); (lit "r", DocInt U64 2)] /\
  big = DocMap [(lit "<<", circle); (lit "s", DocInt U64 3)] /\
  once big /\ apply_merge big = Ok d' /\
  (forall y, ~ doc_at d' [lit "x"] y) /\
  doc_at d' [lit "<<"; lit "x"] (DocInt U64 1).
Proof.
  do 4 eexists. split; [reflexivity|]. split; [reflexivity|]. split; [reflexivity|].
  split; [|split; [vm_compute; reflexivity|split]].
  - now apply once_check.
  - intros y A. inversion A as [| |? ? ? ? ? G _ E1 [E2 E3]|]; subst. apply last_of_some in G. discriminate G.
  - eapply da_key; [apply last_of_some; reflexivity|]. eapply da_key; [apply last_of_some; reflexivity|]. constructor.
Qed.
Print Assumptions C73_chain_refuted.

(** The provider's name tells the two formats apart. *)
Theorem C73_named : forall parse mistake custom fs dd pr,
  data_provider (yaml_extended parse mistake custom) fs dd = Ret pr ->
  md_name (pv_metadata pr) = lit "YAML Extended" ++
    match da_source dd with DText _ => lit " source string" | DFile _ _ _ => lit " file" end.
Proof.
  intros parse mistake custom fs dd pr. unfold data_provider, data_metadata. destruct (da_source dd) as [path b search|s].
  - destruct (resolve fs path search); cbn [out_bind out_map]; try discriminate.
    destruct (data_data _ fs dd); cbn [out_bind out_map]; intros E; try discriminate E. injection E as <-. reflexivity.
  - cbn [out_bind]. destruct (data_data _ fs dd); cbn [out_map]; intros E; try discriminate E. injection E as <-. reflexivity.
Qed.
Print Assumptions C73_named.
