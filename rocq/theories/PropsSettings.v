(** C92: what is extracted, by what the providers say at each path: structs in structs, maps and
    options, for every history. *)
From Coq Require Import Ascii String ZArith NArith Bool Lia.
From Coq Require Import List.
From Verif Require Import Res BMap BMapProofs Str StrProofs Profile Tag Num Value Metadata Err Coalesce Figment De Ser Parse Path Data Doc Env.
From Verif Require Import SpecValue SpecLookup SpecFigment SpecRt SpecDe SpecExtract SpecInto SpecStack SpecView SpecSettings.
From Verif Require Import ValueProofs ProfileProofs FigmentProofs DeProofs LookupProofs MeaningProofs ExtractProofs SerProofs RtProofs BlindProofs OrderProofs ViewProofs LayersProofs StackProofs SettingsProofs PropsStack PropsView PropsField.
Import ListNotations.

(** After any history in which no provider failed, what is extracted at such a type is what the
    overlay of what the providers said shows at its paths; nothing else is looked at. *)
Theorem C92_inner : forall i l c f c' ks t y,
  run l fig_new c = (Ret f, c') -> sound_ops l -> failures l = [] ->
  tabular t -> ordinary t -> named_apart t -> Forall plain_key ks ->
  (extract_inner i f t (join [dot] ks) = Ok y <-> laid_out i (held (f_profile f) l) t ks y).
Proof.
  intros i l c f c' ks t y HR HS HF T O N K.
  destruct (held_merged l c f c' HR HS HF) as (v & E & W & SV).
  assert (SV' : forall p n, held (f_profile f) l p n <-> view_of (untag v) p n) by (intros p n; symmetry; apply SV).
  assert (WU := wf_untag v W).
  assert (S : spells (join [dot] ks) ks) by (split; auto).
  unfold extract_inner, find_value. rewrite E, (vfind_spec _ _ v S).
  assert (EU : at_path ks (untag v) = option_map untag (at_path ks v)) by apply at_path_untag.
  destruct (at_path ks v) as [w|] eqn:A; cbn [res_bind option_map] in *.
  - rewrite <- (extracts_laid_out i _ (untag v) SV' WU t T ks (untag w) y EU).
    assert (Ww : wf w) by exact (at_path_wf _ _ _ W A).
    assert (MV := mn_value _ _ _ _ (extraction_meant t O N (MConf i f)) w y Ww). cbn [mk_de] in MV.
    assert (UT : ut w (untag w)) by (unfold ut; now rewrite untag_idem).
    assert (X : extracts i t w y <-> extracts i t (untag w) y).
    { split; apply extracts_ut; [exact UT|symmetry; exact UT]. }
    rewrite <- X, <- MV. destruct (deserialize t (DConf i f w)); cbn; [reflexivity|]. split; discriminate.
  - split; [discriminate|]. intros H. exfalso. apply (laid_out_present i _ t T) in H. destruct H as [n H].
    apply SV' in H. destruct n; cbn in H; unfold leaf_at in H; rewrite EU in H; [destruct H as (? & ? & H)|destruct H as [H _]]; discriminate.
Qed.
Print Assumptions C92_inner.

(** The whole configuration is at no key at all. *)
Theorem C92_extract : forall i l c f c' t y,
  run l fig_new c = (Ret f, c') -> sound_ops l -> failures l = [] ->
  tabular t -> ordinary t -> named_apart t ->
  (extract i f t = Ok y <-> laid_out i (held (f_profile f) l) t [] y).
Proof.
  intros i l c f c' t y HR HS HF T O N. rewrite <- PropsField.C89_whole.
  exact (C92_inner i l c f c' [] t y HR HS HF T O N (Forall_nil _)).
Qed.
Print Assumptions C92_extract.

Lemma layer_mute q l : merge_only l ->
  (forall loc o pr m, In (OpProvide loc o pr) l -> pv_data pr = Ok m -> data_of m q = []) ->
  same_view (layer q l blank) blank.
Proof.
  induction l as [|e l IH] using rev_ind; intros HM HQ; [apply sv_refl|].
  assert (IH' : same_view (layer q l blank) blank).
  { apply IH; [intros loc o pr I; apply (HM loc o pr)|intros loc o pr m I; apply (HQ loc o pr m)]; apply in_or_app; now left. }
  rewrite layer_app. destruct e as [loc o pr|s]; cbn [layer]; [|exact IH'].
  assert (o = Merge) as -> by (apply (HM loc o pr); apply in_or_app; right; now left).
  assert (SB : same_view (said q pr) blank).
  { unfold said. destruct (pv_data pr) as [m|] eqn:D; [|apply sv_refl].
    rewrite (HQ loc Merge pr m) by (try exact D; apply in_or_app; right; now left). exact seen_nil. }
  eapply sv_trans; [apply brought_merge|]. eapply sv_trans; [apply over_same; [exact IH'|exact SB]|].
  intros p n. unfold over, free, blank. split; [intros [H|[_ H]]; exact H|intros H; now left].
Qed.

(** If all providers are merged and speak of the default profile only, a setting is what the last
    provider to have it says, provided that none after it has anything there or above but tables. *)
Theorem C92_setting : forall i l c f c' ks t y,
  run l fig_new c = (Ret f, c') -> sound_ops l -> failures l = [] -> merge_only l ->
  (forall loc o pr m q d, In (OpProvide loc o pr) l -> pv_data pr = Ok m -> In (q, d) m -> q = p_default) ->
  undivided t -> ordinary t -> named_apart t -> ks <> [] -> Forall plain_key ks ->
  (extract_inner i f t (join [dot] ks) = Ok y <->
   exists x, extracts i t x y /\
     exists before loc pr after, l = before ++ OpProvide loc Merge pr :: after /\
       said p_default pr ks (Leaf x) /\
       forall loc' o' pr', In (OpProvide loc' o' pr') after -> free (said p_default pr') ks).
Proof.
  intros i l c f c' ks t y HR HS HF HM HQ U O N K0 K.
  assert (HQ' : forall q, profile_eqb q p_default = false -> same_view (layer q l blank) blank).
  { intros q Q. apply layer_mute; [exact HM|]. intros loc o pr m I D. unfold data_of.
    destruct (get q m) as [d|] eqn:G; [|reflexivity]. exfalso. apply get_In in G. destruct G as (q' & C & J).
    assert (q' = p_default) by exact (HQ loc o pr m q' d I D J). subst q'.
    assert (X : profile_eqb q p_default = true) by (rewrite ProfileProofs.profile_eqb_cmp; now rewrite C). congruence. }
  assert (HL : forall x, held (f_profile f) l ks (Leaf x) <-> layer p_default l blank ks (Leaf x)).
  { assert (OB : forall A B, same_view B blank -> forall x, over A B ks (Leaf x) <-> A ks (Leaf x)).
    { intros A B SB x. assert (Z := over_same A A B blank (sv_refl A) SB ks (Leaf x)). rewrite Z. clear Z. unfold over, blank, free. split.
      - intros [[_ H]|[_ H]]; [discriminate|exact H].
      - intros H. right. split; [|exact H]. split; [intros n [H' _]; contradiction|]. intros q n _ [_ H']. exact H'. }
    intros x. unfold held. rewrite (OB _ _ (HQ' p_global eq_refl)). destruct (is_custom (f_profile f)) eqn:CU; [|reflexivity].
    apply OB. apply HQ'. unfold is_custom in CU. apply andb_true_iff in CU. rewrite !negb_true_iff in CU. apply CU. }
  assert (T : tabular t).
  { clear - U. induction t; cbn [tabular undivided] in *; auto; destruct U. }
  rewrite (C92_inner i l c f c' ks t y HR HS HF T O N K).
  assert (LL : laid_out i (held (f_profile f) l) t ks y <-> exists x, held (f_profile f) l ks (Leaf x) /\ extracts i t x y).
  { destruct (held_merged l c f c' HR HS HF) as (v & E & W & SV).
    assert (SV' : forall p n, held (f_profile f) l p n <-> view_of (untag v) p n) by (intros p n; symmetry; apply SV).
    assert (WU := wf_untag v W).
    destruct (at_path ks (untag v)) as [w|] eqn:A.
    - rewrite <- (extracts_laid_out i _ (untag v) SV' WU t T ks w y A).
      apply (at_leaf i _ (untag v) SV'); [exact A|]. intros D. now apply undivided_dict.
    - split.
      + intros H. exfalso. apply (laid_out_present i _ t T) in H. destruct H as [n H].
        apply SV' in H. destruct n; cbn in H; unfold leaf_at in H; rewrite A in H; [destruct H as (? & ? & H)|destruct H as [H _]]; discriminate.
      + intros (x & H & _). exfalso. apply SV' in H. cbn in H. unfold leaf_at in H. rewrite A in H. destruct H; discriminate. }
  rewrite LL. split.
  - intros (x & H & X). exists x. split; [exact X|]. apply (last_said p_default l HM ks x). now apply HL.
  - intros (x & X & H). exists x. split; [|exact X]. apply HL. now apply (last_said p_default l HM ks x).
Qed.
Print Assumptions C92_setting.

(** ** Examples *)
(** A struct with a struct, a map of switches and an optional struct. *)
Definition se_db : ty := TStruct (lit "Db") (lit "Db") false [(lit "host", TString); (lit "port", TInt U16); (lit "opts", TMap TBool)].
Definition se_type : ty :=
  TStruct (lit "Config") (lit "Config") false
    [(lit "name", TString); (lit "db", se_db);
     (lit "tls", TOption (TStruct (lit "Tls") (lit "Tls") true [(lit "cert", TPath)]))].
Definition se_str (s : ustr) : value := VString tag_default s.
Definition se_dict (d : dict) : value := VDict tag_default d.
Definition se_pr (d : dict) : provider := mkProvider (md_named (lit "p")) (Ok [(p_default, d)]) None None.
Definition se_port (z : Z) : value := VNum tag_default (NInt U32 z).
Definition se_a : dict :=
  [(lit "db", se_dict [(lit "host", se_str (lit "h")); (lit "opts", se_dict [(lit "a", VBool tag_default true)]); (lit "port", se_port 1)]);
   (lit "name", se_str (lit "n")); (lit "tls", VEmpty tag_default ENone)].
Definition se_b : dict :=
  [(lit "db", se_dict [(lit "opts", se_dict [(lit "b", VBool tag_default false)]); (lit "port", se_port 2)]);
   (lit "tls", se_dict [(lit "cert", se_str (lit "c"))])].
Definition se_ops : list op := [OpProvide st_loc Merge (se_pr se_a); OpProvide st_loc Merge (se_pr se_b)].
Definition se_value : dval :=
  EVStruct [(lit "name", EVStr (lit "n"));
            (lit "db", EVStruct [(lit "host", EVStr (lit "h")); (lit "port", EVInt U16 2);
                                 (lit "opts", EVMap [(lit "a", EVBool true); (lit "b", EVBool false)])]);
            (lit "tls", EVSome (EVStruct [(lit "cert", EVPath (lit "c"))]))].

Example C92_ex : tabular se_type /\ ordinary se_type /\ named_apart se_type /\
  sound_ops se_ops /\ failures se_ops = [] /\ merge_only se_ops /\
  exists f c', run se_ops fig_new 1 = (Ret f, c') /\
    extract Exact f se_type = Ok se_value /\
    laid_out Exact (held (f_profile f) se_ops) se_type [] se_value /\
    extract_inner Exact f (TInt U16) (lit "db.port") = Ok (EVInt U16 2).
Proof.
  assert (T : tabular se_type) by (cbn; tauto).
  assert (O : ordinary se_type) by (cbn; intuition discriminate).
  assert (N : named_apart se_type).
  { cbn. repeat split; repeat constructor; cbn; intuition discriminate. }
  assert (S : sound_ops se_ops).
  { intros loc o p m I D. destruct I as [I|[I|[]]]; injection I as <- <- <-; injection D as <-; split; cbn; repeat constructor. }
  repeat (split; [assumption|]). split; [reflexivity|]. split.
  { intros loc o p I. destruct I as [I|[I|[]]]; now injection I. }
  assert (Z : exists f c', run se_ops fig_new 1 = (Ret f, c') /\ extract Exact f se_type = Ok se_value /\
            extract_inner Exact f (TInt U16) (lit "db.port") = Ok (EVInt U16 2)).
  { do 2 eexists. split; [vm_compute; reflexivity|]. split; vm_compute; reflexivity. }
  destruct Z as (f & c' & R & E & P). exists f, c'. split; [exact R|]. split; [exact E|]. split; [|exact P].
  now apply (C92_extract Exact se_ops 1 f c' se_type se_value R S eq_refl T O N).
Qed.

(** A number in place of a table hides the table beneath it, also from a later table: what is missing
    then is missing. *)
Definition se_hide : dict := [(lit "db", se_port 0)].
Example C92_ex_hidden : exists f c' e,
  run [OpProvide st_loc Merge (se_pr se_a); OpProvide st_loc Merge (se_pr se_hide); OpProvide st_loc Merge (se_pr se_b)] fig_new 1 = (Ret f, c') /\
  extract Exact f se_type = Err e /\ e_path e = [lit "db"] /\ e_kind e = KMissingField (lit "host").
Proof. do 3 eexists. split; [vm_compute; reflexivity|]. split; [vm_compute; reflexivity|]. split; reflexivity. Qed.
