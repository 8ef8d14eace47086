(** C86: what was extracted can be saved, and giving it again changes nothing. *)
From Coq Require Import Ascii String ZArith NArith Bool Lia.
From Coq Require Import List.
From Verif Require Import Res BMap Str Profile Tag Num Value Metadata Err Coalesce Figment De Ser.
From Verif Require Import BMapProofs StrProofs ValueProofs CoalesceProofs FigmentProofs FigmentProofs2 DeProofs BlameProofs MeaningProofs SerProofs RtProofs.
From Verif Require Import SpecLookup SpecValue SpecFigment SpecDe SpecExtract SpecRt SpecBlind SpecFrame SpecLayers SpecHollow SpecLossy SpecMagic SpecSave.
From Verif Require Import BlindProofs ExtractProofs PriorityProofs ProvProofs OrderProofs HollowProofs LayersProofs AgreeProofs SaveProofs.
From Verif Require Import PropsCoalesce PropsFigment.
Import ListNotations.

(** What a Figment extracts can be written out again, and what is written, wherever it is
    put, reads back as the same: leniently, strictly and as a bare value. *)
Theorem C86_saves : forall H f i t y, reachable H f -> savable t -> extract i f t = Ok y ->
  exists v, serialize y = Ok v /\
    forall v', untag v' = untag v ->
      (forall j g, deserialize t (DConf j g v') = Ok y) /\ value_deserialize t v' = Ok y.
Proof.
  intros H f i t y R [St Nt] E. destruct (read_known i t f y H R E) as (m & Ef & Wm).
  assert (X := proj1 (read_from i t f m y St Ef Wm) E).
  assert (W : wf (VDict tag_default (stacked (data_of m p_default) (selected_of f m) (data_of m p_global)))).
  { apply (reachable_merged_wf _ _ _ R). exact (merged_ok3 f m Ef Wm). }
  assert (In := extracts_inhabits i t St _ _ W X). destruct (extracts_solid i t Nt St _ _ X) as [F _].
  destruct (come_back t St y In) as (v & [Hs Hr] & _). exists v. split; [exact Hs|]. rewrite F in Hr.
  intros v' U. split; [intros j g; exact (Hr (MConf j g) v' U)|exact (Hr MPlain v' U)].
Qed.
Print Assumptions C86_saves.

(** Two values that read as the same, merged or joined, read as the same again. *)
Theorem C86_agree : forall t a b i f g y, storable t -> wf a -> wf b ->
  deserialize t (DConf i f a) = Ok y -> deserialize t (DConf i f b) = Ok y ->
  deserialize t (DConf i g (vcoalesce Merge a b)) = Ok y /\ deserialize t (DConf i g (vcoalesce Join a b)) = Ok y.
Proof.
  intros t a b i f g y St Wa Wb Ha Hb. destruct (storable_ordinary t St) as [O N].
  assert (M := fun h v => mn_value _ _ _ _ (extraction_meant t O N (MConf i h)) v y). cbn [mk_de] in M.
  apply (M f a Wa) in Ha. apply (M f b Wb) in Hb.
  rewrite join_merge_swap by assumption.
  split; apply M; auto using wf_vcoalesce.
  - exact (blend_extracts i t St b a _ y Wb Wa (wf_vcoalesce _ _ _ Wa Wb) (blend_onto b Wb a Wa) Hb Ha).
  - exact (blend_extracts i t St a b _ y Wa Wb (wf_vcoalesce _ _ _ Wb Wa) (blend_onto a Wa b Wb) Ha Hb).
Qed.
Print Assumptions C86_agree.

(** What was extracted, joined as defaults or as globals, changes nothing. *)
Theorem C86_underneath : forall H f i t y g (d : dict) q name loc l c f' c',
  reachable H f -> savable t -> extract i f t = Ok y -> serialize y = Ok (VDict g d) ->
  same_profile q p_default \/ same_profile q p_global ->
  provide loc f (serialized_provider name (sz_from y q l)) Join c = (Ret f', c') ->
  extract i f' t = Ok y.
Proof.
  intros H f i t y g d q name loc l c f' c' R Sv E Hs Q HP. destruct Sv as [St Nt].
  destruct (read_known i t f y H R E) as (m & Ef & Wm).
  assert (X := proj1 (read_from i t f m y St Ef Wm) E).
  assert (W1 := data_of_wf m p_default Wm). assert (W2 := data_of_wf m p_global Wm). assert (W3 := selected_wf f m Wm).
  assert (W : wf (VDict tag_default (stacked (data_of m p_default) (selected_of f m) (data_of m p_global)))).
  { apply wf_VDict. unfold stacked, dmerge. auto using wf_dcoalesce. }
  assert (In := extracts_inhabits i t St _ _ W X). destruct (extracts_solid i t Nt St _ _ X) as [F _].
  assert (Y := saved_reads i t g d y (conj St Nt) In F Hs).
  destruct (serialized_given loc name y q l Join f m c f' c' g d Hs Ef Wm HP) as (Wd & Pf & m' & Ef' & Wm' & U).
  assert (Wn : forall r, wf_dict (data_of [(q, d)] r)).
  { intros r. destruct (LayersProofs.data_single q d r) as [A B]. destruct (same_profile_dec r q) as [S|S]; [exact (eq_ind_r wf_dict Wd (A S))|exact (eq_ind_r wf_dict wf_dict_nil (B S))]. }
  assert (U' : forall r, dut (dcoalesce Merge (data_of [(q, d)] r) (data_of m r)) (data_of m' r)).
  { intros r. specialize (U r). rewrite dict_join_merge_swap in U by (apply Wn || (apply data_of_wf; exact Wm)). apply dut_sym. exact U. }
  assert (SYM : forall a b, same_profile a b -> same_profile b a) by (unfold same_profile; congruence).
  assert (TRN : forall a b c, same_profile a b -> same_profile b c -> same_profile a c) by (unfold same_profile; congruence).
  assert (K : forall r, ~ same_profile r q -> dut (data_of m r) (data_of m' r)).
  { intros r N. specialize (U' r). destruct (LayersProofs.data_single q d r) as [_ B]. rewrite B, dcoalesce_nil_l in U' by (exact N || apply data_of_wf, Wm). exact U'. }
  assert (KS : dut (selected_of f m) (selected_of f' m')).
  { unfold selected_of. rewrite Pf. destruct (is_custom (f_profile f)) eqn:C; [|apply dut_refl]. apply K. intros S.
    destruct Q as [Q|Q]; rewrite (same_profile_custom _ _ (TRN _ _ _ S Q)) in C; vm_compute in C; discriminate. }
  set (VD x := VDict tag_default x).
  assert (WV : forall x, wf_dict x -> wf (VD x)) by (intros x Wx; apply wf_VDict; exact Wx).
  destruct Q as [Q|Q].
  - assert (KD : dut (dcoalesce Merge d (data_of m p_default)) (data_of m' p_default)).
    { specialize (U' p_default). destruct (LayersProofs.data_single q d p_default) as [A _]. rewrite A in U' by auto. exact U'. }
    assert (KG : dut (data_of m p_global) (data_of m' p_global)).
    { apply K. intros S. exact (not_same_gd (TRN _ _ _ S Q)). }
    apply (read_to i t f' m' y (stacked (dcoalesce Merge d (data_of m p_default)) (selected_of f m) (data_of m p_global)) St Ef' Wm').
    + unfold stacked, dmerge. repeat apply dcoalesce_rel; assumption.
    + assert (B : beneath (VD d) (VD (stacked (data_of m p_default) (selected_of f m) (data_of m p_global)))
                    (VD (stacked (dcoalesce Merge d (data_of m p_default)) (selected_of f m) (data_of m p_global)))).
      { unfold stacked, dmerge.
        refine (beneath_more (VD d) (WV _ Wd) (VD _) (VD _) (VD (data_of m p_global)) _ _ _ _); auto using wf_dcoalesce.
        refine (beneath_more (VD d) (WV _ Wd) (VD _) (VD _) (VD (selected_of f m)) _ _ _ _); auto using wf_dcoalesce.
        exact (beneath_merge (VD d) (WV _ Wd) (VD (data_of m p_default)) (WV _ W1)). }
      apply beneath_blend in B.
      refine (blend_extracts i t St (VD d) _ _ y (WV _ Wd) W _ B Y X). apply WV. unfold stacked, dmerge. auto using wf_dcoalesce.
  - assert (KG : dut (dcoalesce Merge d (data_of m p_global)) (data_of m' p_global)).
    { specialize (U' p_global). destruct (LayersProofs.data_single q d p_global) as [A _]. rewrite A in U' by auto. exact U'. }
    assert (KD : dut (data_of m p_default) (data_of m' p_default)).
    { apply K. intros S. exact (not_same_dg (TRN _ _ _ S Q)). }
    apply (read_to i t f' m' y (stacked (data_of m p_default) (selected_of f m) (dcoalesce Merge d (data_of m p_global))) St Ef' Wm').
    + unfold stacked, dmerge. repeat apply dcoalesce_rel; assumption.
    + assert (B : blend (VD d) (VD (stacked (data_of m p_default) (selected_of f m) (data_of m p_global)))
                    (VD (stacked (data_of m p_default) (selected_of f m) (dcoalesce Merge d (data_of m p_global))))).
      { unfold stacked, dmerge.
        exact (blend_between (VD d) (WV _ Wd) (VD (dcoalesce Merge (data_of m p_default) (selected_of f m))) (VD (data_of m p_global))
                 (WV _ (wf_dcoalesce _ _ _ W1 W3)) (WV _ W2)). }
      refine (blend_extracts i t St (VD d) _ _ y (WV _ Wd) W _ B Y X). apply WV. unfold stacked, dmerge. auto using wf_dcoalesce.
Qed.
Print Assumptions C86_underneath.

(** What was extracted, merged as globals into a Figment that has none, changes nothing. *)
Theorem C86_on_top : forall H f m i t y g (d : dict) q name loc l c f' c',
  reachable H f -> f_value f = Ok m -> savable t -> extract i f t = Ok y -> serialize y = Ok (VDict g d) ->
  same_profile q p_global -> global_layer m = [] ->
  provide loc f (serialized_provider name (sz_from y q l)) Merge c = (Ret f', c') ->
  extract i f' t = Ok y.
Proof.
  intros H f m i t y g d q name loc l c f' c' R Ef Sv E Hs Q GE HP. destruct Sv as [St Nt].
  destruct (reachable_data_tagged _ _ _ R Ef) as [Wm _].
  assert (X := proj1 (read_from i t f m y St Ef Wm) E).
  assert (W1 := data_of_wf m p_default Wm). assert (W2 := data_of_wf m p_global Wm). assert (W3 := selected_wf f m Wm).
  assert (W : wf (VDict tag_default (stacked (data_of m p_default) (selected_of f m) (data_of m p_global)))).
  { apply wf_VDict. unfold stacked, dmerge. auto using wf_dcoalesce. }
  assert (In := extracts_inhabits i t St _ _ W X). destruct (extracts_solid i t Nt St _ _ X) as [F _].
  assert (Y := saved_reads i t g d y (conj St Nt) In F Hs).
  destruct (serialized_given loc name y q l Merge f m c f' c' g d Hs Ef Wm HP) as (Wd & Pf & m' & Ef' & Wm' & U).
  assert (SYM : forall a b, same_profile a b -> same_profile b a) by (unfold same_profile; congruence).
  assert (TRN : forall a b c, same_profile a b -> same_profile b c -> same_profile a c) by (unfold same_profile; congruence).
  assert (K : forall r, ~ same_profile r q -> dut (data_of m r) (data_of m' r)).
  { intros r N. apply dut_sym. specialize (U r). destruct (LayersProofs.data_single q d r) as [_ B]. rewrite B, dcoalesce_nil_r in U by (exact N || apply data_of_wf, Wm). exact U. }
  assert (KS : dut (selected_of f m) (selected_of f' m')).
  { unfold selected_of. rewrite Pf. destruct (is_custom (f_profile f)) eqn:C; [|apply dut_refl]. apply K. intros S.
    rewrite (same_profile_custom _ _ (TRN _ _ _ S Q)) in C; vm_compute in C; discriminate. }
  set (VD x := VDict tag_default x).
  assert (WV : forall x, wf_dict x -> wf (VD x)) by (intros x Wx; apply wf_VDict; exact Wx).
  assert (KG : dut d (data_of m' p_global)).
  { apply dut_sym. specialize (U p_global). destruct (LayersProofs.data_single q d p_global) as [A _]. unfold global_layer in GE.
    rewrite A, GE, dcoalesce_nil_l in U by (auto || apply Wd). exact U. }
  assert (KD : dut (data_of m p_default) (data_of m' p_default)).
  { apply K. intros S. exact (not_same_dg (TRN _ _ _ S Q)). }
  unfold global_layer in GE.
  assert (WB : wf_dict (dcoalesce Merge (data_of m p_default) (selected_of f m))) by auto using wf_dcoalesce.
  apply (read_to i t f' m' y (stacked (data_of m p_default) (selected_of f m) d) St Ef' Wm').
  - unfold stacked, dmerge. repeat apply dcoalesce_rel; assumption.
  - unfold stacked, dmerge in *. rewrite GE, dcoalesce_nil_r in X by apply WB.
    exact (blend_extracts i t St (VD d) (VD _) _ y (WV _ Wd) (WV _ WB) (WV _ (wf_dcoalesce _ _ _ WB Wd))
             (blend_onto (VD d) (WV _ Wd) (VD _) (WV _ WB)) Y X).
Qed.
Print Assumptions C86_on_top.

(** A struct with a map inside: given by name as defaults, by position as globals. *)
Definition sv_ty : ty :=
  TStruct (lit "C") (lit "C") true
    [(lit "l", TSeq (TInt U8)); (lit "m", TStruct (lit "M") (lit "M") true [(lit "f", TMap (TInt U8))])].
Definition sv_n (z : Z) : value := VNum tag_default (NInt I64 z).
Definition sv_d (l : list (ustr * value)) : value := VDict tag_default l.
Definition sv_low : dict := [(lit "l", VArray tag_default [sv_n 7]); (lit "m", sv_d [(lit "f", sv_d [(lit "k", sv_n 1)])])].
Definition sv_high : dict := [(lit "m", VArray tag_default [sv_d []])].
Definition sv_p1 := ex_provider (lit "A") [(p_default, sv_low)].
Definition sv_p2 := ex_provider (lit "B") [(p_global, sv_high)].
Definition sv_f1 : figment := given fig_new sv_p1 Merge 1.
Definition sv_f2 : figment := given sv_f1 sv_p2 Merge 2.
Lemma sv_plain1 : plain sv_p1. Proof. apply plain_ok; [|reflexivity]. vm_compute. repeat constructor; auto. Qed.
Lemma sv_plain2 : plain sv_p2. Proof. apply plain_ok; [|reflexivity]. vm_compute. repeat constructor; auto. Qed.
Lemma sv_reach1 : reachable [mkProvision ex_loc sv_p1] sv_f1.
Proof. apply (RC_provide [] fig_new ex_loc Merge sv_p1 sv_f1 2); [apply RC_new|exact sv_plain1|reflexivity]. Qed.
Lemma sv_reach2 : reachable [mkProvision ex_loc sv_p1; mkProvision ex_loc sv_p2] sv_f2.
Proof. apply (RC_provide [mkProvision ex_loc sv_p1] sv_f1 ex_loc Merge sv_p2 sv_f2 3); [exact sv_reach1|exact sv_plain2|reflexivity]. Qed.
Lemma sv_savable : savable sv_ty.
Proof.
  split; [|cbn; auto]. cbn. repeat split; auto;
    try (intros H; repeat (destruct H as [H|H]; [discriminate H|]); exact H);
    repeat constructor; cbn; intuition discriminate.
Qed.
(** Merged into a Figment that has globals of its own, it can change what is read: the
    globals give the inner struct by position, what is saved gives it by name, and what is
    given by name lets the entries of the defaults through.  Admerged, lists double. *)
Theorem C86_on_top_refuted : exists H f y g (d : dict) f' c' f'' c'' y' y'',
  reachable H f /\ savable sv_ty /\ extract Exact f sv_ty = Ok y /\ serialize y = Ok (VDict g d) /\
  provide ex_loc f (serialized_provider (lit "C") (sz_globals y ex_loc)) Merge 3 = (Ret f', c') /\
  extract Exact f' sv_ty = Ok y' /\ y' <> y /\
  provide ex_loc f (serialized_provider (lit "C") (sz_defaults y ex_loc)) Admerge 3 = (Ret f'', c'') /\
  extract Exact f'' sv_ty = Ok y'' /\ y'' <> y.
Proof.
  exists [mkProvision ex_loc sv_p1; mkProvision ex_loc sv_p2], sv_f2. do 9 eexists.
  split; [exact sv_reach2|]. split; [exact sv_savable|].
  split; [vm_compute; reflexivity|]. split; [vm_compute; reflexivity|]. split; [vm_compute; reflexivity|].
  split; [vm_compute; reflexivity|]. split; [discriminate|].
  split; [vm_compute; reflexivity|]. split; [vm_compute; reflexivity|]. discriminate.
Qed.
Print Assumptions C86_on_top_refuted.

Example C86_ex_underneath : exists y g (d : dict) f' c',
  reachable [mkProvision ex_loc sv_p1; mkProvision ex_loc sv_p2] sv_f2 /\ savable sv_ty /\
  extract Exact sv_f2 sv_ty = Ok y /\ serialize y = Ok (VDict g d) /\
  provide ex_loc sv_f2 (serialized_provider (lit "C") (sz_from y p_global ex_loc)) Join 3 = (Ret f', c') /\
  extract Exact f' sv_ty = Ok y /\ merged f' <> merged sv_f2.
Proof.
  do 5 eexists. split; [exact sv_reach2|]. split; [exact sv_savable|].
  split; [vm_compute; reflexivity|]. split; [vm_compute; reflexivity|]. split; [vm_compute; reflexivity|].
  split; [vm_compute; reflexivity|]. vm_compute. discriminate.
Qed.
Example C86_ex_on_top : exists m y g (d : dict) f' c',
  reachable [mkProvision ex_loc sv_p1] sv_f1 /\ f_value sv_f1 = Ok m /\ global_layer m = [] /\
  extract Exact sv_f1 sv_ty = Ok y /\ serialize y = Ok (VDict g d) /\
  provide ex_loc sv_f1 (serialized_provider (lit "C") (sz_from y p_global ex_loc)) Merge 2 = (Ret f', c') /\
  extract Exact f' sv_ty = Ok y.
Proof.
  do 6 eexists. split; [exact sv_reach1|]. repeat (split; [vm_compute; reflexivity|]). vm_compute; reflexivity.
Qed.
Example C86_ex_agree :
  let t := TStruct (lit "M") (lit "M") false [(lit "f", TMap (TInt U8)); (lit "o", TOption TBool)] in
  let a := sv_d [(lit "f", sv_d [(lit "k", sv_n 1)]); (lit "x", sv_n 0)] in
  let b := VArray tag_default [sv_d [(lit "k", VNum tag_default (NInt U8 1))]; VEmpty tag_default ENone] in
  exists y, deserialize t (DConf Exact fig_new a) = Ok y /\ deserialize t (DConf Exact fig_new b) = Ok y /\ a <> b /\
    deserialize t (DConf Exact fig_new (vcoalesce Merge a b)) = Ok y.
Proof. cbv zeta. eexists. split; [vm_compute; reflexivity|]. split; [vm_compute; reflexivity|]. split; [discriminate|vm_compute; reflexivity]. Qed.
