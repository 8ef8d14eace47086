(** Proofs about which provider a value at a path bears the mark of. *)
From Coq Require Import Ascii String ZArith NArith Bool Lia.
From Coq Require Import List.
From Verif Require Import Res BMap BMapProofs Str StrProofs Profile Tag Num Value Metadata Err Coalesce Figment De.
From Verif Require Import SpecValue SpecLookup SpecFigment SpecRt SpecDe SpecExtract SpecInto SpecStack SpecView SpecSettings SpecSource.
From Verif Require Import ValueProofs CoalesceProofs ProfileProofs FigmentProofs DeProofs LookupProofs MeaningProofs ExtractProofs SerProofs RtProofs BlindProofs OrderProofs ViewProofs LayersProofs StackProofs PriorityProofs SettingsProofs.
From Verif Require ProvProofs PriorityProofs2 BlameProofs.
Import ListNotations.

Definition marked (d : dict) : view := view_of (VDict tag_default d).

Lemma marked_coalesce d e p n : wf_dict d -> wf_dict e ->
  marked (dcoalesce Merge d e) p n <-> over (marked d) (marked e) p n.
Proof.
  intros Wd We. unfold marked. rewrite <- (brought_merge _ _ p n).
  assert (E : VDict tag_default (dcoalesce Merge d e) = vcoalesce Merge (VDict tag_default d) (VDict tag_default e)) by (rewrite vcoalesce_dict; reflexivity).
  rewrite E. apply view_vcoalesce; now apply wf_VDict.
Qed.

Lemma view_untag v p n : view_of v p n -> view_of (untag v) p (match n with Table => Table | Leaf x => Leaf (untag x) end).
Proof.
  destruct n as [|x]; cbn [view_of].
  - intros (t & d & E). rewrite at_path_untag, E. cbn. eauto.
  - intros [E D]. split; [now rewrite at_path_untag, E|]. destruct x; cbn in *; congruence.
Qed.
Lemma free_untag v p : free (view_of (untag v)) p -> free (view_of v) p.
Proof.
  intros [A B]. split.
  - intros n H. exact (A _ (view_untag _ _ _ H)).
  - intros q n Q H. assert (X := B q _ Q (view_untag _ _ _ H)). destruct n; [reflexivity|discriminate].
Qed.

Lemma untag_retag t q d : untag (VDict tag_default (ProvProofs.retag_dict t q d)) = untag (VDict tag_default d).
Proof.
  cbn [untag]. f_equal. unfold ProvProofs.retag_dict. rewrite map_map. apply map_ext. intros [k x]. cbn [fst snd].
  now rewrite untag_map_tag.
Qed.
Lemma data_of_retag t m q : data_of (retag_data t m) q = ProvProofs.retag_dict t q (data_of m q).
Proof. unfold data_of. rewrite ProvProofs.retag_data_get. destruct (get q m); reflexivity. Qed.
Lemma free_retag t q pr m p : pv_data pr = Ok m -> free (said q pr) p -> free (marked (data_of (retag_data t m) q)) p.
Proof.
  intros D F. apply free_untag. rewrite data_of_retag, untag_retag. unfold said in F. now rewrite D in F.
Qed.

Lemma over_free A B p : free A p -> free B p -> free (over A B) p.
Proof.
  intros [A1 A2] [B1 B2]. split.
  - intros n [H|[_ H]]; [exact (B1 n H)|exact (A1 n H)].
  - intros q n Q [H|[_ H]]; [exact (B2 q n Q H)|exact (A2 q n Q H)].
Qed.
Lemma blank_free p : p <> [] -> free blank p.
Proof. intros P. split; [intros n [E _]; congruence|intros q n _ [_ E]; exact E]. Qed.

(** What is there stays there, mark and all, while later providers say nothing about it. *)
Lemma marked_stays l : forall f m c f' c' q p x g md, f_value f = Ok m -> wf_profiles m -> sound_ops l -> failures l = [] ->
  merge_only l -> plain_ops l -> run l f c = (Ret f', c') ->
  (forall loc o pr, In (OpProvide loc o pr) l -> free (said q pr) p) -> marked (data_of m q) p (Leaf x) ->
  (metadata_id g < c)%N -> get g (f_metadata f) = Some md ->
  exists m', f_value f' = Ok m' /\ wf_profiles m' /\ marked (data_of m' q) p (Leaf x) /\ get g (f_metadata f') = Some md.
Proof.
  induction l as [|[loc o pr|s] l IH]; intros f m c f' c' q p x g md Ef Wm HS HF HM HP HR F V G Md; cbn [run run_op failures] in *.
  - injection HR as <- <-. eauto.
  - inversion HP as [|? ? P HP']; subst.
    destruct (pv_data pr) as [n|e] eqn:ED; [|discriminate].
    destruct (provide loc f pr o c) as [[f1| |] c1] eqn:E; try discriminate.
    apply provide_ret in E. destruct E as (L & -> & E). rewrite ED, Ef, (proj1 P) in E.
    assert (o = Merge) as -> by (apply (HM loc o pr); now left).
    assert (Wn : wf_profiles n) by (eapply HS; [now left|exact ED]).
    assert (Wr := ProvProofs.wf_retag_data (tag_new c PTDefault) n Wn).
    apply (IH f1 (pcoalesce Merge m (retag_data (tag_new c PTDefault) n)) (c + 1)%N f' c'); auto.
    + now subst f1.
    + now apply ProvProofs.wf_pcoalesce.
    + intros loc' o' p' m2 I. apply (HS loc' o' p' m2). now right.
    + intros loc' o' p' I. apply (HM loc' o' p'). now right.
    + intros loc' o' p' I. apply (F loc' o' p'). now right.
    + rewrite data_of_pcoalesce by assumption. apply marked_coalesce; try now apply data_of_wf. right. split; [|exact V].
      apply (free_retag _ _ pr); [exact ED|]. apply (F loc Merge pr). now left.
    + lia.
    + subst f1. cbn [f_metadata]. rewrite get_insert_ne; [exact Md|]. rewrite cmp_tag_eq.
      rewrite ProvProofs.metadata_id_new_small by exact L. lia.
  - inversion HP; subst. apply (IH (fig_select f s) m c f' c' q p x g md Ef Wm); auto.
    + intros loc' o' p' m2 I. apply (HS loc' o' p' m2). now right.
    + intros loc' o' p' I. apply (HM loc' o' p'). now right.
    + intros loc' o' p' I. apply (F loc' o' p'). now right.
Qed.

Lemma at_path_map_tag h p : forall v, at_path p (map_tag h v) = option_map (map_tag h) (at_path p v).
Proof.
  induction p as [|k p IH]; intros v; [reflexivity|]. destruct v as [| | | | |t d|]; try reflexivity. cbn [map_tag at_path].
  rewrite (get_map_values (fun _ => map_tag h) d k (fun _ _ _ _ => eq_refl)).
  destruct (get k d) as [x|]; cbn [option_map]; [apply IH|reflexivity].
Qed.

Lemma run_counter l : forall f c f' c', run l f c = (Ret f', c') -> (c <= c')%N.
Proof.
  induction l as [|[loc o p|s] l IH]; intros f c f' c' H; cbn [run run_op] in H.
  - injection H as _ <-. lia.
  - destruct (provide loc f p o c) as [[f1| |] c1] eqn:E; try discriminate. apply provide_ret in E.
    destruct E as (_ & -> & _). apply IH in H. lia.
  - exact (IH _ _ _ _ H).
Qed.
Lemma failures_app a b : failures (a ++ b) = failures a ++ failures b.
Proof. induction a as [|[loc o p|s] a IH]; cbn; [reflexivity| |exact IH]. destruct (pv_data p); cbn; now rewrite IH. Qed.

Lemma said_marked q pr m t p x : pv_data pr = Ok m -> plain pr -> p <> [] -> said q pr p (Leaf x) ->
  exists w, marked (data_of (retag_data t m) q) p (Leaf w) /\ untag w = x /\ all_tags (fun g => metadata_id g = metadata_id t) w.
Proof.
  intros D P NE S. unfold said in S. rewrite D in S. destruct S as [A B].
  rewrite at_path_untag in A. destruct (at_path p (VDict tag_default (data_of m q))) as [y|] eqn:Y; [|discriminate].
  cbn in A. injection A as <-. exists (map_tag (fun _ => for_profile t q) y). split; [split|split].
  - rewrite data_of_retag. destruct p as [|k p]; [congruence|].
    assert (E := at_path_map_tag (fun _ => for_profile t q) (k :: p) (VDict tag_default (data_of m q))). rewrite Y in E. exact E.
  - destruct y; cbn in *; congruence.
  - apply untag_map_tag.
  - intros s z R. apply ProvProofs.reach_map_tag in R. destruct R as (z0 & R & ->). rewrite ProvProofs.vtag_map_tag.
    assert (Z : metadata_id (vtag z0) = 0%N).
    { destruct P as [_ P]. rewrite D in P. destruct P as [_ P]. unfold data_of in Y.
      destruct (get q m) as [d|] eqn:G; [|destruct p; [congruence|discriminate Y]].
      apply get_In in G. destruct G as (q' & _ & I). assert (T := P q' d I).
      assert (T2 := PriorityProofs2.all_tags_at _ _ _ _ T Y). exact (T2 s z0 R). }
    apply tag_eqb_default in Z. rewrite Z. apply metadata_id_for_profile.
Qed.

Theorem decided_merged l c f c' p q loc pr x :
  run l fig_new c = (Ret f, c') -> sound_ops l -> failures l = [] -> merge_only l -> plain_ops l -> p <> [] ->
  decides (f_profile f) l p q loc pr x ->
  exists v w id, (c <= id)%N /\ merged f = Ok v /\ wf v /\ at_path p v = Some w /\ untag w = x /\
    all_tags (fun g => metadata_id g = id) w /\
    forall g, metadata_id g = id -> get g (f_metadata f) = Some (md_with_location (pv_metadata pr) loc).
Proof.
  intros HR HS HF HM HP NE ((below & above & LA & AB) & before & after & EL & S & AF).
  assert (FB := HF). rewrite EL, failures_app in FB. apply app_eq_nil in FB. destruct FB as [FB FB'].
  assert (HR' := HR). rewrite EL, run_app in HR'.
  destruct (run before fig_new c) as [[f1| |] c1] eqn:R1; try discriminate.
  assert (SB : sound_ops before) by (intros loc' o' p' m' I; apply (HS loc' o' p' m'); rewrite EL; apply in_or_app; now left).
  assert (SA : sound_ops after) by (intros loc' o' p' m' I; apply (HS loc' o' p' m'); rewrite EL; apply in_or_app; right; now right).
  assert (MA : merge_only after) by (intros loc' o' p' I; apply (HM loc' o' p'); rewrite EL; apply in_or_app; right; now right).
  assert (PA : plain pr /\ plain_ops after).
  { unfold plain_ops in HP. rewrite EL in HP. apply Forall_app in HP. destruct HP as [_ HP]. inversion HP; subst. auto. }
  destruct PA as [PP PA].
  destruct (layer_run before fig_new [] c f1 c1 eq_refl) as (m1 & Ef1 & Wm1 & _); try assumption.
  { split; constructor. }
  cbn [run run_op failures] in HR', FB'.
  destruct (pv_data pr) as [n|e] eqn:ED; [|discriminate].
  destruct (provide loc f1 pr Merge c1) as [[f2| |] c2] eqn:E; try discriminate.
  apply provide_ret in E. destruct E as (L & -> & E). rewrite ED, Ef1, (proj1 PP) in E.
  assert (Wn : wf_profiles n) by (apply (HS loc Merge pr n); [rewrite EL; apply in_or_app; right; now left|exact ED]).
  set (t := tag_new c1 PTDefault) in *.
  assert (Wr := ProvProofs.wf_retag_data t n Wn).
  assert (Wm2 : wf_profiles (pcoalesce Merge m1 (retag_data t n))) by now apply ProvProofs.wf_pcoalesce.
  assert (IDT : metadata_id t = c1) by now apply ProvProofs.metadata_id_new_small.
  destruct (said_marked q pr n t p x ED PP NE S) as (w & Mw & Uw & Tw).
  assert (M2 : marked (data_of (pcoalesce Merge m1 (retag_data t n)) q) p (Leaf w)).
  { rewrite data_of_pcoalesce by assumption. apply marked_coalesce; try now apply data_of_wf. left. exact Mw. }
  destruct (marked_stays after f2 _ (c1 + 1)%N f c' q p w t (md_with_location (pv_metadata pr) loc)
    ltac:(now subst f2) Wm2 SA FB' MA PA HR' AF M2 ltac:(lia)
    ltac:(subst f2; cbn [f_metadata]; apply get_insert_eq; rewrite cmp_tag_eq; reflexivity)) as (m & Ef & Wm & Mm & Md).
  destruct (layer_run l fig_new [] c f c' eq_refl) as (m0 & Em & _ & LR); try assumption.
  { split; constructor. }
  rewrite Ef in Em. injection Em as <-.
  assert (FR : forall q', In q' above -> free (marked (data_of m q')) p).
  { intros q' I. apply free_untag. destruct (AB q' I) as [B1 B2].
    assert (SV : same_view (view_of (untag (VDict tag_default (data_of m q')))) (layer q' l blank)).
    { eapply sv_trans; [apply LR|]. apply layer_same. exact seen_nil. }
    split; [intros k H; exact (B1 k (proj1 (SV p k) H))|intros r k Rk H; exact (B2 r k Rk (proj1 (SV r k) H))]. }
  exists (VDict tag_default (dmerge (dmerge (data_of m p_default) (selected_of f m)) (data_of m p_global))), w, c1.
  assert (Wd := data_of_wf m p_default Wm). assert (Wg := data_of_wf m p_global Wm). assert (Ws := selected_wf f m Wm).
  assert (V : marked (dmerge (dmerge (data_of m p_default) (selected_of f m)) (data_of m p_global)) p (Leaf w)).
  { unfold dmerge, selected_of in *. apply marked_coalesce; [now apply wf_dcoalesce|exact Wg|]. unfold over.
    rewrite marked_coalesce by assumption. unfold over.
    unfold looked_at in LA. destruct (is_custom (f_profile f)).
    - destruct below as [|b0 below]; cbn in LA; injection LA; intros.
      + subst q above. right. split; [apply FR; right; now left|]. right. split; [apply FR; now left|exact Mm].
      + subst b0. destruct below as [|b1 below]; cbn in H; injection H; intros.
        * subst q above. right. split; [apply FR; now left|]. left. exact Mm.
        * subst b1. destruct below as [|b2 below]; cbn in H0; injection H0; intros; [subst q; left; exact Mm|].
          destruct below; discriminate.
    - destruct below as [|b0 below]; cbn in LA; injection LA; intros.
      + subst q above. right. split; [apply FR; now left|]. right. split; [|exact Mm].
        apply free_untag. assert (B := blank_free p NE). assert (SN := seen_nil). unfold seen_of in SN.
        destruct B as [B1 B2]. split; [intros k K; exact (B1 k (proj1 (SN p k) K))|intros r k Rk K; exact (B2 r k Rk (proj1 (SN r k) K))].
      + subst b0. destruct below as [|b1 below]; cbn in H; injection H; intros; [subst q; left; exact Mm|].
        destruct below; discriminate. }
  split; [exact (run_counter _ _ _ _ _ R1)|]. split; [exact (merged_ok3 f m Ef Wm)|]. split; [apply wf_VDict; unfold dmerge; repeat apply wf_dcoalesce; assumption|].
  split; [exact (proj1 V)|]. split; [exact Uw|]. split; [rewrite IDT in Tw; exact Tw|].
  intros g G. rewrite <- Md. apply get_eq. rewrite cmp_tag_eq. congruence.
Qed.

Lemma trail_reached path v vs : trail path v vs -> wf v -> forall y, In y vs -> exists s, reach s v y.
Proof.
  induction 1 as [v|k ks v c vs C T IH]; intros W y [<-|I]; try (exists []; constructor); [destruct I|].
  inversion C; subst.
  - apply wf_VDict in W. assert (G : get k d = Some c) by (apply In_get; [apply W|assumption]).
    destruct (IH (wf_get d k c W G) y I) as (s & R). exists (SKey k :: s). econstructor; eauto.
  - apply wf_VArray in W. rewrite Forall_forall in W.
    match goal with J : nth_error l _ = Some c |- _ => apply nth_error_In in J end.
    destruct (IH (W c ltac:(assumption)) y I) as (s & R). exists (SElem :: s). econstructor; eauto.
Qed.
Lemma pinpoints_tag i f w e id : wf w -> pinpoints i f w e -> all_tags (fun g => metadata_id g = id) w -> metadata_id (e_tag e) = id.
Proof.
  intros W P T. destruct (pp_trail _ _ _ _ P) as (vs & x & TR & _ & N & _).
  assert (A : forall y, In y vs -> metadata_id (vtag y) = id) by (intros y I; destruct (trail_reached _ _ _ TR W y I) as (s & R); exact (T s y R)).
  destruct N as [(a & y & b & -> & <- & _)|[-> F]]; [apply A; apply in_or_app; right; now left|].
  destruct (BlameProofs.trail_head _ _ _ TR) as (r & ->). inversion F as [|? ? V _]; subst. rewrite <- V. apply A. now left.
Qed.

(** A trail that goes through [w] ends in [w]: the innermost mark is one of [w]. *)
Lemma nearest_suffix a b t : b <> [] -> nearest (a ++ b) t -> nearest b t \/ Forall (fun y => vtag y = tag_default) b.
Proof.
  intros NE [(a' & x & b' & E & V & ND & F)|[-> F]]; [|right; apply Forall_app in F; tauto].
  revert a' E. induction a as [|z a IH]; intros a' E.
  - left. left. exists a', x, b'. auto.
  - destruct a' as [|z' a']; cbn in E; injection E; intros.
    + right. subst. apply Forall_app in F. tauto.
    + exact (IH a' H).
Qed.
Lemma trail_into ks r v w vs t id : wf v -> at_path ks v = Some w -> trail (ks ++ r) v vs -> nearest vs t ->
  all_tags (fun g => metadata_id g = id) w -> id <> 0%N -> metadata_id t = id.
Proof.
  intros W A TR N T NZ.
  assert (S : exists a b, vs = a ++ b /\ trail r w b).
  { clear N T. revert v vs W A TR. induction ks as [|k ks IH]; intros v vs W A TR.
    - cbn in A, TR. injection A as <-. exists [], vs. auto.
    - destruct v as [| | | | |g d|]; try discriminate A. cbn in A. destruct (get k d) as [z|] eqn:G; [|discriminate].
      cbn in TR. inversion TR as [|? ? ? z' vs' C TR']; subst. inversion C; subst.
      assert (z' = z). { apply wf_VDict in W. assert (G' : get k d = Some z') by (apply In_get; [apply W|assumption]). congruence. }
      subst z'. apply wf_VDict in W. destruct (IH z vs' (wf_get d k z W G) A TR') as (a & b & -> & B).
      exists (VDict g d :: a), b. auto. }
  destruct S as (a & b & -> & B).
  assert (Ww : wf w) by (eapply at_path_wf; eassumption).
  assert (AL : forall y, In y b -> metadata_id (vtag y) = id) by (intros y I; destruct (trail_reached _ _ _ B Ww y I) as (s & R); exact (T s y R)).
  destruct (BlameProofs.trail_head _ _ _ B) as (b' & ->).
  assert (Z : ~ Forall (fun y => vtag y = tag_default) (w :: b')).
  { intros F. inversion F as [|? ? V _]; subst. apply NZ. rewrite <- (AL w (or_introl eq_refl)), V. reflexivity. }
  destruct (nearest_suffix a (w :: b') t) as [[(a' & y & b2 & E & <- & _)|[_ F]]|F]; try contradiction; [discriminate|exact N|].
  apply AL. rewrite E. apply in_or_app. right. now left.
Qed.
