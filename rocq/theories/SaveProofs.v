(** Proofs about saving what was extracted. *)
From Coq Require Import Ascii String ZArith NArith Bool Lia.
From Coq Require Import List.
From Verif Require Import Res BMap Str Profile Tag Num Value Metadata Err Coalesce Figment De Ser.
From Verif Require Import BMapProofs StrProofs ValueProofs CoalesceProofs FigmentProofs FigmentProofs2 DeProofs BlameProofs MeaningProofs SerProofs RtProofs.
From Verif Require Import SpecLookup SpecValue SpecFigment SpecDe SpecExtract SpecRt SpecBlind SpecFrame SpecLayers SpecHollow SpecLossy SpecMagic SpecSave.
From Verif Require Import BlindProofs ExtractProofs PriorityProofs ProvProofs OrderProofs LayersProofs HollowProofs AgreeProofs.
Import ListNotations.

(** ** What is extracted at a type is of the type *)
Lemma leading_inhabits (R : ty -> value -> dval -> Prop) ts :
  Forall (fun t => forall v y, wf v -> R t v y -> inhabits t y) ts ->
  forall l ys, Forall wf l -> leading (map R ts) l ys -> Forall2 inhabits ts ys.
Proof.
  induction 1 as [|t ts Ht F IH]; intros l ys W H.
  - destruct ys; [constructor|]. destruct l; destruct H.
  - destruct l as [|v l]; [destruct H|]. destruct ys as [|y ys]; [destruct H|]. destruct H as [A B]. inversion W; subst. constructor; eauto.
Qed.
Lemma by_name_inhabits (R : ty -> value -> dval -> Prop) (fs : list (ustr * ty)) d : wf_dict d ->
  Forall (fun f => forall v y, wf v -> R (snd f) v y -> inhabits (snd f) y) fs ->
  forall ys, by_name (map (fun f => (fst f, (optional (snd f), R (snd f)))) fs) d ys ->
  Forall2 (fun f y => fst f = fst y /\ inhabits (snd f) (snd y)) fs ys.
Proof.
  intros W. induction 1 as [|[n t] fs Ht F IH]; intros [|[n' y] ys]; cbn; try tauto; [constructor|].
  intros (-> & A & B). constructor; [|auto]. cbn. split; [reflexivity|]. destruct (get n d) as [v|] eqn:G.
  - eapply Ht; [|exact A]. exact (get_wf _ _ _ W G).
  - destruct A as [[u E] ->]. cbn in E. subst t. constructor.
Qed.
Lemma combine_inhabits (fs : list (ustr * ty)) ys : Forall2 inhabits (map snd fs) ys ->
  Forall2 (fun f y => fst f = fst y /\ inhabits (snd f) (snd y)) fs (combine (map fst fs) ys).
Proof.
  revert ys. induction fs as [|[n t] fs IH]; intros ys F; inversion F; subst; cbn; constructor; auto.
Qed.

Lemma extracts_inhabits i t : storable t -> forall v y, wf v -> extracts i t v y -> inhabits t y.
Proof.
  induction t as [|k| | | | | |t IH|t IH|ts IH|t IH|k t IHk IH|n id dn fs IH|id t IH|id ts IH|id|id vs IH| | | | | | |a b IHa IHb]
    using ty_ind'; intros St v y W Ex; try (destruct St; fail); cbn [extracts] in Ex.
  - destruct Ex as (b & _ & ->). constructor.
  - destruct Ex as (j & z & _ & _ & H & ->). constructor. exact H.
  - destruct Ex as (n & x & _ & _ & ->). constructor.
  - destruct Ex as (n & x & _ & _ & ->). constructor.
  - destruct Ex as (c & _ & ->). constructor.
  - destruct Ex as (c & _ & ->). constructor.
  - destruct Ex as [_ ->]. constructor.
  - destruct Ex as [[_ ->]|[_ (x & E & ->)]]; [apply ih_none|apply ih_some]. exact (IH St v x W E).
  - destruct Ex as (g & l & ys & -> & F & ->). apply ih_seq. apply wf_VArray in W.
    clear - F W IH St. induction F as [|v y l ys H F IHF]; [constructor|]. inversion W; subst. constructor; [exact (IH St v y H2 H)|auto].
  - destruct Ex as (g & l & ys & -> & F & ->). apply ih_tuple. apply wf_VArray in W.
    eapply (leading_inhabits (extracts i)); [|exact W|exact F]. cbn [storable] in St. rewrite all_Forall in St. rewrite Forall_forall in *.
    intros t J u z Wu E. exact (IH t J (St t J) u z Wu E).
  - destruct Ex as (g & d & ys & -> & F & ->). apply wf_VDict in W. apply ih_map; [eapply keyed_sorted; [exact F|apply W]|].
    destruct W as [_ W]. clear - F W IH St. induction F as [|v y l ys [_ H] F IHF]; [constructor|]. inversion W; subst.
    constructor; [exact (IH St _ _ H2 H)|auto].
  - destruct St as (_ & _ & St). rewrite all_Forall in St.
    assert (G : Forall (fun f => forall v y, wf v -> extracts i (snd f) v y -> inhabits (snd f) y) fs).
    { rewrite Forall_forall in *. intros f J u z Wu E. exact (IH f J (St f J) u z Wu E). }
    destruct Ex as [(g & d & ys & -> & _ & F & ->)|(g & l & ys & -> & F & ->)]; apply ih_struct.
    + apply wf_VDict in W. eapply (by_name_inhabits (extracts i)); eauto.
    + apply wf_VArray in W. apply combine_inhabits. eapply (leading_inhabits (extracts i)); [|exact W|].
      * rewrite Forall_forall in *. intros t J. apply in_map_iff in J. destruct J as (f & <- & J). exact (G f J).
      * rewrite map_map in F. cbn [snd] in F. rewrite map_map. exact F.
  - destruct Ex as (x & E & ->). apply ih_newtype. exact (IH St v x W E).
  - destruct Ex as (g & l & ys & -> & F & ->). apply ih_tuple_struct. apply wf_VArray in W.
    eapply (leading_inhabits (extracts i)); [|exact W|exact F]. cbn [storable] in St. rewrite all_Forall in St. rewrite Forall_forall in *.
    intros t J u z Wu E. exact (IH t J (St t J) u z Wu E).
  - destruct Ex as [_ ->]. constructor.
  - destruct St as [_ St]. rewrite all_Forall, Forall_forall in St. rewrite Forall_forall in IH.
    destruct Ex as [(g & s & -> & V & ->)|[(g & n & z & s & -> & _ & V & ->)|(g & k & x & r & s & p & -> & V & P & ->)]].
    + apply ih_unit_variant. apply in_map_iff in V. destruct V as ([k0 s0] & [= -> E] & J). destruct s0; try discriminate. exact J.
    + apply ih_unit_variant. apply nth_error_In in V. apply in_map_iff in V. destruct V as ([k0 s0] & [= -> E] & J). destruct s0; try discriminate. exact J.
    + unfold variant in V. apply in_map_iff in V. destruct V as ([k0 s0] & E0 & J). cbn in E0. injection E0 as -> <-.
      assert (IHs := IH _ J). assert (Ss := St _ J). cbn [snd] in IHs, Ss.
      assert (Wx : wf x) by (apply wf_VDict in W; destruct W as [_ F]; inversion F; assumption).
      destruct s0 as [|t0|ts0|fs0]; cbn [DeProofs.shape_all] in IHs.
      * inversion P; subst; try discriminate. apply ih_unit_variant. exact J.
      * inversion P as [|? ? ? Es Py| | |]; subst; try discriminate. injection Es as <- <-. eapply ih_new_variant; [exact J|]. exact (IHs Ss _ _ Wx Py).
      * inversion P as [| |? ? ? ? Es Ev Py| |]; subst; try discriminate. injection Es as <-. eapply ih_tuple_variant; [exact J|].
        apply wf_VArray in Wx. rewrite map_map in Py. cbn [snd] in Py. eapply (leading_inhabits (extracts i)); [|exact Wx|exact Py].
        rewrite all_Forall in Ss. rewrite Forall_forall in *. intros t1 J1 u z Wu E. exact (IHs t1 J1 (Ss t1 J1) u z Wu E).
      * destruct Ss as [_ Ss]. rewrite all_Forall in Ss.
        assert (G : Forall (fun f => forall v y, wf v -> extracts i (snd f) v y -> inhabits (snd f) y) fs0).
        { rewrite Forall_forall in *. intros f Jf u z Wu E. exact (IHs f Jf (Ss f Jf) u z Wu E). }
        inversion P as [| | |? ? ? ? Es Ev Py|? ? ? ? Es Ev Py]; subst; try discriminate; injection Es as <-;
          (eapply ih_struct_variant; [exact J|]).
        -- apply wf_VDict in Wx. eapply (by_name_inhabits (extracts i)); eauto.
        -- apply wf_VArray in Wx. rewrite !map_map in *. cbn [fst snd] in *.
           apply combine_inhabits. eapply (leading_inhabits (extracts i)); [|exact Wx|].
           ++ rewrite Forall_forall in *. intros t1 J1. apply in_map_iff in J1. destruct J1 as (f & <- & J1). exact (G f J1).
           ++ rewrite map_map. exact Py.
  - destruct Ex as (g & n & z & _ & _ & ->). constructor.
  - destruct Ex as (s & _ & ->). constructor.
  - destruct Ex as (s & _ & ->). constructor.
  - rewrite Ex. constructor.
  - destruct Ex as (b & _ & ->). constructor.
Qed.

(** ** It has no [Some] around nothing *)
Definition solid (R : value -> dval -> Prop) : Prop := forall v y, R v y -> forgetful y = y /\ (hollow y = true -> empty v).

Lemma leading_solid (R : ty -> value -> dval -> Prop) ts : Forall (fun t => solid (R t)) ts ->
  forall l ys, leading (map R ts) l ys -> map forgetful ys = ys.
Proof.
  induction 1 as [|t ts Ht F IH]; intros l ys H.
  - destruct ys; [reflexivity|]. destruct l; destruct H.
  - destruct l as [|v l]; [destruct H|]. destruct ys as [|y ys]; [destruct H|]. destruct H as [A B]. cbn. f_equal; [apply (Ht v y A)|eauto].
Qed.
Lemma by_name_solid (R : ty -> value -> dval -> Prop) (fs : list (ustr * ty)) d :
  Forall (fun f => solid (R (snd f))) fs ->
  forall ys, by_name (map (fun f => (fst f, (optional (snd f), R (snd f)))) fs) d ys ->
  map (fun kv => (fst kv, forgetful (snd kv))) ys = ys.
Proof.
  induction 1 as [|[n t] fs Ht F IH]; intros [|[n' y] ys]; cbn; try tauto.
  intros (-> & A & B). f_equal; [|auto]. f_equal. destruct (get n d) as [v|]; [apply (Ht v y A)|destruct A as [_ ->]; reflexivity].
Qed.
Lemma combine_solid ns : forall ys, map forgetful ys = ys ->
  map (fun kv : ustr * dval => (fst kv, forgetful (snd kv))) (combine ns ys) = combine ns ys.
Proof.
  induction ns as [|n ns IH]; intros [|y ys] H; cbn; try reflexivity. cbn in H. injection H as H1 H2. rewrite H1, IH by exact H2. reflexivity.
Qed.

Lemma extracts_solid i t : notices t -> storable t -> solid (extracts i t).
Proof.
  induction t as [|k| | | | | |t IH|t IH|ts IH|t IH|k t IHk IH|n id dn fs IH|id t IH|id ts IH|id|id vs IH| | | | | | |a b IHa IHb]
    using ty_ind'; intros Nt St v y Ex; try (destruct St; fail); try (destruct Nt; fail); cbn [extracts] in Ex.
  - destruct Ex as (b & _ & ->). split; [reflexivity|discriminate].
  - destruct Ex as (j & z & _ & _ & H & ->). split; [reflexivity|discriminate].
  - destruct Ex as (n & x & _ & _ & ->). split; [reflexivity|discriminate].
  - destruct Ex as (n & x & _ & _ & ->). split; [reflexivity|discriminate].
  - destruct Ex as (c & _ & ->). split; [reflexivity|discriminate].
  - destruct Ex as (c & _ & ->). split; [reflexivity|discriminate].
  - destruct Ex as [(g & ->) ->]. split; [reflexivity|]. intros _. red. eauto.
  - destruct Ex as [[(g & e & ->) ->]|[N (x & E & ->)]]; [split; [reflexivity|intros _; red; eauto]|].
    destruct (IH Nt St v x E) as [F H]. cbn. destruct (hollow x); [destruct (N (H eq_refl))|]. split; [rewrite F; reflexivity|discriminate].
  - destruct Ex as (g & l & ys & -> & F & ->). split; [|discriminate]. cbn. f_equal.
    clear - F IH St Nt. induction F as [|v y l ys H F IHF]; [reflexivity|]. cbn. f_equal; [apply (IH Nt St v y H)|exact IHF].
  - destruct Ex as (g & l & ys & -> & F & ->). split; [|discriminate]. cbn. f_equal.
    eapply (leading_solid (extracts i)); [|exact F]. cbn [storable notices] in St, Nt. rewrite all_Forall in St, Nt. rewrite Forall_forall in *.
    intros t J. exact (IH t J (Nt t J) (St t J)).
  - destruct Ex as (g & d & ys & -> & F & ->). split; [|discriminate]. cbn. f_equal.
    clear - F IH St Nt. induction F as [|[k v] [k' y] l ys [E H] F IHF]; [reflexivity|]. cbn in *. f_equal; [|exact IHF].
    f_equal. apply (IH Nt St v y H).
  - destruct St as (_ & _ & St). cbn [notices] in Nt. rewrite all_Forall in St, Nt.
    assert (G : Forall (fun f => solid (extracts i (snd f))) fs).
    { rewrite Forall_forall in *. intros f J. exact (IH f J (Nt f J) (St f J)). }
    destruct Ex as [(g & d & ys & -> & _ & F & ->)|(g & l & ys & -> & F & ->)]; (split; [|discriminate]); cbn; f_equal.
    + eapply (by_name_solid (extracts i)); eauto.
    + apply combine_solid. rewrite map_map in F. cbn [snd] in F.
      apply (leading_solid (fun t => extracts i t) (map snd fs)) with (l := l).
      * rewrite Forall_forall in *. intros t J. apply in_map_iff in J. destruct J as (f & <- & J). exact (G f J).
      * rewrite map_map. exact F.
  - destruct Ex as (x & E & ->). destruct (IH Nt St v x E) as [F H]. cbn. split; [rewrite F; reflexivity|exact H].
  - destruct Ex as (g & l & ys & -> & F & ->). split; [|discriminate]. cbn. f_equal.
    eapply (leading_solid (extracts i)); [|exact F]. cbn [storable notices] in St, Nt. rewrite all_Forall in St, Nt. rewrite Forall_forall in *.
    intros t J. exact (IH t J (Nt t J) (St t J)).
  - destruct Ex as [(g & ->) ->]. split; [reflexivity|]. intros _. red. eauto.
  - destruct St as [_ St]. cbn [notices] in Nt. rewrite all_Forall, Forall_forall in St, Nt. rewrite Forall_forall in IH.
    destruct Ex as [(g & s & -> & V & ->)|[(g & n & z & s & -> & _ & V & ->)|(g & k & x & r & s & p & -> & V & P & ->)]];
      (split; [|discriminate]); try reflexivity. cbn [forgetful]. f_equal.
    unfold variant in V. apply in_map_iff in V. destruct V as ([k0 s0] & E0 & J). cbn in E0. injection E0 as -> <-.
    assert (IHs := IH _ J). assert (Ss := St _ J). assert (Ns := Nt _ J). cbn [snd] in IHs, Ss, Ns.
    destruct s0 as [|t0|ts0|fs0]; cbn [DeProofs.shape_all] in IHs.
    + inversion P; subst; try discriminate. reflexivity.
    + inversion P as [|? ? ? Es Py| | |]; subst; try discriminate. injection Es as <- <-. f_equal. apply (IHs Ns Ss _ _ Py).
    + inversion P as [| |? ? ? ? Es Ev Py| |]; subst; try discriminate. injection Es as <-. f_equal.
      rewrite map_map in Py. cbn [snd] in Py. eapply (leading_solid (extracts i)); [|exact Py].
      rewrite all_Forall in Ss, Ns. rewrite Forall_forall in *. intros t1 J1. exact (IHs t1 J1 (Ns t1 J1) (Ss t1 J1)).
    + destruct Ss as [_ Ss]. rewrite all_Forall in Ss, Ns.
      assert (G : Forall (fun f => solid (extracts i (snd f))) fs0).
      { rewrite Forall_forall in *. intros f Jf. exact (IHs f Jf (Ns f Jf) (Ss f Jf)). }
      inversion P as [| | |? ? ? ? Es Ev Py|? ? ? ? Es Ev Py]; subst; try discriminate; injection Es as <-; f_equal.
      * eapply (by_name_solid (extracts i)); eauto.
      * apply combine_solid. rewrite !map_map in Py. cbn [fst snd] in Py.
        apply (leading_solid (fun t => extracts i t) (map snd fs0)) with (l := l).
        -- rewrite Forall_forall in *. intros t1 J1. apply in_map_iff in J1. destruct J1 as (f & <- & J1). exact (G f J1).
        -- rewrite map_map. exact Py.
  - destruct Ex as (g & n & z & _ & _ & ->). split; [reflexivity|discriminate].
  - destruct Ex as (s & _ & ->). split; [reflexivity|discriminate].
  - destruct Ex as (s & _ & ->). split; [reflexivity|discriminate].
  - destruct Ex as (b & _ & ->). split; [reflexivity|discriminate].
Qed.

(** ** Figments *)
Lemma serialized_given loc name y q l o f m c f' c' g (d : dict) : serialize y = Ok (VDict g d) -> f_value f = Ok m -> wf_profiles m ->
  provide loc f (serialized_provider name (sz_from y q l)) o c = (Ret f', c') ->
  wf_dict d /\ f_profile f' = f_profile f /\
  exists m', f_value f' = Ok m' /\ wf_profiles m' /\
    forall r, dut (data_of m' r) (dcoalesce o (data_of m r) (data_of [(q, d)] r)).
Proof.
  intros Hs Hf Wm HP.
  assert (ED := proj2 (sz_data_spec (sz_from y q l) (VDict g d) [] [(q, d)] Hs eq_refl)).
  assert (ED' : sz_data (sz_from y q l) = Ok [(q, d)]) by (apply ED; exists g, d; split; [constructor|reflexivity]).
  assert (Wd : wf_dict d) by (apply (wf_VDict g); eapply serialize_wf; eauto).
  assert (Wn : wf_profiles [(q, d)]).
  { apply wf_profiles_intro; [cbn; auto|]. intros p0 d0. cbn. destruct (cmp p0 q); intros E; inversion E; subst. exact Wd. }
  split; [exact Wd|]. split.
  - apply provide_ret in HP. destruct HP as (_ & _ & ->). reflexivity.
  - exact (data_provide loc f (serialized_provider name (sz_from y q l)) o c f' c' m [(q, d)] Hf Wm ED' Wn HP).
Qed.

Definition stacked (D S G : dict) : dict := dmerge (dmerge D S) G.
Lemma read_from i t f m y : storable t -> f_value f = Ok m -> wf_profiles m ->
  (extract i f t = Ok y <->
   extracts i t (VDict tag_default (stacked (data_of m p_default) (selected_of f m) (data_of m p_global))) y).
Proof.
  intros St Ef Wm. destruct (storable_ordinary t St) as [O N]. unfold extract. rewrite (merged_ok3 f m Ef Wm). cbn [res_bind].
  assert (W1 := data_of_wf m p_default Wm). assert (W2 := data_of_wf m p_global Wm). assert (W3 := selected_wf f m Wm).
  refine (mn_value _ _ _ _ (extraction_meant t O N (MConf i f)) (VDict tag_default _) y _).
  apply wf_VDict. unfold dmerge. auto using wf_dcoalesce.
Qed.
Lemma read_known i t f y H : reachable H f -> extract i f t = Ok y -> exists m, f_value f = Ok m /\ wf_profiles m.
Proof.
  intros R E. destruct (f_value f) as [m|e] eqn:Ev.
  - destruct (reachable_data_tagged _ _ _ R Ev) as [Hw _]. eauto.
  - unfold extract in E. rewrite (merged_err _ _ Ev) in E. discriminate.
Qed.
Lemma read_to i t f m y X : storable t -> f_value f = Ok m -> wf_profiles m ->
  dut X (stacked (data_of m p_default) (selected_of f m) (data_of m p_global)) ->
  extracts i t (VDict tag_default X) y -> extract i f t = Ok y.
Proof.
  intros St Ef Wm U Ex. apply (read_from i t f m y St Ef Wm). eapply extracts_ut; [|exact Ex]. apply utc_ut. constructor. exact U.
Qed.
Lemma saved_reads i t g d y : savable t -> inhabits t y -> forgetful y = y -> serialize y = Ok (VDict g d) ->
  extracts i t (VDict tag_default d) y.
Proof.
  intros [St Nt] In F Hs. destruct (come_back t St y In) as (v & [Hv Hr] & _). rewrite Hs in Hv. injection Hv as <-.
  destruct (storable_ordinary t St) as [O N].
  assert (X := Hr (MConf i fig_new) (VDict tag_default d) eq_refl). rewrite F in X.
  apply (mn_value _ _ _ _ (extraction_meant t O N (MConf i fig_new))); [|exact X].
  apply wf_VDict. apply (wf_VDict g). eapply serialize_wf; eauto.
Qed.
Lemma vmerge_dict g a h b : vcoalesce Merge (VDict g a) (VDict h b) = VDict h (dcoalesce Merge a b).
Proof. reflexivity. Qed.
Lemma not_same_gd : ~ same_profile p_global p_default. Proof. intros H; vm_compute in H; discriminate. Qed.
Lemma not_same_dg : ~ same_profile p_default p_global. Proof. intros H; vm_compute in H; discriminate. Qed.
Lemma same_profile_dec p q : same_profile p q \/ ~ same_profile p q.
Proof. rewrite same_profile_cmp. destruct (cmp p q); auto; right; discriminate. Qed.
