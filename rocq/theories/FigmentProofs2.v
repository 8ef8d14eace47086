(** Proofs about Figments: provenance corollaries, composition, lookup, focus. *)
From Coq Require Import NArith Bool List Lia.
From Verif Require Import Res BMap BMapProofs Str StrProofs Profile ProfileProofs Tag Num Value
  Metadata Err Coalesce Figment SpecValue SpecFigment ValueProofs CoalesceProofs FigmentProofs
  ProvProofs.
Import ListNotations.
Local Open Scope N_scope.

(** ** C13 *)
Lemma data_of_get m p d : data_of m p = d -> d <> [] -> get p m = Some d.
Proof. unfold data_of. destruct (get p m); intros; congruence. Qed.

Lemma reach_nil_dict path t x : path <> [] -> ~ reach path (VDict t []) x.
Proof.
  intros Hp H. destruct path; [congruence|]. apply reach_dict_inv in H.
  destruct H as [k [v [_ [H _]]]]. discriminate.
Qed.

Lemma merged_traced H f v path x : reachable H f -> merged f = Ok v -> path <> [] ->
  reach path v x ->
  exists q, (q = p_default \/ q = p_global \/ (q = f_profile f /\ is_custom q = true)) /\
            traced H f q path x.
Proof.
  intros Hr Hm Hp Hx. apply reachable_inv in Hr. destruct Hr as [_ Hr].
  destruct (f_value f) as [m|e] eqn:Ev.
  2:{ rewrite (merged_err _ _ Ev) in Hm. discriminate. }
  destruct Hr as [Hw Ht]. rewrite (merged_ok3 f m Ev Hw) in Hm. inversion Hm; subst; clear Hm.
  assert (Hd := data_of_wf m p_default Hw). assert (Hs := selected_wf f m Hw).
  assert (Hg := data_of_wf m p_global Hw).
  assert (Hin : forall q y, reach path (VDict tag_default (data_of m q)) y -> traced H f q path y).
  { intros q y Hy. unfold data_of in Hy. destruct (get q m) as [d|] eqn:E.
    - now apply (Ht q d). - now apply reach_nil_dict in Hy. }
  apply reach_dcombine in Hx; auto using wf_dmerge.
  destruct Hx as [y [H1 [H2 [H3|H3]]]].
  - apply reach_dcombine in H3; auto. destruct H3 as [z [H4 [H5 [H6|H6]]]].
    + exists p_default. split; auto. eapply traced_like; [exact H1|exact H2|].
      eapply traced_like; [exact H4|exact H5|]. auto.
    + unfold selected_of in H6. destruct (is_custom (f_profile f)) eqn:Ec.
      * exists (f_profile f). split; auto. eapply traced_like; [exact H1|exact H2|].
        eapply traced_like; [exact H4|exact H5|]. auto.
      * now apply reach_nil_dict in H6.
  - exists p_global. split; auto. eapply traced_like; [exact H1|exact H2|]. auto.
Qed.

(** ** C10 *)
Lemma errors_of_resolved mds p e : errors_of (resolved_with mds p e) =
  map (resolved_with mds p) (errors_of e).
Proof.
  revert e. fix IH 1. intros [t pr m pa k v]. cbn [errors_of resolved_with map].
  apply f_equal2; [reflexivity|]. destruct v as [e|]; [apply IH|reflexivity].
Qed.

Lemma resolved_metadata mds p e : e_metadata (resolved_with mds p e) = get (e_tag e) mds.
Proof. destruct e; reflexivity. Qed.

Lemma resolved_report mds p e : same_report (resolved_with mds p e) e.
Proof. destruct e; split; reflexivity. Qed.

Lemma resolved_tag mds p e : e_tag (resolved_with mds p e) = e_tag e.
Proof. destruct e; reflexivity. Qed.

Lemma merged_error_traced H f e e' : reachable H f -> merged f = Err e -> In e' (errors_of e) ->
  exists n e0, nth_provision H (metadata_id (e_tag e')) = Some n /\
    plain (pn_provider n) /\ pv_data (pn_provider n) = Err e0 /\ same_report e' e0 /\
    e_metadata e' = Some (pn_metadata n).
Proof.
  intros Hr Hm Hin. apply reachable_inv in Hr. destruct Hr as [_ Hr].
  unfold merged in Hm. destruct (f_value f) as [m|e0] eqn:Ev.
  { destruct (take_or_empty p_default m). destruct (take_or_empty p_global b). discriminate. }
  inversion Hm; subst. unfold resolved in Hin. rewrite errors_of_resolved in Hin.
  apply in_map_iff in Hin. destruct Hin as [e1 [<- Hin]].
  destruct (Hr e1 Hin) as [n [e2 [H1 [H2 [H3 [H4 H5]]]]]].
  exists n, e2. rewrite resolved_tag, resolved_metadata.
  split; [auto|]. split; [auto|]. split; [auto|]. split; [|exact H5].
  eapply same_report_trans; [apply resolved_report|exact H4].
Qed.

Lemma next_id_app H n : next_id (H ++ [n]) = next_id H + 1.
Proof. unfold next_id. rewrite app_length. cbn [length]. lia. Qed.

Lemma run_reachable l : forall H f f' c', reachable H f -> plain_ops l ->
  run l f (next_id H) = (Ret f', c') ->
  exists H', reachable (H ++ H') f' /\ c' = next_id (H ++ H').
Proof.
  induction l as [|x r IH]; intros H f f' c' Hr Hp E; cbn [run] in E.
  - inversion E; subst. exists []. now rewrite app_nil_r.
  - inversion Hp; subst. destruct x as [loc o p|p]; cbn [run_op] in E.
    + destruct (provide loc f p o (next_id H)) as [[f1| |] c1] eqn:E1; try discriminate.
      assert (Hr1 := RC_provide _ _ _ _ _ _ _ Hr H2 E1).
      assert (Hc1 : c1 = next_id (H ++ [mkProvision loc p])).
      { apply provide_ret in E1. destruct E1 as [_ [-> _]]. symmetry. apply next_id_app. }
      subst c1. destruct (IH _ _ _ _ Hr1 H3 E) as [H' [H4 H5]].
      exists (mkProvision loc p :: H'). rewrite <- app_assoc in H4, H5. auto.
    + destruct (IH _ _ _ _ (RC_select _ _ p Hr) H3 E) as [H' H4]. eauto.
Qed.

Lemma run_error_head l : forall f c f' c' e, run l f c = (Ret f', c') -> f_value f = Err e ->
  exists e', f_value f' = Err e' /\ same_report e' e /\ e_tag e' = e_tag e.
Proof.
  induction l as [|x r IH]; simpl; intros f c f' c' e H He.
  - inversion H; subst. exists e. auto using same_report_refl.
  - destruct (run_op x f c) as [[f1| |] c1] eqn:E; try discriminate.
    destruct x as [loc o p|p]; simpl in E.
    + apply provide_ret in E. destruct E as [_ [_ ->]]. simpl in H. rewrite He in H.
      destruct (pv_data p) as [d|e0] eqn:Ed.
      * eapply IH in H; [|reflexivity]. destruct H as [e' [H1 [H2 H3]]]. eauto.
      * eapply IH in H; [|reflexivity]. destruct H as [e' [H1 [H2 H3]]].
        exists e'. split; auto. split.
        -- eapply same_report_trans; [exact H2|apply same_report_chain].
        -- rewrite H3. destruct e; reflexivity.
    + inversion E; subst. eapply IH; eauto.
Qed.

Lemma provider_error_named H f m loc o p e0 f1 c1 l f2 c2 :
  reachable H f -> f_value f = Ok m -> plain p -> pv_data p = Err e0 ->
  provide loc f p o (next_id H) = (Ret f1, c1) ->
  plain_ops l -> run l f1 c1 = (Ret f2, c2) ->
  exists e, merged f2 = Err e /\ same_report e e0 /\
            e_metadata e = Some (md_with_location (pv_metadata p) loc).
Proof.
  intros Hr Hv Hp He E1 Hl E2.
  assert (Hr1 := RC_provide _ _ _ _ _ _ _ Hr Hp E1).
  assert (Hc1 : c1 = next_id (H ++ [mkProvision loc p])).
  { apply provide_ret in E1. destruct E1 as [_ [-> _]]. symmetry. apply next_id_app. }
  subst c1. destruct (run_reachable l _ _ _ _ Hr1 Hl E2) as [H' [Hr2 _]].
  assert (Hb : next_id H < 2 ^ 62) by (apply provide_ret in E1; apply E1).
  assert (Hv1 : f_value f1 = Err (retagged (tag_new (next_id H) PTDefault) e0)).
  { apply provide_ret in E1. destruct E1 as [_ [_ ->]]. simpl. now rewrite He, Hv. }
  destruct (run_error_head l _ _ _ _ _ E2 Hv1) as [e [Hv2 [Hrep Htag]]].
  exists (resolved e f2). split; [now apply merged_err|].
  split.
  { eapply same_report_trans; [apply resolved_report|].
    eapply same_report_trans; [exact Hrep|apply same_report_retagged]. }
  unfold resolved. rewrite resolved_metadata, Htag.
  destruct Hp as [_ Hp]. rewrite He in Hp. destruct Hp as [Hp _].
  assert (Ht : e_tag (retagged (tag_new (next_id H) PTDefault) e0) = tag_new (next_id H) PTDefault).
  { destruct e0; simpl in *. subst t. reflexivity. }
  apply reachable_inv in Hr2. destruct Hr2 as [[_ Hmd] Hval].
  rewrite Hv2 in Hval. destruct (errors_of_head e) as [r Her].
  assert (Hin : In (set_prev e None) (errors_of e)) by (rewrite Her; now left).
  destruct (Hval _ Hin) as [n [e1 [Hn [_ [_ [_ Hg]]]]]].
  assert (Hte : e_tag (set_prev e None) = e_tag e) by (destruct e; reflexivity).
  rewrite Hte, Htag in Hn, Hg. unfold get_metadata in Hg. rewrite Hg.
  rewrite Ht, metadata_id_new_small in Hn by auto.
  assert (Hn2 : nth_provision ((H ++ [mkProvision loc p]) ++ H') (next_id H) = Some (mkProvision loc p)).
  { clear. assert (X := nth_provision_new H (mkProvision loc p)).
    revert X. generalize (H ++ [mkProvision loc p]). intros L X.
    induction H' as [|x r IH] using rev_ind; [now rewrite app_nil_r|].
    rewrite app_assoc. now apply nth_provision_app. }
  rewrite Hn2 in Hn. inversion Hn; subst. reflexivity.
Qed.

(** ** C15 *)
Lemma map_tag_id f v : wf v -> (forall p x, reach p v x -> metadata_id (vtag x) <> 0) ->
  map_tag f v = v.
Proof.
  assert (R : forall t, metadata_id t <> 0 -> (if tag_eqb t tag_default then f t else t) = t).
  { intros t Ht. destruct (tag_eqb t tag_default) eqn:E; auto.
    apply tag_eqb_default in E. congruence. }
  induction v using value_ind'; intros Hw Ht; simpl;
    assert (H0 := Ht [] _ (R_here _)); simpl in H0; rewrite R by auto; auto.
  - apply wf_VDict in Hw. f_equal. rewrite Forall_forall in H.
    rewrite <- (map_id d) at 2. apply map_ext_in. intros [k x] Hin. simpl. f_equal.
    assert (Hg : get k d = Some x) by (apply In_get; auto; apply Hw).
    apply (H (k, x) Hin); [eapply wf_get; eauto|].
    intros p y Hy. apply (Ht (SKey k :: p)). econstructor; eauto.
  - apply wf_VArray in Hw. f_equal. rewrite Forall_forall in H, Hw.
    rewrite <- (map_id l) at 2. apply map_ext_in. intros x Hin.
    apply H; auto. intros p y Hy. apply (Ht (SElem :: p)). econstructor; eauto.
Qed.

Lemma retag_data_id t m : wf_profiles m ->
  (forall q d path x, get q m = Some d -> path <> [] -> reach path (VDict tag_default d) x ->
     metadata_id (vtag x) <> 0) ->
  retag_data t m = m.
Proof.
  intros Hw H. unfold retag_data. rewrite <- (map_id m) at 2. apply map_ext_in.
  intros [q d] Hin. cbn [fst snd]. apply (f_equal (pair q)).
  assert (Hg : get q m = Some d) by (apply In_get; auto; apply Hw).
  assert (Hd := wf_profiles_get _ _ _ Hw Hg).
  rewrite <- (map_id d) at 2. apply map_ext_in. intros [k x] Hk. cbn [fst snd].
  apply (f_equal (pair k)).
  assert (Hgk : get k d = Some x) by (apply In_get; auto; apply Hd).
  apply map_tag_id; [eapply wf_get; eauto|].
  intros p y Hy. apply (H q d (SKey k :: p) y Hg); [discriminate|]. econstructor; eauto.
Qed.

Lemma reachable_data_tagged H f m : reachable H f -> f_value f = Ok m ->
  wf_profiles m /\
  forall q d path x, get q m = Some d -> path <> [] -> reach path (VDict tag_default d) x ->
     metadata_id (vtag x) <> 0.
Proof.
  intros Hr Hv. apply reachable_inv in Hr. destruct Hr as [_ Hr]. rewrite Hv in Hr.
  destruct Hr as [Hw Ht]. split; auto. intros q d path x H1 H2 H3.
  destruct (Ht q d path x H1 H2 H3) as [n [_ [_ [_ [Hn _]]]]].
  apply nth_provision_bound in Hn. lia.
Qed.

Lemma pcoalesce_combined o a b : wf_profiles a -> wf_profiles b ->
  profiles_combined o a b (pcoalesce o a b).
Proof.
  intros Ha Hb. split; [apply map_coalesce_sorted|].
  repeat split; intros p; intros; rewrite pcoalesce_get by (apply Ha || apply Hb).
  - now rewrite H, H0.
  - now rewrite H, H0.
  - now rewrite H, H0.
  - rewrite H, H0. simpl. eexists; split; [reflexivity|].
    apply C01_dict_lemma; eauto using wf_profiles_get.
Qed.

Lemma nested_figment H f g loc o f' c' :
  reachable H f -> reachable H g ->
  provide loc f (figment_provider g) o (next_id H) = (Ret f', c') ->
  (forall t m, get_metadata f t = Some m -> get_metadata f' t = Some m) /\
  (forall t m, get_metadata g t = Some m -> get_metadata f' t = Some m) /\
  (forall a b, f_value f = Ok a -> f_value g = Ok b ->
     exists c, f_value f' = Ok c /\ profiles_combined o a b c).
Proof.
  intros Hf Hg E.
  assert (If := reachable_inv _ _ Hf). assert (Ig := reachable_inv _ _ Hg).
  destruct If as [Mf _], Ig as [Mg _].
  apply provide_ret in E. destruct E as [Hb [_ ->]]. simpl. unfold get_metadata. simpl.
  assert (Hx := md_ok_extend _ _ _ Mf Mg).
  assert (Hi := md_grows_insert H (mkProvision loc (figment_provider g)) _ Hx Hb).
  split; [|split].
  - intros t m Hm. apply Hi. now apply (md_grows_extend_l H _ _ Mf Mg).
  - intros t m Hm. apply Hi. now apply (md_grows_extend_r H _ _ Mg).
  - intros a b Ha Hb2. rewrite Ha, Hb2. eexists; split; [reflexivity|].
    destruct (reachable_data_tagged _ _ _ Hf Ha) as [Wa _].
    destruct (reachable_data_tagged _ _ _ Hg Hb2) as [Wb Tb].
    rewrite retag_data_id by auto. now apply pcoalesce_combined.
Qed.

(** ** C16 *)
Lemma values_app {K V} (a b : bmap K V) : values (a ++ b) = values a ++ values b.
Proof. apply map_app. Qed.

Lemma run_metadata l : forall f c f' c',
  Forall (fun x => match x with OpProvide _ _ p => pv_metadata_map p = None | _ => True end) l ->
  (forall t m, In (t, m) (f_metadata f) -> metadata_id t < c) ->
  run l f c = (Ret f', c') ->
  fig_metadata f' = fig_metadata f ++ provided_metadata l.
Proof.
  induction l as [|x r IH]; intros f c f' c' Hl Hlt E; cbn [run] in E.
  - inversion E; subst. simpl. now rewrite app_nil_r.
  - inversion Hl; subst. destruct x as [loc o p|p]; cbn [run_op] in E.
    + destruct (provide loc f p o c) as [[f1| |] c1] eqn:E1; try discriminate.
      apply provide_ret in E1. destruct E1 as [Hb [-> ->]]. rewrite H1 in E.
      assert (Hid : metadata_id (tag_new c PTDefault) = c) by now apply metadata_id_new_small.
      rewrite insert_last in E.
      2:{ intros t m Hin. unfold cmp, Cmp_tag. rewrite Hid. apply N.compare_lt_iff. eauto. }
      apply IH in E; auto.
      * rewrite E. unfold fig_metadata. simpl. rewrite values_app. simpl.
        now rewrite <- app_assoc.
      * simpl. intros t m Hin. apply in_app_or in Hin. destruct Hin as [Hin|[Hin|[]]].
        -- apply Hlt in Hin. lia.
        -- inversion Hin; subst. rewrite Hid. lia.
    + apply IH in E; auto.
Qed.

(** ** Retagging, as a relation *)
Lemma retags_map_tag (R : tag -> tag -> Prop) f v :
  (forall t, R t (if tag_eqb t tag_default then f t else t)) -> retags R v (map_tag f v).
Proof.
  intros HR. induction v as [t s|t c|t b0|t n|t e|t d IH|t l IH] using value_ind'; simpl;
    try (constructor; apply HR).
  - constructor; [apply HR|]. induction IH; simpl; constructor; auto.
  - constructor; [apply HR|]. induction IH; simpl; constructor; auto.
Qed.

Lemma stamps_for_profile c q t : c < 2 ^ 62 ->
  stamps c q t (if tag_eqb t tag_default then for_profile (tag_new c PTDefault) q else t).
Proof.
  intros Hc. unfold stamps. destruct (tag_eqb t tag_default) eqn:E.
  - apply tag_eqb_default in E. rewrite E. simpl. split.
    + rewrite metadata_id_for_profile. now apply metadata_id_new_small.
    + unfold for_profile. apply profile_tag_new.
  - assert (metadata_id t <> 0). { intros X. apply tag_eqb_default in X. congruence. }
    destruct (N.eqb_spec (metadata_id t) 0); [contradiction|reflexivity].
Qed.

Lemma stamped_retag c m : c < 2 ^ 62 -> stamped c m (retag_data (tag_new c PTDefault) m).
Proof.
  intros Hc. unfold stamped, retag_data. induction m as [|[q d] r IH]; simpl; constructor; auto.
  simpl. split; auto. clear IH. induction d as [|[k x] r2 IH]; simpl; constructor; auto.
  simpl. split; auto. apply retags_map_tag. intros t. now apply stamps_for_profile.
Qed.

Lemma provide_combines loc f p o c f' c' old new :
  provide loc f p o c = (Ret f', c') -> f_value f = Ok old -> pv_data p = Ok new ->
  wf_profiles old -> wf_profiles new ->
  exists new' result, stamped c new new' /\ f_value f' = Ok result /\ wf_profiles result /\
    profiles_combined o old new' result.
Proof.
  intros E Ho Hn W1 W2. apply provide_ret in E. destruct E as (Hc & _ & ->). cbn [f_value].
  rewrite Ho, Hn. exists (retag_data (tag_new c PTDefault) new). eexists.
  split; [now apply stamped_retag|]. split; [reflexivity|]. split.
  - apply wf_pcoalesce; auto. now apply wf_retag_data.
  - apply pcoalesce_combined; auto. now apply wf_retag_data.
Qed.

(** ** Failing histories *)
Lemma run_first_failure l : forall f c f' c' m e0 rest, run l f c = (Ret f', c') ->
  f_value f = Ok m -> failures l = e0 :: rest -> plain_ops l ->
  exists e, f_value f' = Err e /\ same_report e e0 /\
    match last_opt rest with
    | None => e_prev e = None
    | Some en => exists t, e_prev e = Some (retagged t en)
    end.
Proof.
  induction l as [|x r IH]; intros f c f' c' m e0 rest H Hm Hf Hp; cbn [run failures] in *; [discriminate|].
  inversion Hp as [|? ? Hpx Hpr]; subst.
  destruct x as [loc o p|p]; cbn [run_op] in *.
  - destruct (provide loc f p o c) as [[f1| |] c1] eqn:E1; try discriminate.
    apply provide_ret in E1. destruct E1 as (Hc & -> & Hf1). rewrite Hm in Hf1.
    destruct (pv_data p) as [d|e1] eqn:Ed.
    + eapply IH; eauto. subst f1. reflexivity.
    + inversion Hf; subst e1 rest.
      assert (Hv1 : f_value f1 = Err (retagged (tag_new c PTDefault) e0)) by (subst f1; reflexivity).
      destruct (run_error_shape _ _ _ _ _ _ H Hv1) as [e [H1 [H2 H3]]].
      exists e. split; auto. split; [eapply same_report_trans; [exact H2|apply same_report_retagged]|].
      destruct (last_opt (failures r)); auto. subst e.
      destruct Hpx as [_ Hpx]. rewrite Ed in Hpx. destruct Hpx as [_ Hprev].
      destruct e0. exact Hprev.
  - eapply IH; eauto.
Qed.

Lemma failures_plain l : plain_ops l -> Forall (fun e => e_prev e = None) (failures l).
Proof.
  induction 1 as [|x r Hx Hr IH]; [constructor|]. destruct x as [loc o p|p]; cbn [failures]; auto.
  destruct (pv_data p) eqn:E; auto. constructor; auto. destruct Hx as [_ Hx]. rewrite E in Hx. apply Hx.
Qed.

Lemma last_opt_In {A} (l : list A) x : last_opt l = Some x -> In x l.
Proof.
  induction l as [|y r IH]; [discriminate|]. destruct r as [|z r].
  - simpl. intros E; inversion E; auto.
  - change (last_opt (y :: z :: r)) with (last_opt (z :: r)). intros E. right. auto.
Qed.

Lemma run_reports l f c f' c' m : run l f c = (Ret f', c') ->
  f_value f = Ok m -> failures l <> [] -> plain_ops l ->
  exists e, merged f' = Err e /\ Forall2 same_report (errors_of e) (first_last (failures l)).
Proof.
  intros H Hm Hf Hp. destruct (failures l) as [|e0 rest] eqn:Ef; [congruence|].
  destruct (run_first_failure _ _ _ _ _ _ _ _ H Hm Ef Hp) as [e [H1 [H2 H3]]].
  assert (Hpl := failures_plain l Hp). rewrite Ef in Hpl. rewrite Forall_forall in Hpl.
  eexists. split; [apply merged_err; eauto|]. unfold resolved. rewrite errors_of_resolved.
  cbn [first_last]. destruct e as [t p mm pa k v]. cbn [errors_of map e_prev] in *.
  constructor.
  - eapply same_report_trans; [apply resolved_report|]. exact H2.
  - destruct (last_opt rest) as [en|] eqn:El.
    + destruct H3 as [t' ->]. apply last_opt_In in El.
      assert (Hn := Hpl en (or_intror El)). destruct en as [t1 p1 m1 pa1 k1 v1]. simpl in Hn. subst v1.
      cbn [retagged errors_of map]. constructor; [|constructor].
      eapply same_report_trans; [apply resolved_report|]. split; reflexivity.
    + subst v. constructor.
Qed.
