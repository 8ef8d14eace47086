(** Proofs about Figments: profiles, precedence, errors, histories. *)
From Coq Require Import NArith Bool List Lia.
From Verif Require Import Res BMap BMapProofs Str StrProofs Profile ProfileProofs Tag Num Value
  Metadata Err Coalesce Figment SpecValue SpecFigment ValueProofs CoalesceProofs.
Import ListNotations.
Local Open Scope N_scope.

Lemma provide_ret loc f p o c f' c' :
  provide loc f p o c = (Ret f', c') ->
  c < 2 ^ 62 /\ c' = c + 1 /\
  f' = mkFigment
         (match pv_profile p with
          | Some q => profile_coalesce (f_profile f) q o | None => f_profile f end)
         (insert (tag_new c PTDefault) (md_with_location (pv_metadata p) loc)
            (match pv_metadata_map p with
             | Some m => extend (f_metadata f) m | None => f_metadata f end))
         (match pv_data p, f_value f with
          | Ok _, Err e => Err e
          | Err e, Ok _ => Err (retagged (tag_new c PTDefault) e)
          | Err e, Err prev => Err (chain (retagged (tag_new c PTDefault) e) prev)
          | Ok new, Ok old => Ok (pcoalesce o old (retag_data (tag_new c PTDefault) new))
          end).
Proof.
  unfold provide. destruct (tag_next c) as [[t| |] c2] eqn:E; simpl; intros H; inversion H; subst.
  assert (E2 := E). apply tag_next_ret in E2. destruct E2 as [H1 [H2 ->]].
  rewrite tag_next_small in E by auto. inversion E; subst. auto.
Qed.

Lemma provide_small loc f p o c : c < 2 ^ 62 ->
  exists f', provide loc f p o c = (Ret f', c + 1).
Proof.
  intros H. unfold provide. rewrite (tag_next_small c H). simpl. eauto.
Qed.

(** ** C05 *)
Lemma take_or_empty_spec p m : take_or_empty p m = (data_of m p, remove p m).
Proof.
  unfold take_or_empty, data_of. rewrite take_spec. destruct (get p m) eqn:E; auto.
  now rewrite remove_notin.
Qed.

Lemma merged_ok f m : f_value f = Ok m -> sorted m ->
  merged f = Ok (VDict tag_default
    (dmerge (if is_custom (f_profile f)
             then match get (f_profile f) m with
                  | Some v => dmerge (data_of m p_default) v
                  | None => data_of m p_default end
             else data_of m p_default)
            (data_of m p_global))).
Proof.
  intros Hv Hs. unfold merged. rewrite Hv, take_or_empty_spec, take_or_empty_spec, take_spec.
  assert (G1 : data_of (remove p_default m) p_global = data_of m p_global).
  { unfold data_of. rewrite get_remove_ne by discriminate. reflexivity. }
  rewrite G1. do 2 f_equal.
  destruct (is_custom (f_profile f)) eqn:Ec.
  - unfold is_custom in Ec. rewrite !profile_eqb_cmp in Ec. apply andb_true_iff in Ec.
    destruct Ec as [Hc1 Hc2]. apply negb_true_iff in Hc1, Hc2.
    rewrite !get_remove_ne.
    + destruct (get (f_profile f) m); reflexivity.
    + intros X; rewrite X in *; discriminate.
    + intros X; rewrite X in *; discriminate.
  - destruct (get _ (remove p_global _)); reflexivity.
Qed.

Lemma data_of_wf m p : wf_profiles m -> wf_dict (data_of m p).
Proof.
  intros [Hs Hf]. unfold data_of. destruct (get p m) eqn:E; [|apply wf_dict_nil].
  apply (Forall_get wf_dict _ _ _ Hf E).
Qed.

Definition selected_of (f : figment) (m : bmap profile dict) : dict :=
  if is_custom (f_profile f) then data_of m (f_profile f) else [].

Lemma merged_ok3 f m : f_value f = Ok m -> wf_profiles m ->
  merged f = Ok (VDict tag_default
    (dmerge (dmerge (data_of m p_default) (selected_of f m)) (data_of m p_global))).
Proof.
  intros Hv Hw. rewrite (merged_ok f m Hv (proj1 Hw)). do 3 f_equal. unfold selected_of.
  assert (Hd := data_of_wf m p_default Hw).
  unfold dmerge. destruct (is_custom (f_profile f)).
  - change (data_of m (f_profile f)) with
      (match get (f_profile f) m with Some d => d | None => [] end).
    destruct (get (f_profile f) m); auto.
    symmetry. apply dcoalesce_nil_r. apply Hd.
  - symmetry. apply dcoalesce_nil_r. apply Hd.
Qed.

Lemma leaf_dmerge p a b x : wf_dict a -> wf_dict b ->
  (leaf_at p (VDict tag_default (dmerge a b)) x <->
   leaf_at p (VDict tag_default b) x \/
   (leaf_at p (VDict tag_default a) x /\ open_at p (VDict tag_default b))).
Proof.
  intros Ha Hb.
  rewrite <- C02_merge_lemma by now apply wf_VDict.
  now rewrite vcoalesce_dict.
Qed.

Lemma wf_dmerge a b : wf_dict a -> wf_dict b -> wf_dict (dmerge a b).
Proof. apply wf_dcoalesce. Qed.

Lemma selected_wf f m : wf_profiles m -> wf_dict (selected_of f m).
Proof.
  intros H. unfold selected_of. destruct (is_custom _); [now apply data_of_wf|apply wf_dict_nil].
Qed.

(** ** C06 *)
Lemma same_profile_cmp p q : same_profile p q <-> cmp p q = Eq.
Proof. symmetry. apply cmp_profile_eq. Qed.

Lemma same_profile_eqb p q r : same_profile p q -> profile_eqb p r = profile_eqb q r.
Proof. unfold same_profile, profile_eqb, uncased_eqb. now intros ->. Qed.

Lemma same_profile_custom p q : same_profile p q -> is_custom p = is_custom q.
Proof. intros H. unfold is_custom. now rewrite !(same_profile_eqb p q _ H). Qed.

Lemma same_profile_tag p q : same_profile p q -> tag_of_profile p = tag_of_profile q.
Proof. intros H. unfold tag_of_profile. now rewrite !(same_profile_eqb p q _ H). Qed.

Lemma same_profile_get {V} p q (m : bmap profile V) : same_profile p q -> get p m = get q m.
Proof. intros H. apply get_eq. now apply same_profile_cmp. Qed.

Lemma take_eq {V} p q (m : bmap profile V) : cmp p q = Eq -> take p m = take q m.
Proof.
  intros H; induction m as [|[k v] r IH]; simpl; auto.
  rewrite (cmp_eq_l _ _ k H), IH. reflexivity.
Qed.

Lemma merged_select_same f p q m : f_value f = Ok m -> same_profile p q ->
  merged (fig_select f p) = merged (fig_select f q).
Proof.
  intros Hv H. unfold merged; simpl. rewrite Hv.
  destruct (take_or_empty p_default m) as [d m1]. destruct (take_or_empty p_global m1) as [g m2].
  rewrite (take_eq p q m2) by now apply same_profile_cmp.
  now rewrite (same_profile_custom p q H).
Qed.

(** ** C07 *)
Lemma last_cons_default {A} (l : list A) : forall x d, last (x :: l) d = last l x.
Proof.
  induction l as [|y r IH]; intros x d; [reflexivity|].
  change (last (x :: y :: r) d) with (last (y :: r) d). rewrite (IH y d).
  symmetry. exact (IH y x).
Qed.

Lemma run_profile l : forall f c f' c', run l f c = (Ret f', c') ->
  f_profile f' = last (flat_map sets_profile l) (f_profile f).
Proof.
  induction l as [|x r IH]; intros f c f' c' H; cbn [run flat_map] in *.
  - inversion H; reflexivity.
  - destruct (run_op x f c) as [[f1| |] c1] eqn:E; try discriminate.
    apply IH in H. rewrite H. destruct x as [loc o p|p]; cbn [run_op] in E.
    + apply provide_ret in E. destruct E as [_ [_ ->]]. cbn [f_profile sets_profile].
      destruct (pv_profile p), o; cbn [keeps_existing app profile_coalesce]; auto;
        symmetry; apply last_cons_default.
    + inversion E; subst. symmetry. apply last_cons_default.
Qed.

(** ** C08, C09 *)
Lemma run_app l1 : forall l2 f c, run (l1 ++ l2) f c =
  match run l1 f c with
  | (Ret f', c') => run l2 f' c'
  | (Panic, c') => (Panic, c')
  | (NoFuel, c') => (NoFuel, c')
  end.
Proof.
  induction l1 as [|x r IH]; simpl; auto. intros l2 f c.
  destruct (run_op x f c) as [[f1| |] c1]; auto.
Qed.

Lemma run_err_sticky l : forall f c f' c' e, run l f c = (Ret f', c') -> f_value f = Err e ->
  exists e', f_value f' = Err e'.
Proof.
  induction l as [|x r IH]; simpl; intros f c f' c' e H He.
  - inversion H; subst; eauto.
  - destruct (run_op x f c) as [[f1| |] c1] eqn:E; try discriminate.
    destruct x as [loc o p|p]; simpl in E.
    + apply provide_ret in E. destruct E as [_ [_ ->]].
      simpl in H. rewrite He in H. destruct (pv_data p); eapply IH; eauto; reflexivity.
    + inversion E; subst. eapply IH; eauto.
Qed.

Lemma run_fails_iff l : forall f c f' c' m, run l f c = (Ret f', c') -> f_value f = Ok m ->
  ((exists e, f_value f' = Err e) <-> failures l <> []).
Proof.
  induction l as [|x r IH]; simpl; intros f c f' c' m H Hm.
  - inversion H; subst. rewrite Hm. split; [intros [e He]; discriminate | congruence].
  - destruct (run_op x f c) as [[f1| |] c1] eqn:E; try discriminate.
    destruct x as [loc o p|p]; simpl in E.
    + apply provide_ret in E. destruct E as [_ [_ ->]].
      destruct (pv_data p) as [d|e] eqn:Ed.
      * eapply IH; eauto. simpl. now rewrite Hm.
      * split; [discriminate|]. intros _. eapply run_err_sticky; eauto. simpl. now rewrite Hm.
    + inversion E; subst. eapply IH; eauto.
Qed.

Lemma merged_err f e : f_value f = Err e -> merged f = Err (resolved e f).
Proof. unfold merged. now intros ->. Qed.

Lemma merged_total f : (exists v, merged f = Ok v) <-> exists m, f_value f = Ok m.
Proof.
  unfold merged. destruct (f_value f) as [m|e].
  - split; eauto. intros _.
    destruct (take_or_empty p_default m). destruct (take_or_empty p_global b). eauto.
  - split; intros [x H]; discriminate.
Qed.

Lemma last_opt_cons {A} (l : list A) : forall x, last_opt (x :: l) <> None.
Proof. induction l as [|y r IH]; intros x; [discriminate|]. apply (IH y). Qed.

Definition set_prev (e : error) (v : option error) : error :=
  let 'MkError t p m pa k _ := e in MkError t p m pa k v.

Lemma errors_of_head e : exists r, errors_of e = set_prev e None :: r.
Proof. destruct e. simpl. eauto. Qed.

Lemma same_report_refl e : same_report e e.
Proof. split; reflexivity. Qed.

Lemma same_report_sym a b : same_report a b -> same_report b a.
Proof. intros [H1 H2]; split; congruence. Qed.

Lemma same_report_trans a b c : same_report a b -> same_report b c -> same_report a c.
Proof. intros [H1 H2] [H3 H4]; split; congruence. Qed.

Lemma same_report_retagged t e : same_report (retagged t e) e.
Proof. destruct e. split; reflexivity. Qed.

Lemma same_report_chain a b : same_report (chain a b) b.
Proof. destruct b. split; reflexivity. Qed.

(** The exact content of the stored error: the first failure, then the last one. *)
Lemma run_error_shape l : forall f c f' c' e, run l f c = (Ret f', c') -> f_value f = Err e ->
  exists e', f_value f' = Err e' /\ same_report e' e /\
    match last_opt (failures l) with
    | None => e' = e
    | Some en => exists t, e_prev e' = Some (retagged t en)
    end.
Proof.
  induction l as [|x r IH]; simpl; intros f c f' c' e H He.
  - inversion H; subst. exists e. auto using same_report_refl.
  - destruct (run_op x f c) as [[f1| |] c1] eqn:E; try discriminate.
    destruct x as [loc o p|p]; simpl in E.
    + apply provide_ret in E. destruct E as [_ [_ ->]].
      destruct (pv_data p) as [d|e0] eqn:Ed.
      * simpl in H. rewrite He in H. eapply IH in H; [|reflexivity].
        destruct H as [e' [H1 [H2 H3]]]. exists e'. auto.
      * simpl in H. rewrite He in H. eapply IH in H; [|reflexivity].
        destruct H as [e' [H1 [H2 H3]]]. exists e'. split; auto. split.
        { eapply same_report_trans; [exact H2|apply same_report_chain]. }
        destruct (failures r) as [|e2 r2] eqn:Er.
        { simpl in *. subst e'. exists (tag_new c PTDefault). destruct e. reflexivity. }
        { change (last_opt (e0 :: e2 :: r2)) with (last_opt (e2 :: r2)).
          destruct (last_opt (e2 :: r2)) as [en|] eqn:EL; auto.
          now apply last_opt_cons in EL. }
    + inversion E; subst. eapply IH; eauto.
Qed.
