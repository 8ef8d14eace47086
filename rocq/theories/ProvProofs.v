(** Provenance: tags, metadata and errors over all histories. *)
From Coq Require Import NArith Bool List Lia.
From Verif Require Import Res BMap BMapProofs Str StrProofs Profile ProfileProofs Tag Num Value
  Metadata Err Coalesce Figment SpecValue SpecFigment ValueProofs CoalesceProofs FigmentProofs.
Import ListNotations.
Local Open Scope N_scope.

(** ** Reaching into combined and re-tagged values *)
Lemma same_head_refl x : same_head x x.
Proof. destruct x; simpl; auto. Qed.

Lemma same_head_trans x y z : same_head x y -> same_head y z -> same_head x z.
Proof. destruct x, y, z; simpl; intros; try discriminate; auto; congruence. Qed.

Lemma reach_dict_inv s r t d y : reach (s :: r) (VDict t d) y ->
  exists k x, s = SKey k /\ get k d = Some x /\ reach r x y.
Proof. intros H; inversion H; subst; eauto. Qed.

Lemma reach_array_inv s r t l y : reach (s :: r) (VArray t l) y ->
  s = SElem /\ exists x, In x l /\ reach r x y.
Proof. intros H; inversion H; subst; eauto. Qed.

Lemma reach_combine o p : forall a b x, wf a -> wf b -> reach p (vcoalesce o a b) x ->
  exists y, vtag x = vtag y /\ same_head x y /\ (reach p a y \/ reach p b y).
Proof.
  induction p as [|s p IH]; intros a b x Ha Hb Hr.
  - inversion Hr; subst.
    destruct (combinable o a b) eqn:Ec.
    + destruct a, b; simpl in Ec; try discriminate;
        try (destruct o; discriminate Ec).
      * rewrite vcoalesce_dict. destruct (keeps_existing o);
          [exists (VDict t d)|exists (VDict t0 d0)]; simpl; eauto using reach.
      * rewrite vcoalesce_array by (destruct o; first [reflexivity | discriminate Ec]).
        exists (VArray t l). simpl. eauto using reach.
    + rewrite vcoalesce_other by auto. destruct (keeps_existing o);
        [exists a|exists b]; eauto using reach, same_head_refl.
  - destruct (combinable o a b) eqn:Ec.
    + destruct a, b; simpl in Ec; try discriminate;
        try (destruct o; discriminate Ec).
      * rewrite vcoalesce_dict in Hr. apply reach_dict_inv in Hr.
        destruct Hr as [k [v [-> [H4 H5]]]].
        apply wf_VDict in Ha, Hb. rewrite dcoalesce_get in H4 by (apply Ha || apply Hb).
        destruct (get k d) as [xa|] eqn:Ea, (get k d0) as [xb|] eqn:Eb; simpl in H4;
          inversion H4; subst.
        -- apply IH in H5; eauto using wf_get. destruct H5 as [y [H1 [H2 [H3|H3]]]];
             exists y; eauto 6 using reach.
        -- exists x; eauto 6 using reach, same_head_refl.
        -- exists x; eauto 6 using reach, same_head_refl.
      * rewrite vcoalesce_array in Hr by (destruct o; first [reflexivity | discriminate Ec]).
        apply reach_array_inv in Hr. destruct Hr as [-> [v [H3 H4]]].
        apply in_app_or in H3.
        exists x. split; auto. split; [apply same_head_refl|].
        destruct H3; eauto using reach.
    + rewrite vcoalesce_other in Hr by auto. exists x. split; auto.
      split; [apply same_head_refl|]. destruct (keeps_existing o); auto.
Qed.

Lemma reach_dcombine o p t a b x : p <> [] -> wf_dict a -> wf_dict b ->
  reach p (VDict t (dcoalesce o a b)) x ->
  exists y, vtag x = vtag y /\ same_head x y /\ (reach p (VDict t a) y \/ reach p (VDict t b) y).
Proof.
  intros Hp Ha Hb Hr. apply (reach_combine o p (VDict t a) (VDict t b)).
  - now apply wf_VDict. - now apply wf_VDict.
  - rewrite vcoalesce_dict. now destruct (keeps_existing o).
Qed.

Lemma reach_tag_irrel p t t' d x : p <> [] -> reach p (VDict t d) x -> reach p (VDict t' d) x.
Proof. intros Hp H. inversion H; subst; [congruence|]. eauto using reach. Qed.

Lemma get_map_snd {W} (g : value -> W) (d : dict) k :
  get k (map (fun kv => (fst kv, g (snd kv))) d) = option_map g (get k d).
Proof. apply (get_map_values (fun _ v => g v)). reflexivity. Qed.

Lemma reach_map_tag f p : forall v x, reach p (map_tag f v) x ->
  exists y, reach p v y /\ x = map_tag f y.
Proof.
  induction p as [|s p IH]; intros v x Hr.
  - inversion Hr; subst. eauto using reach.
  - destruct v; simpl in Hr; try (inversion Hr; fail).
    + apply reach_dict_inv in Hr. destruct Hr as [k [v [-> [H4 H5]]]].
      rewrite (get_map_snd (map_tag f)) in H4.
      destruct (get k d) as [w|] eqn:E; inversion H4; subst.
      apply IH in H5. destruct H5 as [y [H1 H2]]. eauto using reach.
    + apply reach_array_inv in Hr. destruct Hr as [-> [v [H3 H4]]].
      apply in_map_iff in H3. destruct H3 as [w [<- Hw]].
      apply IH in H4. destruct H4 as [y [H1 H2]]. eauto using reach.
Qed.

Lemma same_head_map_tag f x : same_head (map_tag f x) x.
Proof. destruct x; simpl; auto. Qed.

Lemma vtag_map_tag f x : vtag (map_tag f x) = if tag_eqb (vtag x) tag_default then f (vtag x) else vtag x.
Proof. destruct x; reflexivity. Qed.

Lemma keys_map_snd {K V W} (g : V -> W) (m : bmap K V) :
  keys (map (fun kv => (fst kv, g (snd kv))) m) = keys m.
Proof. unfold keys. rewrite map_map. reflexivity. Qed.

Lemma wf_map_tag f v : wf v -> wf (map_tag f v).
Proof.
  induction v using value_ind'; intros Hw; try exact I.
  - apply wf_VDict in Hw. simpl map_tag. apply wf_VDict.
    apply wf_dict_intro.
    + eapply sorted_keys; [|apply (proj1 Hw)]. symmetry. apply (keys_map_snd (map_tag f)).
    + intros k x. rewrite (get_map_snd (map_tag f)). destruct (get k d) as [w|] eqn:E;
        simpl; intros Ex; inversion Ex; subst.
      apply (Forall_get (fun x => wf x -> wf (map_tag f x)) _ _ _ H E). eauto using wf_get.
  - apply wf_VArray in Hw. simpl map_tag. apply wf_VArray.
    induction H; simpl; constructor; inversion Hw; subst; auto.
Qed.

Definition retag_dict (t : tag) (q : profile) (d : dict) : dict :=
  map (fun kv => (fst kv, map_tag (fun _ => for_profile t q) (snd kv))) d.

Lemma retag_data_get t m q : get q (retag_data t m) = option_map (retag_dict t q) (get q m).
Proof.
  unfold retag_data.
  apply (get_map_values (fun q d => retag_dict t q d)).
  intros k1 k2 v Hk. unfold retag_dict. apply map_ext. intros [k x]. simpl. f_equal. f_equal.
  unfold for_profile. now rewrite (same_profile_tag k1 k2) by now apply same_profile_cmp.
Qed.

Lemma retag_data_sorted t m : sorted m -> sorted (retag_data t m).
Proof.
  apply sorted_keys. unfold retag_data, keys. rewrite map_map. reflexivity.
Qed.

Lemma wf_retag_dict t q d : wf_dict d -> wf_dict (retag_dict t q d).
Proof.
  intros H. apply wf_dict_intro.
  - eapply sorted_keys; [|apply (proj1 H)]. symmetry. apply (keys_map_snd (map_tag _)).
  - intros k x. unfold retag_dict. rewrite (get_map_snd (map_tag _)).
    destruct (get k d) as [w|] eqn:E; simpl; intros Ex; inversion Ex; subst.
    apply wf_map_tag. eauto using wf_get.
Qed.

Lemma wf_profiles_intro m : sorted m -> (forall q d, get q m = Some d -> wf_dict d) ->
  wf_profiles m.
Proof.
  intros Hs H. split; auto. apply Forall_forall. intros [q d] Hin. simpl.
  apply (H q). now apply In_get.
Qed.

Lemma wf_profiles_get m q d : wf_profiles m -> get q m = Some d -> wf_dict d.
Proof. intros [_ H] E. apply (Forall_get wf_dict _ _ _ H E). Qed.

Lemma wf_retag_data t m : wf_profiles m -> wf_profiles (retag_data t m).
Proof.
  intros H. apply wf_profiles_intro.
  - apply retag_data_sorted, H.
  - intros q d. rewrite retag_data_get. destruct (get q m) eqn:E; simpl; intros Ed;
      inversion Ed; subst. apply wf_retag_dict. eauto using wf_profiles_get.
Qed.

Lemma wf_pcoalesce o a b : wf_profiles a -> wf_profiles b -> wf_profiles (pcoalesce o a b).
Proof.
  intros Ha Hb. apply wf_profiles_intro; [apply map_coalesce_sorted|].
  intros q d. rewrite pcoalesce_get by (apply Ha || apply Hb).
  destruct (get q a) eqn:Ea, (get q b) eqn:Eb; simpl; intros E; inversion E; subst;
    eauto using wf_profiles_get, wf_dcoalesce.
Qed.

Lemma reach_retag_dict t q tg d p x : p <> [] -> reach p (VDict tg (retag_dict t q d)) x ->
  exists y, reach p (VDict tg d) y /\ x = map_tag (fun _ => for_profile t q) y.
Proof.
  intros Hp H. destruct p as [|s p]; [congruence|].
  apply reach_dict_inv in H. destruct H as [k [v [-> [H4 H5]]]].
  unfold retag_dict in H4. rewrite (get_map_snd (map_tag _)) in H4.
  destruct (get k d) as [w|] eqn:E; inversion H4; subst.
  apply reach_map_tag in H5. destruct H5 as [y [H1 H2]]. exists y. eauto using reach.
Qed.

(** ** Identifiers *)
Lemma nth_provision_app H n id p : nth_provision H id = Some p ->
  nth_provision (H ++ [n]) id = Some p.
Proof.
  unfold nth_provision. destruct (id =? 0); [discriminate|]. intros E.
  rewrite nth_error_app1; auto. apply nth_error_Some. congruence.
Qed.

Lemma nth_provision_bound H id p : nth_provision H id = Some p -> 0 < id < next_id H.
Proof.
  unfold nth_provision, next_id. destruct (N.eqb_spec id 0); [discriminate|]. intros E.
  assert (N.to_nat (id - 1) < length H)%nat by (apply nth_error_Some; congruence). lia.
Qed.

Lemma nth_provision_new H n : nth_provision (H ++ [n]) (next_id H) = Some n.
Proof.
  unfold nth_provision, next_id. destruct (N.eqb_spec (1 + N.of_nat (length H)) 0); [lia|].
  replace (N.to_nat (1 + N.of_nat (length H) - 1)) with (length H) by lia.
  rewrite nth_error_app2 by lia. now rewrite PeanoNat.Nat.sub_diag.
Qed.

Lemma nth_provision_tag H t p : nth_provision H (metadata_id t) = Some p ->
  tag_eqb t tag_default = false /\ is_default t = false.
Proof.
  intros E. apply nth_provision_bound in E. split.
  - destruct (tag_eqb t tag_default) eqn:X; auto. apply tag_eqb_default in X. lia.
  - destruct (is_default t) eqn:X; auto. apply is_default_spec in X. subst.
    change (metadata_id tag_default) with 0 in E. lia.
Qed.

Lemma metadata_id_new_small c pt : c < 2 ^ 62 -> metadata_id (tag_new c pt) = c.
Proof. intros H. rewrite metadata_id_new. now apply N.mod_small. Qed.

(** ** The invariant *)
Definition md_ok (H : list provision) (mds : bmap tag metadata) : Prop :=
  sorted mds /\
  forall t m, get t mds = Some m ->
    exists n, nth_provision H (metadata_id t) = Some n /\ m = pn_metadata n.

Definition inv (H : list provision) (f : figment) : Prop :=
  md_ok H (f_metadata f) /\
  match f_value f with
  | Ok m => wf_profiles m /\
      forall q d path x, get q m = Some d -> path <> [] ->
        reach path (VDict tag_default d) x -> traced H f q path x
  | Err e => forall e', In e' (errors_of e) -> traced_error H f e'
  end.

Lemma md_ok_app H n mds : md_ok H mds -> md_ok (H ++ [n]) mds.
Proof.
  intros [Hs Hm]; split; auto. intros t m E. destruct (Hm t m E) as [p [H1 H2]].
  exists p. split; auto. now apply nth_provision_app.
Qed.

Lemma md_ok_insert H n mds : md_ok H mds -> next_id H < 2 ^ 62 ->
  md_ok (H ++ [n]) (insert (tag_new (next_id H) PTDefault) (pn_metadata n) mds).
Proof.
  intros Hm Hb. assert (Hm' := md_ok_app H n mds Hm). destruct Hm' as [Hs Hg].
  split; [now apply sorted_insert|]. intros t m. rewrite get_insert.
  destruct (cmp t (tag_new (next_id H) PTDefault)) eqn:E; auto.
  apply cmp_tag_eq in E. rewrite metadata_id_new_small in E by auto.
  intros X; inversion X; subst. exists n. split; auto. rewrite E. apply nth_provision_new.
Qed.

Lemma md_ok_extend H a b : md_ok H a -> md_ok H b -> md_ok H (extend a b).
Proof.
  intros [Sa Ha] [Sb Hb]. split; [now apply sorted_extend|].
  intros t m. rewrite get_extend by auto. destruct (get t b) eqn:E; auto.
  intros X; inversion X; subst. eauto.
Qed.

(** Metadata already registered stays what it is when the map grows. *)
Definition md_grows (a b : bmap tag metadata) : Prop :=
  forall t m, get t a = Some m -> get t b = Some m.

Lemma md_grows_insert H n mds : md_ok H mds -> next_id H < 2 ^ 62 ->
  md_grows mds (insert (tag_new (next_id H) PTDefault) (pn_metadata n) mds).
Proof.
  intros [_ Hm] Hb t m E. rewrite get_insert.
  destruct (cmp t (tag_new (next_id H) PTDefault)) eqn:X; auto.
  apply cmp_tag_eq in X. rewrite metadata_id_new_small in X by auto.
  destruct (Hm t m E) as [p [H1 _]]. apply nth_provision_bound in H1. lia.
Qed.

Lemma md_grows_extend_l H a b : md_ok H a -> md_ok H b -> md_grows a (extend a b).
Proof.
  intros [_ Ha] [Sb Hb] t m E. rewrite get_extend by auto.
  destruct (get t b) eqn:X; auto. destruct (Ha t m E) as [p [H1 ->]].
  destruct (Hb t _ X) as [p' [H2 ->]]. congruence.
Qed.

Lemma md_grows_extend_r H a b : md_ok H b -> md_grows b (extend a b).
Proof. intros [Sb Hb] t m E. rewrite get_extend by auto. now rewrite E. Qed.

Lemma md_grows_trans a b c : md_grows a b -> md_grows b c -> md_grows a c.
Proof. intros H1 H2 t m E. auto. Qed.

Lemma traced_mono H n f f' q p x : md_grows (f_metadata f) (f_metadata f') ->
  traced H f q p x -> traced (H ++ [n]) f' q p x.
Proof.
  intros Hg [n' [m [d [y [H1 [H2 [H3 H4]]]]]]]. exists n', m, d, y.
  split; [now apply nth_provision_app|]. split; auto. split; auto. now apply Hg.
Qed.

Lemma traced_error_mono H n f f' e : md_grows (f_metadata f) (f_metadata f') ->
  traced_error H f e -> traced_error (H ++ [n]) f' e.
Proof.
  intros Hg [n' [e0 [H1 [H2 [H3 [H4 H5]]]]]]. exists n', e0.
  split; [now apply nth_provision_app|]. split; [auto|]. split; [auto|]. split; [auto|].
  now apply Hg.
Qed.

(** [traced] only depends on the tag and head of the value. *)
Lemma traced_like H f q p x y : vtag x = vtag y -> same_head x y -> traced H f q p y ->
  traced H f q p x.
Proof.
  intros Ht Hh [n [m [d [z [H1 [H2 [H3 [H4 [H5 [H6 [H7 H8]]]]]]]]]]].
  exists n, m, d, z. rewrite Ht. intuition auto. eapply same_head_trans; eauto.
Qed.

Definition data_traced H f (m : bmap profile dict) : Prop :=
  wf_profiles m /\
  forall q d path x, get q m = Some d -> path <> [] ->
    reach path (VDict tag_default d) x -> traced H f q path x.

Lemma data_traced_coalesce H f o a b : data_traced H f a -> data_traced H f b ->
  data_traced H f (pcoalesce o a b).
Proof.
  intros [Wa Ha] [Wb Hb]. split; [now apply wf_pcoalesce|].
  intros q d path x Hg Hp Hr. rewrite pcoalesce_get in Hg by (apply Wa || apply Wb).
  destruct (get q a) as [da|] eqn:Ea, (get q b) as [db|] eqn:Eb; simpl in Hg;
    inversion Hg; subst; eauto.
  apply reach_dcombine in Hr; eauto using wf_profiles_get.
  destruct Hr as [y [H1 [H2 [H3|H3]]]]; eapply traced_like; eauto.
Qed.

Lemma data_traced_plain H loc p m f' :
  let n := mkProvision loc p in
  plain p -> pv_data p = Ok m -> next_id H < 2 ^ 62 ->
  get (tag_new (next_id H) PTDefault) (f_metadata f') = Some (pn_metadata n) ->
  data_traced (H ++ [n]) f' (retag_data (tag_new (next_id H) PTDefault) m).
Proof.
  intros n Hp Hd Hb Hm. assert (Hp' := Hp). destruct Hp' as [_ Hp']. rewrite Hd in Hp'.
  destruct Hp' as [Hw Ht]. split; [now apply wf_retag_data|].
  intros q d path x Hg Hpath Hr. rewrite retag_data_get in Hg.
  destruct (get q m) as [d0|] eqn:E; inversion Hg; subst; clear Hg.
  apply reach_retag_dict in Hr; auto. destruct Hr as [y [Hy ->]].
  destruct (get_In _ _ _ E) as [q' [Hq Hin]].
  assert (Hz := Ht q' d0 Hin path y Hy). simpl in Hz.
  assert (Htag : vtag (map_tag (fun _ => for_profile (tag_new (next_id H) PTDefault) q) y) =
                 for_profile (tag_new (next_id H) PTDefault) q).
  { rewrite vtag_map_tag. rewrite (proj2 (tag_eqb_default _) Hz). reflexivity. }
  assert (Hid : metadata_id (for_profile (tag_new (next_id H) PTDefault) q) = next_id H).
  { rewrite metadata_id_for_profile. now apply metadata_id_new_small. }
  exists n, m, d0, y. rewrite Htag, Hid. split; [apply nth_provision_new|].
  split; auto. split.
  { unfold get_metadata. rewrite <- Hm. apply get_eq. apply cmp_tag_eq.
    rewrite Hid. now rewrite metadata_id_new_small. }
  split; [unfold for_profile; apply profile_tag_new|].
  split; auto. split; auto. split; auto. apply same_head_map_tag.
Qed.

Lemma data_traced_retag H f t m : data_traced H f m -> data_traced H f (retag_data t m).
Proof.
  intros [Hw Ht]. split; [now apply wf_retag_data|].
  intros q d path x Hg Hp Hr. rewrite retag_data_get in Hg.
  destruct (get q m) as [d0|] eqn:E; inversion Hg; subst.
  apply reach_retag_dict in Hr; auto. destruct Hr as [y [Hy ->]].
  assert (Hy' := Ht q d0 path y E Hp Hy).
  eapply traced_like; [|apply same_head_map_tag|exact Hy'].
  rewrite vtag_map_tag. destruct Hy' as [n [_ [_ [_ [Hn _]]]]].
  apply nth_provision_tag in Hn. destruct Hn as [-> _]. reflexivity.
Qed.

Lemma data_traced_mono H n f f' m : md_grows (f_metadata f) (f_metadata f') ->
  data_traced H f m -> data_traced (H ++ [n]) f' m.
Proof. intros Hg [Hw Ht]. split; auto. intros. eapply traced_mono; eauto. Qed.

Lemma errors_of_chain a b : forall e, In e (errors_of (chain a b)) ->
  In e (errors_of b) \/ In e (errors_of a).
Proof. destruct b; simpl. intros e [H|H]; auto. Qed.

Lemma errors_of_retagged_id t e : is_default (e_tag e) = false -> retagged t e = e.
Proof. destruct e; simpl. now intros ->. Qed.

Lemma reachable_inv H f : reachable H f -> inv H f.
Proof.
  induction 1 as [H|H f n Hr IH|H f p Hr IH|H f loc o p f' c' Hr IH Hp Hpr
                 |H f g loc o f' c' Hr IH Hr2 IH2 Hpr].
  - split.
    + split; [exact I|]. intros t m E; discriminate.
    + simpl. split; [split; [exact I|constructor]|]. intros; discriminate.
  - destruct IH as [H1 H2]. split; [now apply md_ok_app|].
    assert (Hg : md_grows (f_metadata f) (f_metadata f)) by (intros t m E; auto).
    destruct (f_value f) as [m|e].
    + destruct H2 as [Hw Ht]. split; auto. intros. eapply traced_mono; eauto.
    + intros e' He. eapply traced_error_mono; eauto.
  - exact IH.
  - destruct IH as [Hmd Hval]. apply provide_ret in Hpr. destruct Hpr as [Hb [_ Hf]].
    assert (Hp' := Hp). destruct Hp' as [Hnone Hplain]. rewrite Hnone in Hf.
    change (md_with_location (pv_metadata p) loc) with (pn_metadata (mkProvision loc p)) in Hf.
    set (n := mkProvision loc p) in *.
    assert (Hmd' : f_metadata f' = insert (tag_new (next_id H) PTDefault) (pn_metadata n) (f_metadata f))
      by (subst f'; reflexivity).
    assert (Hg : md_grows (f_metadata f) (f_metadata f'))
      by (rewrite Hmd'; now apply md_grows_insert with (H := H)).
    assert (Hself : get (tag_new (next_id H) PTDefault) (f_metadata f') = Some (pn_metadata n)).
    { rewrite Hmd'. apply get_insert_eq. apply cmp_tag_eq. reflexivity. }
    split; [rewrite Hmd'; now apply md_ok_insert|].
    assert (Hv : f_value f' = match pv_data p, f_value f with
          | Ok _, Err e => Err e
          | Err e, Ok _ => Err (retagged (tag_new (next_id H) PTDefault) e)
          | Err e, Err prev => Err (chain (retagged (tag_new (next_id H) PTDefault) e) prev)
          | Ok new, Ok old => Ok (pcoalesce o old (retag_data (tag_new (next_id H) PTDefault) new))
          end) by (subst f'; reflexivity).
    rewrite Hv. clear Hf Hv.
    assert (Hnew : forall e0, pv_data p = Err e0 ->
      forall e', In e' (errors_of (retagged (tag_new (next_id H) PTDefault) e0)) ->
      traced_error (H ++ [n]) f' e').
    { intros e0 He e' Hin. rewrite He in Hplain. destruct Hplain as [Hp1 Hp2].
      destruct e0 as [t0 p0 m0 pa0 k0 v0]. simpl in Hp1, Hp2. subst t0 v0. simpl in Hin.
      destruct Hin as [<-|[]].
      exists n, (MkError tag_default p0 m0 pa0 k0 None). simpl.
      rewrite metadata_id_new_small by auto. split; [apply nth_provision_new|].
      split; auto. split; auto. split; [split; reflexivity|]. exact Hself. }
    destruct (pv_data p) as [new|e0] eqn:Ed, (f_value f) as [old|prev] eqn:Ef.
    + apply data_traced_coalesce.
      * eapply data_traced_mono; eauto.
      * now apply data_traced_plain.
    + intros e' Hin. eapply traced_error_mono; eauto.
    + eauto.
    + intros e' Hin. apply errors_of_chain in Hin. destruct Hin as [Hin|Hin]; [|eauto].
      eapply traced_error_mono; eauto.
  - destruct IH as [Hmd Hval], IH2 as [Gmd Gval].
    apply provide_ret in Hpr. destruct Hpr as [Hb [_ Hf]]. simpl in Hf.
    change (md_with_location md_default loc) with
      (pn_metadata (mkProvision loc (figment_provider g))) in Hf.
    set (n := mkProvision loc (figment_provider g)) in *.
    assert (Hmd' : f_metadata f' = insert (tag_new (next_id H) PTDefault) (pn_metadata n)
                                     (extend (f_metadata f) (f_metadata g)))
      by (subst f'; reflexivity).
    assert (Hext : md_ok H (extend (f_metadata f) (f_metadata g))) by now apply md_ok_extend.
    assert (Hg1 : md_grows (f_metadata f) (f_metadata f')).
    { eapply md_grows_trans; [apply (md_grows_extend_l H _ _ Hmd Gmd)|].
      rewrite Hmd'. now apply md_grows_insert with (H := H). }
    assert (Hg2 : md_grows (f_metadata g) (f_metadata f')).
    { eapply md_grows_trans; [apply (md_grows_extend_r H (f_metadata f) _ Gmd)|].
      rewrite Hmd'. now apply md_grows_insert with (H := H). }
    split; [rewrite Hmd'; now apply md_ok_insert|].
    assert (Hv : f_value f' = match f_value g, f_value f with
          | Ok _, Err e => Err e
          | Err e, Ok _ => Err (retagged (tag_new (next_id H) PTDefault) e)
          | Err e, Err prev => Err (chain (retagged (tag_new (next_id H) PTDefault) e) prev)
          | Ok new, Ok old => Ok (pcoalesce o old (retag_data (tag_new (next_id H) PTDefault) new))
          end) by (subst f'; reflexivity).
    rewrite Hv. clear Hf Hv.
    assert (Hnew : forall e0, f_value g = Err e0 ->
      forall e', In e' (errors_of (retagged (tag_new (next_id H) PTDefault) e0)) ->
      traced_error (H ++ [n]) f' e').
    { intros e0 He e' Hin. rewrite He in Gval.
      rewrite errors_of_retagged_id in Hin.
      - apply traced_error_mono with (f := g); auto.
      - destruct (errors_of_head e0) as [r Hr0].
        assert (Hin0 : In (set_prev e0 None) (errors_of e0)) by (rewrite Hr0; now left).
        destruct (Gval _ Hin0) as [n' [_ [Hn' _]]].
        apply nth_provision_tag in Hn'. destruct Hn' as [_ Hn']. destruct e0; exact Hn'. }
    destruct (f_value g) as [new|e0] eqn:Ed, (f_value f) as [old|prev] eqn:Ef.
    + apply data_traced_coalesce.
      * now apply data_traced_mono with (f := f).
      * apply data_traced_retag. now apply data_traced_mono with (f := g).
    + intros e' Hin. apply traced_error_mono with (f := f); auto.
    + eauto.
    + intros e' Hin. apply errors_of_chain in Hin. destruct Hin as [Hin|Hin]; [|eauto].
      apply traced_error_mono with (f := f); auto.
Qed.
