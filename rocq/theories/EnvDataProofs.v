(** The data of the environment provider. *)
From Coq Require Import Ascii String ZArith NArith Bool Permutation Lia.
From Coq Require Import List.
From Verif Require Import Res BMap BMapProofs Str StrProofs Profile ProfileProofs Tag Num Value Metadata Err Coalesce
  Parse Env Figment SpecValue SpecFigment SpecPriority SpecLookup SpecParse SpecStuck SpecEnv SpecEnvData
  ValueProofs CoalesceProofs PriorityProofs PriorityProofs2 FigmentProofs LookupProofs ProvProofs ParseProofs3 StuckProofs EnvProofs DocProofs SerProofs IntoProofs.
Import ListNotations.

Lemma assigned_fun var ks y ks' y' : assigned var ks y -> assigned var ks' y' -> ks = ks' /\ y = y'.
Proof.
  intros [N1 [P1 [K1 V1]]] [N2 [P2 [K2 V2]]]. split; [|congruence].
  assert (E : split_on dot (join [dot] ks) = split_on dot (join [dot] ks')) by congruence.
  rewrite !split_join in E; auto; now apply plain_nodot.
Qed.

Lemma dotted_assigned k v y : dotted k -> value_from_str v = Ret y -> exists ks, assigned (k, v) ks y.
Proof. intros [ks [N0 [P ->]]] E. exists ks. repeat split; auto. Qed.

Lemma leaf_nest ks y : Forall plain_key ks -> forall p x,
  leaf_at p (nest_keys ks y) x <-> exists r, p = ks ++ r /\ leaf_at r y x.
Proof.
  induction 1 as [|k ks Pk Pks IH]; intros p x.
  - cbn [nest_keys app]. split; [eauto|]. intros [r [-> H]]. exact H.
  - rewrite nest_keys_cons by auto. destruct p as [|k' p].
    + rewrite leaf_at_nil. split; [intros [<- H]; discriminate H|]. intros [r [E _]]. discriminate E.
    + rewrite leaf_at_cons_dict. setoid_rewrite get_single. split.
      * intros [z [G L]]. destruct (ueqb k' k) eqn:E; [|discriminate]. apply ueqb_eq in E. subst k'.
        inversion G; subst z. apply IH in L. destruct L as [r [-> L]]. exists r. auto.
      * intros [r [E L]]. inversion E; subst k' p. exists (nest_keys ks y).
        rewrite (proj2 (ueqb_eq k k) eq_refl). split; auto. apply IH. eauto.
Qed.

Lemma open_nest ks y : Forall plain_key ks -> forall p,
  open_at p (nest_keys ks y) <-> ~ prefix_of p ks /\ forall r, p = ks ++ r -> open_at r y.
Proof.
  induction 1 as [|k ks Pk Pks IH]; intros p.
  - cbn [nest_keys app]. split.
    + intros O. split; [|intros r ->; exact O]. intros [r E]. symmetry in E. apply app_eq_nil in E.
      destruct E as [-> _]. now apply open_at_nil in O.
    + intros [_ H]. now apply H.
  - rewrite nest_keys_cons by auto. destruct p as [|k' p].
    + rewrite open_at_nil. split; [tauto|]. intros [H _]. apply H. exists (k :: ks). reflexivity.
    + rewrite open_at_cons_dict, get_single. destruct (ueqb k' k) eqn:E.
      * apply ueqb_eq in E. subst k'. rewrite IH. split; intros [H1 H2]; split.
        -- intros [r Er]. apply H1. exists r. now inversion Er.
        -- intros r Er. apply H2. now inversion Er.
        -- intros [r Er]. apply H1. exists r. now rewrite Er.
        -- intros r Er. apply H2. now rewrite Er.
      * apply ueqb_neq in E. split; [|auto]. intros _. split.
        -- intros [r Er]. inversion Er. congruence.
        -- intros r Er. inversion Er. congruence.
Qed.

Lemma nested_dict k v y n : dotted k -> value_from_str v = Ret y -> as_dict (nest k y) = Some n ->
  exists ks, assigned (k, v) ks y /\ nest_keys ks y = VDict tag_default n.
Proof.
  intros D E N0. destruct (nest_dotted k y D) as [ks [N1 [P [K [E1 [d E2]]]]]].
  exists ks. split; [repeat split; auto|]. rewrite E2 in N0. inversion N0; subst. congruence.
Qed.

Definition layered (items : list (ustr * ustr)) (p : list ustr) (x : value) : Prop :=
  exists before var after, items = before ++ var :: after /\ sets var p x /\
    Forall (fun var => spares var p) after.

Lemma layered_cons var items p x :
  layered (var :: items) p x <-> layered items p x \/ (sets var p x /\ Forall (fun var => spares var p) items).
Proof.
  split.
  - intros [before [v [after [E [S F]]]]]. destruct before as [|b before]; inversion E; subst; auto.
    left. exists before, v, after. auto.
  - intros [[before [v [after [-> [S F]]]]]|[S F]].
    + exists (var :: before), v, after. auto.
    + exists [], var, items. auto.
Qed.

Lemma env_fold_leaves items : Forall (fun kv => dotted (fst kv)) items -> forall d d',
  env_fold items d = Ret d' -> wf_dict d -> wf_dict d' /\ forall p x,
    leaf_at p (VDict tag_default d') x <->
    layered items p x \/ (leaf_at p (VDict tag_default d) x /\ Forall (fun var => spares var p) items).
Proof.
  induction 1 as [|[k v] items Dk Di IH]; intros d d' E W; cbn [env_fold] in E.
  - inversion E; subst. split; auto. intros p x. split; [auto|].
    intros [[before [var [after [H _]]]]|[H _]]; auto. destruct before; discriminate H.
  - cbn [fst] in Dk. destruct (value_from_str v) as [y| |] eqn:Ev; try discriminate. cbn [out_bind] in E.
    destruct (as_dict (nest k y)) as [n|] eqn:En; [|discriminate].
    destruct (nested_dict k v y n Dk Ev En) as [ks [A En']].
    assert (Wn : wf_dict n).
    { apply (wf_VDict tag_default). rewrite <- En'. apply wf_nest_keys. now apply (value_from_str_wf v). }
    apply IH in E; [|now apply wf_dmerge]. destruct E as [W' H]. split; auto.
    intros p x. rewrite H, layered_cons, leaf_dmerge by auto. rewrite <- En'.
    rewrite leaf_nest, open_nest by apply A.
    assert (Sp : spares (k, v) p <-> (~ prefix_of p ks /\ forall r, p = ks ++ r -> open_at r y)).
    { split; [intros S; now apply S|]. intros S ks' y' A'. destruct (assigned_fun _ _ _ _ _ A A') as [<- <-]. auto. }
    assert (St : sets (k, v) p x <-> exists r, p = ks ++ r /\ leaf_at r y x).
    { split.
      - intros [ks' [y' [r [A' [Er L]]]]]. destruct (assigned_fun _ _ _ _ _ A A') as [<- <-]. eauto.
      - intros [r [Er L]]. exists ks, y, r. auto. }
    rewrite <- St, <- Sp, Forall_cons_iff. tauto.
Qed.

Lemma env_data_ret s ops vars m : env_data (build_env s ops) vars = Ret m ->
  exists kept d, env_iter (build_env s ops) vars = Ret kept /\
    selects (survives (ev_lowercase (build_env s ops)) (mapped_key s ops)) vars kept /\
    Forall (fun kv => dotted (fst kv)) kept /\
    env_fold kept [] = Ret d /\ m = [(ev_profile (build_env s ops), d)].
Proof.
  unfold env_data. intros H.
  destruct (env_iter_spec (build_env s ops) (mapped_key s ops) vars (build_key s ops)) as [l [E S]].
  rewrite E in H. cbn [out_bind] in H. destruct (env_fold l []) as [d| |] eqn:Ef; try discriminate.
  inversion H; subst m. exists l, d. repeat split; auto.
  apply Forall_forall. intros kv I. destruct (selects_In _ _ _ _ S I) as [a [_ R]].
  now apply survives_key in R.
Qed.

Lemma env_data_leaves s ops vars m : env_data (build_env s ops) vars = Ret m ->
  exists kept d, env_iter (build_env s ops) vars = Ret kept /\ m = [(ev_profile (build_env s ops), d)] /\
    wf_dict d /\ forall p x, leaf_at p (VDict tag_default d) x <-> layered kept p x.
Proof.
  intros H. apply env_data_ret in H. destruct H as [kept [d [E [_ [F [Ef ->]]]]]].
  exists kept, d. split; auto. split; auto.
  apply (env_fold_leaves kept F) in Ef; [|apply wf_dict_nil]. destruct Ef as [W L]. split; auto.
  intros p x. rewrite L. split; [|auto]. intros [H|[[H D] _]]; auto.
  exfalso. destruct p as [|q p]; cbn in H; [inversion H; subst; discriminate D|discriminate H].
Qed.

Lemma env_data_panics s ops vars : env_data (build_env s ops) vars = Panic <->
  exists kept k v, env_iter (build_env s ops) vars = Ret kept /\ In (k, v) kept /\ stuck (trim v).
Proof.
  destruct (env_iter_spec (build_env s ops) (mapped_key s ops) vars (build_key s ops)) as [l [E S]].
  assert (F : Forall (fun kv : ustr * ustr => dotted (fst kv)) l).
  { apply Forall_forall. intros kv I. destruct (selects_In _ _ _ _ S I) as [a [_ R]].
    now apply survives_key in R. }
  unfold env_data. rewrite E. cbn [out_bind]. split.
  - intros H. destruct (env_fold_cases l F []) as [[d H']|[H' [[k v] [I P]]]].
    + rewrite H' in H. discriminate H.
    + exists l, k, v. repeat split; auto. now apply value_from_str_stuck.
  - intros [kept [k [v [E' [I P]]]]]. inversion E'; subst kept. apply value_from_str_stuck in P.
    now rewrite (env_fold_panics l F [] (k, v) I P).
Qed.

(** ** Unrelated keys are all found *)
Lemma at_merge_apart ks1 : forall ks2 v x, Forall plain_key ks2 -> apart ks1 ks2 -> wf x ->
  at_path ks1 (vcoalesce Merge x (nest_keys ks2 v)) = at_path ks1 x.
Proof.
  induction ks1 as [|k1 ks1 IH]; intros ks2 v x P2 [A1 A2] Wx.
  { exfalso. apply A1. exists ks2. reflexivity. }
  destruct ks2 as [|k2 ks2]. { exfalso. apply A2. exists (k1 :: ks1). reflexivity. }
  inversion P2 as [|? ? Pk2 Pr2]; subst. rewrite nest_keys_cons by auto.
  assert (A : k1 = k2 -> apart ks1 ks2).
  { intros ->. split; intros [r ->]; [apply A1|apply A2]; exists r; reflexivity. }
  assert (None_nest : k1 = k2 -> at_path ks1 (nest_keys ks2 v) = None).
  { intros E. specialize (A E). assert (H := IH ks2 v (VString tag_default []) Pr2 A I).
    destruct ks2 as [|k2' ks2]. { exfalso. apply (proj2 A). exists ks1. reflexivity. }
    inversion Pr2; subst. rewrite nest_keys_cons in * by auto.
    rewrite vmerge_nondict in H by auto. rewrite H.
    destruct ks1; [exfalso; apply (proj1 A); eexists; reflexivity|reflexivity]. }
  destruct (is_dict x) eqn:Dx.
  - destruct x as [| | | | |t d|]; try discriminate. apply wf_VDict in Wx. assert (Sd : sorted d) by apply Wx.
    rewrite vcoalesce_dict. cbn [at_path].
    rewrite dcoalesce_get by first [exact Sd|exact (single_sorted _ _)]. rewrite get_single.
    destruct (ueqb k1 k2) eqn:E; [|now destruct (get k1 d)].
    apply ueqb_eq in E. destruct (get k1 d) as [z|] eqn:G; cbn [opt_combine].
    + apply IH; auto. now apply (wf_get d k1).
    + auto.
  - rewrite vmerge_nondict by auto. cbn [at_path]. rewrite get_single.
    destruct (ueqb k1 k2) eqn:E.
    + apply ueqb_eq in E. rewrite None_nest by auto. now destruct x.
    + now destruct x.
Qed.

Lemma at_nest ks y : Forall plain_key ks -> at_path ks (nest_keys ks y) = Some y.
Proof.
  induction 1 as [|k ks Pk Pks IH]; [reflexivity|]. rewrite nest_keys_cons by auto. cbn [at_path].
  rewrite get_single, (proj2 (ueqb_eq k k) eq_refl). exact IH.
Qed.

Lemma at_merge_new ks : forall y x, Forall plain_key ks -> at_path ks x = None -> wf x ->
  at_path ks (vcoalesce Merge x (nest_keys ks y)) = Some y.
Proof.
  induction ks as [|k ks IH]; intros y x P N0 W; [discriminate|].
  inversion P as [|? ? Pk Pr]; subst. rewrite nest_keys_cons by auto.
  destruct (is_dict x) eqn:Dx.
  - destruct x as [| | | | |t d|]; try discriminate. apply wf_VDict in W. assert (Sd : sorted d) by apply W.
    rewrite vcoalesce_dict. cbn [at_path] in *.
    rewrite dcoalesce_get by first [exact Sd|exact (single_sorted _ _)].
    rewrite get_single, (proj2 (ueqb_eq k k) eq_refl). destruct (get k d) as [z|] eqn:G; cbn [opt_combine].
    + apply IH; auto. now apply (wf_get d k).
    + now apply at_nest.
  - rewrite vmerge_nondict by auto. cbn [at_path]. rewrite get_single, (proj2 (ueqb_eq k k) eq_refl).
    now apply at_nest.
Qed.

Lemma env_fold_found items ks : Forall (fun kv => dotted (fst kv)) items -> forall d d',
  env_fold items d = Ret d' -> wf_dict d ->
  (forall y, Forall (fun kv => forall ks' y', assigned kv ks' y' -> apart ks ks') items ->
     at_path ks (VDict tag_default d) = y -> at_path ks (VDict tag_default d') = y) /\
  (forall var y, pairwise_unrelated items -> In var items -> assigned var ks y ->
     at_path ks (VDict tag_default d) = None -> at_path ks (VDict tag_default d') = Some y).
Proof.
  induction 1 as [|[k v] items Dk Di IH]; intros d d' E W; cbn [env_fold] in E.
  - inversion E; subst. split; auto. intros var y _ [].
  - cbn [fst] in Dk. destruct (value_from_str v) as [z| |] eqn:Ev; try discriminate. cbn [out_bind] in E.
    destruct (as_dict (nest k z)) as [n|] eqn:En; [|discriminate].
    destruct (nested_dict k v z n Dk Ev En) as [ks0 [A En']].
    assert (Wn : wf_dict n).
    { apply (wf_VDict tag_default). rewrite <- En'. apply wf_nest_keys. now apply (value_from_str_wf v). }
    assert (Ed : VDict tag_default (dmerge d n) = vcoalesce Merge (VDict tag_default d) (nest_keys ks0 z)).
    { rewrite En', vcoalesce_dict. reflexivity. }
    assert (Wd : wf (VDict tag_default d)) by now apply wf_VDict.
    apply IH in E; [|now apply wf_dmerge]. destruct E as [I1 I2]. split.
    + intros y F H. apply Forall_cons_iff in F. destruct F as [F1 F2].
      apply I1; auto. rewrite Ed, at_merge_apart; [exact H|apply A|exact (F1 _ _ A)|exact Wd].
    + intros var y U In0 Av H. inversion U as [|? ? U1 U2]; subst. destruct In0 as [<-|In0].
      * destruct (assigned_fun _ _ _ _ _ A Av) as [-> ->].
        apply I1.
        -- eapply Forall_impl; [|exact U1]. intros [k' v'] Uk ks' y' A'. cbn [fst] in Uk.
           apply unrelated_apart; [apply Av|apply A'|]. destruct Av as [_ [_ [Ek _]]], A' as [_ [_ [Ek' _]]].
           cbn [fst] in Ek, Ek'. congruence.
        -- rewrite Ed. apply at_merge_new; auto. apply A.
      * apply (I2 var y); auto. rewrite Ed, at_merge_apart; auto; [apply A|].
        rewrite Forall_forall in U1. specialize (U1 var In0). apply unrelated_sym in U1. cbn [fst] in U1.
        apply unrelated_apart; [apply Av|apply A|].
        destruct Av as [_ [_ [Ek _]]], A as [_ [_ [Ek' _]]]. cbn [fst] in Ek'. congruence.
Qed.

(** ** As a provider *)
Lemma bare_default s v : bare s v -> all_tags (eq tag_default) v.
Proof. intros [| |s' n H|s' H1 H2 H3]; now apply all_default_scalar. Qed.

Lemma collect_In {V} (l : list (ustr * V)) k v : In (k, v) (collect l) -> In (k, v) l.
Proof.
  intros H. apply In_get_iff in H; [|apply sorted_collect].
  apply get_collect_given in H. now apply given_In in H.
Qed.

Lemma form_default Q : forall s v, form Q s v -> all_tags (eq tag_default) v.
Proof.
  apply (form_mut Q (fun s v _ => all_tags (eq tag_default) v)
           (fun b l _ => Forall (all_tags (eq tag_default)) l)
           (fun b l _ => Forall (fun kv => all_tags (eq tag_default) (snd kv)) l));
    intros; auto; try (now apply all_default_scalar).
  - apply all_default_array. now apply Forall_forall.
  - apply all_default_dict. intros k x I. apply collect_In in I. rewrite Forall_forall in H.
    exact (H _ I).
  - eapply bare_default; eauto.
Qed.

Lemma value_from_str_default s v : value_from_str s = Ret v -> all_tags (eq tag_default) v.
Proof.
  intros H. apply value_from_str_complete in H. destruct H as [H| ->]; [|now apply all_default_scalar].
  unfold complete in H. destruct (trim s); [subst; now apply all_default_scalar|].
  eapply form_default; eauto.
Qed.

Lemma merge_default a b : wf_dict a -> wf_dict b ->
  all_tags (eq tag_default) (VDict tag_default a) -> all_tags (eq tag_default) (VDict tag_default b) ->
  all_tags (eq tag_default) (VDict tag_default (dmerge a b)).
Proof.
  intros Wa Wb Ha Hb p x R. destruct p as [|st p]; [inversion R; reflexivity|].
  apply reach_dcombine in R; auto; [|discriminate]. destruct R as [y [-> [_ [R|R]]]]; eauto.
Qed.

Lemma env_fold_default items : Forall (fun kv => dotted (fst kv)) items -> forall d d',
  env_fold items d = Ret d' -> wf_dict d -> all_tags (eq tag_default) (VDict tag_default d) ->
  wf_dict d' /\ all_tags (eq tag_default) (VDict tag_default d').
Proof.
  induction 1 as [|[k v] items Dk Di IH]; intros d d' E W T; cbn [env_fold] in E.
  - inversion E; subst. auto.
  - cbn [fst] in Dk. destruct (value_from_str v) as [z| |] eqn:Ev; try discriminate. cbn [out_bind] in E.
    destruct (as_dict (nest k z)) as [n|] eqn:En; [|discriminate].
    destruct (nested_dict k v z n Dk Ev En) as [ks0 [A En']].
    assert (Wn : wf_dict n).
    { apply (wf_VDict tag_default). rewrite <- En'. apply wf_nest_keys. now apply (value_from_str_wf v). }
    apply IH in E; auto; [now apply wf_dmerge|]. apply merge_default; auto.
    rewrite <- En'. apply (all_default_nested ks0 z); [|now apply (value_from_str_default v)].
    apply nest_keys_nested, A.
Qed.

Lemma env_provider_plain s ops vars pr : env_provider (build_env s ops) vars = Ret pr -> plain pr.
Proof.
  unfold env_provider. intros H. destruct (env_data (build_env s ops) vars) as [m| |] eqn:E; try discriminate.
  inversion H; subst pr. split; [reflexivity|]. cbn [pv_data].
  apply env_data_ret in E. destruct E as [kept [d [_ [_ [F [Ef ->]]]]]].
  destruct (env_fold_default kept F [] d Ef) as [W T].
  - apply wf_dict_nil.
  - apply all_default_dict. intros k v [].
  - split.
    + split; [cbn; auto|]. constructor; [exact W|constructor].
    + intros q d' [X|[]]. inversion X; subst. intros p x R. now rewrite <- (T _ _ R).
Qed.

Lemma env_figment s ops vars pr loc o c f c' :
  env_provider (build_env s ops) vars = Ret pr -> provide loc fig_new pr o c = (Ret f, c') ->
  exists kept, env_iter (build_env s ops) vars = Ret kept /\
    (pairwise_unrelated kept -> forall var ks y, In var kept -> assigned var ks y ->
       exists x, find_value (fig_select f (ev_profile (build_env s ops))) (fst var) = Ok x /\ strip x = strip y).
Proof.
  unfold env_provider. intros H Hp. destruct (env_data (build_env s ops) vars) as [m| |] eqn:E; try discriminate.
  inversion H; subst pr. apply env_data_ret in E. destruct E as [kept [d [E [_ [F [Ef ->]]]]]].
  exists kept. split; auto. intros U var ks y I A.
  destruct (env_fold_found kept ks F [] d Ef (wf_dict_nil)) as [_ Fd].
  assert (Fy : at_path ks (VDict tag_default d) = Some y).
  { apply (Fd var y); auto. destruct A as [N0 _]. now destruct ks. }
  destruct (env_fold_default kept F [] d Ef) as [W T].
  { apply wf_dict_nil. } { apply all_default_dict. intros k v []. }
  destruct (single_merged _ _ _ _ _ _ (ev_profile (build_env s ops)) d Hp eq_refl) as [g Hm]; [apply W|].
  exists (map_tag g y). split; [|apply strip_map_tag].
  apply (find_value_spec _ _ ks).
  - destruct A as [N0 [P [-> _]]]. split; auto.
  - eexists. split; [exact Hm|]. destruct A as [N0 _]. destruct ks as [|k ks]; [congruence|].
    assert (X := at_path_map_tag g (k :: ks) (VDict tag_default d)). rewrite Fy in X. exact X.
Qed.
