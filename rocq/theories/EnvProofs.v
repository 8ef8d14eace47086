(** The environment provider. *)
From Coq Require Import Ascii String ZArith NArith Bool Lia Permutation.
From Coq Require Import List.
From Verif Require Import Res BMap BMapProofs Str StrProofs Profile Tag Num Value ValueProofs
  Metadata Coalesce CoalesceProofs Parse Env SpecValue SpecLookup LookupProofs SpecParse SpecEnv
  TrimProofs ParseProofs3.
Import ListNotations.

(** ** Keys *)
Lemma prefixed_key p name :
  ev_filter_map (env_prefixed p) name = Ret (start_key (FromPrefix p) name).
Proof.
  cbn [env_prefixed env_filter_map_out env_chain ev_filter_map env_new out_bind start_key].
  destruct (ueqb (lower (firstn (length p) name)) (lower p)) eqn:E.
  - apply ueqb_eq in E.
    assert (S : uncased_starts_with name p = true).
    { apply uncased_starts_with_spec. exists (firstn (length p) name), (skipn (length p) name).
      split; auto. symmetry. apply firstn_skipn. }
    rewrite S.
    assert (B : byte_len p = byte_len (firstn (length p) name)).
    { rewrite <- (byte_len_lower p), <- (byte_len_lower (firstn _ _)). now rewrite E. }
    rewrite B. rewrite <- (firstn_skipn (length p) name) at 1. now rewrite split_at_byte_app.
  - destruct (uncased_starts_with name p) eqn:S; auto. exfalso.
    apply uncased_starts_with_spec in S. destruct S as [a [b [-> H]]].
    assert (L : length a = length p) by (rewrite <- (lower_length a), H; apply lower_length).
    rewrite <- L, firstn_app, firstn_all, PeanoNat.Nat.sub_diag in E. cbn [firstn] in E.
    rewrite app_nil_r in E. apply ueqb_neq in E. auto.
Qed.

Lemma named_in_spec ks k : existsb (fun x => uncased_eqb x k) ks = named_in ks k.
Proof. reflexivity. Qed.

Lemma apply_op_key e o name x :
  ev_filter_map e name = Ret x -> ev_filter_map (apply_env_op e o) name = Ret (op_key x o).
Proof.
  intros H. destruct o; cbn [apply_env_op env_filter env_map env_filter_map env_filter_map_out
    env_split env_ignore env_only env_lowercase env_profile env_global env_chain ev_filter_map];
    rewrite ?H; destruct x as [k|]; try reflexivity; cbn [out_bind op_key].
  - rewrite named_in_spec. destruct (named_in ks k); reflexivity.
Qed.

Lemma build_key s ops name : ev_filter_map (build_env s ops) name = Ret (mapped_key s ops name).
Proof.
  unfold build_env, mapped_key.
  assert (S : ev_filter_map (start_env s) name = Ret (start_key s name)).
  { destruct s; [reflexivity|apply prefixed_key]. }
  revert S. generalize (start_env s) (start_key s name).
  induction ops as [|o ops IH]; intros e k S; cbn [fold_left]; auto.
  apply IH. now apply apply_op_key.
Qed.

(** ** Iteration *)
Lemma existsb_nil_spec k : existsb is_nil (split_on dot k) = false <-> dotted k.
Proof.
  assert (P := split_on_pieces dot k). assert (J := join_split dot k).
  assert (NN := split_on_nonnil dot k).
  split.
  - intros H. exists (split_on dot k). split; auto. split; auto.
    rewrite Forall_forall in *. intros x I. split.
    + intros ->. assert (existsb is_nil (split_on dot k) = true) by (apply existsb_exists; eauto).
      congruence.
    + apply contains_In. exact (P x I).
  - intros [ks [Nk [F ->]]]. rewrite split_join; auto.
    + apply not_true_iff_false. rewrite existsb_exists. intros [x [I E]].
      rewrite Forall_forall in F. destruct (F x I) as [Nx _]. destruct x; [congruence|discriminate].
    + now apply plain_nodot.
Qed.

Lemma env_iter_spec e key_of vars :
  (forall name, ev_filter_map e name = Ret (key_of name)) ->
  exists l, env_iter e vars = Ret l /\ selects (survives (ev_lowercase e) key_of) vars l.
Proof.
  intros H. induction vars as [|[k v] vars [l [E S]]]; cbn [env_iter].
  - exists []. split; auto. constructor.
  - destruct k as [|c k]; cbn [is_nil].
    + exists l. split; auto. apply sel_drop; auto. intros b [N0 _]. now apply N0.
    + unfold env_entry. cbn [fst snd]. rewrite H. cbn [out_map out_bind].
      destruct (key_of (trim (c :: k))) as [m|] eqn:Km.
      * destruct (existsb is_nil (split_on dot (trim m))) eqn:X.
        -- exists l. rewrite E. split; auto. apply sel_drop; auto.
           intros b [_ [_ [m' [K [D _]]]]]. cbn [fst] in K. rewrite Km in K. inversion K; subst m'.
           apply existsb_nil_spec in D. congruence.
        -- rewrite E. cbn [out_map]. eexists. split; [reflexivity|].
           apply sel_keep; auto. apply existsb_nil_spec in X.
           split; [discriminate|]. split; auto. exists m. auto.
      * exists l. rewrite E. split; auto. apply sel_drop; auto.
        intros b [_ [_ [m' [K _]]]]. cbn [fst] in K. congruence.
Qed.

Lemma selects_In {A B} (R : A -> B -> Prop) l l' b : selects R l l' -> In b l' -> exists a, In a l /\ R a b.
Proof.
  induction 1 as [|a b' l l' Hr S IH|a l l' Hn S IH]; intros I.
  - destruct I.
  - destruct I as [->|I]; [exists a; simpl; auto|]. destruct (IH I) as [x [I' R']]. exists x. simpl. auto.
  - destruct (IH I) as [x [I' R']]. exists x. simpl. auto.
Qed.

Lemma lower_dotted k : dotted k -> dotted (lower k).
Proof.
  intros [ks [N0 [F ->]]]. exists (map lower ks). split; [destruct ks; [congruence|discriminate]|].
  split.
  - apply Forall_map. eapply Forall_impl; [|exact F]. intros x [Nx Nd]. split.
    + destruct x; [congruence|discriminate].
    + intros I. apply Nd. unfold lower in I. apply in_map_iff in I. destruct I as [c [E I]].
      assert (c = dot).
      { unfold lower_c in E.
        destruct ((65 <=? c) && (c <=? 90))%N eqn:B; [|auto].
        apply andb_true_iff in B. rewrite !N.leb_le in B. change dot with 46%N in E. lia. }
      subst c. auto.
  - clear N0 F. induction ks as [|a ks IH]; auto. cbn [map]. destruct ks as [|b ks]; auto.
    change (join [dot] (a :: b :: ks)) with (a ++ [dot] ++ join [dot] (b :: ks)).
    rewrite !lower_app, IH. reflexivity.
Qed.

Lemma lower_c_ws c : is_ws (lower_c c) = is_ws c.
Proof.
  unfold lower_c. destruct ((65 <=? c) && (c <=? 90))%N eqn:B; auto.
  apply andb_true_iff in B. rewrite !N.leb_le in B.
  assert (A1 : is_ws (c + 32)%N = false).
  { apply not_true_iff_false. unfold is_ws.
    rewrite ?orb_true_iff, ?andb_true_iff, ?N.leb_le, ?N.eqb_eq. lia. }
  assert (A2 : is_ws c = false).
  { apply not_true_iff_false. unfold is_ws.
    rewrite ?orb_true_iff, ?andb_true_iff, ?N.leb_le, ?N.eqb_eq. lia. }
  congruence.
Qed.

Lemma lower_trim_start s : trim_start (lower s) = lower (trim_start s).
Proof.
  induction s as [|c s IH]; auto. cbn [lower map trim_start]. rewrite lower_c_ws.
  destruct (is_ws c); auto.
Qed.
Lemma lower_rev s : lower (rev s) = rev (lower s).
Proof. unfold lower. apply map_rev. Qed.
Lemma lower_trim s : trim (lower s) = lower (trim s).
Proof. unfold trim, trim_end. now rewrite lower_trim_start, <- lower_rev, lower_trim_start, lower_rev. Qed.

(** Every key that survives is trimmed and dotted, and lower case if asked for. *)
Lemma survives_key lc key_of var kept : survives lc key_of var kept ->
  dotted (fst kept) /\ trim (fst kept) = fst kept /\ (lc = true -> lower (fst kept) = fst kept).
Proof.
  intros [_ [_ [m [_ [D E]]]]]. rewrite E. destruct lc.
  - repeat split.
    + now apply lower_dotted.
    + now rewrite lower_trim, trim_idem.
    + intros _. apply lower_idem.
  - repeat split; auto. + apply trim_idem. + discriminate.
Qed.

(** ** Data *)
Lemma nest_dotted k v : dotted k -> exists ks, ks <> [] /\ Forall plain_key ks /\ k = join [dot] ks
  /\ nest k v = nest_keys ks v /\ exists d, nest k v = VDict tag_default d.
Proof.
  intros [ks [N0 [F ->]]]. exists ks. repeat split; auto.
  - unfold nest. rewrite split_join; auto. now apply plain_nodot.
  - unfold nest. rewrite split_join; auto.
    + destruct ks as [|k ks]; [congruence|]. inversion F as [|? ? [Nk _] _]; subst.
      destruct k as [|c k]; [congruence|]. cbn [nest_keys is_nil]. eauto.
    + now apply plain_nodot.
Qed.

Lemma env_fold_cases items : Forall (fun kv => dotted (fst kv)) items -> forall d,
  (exists d', env_fold items d = Ret d')
  \/ (env_fold items d = Panic /\ exists kv, In kv items /\ value_from_str (snd kv) = Panic).
Proof.
  induction 1 as [|[k v] items Hk Hi IH]; intros d; cbn [env_fold]; eauto.
  cbn [fst] in Hk. assert (T := value_from_str_terminates v).
  destruct (value_from_str v) as [x| |] eqn:E; cbn [out_bind]; [| |congruence].
  - destruct (nest_dotted k x Hk) as [_ [_ [_ [_ [_ [dd Hd]]]]]]. rewrite Hd. cbn [as_dict].
    destruct (IH (dmerge d dd)) as [H|[H [kv [I P]]]]; auto. right. split; auto.
    exists kv. simpl. auto.
  - right. split; auto. exists (k, v). simpl. auto.
Qed.

Lemma env_data_cases s ops vars :
  (exists d, env_data (build_env s ops) vars = Ret d)
  \/ (env_data (build_env s ops) vars = Panic
      /\ exists kv, In kv vars /\ value_from_str (snd kv) = Panic).
Proof.
  unfold env_data.
  destruct (env_iter_spec (build_env s ops) (mapped_key s ops) vars (build_key s ops)) as [l [E S]].
  rewrite E. cbn [out_bind].
  assert (F : Forall (fun kv : ustr * ustr => dotted (fst kv)) l).
  { apply Forall_forall. intros kv I. destruct (selects_In _ _ _ _ S I) as [a [_ R]].
    now apply survives_key in R. }
  destruct (env_fold_cases l F []) as [[d H]|[H [kv [I P]]]]; rewrite H; cbn [out_map]; eauto.
  right. split; auto. destruct (selects_In _ _ _ _ S I) as [a [Ia [_ [Ev _]]]].
  exists a. split; auto. now rewrite <- Ev.
Qed.

(** ** Parsed values are well formed *)
Lemma bare_wf s v : bare s v -> wf v.
Proof. intros B. destruct B; exact I. Qed.

Lemma form_wf Q n : forall s v, (length s < n)%nat -> form Q s v -> wf v.
Proof.
  induction n as [|n IH]; intros s v L F; [lia|].
  destruct F as [w1 w2 q t B1 B2 Qb X|w1 w2 x B1 B2|w1 w2 b l B1 B2 It|w1 w2 b l B1 B2 It
              |w1 w2 s v B1 B2 Sep T Hd B]; try exact I.
  - rewrite !app_length in L. cbn [length] in L. rewrite app_length in L. cbn [length] in L.
    apply wf_VArray. assert (Lb : (length b < n)%nat) by lia. clear - It IH Lb.
    induction It as [w Bw|s v F N0|s v b l F G IHG].
    + constructor.
    + constructor; eauto.
    + rewrite app_length in Lb. cbn [length] in Lb.
      constructor; [apply (IH s); auto; lia|apply IHG; lia].
  - rewrite !app_length in L. cbn [length] in L. rewrite app_length in L. cbn [length] in L.
    apply wf_VDict. assert (Lb : (length b < n)%nat) by lia.
    assert (W : Forall (fun kv : ustr * value => wf (snd kv)) l).
    { clear - It IH Lb.
      induction It as [w Bw|w1 w2 ks k s v B1 B2 K F|w1 w2 ks k s v b l B1 B2 K F G IHG].
      - constructor.
      - rewrite !app_length in Lb. cbn [length] in Lb.
        constructor; [apply (IH s); auto; lia|constructor].
      - rewrite !app_length in Lb. cbn [length] in Lb. rewrite app_length in Lb. cbn [length] in Lb.
        constructor; [apply (IH s); auto; lia|apply IHG; lia]. }
    clear - W. unfold collect.
    assert (W0 : wf_dict ([] : dict)) by (split; [exact I|constructor]).
    revert W0. generalize ([] : dict).
    induction W as [|[k v] l Hv Hl IH]; intros d Hd; cbn [fold_left]; auto.
    apply IH. now apply wf_dict_insert.
  - now apply bare_wf in B.
Qed.

Lemma value_from_str_wf s v : value_from_str s = Ret v -> wf v.
Proof.
  intros H. apply value_from_str_complete in H. destruct H as [H| ->]; [|exact I].
  unfold complete in H. destruct (trim s) as [|c t].
  - subst. exact I.
  - eapply form_wf; [|exact H]. apply PeanoNat.Nat.lt_succ_diag_r.
Qed.

(** ** Order independence *)
Lemma nest_keys_cons k ks v : plain_key k ->
  nest_keys (k :: ks) v = VDict tag_default [(k, nest_keys ks v)].
Proof. intros [N0 _]. destruct k; [congruence|reflexivity]. Qed.

Lemma wf_nest_keys ks v : wf v -> wf (nest_keys ks v).
Proof.
  intros W. induction ks as [|k ks IH]; auto. cbn [nest_keys]. destruct (is_nil k); auto.
  cbn [insert]. cbn. auto.
Qed.

Lemma single_sorted (k : ustr) (x : value) : sorted [(k, x)].
Proof. cbn. auto. Qed.

Lemma get_single (k' k : ustr) (x : value) : get k' [(k, x)] = if ueqb k' k then Some x else None.
Proof. cbn [get]. rewrite ueqb_cmp. destruct (cmp k' k); reflexivity. Qed.

Lemma vmerge_nondict x t d : is_dict x = false -> vcoalesce Merge x (VDict t d) = VDict t d.
Proof. destruct x; try reflexivity. discriminate. Qed.

Lemma vmerge_empty t t' d : sorted d -> vcoalesce Merge (VDict t []) (VDict t' d) = VDict t' d.
Proof.
  intros S. rewrite vcoalesce_dict. cbn [keeps_existing]. f_equal. apply (sorted_ext _); auto.
  - apply dcoalesce_sorted.
  - intros k. rewrite dcoalesce_get by (auto; exact I). reflexivity.
Qed.

Definition apart (ks1 ks2 : list ustr) : Prop := ~ prefix_of ks1 ks2 /\ ~ prefix_of ks2 ks1.

Lemma merge_apart ks1 : forall ks2 v1 v2 x, Forall plain_key ks1 -> Forall plain_key ks2 ->
  apart ks1 ks2 -> wf v1 -> wf v2 -> wf x ->
  vcoalesce Merge (vcoalesce Merge x (nest_keys ks1 v1)) (nest_keys ks2 v2)
  = vcoalesce Merge (vcoalesce Merge x (nest_keys ks2 v2)) (nest_keys ks1 v1).
Proof.
  induction ks1 as [|k1 ks1 IH]; intros ks2 v1 v2 x P1 P2 [A1 A2] W1 W2 Wx.
  { exfalso. apply A1. exists ks2. reflexivity. }
  destruct ks2 as [|k2 ks2]. { exfalso. apply A2. exists (k1 :: ks1). reflexivity. }
  inversion P1 as [|? ? Pk1 Pr1]; subst. inversion P2 as [|? ? Pk2 Pr2]; subst.
  rewrite !nest_keys_cons by auto.
  set (n1 := nest_keys ks1 v1) in *. set (n2 := nest_keys ks2 v2) in *.
  assert (M : forall t d, wf_dict d ->
    vcoalesce Merge (vcoalesce Merge (VDict t d) (VDict tag_default [(k1, n1)]))
                    (VDict tag_default [(k2, n2)])
    = vcoalesce Merge (vcoalesce Merge (VDict t d) (VDict tag_default [(k2, n2)]))
                      (VDict tag_default [(k1, n1)])).
  { intros t d Wd. rewrite !vcoalesce_dict. cbn [keeps_existing]. f_equal.
    apply (sorted_ext _); try apply dcoalesce_sorted. intros k.
    assert (Sd : sorted d) by apply Wd.
    rewrite !dcoalesce_get by first [exact Sd | exact (single_sorted _ _) | apply dcoalesce_sorted].
    rewrite !get_single.
    destruct (ueqb k k1) eqn:E1, (ueqb k k2) eqn:E2; cbn [opt_combine];
      try (destruct (get k d); reflexivity).
    apply ueqb_eq in E1, E2. subst k1 k2.
    assert (A : apart ks1 ks2).
    { split; intros [r ->]; [apply A1|apply A2]; exists r; reflexivity. }
    destruct (get k d) as [y|] eqn:G; cbn [opt_combine].
    - f_equal. apply IH; auto. now apply (wf_get d k).
    - f_equal. assert (H := IH ks2 v1 v2 (VDict tag_default []) Pr1 Pr2 A W1 W2).
      fold n1 in H. fold n2 in H.
      assert (D : forall ks v, Forall plain_key ks -> ks <> [] -> wf v ->
                vcoalesce Merge (VDict tag_default []) (nest_keys ks v) = nest_keys ks v).
      { intros ks v F N0 W. destruct ks as [|q ks]; [congruence|].
        inversion F; subst. rewrite nest_keys_cons by auto. apply vmerge_empty, single_sorted. }
      unfold n1, n2 in H. rewrite !D in H; auto.
      + apply H. cbn. auto.
      + intros ->. apply (proj2 A). exists ks1. reflexivity.
      + intros ->. apply (proj1 A). exists ks2. reflexivity. }
  destruct (is_dict x) eqn:Dx.
  - destruct x; try discriminate. apply M. now apply wf_VDict in Wx.
  - rewrite !(vmerge_nondict x) by auto.
    assert (H := M tag_default [] (conj I (Forall_nil _))).
    rewrite !(vmerge_empty tag_default tag_default) in H by apply single_sorted. exact H.
Qed.

Lemma unrelated_apart ks1 ks2 : ks1 <> [] -> ks2 <> [] ->
  unrelated (join [dot] ks1) (join [dot] ks2) -> apart ks1 ks2.
Proof.
  intros N1 N2 [A [B C]].
  assert (J : forall ks r, ks <> [] -> r <> [] -> join [dot] (ks ++ r) = join [dot] ks ++ dot :: join [dot] r).
  { intros ks r. induction ks as [|k ks IH]; intros Nk Nr; [congruence|]. destruct ks as [|k' ks].
    - destruct r; [congruence|reflexivity].
    - change (join [dot] ((k :: k' :: ks) ++ r)) with (k ++ [dot] ++ join [dot] ((k' :: ks) ++ r)).
      rewrite IH by (auto; discriminate).
      change (join [dot] (k :: k' :: ks)) with (k ++ [dot] ++ join [dot] (k' :: ks)).
      now rewrite <- !app_assoc. }
  split; intros [r ->].
  - destruct r as [|q r]; [apply A; now rewrite app_nil_r|].
    apply (B (join [dot] (q :: r))). apply J; auto. discriminate.
  - destruct r as [|q r]; [apply A; now rewrite app_nil_r|].
    apply (C (join [dot] (q :: r))). apply J; auto. discriminate.
Qed.

Lemma nest_merge_swap k1 k2 v1 v2 d n1 n2 : dotted k1 -> dotted k2 -> unrelated k1 k2 ->
  wf v1 -> wf v2 -> wf_dict d ->
  as_dict (nest k1 v1) = Some n1 -> as_dict (nest k2 v2) = Some n2 ->
  dmerge (dmerge d n1) n2 = dmerge (dmerge d n2) n1.
Proof.
  intros D1 D2 U W1 W2 Wd H1 H2.
  destruct (nest_dotted k1 v1 D1) as [ks1 [Nk1 [P1 [E1 [Nn1 [d1 Hd1]]]]]].
  destruct (nest_dotted k2 v2 D2) as [ks2 [Nk2 [P2 [E2 [Nn2 [d2 Hd2]]]]]].
  rewrite Hd1 in H1. rewrite Hd2 in H2. inversion H1; inversion H2; subst n1 n2.
  rewrite E1, E2 in U. apply unrelated_apart in U; auto.
  assert (M := merge_apart ks1 ks2 v1 v2 (VDict tag_default d) P1 P2 U W1 W2
                 (proj2 (wf_VDict _ _) Wd)).
  rewrite <- Nn1, <- Nn2, Hd1, Hd2, !vcoalesce_dict in M. cbn [keeps_existing] in M.
  now inversion M.
Qed.

Lemma unrelated_sym a b : unrelated a b -> unrelated b a.
Proof. intros [A [B C]]. repeat split; auto. Qed.

Definition pairwise_unrelated (l : list (ustr * ustr)) : Prop :=
  ForallOrdPairs (fun a b => unrelated (fst a) (fst b)) l.

Lemma pairwise_perm l l' : Permutation l l' -> pairwise_unrelated l -> pairwise_unrelated l'.
Proof.
  unfold pairwise_unrelated. induction 1 as [|x l l' Hp IH|x y l|l l' l'' H1 IH1 H2 IH2]; intros H; auto.
  - inversion H as [|? ? F R]; subst. constructor; auto. eapply Permutation_Forall; eauto.
  - inversion H as [|? ? F R]; subst. inversion F as [|? ? U F']; subst.
    inversion R as [|? ? G R']; subst. constructor.
    + constructor; auto. now apply unrelated_sym.
    + constructor; auto.
Qed.

Lemma nest_as_dict k v : dotted k -> wf v -> exists n, as_dict (nest k v) = Some n /\ wf_dict n.
Proof.
  intros D W. destruct (nest_dotted k v D) as [ks [_ [_ [_ [E [n Hn]]]]]]. exists n.
  rewrite Hn. split; auto. apply (wf_VDict tag_default). rewrite <- Hn, E. now apply wf_nest_keys.
Qed.

Lemma env_fold_panics l : Forall (fun kv => dotted (fst kv)) l -> forall d kv,
  In kv l -> value_from_str (snd kv) = Panic -> env_fold l d = Panic.
Proof.
  induction 1 as [|[k v] l Dk Dl IH]; intros d kv I P; [destruct I|]. cbn [env_fold].
  destruct I as [<-|I]; [cbn [snd] in P; now rewrite P|].
  assert (T := value_from_str_terminates v).
  destruct (value_from_str v) as [x| |] eqn:E; cbn [out_bind]; [|auto|congruence].
  destruct (nest_as_dict k x Dk (value_from_str_wf _ _ E)) as [n [-> _]]. eauto.
Qed.

Lemma env_fold_perm l l' : Permutation l l' ->
  Forall (fun kv => dotted (fst kv)) l -> pairwise_unrelated l ->
  forall d, wf_dict d -> env_fold l d = env_fold l' d.
Proof.
  induction 1 as [|[k v] l l' Hp IH|[k2 v2] [k1 v1] l|l l' l'' H1 IH1 H2 IH2]; intros F U d Wd; auto.
  - inversion F as [|? ? Dk F']; subst. inversion U as [|? ? _ U']; subst. cbn [env_fold].
    destruct (value_from_str v) as [x| |] eqn:E; cbn [out_bind]; auto.
    destruct (nest_as_dict k x Dk (value_from_str_wf _ _ E)) as [n [-> Wn]].
    apply IH; auto. now apply wf_dcoalesce.
  - inversion F as [|? ? D1 F']; subst. inversion F' as [|? ? D2 F'']; subst.
    inversion U as [|? ? Uk U']; subst. inversion Uk as [|? ? Ukk _]; subst.
    cbn [fst] in *. cbn [env_fold].
    assert (T1 := value_from_str_terminates v1). assert (T2 := value_from_str_terminates v2).
    destruct (value_from_str v1) as [x1| |] eqn:E1; cbn [out_bind]; [| |congruence];
    (destruct (value_from_str v2) as [x2| |] eqn:E2; cbn [out_bind]; [| |congruence]).
    + assert (W1 := value_from_str_wf _ _ E1). assert (W2 := value_from_str_wf _ _ E2).
      destruct (nest_as_dict k1 x1 D1 W1) as [n1 [N1 Wn1]].
      destruct (nest_as_dict k2 x2 D2 W2) as [n2 [N2 Wn2]].
      rewrite N1, N2. cbn [out_bind].
      now rewrite (nest_merge_swap k1 k2 x1 x2 d n1 n2).
    + destruct (nest_as_dict k1 x1 D1 (value_from_str_wf _ _ E1)) as [n1 [N1 Wn1]].
      now rewrite N1.
    + destruct (nest_as_dict k2 x2 D2 (value_from_str_wf _ _ E2)) as [n2 [N2 Wn2]].
      now rewrite N2.
    + reflexivity.
  - rewrite IH1; auto. apply IH2; auto.
    + eapply Permutation_Forall; eauto.
    + eapply pairwise_perm; eauto.
Qed.

Definition kept_entry (e : env) (key_of : ustr -> option ustr) (kv : ustr * ustr)
  : list (ustr * ustr) :=
  if is_nil (fst kv) then [] else
  match key_of (trim (fst kv)) with
  | None => []
  | Some k0 => let k := trim k0 in
      if existsb is_nil (split_on dot k) then []
      else [((if ev_lowercase e then lower k else k), snd kv)]
  end.

Lemma env_iter_flat e key_of vars : (forall name, ev_filter_map e name = Ret (key_of name)) ->
  env_iter e vars = Ret (flat_map (kept_entry e key_of) vars).
Proof.
  intros H. induction vars as [|[k v] vars IH]; auto. cbn [env_iter flat_map]. rewrite IH.
  generalize (flat_map (kept_entry e key_of) vars). intros rest.
  unfold kept_entry. cbn [fst snd]. destruct (is_nil k); [reflexivity|].
  unfold env_entry. cbn [fst snd]. rewrite H. cbn [out_map out_bind].
  destruct (key_of (trim k)) as [m|]; [|reflexivity].
  cbv zeta. destruct (existsb is_nil (split_on dot (trim m))); reflexivity.
Qed.

Lemma env_data_perm s ops vars vars' : Permutation vars vars' ->
  (forall l, env_iter (build_env s ops) vars = Ret l -> pairwise_unrelated l) ->
  env_data (build_env s ops) vars' = env_data (build_env s ops) vars.
Proof.
  intros P U. unfold env_data.
  assert (K := build_key s ops).
  assert (E := env_iter_flat _ _ vars K). assert (E' := env_iter_flat _ _ vars' K).
  rewrite E'. specialize (U _ E).
  destruct (env_iter_spec _ _ vars K) as [l [El S]]. rewrite E in El. inversion El as [El'].
  rewrite E. cbn [out_bind]. f_equal. symmetry. apply env_fold_perm.
  - now apply Permutation_flat_map.
  - rewrite El'. apply Forall_forall. intros kv I. destruct (selects_In _ _ _ _ S I) as [a [_ R]].
    now apply survives_key in R.
  - exact U.
  - split; [exact I|constructor].
Qed.

(** ** [only] and [ignore] *)
Lemma only_ignore_perm s ops ks vars : ev_lowercase (build_env s ops) = true ->
  exists all yes no,
    env_iter (build_env s ops) vars = Ret all
    /\ env_iter (build_env s (ops ++ [OpOnly ks])) vars = Ret yes
    /\ env_iter (build_env s (ops ++ [OpIgnore ks])) vars = Ret no
    /\ Permutation all (yes ++ no).
Proof.
  intros L.
  rewrite !(env_iter_flat _ (mapped_key s ops) vars (build_key s ops)).
  rewrite !(env_iter_flat _ _ vars (build_key s _)).
  do 3 eexists. split; [reflexivity|]. split; [reflexivity|]. split; [reflexivity|].
  induction vars as [|[k v] vars IH]; [constructor|]. cbn [flat_map].
  assert (X : exists b, forall o, In o [OpOnly ks; OpIgnore ks] ->
    kept_entry (build_env s (ops ++ [o])) (mapped_key s (ops ++ [o])) (k, v)
    = if (match o with OpOnly _ => b | _ => negb b end)
      then kept_entry (build_env s ops) (mapped_key s ops) (k, v) else []).
  { exists (match mapped_key s ops (trim k) with Some m => named_in ks m | None => true end).
    intros o Io. unfold kept_entry. cbn [fst snd]. unfold build_env, mapped_key in *.
    rewrite !fold_left_app. cbn [fold_left].
    assert (Lo : ev_lowercase (apply_env_op (fold_left apply_env_op ops (start_env s)) o) = true)
      by (destruct Io as [<-|[<-|[]]]; reflexivity).
    rewrite Lo, L. destruct (is_nil k).
    - destruct Io as [<-|[<-|[]]];
        match goal with |- _ = (if ?c then _ else _) => destruct c end; reflexivity.
    - destruct (fold_left op_key ops (start_key s (trim k))) as [m|]; cbn [op_key].
      + destruct Io as [<-|[<-|[]]]; cbn [op_key];
          destruct (named_in ks m); reflexivity.
      + destruct Io as [<-|[<-|[]]]; reflexivity. }
  destruct X as [b X].
  rewrite (X (OpOnly ks)) by (simpl; auto). rewrite (X (OpIgnore ks)) by (simpl; auto).
  destruct b; cbn [negb app].
  - rewrite <- app_assoc. now apply Permutation_app_head.
  - rewrite app_assoc.
    match goal with |- Permutation (?a ++ ?all) ((?y ++ ?b) ++ ?n) =>
      apply Permutation_trans with (b ++ (y ++ n)) end.
    + now apply Permutation_app_head.
    + rewrite app_assoc. apply Permutation_app_tail. apply Permutation_app_comm.
Qed.
