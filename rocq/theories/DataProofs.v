(** Lemmas about file search, the [Data] provider and [RelativePathBuf]. *)
From Coq Require Import Ascii String ZArith NArith Bool Lia PeanoNat.
From Coq Require Import List.
From Verif Require Import Res BMap Str Profile Tag Num Value Metadata Err Coalesce Figment De Path Data.
From Verif Require Import BMapProofs StrProofs ProfileProofs ValueProofs CoalesceProofs FigmentProofs DeProofs MagicProofs
  SpecValue SpecFigment SpecPath SpecData PathProofs.
Import ListNotations.

(** ** Searching *)
Lemma resolve_loop_total fs path fuel : forall cwd, (length cwd < fuel)%nat ->
  exists r, resolve_loop fuel fs path cwd = Ret r.
Proof.
  induction fuel as [|n IH]; intros cwd H; [lia|]. cbn [resolve_loop].
  destruct (fs_is_file fs (path_join cwd path)); [eauto|].
  destruct (path_parent cwd) as [up|] eqn:E; [|eauto].
  apply IH. apply parent_shorter in E. lia.
Qed.

Lemma resolve_total fs path s : exists r, resolve fs path s = Ret r.
Proof.
  unfold resolve. destruct (has_root path || negb s); [eauto|].
  destruct (fs_cwd fs); [|eauto]. apply resolve_loop_total. lia.
Qed.

Lemma resolve_loop_nearest fs path : has_root path = false -> forall names, Forall name_ok names ->
  forall fuel, (length (dir_text names) < fuel)%nat ->
  exists r, resolve_loop fuel fs path (dir_text names) = Ret r /\ nearest (fs_is_file fs) names path r.
Proof.
  intros R. induction names as [|x ns IH] using rev_ind; intros F fuel L.
  - destruct fuel as [|n]; [lia|]. cbn [resolve_loop]. rewrite join_dir_text by auto.
    destruct (fs_is_file fs (in_dir [] path)) eqn:E.
    + eexists; split; [reflexivity|]. exists 0. cbn. repeat split; auto. intros; lia.
    + rewrite parent_root. eexists; split; [reflexivity|]. intros k Hk. destruct k; [auto|cbn in *; lia].
  - destruct fuel as [|n]; [lia|]. cbn [resolve_loop]. rewrite join_dir_text by auto.
    assert (F' := F). apply Forall_app in F'. destruct F' as [Fn Fx]. inversion Fx as [|? ? Hx _]; subst.
    assert (FN : firstn (length (ns ++ [x])) (ns ++ [x]) = ns ++ [x]) by apply firstn_all.
    destruct (fs_is_file fs (in_dir (ns ++ [x]) path)) eqn:E.
    + eexists; split; [reflexivity|]. exists (length (ns ++ [x])). rewrite FN. repeat split; auto.
      intros; lia.
    + assert (P := parent_dir_text ns x Fn Hx). rewrite P.
      apply parent_shorter in P. destruct (IH Fn n) as [r [A B]]; [lia|].
      exists r. split; auto. rewrite app_length in FN. cbn [length] in FN.
      assert (K : forall k, (k <= length ns)%nat -> firstn k (ns ++ [x]) = firstn k ns).
      { intros k Hk. rewrite firstn_app. replace (k - length ns) with 0 by lia. apply app_nil_r. }
      unfold nearest in *. rewrite app_length. cbn [length]. destruct r as [q|].
      * destruct B as [k [B1 [B2 [B3 B4]]]]. exists k. split; [lia|]. rewrite K by auto.
        repeat split; auto. intros k' Hk'. destruct (Nat.eq_dec k' (length ns + 1)) as [->|N].
        -- now rewrite FN.
        -- rewrite K by lia. apply B4. lia.
      * intros k Hk. destruct (Nat.eq_dec k (length ns + 1)) as [->|N].
        -- now rewrite FN.
        -- rewrite K by lia. apply B. lia.
Qed.

Lemma nearest_unique is_file names path r r' :
  nearest is_file names path r -> nearest is_file names path r' -> r = r'.
Proof.
  destruct r as [q|], r' as [q'|]; cbn; auto.
  - intros [k [A [B [C D]]]] [k' [A' [B' [C' D']]]]. f_equal.
    destruct (Nat.lt_trichotomy k k') as [L|[L|L]].
    + specialize (D k' ltac:(lia)). rewrite <- B', C' in D. discriminate.
    + now subst.
    + specialize (D' k ltac:(lia)). rewrite <- B, C in D'. discriminate.
  - intros [k [A [B [C D]]]] N. specialize (N k A). rewrite <- B, C in N. discriminate.
  - intros N [k [A [B [C D]]]]. specialize (N k A). rewrite <- B, C in N. discriminate.
Qed.

Lemma not_relative_rooted p : ~ relative_path p -> has_root p = true.
Proof. intros H. destruct (has_root p) eqn:E; auto. destruct H. now apply relative_path_iff. Qed.

Lemma dir_text_inj a b : Forall name_ok a -> Forall name_ok b -> dir_text a = dir_text b -> a = b.
Proof.
  intros A B H. rewrite <- (locate_dir_text [] a A), <- (locate_dir_text [] b B). now f_equal.
Qed.

Lemma finds_resolve fs path s r : finds fs path s r -> resolve fs path s = Ret r.
Proof.
  unfold resolve. intros [p s' r' N ->|p r' ->|p names r' R C F Nr|p R C].
  - rewrite not_relative_rooted by auto. reflexivity.
  - rewrite orb_true_r. reflexivity.
  - apply relative_path_iff in R. rewrite R, C. cbn [orb negb].
    destruct (resolve_loop_nearest fs p R names F (S (length (dir_text names)))) as [r0 [-> B]]; [lia|].
    f_equal. eapply nearest_unique; eauto.
  - apply relative_path_iff in R. rewrite R, C. reflexivity.
Qed.

Lemma finds_total fs path s : cwd_ok fs -> exists r, finds fs path s r.
Proof.
  intros C. destruct (has_root path) eqn:R.
  - eexists. apply finds_absolute; [|reflexivity]. intros H. apply relative_path_iff in H. congruence.
  - destruct s; [|eexists; now apply finds_exact].
    apply relative_path_iff in R. destruct C as [C|[names [F C]]].
    + eexists. apply finds_nowhere; auto.
    + assert (R' := R). apply relative_path_iff in R'.
      destruct (resolve_loop_nearest fs path R' names F (S (length (dir_text names)))) as [r [_ B]]; [lia|].
      exists r. eapply finds_search; eauto.
Qed.

(** ** The provider *)
Lemma from_path_parsed fm fs prof p text : fs_read fs p = Ok text ->
  parsed fm prof text
    (match prof with
     | Some pr => res_map_err err_msg (res_map (profile_collect pr) (from_path fm fs (fm_dict fm) p))
     | None => res_map_err err_msg (from_path fm fs (fm_map fm) p)
     end).
Proof.
  intros H. unfold parsed, from_path. rewrite H. destruct prof as [pr|]; cbn [res_map_err res_bind].
  - destruct (fm_dict fm text); reflexivity.
  - destruct (fm_map fm text); reflexivity.
Qed.

Lemma data_provider_ok fm fs d : exists p, data_provider fm fs d = Ret p /\
  data_metadata fm fs d = Ret (pv_metadata p) /\ data_data fm fs d = Ret (pv_data p) /\
  pv_profile p = None /\ pv_metadata_map p = None.
Proof.
  unfold data_provider.
  assert (M : exists md, data_metadata fm fs d = Ret md).
  { unfold data_metadata. destruct (da_source d) as [path rq s|s]; [|eauto].
    destruct (resolve_total fs path s) as [r ->]. cbn [out_map]. eauto. }
  assert (D : exists r, data_data fm fs d = Ret r).
  { unfold data_data. destruct (da_source d) as [path rq s|s].
    - destruct (resolve_total fs path s) as [r ->]. cbn [out_map]. eauto.
    - destruct (da_profile d); eauto. }
  destruct M as [md ->], D as [r ->]. cbn. eexists; repeat split.
Qed.

Lemma pcoalesce_nil o m : wf_profiles m -> pcoalesce o m [] = m.
Proof.
  intros W. unfold pcoalesce, map_coalesce.
  assert (G : forall (l : bmap profile dict) j, mc_loop (dcoalesce o) l j [] = extend j l).
  { induction l as [|[k v] r IH]; intros j; [reflexivity|]. cbn [mc_loop take extend fold_left]. apply IH. }
  rewrite G. apply collect_sorted. destruct W; auto.
Qed.

(** ** [RelativePathBuf] *)
Lemma rel_magic_fresh f v : not_relative v ->
  rel_magic f v = match file_named f (vtag v) with
                  | Some p => [(rel_metadata_path, VString tag_default p); (rel_path, v)]
                  | None => [(rel_path, v)]
                  end.
Proof.
  intros H. unfold rel_magic.
  assert (F : vfind_ref rel_path v = None).
  { unfold vfind_ref. change (split_on dot rel_path) with [rel_path].
    cbn [find_ref_keys]. change (is_nil rel_path) with false. cbn match.
    destruct v; try reflexivity. cbn [as_dict]. rewrite get_absent by apply H. reflexivity. }
  rewrite F.
  assert (G : forall A (a : A) g, match as_dict v with
     | Some d => match get rel_metadata_path d with Some x => g d x | None => a end | None => a end = a).
  { intros A a g. destruct v; try reflexivity. cbn [as_dict]. rewrite get_absent by apply H. reflexivity. }
  rewrite G. unfold file_named, get_metadata.
  destruct (get (vtag v) (f_metadata f)) as [md|]; cbn [option_bind]; [|reflexivity].
  destruct (md_source md) as [[p|l|c]|]; cbn [option_bind source_file_path]; reflexivity.
Qed.

Lemma rel_fields1 r1 r2 t1 t2 d1 d2 x : r1 d1 = Ok x ->
  res_bind (field_entries false [(rel_metadata_path, r1); (rel_path, r2)]
              [(rel_metadata_path, t1, d1); (rel_path, t2, d2)] [])
           (fill_fields [(rel_metadata_path, r1); (rel_path, r2)]) =
  res_map (fun y => [(rel_metadata_path, x); (rel_path, y)]) (at_key rel_path t2 (r2 d2)).
Proof. intros H. cbn. rewrite H. cbn. destruct (r2 d2); reflexivity. Qed.

Lemma rel_fields2 r1 r2 t2 d2 x : r1 (DMissing rel_metadata_path) = Ok x ->
  res_bind (field_entries false [(rel_metadata_path, r1); (rel_path, r2)]
              [(rel_path, t2, d2)] [])
           (fill_fields [(rel_metadata_path, r1); (rel_path, r2)]) =
  res_map (fun y => [(rel_metadata_path, x); (rel_path, y)]) (at_key rel_path t2 (r2 d2)).
Proof. intros H. cbn in *. destruct (r2 d2); cbn; rewrite ?H; reflexivity. Qed.

Lemma rel_unfold i f v : not_relative v ->
  deserialize TRelative (DConf i f v) =
  settle f (vtag v)
    (res_map (rel_result (file_named f (vtag v)))
             (at_key rel_path (vtag v) (deserialize TPath (DConf i f v)))).
Proof.
  intros H. unfold TRelative. cbn [deserialize map fst snd de_struct].
  change (magic_map rel_name f v) with (Some (rel_magic f v)). cbn match.
  rewrite (rel_magic_fresh f v H). f_equal.
  destruct (file_named f (vtag v)) as [p|].
  - cbn [map_access map fst snd]. unfold visit_map. cbn [struct_visitor v_map].
    rewrite (rel_fields1 _ _ _ _ _ _ (EVSome (EVPath p))); [|reflexivity].
    destruct (at_key rel_path (vtag v) _); reflexivity.
  - cbn [map_access map fst snd]. unfold visit_map. cbn [struct_visitor v_map].
    rewrite (rel_fields2 _ _ _ _ EVNone); [|reflexivity].
    destruct (at_key rel_path (vtag v) _); reflexivity.
Qed.

Lemma rel_text i f t s : deserialize TRelative (DConf i f (VString t s)) =
  Ok (rel_result (file_named f t) (EVPath s)).
Proof. rewrite rel_unfold by exact I. reflexivity. Qed.

(** Where the resolved path leads. *)
Lemma relative_parent fs root s cwd : fs_is_dir fs root = false -> ends_in_name root ->
  has_root s = false ->
  locate cwd (relative fs (Some root) s) = locate (removelast (locate cwd root)) s.
Proof.
  intros D E R. unfold relative. rewrite R. cbn [option_bind]. rewrite D.
  destruct (parent_exists root E) as [q Q]. rewrite Q, locate_join.
  now rewrite (locate_parent _ _ _ E Q).
Qed.
