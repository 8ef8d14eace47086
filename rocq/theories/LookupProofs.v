(** Lookup, nesting, focusing, error chains, value equality. *)
From Coq Require Import ZArith NArith Bool List Lia.
From Coq Require Import Floats.SpecFloat.
From Verif Require Import Res BMap BMapProofs Str StrProofs Profile ProfileProofs Tag Num Value
  Metadata Err Coalesce Figment SpecValue SpecFigment SpecLookup ValueProofs CoalesceProofs
  FigmentProofs ProvProofs FigmentProofs2 PriorityProofs.
Import ListNotations.

Lemma contains_In c s : contains_c c s = false <-> ~ In c s.
Proof.
  unfold contains_c. split.
  - intros H Hi. assert (existsb (N.eqb c) s = true); [|congruence].
    apply existsb_exists. exists c. split; auto. apply N.eqb_refl.
  - intros H. destruct (existsb (N.eqb c) s) eqn:E; auto. apply existsb_exists in E.
    destruct E as [x [Hx E]]. apply N.eqb_eq in E. subst. tauto.
Qed.

(** ** Components *)
Fixpoint upto (l : list ustr) : list ustr :=
  match l with
  | [] => []
  | k :: r => if is_nil k then [] else k :: upto r
  end.

Lemma find_keys_upto l : forall v, find_keys l v = at_path (upto l) v.
Proof.
  induction l as [|k r IH]; intros v; simpl; auto.
  destruct (is_nil k) eqn:E; auto. simpl.
  destruct v as [| | | | |t d|]; simpl; auto.
  pose proof (take_spec k d) as T. unfold dict in *. rewrite T.
  destruct (get k d); auto.
Qed.

Lemma nest_keys_upto l : forall v, nest_keys l v = nest_keys (upto l) v.
Proof.
  induction l as [|k r IH]; intros v; simpl; auto.
  destruct (is_nil k) eqn:E; simpl; auto. rewrite E. now rewrite IH.
Qed.

Lemma split_rest rest : exists l, forall a, a <> [] -> Forall (fun p => contains_c dot p = false) a ->
  split_on dot (join [dot] (a ++ [] :: rest)) = a ++ [] :: l.
Proof.
  exists (match rest with [] => [] | _ => split_on dot (join [dot] rest) end).
  intros a Ha Hf. induction a as [|k a IH]; [congruence|].
  inversion Hf; subst. destruct a as [|k2 a].
  - destruct rest as [|r rest].
    + simpl. rewrite split_on_app by auto. simpl. reflexivity.
    + change (join [dot] ([k] ++ [] :: r :: rest)) with (k ++ dot :: dot :: join [dot] (r :: rest)).
      rewrite split_on_app by auto. reflexivity.
  - change (join [dot] ((k :: k2 :: a) ++ [] :: rest)) with
      (k ++ dot :: join [dot] ((k2 :: a) ++ [] :: rest)).
    rewrite split_on_app by auto. rewrite IH; auto; discriminate.
Qed.

Lemma upto_app a l : Forall plain_key a -> upto (a ++ [] :: l) = a.
Proof.
  induction a as [|k a IH]; intros H; simpl; auto. inversion H as [|? ? [Hk _] Hr]; subst.
  destruct k; [congruence|]. simpl. now rewrite IH.
Qed.

Lemma upto_plain a : Forall plain_key a -> upto a = a.
Proof.
  induction a as [|k a IH]; intros H; simpl; auto. inversion H as [|? ? [Hk _] Hr]; subst.
  destruct k; [congruence|]. simpl. now rewrite IH.
Qed.

Lemma plain_nodot a : Forall plain_key a -> Forall (fun p => contains_c dot p = false) a.
Proof. apply Forall_impl. intros k [_ H]. now apply contains_In. Qed.

Lemma spells_upto path ks : spells path ks -> upto (split_on dot path) = ks.
Proof.
  intros [Hp [->|[rest ->]]].
  - destruct ks as [|k r]; [reflexivity|].
    rewrite split_join; auto using plain_nodot; [|discriminate]. now apply upto_plain.
  - destruct ks as [|k r].
    + destruct rest as [|x rest]; reflexivity.
    + destruct (split_rest rest) as [l Hl].
      rewrite Hl; auto using plain_nodot; [|discriminate]. now apply upto_app.
Qed.

Lemma upto_split l : upto l = l \/ exists rest, l = upto l ++ [] :: rest.
Proof.
  induction l as [|k r IH]; simpl; auto.
  destruct k as [|c k]; simpl.
  - right. now exists r.
  - destruct IH as [->|[rest E]]; auto. right. exists rest. congruence.
Qed.

Lemma upto_nonnil l : Forall (fun k => k <> []) (upto l).
Proof.
  induction l as [|k r IH]; simpl; auto. destruct k; simpl; auto. constructor; auto. discriminate.
Qed.

Lemma upto_Forall P l : Forall P l -> Forall P (upto l).
Proof. induction 1 as [|k r H Hr IH]; simpl; auto. destruct (is_nil k); auto. Qed.

Lemma spells_total path : exists ks, spells path ks.
Proof.
  exists (upto (split_on dot path)). split.
  - assert (H1 := upto_nonnil (split_on dot path)).
    assert (H2 := upto_Forall _ _ (split_on_pieces dot path)).
    rewrite Forall_forall in *. intros k Hk. split; auto. apply contains_In. auto.
  - destruct (upto_split (split_on dot path)) as [E|[rest E]].
    + left. rewrite E. symmetry. apply join_split.
    + right. exists rest. rewrite <- E. symmetry. apply join_split.
Qed.

(** ** C17 *)
Lemma vfind_spec path ks v : spells path ks -> vfind path v = at_path ks v.
Proof. intros H. unfold vfind. rewrite find_keys_upto. now rewrite (spells_upto _ _ H). Qed.

Lemma vfind_ref_spec path v : vfind_ref path v = vfind path v.
Proof. apply find_ref_keys_eq. Qed.

Lemma contains_spec f path : fig_contains f path = true <-> exists v, find_value f path = Ok v.
Proof.
  unfold fig_contains, find_value. destruct (merged f) as [v|e].
  - rewrite vfind_ref_spec. destruct (vfind path v); split; eauto; try discriminate.
    intros [? H]; discriminate.
  - split; [discriminate|]. intros [? H]; discriminate.
Qed.

Lemma find_value_spec f path ks x : spells path ks ->
  (find_value f path = Ok x <-> exists v, merged f = Ok v /\ at_path ks v = Some x).
Proof.
  intros H. unfold find_value. destruct (merged f) as [v|e].
  - rewrite (vfind_spec _ _ v H). destruct (at_path ks v) eqn:E; split.
    + intros X; inversion X; subst. eauto.
    + intros [v' [X Y]]. inversion X; subst. congruence.
    + discriminate.
    + intros [v' [X Y]]. inversion X; subst. congruence.
  - split; [discriminate|]. intros [? [X _]]; discriminate.
Qed.

(** ** C18 *)
Lemma nest_keys_at ks v : Forall plain_key ks -> at_path ks (nest_keys ks v) = Some v.
Proof.
  induction ks as [|k r IH]; intros H; simpl; auto. inversion H as [|? ? [Hk _] Hr]; subst.
  destruct k as [|c k]; [congruence|]. cbn [is_nil at_path insert get].
  replace (cmp (c :: k) (c :: k)) with Eq by (symmetry; now apply cmp_ustr_eq). auto.
Qed.

Lemma nest_find key v : vfind key (nest key v) = Some v.
Proof.
  destruct (spells_total key) as [ks H]. rewrite (vfind_spec _ ks) by auto.
  unfold nest. rewrite nest_keys_upto, (spells_upto _ _ H). apply nest_keys_at. apply H.
Qed.

Lemma nest_only key ks v p x : spells key ks -> at_path p (nest key v) = Some x ->
  (exists r, p = ks ++ r /\ at_path r v = Some x) \/
  (exists q k r, ks = p ++ k :: r /\ q = k :: r /\ is_dict x = true /\ vtag x = tag_default /\
                 at_path q x = Some v).
Proof.
  intros H. unfold nest. rewrite nest_keys_upto, (spells_upto _ _ H).
  destruct H as [H _]. revert p. induction ks as [|k r IH]; intros p Hx.
  - left. exists p. auto.
  - inversion H as [|? ? [Hk Hd] Hr]; subst. destruct k as [|c k]; [congruence|].
    destruct p as [|k2 p].
    + simpl in Hx. inversion Hx; subst. right. exists ((c :: k) :: r), (c :: k), r.
      repeat split; auto. apply (nest_keys_at ((c :: k) :: r)). auto.
    + cbn [nest_keys is_nil at_path insert get] in Hx.
      destruct (cmp k2 (c :: k)) eqn:E; try discriminate.
      apply cmp_ustr_eq in E. subst k2. destruct (IH Hr _ Hx) as [[r2 [-> E]]|[q [k2 [r2 [-> [E1 [E2 [E3 E4]]]]]]]].
      * left. exists r2. auto.
      * right. exists q, k2, r2. auto.
Qed.

(** ** C19 *)
Definition dict_at (ks : list ustr) (d : dict) : dict :=
  match at_path ks (root d) with Some (VDict _ d') => d' | _ => [] end.

Lemma dicts_along_cons k r t d : dicts_along (k :: r) (VDict t d) <->
  (forall x, get k d = Some x -> dicts_along r x).
Proof.
  split.
  - intros H x Hx p y [q E] Hy. apply (H (k :: p)); [exists q; simpl; congruence|].
    simpl. now rewrite Hx.
  - intros H p x [q E] Hp. destruct p as [|k2 p].
    + simpl in Hp. inversion Hp; reflexivity.
    + simpl in E. inversion E; subst. simpl in Hp. destruct (get k2 d) eqn:G; [|discriminate].
      eapply H; eauto. now exists q.
Qed.

Lemma dicts_along_nil v : dicts_along [] v <-> is_dict v = true.
Proof.
  split.
  - intros H. apply (H [] v); auto. now exists [].
  - intros H p x [q E] Hp. destruct p; [|discriminate]. simpl in Hp. now inversion Hp; subst.
Qed.

Lemma dicts_along_dict ks v : dicts_along ks v -> is_dict v = true.
Proof. intros H. apply (H [] v); auto. now exists ks. Qed.

Definition opt_dict (o : option value) : dict :=
  match o with Some (VDict _ d') => d' | _ => [] end.

Lemma dmerge_along ks : forall a b, wf_dict a -> wf_dict b ->
  dicts_along ks (root a) -> dicts_along ks (root b) ->
  dicts_along ks (root (dmerge a b)) /\ dict_at ks (dmerge a b) = dmerge (dict_at ks a) (dict_at ks b).
Proof.
  induction ks as [|k r IH]; intros a b Wa Wb Ha Hb.
  { split; [now apply dicts_along_nil|reflexivity]. }
  unfold root in Ha, Hb. rewrite dicts_along_cons in Ha, Hb.
  assert (Hg : get k (dmerge a b) = opt_combine (vcoalesce Merge) (get k a) (get k b))
    by (apply dcoalesce_get; [apply Wa|apply Wb]).
  unfold dict_at, root. rewrite dicts_along_cons. cbn [at_path]. rewrite Hg.
  destruct (get k a) as [x|] eqn:Ea, (get k b) as [y|] eqn:Eb; cbn [opt_combine].
  - assert (Hx := Ha x eq_refl). assert (Hy := Hb y eq_refl).
    assert (Dx := dicts_along_dict _ _ Hx). assert (Dy := dicts_along_dict _ _ Hy).
    assert (Wx := wf_get _ _ _ Wa Ea). assert (Wy := wf_get _ _ _ Wb Eb).
    destruct x as [| | | | |tx x|], y as [| | | | |ty y|]; try discriminate.
    rewrite vcoalesce_dict. cbn [keeps_existing]. apply wf_VDict in Wx, Wy.
    assert (Hx' : dicts_along r (root x)).
    { destruct r; [now apply dicts_along_nil|]. unfold root. rewrite dicts_along_cons in *. auto. }
    assert (Hy' : dicts_along r (root y)).
    { destruct r; [now apply dicts_along_nil|]. unfold root. rewrite dicts_along_cons in *. auto. }
    destruct (IH x y Wx Wy Hx' Hy') as [H1 H2].
    split.
    + intros z Hz. inversion Hz; subst. change (dcoalesce Merge x y) with (dmerge x y).
      destruct r; [now apply dicts_along_nil|]. unfold root in H1. rewrite dicts_along_cons in *. auto.
    + change (dcoalesce Merge x y) with (dmerge x y). unfold dict_at, root in H2.
      destruct r; exact H2.
  - split.
    + intros z Hz. inversion Hz; subst. auto.
    + assert (Wd : wf_dict (opt_dict (at_path r x))).
      { destruct (at_path r x) as [z|] eqn:E; [|apply wf_dict_nil].
        apply at_path_wf in E; [|eauto using wf_get].
        destruct z; try apply wf_dict_nil. now apply wf_VDict in E. }
      symmetry. apply dcoalesce_nil_r. exact (proj1 Wd).
  - split.
    + intros z Hz. inversion Hz; subst. auto.
    + assert (Wd : wf_dict (opt_dict (at_path r y))).
      { destruct (at_path r y) as [z|] eqn:E; [|apply wf_dict_nil].
        apply at_path_wf in E; [|eauto using wf_get].
        destruct z; try apply wf_dict_nil. now apply wf_VDict in E. }
      symmetry. apply dcoalesce_nil_l. exact (proj1 Wd).
  - split; [discriminate|reflexivity].
Qed.

Lemma focus_entries_In key ks m q d' : spells key ks ->
  In (q, d') (focus_entries key m) <->
  exists d t, In (q, d) m /\ at_path ks (root d) = Some (VDict t d').
Proof.
  intros H. induction m as [|[k v] r IH]; simpl.
  - split; [tauto|]. intros [? [? [[] _]]].
  - rewrite (vfind_spec _ ks) by auto. fold (root v).
    destruct (at_path ks (root v)) as [x|] eqn:E; simpl;
      [destruct x as [| | | | |t x|]|]; simpl; rewrite ?IH; split;
      try (intros [d [tt [Hd X]]]; exists d, tt; auto; fail);
      try (intros [d [tt [[Hd|Hd] X]]]; [inversion Hd; subst; congruence|exists d, tt; auto]; fail).
    + intros [X|[d [tt [Hd X]]]]; [inversion X; subst; exists v, t; auto|exists d, tt; auto].
    + intros [d [tt [[Hd|Hd] X]]].
      * inversion Hd; subst. left. congruence.
      * right. exists d, tt; auto.
Qed.

Lemma focus_entries_lt key (m : bmap profile dict) k : lt_all k m -> lt_all k (focus_entries key m).
Proof.
  induction m as [|[k2 v] r IH]; simpl; auto. intros [H1 H2].
  destruct (option_bind _ _); simpl; auto.
Qed.

Lemma focus_entries_sorted key (m : bmap profile dict) : sorted m -> sorted (focus_entries key m).
Proof.
  induction m as [|[k v] r IH]; simpl; auto. intros [H1 H2].
  destruct (option_bind _ _); simpl; auto. split; auto. now apply focus_entries_lt.
Qed.

Lemma focus_entries_get key ks m q : sorted m -> spells key ks ->
  get q (focus_entries key m) =
  match get q m with
  | Some d => match at_path ks (root d) with Some (VDict _ d') => Some d' | _ => None end
  | None => None
  end.
Proof.
  intros Hs H. induction m as [|[k v] r IH]; [reflexivity|]. destruct Hs as [H1 H2].
  cbn [focus_entries]. rewrite (vfind_spec _ ks) by auto. fold (root v).
  cbn [get]. destruct (cmp q k) eqn:E.
  - destruct (at_path ks (root v)) as [x|] eqn:Ex; [destruct x|]; cbn [option_bind as_dict];
      try (apply (lt_all_get q k); [now apply focus_entries_lt|congruence]).
    cbn [get]. now rewrite E.
  - assert (G : get q (focus_entries key r) = None)
      by (apply (lt_all_get q k); [now apply focus_entries_lt|congruence]).
    destruct (option_bind _ _); cbn [get]; rewrite ?E; auto.
  - destruct (option_bind _ _); cbn [get]; rewrite ?E; auto.
Qed.

Lemma focus_data key ks m q : sorted m -> spells key ks ->
  data_of (collect (focus_entries key m)) q = dict_at ks (data_of m q).
Proof.
  intros Hs H. rewrite collect_sorted by now apply focus_entries_sorted.
  unfold data_of. rewrite (focus_entries_get _ ks) by auto. unfold dict_at.
  destruct (get q m) as [d|]; [destruct (at_path ks (root d)) as [[]|]; reflexivity|].
  destruct ks; reflexivity.
Qed.

Lemma wf_dict_at ks d : wf_dict d -> wf_dict (dict_at ks d).
Proof.
  intros H. unfold dict_at. destruct (at_path ks (root d)) as [x|] eqn:E; [|apply wf_dict_nil].
  apply at_path_wf in E; [|now apply wf_VDict].
  destruct x; try apply wf_dict_nil. now apply wf_VDict in E.
Qed.

Lemma focus_wf key ks m : wf_profiles m -> spells key ks ->
  wf_profiles (collect (focus_entries key m)).
Proof.
  intros Hw H. apply wf_profiles_intro; [apply sorted_collect|].
  intros q d. rewrite collect_sorted by (apply focus_entries_sorted; apply Hw).
  rewrite (focus_entries_get _ ks) by (auto; apply Hw).
  destruct (get q m) as [d0|] eqn:E; [|discriminate].
  assert (W := wf_dict_at ks d0 (wf_profiles_get _ _ _ Hw E)). unfold dict_at in W.
  destruct (at_path ks (root d0)) as [[]|]; intros X; inversion X; subst; auto.
Qed.

Lemma at_path_dict_at ks sub d : sub <> [] -> dicts_along ks (root d) ->
  at_path (ks ++ sub) (root d) = at_path sub (root (dict_at ks d)).
Proof.
  intros Hs Hd. rewrite at_path_app. unfold dict_at.
  destruct (at_path ks (root d)) as [x|] eqn:E.
  - assert (D : is_dict x = true) by (eapply Hd; eauto; exists []; now rewrite app_nil_r).
    destruct x; try discriminate. destruct sub; [congruence|reflexivity].
  - destruct sub; [congruence|reflexivity].
Qed.

Lemma data_of_same m p q : same_profile p q -> data_of m p = data_of m q.
Proof. intros H. unfold data_of. now rewrite (same_profile_get p q m H). Qed.

Lemma dicts_along_empty k r : dicts_along (k :: r) (root []).
Proof. unfold root. rewrite dicts_along_cons. discriminate. Qed.

Lemma focus_merged f key ks m sub : ks <> [] -> spells key ks -> f_value f = Ok m -> wf_profiles m ->
  (forall q d, in_play f q -> get q m = Some d -> dicts_along ks (VDict tag_default d)) ->
  sub <> [] ->
  exists v w, merged f = Ok v /\ merged (focus f key) = Ok w /\
    at_path (ks ++ sub) v = at_path sub w.
Proof.
  intros Hks Hsp Hv Hw Hd Hsub.
  assert (D : forall q, in_play f q -> dicts_along ks (root (data_of m q))).
  { intros q Hq. unfold data_of. destruct (get q m) eqn:E; [now apply (Hd q)|].
    destruct ks; [congruence|]. apply dicts_along_empty. }
  assert (D1 := D p_default (or_introl eq_refl)).
  assert (D2 := D p_global (or_intror (or_introl eq_refl))).
  assert (D3 : dicts_along ks (root (selected_of f m))).
  { unfold selected_of. destruct (is_custom _); [apply D; right; right; reflexivity|].
    destruct ks; [congruence|]. apply dicts_along_empty. }
  rewrite (merged_ok3 f m Hv Hw).
  assert (Hv' : f_value (focus f key) = Ok (collect (focus_entries key m))).
  { unfold focus, try_focus. now rewrite Hv. }
  rewrite (merged_ok3 (focus f key) _ Hv' (focus_wf _ ks _ Hw Hsp)).
  eexists. eexists. split; [reflexivity|]. split; [reflexivity|].
  assert (W1 := data_of_wf m p_default Hw). assert (W2 := data_of_wf m p_global Hw).
  assert (W3 := selected_wf f m Hw).
  destruct (dmerge_along ks _ _ W1 W3 D1 D3) as [A1 A2].
  destruct (dmerge_along ks _ _ (wf_dmerge _ _ W1 W3) W2 A1 D2) as [B1 B2].
  fold (root (dmerge (dmerge (data_of m p_default) (selected_of f m)) (data_of m p_global))).
  rewrite at_path_dict_at by auto. rewrite B2, A2.
  rewrite !(focus_data key ks) by (auto; apply Hw).
  unfold selected_of. rewrite (focus_data key ks) by (auto; apply Hw).
  change (f_profile (focus f key)) with (f_profile f).
  destruct (is_custom (f_profile f)); auto.
  assert (E : dict_at ks [] = []) by (destruct ks; reflexivity). now rewrite E.
Qed.

Lemma spells_join ks sub key subpath : ks <> [] -> sub <> [] ->
  Forall plain_key ks -> Forall plain_key sub -> key = join [dot] ks -> subpath = join [dot] sub ->
  spells (key ++ [dot] ++ subpath) (ks ++ sub).
Proof.
  intros Hks Hsub H1 H2 -> ->. split; [now apply Forall_app|]. left.
  clear H1 H2. induction ks as [|k r IH]; [congruence|]. destruct r as [|k2 r].
  - simpl. destruct sub; [congruence|]. reflexivity.
  - change (join [dot] ((k :: k2 :: r) ++ sub)) with (k ++ [dot] ++ join [dot] ((k2 :: r) ++ sub)).
    rewrite <- IH by discriminate. simpl. now rewrite <- !app_assoc.
Qed.

Lemma focus_find f m ks sub : ks <> [] -> sub <> [] ->
  Forall plain_key ks -> Forall plain_key sub -> f_value f = Ok m -> wf_profiles m ->
  (forall q d, in_play f q -> get q m = Some d -> dicts_along ks (VDict tag_default d)) ->
  res_ok (find_value (focus f (join [dot] ks)) (join [dot] sub)) =
  res_ok (find_value f (join [dot] ks ++ [dot] ++ join [dot] sub)) /\
  find_metadata (focus f (join [dot] ks)) (join [dot] sub) =
  find_metadata f (join [dot] ks ++ [dot] ++ join [dot] sub).
Proof.
  intros Hks Hsub P1 P2 Hv Hw Hd.
  assert (S1 : spells (join [dot] ks) ks) by (split; auto).
  assert (S2 : spells (join [dot] sub) sub) by (split; auto).
  assert (S3 := spells_join ks sub _ _ Hks Hsub P1 P2 eq_refl eq_refl).
  destruct (focus_merged f _ ks m sub Hks S1 Hv Hw Hd Hsub) as [v [w [E1 [E2 E3]]]].
  unfold find_metadata, find_value. rewrite E1, E2.
  rewrite (vfind_spec _ _ w S2), (vfind_spec _ _ v S3), E3.
  destruct (at_path sub w); split; reflexivity.
Qed.
Lemma focus_exact f key ks : spells key ks ->
  f_profile (focus f key) = f_profile f /\ f_metadata (focus f key) = f_metadata f /\
  (forall e, f_value f = Err e -> f_value (focus f key) = Err (resolved e f)) /\
  (forall m, f_value f = Ok m -> wf_profiles m ->
     exists m', f_value (focus f key) = Ok m' /\ wf_profiles m' /\
       forall q d', In (q, d') m' <->
         exists d t, In (q, d) m /\ at_path ks (VDict tag_default d) = Some (VDict t d')).
Proof.
  intros Sp. split; [reflexivity|]. split; [reflexivity|]. unfold focus, try_focus. cbn [f_value]. split.
  - intros e ->. reflexivity.
  - intros m -> W. eexists. split; [reflexivity|]. split; [now apply (focus_wf key ks)|].
    intros q d'. rewrite collect_sorted by (apply focus_entries_sorted; apply W).
    now apply focus_entries_In.
Qed.

Lemma focus_twice f m key1 key2 key ks1 ks2 :
  spells key1 ks1 -> spells key2 ks2 -> spells key (ks1 ++ ks2) ->
  f_value f = Ok m -> wf_profiles m ->
  focus (focus f key1) key2 = focus f key.
Proof.
  intros S1 S2 S12 E W. unfold focus. cbn [f_profile f_metadata]. f_equal.
  unfold try_focus. cbn [f_value]. rewrite E. f_equal.
  rewrite !collect_sorted by (try apply focus_entries_sorted; try apply W;
    rewrite collect_sorted by (apply focus_entries_sorted; apply W); apply focus_entries_sorted; apply W).
  clear E. assert (Sm : sorted m) by apply W. clear W.
  induction m as [|[k v] r IH]; [reflexivity|]. destruct Sm as [H1 H2]. specialize (IH H2).
  cbn [focus_entries]. rewrite (vfind_spec _ ks1), (vfind_spec _ (ks1 ++ ks2)) by auto.
  rewrite at_path_app. destruct (at_path ks1 (VDict tag_default v)) as [x|]; [|exact IH].
  cbn [option_bind]. destruct x as [| | | | |t d|]; cbn [as_dict];
    try (destruct ks2; cbn [at_path option_bind as_dict]; exact IH).
  cbn [focus_entries]. rewrite (vfind_spec _ ks2) by auto. rewrite IH.
  destruct ks2; reflexivity.
Qed.


(** ** C46 *)
Lemma yields_errors_of e : yields (Some e) (errors_of e).
Proof.
  revert e. fix IH 1. intros [t p m path k v]. simpl.
  eapply Y_next; [reflexivity|]. destruct v as [e'|]; [apply IH|].
  now apply Y_end.
Qed.

Lemma yields_det st l : yields st l -> forall l', yields st l' -> l = l'.
Proof.
  induction 1 as [st E|st e st' l E H IH]; intros l' H'; inversion H' as [? E'|? e2 st2 l2 E' H2]; subst; try congruence.
  rewrite E in E'. inversion E'; subst. f_equal. auto.
Qed.

Lemma count_errors_of e : e_count e = length (errors_of e).
Proof.
  revert e. fix IH 1. intros [t p m path k v]. simpl. destruct v as [e'|]; [|reflexivity].
  now rewrite IH.
Qed.

Lemma errors_of_plain e x : In x (errors_of e) -> e_prev x = None.
Proof.
  revert e. fix IH 1. intros [t p m path k v]. simpl. intros [E|H]; [rewrite <- E; reflexivity|].
  destruct v as [e'|]; [exact (IH e' H)|contradiction].
Qed.

(** ** C47 *)
Lemma SFeqb_spec x y : SFeqb x y = true <-> same_float x y.
Proof.
  assert (K : forall m1 m2 (b : bool), (match (if b then CompOpp (Pos.compare_cont Eq m1 m2)
                 else Pos.compare_cont Eq m1 m2) with Eq => true | _ => false end) = true <-> m1 = m2).
  { intros m1 m2 b. change (Pos.compare_cont Eq m1 m2) with (Pos.compare m1 m2).
    destruct (Pos.compare_spec m1 m2); subst; destruct b; simpl; split; auto; try discriminate;
      intros ->; lia. }
  unfold SFeqb, same_float.
  destruct x as [s1|s1| |s1 m1 e1], y as [s2|s2| |s2 m2 e2];
    try (destruct s1); try (destruct s2); simpl;
    try (split; [discriminate|]; intros [H1 [H2 [H3|[H3 H4]]]]; congruence);
    try (split; [intros _; repeat split; auto; discriminate|auto]; fail).
  - destruct (Z.compare_spec e1 e2) as [->|E|E].
    + rewrite (K m1 m2 true). split; [intros ->; repeat split; auto; discriminate|].
      intros [_ [_ [H|[H _]]]]; congruence.
    + split; [discriminate|]. intros [_ [_ [H|[H _]]]]; [|discriminate]. inversion H; lia.
    + split; [discriminate|]. intros [_ [_ [H|[H _]]]]; [|discriminate]. inversion H; lia.
  - destruct (Z.compare_spec e1 e2) as [->|E|E].
    + rewrite (K m1 m2 false). split; [intros ->; repeat split; auto; discriminate|].
      intros [_ [_ [H|[H _]]]]; congruence.
    + split; [discriminate|]. intros [_ [_ [H|[H _]]]]; [|discriminate]. inversion H; lia.
    + split; [discriminate|]. intros [_ [_ [H|[H _]]]]; [|discriminate]. inversion H; lia.
Qed.

Lemma num_eqb_spec a b : num_eqb a b = true <-> same_num a b.
Proof.
  unfold num_eqb, same_num. destruct a as [k x|x|x], b as [l y|y|y].
  - destruct k, l; simpl; rewrite ?Z.eqb_eq; split; try discriminate; auto; intros [H1 H2]; auto; discriminate.
  - destruct k; simpl; split; try discriminate; intros [? [? [H _]]]; discriminate.
  - destruct k; simpl; split; try discriminate; intros [? [? [H _]]]; discriminate.
  - destruct l; simpl; split; try discriminate; intros [? [? [_ [H _]]]]; discriminate.
  - cbn [num_to_actual float_of]. rewrite SFeqb_spec. split; eauto. intros [u [v [E1 [E2 H]]]]. congruence.
  - cbn [num_to_actual float_of]. rewrite SFeqb_spec. split; eauto. intros [u [v [E1 [E2 H]]]]. congruence.
  - destruct l; simpl; split; try discriminate; intros [? [? [_ [H _]]]]; discriminate.
  - cbn [num_to_actual float_of]. rewrite SFeqb_spec. split; eauto. intros [u [v [E1 [E2 H]]]]. congruence.
  - cbn [num_to_actual float_of]. rewrite SFeqb_spec. split; eauto. intros [u [v [E1 [E2 H]]]]. congruence.
Qed.

Lemma value_eqb_spec : forall a b, value_eqb a b = true <-> same_value a b.
Proof.
  induction a as [t s|t c|t b0|t n|t e|t d IH|t l IH] using value_ind'; intros b; destruct b as [t2 s2|t2 c2|t2 b2|t2 n2|t2 e2|t2 d2|t2 l2]; simpl;
    try (split; [discriminate|]; intros H; inversion H; fail).
  - rewrite ueqb_eq. split; [intros ->; constructor|]. intros H; inversion H; auto.
  - rewrite N.eqb_eq. split; [intros ->; constructor|]. intros H; inversion H; auto.
  - rewrite Bool.eqb_true_iff. split; [intros ->; constructor|]. intros H; inversion H; auto.
  - rewrite num_eqb_spec. split; [intros; now constructor|]. intros H; inversion H; auto.
  - destruct e, e2; split; try discriminate; try constructor; intros H; inversion H; auto.
  - transitivity (Forall2 (fun x y => fst x = fst y /\ same_value (snd x) (snd y)) d d2).
    2:{ split; [now constructor|]. intros H; now inversion H. }
    revert d2. induction d as [|[k v] r IHr]; intros [|[k2 v2] r2]; simpl;
      try (split; [discriminate|]; intros H; inversion H; fail).
    + split; auto.
    + inversion IH as [|? ? Hv Hr]; subst. simpl in Hv.
      rewrite !andb_true_iff, ueqb_eq, Hv, (IHr Hr). split.
      * intros [[-> H1] H2]. constructor; auto.
      * intros H. inversion H as [|? ? ? ? [E1 E2] E3]; subst. auto.
  - transitivity (Forall2 same_value l l2).
    2:{ split; [now constructor|]. intros H; now inversion H. }
    revert l2. induction l as [|v r IHr]; intros [|v2 r2]; simpl;
      try (split; [discriminate|]; intros H; inversion H; fail).
    + split; auto.
    + inversion IH as [|? ? Hv Hr]; subst.
      rewrite !andb_true_iff, Hv, (IHr Hr). split.
      * intros [H1 H2]. constructor; auto.
      * intros H. inversion H; subst. auto.
Qed.
