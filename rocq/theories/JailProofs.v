(** Lemmas about jailed paths and restoring the environment. *)
From Coq Require Import Ascii String NArith Bool Lia PeanoNat Permutation.
From Coq Require Import List.
From Verif Require Import Res BMap Str Err Path Jail BMapProofs StrProofs SpecPath SpecJail PathProofs.
Import ListNotations.

(** ** Paths made of names only *)
Definition clean (r : bool) (ns : list ustr) : list component :=
  (if r then [RootDir] else []) ++ map Normal ns.

Lemma components_of_names ns : Forall name_ok ns -> components_of ns = map Normal ns.
Proof.
  induction 1 as [|x l H F IH]; auto. cbn [components_of map]. rewrite name_component by auto.
  now rewrite IH.
Qed.

Lemma components_dir_text ns : Forall name_ok ns -> components (dir_text ns) = clean true ns.
Proof.
  intros F. unfold components, clean. rewrite split_dir_text by auto. cbn [has_root dir_text].
  rewrite N.eqb_refl. cbn [app components_of]. f_equal.
  destruct ns as [|x l]; [reflexivity|]. now apply components_of_names.
Qed.

Lemma join_names_rel ns : Forall name_ok ns -> has_root (join [slash] ns) = false.
Proof.
  intros F. destruct ns as [|x l]; [reflexivity|].
  inversion F as [|? ? [A [_ [_ B]]] _]; subst. destruct x as [|c x]; [congruence|].
  assert (R : has_root (c :: x) = false) by now apply name_not_rooted.
  destruct l; exact R.
Qed.

Lemma components_join ns : Forall name_ok ns -> components (join [slash] ns) = clean false ns.
Proof.
  intros F. unfold components, clean. rewrite join_names_rel by auto. cbn [app].
  destruct ns as [|x l]; [reflexivity|].
  assert (S : split_on slash (join [slash] (x :: l)) = x :: l)
    by (apply split_join; [discriminate|now apply names_pieces]).
  assert (I : include_cur_dir (join [slash] (x :: l)) = false).
  { unfold include_cur_dir. rewrite S. apply ueqb_neq. inversion F as [|? ? K _]; subst.
    unfold name_ok in K. tauto. }
  rewrite I, S. cbn [app]. now apply components_of_names.
Qed.

Lemma collect_rooted ns : Forall name_ok ns -> forall m, Forall name_ok m ->
  fold_left (fun p c => path_push p (component_str c)) (map Normal ns) (dir_text m) = dir_text (m ++ ns).
Proof.
  induction 1 as [|x l H F IH]; intros m M; [now rewrite app_nil_r|]. cbn [map fold_left component_str].
  change (path_push (dir_text m) x) with (path_join (dir_text m) x).
  rewrite join_dir_text; auto.
  - unfold in_dir. rewrite IH, <- app_assoc; auto. apply Forall_app. split; auto.
  - destruct H as [_ [_ [_ H]]]. now apply name_not_rooted.
Qed.

Lemma push_join m x : Forall name_ok m -> name_ok x ->
  path_push (join [slash] m) x = join [slash] (m ++ [x]).
Proof.
  intros M X. assert (R : has_root x = false) by (destruct X as [_ [_ [_ X]]]; now apply name_not_rooted).
  destruct m as [|y l] using rev_ind.
  - cbn. unfold path_push. now rewrite R.
  - clear IHl. assert (M' := M). apply Forall_app in M'. destruct M' as [Ml My]. inversion My as [|? ? Y _]; subst.
    assert (E : exists pre, join [slash] (l ++ [y]) = pre ++ y).
    { destruct l as [|z l]; [now exists []|]. rewrite join_app by discriminate.
      exists (join [slash] (z :: l) ++ [slash]). now rewrite <- app_assoc. }
    destruct E as [pre E]. destruct Y as [Y1 [_ [_ Y2]]].
    rewrite push_name; auto.
    + rewrite (join_app _ (l ++ [y]) [x]) by (discriminate || now destruct l). reflexivity.
    + rewrite E. destruct y; [congruence|]. now destruct pre.
    + intros q. rewrite E. now apply last_not_slash.
Qed.

Lemma collect_relative ns : Forall name_ok ns -> forall m, Forall name_ok m ->
  fold_left (fun p c => path_push p (component_str c)) (map Normal ns) (join [slash] m)
  = join [slash] (m ++ ns).
Proof.
  induction 1 as [|x l H F IH]; intros m M; [now rewrite app_nil_r|]. cbn [map fold_left component_str].
  rewrite push_join, IH, <- app_assoc; auto. apply Forall_app. split; auto.
Qed.

Lemma collect_clean r ns : Forall name_ok ns ->
  path_collect (clean r ns) = if r then dir_text ns else join [slash] ns.
Proof.
  intros F. unfold path_collect, clean. destruct r; cbn [app].
  - cbn [fold_left]. apply (collect_rooted ns F []). constructor.
  - apply (collect_relative ns F []). constructor.
Qed.

(** ** [dedot] *)
Lemma all_roots r ns :
  forallb (fun c => match c with RootDir => true | _ => false end) (clean r ns) = is_nil ns.
Proof. destruct r, ns; reflexivity. Qed.

Lemma clean_last r ns x : clean r (ns ++ [x]) = clean r ns ++ [Normal x].
Proof. unfold clean. rewrite map_app, <- app_assoc. reflexivity. Qed.

Lemma dedot_step_clean r ns c : Forall name_ok ns -> comp_ok c -> c <> RootDir ->
  exists ns', dedot_step (clean r ns) c = clean r ns' /\ Forall name_ok ns' /\
              ns' = cstep ns c.
Proof.
  intros F C NR. destruct c as [| | |s]; [congruence| | |].
  - exists ns. auto.
  - cbn [dedot_step cstep]. rewrite all_roots. destruct ns as [|x l] using rev_ind.
    + exists []. auto.
    + clear IHl. apply Forall_app in F. destruct F as [F _]. exists l.
      rewrite removelast_last, clean_last, removelast_last.
      destruct (l ++ [x]) eqn:E; [now destruct l|]. cbn [is_nil]. auto.
  - exists (ns ++ [s]). cbn [dedot_step cstep]. rewrite clean_last. repeat split; auto.
    apply Forall_app. split; auto.
Qed.

Lemma dedot_fold l : Forall comp_ok l -> Forall (fun c => c <> RootDir) l ->
  forall r ns, Forall name_ok ns ->
  exists ns', fold_left dedot_step l (clean r ns) = clean r ns' /\ Forall name_ok ns' /\
              ns' = fold_left cstep l ns.
Proof.
  induction l as [|c l IH]; intros O R r ns F; [exists ns; auto|].
  inversion O; inversion R; subst. cbn [fold_left].
  destruct (dedot_step_clean r ns c) as [ns1 [E [F1 E1]]]; auto. rewrite E.
  destruct (IH ltac:(auto) ltac:(auto) r ns1 F1) as [ns2 [E2 [F2 E3]]]. exists ns2. subst. auto.
Qed.

(** [dedot] gives the text of names, rooted when the path is; from the root, the names the
    path leads to. *)
Lemma dedot_spec p : exists ns, Forall name_ok ns /\
  dedot p = (if has_root p then dir_text ns else join [slash] ns) /\ ns = locate [] p.
Proof.
  assert (O := components_of_ok _ (split_on_pieces slash p)).
  assert (O1 : Forall comp_ok (components_of (split_on slash p)))
    by (eapply Forall_impl; [|exact O]; cbn; tauto).
  assert (O2 : Forall (fun c => c <> RootDir) (components_of (split_on slash p)))
    by (eapply Forall_impl; [|exact O]; cbn; tauto).
  destruct (dedot_fold _ O1 O2 (has_root p) [] ltac:(constructor)) as [ns [E [F D]]].
  exists ns. split; auto. split.
  - unfold dedot. rewrite <- (collect_clean (has_root p) ns F). f_equal. rewrite <- E.
    unfold components. rewrite fold_left_app. f_equal. unfold clean.
    destruct (has_root p); [reflexivity|]. destruct (include_cur_dir p); reflexivity.
  - rewrite D, components_of_steps. unfold locate. now destruct (has_root p).
Qed.

Lemma dedot_root p : has_root (dedot p) = has_root p.
Proof.
  destruct (dedot_spec p) as [ns [F [-> _]]]. destruct (has_root p); [reflexivity|].
  now apply join_names_rel.
Qed.

Lemma prefix_names a : forall b, components_prefix (map Normal a) (map Normal b) = true <->
  exists rest, b = a ++ rest.
Proof.
  induction a as [|x a IH]; intros b; [split; [intros _; now exists b|reflexivity]|]. destruct b as [|y b]; cbn [map components_prefix].
  - split; [discriminate|]. intros [rest H]. discriminate.
  - rewrite andb_true_iff, IH. cbn [component_eqb]. split.
    + intros [E [rest ->]]. apply ueqb_eq in E. subst. exists rest. reflexivity.
    + intros [rest H]. inversion H; subst. split; [apply ueqb_refl|eauto].
Qed.

Lemma starts_with_dirs a b : Forall name_ok a -> Forall name_ok b ->
  path_starts_with (dir_text b) (dir_text a) = true <-> inside a b.
Proof.
  intros A B. unfold path_starts_with. rewrite !components_dir_text by auto.
  cbn [clean app components_prefix component_eqb andb]. apply prefix_names.
Qed.

Lemma locate_join_names cwd ns : Forall name_ok ns -> locate cwd (join [slash] ns) = cwd ++ ns.
Proof.
  intros F. unfold locate. rewrite join_names_rel by auto.
  rewrite fold_split_join by now apply names_pieces. now apply fold_names.
Qed.

(** What is accepted, and where it leads. *)
Lemma jailed_absolute D p : Forall name_ok D -> has_root p = true ->
  (inside D (locate [] p) -> exists q, safe_jailed_path (dir_text D) p = Ok q /\
                               forall cwd, locate cwd q = locate cwd p) /\
  (~ inside D (locate [] p) -> exists e, safe_jailed_path (dir_text D) p = Err e).
Proof.
  intros F R. unfold safe_jailed_path. rewrite dedot_root, R.
  destruct (dedot_spec p) as [ns [Fn [E L]]]. rewrite R in E. rewrite E. rewrite <- L.
  destruct (path_starts_with (dir_text ns) (dir_text D)) eqn:S; cbn [andb]; split; intros H; eauto.
  - eexists; split; [reflexivity|]. intros cwd. rewrite locate_dir_text by auto. rewrite L.
    now apply locate_rooted.
  - destruct H. now apply starts_with_dirs.
  - apply (starts_with_dirs D ns F Fn) in H. congruence.
Qed.

Lemma jailed_relative D p : has_root p = false -> exists ns, Forall name_ok ns /\
  safe_jailed_path D p = Ok (join [slash] ns) /\ ns = locate [] p /\
  forall cwd, locate cwd (join [slash] ns) = cwd ++ ns.
Proof.
  intros R. unfold safe_jailed_path. rewrite dedot_root, R. cbn [andb].
  destruct (dedot_spec p) as [ns [Fn [E L]]]. rewrite R in E. rewrite E. exists ns.
  repeat split; auto. intros cwd. now apply locate_join_names.
Qed.

Lemma jailed_inside D p q cwd : Forall name_ok D -> safe_jailed_path (dir_text D) p = Ok q ->
  inside D cwd -> inside D (locate cwd q).
Proof.
  intros F S I. destruct (has_root p) eqn:R.
  - assert (S' := S). unfold safe_jailed_path in S'. rewrite dedot_root, R in S'.
    destruct (dedot_spec p) as [ns [Fn [E L]]]. rewrite R in E. rewrite E in S'.
    destruct (path_starts_with (dir_text ns) (dir_text D)) eqn:P; [|discriminate].
    cbn [andb] in S'. inversion S'; subst q. rewrite locate_dir_text by auto.
    now apply starts_with_dirs.
  - destruct (jailed_relative (dir_text D) p R) as [ns [Fn [E [_ L]]]]. rewrite E in S.
    inversion S; subst q. rewrite L. destruct I as [rest ->]. exists (rest ++ ns).
    now rewrite app_assoc.
Qed.

Lemma never_climbs_same pieces : forall ns cwd, never_climbs (length ns) pieces ->
  fold_left step_into pieces (cwd ++ ns) = cwd ++ fold_left step_into pieces ns.
Proof.
  induction pieces as [|x r IH]; intros ns cwd N; auto. cbn [fold_left never_climbs] in *.
  unfold step_into at 2 4. destruct (is_nil x); cbn [orb] in N; [now apply IH|].
  destruct (ueqb x (lit ".")); cbn [orb] in N; [now apply IH|].
  destruct (ueqb x (lit "..")).
  - destruct ns as [|y l] using rev_ind; [now cbn in N|]. clear IHl.
    rewrite app_length, Nat.add_comm in N. cbn in N. rewrite app_assoc, !removelast_last. now apply IH.
  - rewrite <- app_assoc. apply IH. now rewrite app_length, Nat.add_comm.
Qed.

(** ** Running operations *)
Lemma clear_loop_cwd vars : forall j j' ok, clear_loop vars j = (j', ok) -> j_cwd j' = j_cwd j.
Proof.
  induction vars as [|[k v] r IH]; intros j j' ok H; cbn [clear_loop] in H; [now inversion H|].
  destruct (env_remove k (j_env j)); [|now inversion H|now inversion H].
  apply IH in H. exact H.
Qed.

Lemma jail_step_inside D op j j' t ok : Forall name_ok D -> inside D (j_cwd j) ->
  jail_step (dir_text D) op j = (j', t, ok) ->
  inside D (j_cwd j') /\ forall l, t = Some l -> inside D l.
Proof.
  intros F I H. destruct op as [p o|p o|p o|k v|vo]; cbn [jail_step] in H.
  - destruct (safe_jailed_path (dir_text D) p) as [q|e] eqn:S, o; inversion H; subst; split; auto;
      intros l E; inversion E; subst. eapply jailed_inside; eauto.
  - destruct (safe_jailed_path (dir_text D) p) as [q|e] eqn:S, o; inversion H; subst; split; auto;
      intros l E; inversion E; subst. eapply jailed_inside; eauto.
  - destruct (safe_jailed_path (dir_text D) p) as [q|e] eqn:S, o; inversion H; subst; split; auto;
      try (intros l E; discriminate). cbn [j_cwd]. eapply jailed_inside; eauto.
  - unfold set_env in H. destruct (env_set k v (j_env j)); inversion H; subst; split; auto; discriminate.
  - destruct (clear_loop (vo (j_env j)) j) as [j1 ok1] eqn:E. inversion H; subst.
    apply clear_loop_cwd in E. rewrite E. split; auto. discriminate.
Qed.

Lemma jail_run_inside D ops : Forall name_ok D -> forall j j' touched, inside D (j_cwd j) ->
  jail_run (dir_text D) ops j = (j', touched) ->
  inside D (j_cwd j') /\ Forall (inside D) touched.
Proof.
  intros F. induction ops as [|op r IH]; intros j j' touched I H; cbn [jail_run] in H.
  - inversion H; subst. split; auto.
  - destruct (jail_step (dir_text D) op j) as [[j1 t] ok] eqn:E.
    destruct (jail_step_inside D op j j1 t ok F I E) as [I1 T].
    assert (Ft : Forall (inside D) (match t with Some l => [l] | None => [] end)).
    { destruct t; constructor; auto. }
    destruct ok.
    + destruct (jail_run (dir_text D) r j1) as [j2 rest] eqn:E2. inversion H; subst.
      destruct (IH _ _ _ I1 E2) as [I2 F2]. split; auto. apply Forall_app. split; auto.
    + inversion H; subst. split; auto.
Qed.

(** ** Restoring the environment *)
Definition sets_valid_names (op : jail_op) : Prop :=
  match op with
  | OpSetEnv k _ => env_name_ok k = true
  | OpClearEnv vo => forall e, Permutation (vo e) e
  | _ => True
  end.

(** What the jail has saved is enough to get [e0] back. *)
Definition recoverable (e0 : environment) (j : jailed) : Prop :=
  sorted (j_env j) /\ sorted (j_saved j) /\
  (forall k v, get k (j_saved j) = Some v -> env_name_ok k = true /\ v = get k e0) /\
  (forall k, get k (j_saved j) = None -> get k (j_env j) = get k e0).

Lemma recoverable_start e0 dir cwd : sorted e0 -> recoverable e0 (jail_start e0 dir cwd).
Proof. intros S. repeat split; auto; try discriminate. Qed.

Lemma ueq_dec (a b : ustr) : {a = b} + {a <> b}.
Proof.
  destruct (ueqb a b) eqn:E; [left; now apply ueqb_eq|right; now apply ueqb_neq].
Qed.

Lemma get_insert_same (V : Type) k (v : V) m : get k (insert k v m) = Some v.
Proof. apply get_insert_eq. now apply cmp_ustr_eq. Qed.

Lemma get_insert_other (V : Type) k k' (v : V) m : k <> k' -> get k (insert k' v m) = get k m.
Proof. intros N. apply get_insert_ne. now apply cmp_ustr_ne. Qed.

Lemma recoverable_set e0 k v j j' ok : recoverable e0 j -> env_name_ok k = true ->
  set_env k v j = (j', ok) -> recoverable e0 j'.
Proof.
  intros [S1 [S2 [A B]]] K H. unfold set_env in H.
  set (saved := match get k (j_saved j) with Some _ => j_saved j
                | None => insert k (env_get k (j_env j)) (j_saved j) end) in *.
  assert (Ss : sorted saved) by (unfold saved; destruct (get k (j_saved j)); auto; now apply sorted_insert).
  assert (As : forall k' v', get k' saved = Some v' -> env_name_ok k' = true /\ v' = get k' e0).
  { unfold saved. intros k' v' G. destruct (get k (j_saved j)) eqn:E; auto.
    destruct (ueq_dec k' k) as [->|N].
    - rewrite get_insert_same in G. inversion G; subst. split; auto. unfold env_get. rewrite K. now apply B.
    - rewrite get_insert_other in G; auto. }
  assert (Ks : get k saved <> None).
  { unfold saved. destruct (get k (j_saved j)) eqn:E; [congruence|].
    rewrite get_insert_same. discriminate. }
  assert (Bs : forall k', k' <> k -> get k' saved = None -> get k' (j_env j) = get k' e0).
  { unfold saved. intros k' N G. destruct (get k (j_saved j)) eqn:E; auto.
    rewrite get_insert_other in G; auto. }
  destruct (env_set k v (j_env j)) as [e| |] eqn:E; inversion H; subst.
  - unfold env_set in E. destruct (env_name_ok k && env_value_ok v); [|discriminate]. inversion E; subst.
    split; [now apply sorted_insert|]. split; auto. split; auto.
    intros k' G. cbn [j_env j_saved] in *. destruct (ueq_dec k' k) as [->|N]; [now destruct Ks|].
    rewrite get_insert_other; auto.
  - split; auto. split; auto. split; auto. intros k' G. cbn [j_env j_saved] in *.
    destruct (ueq_dec k' k) as [->|N]; [now destruct Ks|]. auto.
  - split; auto. split; auto. split; auto. intros k' G. cbn [j_env j_saved] in *.
    destruct (ueq_dec k' k) as [->|N]; [now destruct Ks|]. auto.
Qed.

Lemma recoverable_clear e0 vars : forall j j' ok, recoverable e0 j ->
  NoDup (map fst vars) -> (forall k v, In (k, v) vars -> get k (j_env j) = Some v) ->
  clear_loop vars j = (j', ok) -> recoverable e0 j'.
Proof.
  induction vars as [|[k v] r IH]; intros j j' ok R N I H; cbn [clear_loop] in H.
  - inversion H; subst; exact R.
  - destruct (env_remove k (j_env j)) as [e| |] eqn:E; [|inversion H; subst; exact R|inversion H; subst; exact R].
    unfold env_remove in E. destruct (env_name_ok k) eqn:K; [|discriminate]. inversion E; subst e.
    inversion N as [|? ? Nk Nr]; subst. destruct R as [S1 [S2 [A B]]].
    assert (Gv : get k (j_env j) = Some v) by (apply I; now left).
    apply IH in H; auto.
    + split; [now apply sorted_remove|]. cbn [j_saved j_env]. split; [|split].
      * destruct (get k (j_saved j)); auto. now apply sorted_insert.
      * intros k' v' G. destruct (get k (j_saved j)) eqn:Es; auto.
        destruct (ueq_dec k' k) as [->|Nk'].
        -- rewrite get_insert_same in G. inversion G; subst. split; auto. rewrite <- Gv. now apply B.
        -- rewrite get_insert_other in G; auto.
      * intros k' G. destruct (ueq_dec k' k) as [->|Nk'].
        -- exfalso. destruct (get k (j_saved j)) eqn:Es; [congruence|].
           rewrite get_insert_same in G. discriminate.
        -- rewrite get_remove_ne by now apply cmp_ustr_ne. apply B.
           destruct (get k (j_saved j)) eqn:Es; auto. rewrite get_insert_other in G; auto.
    + intros k' v' J. cbn [j_env]. rewrite get_remove_ne; [apply I; now right|].
      apply cmp_ustr_ne. intros ->. apply Nk. change k with (fst (k, v')). now apply in_map.
Qed.

Lemma sorted_nodup (V : Type) (m : bmap ustr V) : sorted m -> NoDup (map fst m).
Proof.
  induction m as [|[k v] r IH]; intros S; [constructor|]. cbn [map fst].
  destruct S as [L S]. constructor; auto. intros J. apply in_map_iff in J.
  destruct J as [[k' v'] [E J]]. cbn in E. subst k'.
  apply (proj1 (lt_all_In k r) L) in J. now apply cmp_lt_irrefl in J.
Qed.

Lemma recoverable_step e0 dir op j j' t ok : recoverable e0 j -> sets_valid_names op ->
  jail_step dir op j = (j', t, ok) -> recoverable e0 j'.
Proof.
  intros R V H. destruct op as [p o|p o|p o|k v|vo]; cbn [jail_step] in H.
  - inversion H; now subst.
  - inversion H; now subst.
  - destruct (safe_jailed_path dir p), o; inversion H; now subst.
  - destruct (set_env k v j) as [j1 o1] eqn:E. inversion H; subst. eapply recoverable_set; eauto.
  - destruct (clear_loop (vo (j_env j)) j) as [j1 o1] eqn:E. inversion H; subst.
    cbn in V. specialize (V (j_env j)). assert (S := proj1 R).
    eapply recoverable_clear; eauto.
    + eapply Permutation_NoDup; [apply Permutation_map, Permutation_sym, V|]. now apply sorted_nodup.
    + intros k v J. apply In_get; auto. eapply Permutation_in; eauto.
Qed.

Lemma recoverable_run e0 dir ops : Forall sets_valid_names ops -> forall j j' t, recoverable e0 j ->
  jail_run dir ops j = (j', t) -> recoverable e0 j'.
Proof.
  induction 1 as [|op r V F IH]; intros j j' t R H; cbn [jail_run] in H; [now inversion H; subst|].
  destruct (jail_step dir op j) as [[j1 t1] ok] eqn:E.
  assert (R1 := recoverable_step _ _ _ _ _ _ _ R V E). destruct ok.
  - destruct (jail_run dir r j1) as [j2 rest] eqn:E2. inversion H; subst. eapply IH; eauto.
  - inversion H; now subst.
Qed.

Lemma restore_spec e0 : (forall k v, get k e0 = Some v -> env_value_ok v = true) ->
  forall saved, NoDup (map fst saved) ->
  (forall k v, In (k, v) saved -> env_name_ok k = true /\ v = get k e0) ->
  forall e, sorted e -> (forall k, ~ In k (map fst saved) -> get k e = get k e0) ->
  exists e', restore_env saved e = Ret e' /\ sorted e' /\ forall k, get k e' = get k e0.
Proof.
  intros VO. induction saved as [|[k v] r IH]; intros N A e S B.
  - exists e. split; [reflexivity|]. split; auto.
  - cbn [restore_env]. destruct (A k v) as [K Ev]; [now left|]. inversion N as [|? ? Nk Nr]; subst.
    assert (A' : forall k0 v0, In (k0, v0) r -> env_name_ok k0 = true /\ v0 = get k0 e0)
      by (intros; apply A; now right).
    destruct (get k e0) as [val|] eqn:G.
    + unfold env_set. rewrite K, (VO k val G). cbn [andb out_bind].
      apply IH; auto; [now apply sorted_insert|]. intros k' I'.
      destruct (ueq_dec k' k) as [->|Nk']; [now rewrite get_insert_same|].
      rewrite get_insert_other by auto. apply B. intros [J|J]; auto.
    + unfold env_remove. rewrite K. cbn [out_bind].
      apply IH; auto; [now apply sorted_remove|]. intros k' I'.
      destruct (ueq_dec k' k) as [->|Nk'].
      * rewrite get_remove_eq; auto. now apply cmp_ustr_eq.
      * rewrite get_remove_ne by now apply cmp_ustr_ne. apply B. intros [J|J]; auto.
Qed.

Lemma restored e0 dir cwd ops j t order : sorted e0 ->
  (forall k v, get k e0 = Some v -> env_value_ok v = true) ->
  Forall sets_valid_names ops ->
  jail_run dir ops (jail_start e0 dir cwd) = (j, t) -> Permutation order (j_saved j) ->
  restore_env order (j_env j) = Ret e0.
Proof.
  intros S VO V H P.
  destruct (recoverable_run e0 dir ops V _ _ _ (recoverable_start e0 dir cwd S) H) as [S1 [S2 [A B]]].
  assert (No : NoDup (map fst order)).
  { eapply Permutation_NoDup; [apply Permutation_map, Permutation_sym, P|]. now apply sorted_nodup. }
  assert (In_saved : forall k v, In (k, v) order -> get k (j_saved j) = Some v).
  { intros k v J. apply In_get; auto. eapply Permutation_in; eauto. }
  destruct (restore_spec e0 VO order No) with (e := j_env j) as [e' [E [Se G]]]; auto.
  - intros k NI. apply B. destruct (get k (j_saved j)) as [v|] eqn:Gk; auto. exfalso. apply NI.
    apply get_In in Gk. destruct Gk as [k' [C J]]. apply cmp_ustr_eq in C. subst k'.
    change k with (fst (k, v)). apply in_map. eapply Permutation_in; [apply Permutation_sym, P|exact J].
  - rewrite E. f_equal. eapply sorted_ext; auto. typeclasses eauto.
Qed.

Lemma contains_In c s : contains_c c s = false <-> ~ In c s.
Proof.
  unfold contains_c. split.
  - intros H I. assert (existsb (N.eqb c) s = true); [|congruence].
    apply existsb_exists. exists c. split; auto. apply N.eqb_refl.
  - intros H. destruct (existsb (N.eqb c) s) eqn:E; auto. apply existsb_exists in E.
    destruct E as [x [I Q]]. apply N.eqb_eq in Q. now subst.
Qed.

Lemma var_name_ok k : env_name_ok k = true <-> var_name k.
Proof.
  unfold env_name_ok, var_name. rewrite !andb_true_iff, !negb_true_iff, !contains_In.
  destruct k; cbn [is_nil]; split; intros H; destruct H as [A B]; try tauto.
  - destruct A; discriminate.
  - split; [discriminate|tauto].
Qed.

Lemma proper_sets op : proper op -> sets_valid_names op.
Proof. destruct op; cbn; auto. now rewrite var_name_ok. Qed.
