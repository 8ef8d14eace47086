(** Lemmas about the jail on a file system. *)
From Coq Require Import Ascii String NArith Bool Permutation Lia.
From Coq Require Import List.
From Verif Require Import Res BMap BMapProofs Str StrProofs Err Path Data Jail World
  SpecPath SpecJail SpecData SpecWorld PathProofs JailProofs DataProofs.
Import ListNotations.

Lemma same_place_eq a : forall b, same_place a b = true <-> a = b.
Proof.
  induction a as [|x a IH]; intros [|y b]; cbn [same_place]; split; intros H; try discriminate; auto.
  - apply andb_true_iff in H. destruct H as [E H]. apply ueqb_eq in E. apply IH in H. now subst.
  - inversion H; subst. rewrite ueqb_refl. now apply IH.
Qed.
Lemma same_place_refl a : same_place a a = true.
Proof. now apply same_place_eq. Qed.
Lemma within_inside D : forall l, within D l = true <-> inside D l.
Proof.
  induction D as [|x a IH]; intros l; cbn [within].
  - split; auto. intros _. now exists l.
  - destruct l as [|y b]; split; intros H; try discriminate.
    + destruct H as [r H]. discriminate.
    + apply andb_true_iff in H. destruct H as [E H]. apply ueqb_eq in E. subst. apply IH in H.
      destruct H as [r ->]. now exists r.
    + destruct H as [r H]. inversion H; subst. rewrite ueqb_refl. apply IH. now exists r.
Qed.
Lemma put_same l n d : put l n d l = Some n.
Proof. unfold put. now rewrite same_place_refl. Qed.
Lemma put_other l n d l' : l <> l' -> put l n d l' = d l'.
Proof.
  intros H. unfold put. destruct (same_place l l') eqn:E; auto. now apply same_place_eq in E.
Qed.

(** ** Sound disks *)
Lemma sound_up d : sound_disk d -> forall r l n, d (l ++ r) = Some n -> r <> [] -> d l = Some NDir.
Proof.
  intros [_ S]. induction r as [|x r IH] using rev_ind; intros l n H N; [congruence|].
  rewrite app_assoc in H. apply S in H. destruct H as [H _].
  destruct r as [|y r]; [now rewrite app_nil_r in H|]. eapply IH; [exact H|discriminate].
Qed.
Lemma sound_names d : sound_disk d -> forall l n, d l = Some n -> Forall entry_name l.
Proof.
  intros S. induction l as [|x l IH] using rev_ind; intros n H; [constructor|].
  apply (proj2 S) in H. destruct H as [H E]. apply Forall_app. split; [eauto|].
  constructor; auto.
Qed.
Lemma entry_names l : Forall entry_name l -> Forall name_ok l.
Proof. intros F. eapply Forall_impl; [|exact F]. now intros x [H _]. Qed.

Lemma contains_app c (a b : ustr) : contains_c c (a ++ b) = contains_c c a || contains_c c b.
Proof. unfold contains_c. apply existsb_app. Qed.
Lemma nul_join ns : contains_c 0%N (join [slash] ns) = false <-> Forall (fun s => ~ In 0%N s) ns.
Proof.
  induction ns as [|x ns IH]; [now split|]. destruct ns as [|y ns].
  - cbn [join]. rewrite contains_In. split; [now repeat constructor|]. intros F. now inversion F.
  - change (join [slash] (x :: y :: ns)) with (x ++ [slash] ++ join [slash] (y :: ns)).
    rewrite !contains_app, !orb_false_iff, IH, contains_In. split.
    + intros [A [_ B]]. now constructor.
    + intros F. inversion F; subst. split; auto.
Qed.

(** ** Walking along names *)
Lemma walk_names d ns : Forall name_ok ns -> forall at_ l, walk d at_ ns = Some l -> l = at_ ++ ns.
Proof.
  induction ns as [|x ns IH]; intros F at_ l H; cbn [walk] in H.
  - inversion H. now rewrite app_nil_r.
  - inversion F; subst. destruct (d at_) as [[?|]|]; try discriminate.
    rewrite name_step in H by auto. apply IH in H; auto. subst. now rewrite <- app_assoc.
Qed.
Lemma walk_dirs d ns : Forall name_ok ns -> forall at_, ns <> [] ->
  (exists l, walk d at_ ns = Some l) -> d (at_ ++ removelast ns) = Some NDir.
Proof.
  induction ns as [|x ns IH]; intros F at_ N [l H]; [congruence|]. cbn [walk] in H.
  inversion F; subst. destruct (d at_) as [[?|]|] eqn:E; try discriminate.
  rewrite name_step in H by auto. destruct ns as [|y ns]; [cbn; now rewrite app_nil_r|].
  change (removelast (x :: y :: ns)) with (x :: removelast (y :: ns)).
  replace (at_ ++ x :: removelast (y :: ns)) with ((at_ ++ [x]) ++ removelast (y :: ns))
    by (now rewrite <- app_assoc).
  apply IH; auto; [discriminate|]. eauto.
Qed.
Lemma walk_there d ns : sound_disk d -> Forall name_ok ns -> forall at_,
  d (at_ ++ removelast ns) = Some NDir -> walk d at_ ns = Some (at_ ++ ns).
Proof.
  intros S. induction ns as [|x ns IH]; intros F at_ H; cbn [walk].
  - now rewrite app_nil_r.
  - inversion F; subst. assert (E : d at_ = Some NDir).
    { destruct ns as [|y ns]; [cbn in H; now rewrite app_nil_r in H|].
      eapply sound_up; eauto. discriminate. }
    rewrite E, name_step by auto. destruct ns as [|y ns]; [reflexivity|].
    change (removelast (x :: y :: ns)) with (x :: removelast (y :: ns)) in H.
    replace (at_ ++ x :: removelast (y :: ns)) with ((at_ ++ [x]) ++ removelast (y :: ns)) in H
      by (now rewrite <- app_assoc).
    rewrite IH; auto. now rewrite <- app_assoc.
Qed.
Lemma walk_iff d ns at_ l : sound_disk d -> Forall name_ok ns -> ns <> [] ->
  walk d at_ ns = Some l <-> l = at_ ++ ns /\ d (removelast l) = Some NDir.
Proof.
  intros S F N. split.
  - intros H. assert (E := walk_names _ _ F _ _ H). split; auto. subst l.
    rewrite removelast_app by auto. apply walk_dirs; eauto.
  - intros [-> H]. rewrite removelast_app in H by auto. now apply walk_there.
Qed.

(** ** Paths made of names *)
Lemma split_join_names ns : Forall name_ok ns -> ns <> [] -> split_on slash (join [slash] ns) = ns.
Proof. intros F N. apply split_join; auto. now apply names_pieces. Qed.
Lemma path_to_names d cwd ns l : sound_disk d -> Forall name_ok ns -> ns <> [] ->
  path_to d cwd (join [slash] ns) = Some l <->
  Forall (fun s => ~ In 0%N s) ns /\ l = cwd ++ ns /\ d (removelast l) = Some NDir.
Proof.
  intros S F N. unfold path_to. rewrite join_names_rel, split_join_names by auto.
  assert (J : is_nil (join [slash] ns) = false).
  { destruct ns as [|[|c x] ns]; [congruence| |destruct ns; reflexivity].
    inversion F as [|? ? H]; subst. destruct H; congruence. }
  rewrite J. cbn [orb]. destruct (contains_c 0%N (join [slash] ns)) eqn:C.
  - split; [discriminate|]. intros [H _]. apply nul_join in H. congruence.
  - apply nul_join in C. rewrite walk_iff by auto. tauto.
Qed.
Lemma path_to_empty d cwd : path_to d cwd [] = None.
Proof. reflexivity. Qed.
Lemma path_to_absolute d cwd ns l : sound_disk d -> Forall name_ok ns ->
  path_to d cwd (dir_text ns) = Some l <->
  Forall (fun s => ~ In 0%N s) ns /\ l = ns /\ d (removelast l) = Some NDir.
Proof.
  intros S F. unfold path_to. change (has_root (dir_text ns)) with true. cbn iota.
  rewrite split_dir_text by auto. change (is_nil (dir_text ns)) with false. cbn [orb].
  change (contains_c 0%N (dir_text ns)) with (contains_c 0%N (join [slash] ns)).
  destruct (contains_c 0%N (join [slash] ns)) eqn:C.
  - split; [discriminate|]. intros [H _]. apply nul_join in H. congruence.
  - apply nul_join in C. cbn [walk]. rewrite (proj1 S), step_nil. destruct ns as [|x ns].
    + cbn [walk]. rewrite (proj1 S), step_nil. split.
      * intros H. inversion H; subst. repeat split; auto. apply S.
      * intros [_ [-> _]]. reflexivity.
    + rewrite walk_iff by (auto; discriminate). cbn [app]. tauto.
Qed.

(** ** Jailed paths on a sound disk *)
Definition jpath (dir p : ustr) : option ustr :=
  match safe_jailed_path dir p with Ok q => Some q | Err _ => None end.

Lemma rel_dec p : {relative_path p} + {~ relative_path p}.
Proof.
  destruct (has_root p) eqn:E; [right|left].
  - intros H. apply relative_path_iff in H. congruence.
  - now apply relative_path_iff.
Qed.

(** What [safe_jailed_path] answers. *)
Lemma jpath_rel dir p : relative_path p -> jpath dir p = Some (join [slash] (locate [] p)) /\
  Forall name_ok (locate [] p).
Proof.
  intros R. apply relative_path_iff in R. destruct (jailed_relative dir p R) as [ns [F [E [-> _]]]].
  unfold jpath. now rewrite E.
Qed.
Lemma jpath_abs D p q : Forall name_ok D -> ~ relative_path p ->
  jpath (dir_text D) p = Some q <-> q = dir_text (locate [] p) /\ inside D (locate [] p).
Proof.
  intros F R. apply not_relative_rooted in R. unfold jpath, safe_jailed_path.
  rewrite dedot_root, R. destruct (dedot_spec p) as [ns [Fn [E L]]]. rewrite R in E. rewrite E, <- L.
  destruct (path_starts_with (dir_text ns) (dir_text D)) eqn:S; cbn [andb].
  - apply starts_with_dirs in S; auto. split; [intros H; now inversion H|]. intros [-> _]. reflexivity.
  - split; [discriminate|]. intros [_ H]. apply starts_with_dirs in H; auto. congruence.
Qed.
Lemma abs_names p : Forall name_ok (locate [] p).
Proof. destruct (dedot_spec p) as [ns [F [_ ->]]]. exact F. Qed.

(** Relative and leading to where it starts. *)
Definition here (p : ustr) : Prop := relative_path p /\ locate [] p = [].

Lemma nul_entries l : Forall name_ok l -> Forall (fun s => ~ In 0%N s) l <-> Forall entry_name l.
Proof.
  intros F. split; intros H.
  - apply Forall_forall. intros x I. split; [now apply (proj1 (Forall_forall _ _) F)|].
    now apply (proj1 (Forall_forall _ _) H).
  - eapply Forall_impl; [|exact H]. now intros x [_ ?].
Qed.

Lemma path_to_jailed D d cwd p l : Forall name_ok D -> sound_disk d -> Forall entry_name cwd ->
  option_bind (jpath (dir_text D) p) (path_to d cwd) = Some l <->
  ~ here p /\ lands D cwd p l /\ Forall entry_name l /\ d (removelast l) = Some NDir.
Proof.
  intros F S C. unfold here, lands. destruct (rel_dec p) as [R|R].
  - destruct (jpath_rel (dir_text D) p R) as [E N]. rewrite E. cbn [option_bind].
    destruct (locate [] p) as [|x ns] eqn:L.
    + split; [discriminate|]. intros [H _]. exfalso. now apply H.
    + rewrite path_to_names by (auto; discriminate). rewrite nul_entries by auto. split.
      * intros [A [-> B]]. split; [intros [_ ?]; discriminate|]. split; [left; auto|].
        split; auto. now apply Forall_app.
      * intros [_ [[[_ ->]|[H _]] [A B]]]; [|contradiction]. apply Forall_app in A. now split.
  - split.
    + destruct (jpath (dir_text D) p) as [q|] eqn:E; [|discriminate]. cbn [option_bind].
      apply jpath_abs in E; auto. destruct E as [-> I]. rewrite path_to_absolute by (auto; apply abs_names).
      rewrite nul_entries by apply abs_names. intros [A [-> B]]. split; [now intros [? _]|].
      split; [right; auto|]. now split.
    + intros [_ [[[H _]|[_ [-> I]]] [A B]]]; [contradiction|].
      rewrite (proj2 (jpath_abs D p _ F R) (conj eq_refl I)). cbn [option_bind].
      rewrite path_to_absolute by (auto; apply abs_names). rewrite nul_entries by apply abs_names. now split.
Qed.

(** ** Changing a disk *)
Lemma snoc_cases {A} (l : list A) : l = [] \/ exists P x, l = P ++ [x].
Proof. destruct l as [|a l] using rev_ind; [now left|right; eauto]. Qed.

Lemma sound_put d P x n : sound_disk d -> d P = Some NDir -> entry_name x ->
  (n = NDir \/ d (P ++ [x]) <> Some NDir) -> sound_disk (put (P ++ [x]) n d).
Proof.
  intros S HP E H. split.
  - rewrite put_other by (intros B; now destruct P). apply S.
  - intros l y m. destruct (same_place (P ++ [x]) (l ++ [y])) eqn:Q.
    + apply same_place_eq in Q. apply app_inj_tail in Q. destruct Q; subst. intros _. split; auto.
      rewrite put_other; auto. intros B. apply (f_equal (@length _)) in B. rewrite app_length in B.
      cbn in B. lia.
    + assert (N : P ++ [x] <> l ++ [y]) by (intros B; apply same_place_eq in B; congruence).
      rewrite (put_other _ _ _ (l ++ [y])) by auto. intros G. apply (proj2 S) in G. destruct G as [G Ey].
      split; auto. destruct (same_place (P ++ [x]) l) eqn:Q'.
      * apply same_place_eq in Q'. subst l. rewrite put_same. destruct H as [->|H]; auto. contradiction.
      * rewrite put_other; auto. intros B. apply same_place_eq in B. congruence.
Qed.

Lemma inside_refl l : inside l l.
Proof. exists []. now rewrite app_nil_r. Qed.
Lemma inside_trans a b c : inside a b -> inside b c -> inside a c.
Proof. intros [r ->] [s ->]. exists (r ++ s). now rewrite app_assoc. Qed.
Lemma inside_snoc l P x : inside l (P ++ [x]) -> l = P ++ [x] \/ inside l P.
Proof.
  intros [r H]. destruct (snoc_cases r) as [->|[r' [y ->]]].
  - left. now rewrite app_nil_r in H.
  - right. rewrite app_assoc in H. apply app_inj_tail in H. destruct H. now exists r'.
Qed.
Lemma inside_dirs d l l' : sound_disk d -> d l = Some NDir -> inside l' l -> d l' = Some NDir.
Proof.
  intros S H [r E]. subst l. destruct r as [|x r]; [now rewrite app_nil_r in H|].
  eapply sound_up; eauto. discriminate.
Qed.

Lemma mkdirs_spec ns : Forall entry_name ns -> forall d at_, sound_disk d -> d at_ = Some NDir ->
  match mkdirs d at_ ns with
  | Some d' => (forall l, inside l (at_ ++ ns) -> d' l = Some NDir) /\
               (forall l, ~ inside l (at_ ++ ns) -> d' l = d l) /\
               (forall l t, inside l (at_ ++ ns) -> d l <> Some (NFile t)) /\ sound_disk d'
  | None => exists l t, inside l (at_ ++ ns) /\ d l = Some (NFile t)
  end.
Proof.
  induction ns as [|x ns IH]; intros F d at_ S H; cbn [mkdirs].
  - rewrite app_nil_r. split; [|split; [|split]]; auto.
    + intros l I. eapply inside_dirs; eauto.
    + intros l t I G. rewrite (inside_dirs d at_ l) in G by auto. discriminate.
  - inversion F as [|? ? Ex F']; subst. rewrite name_step by apply Ex.
    replace (at_ ++ x :: ns) with ((at_ ++ [x]) ++ ns) by now rewrite <- app_assoc.
    destruct (d (at_ ++ [x])) as [[t|]|] eqn:G.
    + exists (at_ ++ [x]), t. split; auto. now exists ns.
    + now apply IH.
    + assert (S' : sound_disk (put (at_ ++ [x]) NDir d)) by (apply sound_put; auto).
      specialize (IH F' (put (at_ ++ [x]) NDir d) (at_ ++ [x]) S' (put_same _ _ _)).
      destruct (mkdirs (put (at_ ++ [x]) NDir d) (at_ ++ [x]) ns) as [d'|].
      * destruct IH as [A [B [C Sd]]]. split; auto. split; [|split; auto].
        -- intros l I. rewrite B by auto. apply put_other. intros E. subst l. apply I. now exists ns.
        -- intros l t I G'. destruct (same_place (at_ ++ [x]) l) eqn:Q.
           ++ apply same_place_eq in Q. subst l. congruence.
           ++ apply (C l t I). rewrite put_other; auto. intros E. apply same_place_eq in E. congruence.
      * destruct IH as [l [t [I G']]]. exists l, t. split; auto.
        destruct (same_place (at_ ++ [x]) l) eqn:Q.
        -- apply same_place_eq in Q. subst l. rewrite put_same in G'. discriminate.
        -- rewrite put_other in G'; auto. intros E. apply same_place_eq in E. congruence.
Qed.

(** [create_dir_all] of a jailed path. *)
Lemma create_dir_names d cwd ns : Forall name_ok ns -> d cwd = Some NDir ->
  create_dir_all d cwd (join [slash] ns) =
  if contains_c 0%N (join [slash] ns) then None else mkdirs d cwd ns.
Proof.
  intros F H. unfold create_dir_all. rewrite join_names_rel by auto.
  destruct (contains_c 0%N (join [slash] ns)); auto. destruct ns as [|x ns].
  - cbn [join split_on mkdirs]. rewrite step_nil, H. reflexivity.
  - now rewrite split_join_names by (auto; discriminate).
Qed.
Lemma create_dir_absolute d cwd ns : Forall name_ok ns -> d [] = Some NDir ->
  create_dir_all d cwd (dir_text ns) =
  if contains_c 0%N (join [slash] ns) then None else mkdirs d [] ns.
Proof.
  intros F H. unfold create_dir_all. change (has_root (dir_text ns)) with true.
  change (contains_c 0%N (dir_text ns)) with (contains_c 0%N (join [slash] ns)).
  rewrite split_dir_text by auto. cbn [mkdirs]. rewrite step_nil, H. destruct ns as [|x ns]; auto.
  cbn [mkdirs]. rewrite step_nil, H. reflexivity.
Qed.

Lemma create_dir_jailed D d cwd p : Forall name_ok D -> sound_disk d -> d cwd = Some NDir ->
  match option_bind (jpath (dir_text D) p) (create_dir_all d cwd) with
  | Some d' => exists l, lands D cwd p l /\ Forall entry_name l /\
      (forall l', inside l' l -> d' l' = Some NDir) /\
      (forall l', ~ inside l' l -> d' l' = d l') /\
      (forall l' t, inside l' l -> d l' <> Some (NFile t)) /\ sound_disk d'
  | None => forall l, lands D cwd p l -> Forall entry_name l ->
      exists l' t, inside l' l /\ d l' = Some (NFile t)
  end.
Proof.
  intros F S H. assert (C := sound_names d S _ _ H). unfold lands. destruct (rel_dec p) as [R|R].
  - destruct (jpath_rel (dir_text D) p R) as [E N]. rewrite E. cbn [option_bind].
    rewrite create_dir_names by auto. destruct (contains_c 0%N (join [slash] (locate [] p))) eqn:Z.
    + intros l [[_ ->]|[? _]] A; [|contradiction]. exfalso. apply Forall_app in A. destruct A as [_ A].
      apply nul_entries in A; auto. apply nul_join in A. congruence.
    + apply nul_join in Z. apply nul_entries in Z; auto.
      assert (M := mkdirs_spec _ Z d cwd S H). destruct (mkdirs d cwd (locate [] p)) as [d'|].
      * exists (cwd ++ locate [] p). split; [left; auto|]. split; [now apply Forall_app|]. tauto.
      * intros l [[_ ->]|[? _]] A; [|contradiction]. exact M.
  - destruct (jpath (dir_text D) p) as [q|] eqn:E; cbn [option_bind].
    + apply jpath_abs in E; auto. destruct E as [-> I].
      assert (N := abs_names p). rewrite create_dir_absolute by (auto; apply S).
      destruct (contains_c 0%N (join [slash] (locate [] p))) eqn:Z.
      * intros l [[? _]|[_ [-> _]]] A; [contradiction|]. exfalso.
        apply nul_entries in A; auto. apply nul_join in A. congruence.
      * apply nul_join in Z. apply nul_entries in Z; auto.
        assert (M := mkdirs_spec _ Z d [] S (proj1 S)). destruct (mkdirs d [] (locate [] p)) as [d'|].
        -- exists (locate [] p). cbn [app] in M. split; [right; auto|]. split; auto.
        -- intros l [[? _]|[_ [-> _]]] A; [contradiction|]. exact M.
    + intros l [[? _]|[_ [-> I]]] _; [contradiction|]. exfalso.
      assert (Q := proj2 (jpath_abs D p _ F R) (conj eq_refl I)). congruence.
Qed.

(** ** The operations *)
Lemma lands_locate D cwd p q l : Forall name_ok D -> jpath (dir_text D) p = Some q ->
  lands D cwd p l -> locate cwd q = l.
Proof.
  intros F E [[R ->]|[R [-> I]]].
  - destruct (jpath_rel (dir_text D) p R) as [E' N]. rewrite E' in E. inversion E; subst q.
    now apply locate_join_names.
  - apply jpath_abs in E; auto. destruct E as [-> _]. apply locate_dir_text. apply abs_names.
Qed.
Lemma lands_inside D cwd p l : inside D cwd -> lands D cwd p l -> inside D l.
Proof.
  intros I [[_ ->]|[_ [_ H]]]; auto. destruct I as [r ->]. exists (r ++ locate [] p).
  now rewrite app_assoc.
Qed.
Lemma lands_unique D cwd p l l' : lands D cwd p l -> lands D cwd p l' -> l = l'.
Proof. unfold lands. intros [[? ->]|[? [-> _]]] [[? ->]|[? [-> _]]]; auto; contradiction. Qed.

Lemma cwd_entries D w : in_jail D w -> Forall entry_name (w_cwd w).
Proof. intros [_ [S [_ H]]]. eapply sound_names; eauto. Qed.

Lemma here_lands D cwd p l : here p -> lands D cwd p l -> l = cwd.
Proof. intros [R E] [[_ ->]|[? _]]; [|contradiction]. now rewrite E, app_nil_r. Qed.

Lemma jail_step_disk dir op j : match op with
    | OpCreate _ _ | OpMkdir _ _ => exists t, jail_step dir op j = (j, t, true) | _ => True end.
Proof. destruct op; cbn; auto; eauto. Qed.

Lemma step_create D p text w w' r ok : in_jail D w ->
  world_step (dir_text D) (WCreate p text) w = (w', r, ok) ->
  ok = true /\ w_jail w' = w_jail w /\
  match r with
  | Some q => exists l, lands D (w_cwd w) p l /\ Forall entry_name l /\ locate (w_cwd w) q = l /\
      w_disk w (removelast l) = Some NDir /\ w_disk w l <> Some NDir /\
      w_disk w' l = Some (NFile text) /\ (forall l', l' <> l -> w_disk w' l' = w_disk w l') /\
      in_jail D w'
  | None => w' = w /\ forall l, lands D (w_cwd w) p l -> Forall entry_name l ->
      w_disk w (removelast l) = Some NDir -> w_disk w l = Some NDir
  end.
Proof.
  intros J H. assert (J' := J). destruct J' as [F [S [I C]]]. assert (CE := cwd_entries D w J).
  unfold world_step in H. change (match safe_jailed_path (dir_text D) p with
    Ok q => Some q | Err _ => None end) with (jpath (dir_text D) p) in H.
  assert (P := fun l => path_to_jailed D (w_disk w) (w_cwd w) p l F S CE).
  destruct (jpath (dir_text D) p) as [q|] eqn:E; cbn [option_bind] in H, P.
  - unfold write_file in H. destruct (path_to (w_disk w) (w_cwd w) q) as [l|] eqn:T.
    + destruct (proj1 (P l) eq_refl) as [NH [L [Fe Up]]].
      assert (Lo : locate (w_cwd w) q = l) by (eapply lands_locate; eauto).
      destruct (w_disk w l) as [[t|]|] eqn:G.
      * cbn in H. inversion H; subst w' r ok; clear H. cbn [w_jail w_disk].
        split; [reflexivity|]. split; [reflexivity|]. exists l.
        split; [exact L|]. split; [exact Fe|]. split; [exact Lo|]. split; [exact Up|].
        split; [congruence|]. split; [apply put_same|]. split; [intros l' N; apply put_other; congruence|].
        split; [exact F|]. cbn [w_disk]. split.
        -- destruct (snoc_cases l) as [->|[Q [x ->]]]; [destruct S; congruence|].
           rewrite removelast_last in Up. apply Forall_app in Fe. destruct Fe as [_ Fe].
           apply sound_put; auto; [now inversion Fe|]. right. congruence.
        -- split; [exact I|]. unfold w_cwd in *. cbn [w_jail]. rewrite put_other; auto. intros B. congruence.
      * cbn in H. inversion H; subst w' r ok; clear H. cbn [w_jail]. split; [reflexivity|].
        split; [reflexivity|]. split; [now destruct w|]. intros l' L' _ _.
        now rewrite (lands_unique _ _ _ _ _ L' L).
      * cbn in H. inversion H; subst w' r ok; clear H. cbn [w_jail w_disk].
        split; [reflexivity|]. split; [reflexivity|]. exists l.
        split; [exact L|]. split; [exact Fe|]. split; [exact Lo|]. split; [exact Up|].
        split; [congruence|]. split; [apply put_same|]. split; [intros l' N; apply put_other; congruence|].
        split; [exact F|]. cbn [w_disk]. split.
        -- destruct (snoc_cases l) as [->|[Q [x ->]]]; [destruct S; congruence|].
           rewrite removelast_last in Up. apply Forall_app in Fe. destruct Fe as [_ Fe].
           apply sound_put; auto; [now inversion Fe|]. right. congruence.
        -- split; [exact I|]. unfold w_cwd in *. cbn [w_jail]. rewrite put_other; auto. intros B. congruence.
    + cbn in H. inversion H; subst w' r ok; clear H. cbn [w_jail]. split; [reflexivity|].
      split; [reflexivity|]. split; [now destruct w|]. intros l L Fe Up.
      destruct (locate [] p) as [|y ns] eqn:Z; [destruct (rel_dec p) as [R|R]|].
      * rewrite (here_lands D (w_cwd w) p l); auto. now split.
      * exfalso. assert (X : None = Some l); [|discriminate]. apply P. split; [|tauto]. now intros [? _].
      * exfalso. assert (X : None = Some l); [|discriminate]. apply P. split; [|tauto].
        intros [_ ?]. congruence.
  - cbn in H. inversion H; subst w' r ok; clear H. cbn [w_jail]. split; [reflexivity|].
    split; [reflexivity|]. split; [now destruct w|]. intros l L Fe Up.
    assert (NR : ~ relative_path p).
    { intros R. destruct (jpath_rel (dir_text D) p R) as [E' _]. congruence. }
    exfalso. assert (X : None = Some l); [|discriminate]. apply P. split; [|tauto]. now intros [? _].
Qed.

Lemma step_mkdir D p w w' r ok : in_jail D w ->
  world_step (dir_text D) (WMkdir p) w = (w', r, ok) ->
  ok = true /\ w_jail w' = w_jail w /\
  match r with
  | Some q => exists l, lands D (w_cwd w) p l /\ Forall entry_name l /\ locate (w_cwd w) q = l /\
      (forall l', inside l' l -> w_disk w' l' = Some NDir) /\
      (forall l', ~ inside l' l -> w_disk w' l' = w_disk w l') /\
      (forall l' t, inside l' l -> w_disk w l' <> Some (NFile t)) /\
      in_jail D w'
  | None => w' = w /\ forall l, lands D (w_cwd w) p l -> Forall entry_name l ->
      exists l' t, inside l' l /\ w_disk w l' = Some (NFile t)
  end.
Proof.
  intros J H. assert (J' := J). destruct J' as [F [S [I C]]].
  unfold world_step in H. change (match safe_jailed_path (dir_text D) p with
    Ok q => Some q | Err _ => None end) with (jpath (dir_text D) p) in H.
  assert (P := create_dir_jailed D (w_disk w) (w_cwd w) p F S C).
  destruct (option_bind (jpath (dir_text D) p) (create_dir_all (w_disk w) (w_cwd w))) as [d'|] eqn:B.
  - destruct (jpath (dir_text D) p) as [q|] eqn:E; [|discriminate].
    cbn in H. inversion H; subst w' r ok; clear H. cbn [w_jail w_disk].
    split; [reflexivity|]. split; [reflexivity|]. destruct P as [l [L [Fe [A [O [N Sd]]]]]].
    exists l. split; [exact L|]. split; [exact Fe|]. split; [eapply lands_locate; eauto|].
    split; [exact A|]. split; [exact O|]. split; [exact N|].
    split; [exact F|]. split; [exact Sd|]. split; [exact I|].
    unfold w_cwd in *. cbn [w_jail w_disk]. destruct (within (j_cwd (w_jail w)) l) eqn:W.
    + apply within_inside in W. now apply A.
    + rewrite O; auto. intros X. apply within_inside in X. congruence.
  - cbn in H. inversion H; subst w' r ok; clear H. cbn [w_jail]. split; [reflexivity|].
    split; [reflexivity|]. split; [now destruct w|]. exact P.
Qed.

Lemma step_chdir D p w w' r ok : in_jail D w ->
  world_step (dir_text D) (WChdir p) w = (w', r, ok) ->
  ok = true /\ w_disk w' = w_disk w /\ j_env (w_jail w') = j_env (w_jail w) /\
  j_saved (w_jail w') = j_saved (w_jail w) /\
  match r with
  | Some q => exists l, lands D (w_cwd w) p l /\ ~ here p /\ locate (w_cwd w) q = l /\
      w_disk w l = Some NDir /\ w_cwd w' = l /\ in_jail D w'
  | None => w' = w /\ forall l, lands D (w_cwd w) p l -> w_disk w l = Some NDir -> here p
  end.
Proof.
  intros J H. assert (J' := J). destruct J' as [F [S [I C]]]. assert (CE := cwd_entries D w J).
  unfold world_step in H. change (match safe_jailed_path (dir_text D) p with
    Ok q => Some q | Err _ => None end) with (jpath (dir_text D) p) in H.
  assert (P := fun l => path_to_jailed D (w_disk w) (w_cwd w) p l F S CE).
  assert (Dn : forall l, lands D (w_cwd w) p l -> w_disk w l = Some NDir -> ~ here p ->
    option_bind (jpath (dir_text D) p) (path_to (w_disk w) (w_cwd w)) = Some l).
  { intros l L G NH. apply P. split; auto. split; auto. split; [eapply sound_names; eauto|].
    destruct (snoc_cases l) as [->|[Q [x ->]]]; [exact G|]. rewrite removelast_last.
    apply (proj2 S) in G. apply G. }
  assert (Hd : {here p} + {~ here p}).
  { destruct (rel_dec p) as [R|R]; [|right; now intros [? _]].
    destruct (locate [] p) eqn:Z; [left; now split|right; intros [_ ?]; congruence]. }
  destruct (jpath (dir_text D) p) as [q|] eqn:E; cbn [option_bind] in *.
  - unfold can_enter, fs_of in H. cbn [fs_is_dir] in H. unfold node_at in H.
    destruct (path_to (w_disk w) (w_cwd w) q) as [l|] eqn:T; cbn [option_bind] in H.
    + destruct (proj1 (P l) eq_refl) as [NH [L [Fe Up]]].
      assert (Lo : locate (w_cwd w) q = l) by (eapply lands_locate; eauto).
      destruct (w_disk w l) as [[t|]|] eqn:G.
      * cbn in H. destruct (safe_jailed_path (dir_text D) p); cbn in H; inversion H; subst w' r ok;
          cbn [w_jail w_disk]; (split; [reflexivity|]); (split; [reflexivity|]); (split; [reflexivity|]);
          (split; [reflexivity|]); (split; [now destruct w|]); intros l' L' G';
          rewrite (lands_unique _ _ _ _ _ L' L) in G'; congruence.
      * cbn in H. unfold jpath in E. destruct (safe_jailed_path (dir_text D) p) as [q'|] eqn:Sj;
          [|discriminate]. inversion E; subst q'. cbn in H. inversion H; subst w' r ok.
        cbn [w_jail w_disk j_env j_saved]. do 4 (split; [reflexivity|]). exists l.
        split; [exact L|]. split; [exact NH|]. split; [exact Lo|]. split; [exact G|].
        split; [unfold w_cwd; cbn; exact Lo|]. split; [exact F|]. split; [exact S|].
        unfold w_cwd at 1 2. cbn [w_jail j_cwd w_disk]. unfold w_cwd in Lo. rewrite Lo.
        split; [eapply lands_inside; eauto|exact G].
      * cbn in H. destruct (safe_jailed_path (dir_text D) p); cbn in H; inversion H; subst w' r ok;
          cbn [w_jail w_disk]; (split; [reflexivity|]); (split; [reflexivity|]); (split; [reflexivity|]);
          (split; [reflexivity|]); (split; [now destruct w|]); intros l' L' G';
          rewrite (lands_unique _ _ _ _ _ L' L) in G'; congruence.
    + cbn in H. destruct (safe_jailed_path (dir_text D) p); cbn in H; inversion H; subst w' r ok;
        cbn [w_jail w_disk]; (do 4 (split; [reflexivity|])); (split; [now destruct w|]);
        intros l' L' G'; destruct Hd as [|NH]; auto; specialize (Dn l' L' G' NH); discriminate.
  - cbn in H. destruct (safe_jailed_path (dir_text D) p); cbn in H; inversion H; subst w' r ok;
        cbn [w_jail w_disk]; (do 4 (split; [reflexivity|])); (split; [now destruct w|]);
        intros l' L' G'; destruct Hd as [|NH]; auto; specialize (Dn l' L' G' NH); discriminate.
Qed.

(** The operations on variables leave the disk and the working directory alone. *)
Lemma set_env_cwd k v j j' ok : set_env k v j = (j', ok) -> j_cwd j' = j_cwd j.
Proof. unfold set_env. destruct (env_set k v (j_env j)); intros H; inversion H; reflexivity. Qed.
Lemma step_vars D op w w' r ok : in_jail D w ->
  match op with WSetEnv _ _ | WClearEnv _ => True | _ => False end ->
  world_step (dir_text D) op w = (w', r, ok) ->
  w_disk w' = w_disk w /\ w_cwd w' = w_cwd w /\ in_jail D w'.
Proof.
  intros [F [S [I C]]] V H. assert (Q : w_disk w' = w_disk w /\ w_cwd w' = w_cwd w).
  { destruct op as [| | |k v|vo]; try contradiction; unfold world_step in H; cbn [jail_step] in H.
    - destruct (set_env k v (w_jail w)) as [j b] eqn:E. inversion H; subst. split; auto.
      unfold w_cwd. cbn. eapply set_env_cwd; eauto.
    - destruct (clear_loop (vo (j_env (w_jail w))) (w_jail w)) as [j b] eqn:E. inversion H; subst.
      split; auto. unfold w_cwd. cbn. eapply clear_loop_cwd; eauto. }
  destruct Q as [Q1 Q2]. split; auto. split; auto. unfold in_jail. rewrite Q1, Q2. auto.
Qed.

Lemma outside_above D d l l' : sound_disk d -> d D = Some NDir -> inside D l -> inside l' l ->
  ~ inside D l' -> d l' = Some NDir.
Proof.
  intros S H [r ->] [s E] N. assert (P : inside l' D).
  { clear S H. revert l' s E N. induction D as [|x D IH]; intros l' s E N.
    - exfalso. apply N. now exists l'.
    - destruct l' as [|y l']; [now exists (x :: D)|]. cbn in E. inversion E; subst y.
      destruct (IH l' s) as [t ->]; auto.
      + intros [t B]. apply N. exists t. now rewrite B.
      + now exists t. }
  eapply inside_dirs; eauto.
Qed.
Lemma jail_dir D w : in_jail D w -> w_disk w D = Some NDir.
Proof. intros [_ [S [I H]]]. eapply inside_dirs; eauto. Qed.

(** Every operation stays in the jail, and changes nothing outside it. *)
Lemma step_confined D op w w' r ok : in_jail D w -> world_step (dir_text D) op w = (w', r, ok) ->
  in_jail D w' /\ same_outside (inside D) (w_disk w) (w_disk w').
Proof.
  intros J H. assert (J' := J). destruct J' as [F [S [I C]]]. destruct op as [p text|p|p|k v|vo].
  - apply step_create in H; auto. destruct H as [_ [Q H]]. destruct r as [q|].
    + destruct H as [l [L [_ [_ [_ [_ [_ [O J2]]]]]]]]. split; auto. intros l' N. apply O.
      intros ->. apply N. eapply lands_inside; eauto.
    + destruct H as [-> _]. split; auto. intros l N. reflexivity.
  - apply step_mkdir in H; auto. destruct H as [_ [Q H]]. destruct r as [q|].
    + destruct H as [l [L [_ [_ [A [O [_ J2]]]]]]]. split; auto. intros l' N.
      destruct (within l' l) eqn:W.
      * apply within_inside in W. rewrite A by auto. symmetry.
        apply (outside_above D (w_disk w) l l'); auto; [now apply jail_dir|eapply lands_inside; eauto].
      * apply O. intros X. apply within_inside in X. congruence.
    + destruct H as [-> _]. split; auto. intros l N. reflexivity.
  - apply step_chdir in H; auto. destruct H as [_ [Q [_ [_ H]]]]. rewrite Q. destruct r as [q|].
    + destruct H as [l [_ [_ [_ [_ [_ J2]]]]]]. split; auto. intros l' N. reflexivity.
    + destruct H as [-> _]. split; auto. intros l N. reflexivity.
  - apply step_vars in H; auto. destruct H as [-> [_ J2]]. split; auto. intros l N. reflexivity.
  - apply step_vars in H; auto. destruct H as [-> [_ J2]]. split; auto. intros l N. reflexivity.
Qed.
Lemma run_confined D ops : forall w, in_jail D w ->
  in_jail D (world_run (dir_text D) ops w) /\
  same_outside (inside D) (w_disk w) (w_disk (world_run (dir_text D) ops w)).
Proof.
  induction ops as [|op ops IH]; intros w J; cbn [world_run].
  - split; auto. intros l N. reflexivity.
  - destruct (world_step (dir_text D) op w) as [[w' r] ok] eqn:E.
    destruct (step_confined D op w w' r ok J E) as [J' O]. destruct ok; auto.
    destruct (IH w' J') as [J2 O2]. split; auto. intros l N. rewrite O2, O; auto.
Qed.

(** What happens to the jail is what [Jail.v] says. *)
Lemma step_jail dir op w w' r ok : world_step dir op w = (w', r, ok) ->
  exists op' t, jail_step dir op' (w_jail w) = (w_jail w', t, ok) /\ (proper_op op -> proper op').
Proof.
  unfold world_step. intros H.
  destruct op as [p text|p|p|k v|vo].
  - destruct (option_bind _ _); [exists (OpCreate p true)|exists (OpCreate p false)];
      destruct (jail_step dir _ (w_jail w)) as [[j t] b] eqn:E; inversion H; subst; exists t; auto.
  - destruct (option_bind _ _); [exists (OpMkdir p true)|exists (OpMkdir p false)];
      destruct (jail_step dir _ (w_jail w)) as [[j t] b] eqn:E; inversion H; subst; exists t; auto.
  - destruct (match safe_jailed_path dir p with Ok q => Some q | Err _ => None end) as [q|].
    + destruct (can_enter (w_disk w) (w_cwd w) q); [exists (OpChdir p true)|exists (OpChdir p false)];
      destruct (jail_step dir _ (w_jail w)) as [[j t] b] eqn:E; inversion H; subst; exists t; auto.
    + exists (OpChdir p false). destruct (jail_step dir _ (w_jail w)) as [[j t] b] eqn:E;
        inversion H; subst; exists t; auto.
  - exists (OpSetEnv k v). destruct (jail_step dir _ (w_jail w)) as [[j t] b] eqn:E;
      inversion H; subst; exists t; auto.
  - exists (OpClearEnv vo). destruct (jail_step dir _ (w_jail w)) as [[j t] b] eqn:E;
      inversion H; subst; exists t; auto.
Qed.
Lemma run_jail dir ops : forall w, Forall proper_op ops -> exists ops' t,
  jail_run dir ops' (w_jail w) = (w_jail (world_run dir ops w), t) /\ Forall proper ops'.
Proof.
  induction ops as [|op ops IH]; intros w P; cbn [world_run].
  - exists [], []. split; auto.
  - inversion P as [|? ? Po Pr]; subst. destruct (world_step dir op w) as [[w' r] ok] eqn:E.
    destruct (step_jail _ _ _ _ _ _ E) as [op' [t [H Q]]]. destruct ok.
    + destruct (IH w' Pr) as [ops' [t' [H' Q']]].
      exists (op' :: ops'), ((match t with Some l => [l] | None => [] end) ++ t').
      split; [|constructor; auto]. cbn [jail_run]. rewrite H, H'. reflexivity.
    + exists [op'], (match t with Some l => [l] | None => [] end).
      split; [|constructor; auto]. cbn [jail_run]. rewrite H. reflexivity.
Qed.

(** ** Starting and ending *)
Lemma made_names d D : sound_disk d -> can_be_made d D -> Forall entry_name D.
Proof.
  intros S [P [x [-> [E [H _]]]]]. apply Forall_app. split; [eapply sound_names; eauto|].
  constructor; auto.
Qed.
Lemma jail_begins d e cwd D : sound_disk d -> can_be_made d D ->
  in_jail D (mkWorld (temp_dir D d) (jail_start e (dir_text D) cwd)).
Proof.
  intros S M. assert (F := entry_names _ (made_names d D S M)).
  assert (L : locate cwd (dir_text D) = D) by now apply locate_dir_text.
  split; auto. cbn [w_disk]. split.
  - destruct M as [P [x [-> [E [H _]]]]]. now apply sound_put; auto.
  - unfold w_cwd. cbn [w_jail jail_start j_cwd]. rewrite L. split; [apply inside_refl|apply put_same].
Qed.
Lemma nothing_inside d D l : sound_disk d -> can_be_made d D -> inside D l -> d l = None.
Proof.
  intros S [P [x [E [_ [_ H]]]]] [r ->]. destruct r as [|y r]; [now rewrite app_nil_r|].
  destruct (d (D ++ y :: r)) as [n|] eqn:G; auto.
  apply sound_up in G; auto; [congruence|discriminate].
Qed.
Lemma enters d cwd l : sound_disk d -> d l = Some NDir -> can_enter d cwd (dir_text l) = true.
Proof.
  intros S H. unfold can_enter, fs_of. cbn [fs_is_dir]. unfold node_at.
  assert (E := sound_names d S _ _ H).
  assert (P : path_to d cwd (dir_text l) = Some l).
  { apply path_to_absolute; auto; [now apply entry_names|]. split; [now apply nul_entries; [apply entry_names|]|].
    split; auto. destruct (snoc_cases l) as [->|[Q [x ->]]]; [exact H|]. rewrite removelast_last.
    apply (proj2 S) in H. apply H. }
  rewrite P. cbn [option_bind]. now rewrite H.
Qed.

Lemma no_trace D ops order p : sound_disk (p_disk p) -> p_disk p (p_cwd p) = Some NDir ->
  can_be_made (p_disk p) D -> sorted (p_env p) -> var_values_ok (p_env p) ->
  Forall proper_op ops -> (forall m, Permutation (order m) m) ->
  exists p', jail_try D ops order p = Ret p' /\ p_env p' = p_env p /\ p_cwd p' = p_cwd p /\
    forall l, p_disk p' l = p_disk p l.
Proof.
  intros S C M So V P O. unfold jail_try. rewrite C.
  change (place_text D) with (dir_text D). change (place_text (p_cwd p)) with (dir_text (p_cwd p)).
  set (w0 := mkWorld (temp_dir D (p_disk p)) (jail_start (p_env p) (dir_text D) (p_cwd p))).
  assert (J0 : in_jail D w0) by now apply jail_begins.
  destruct (run_confined D ops w0 J0) as [J1 Out].
  destruct (run_jail (dir_text D) ops w0 P) as [ops' [t [R P']]].
  set (w := world_run (dir_text D) ops w0) in *.
  assert (NC : ~ inside D (p_cwd p)).
  { intros I. rewrite (nothing_inside (p_disk p) D) in C; auto. discriminate. }
  assert (ND : forall l, ~ inside D l -> w_disk w l = p_disk p l).
  { intros l N. rewrite Out by auto. cbn [w0 w_disk]. unfold temp_dir. apply put_other.
    intros ->. apply N. apply inside_refl. }
  unfold drop_jail. rewrite (restored (p_env p) (dir_text D) (p_cwd p) ops' (w_jail w) t); auto.
  - cbn [out_map fst snd]. eexists. split; [reflexivity|]. cbn [p_env p_cwd p_disk].
    split; [reflexivity|]. split.
    + rewrite (enters (w_disk w)); auto; [apply J1|]. now rewrite ND.
    + intros l. unfold temp_dir_gone. destruct (within D l) eqn:W.
      * apply within_inside in W. symmetry. now apply (nothing_inside _ D).
      * apply ND. intros X. apply within_inside in X. congruence.
  - intros k v G. apply V in G. unfold env_value_ok. apply negb_true_iff. now apply contains_In.
  - eapply Forall_impl; [|exact P']. intros a. apply proper_sets.
Qed.

(** ** What is seen *)
Lemma node_at_names d cwd ns : sound_disk d -> Forall entry_name ns -> ns <> [] ->
  node_at d cwd (join [slash] ns) = d (cwd ++ ns).
Proof.
  intros S F N. assert (Fn := entry_names _ F). assert (Z := proj2 (nul_entries _ Fn) F). unfold node_at.
  destruct (path_to d cwd (join [slash] ns)) as [l|] eqn:P; cbn [option_bind].
  - apply path_to_names in P; auto. now destruct P as [_ [-> _]].
  - destruct (d (cwd ++ ns)) as [n|] eqn:G; auto. exfalso.
    assert (X : path_to d cwd (join [slash] ns) = Some (cwd ++ ns)); [|congruence].
    apply path_to_names; auto. split; auto. split; auto.
    destruct (snoc_cases ns) as [->|[Q [x ->]]]; [congruence|]. rewrite app_assoc in *.
    rewrite removelast_last. apply (proj2 S) in G. apply G.
Qed.
Lemma node_at_absolute d cwd ns : sound_disk d -> Forall entry_name ns ->
  node_at d cwd (dir_text ns) = d ns.
Proof.
  intros S F. assert (Fn := entry_names _ F). assert (Z := proj2 (nul_entries _ Fn) F). unfold node_at.
  destruct (path_to d cwd (dir_text ns)) as [l|] eqn:P; cbn [option_bind].
  - apply path_to_absolute in P; auto. now destruct P as [_ [-> _]].
  - destruct (d ns) as [n|] eqn:G; auto. exfalso.
    assert (X : path_to d cwd (dir_text ns) = Some ns); [|congruence].
    apply path_to_absolute; auto. split; auto. split; auto.
    destruct (snoc_cases ns) as [->|[Q [x ->]]]; [apply S|].
    rewrite removelast_last. apply (proj2 S) in G. apply G.
Qed.

Lemma in_dir_names ns ms : ms <> [] -> in_dir ns (join [slash] ms) = dir_text (ns ++ ms).
Proof.
  intros N. unfold in_dir, dir_text. f_equal. destruct ns as [|x ns]; [reflexivity|].
  rewrite !join_app by (auto; discriminate). reflexivity.
Qed.

(** Only [WCreate] changes which files there are and what they hold. *)
Definition not_create (op : world_op) : Prop := match op with WCreate _ _ => False | _ => True end.
Lemma step_keeps D op w w' r ok : in_jail D w -> not_create op ->
  world_step (dir_text D) op w = (w', r, ok) ->
  forall l t, w_disk w' l = Some (NFile t) <-> w_disk w l = Some (NFile t).
Proof.
  intros J N H l t. destruct op as [p text|p|p|k v|vo]; try contradiction.
  - apply step_mkdir in H; auto. destruct H as [_ [_ H]]. destruct r as [q|].
    + destruct H as [l0 [_ [_ [_ [A [O [B _]]]]]]]. destruct (within l l0) eqn:W.
      * apply within_inside in W. rewrite A by auto. split; [discriminate|]. intros G. now apply B in G.
      * rewrite O; [tauto|]. intros X. apply within_inside in X. congruence.
    + destruct H as [-> _]. tauto.
  - apply step_chdir in H; auto. destruct H as [_ [-> _]]. tauto.
  - apply step_vars in H; auto. destruct H as [-> _]. tauto.
  - apply step_vars in H; auto. destruct H as [-> _]. tauto.
Qed.
Lemma run_keeps D ops : forall w, in_jail D w -> Forall not_create ops ->
  forall l t, w_disk (world_run (dir_text D) ops w) l = Some (NFile t) <-> w_disk w l = Some (NFile t).
Proof.
  induction ops as [|op ops IH]; intros w J N l t; cbn [world_run]; [tauto|].
  inversion N as [|? ? No Nr]; subst.
  destruct (world_step (dir_text D) op w) as [[w' r] ok] eqn:E.
  destruct (step_confined D op w w' r ok J E) as [J' _].
  assert (K := step_keeps D op w w' r ok J No E l t). destruct ok; auto.
  rewrite IH; auto.
Qed.

(** ** Variables *)
Lemma clear_all vars : forall j, sorted (j_env j) -> (forall k v, In (k, v) vars -> var_name k) ->
  exists j', clear_loop vars j = (j', true) /\ sorted (j_env j') /\
    forall k, get k (j_env j') = if existsb (fun kv => ueqb k (fst kv)) vars then None else get k (j_env j).
Proof.
  induction vars as [|[k v] r IH]; intros j So H; cbn [clear_loop].
  - exists j. split; auto.
  - assert (K : env_name_ok k = true) by (apply var_name_ok; apply (H k v); now left).
    unfold env_remove. rewrite K.
    set (saved := match get k (j_saved j) with Some _ => j_saved j
                  | None => insert k (Some v) (j_saved j) end).
    destruct (IH (mkJailed saved (remove k (j_env j)) (j_cwd j))) as [j' [E [So' G]]].
    { now apply sorted_remove. }
    { intros k' v' I. apply (H k' v'). now right. }
    exists j'. split; auto. split; auto. intros k'. rewrite G. cbn [existsb fst j_env].
    destruct (existsb (fun kv => ueqb k' (fst kv)) r); [now rewrite orb_true_r|]. rewrite orb_false_r.
    destruct (ueqb k' k) eqn:Q.
    + apply ueqb_eq in Q. subst k'. apply get_remove_eq; auto. apply cmp_refl.
    + apply get_remove_ne. apply cmp_ustr_ne. intros ->. now rewrite ueqb_refl in Q.
Qed.
Lemma clear_empties vo j : sorted (j_env j) -> (forall e, Permutation (vo e) e) ->
  (forall k v, get k (j_env j) = Some v -> var_name k) ->
  exists j', clear_loop (vo (j_env j)) j = (j', true) /\ j_env j' = [].
Proof.
  intros So P V. destruct (clear_all (vo (j_env j)) j So) as [j' [E [So' G]]].
  - intros k v I. apply (V k v). apply In_get; auto. eapply Permutation_in; eauto.
  - exists j'. split; auto. destruct (j_env j') as [|[k v] r] eqn:Z; auto. exfalso.
    assert (Gk : get k (j_env j') = Some v) by (rewrite Z in *; apply In_get; auto; now left).
    rewrite Z in Gk. rewrite G in Gk. destruct (existsb (fun kv => ueqb k (fst kv)) (vo (j_env j))) eqn:X; [discriminate|].
    apply get_In in Gk. destruct Gk as [k' [C I]]. apply cmp_ustr_eq in C. subst k'.
    assert (Y : existsb (fun kv => ueqb k (fst kv)) (vo (j_env j)) = true); [|congruence].
    apply existsb_exists. exists (k, v). split; [|apply ueqb_refl].
    eapply Permutation_in; [apply Permutation_sym, P|exact I].
Qed.
Lemma set_sets k v j j' ok : set_env k v j = (j', ok) -> var_name k ->
  (~ In 0%N v -> ok = true /\ j_env j' = insert k v (j_env j)) /\
  (In 0%N v -> ok = false /\ j_env j' = j_env j).
Proof.
  intros H K. apply var_name_ok in K. unfold set_env, env_set in H. rewrite K in H. cbn [andb] in H.
  unfold env_value_ok in H. destruct (contains_c 0%N v) eqn:C; cbn [negb] in H; inversion H; subst.
  - split; [intros N; exfalso|auto]. apply contains_In in N. congruence.
  - apply contains_In in C. split; [auto|contradiction].
Qed.
