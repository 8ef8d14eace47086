(** Properties C69 and C70: a jail leaves no trace, and Figment sees what was put in it. *)
From Coq Require Import Ascii String ZArith NArith Bool Lia Permutation.
From Coq Require Import List.
From Verif Require Import Res BMap Str Profile Tag Num Value Metadata Err Coalesce Figment De Path Data Jail World.
From Verif Require Import BMapProofs StrProofs SpecValue SpecFigment SpecPath SpecData SpecJail SpecWorld
  PathProofs DataProofs JailProofs WorldProofs PropsFile.
Import ListNotations.

(** A disk with [/Base.toml], [/home/conf.toml] and the directories [/home] and [/tmp]. *)
Definition listed (es : list (place * node)) : disk :=
  fun l => option_map snd (find (fun e => same_place (fst e) l) es).
Definition ex_entries : list (place * node) :=
  [([], NDir); ([lit "tmp"], NDir); ([lit "home"], NDir);
   ([lit "home"; lit "conf.toml"], NFile (Some (lit "home")));
   ([lit "Base.toml"], NFile (Some (lit "base")))].
Definition ex_disk : disk := listed ex_entries.
Definition ex_D : place := [lit "tmp"; lit "jail"].
Definition ex_process : process := mkProcess ex_disk ex_env [lit "home"].
Definition ex_order (m : bmap ustr (option ustr)) : list (ustr * option ustr) := rev m.
Definition ex_world_ops : list world_op :=
  [WCreate (lit "conf.toml") (Some (lit "jail")); WMkdir (lit "a/b"); WChdir (lit "a/b");
   WCreate (lit "../other") None; WSetEnv (lit "NEW") (lit "x"); WSetEnv (lit "HOME") (lit "/");
   WCreate (lit "/home/conf.toml") (Some (lit "hacked"))].
Definition ex_start : world :=
  mkWorld (temp_dir ex_D ex_disk) (jail_start ex_env (dir_text ex_D) [lit "home"]).

Lemma listed_in es l n : listed es l = Some n -> In (l, n) es.
Proof.
  unfold listed. destruct (find (fun e => same_place (fst e) l) es) as [[l' m]|] eqn:E; [|discriminate].
  cbn. intros H. inversion H; subst. apply find_some in E. destruct E as [I S].
  apply same_place_eq in S. cbn in S. now subst.
Qed.
Lemma ex_entry s : In s [lit "tmp"; lit "home"; lit "conf.toml"; lit "Base.toml"; lit "jail"] -> entry_name s.
Proof.
  intros I. cbn [In] in I.
  repeat (destruct I as [<-|I]; [split; [repeat split; discriminate|cbn; intuition discriminate]|]).
  contradiction.
Qed.
Lemma ex_sound : sound_disk ex_disk.
Proof.
  split; [reflexivity|]. intros l x n H. apply listed_in in H. cbn [ex_entries In] in H.
  destruct H as [H|[H|[H|[H|[H|[]]]]]]; apply (f_equal fst) in H; cbn [fst] in H;
    rename H into E1.
  - destruct l; discriminate.
  - symmetry in E1. change [lit "tmp"] with ([] ++ [lit "tmp"]) in E1. apply app_inj_tail in E1.
    destruct E1; subst. split; [reflexivity|apply ex_entry; cbn; tauto].
  - symmetry in E1. change [lit "home"] with ([] ++ [lit "home"]) in E1. apply app_inj_tail in E1.
    destruct E1; subst. split; [reflexivity|apply ex_entry; cbn; tauto].
  - symmetry in E1. change [lit "home"; lit "conf.toml"] with ([lit "home"] ++ [lit "conf.toml"]) in E1.
    apply app_inj_tail in E1. destruct E1; subst. split; [reflexivity|apply ex_entry; cbn; tauto].
  - symmetry in E1. change [lit "Base.toml"] with ([] ++ [lit "Base.toml"]) in E1.
    apply app_inj_tail in E1. destruct E1; subst. split; [reflexivity|apply ex_entry; cbn; tauto].
Qed.
Lemma ex_made : can_be_made ex_disk ex_D.
Proof.
  exists [lit "tmp"], (lit "jail"). split; [reflexivity|]. split; [apply ex_entry; cbn; tauto|].
  split; reflexivity.
Qed.
Lemma ex_in_jail : in_jail ex_D ex_start.
Proof. apply jail_begins; [apply ex_sound|apply ex_made]. Qed.

(** ** C69 *)

(** When a jail is over, the process is as it was: the same files, the same variables, the same
    working directory. *)
Theorem C69_no_trace : forall D ops order p,
  sound_disk (p_disk p) -> p_disk p (p_cwd p) = Some NDir -> can_be_made (p_disk p) D ->
  sorted (p_env p) -> var_values_ok (p_env p) ->
  Forall proper_op ops -> (forall m, Permutation (order m) m) ->
  exists p', jail_try D ops order p = Ret p' /\ p_env p' = p_env p /\ p_cwd p' = p_cwd p /\
    forall l, p_disk p' l = p_disk p l.
Proof. intros. now apply no_trace. Qed.
Print Assumptions C69_no_trace.

(** While it lasts, nothing outside its directory changes, and the working directory stays in
    it. *)
Theorem C69_confined : forall D ops w, in_jail D w ->
  let w' := world_run (dir_text D) ops w in
  same_outside (inside D) (w_disk w) (w_disk w') /\ inside D (w_cwd w') /\
  w_disk w' (w_cwd w') = Some NDir /\ sound_disk (w_disk w').
Proof.
  intros D ops w J. destruct (run_confined D ops w J) as [[_ [S [I C]]] O]. cbn zeta.
  split; [exact O|]. split; [exact I|]. split; [exact C|exact S].
Qed.
Print Assumptions C69_confined.

(** A jail starts in its own empty directory, with the environment of the process. *)
Theorem C69_start : forall d e cwd D, sound_disk d -> can_be_made d D ->
  let w := mkWorld (temp_dir D d) (jail_start e (dir_text D) cwd) in
  in_jail D w /\ w_cwd w = D /\ j_env (w_jail w) = e /\
  (forall l, inside D l -> l <> D -> w_disk w l = None) /\
  (forall l, ~ inside D l -> w_disk w l = d l).
Proof.
  intros d e cwd D S M. cbn zeta. split; [now apply jail_begins|].
  split; [apply (locate_dir_text cwd D), entry_names, (made_names d D S M)|].
  split; [reflexivity|]. cbn [w_disk]. unfold temp_dir. split.
  - intros l I N. rewrite put_other by congruence. eapply nothing_inside; eauto.
  - intros l N. apply put_other. intros ->. apply N. apply inside_refl.
Qed.
Print Assumptions C69_start.

Example C69_ex_hyp : sound_disk ex_disk /\ can_be_made ex_disk ex_D /\ sorted ex_env /\
  var_values_ok ex_env /\ Forall proper_op ex_world_ops /\ forall m, Permutation (ex_order m) m.
Proof.
  split; [apply ex_sound|]. split; [apply ex_made|]. destruct C44_ex_hyp as [A [B _]].
  split; [exact A|]. split; [exact B|]. split.
  - repeat constructor; cbn; intuition discriminate.
  - intros m. apply Permutation_sym, Permutation_rev.
Qed.
(** Before the end: files in the jail, one of them where [..] would not have led. *)
Example C69_ex : let w := world_run (dir_text ex_D) ex_world_ops ex_start in
  w_cwd w = ex_D ++ [lit "a"; lit "b"] /\
  w_disk w (ex_D ++ [lit "conf.toml"]) = Some (NFile (Some (lit "jail"))) /\
  w_disk w (ex_D ++ [lit "a"; lit "b"; lit "other"]) = Some (NFile None) /\
  w_disk w (ex_D ++ [lit "a"]) = Some NDir /\
  w_disk w [lit "home"; lit "conf.toml"] = Some (NFile (Some (lit "home"))) /\
  get (lit "NEW") (j_env (w_jail w)) = Some (lit "x").
Proof. repeat split. Qed.

(** ** C70: the operations *)

(** [create_file] writes exactly the file named, and fails exactly when its directory is missing
    or it is a directory. *)
Theorem C70_create : forall D p text w w' r ok, in_jail D w ->
  world_step (dir_text D) (WCreate p text) w = (w', r, ok) ->
  ok = true /\ w_jail w' = w_jail w /\
  match r with
  | Some q => exists l, lands D (w_cwd w) p l /\ Forall entry_name l /\ locate (w_cwd w) q = l /\
      w_disk w (removelast l) = Some NDir /\ w_disk w l <> Some NDir /\
      w_disk w' l = Some (NFile text) /\ (forall l', l' <> l -> w_disk w' l' = w_disk w l') /\
      in_jail D w'
  | None => w' = w /\ forall l, lands D (w_cwd w) p l -> Forall entry_name l ->
      w_disk w (removelast l) = Some NDir -> w_disk w l = Some NDir
  end.
Proof. intros. now apply step_create. Qed.
Print Assumptions C70_create.

(** [create_dir] makes the directory and those above it, and fails exactly when a file is in the
    way. *)
Theorem C70_mkdir : forall D p w w' r ok, in_jail D w ->
  world_step (dir_text D) (WMkdir p) w = (w', r, ok) ->
  ok = true /\ w_jail w' = w_jail w /\
  match r with
  | Some q => exists l, lands D (w_cwd w) p l /\ Forall entry_name l /\ locate (w_cwd w) q = l /\
      (forall l', inside l' l -> w_disk w' l' = Some NDir) /\
      (forall l', ~ inside l' l -> w_disk w' l' = w_disk w l') /\
      (forall l' t, inside l' l -> w_disk w l' <> Some (NFile t)) /\
      in_jail D w'
  | None => w' = w /\ forall l, lands D (w_cwd w) p l -> Forall entry_name l ->
      exists l' t, inside l' l /\ w_disk w l' = Some (NFile t)
  end.
Proof. intros. now apply step_mkdir. Qed.
Print Assumptions C70_mkdir.

(** [change_dir] enters the directory named, and fails exactly when it is not one or the path,
    once tidied, is empty. *)
Theorem C70_chdir : forall D p w w' r ok, in_jail D w ->
  world_step (dir_text D) (WChdir p) w = (w', r, ok) ->
  ok = true /\ w_disk w' = w_disk w /\ j_env (w_jail w') = j_env (w_jail w) /\
  j_saved (w_jail w') = j_saved (w_jail w) /\
  match r with
  | Some q => exists l, lands D (w_cwd w) p l /\ ~ (relative_path p /\ locate [] p = []) /\
      locate (w_cwd w) q = l /\ w_disk w l = Some NDir /\ w_cwd w' = l /\ in_jail D w'
  | None => w' = w /\ forall l, lands D (w_cwd w) p l -> w_disk w l = Some NDir ->
      relative_path p /\ locate [] p = []
  end.
Proof. intros. now apply step_chdir. Qed.
Print Assumptions C70_chdir.

(** So [change_dir("..")] never works, nor does [change_dir(".")], though both directories are
    there. *)
Theorem C70_chdir_up_refuted : exists D w, in_jail D w /\ w_cwd w <> D /\
  w_disk w (locate (w_cwd w) (lit "..")) = Some NDir /\ inside D (locate (w_cwd w) (lit "..")) /\
  world_step (dir_text D) (WChdir (lit "..")) w = (w, None, true) /\
  world_step (dir_text D) (WChdir (lit ".")) w = (w, None, true).
Proof.
  exists ex_D, (world_run (dir_text ex_D) [WMkdir (lit "a"); WChdir (lit "a")] ex_start).
  split; [apply run_confined, ex_in_jail|]. split; [discriminate|]. split; [reflexivity|].
  split; [now exists []|]. split; reflexivity.
Qed.
Print Assumptions C70_chdir_up_refuted.

(** [set_env] and [clear_env]: the environment afterwards. *)
Theorem C70_set_env : forall D k v w w' r ok, in_jail D w -> var_name k ->
  world_step (dir_text D) (WSetEnv k v) w = (w', r, ok) ->
  w_disk w' = w_disk w /\ w_cwd w' = w_cwd w /\
  (~ In 0%N v -> ok = true /\ get k (j_env (w_jail w')) = Some v /\
     forall k', k' <> k -> get k' (j_env (w_jail w')) = get k' (j_env (w_jail w))) /\
  (In 0%N v -> ok = false /\ j_env (w_jail w') = j_env (w_jail w)).
Proof.
  intros D k v w w' r ok J K H. assert (H' := H). apply step_vars in H'; auto.
  destruct H' as [A [B _]]. split; auto. split; auto. unfold world_step in H. cbn [jail_step] in H.
  destruct (set_env k v (w_jail w)) as [j b] eqn:E. inversion H; subst. cbn [w_jail].
  destruct (set_sets k v _ _ _ E K) as [X Y]. split; [|exact Y]. intros N. destruct (X N) as [-> ->].
  split; auto. split; [apply get_insert_same|]. intros k' Nk. now apply get_insert_other.
Qed.
Print Assumptions C70_set_env.
Theorem C70_clear_env : forall D vo w w' r ok, in_jail D w ->
  sorted (j_env (w_jail w)) -> (forall k v, get k (j_env (w_jail w)) = Some v -> var_name k) ->
  (forall e, Permutation (vo e) e) ->
  world_step (dir_text D) (WClearEnv vo) w = (w', r, ok) ->
  w_disk w' = w_disk w /\ w_cwd w' = w_cwd w /\ ok = true /\ j_env (w_jail w') = [].
Proof.
  intros D vo w w' r ok J So V P H. assert (H' := H). apply step_vars in H'; auto.
  destruct H' as [A [B _]]. split; auto. split; auto. unfold world_step in H. cbn [jail_step] in H.
  destruct (clear_empties vo (w_jail w) So P V) as [j' [E G]]. rewrite E in H. inversion H; subst. auto.
Qed.
Print Assumptions C70_clear_env.

(** ** C70: what Figment sees *)

(** The file system questions of [Data] are answered by the disk. *)
Theorem C70_seen : forall d cwd ns, sound_disk d -> Forall entry_name ns ->
  d cwd = Some NDir ->
  let fs := fs_of d cwd in
  fs_cwd fs = Some (dir_text cwd) /\
  forall p l, (ns <> [] /\ p = join [slash] ns /\ l = cwd ++ ns) \/ (p = dir_text ns /\ l = ns) ->
    (fs_is_file fs p = true <-> exists t, d l = Some (NFile t)) /\
    (fs_is_dir fs p = true <-> d l = Some NDir) /\
    (forall s, fs_read fs p = Ok s <-> d l = Some (NFile (Some s))).
Proof.
  intros d cwd ns S F C fs. split; [unfold fs, fs_of; cbn; now rewrite C|]. intros p l H.
  assert (E : node_at d cwd p = d l).
  { destruct H as [[N [-> ->]]|[-> ->]]; [now apply node_at_names|now apply node_at_absolute]. }
  unfold fs, fs_of. cbn [fs_is_file fs_is_dir fs_read]. rewrite E.
  destruct (d l) as [[[s|]|]|]; (split; [|split]).
  all: try (split; [discriminate|]; try (intros [t ?]; discriminate); discriminate).
  all: try (split; [eauto|reflexivity]).
  all: try (intros s'; split; intros X; inversion X; reflexivity).
  all: split; auto; discriminate.
Qed.
Print Assumptions C70_seen.

(** A file looked for by name is the one in the nearest directory above; what it holds is what
    the provider gives, and its place is what the metadata says. *)
Theorem C70_nearest : forall fm d cwd ns required prof text k, sound_disk d ->
  d cwd = Some NDir -> Forall entry_name ns -> ns <> [] -> k <= length cwd ->
  d (firstn k cwd ++ ns) = Some (NFile (Some text)) ->
  (forall k' t, k < k' <= length cwd -> d (firstn k' cwd ++ ns) <> Some (NFile t)) ->
  exists p, data_provider fm (fs_of d cwd) (mkData (DFile (join [slash] ns) required true) prof) = Ret p /\
    pv_metadata p = md_from (fm_name fm ++ lit " file") (SFile (dir_text (firstn k cwd ++ ns))) /\
    parsed fm prof text (pv_data p).
Proof.
  intros fm d cwd ns rq prof text k S C F N K G No.
  assert (Fn := entry_names _ F). assert (Fc := sound_names d S _ _ C).
  assert (Ff : forall j, Forall entry_name (firstn j cwd ++ ns)).
  { intros j. apply Forall_app. split; auto. rewrite <- (firstn_skipn j cwd) in Fc.
    apply Forall_app in Fc. tauto. }
  assert (Fi : finds (fs_of d cwd) (join [slash] ns) true (Some (dir_text (firstn k cwd ++ ns)))).
  { apply (finds_search _ _ cwd).
    - apply relative_path_iff. now apply join_names_rel.
    - unfold fs_of. cbn [fs_cwd]. now rewrite C.
    - now apply entry_names.
    - exists k. split; auto. split; [now rewrite in_dir_names|]. split.
      + unfold fs_of. cbn [fs_is_file]. now rewrite node_at_absolute, G.
      + intros k' R. rewrite in_dir_names by auto. unfold fs_of. cbn [fs_is_file].
        rewrite node_at_absolute by auto. specialize (No k').
        destruct (d (firstn k' cwd ++ ns)) as [[t|]|]; auto. exfalso. now apply (No t R). }
  apply finds_resolve in Fi. unfold data_provider, data_metadata, data_data. cbn [da_source da_profile].
  rewrite Fi. cbn [out_map out_bind]. eexists. split; [reflexivity|]. cbn [pv_metadata pv_data].
  split; [reflexivity|]. apply from_path_parsed. unfold fs_of. cbn [fs_read].
  now rewrite node_at_absolute, G.
Qed.
Print Assumptions C70_nearest.

(** A file created in the jail is what [Data::file] of the same name then provides, whatever else
    is done to the environment and to directories. *)
Theorem C70_file : forall fm D ns text w w' q ok required prof, in_jail D w ->
  Forall entry_name ns -> ns <> [] ->
  world_step (dir_text D) (WCreate (join [slash] ns) (Some text)) w = (w', Some q, ok) ->
  exists p, data_provider fm (fs_of (w_disk w') (w_cwd w'))
              (mkData (DFile (join [slash] ns) required true) prof) = Ret p /\
    pv_metadata p = md_from (fm_name fm ++ lit " file") (SFile (dir_text (w_cwd w ++ ns))) /\
    parsed fm prof text (pv_data p).
Proof.
  intros fm D ns text w w' q ok rq prof J F N H. apply step_create in H; auto.
  destruct H as [_ [E [l [L [_ [_ [_ [_ [G [_ J']]]]]]]]]]. assert (Fn := entry_names _ F).
  assert (Ec : w_cwd w' = w_cwd w) by (unfold w_cwd; now rewrite E).
  assert (El : l = w_cwd w ++ ns).
  { destruct L as [[_ ->]|[R _]].
    - now rewrite locate_join_names.
    - exfalso. apply R. apply relative_path_iff. now apply join_names_rel. }
  subst l. destruct J' as [_ [S' [_ C']]]. rewrite Ec in *.
  assert (Ek : firstn (length (w_cwd w)) (w_cwd w) = w_cwd w) by apply firstn_all.
  destruct (C70_nearest fm (w_disk w') (w_cwd w) ns rq prof text (length (w_cwd w))) as [p X]; auto.
  - now rewrite Ek.
  - intros k' t R. lia.
  - rewrite Ek in X. eauto.
Qed.
Print Assumptions C70_file.

(** Everything but [create_file] leaves the files and their contents alone. *)
Theorem C70_kept : forall D ops w, in_jail D w ->
  Forall (fun op => match op with WCreate _ _ => False | _ => True end) ops ->
  forall l t, w_disk (world_run (dir_text D) ops w) l = Some (NFile t) <-> w_disk w l = Some (NFile t).
Proof. intros. now apply run_keeps. Qed.
Print Assumptions C70_kept.

(** Not every path leads the jail and Figment to the same file: a path with [..] is tidied by the
    jail only. *)
Theorem C70_dotdot_refuted : exists D w p text w' q, in_jail D w /\
  world_step (dir_text D) (WCreate p (Some text)) w = (w', Some q, true) /\
  data_data ex_format (fs_of (w_disk w') (w_cwd w')) (data_file p) = Ret (Ok []).
Proof.
  exists ex_D, ex_start, (lit "../x.toml"), (lit "a"). eexists. eexists.
  split; [apply ex_in_jail|]. split; reflexivity.
Qed.
Print Assumptions C70_dotdot_refuted.

(** The jail does not keep Figment in: the search goes on above its directory. *)
Theorem C70_escape_refuted : exists D w p, in_jail D w /\
  (forall l, inside D l -> l <> D -> w_disk w l = None) /\
  data_data ex_format (fs_of (w_disk w) (w_cwd w)) (data_file p) =
    Ret (Ok [(p_default, [(lit "base", VBool tag_default true)])]) /\
  exists md, data_metadata ex_format (fs_of (w_disk w) (w_cwd w)) (data_file p) = Ret md /\
    md_source md = Some (SFile (lit "/Base.toml")).
Proof.
  exists ex_D, ex_start, (lit "Base.toml"). split; [apply ex_in_jail|]. split.
  - intros l I N. unfold ex_start. cbn [w_disk]. unfold temp_dir. rewrite put_other by congruence.
    eapply nothing_inside; [apply ex_sound|apply ex_made|exact I].
  - split; [reflexivity|]. eexists. split; reflexivity.
Qed.
Print Assumptions C70_escape_refuted.

(** The configuration of the jail is found from a directory below, not that of the home. *)
Example C70_ex : let w := world_run (dir_text ex_D) ex_world_ops ex_start in
  data_data ex_format (fs_of (w_disk w) (w_cwd w)) (data_file (lit "conf.toml")) =
    Ret (Ok [(p_default, [(lit "jail", VBool tag_default true)])]) /\
  fs_read (fs_of (w_disk w) (w_cwd w)) (lit "other") = Err (lit "stream did not contain valid UTF-8").
Proof. split; reflexivity. Qed.
Example C70_ex_hyp : exists w' q, world_step (dir_text ex_D)
  (WCreate (lit "conf.toml") (Some (lit "jail"))) ex_start = (w', Some q, true) /\
  w_disk w' (ex_D ++ [lit "conf.toml"]) = Some (NFile (Some (lit "jail"))).
Proof. eexists. eexists. split; reflexivity. Qed.
Example C70_ex_fails :
  world_step (dir_text ex_D) (WCreate (lit "none/x") (Some [])) ex_start = (ex_start, None, true) /\
  world_step (dir_text ex_D) (WCreate (lit "/home/x") (Some [])) ex_start = (ex_start, None, true) /\
  world_step (dir_text ex_D) (WChdir (lit "none")) ex_start = (ex_start, None, true).
Proof. repeat split. Qed.
