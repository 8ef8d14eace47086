(** Properties C36, C37, C42-C45: files, relative paths, the jail. *)
From Coq Require Import Ascii String ZArith NArith Bool Lia Permutation.
From Coq Require Import List.
From Verif Require Import Res BMap Str Profile Tag Num Value Metadata Err Coalesce Figment De Path Data Jail.
From Verif Require Import BMapProofs StrProofs SpecValue SpecFigment SpecPath SpecData SpecJail PathProofs DataProofs
  JailProofs FigmentProofs DeProofs PropsCoalesce PropsFigment.
Import ListNotations.

(** A file system with [/etc/app/conf.toml], [/conf.toml] and the directory [/etc/app]; the
    working directory is [/etc/app/sub/deep]. *)
Definition ex_fs : fsys :=
  mkFsys (fun p => ueqb p (lit "/etc/app/conf.toml") || ueqb p (lit "/conf.toml"))
         (fun p => ueqb p (lit "/etc/app"))
         (fun p => if ueqb p (lit "/etc/app/conf.toml") then Ok (lit "a") else
                   if ueqb p (lit "/conf.toml") then Ok (lit "b") else Err (lit "no such file"))
         (Some (lit "/etc/app/sub/deep")).
Definition ex_names : list ustr := [lit "etc"; lit "app"; lit "sub"; lit "deep"].
Definition ex_format : format :=
  mkFormat (lit "TOML")
    (fun s => if ueqb s (lit "bad") then Err (lit "parse") else Ok [(s, VBool tag_default true)])
    (fun s => if ueqb s (lit "bad") then Err (lit "parse")
              else Ok [(mkProfile s, [(s, VBool tag_default true)])])
    (fun s => lit "custom: " ++ s).

(** ** C37 *)

(** Looking for a file never fails to answer, and finds the file the specification names. *)
Theorem C37_resolve : forall fs path search, cwd_ok fs ->
  exists r, finds fs path search r /\ resolve fs path search = Ret r.
Proof.
  intros fs path s C. destruct (finds_total fs path s C) as [r F]. exists r. split; auto.
  now apply finds_resolve.
Qed.
Print Assumptions C37_resolve.

Theorem C37_nearest : forall fs path names, fs_cwd fs = Some (dir_text names) ->
  Forall name_ok names -> relative_path path ->
  exists r, resolve fs path true = Ret r /\ nearest (fs_is_file fs) names path r.
Proof.
  intros fs path names C F R. assert (R' := R). apply relative_path_iff in R'.
  destruct (resolve_loop_nearest fs path R' names F (S (length (dir_text names)))) as [r [A B]]; [auto|].
  exists r. split; auto. unfold resolve. rewrite R', C. exact A.
Qed.
Print Assumptions C37_nearest.

Theorem C37_only_itself : forall fs path search, ~ relative_path path \/ search = false ->
  resolve fs path search = Ret (if fs_is_file fs path then Some path else None).
Proof.
  intros fs path s [R| ->]; apply finds_resolve; [now apply finds_absolute|now apply finds_exact].
Qed.
Print Assumptions C37_only_itself.

(** A candidate [in_dir d path] leads where [path] leads from the directory [d]. *)
Theorem C37_candidates : forall names path cwd, Forall name_ok names -> relative_path path ->
  locate cwd (in_dir names path) = locate names path.
Proof.
  intros names path cwd F R. apply relative_path_iff in R. rewrite <- join_dir_text by auto.
  rewrite locate_join, locate_dir_text; auto.
Qed.
Print Assumptions C37_candidates.

(** The metadata names the file that is read, and the data is what that file contains. *)
Theorem C37_metadata : forall fm fs path required search prof q,
  resolve fs path search = Ret (Some q) -> exists p,
  data_provider fm fs (mkData (DFile path required search) prof) = Ret p /\
  md_source (pv_metadata p) = Some (SFile q) /\
  md_name (pv_metadata p) = fm_name fm ++ lit " file" /\
  match fs_read fs q with
  | Ok text => parsed fm prof text (pv_data p)
  | Err e => pv_data p = Err (err_msg (fm_custom fm e))
  end.
Proof.
  intros fm fs path rq s prof q R.
  unfold data_provider, data_metadata, data_data. cbn [da_source da_profile]. rewrite R.
  cbn [out_map out_bind]. eexists; split; [reflexivity|]. cbn [pv_metadata pv_data].
  split; [reflexivity|]. split; [reflexivity|].
  destruct (fs_read fs q) as [text|e] eqn:E.
  - now apply from_path_parsed.
  - unfold from_path. rewrite E. destruct prof; reflexivity.
Qed.
Print Assumptions C37_metadata.

Example C37_ex_cwd : cwd_ok ex_fs /\ relative_path (lit "conf.toml").
Proof.
  split.
  - right. exists ex_names. split; [|reflexivity]. repeat constructor; discriminate.
  - intros r H. discriminate.
Qed.
Example C37_ex : resolve ex_fs (lit "conf.toml") true = Ret (Some (lit "/etc/app/conf.toml")) /\
  resolve ex_fs (lit "conf.toml") false = Ret None /\
  resolve ex_fs (lit "/conf.toml") true = Ret (Some (lit "/conf.toml")) /\
  resolve ex_fs (lit "other.toml") true = Ret None.
Proof. repeat split. Qed.
Example C37_ex_data : exists p,
  data_provider ex_format ex_fs (data_file (lit "conf.toml")) = Ret p /\
  pv_data p = Ok [(p_default, [(lit "a", VBool tag_default true)])] /\
  md_source (pv_metadata p) = Some (SFile (lit "/etc/app/conf.toml")).
Proof. eexists; repeat split. Qed.
(** Different directories, same parent search: the nearest of two wins. *)
Example C37_ex_nearest : nearest (fs_is_file ex_fs) ex_names (lit "conf.toml")
  (Some (lit "/etc/app/conf.toml")).
Proof.
  exists 2. split; [cbn; lia|]. split; [reflexivity|]. split; [reflexivity|].
  intros k H. cbn in H. destruct k as [|[|[|[|[|k]]]]]; try reflexivity; exfalso; lia.
Qed.

(** ** C36 *)

(** A file that is not there and not required: no data and no error; the Figment's data and
    profile stay what they were. *)
Theorem C36_missing : forall fm fs path search prof, finds fs path search None -> exists p,
  data_provider fm fs (mkData (DFile path false search) prof) = Ret p /\ pv_data p = Ok [] /\
  forall loc f o c f' c', provide loc f p o c = (Ret f', c') ->
    (forall m, f_value f = Ok m -> wf_profiles m) ->
    f_value f' = f_value f /\ f_profile f' = f_profile f.
Proof.
  intros fm fs path s prof F. apply finds_resolve in F.
  unfold data_provider, data_metadata, data_data. cbn [da_source da_profile]. rewrite F.
  cbn [out_map out_bind]. eexists; split; [reflexivity|]. split; [reflexivity|].
  intros loc f o c f' c' P W. unfold provide in P. cbn [pv_metadata_map pv_profile pv_data] in P.
  destruct (tag_next c) as [[t| |] c1]; inversion P; subst; clear P. cbn [f_value f_profile].
  split; [|reflexivity]. cbn [retag_data map res_map_err negb]. destruct (f_value f) as [m|e]; [|reflexivity].
  cbn [retag_data map]. rewrite pcoalesce_nil; auto.
Qed.
Print Assumptions C36_missing.

(** A required file that is not there: the provider fails, and so does extraction. *)
Theorem C36_required : forall fm fs path search prof, finds fs path search None -> exists p,
  data_provider fm fs (mkData (DFile path true search) prof) = Ret p /\
  pv_data p = Err (err_msg (lit "required file `" ++ path ++ lit "` not found")) /\
  forall loc f o c f' c', provide loc f p o c = (Ret f', c') ->
    exists e, merged f' = Err e.
Proof.
  intros fm fs path s prof F. apply finds_resolve in F.
  unfold data_provider, data_metadata, data_data. cbn [da_source da_profile]. rewrite F.
  cbn [out_map out_bind]. eexists; split; [reflexivity|]. split; [reflexivity|].
  intros loc f o c f' c' P. unfold provide in P. cbn [pv_metadata_map pv_profile pv_data negb] in P.
  destruct (tag_next c) as [[t| |] c1]; inversion P; subst; clear P. unfold merged. cbn [f_value].
  destruct (f_value f); eauto.
Qed.
Print Assumptions C36_required.

(** A file that is there is used, required or not. *)
Theorem C36_found : forall fm fs path search prof q, finds fs path search (Some q) ->
  data_data fm fs (mkData (DFile path true search) prof) =
  data_data fm fs (mkData (DFile path false search) prof) /\
  data_metadata fm fs (mkData (DFile path true search) prof) =
  data_metadata fm fs (mkData (DFile path false search) prof) /\
  forall text, fs_read fs q = Ok text -> exists r,
    data_data fm fs (mkData (DFile path true search) prof) = Ret r /\ parsed fm prof text r.
Proof.
  intros fm fs path s prof q F. apply finds_resolve in F. unfold data_data, data_metadata.
  cbn [da_source da_profile]. rewrite F. cbn [out_map]. repeat split. intros text E.
  eexists; split; [reflexivity|]. now apply from_path_parsed.
Qed.
Print Assumptions C36_found.

(** A string is what is parsed, under its profile or as a map of profiles; no file has a say, and
    neither have the settings about files.  Its metadata names the format and no source. *)
Theorem C36_string : forall fm fs s prof b, exists p,
  data_provider fm fs (mkData (DText s) prof) = Ret p /\ parsed fm prof s (pv_data p) /\
  md_name (pv_metadata p) = fm_name fm ++ lit " source string" /\ md_source (pv_metadata p) = None /\
  pv_profile p = None /\
  data_required (mkData (DText s) prof) b = mkData (DText s) prof /\
  data_search (mkData (DText s) prof) b = mkData (DText s) prof /\
  data_string s = mkData (DText s) (Some p_default).
Proof.
  intros fm fs s prof b. destruct prof as [pr|]; eexists; (split; [reflexivity|]); (split; [|repeat split]);
    cbn [parsed pv_data].
  - destruct (fm_dict fm s); reflexivity.
  - destruct (fm_map fm s); reflexivity.
Qed.
Print Assumptions C36_string.

(** The builder methods set what they say. *)
Theorem C36_builders : forall path b s pr,
  data_file path = mkData (DFile path false true) (Some p_default) /\
  data_required (data_file path) b = mkData (DFile path b true) (Some p_default) /\
  data_search (data_required (data_file path) b) s = mkData (DFile path b s) (Some p_default) /\
  data_nested (data_search (data_required (data_file path) b) s) = mkData (DFile path b s) None /\
  data_with_profile (data_nested (data_search (data_required (data_file path) b) s)) pr
    = mkData (DFile path b s) (Some pr) /\
  data_file_exact path = mkData (DFile path false false) (Some p_default).
Proof. repeat split. Qed.
Print Assumptions C36_builders.

Example C36_ex_string : exists p, data_provider ex_format ex_fs (data_nested (data_string (lit "a"))) = Ret p /\
  pv_data p = Ok [(mkProfile (lit "a"), [(lit "a", VBool tag_default true)])] /\
  exists p', data_provider ex_format ex_fs (data_with_profile (data_string (lit "bad")) p_global) = Ret p' /\
  pv_data p' = Err (err_msg (lit "parse")).
Proof. eexists. split; [reflexivity|]. split; [reflexivity|]. eexists. split; reflexivity. Qed.
Example C36_ex_finds : finds ex_fs (lit "other.toml") true None.
Proof.
  apply finds_search with (names := ex_names).
  - intros r H. discriminate.
  - reflexivity.
  - repeat constructor; discriminate.
  - intros k B. cbn in B. destruct k as [|[|[|[|[|k]]]]]; reflexivity.
Qed.
Example C36_ex : exists p f' c',
  data_provider ex_format ex_fs (data_file (lit "other.toml")) = Ret p /\
  provide ex_loc ex_f1 p Merge 7 = (Ret f', c') /\ f_value f' = f_value ex_f1 /\ is_ok (f_value f') = true.
Proof. do 3 eexists. split; [reflexivity|]. split; [reflexivity|]. split; reflexivity. Qed.
Example C36_ex_required : exists p f' c' e,
  data_provider ex_format ex_fs (data_required (data_file (lit "other.toml")) true) = Ret p /\
  provide ex_loc ex_f1 p Merge 7 = (Ret f', c') /\ merged f' = Err e /\
  e_kind e = KMessage (lit "required file `other.toml` not found").
Proof. do 4 eexists. split; [reflexivity|]. split; [reflexivity|]. split; reflexivity. Qed.

(** ** C42 *)

(** Extracting a path: the original text, and the file of the provider the value came from. *)
Theorem C42_extract : forall i f t s,
  deserialize TRelative (DConf i f (VString t s)) = Ok (rel_result (file_named f t) (EVPath s)) /\
  rel_original (rel_result (file_named f t) (EVPath s)) = Some s /\
  rel_source (rel_result (file_named f t) (EVPath s)) = file_named f t.
Proof.
  intros i f t s. split; [apply rel_text|]. split; [reflexivity|].
  unfold rel_result. cbn. now destruct (file_named f t).
Qed.
Print Assumptions C42_extract.

(** The same for every value without the reserved keys that is accepted as a path. *)
Theorem C42_any_value : forall i f v d, not_relative v ->
  deserialize TRelative (DConf i f v) = Ok d <->
  exists p, deserialize TPath (DConf i f v) = Ok p /\ d = rel_result (file_named f (vtag v)) p.
Proof.
  intros i f v d H. rewrite (rel_unfold i f v H), settle_ok, res_map_ok. unfold at_key.
  split; intros (x & A & B); exists x; (split; [|exact B]).
  - exact (proj1 (map_err_ok _ _ _) A).
  - exact (proj2 (map_err_ok _ _ _) A).
Qed.
Print Assumptions C42_any_value.

(** Absolute paths, and paths that did not come from a file, are unchanged. *)
Theorem C42_unchanged : forall fs root s, ~ relative_path s \/ root = None ->
  relative fs root s = s.
Proof.
  intros fs root s [H| ->]; unfold relative.
  - rewrite not_relative_rooted; auto.
  - now destruct (has_root s).
Qed.
Print Assumptions C42_unchanged.

(** A relative path from a file leads where it leads from that file's directory. *)
Theorem C42_file : forall fs root s cwd, fs_is_dir fs root = false -> ends_in_name root ->
  relative_path s ->
  locate cwd (relative fs (Some root) s) = locate (removelast (locate cwd root)) s.
Proof. intros fs root s cwd D E R. apply relative_path_iff in R. now apply relative_parent. Qed.
Print Assumptions C42_file.

(** As text, for the absolute paths the file search produces. *)
Theorem C42_file_text : forall fs names name s, Forall name_ok names -> name_ok name ->
  fs_is_dir fs (in_dir names name) = false -> relative_path s ->
  relative fs (Some (in_dir names name)) s = in_dir names s.
Proof.
  intros fs names name s F N D R. apply relative_path_iff in R. unfold relative. rewrite R.
  cbn [option_bind]. rewrite D. unfold in_dir at 1. rewrite parent_dir_text by auto.
  now apply join_dir_text.
Qed.
Print Assumptions C42_file_text.

(** When the source is a directory, it is the base itself. *)
Theorem C42_directory : forall fs root s cwd, fs_is_dir fs root = true -> relative_path s ->
  locate cwd (relative fs (Some root) s) = locate (locate cwd root) s.
Proof.
  intros fs root s cwd D R. apply relative_path_iff in R. unfold relative. rewrite R.
  cbn [option_bind]. rewrite D. apply locate_join.
Qed.
Print Assumptions C42_directory.

Definition ex_rel_fig : figment :=
  mkFigment p_default [(Tag 2, md_from (lit "TOML file") (SFile (lit "/etc/app/conf.toml")));
                       (Tag 4, md_named (lit "env"))] (Ok []).
Example C42_ex :
  deserialize TRelative (DConf Exact ex_rel_fig (VString (Tag 2) (lit "tls/key.pem")))
    = Ok (rel_result (Some (lit "/etc/app/conf.toml")) (EVPath (lit "tls/key.pem"))) /\
  deserialize TRelative (DConf Exact ex_rel_fig (VString (Tag 4) (lit "tls/key.pem")))
    = Ok (rel_result None (EVPath (lit "tls/key.pem"))) /\
  relative ex_fs (Some (lit "/etc/app/conf.toml")) (lit "tls/key.pem") = lit "/etc/app/tls/key.pem" /\
  relative ex_fs (Some (lit "conf.toml")) (lit "tls/key.pem") = lit "tls/key.pem" /\
  relative ex_fs (Some (lit "/etc/app")) (lit "x") = lit "/etc/app/x" /\
  relative ex_fs (Some (lit "/etc/app/conf.toml")) (lit "/x") = lit "/x" /\
  relative ex_fs None (lit "x") = lit "x".
Proof. repeat split. Qed.
Example C42_ex_name : ends_in_name (lit "./conf/a.toml") /\ ends_in_name (lit "a.toml").
Proof.
  split; [exists (lit "./conf"), (lit "a.toml")|exists [], (lit "a.toml")];
    (split; [repeat split; discriminate|]); auto.
Qed.

(** A value that carries the reserved keys decides for itself. *)
Theorem C42_forged_refuted : exists f v,
  file_named f (vtag v) = Some (lit "/etc/app/conf.toml") /\
  deserialize TRelative (DConf Exact f v) = Ok (rel_result (Some (lit "/tmp/x")) (EVPath (lit "y"))).
Proof.
  exists ex_rel_fig,
    (VDict (Tag 2) [(rel_metadata_path, VString (Tag 2) (lit "/tmp/x")); (rel_path, VString (Tag 2) (lit "y"))]).
  split; reflexivity.
Qed.
Print Assumptions C42_forged_refuted.

(** ** C43 *)

(** For a base without [.] and [..]: there is an answer exactly when both paths are absolute or
    both relative, and joining it to the base leads to the path. *)
Theorem C43_diff : forall path base r, plain_path base -> diff_paths path base = Some r ->
  forall cwd, locate cwd (path_join base r) = locate cwd path.
Proof.
  intros path base r P D cwd. destruct (bool_dec (has_root path) (has_root base)) as [E|E].
  - destruct (diff_paths_total path base P E) as [r' [D' L]]. rewrite D in D'. inversion D'; subst. apply L.
  - rewrite (diff_paths_none _ _ E) in D. discriminate.
Qed.
Print Assumptions C43_diff.

Theorem C43_answers : forall path base, plain_path base ->
  (diff_paths path base = None <-> ~ (relative_path path <-> relative_path base)).
Proof.
  intros path base P. rewrite !relative_path_iff. split.
  - intros N H. assert (E : has_root path = has_root base).
    { destruct (has_root path), (has_root base); intuition congruence. }
    destruct (diff_paths_total path base P E) as [r [D _]]. congruence.
  - intros N. apply diff_paths_none. intros E. apply N. now rewrite E.
Qed.
Print Assumptions C43_answers.

(** The answer for every base, component by component. *)
Theorem C43_exact : forall path base pre a b,
  components path = pre ++ a -> components base = pre ++ b -> parted a b ->
  (relative_path path <-> relative_path base) ->
  diff_paths path base = option_map path_collect (way a b).
Proof.
  intros path base pre a b Ha Hb HP H. rewrite !relative_path_iff in H. apply (diff_paths_exact _ _ pre); auto.
  destruct (has_root path), (has_root base); intuition congruence.
Qed.
Print Assumptions C43_exact.

(** It is right whenever the part of the base that is not shared consists of names. *)
Theorem C43_shared : forall path base pre a b,
  components path = pre ++ a -> components base = pre ++ b -> parted a b ->
  Forall (fun c => exists s, c = Normal s) b -> (relative_path path <-> relative_path base) ->
  exists r, diff_paths path base = Some r /\ forall cwd, locate cwd (path_join base r) = locate cwd path.
Proof.
  intros path base pre a b Ha Hb HP F H. rewrite !relative_path_iff in H.
  apply (diff_paths_right _ _ pre a b); auto. destruct (has_root path), (has_root base); intuition congruence.
Qed.
Print Assumptions C43_shared.

Example C43_ex_exact :
  components (lit "../a/b") = [ParentDir; Normal (lit "a")] ++ [Normal (lit "b")] /\
  components (lit "../a/c/d") = [ParentDir; Normal (lit "a")] ++ [Normal (lit "c"); Normal (lit "d")] /\
  parted [Normal (lit "b")] [Normal (lit "c"); Normal (lit "d")] /\
  diff_paths (lit "../a/b") (lit "../a/c/d") = Some (lit "../../b") /\
  diff_paths (lit "a/x/y") (lit "./x") = Some (lit "a/../x/y") /\
  diff_paths (lit "a") (lit "../x") = None.
Proof.
  split; [reflexivity|]. split; [reflexivity|]. split; [|repeat split].
  intros x y a b E1 E2. injection E1 as <- <-. injection E2 as <- <-. discriminate.
Qed.

(** A file is shown by a path that leads to it from the working directory. *)
Theorem C43_display : forall p names show, Forall name_ok names ->
  locate names (source_str (Some (dir_text names)) show (SFile p)) = locate names p.
Proof.
  intros p names show F. cbn [source_str option_bind].
  destruct (diff_paths p (dir_text names)) as [r|] eqn:D; [|reflexivity].
  destruct (Nat.ltb (length (components r)) (length (components p))); [|reflexivity].
  assert (L := C43_diff p (dir_text names) r (dir_text_plain names F) D names).
  rewrite locate_join, locate_dir_text in L by auto. exact L.
Qed.
Print Assumptions C43_display.

(** With [.] or [..] in the base the answer can be wrong. *)
Theorem C43_dot_refuted : exists path base r, diff_paths path base = Some r /\
  locate [] (path_join base r) <> locate [] path.
Proof. exists (lit "a"), (lit "./x"), (lit "a/.."). split; [reflexivity|discriminate]. Qed.
Print Assumptions C43_dot_refuted.
Theorem C43_dotdot_refuted : exists path base r, diff_paths path base = Some r /\
  locate [] (path_join base r) <> locate [] path.
Proof. exists (lit "/a"), (lit "/a/.."), (lit ".."). split; [reflexivity|discriminate]. Qed.
Print Assumptions C43_dotdot_refuted.

Example C43_ex : plain_path (lit "/foo/bar") /\
  diff_paths (lit "/foo/baz/../q") (lit "/foo/bar") = Some (lit "../baz/../q") /\
  diff_paths (lit "/foo/bar/baz") (lit "/foo/bar") = Some (lit "baz") /\
  diff_paths (lit "/foo") (lit "/foo/bar") = Some (lit "..") /\
  diff_paths (lit "foo") (lit "/foo/bar") = None /\
  source_str (Some (lit "/foo/bar")) (fun _ => []) (SFile (lit "/foo/bar/c.toml")) = lit "c.toml" /\
  source_str (Some (lit "/foo/bar")) (fun _ => []) (SFile (lit "/x/c.toml")) = lit "/x/c.toml".
Proof.
  split.
  - split; intros H; repeat (destruct H as [H|H]; [discriminate|]); destruct H.
  - repeat split.
Qed.

(** ** C44 *)

(** Whatever ran, and in whatever order the saved variables are restored: the environment and
    the working directory are the original ones. *)
Theorem C44_restored : forall e0 dir cwd0 ops j touched order,
  sorted e0 -> var_values_ok e0 -> Forall proper ops ->
  jail_run dir ops (jail_start e0 dir cwd0) = (j, touched) ->
  Permutation order (j_saved j) ->
  drop_jail order cwd0 true j = Ret (e0, cwd0).
Proof.
  intros e0 dir cwd0 ops j t order S V P R O. unfold drop_jail.
  rewrite (restored e0 dir cwd0 ops j t order); auto.
  - intros k v G. unfold env_value_ok. apply negb_true_iff, contains_In. eapply V; eauto.
  - eapply Forall_impl; [|exact P]. apply proper_sets.
Qed.
Print Assumptions C44_restored.

(** Setting a variable with an impossible name panics, and so does the restoring. *)
Theorem C44_bad_name_refuted : forall e0 dir cwd0 v, exists j touched,
  jail_run dir [OpSetEnv [] v] (jail_start e0 dir cwd0) = (j, touched) /\
  drop_jail (j_saved j) cwd0 true j = Panic.
Proof. intros e0 dir cwd0 v. do 2 eexists. split; reflexivity. Qed.
Print Assumptions C44_bad_name_refuted.

(** If the original directory is gone, the working directory stays where it was. *)
Theorem C44_directory_gone_refuted : exists dir cwd0 j touched,
  jail_run dir [] (jail_start [] dir cwd0) = (j, touched) /\
  drop_jail (j_saved j) cwd0 false j = Ret ([], locate cwd0 dir) /\ locate cwd0 dir <> cwd0.
Proof.
  exists (lit "/tmp/j"), [lit "home"]. do 2 eexists. split; [reflexivity|].
  split; [reflexivity|discriminate].
Qed.
Print Assumptions C44_directory_gone_refuted.

Definition ex_env : environment := [(lit "A", lit "1"); (lit "B", lit "2")].
Definition ex_jail_ops : list jail_op :=
  [OpSetEnv (lit "A") (lit "x"); OpSetEnv (lit "C") (lit "y"); OpClearEnv (fun e => e);
   OpSetEnv (lit "B") (lit "z"); OpSetEnv (lit "A") (lit "w"); OpMkdir (lit "d") true;
   OpChdir (lit "d") true].
Example C44_ex :
  let (j, touched) :=
    jail_run (lit "/tmp/j") ex_jail_ops (jail_start ex_env (lit "/tmp/j") [lit "home"]) in
  j_env j = [(lit "A", lit "w"); (lit "B", lit "z")] /\ j_cwd j = [lit "tmp"; lit "j"; lit "d"] /\
  touched = [[lit "tmp"; lit "j"; lit "d"]] /\
  drop_jail (rev (j_saved j)) [lit "home"] true j = Ret (ex_env, [lit "home"]).
Proof. vm_compute. repeat split. Qed.
Example C44_ex_hyp : sorted ex_env /\ var_values_ok ex_env /\ Forall proper ex_jail_ops.
Proof.
  split; [repeat split|]. split.
  - intros k v G. apply get_In in G. destruct G as [k' [_ [I|[I|[]]]]]; inversion I; subst;
      intros [J|[]]; discriminate.
  - assert (V : forall k, env_name_ok k = true -> var_name k) by (intros k; apply var_name_ok).
    repeat apply Forall_cons; try exact I; try (apply V; reflexivity); [|constructor].
    intros e. apply Permutation_refl.
Qed.

(** ** C45 *)

(** Every accepted path leads into the jail from inside the jail. *)
Theorem C45_inside : forall D p q cwd, Forall name_ok D ->
  safe_jailed_path (dir_text D) p = Ok q -> inside D cwd -> inside D (locate cwd q).
Proof. exact jailed_inside. Qed.
Print Assumptions C45_inside.

(** Whatever operations run: every location written to is in the jail, and so is the working
    directory afterwards. *)
Theorem C45_operations : forall D ops e cwd0 j touched, Forall name_ok D ->
  jail_run (dir_text D) ops (jail_start e (dir_text D) cwd0) = (j, touched) ->
  inside D (j_cwd j) /\ Forall (inside D) touched.
Proof.
  intros D ops e cwd0 j t F R. eapply jail_run_inside; eauto. cbn [jail_start j_cwd].
  rewrite locate_dir_text by auto. exists []. now rewrite app_nil_r.
Qed.
Print Assumptions C45_operations.

(** Absolute paths: accepted exactly when they lead into the jail, and then unchanged in
    meaning. *)
Theorem C45_absolute : forall D p, Forall name_ok D -> ~ relative_path p ->
  (inside D (locate [] p) -> exists q, safe_jailed_path (dir_text D) p = Ok q /\
                               forall cwd, locate cwd q = locate cwd p) /\
  (~ inside D (locate [] p) -> exists e, safe_jailed_path (dir_text D) p = Err e).
Proof. intros D p F R. apply jailed_absolute; auto. now apply not_relative_rooted. Qed.
Print Assumptions C45_absolute.

(** Relative paths are always accepted, and keep their meaning if they do not climb above
    where they start. *)
Theorem C45_relative : forall D p, relative_path p -> exists q,
  safe_jailed_path D p = Ok q /\
  (never_climbs 0 (split_on slash p) -> forall cwd, locate cwd q = locate cwd p).
Proof.
  intros D p R. apply relative_path_iff in R. destruct (jailed_relative D p R) as [ns [F [E [L K]]]].
  eexists; split; [exact E|]. intros N cwd. rewrite K, L. unfold locate. rewrite R.
  rewrite <- (app_nil_r cwd) at 2. symmetry. now apply (never_climbs_same _ []).
Qed.
Print Assumptions C45_relative.

(** The other relative paths do not lead where the system would take them: in a subdirectory of
    the jail, [..] is the subdirectory itself. *)
Theorem C45_parent_refuted : exists D p q cwd, inside D cwd /\ inside D (locate cwd p) /\
  safe_jailed_path (dir_text D) p = Ok q /\ locate cwd q <> locate cwd p.
Proof.
  exists [lit "j"], (lit ".."), [], [lit "j"; lit "d"].
  split; [now exists [lit "d"]|]. split; [now exists []|]. split; [reflexivity|discriminate].
Qed.
Print Assumptions C45_parent_refuted.

Example C45_ex :
  safe_jailed_path (lit "/tmp/j") (lit "../../etc/passwd") = Ok (lit "etc/passwd") /\
  safe_jailed_path (lit "/tmp/j") (lit "a/../b/./c") = Ok (lit "b/c") /\
  safe_jailed_path (lit "/tmp/j") (lit "/tmp/j/../j/x") = Ok (lit "/tmp/j/x") /\
  is_ok (safe_jailed_path (lit "/tmp/j") (lit "/tmp/j/../x")) = false /\
  is_ok (safe_jailed_path (lit "/tmp/j") (lit "/tmp/jj")) = false /\
  never_climbs 0 (split_on slash (lit "a/../b/./c")) /\ Forall name_ok [lit "tmp"; lit "j"].
Proof. repeat split; try discriminate. repeat constructor; discriminate. Qed.
