(** Vocabulary for the file properties. *)
From Coq Require Import Ascii String NArith Bool.
From Coq Require Import List.
From Verif Require Import Res BMap Str Profile Tag Num Value Metadata Err Figment De Path Data SpecPath.
Import ListNotations.

(** [finds fs path search r]: what looking for [path] should give. *)
Inductive finds (fs : fsys) : ustr -> bool -> option ustr -> Prop :=
| finds_absolute path s r : ~ relative_path path ->
    r = (if fs_is_file fs path then Some path else None) -> finds fs path s r
| finds_exact path r :
    r = (if fs_is_file fs path then Some path else None) -> finds fs path false r
| finds_search path names r : relative_path path ->
    fs_cwd fs = Some (dir_text names) -> Forall name_ok names ->
    nearest (fs_is_file fs) names path r -> finds fs path true r
| finds_nowhere path : relative_path path -> fs_cwd fs = None -> finds fs path true None.

(** The working directory as the system reports it: absolute, without [.] and [..]; or not
    available. *)
Definition cwd_ok (fs : fsys) : Prop :=
  fs_cwd fs = None \/ exists names, Forall name_ok names /\ fs_cwd fs = Some (dir_text names).

(** What a source of text should contribute under a profile, or as a map of profiles. *)
Definition parsed (fm : format) (prof : option profile) (text : ustr) (r : res error (bmap profile dict))
  : Prop :=
  match prof with
  | Some p => match fm_dict fm text with
              | Ok d => r = Ok [(p, d)]
              | Err e => r = Err (err_msg e)
              end
  | None => match fm_map fm text with
            | Ok m => r = Ok m
            | Err e => r = Err (err_msg e)
            end
  end.

(** Two file systems that agree on which files there are and on the text of one of them. *)
Definition same_but_contents (fs fs' : fsys) (p : ustr) : Prop :=
  (forall q, fs_is_file fs q = fs_is_file fs' q) /\ fs_cwd fs = fs_cwd fs' /\
  fs_read fs p = fs_read fs' p.

(** The file the provider behind a tag says it read. *)
Definition file_named (f : figment) (t : tag) : option ustr :=
  match get t (f_metadata f) with
  | Some md => match md_source md with Some (SFile p) => Some p | _ => None end
  | None => None
  end.

(** A [RelativePathBuf], by its two fields. *)
Definition rel_result (src : option ustr) (path : dval) : dval :=
  EVStruct [(rel_metadata_path, match src with Some p => EVSome (EVPath p) | None => EVNone end);
            (rel_path, path)].

(** A value that does not carry the reserved keys. *)
Definition not_relative (v : value) : Prop :=
  match v with
  | VDict _ d => ~ In rel_metadata_path (map fst d) /\ ~ In rel_path (map fst d)
  | _ => True
  end.
