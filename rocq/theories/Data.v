(** The [Data] provider and the resolving of [RelativePathBuf]: /repo/src/providers/data.rs,
    /repo/src/value/magic.rs:228-308.

    The file system is what the code asks of it: whether a path names a file or a directory,
    and the text read from it.  A question about a relative path is answered by the operating
    system against the working directory; the answers are arbitrary here.  Simplification:
    [metadata] and [data] look at the same, unchanging file system (the code asks twice). *)
From Coq Require Import Ascii String NArith Bool.
From Coq Require Import List.
From Verif Require Import Res BMap Str Profile Tag Num Value Metadata Err Figment De Path.
Import ListNotations.

(** [Path::is_file], [Path::is_dir], [std::fs::read_to_string] (with the text of the I/O
    error) and [std::env::current_dir().ok()]. *)
Record fsys := mkFsys {
  fs_is_file : ustr -> bool;
  fs_is_dir : ustr -> bool;
  fs_read : ustr -> res ustr ustr;
  fs_cwd : option ustr
}.

(** [trait Format], data.rs:429-485.  A format is a parser for the two types the crate asks
    for, with errors as their text, and [de::Error::custom] of its error type.  The parsers
    (toml, serde_json, serde_yaml) are not modelled. *)
Record format := mkFormat {
  fm_name : ustr;
  fm_dict : ustr -> res ustr dict;
  fm_map : ustr -> res ustr (bmap profile dict);
  fm_custom : ustr -> ustr
}.

(** [Format::from_path], data.rs:481-484. *)
Definition from_path {T} (fm : format) (fs : fsys) (parse : ustr -> res ustr T) (path : ustr)
  : res ustr T :=
  res_bind (res_map_err (fm_custom fm) (fs_read fs path)) parse.

(** [enum Source], data.rs:67-71, and [struct Data], data.rs:59-65. *)
Inductive data_source :=
| DFile (path : ustr) (required search : bool)
| DText (s : ustr).
Record data := mkData { da_source : data_source; da_profile : option profile }.

(** [Data::file], data.rs:114-120; [Data::string], 151-153; [Data::file_exact], 160-162. *)
Definition data_file (path : ustr) : data := mkData (DFile path false true) (Some p_default).
Definition data_string (s : ustr) : data := mkData (DText s) (Some p_default).

(** [Data::nested], data.rs:209-212; [required], 260-266; [search], 305-311; [profile],
    330-333. *)
Definition data_nested (d : data) : data := mkData (da_source d) None.
Definition data_required (d : data) (yes : bool) : data :=
  match da_source d with
  | DFile path _ search => mkData (DFile path yes search) (da_profile d)
  | DText _ => d
  end.
Definition data_search (d : data) (enabled : bool) : data :=
  match da_source d with
  | DFile path required _ => mkData (DFile path required enabled) (da_profile d)
  | DText _ => d
  end.
Definition data_with_profile (d : data) (p : profile) : data := mkData (da_source d) (Some p).
Definition data_file_exact (path : ustr) : data := data_search (data_file path) false.

(** The loop of [Data::resolve], data.rs:344-353.  Each round shortens [cwd], so the length
    of its text bounds the number of rounds; [NoFuel] is shown to be unreachable. *)
Fixpoint resolve_loop (fuel : nat) (fs : fsys) (path cwd : ustr) : out (option ustr) :=
  match fuel with
  | O => NoFuel
  | S n =>
      let file_path := path_join cwd path in
      if fs_is_file fs file_path then Ret (Some file_path)
      else match path_parent cwd with
           | None => Ret None
           | Some up => resolve_loop n fs path up
           end
  end.

(** [Data::resolve], data.rs:339-354. *)
Definition resolve (fs : fsys) (path : ustr) (search : bool) : out (option ustr) :=
  if has_root path || negb search then
    Ret (if fs_is_file fs path then Some path else None)
  else match fs_cwd fs with
       | None => Ret None
       | Some cwd => resolve_loop (S (length cwd)) fs path cwd
       end.

(** [Data::metadata], data.rs:358-367. *)
Definition data_metadata (fm : format) (fs : fsys) (d : data) : out metadata :=
  match da_source d with
  | DText _ => Ret (md_named (fm_name fm ++ lit " source string"))
  | DFile path _ search =>
      out_map (fun found =>
                 let p := match found with Some q => q | None => path end in
                 md_from (fm_name fm ++ lit " file") (SFile p))
              (resolve fs path search)
  end.

(** [Data::data], data.rs:369-390. *)
Definition data_data (fm : format) (fs : fsys) (d : data) : out (res error (bmap profile dict)) :=
  let told (r : res ustr (bmap profile dict)) : res error (bmap profile dict) :=
    res_map_err err_msg r in
  match da_source d, da_profile d with
  | DFile path required search, prof =>
      out_map (fun found =>
        match found with
        | Some p =>
            match prof with
            | Some pr => told (res_map (profile_collect pr) (from_path fm fs (fm_dict fm) p))
            | None => told (from_path fm fs (fm_map fm) p)
            end
        | None =>
            if negb required then told (Ok [])
            else Err (err_msg (lit "required file `" ++ path ++ lit "` not found"))
        end) (resolve fs path search)
  | DText s, None => Ret (told (fm_map fm s))
  | DText s, Some pr => Ret (told (res_map (profile_collect pr) (fm_dict fm s)))
  end.

(** The provider handed to [Figment::merge] and friends; [Data] keeps the default
    [Provider::profile] and [__metadata_map]. *)
Definition data_provider (fm : format) (fs : fsys) (d : data) : out provider :=
  out_bind (data_metadata fm fs d) (fun md =>
  out_map (fun r => mkProvider md r None None) (data_data fm fs d)).

(** [RelativePathBuf::relative], magic.rs:296-308, of a path with the given metadata path
    and original. *)
Definition relative (fs : fsys) (metadata_path : option ustr) (original : ustr) : ustr :=
  if has_root original then original
  else match option_bind metadata_path (fun root =>
               if fs_is_dir fs root then Some root else path_parent root) with
       | Some root => path_join root original
       | None => original
       end.
