(** Metadata: /repo/src/metadata.rs. *)
From Coq Require Import Ascii String NArith Bool List.
From Verif Require Import Res BMap Str Profile.
Import ListNotations.

(** [std::panic::Location]: file, line and column of a caller. *)
Record location := mkLoc { loc_file : ustr; loc_line : N; loc_col : N }.
Definition location_eqb (a b : location) : bool :=
  ueqb (loc_file a) (loc_file b) && N.eqb (loc_line a) (loc_line b) && N.eqb (loc_col a) (loc_col b).

(** [enum Source], metadata.rs:219-228.  A [PathBuf] is its text. *)
Inductive source := SFile (p : ustr) | SCode (l : location) | SCustom (s : ustr).

(** [struct Metadata], metadata.rs:71-81.  The boxed interpolater closure is a function. *)
Record metadata := mkMetadata {
  md_name : ustr;
  md_source : option source;
  md_location : option location;
  md_interpolater : profile -> list ustr -> ustr
}.

(** [default_interpolater], metadata.rs:334-336. *)
Definition default_interpolater (p : profile) (keys : list ustr) : ustr :=
  pname p ++ lit "." ++ join (lit ".") keys.

(** [Metadata::default], metadata.rs:197-206. *)
Definition md_default : metadata := mkMetadata (lit "Default") None None default_interpolater.

(** [Metadata::named], metadata.rs:114-116. *)
Definition md_named (name : ustr) : metadata := mkMetadata name None None default_interpolater.

(** [Metadata::source], metadata.rs:130-133. *)
Definition md_with_source (m : metadata) (s : source) : metadata :=
  mkMetadata (md_name m) (Some s) (md_location m) (md_interpolater m).

(** [Metadata::from], metadata.rs:96-100. *)
Definition md_from (name : ustr) (s : source) : metadata := md_with_source (md_named name) s.

(** [Metadata::interpolater], metadata.rs:157-162. *)
Definition md_with_interpolater (m : metadata) (f : profile -> list ustr -> ustr) : metadata :=
  mkMetadata (md_name m) (md_source m) (md_location m) f.

(** Assigning [provide_location], figment.rs:152. *)
Definition md_with_location (m : metadata) (l : location) : metadata :=
  mkMetadata (md_name m) (md_source m) (Some l) (md_interpolater m).

(** [Metadata::interpolate], metadata.rs:185-188. *)
Definition md_interpolate (m : metadata) (p : profile) (keys : list ustr) : ustr :=
  md_interpolater m p keys.

(** [Source]'s accessors, metadata.rs:242-283. *)
Definition source_file_path (s : source) : option ustr :=
  match s with SFile p => Some p | _ => None end.
Definition source_code_location (s : source) : option location :=
  match s with SCode l => Some l | _ => None end.
Definition source_custom (s : source) : option ustr :=
  match s with SCustom c => Some c | _ => None end.
