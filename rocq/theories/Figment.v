(** Figments and providers: /repo/src/figment.rs, /repo/src/provider.rs.

    Typed extraction ([extract], [extract_inner] and their lossy variants) is in De.v. *)
From Coq Require Import NArith Bool List.
From Verif Require Import Res BMap Str Profile Tag Num Value Metadata Err Coalesce.
Import ListNotations.

(** [trait Provider], provider.rs:83-102: the results of its four methods at the moment
    the provider is provided. *)
Record provider := mkProvider {
  pv_metadata : metadata;
  pv_data : res error (bmap profile dict);
  pv_profile : option profile;
  pv_metadata_map : option (bmap tag metadata)
}.

(** [struct Figment], figment.rs:99-104. *)
Record figment := mkFigment {
  f_profile : profile;
  f_metadata : bmap tag metadata;
  f_value : res error (bmap profile dict)
}.

(** [Figment::new], figment.rs:117-123. *)
Definition fig_new : figment := mkFigment p_default [] (Ok []).

(** The retagging loop of [provide], figment.rs:161-163. *)
Definition retag_data (t : tag) (new : bmap profile dict) : bmap profile dict :=
  map (fun pd => (fst pd, map (fun kv => (fst kv, map_tag (fun _ => for_profile t (fst pd)) (snd kv)))
                              (snd pd))) new.

(** [Figment::provide], figment.rs:142-170.  [loc] is [Location::caller()]; [counter] is
    the global tag counter before and after the call. *)
Definition provide (loc : location) (self : figment) (p : provider) (o : order)
                   (counter : N) : out figment * N :=
  let md1 := match pv_metadata_map p with
             | Some m => extend (f_metadata self) m
             | None => f_metadata self
             end in
  let prof := match pv_profile p with
              | Some q => profile_coalesce (f_profile self) q o
              | None => f_profile self
              end in
  let metadata := md_with_location (pv_metadata p) loc in
  let '(t, counter') := tag_next counter in
  (out_map (fun t =>
      let md2 := insert t metadata md1 in
      let value := match pv_data p, f_value self with
                   | Ok _, Err e => Err e
                   | Err e, Ok _ => Err (retagged t e)
                   | Err e, Err prev => Err (chain (retagged t e) prev)
                   | Ok new, Ok old => Ok (pcoalesce o old (retag_data t new))
                   end in
      mkFigment prof md2 value) t,
   counter').

(** [join], [adjoin], [merge], [admerge], figment.rs:209-211, 250-252, 291-293, 332-334. *)
Definition fig_join loc self p c := provide loc self p Join c.
Definition fig_adjoin loc self p c := provide loc self p Adjoin c.
Definition fig_merge loc self p c := provide loc self p Merge c.
Definition fig_admerge loc self p c := provide loc self p Admerge c.

(** [Figment::from], figment.rs:137-139. *)
Definition fig_from loc p c := fig_merge loc fig_new p c.

(** [Figment::select], figment.rs:346-349. *)
Definition fig_select (self : figment) (p : profile) : figment :=
  mkFigment p (f_metadata self) (f_value self).

(** [Error::resolved] with a Figment, error.rs:157-168. *)
Definition resolved (e : error) (f : figment) : error :=
  resolved_with (f_metadata f) (f_profile f) e.

(** [map.remove(k).unwrap_or_default()], figment.rs:354-355. *)
Definition take_or_empty (p : profile) (m : bmap profile dict) : dict * bmap profile dict :=
  match take p m with Some (d, r) => (d, r) | None => ([], m) end.

(** [Figment::merged], figment.rs:352-363. *)
Definition merged (self : figment) : res error value :=
  match f_value self with
  | Err e => Err (resolved e self)
  | Ok map0 =>
      let '(def, map1) := take_or_empty p_default map0 in
      let '(global, map2) := take_or_empty p_global map1 in
      let m := match take (f_profile self) map2 with
               | Some (v, _) =>
                   if is_custom (f_profile self) then dmerge (dmerge def v) global
                   else dmerge def global
               | None => dmerge def global
               end in
      Ok (VDict tag_default m)
  end.

(** [Figment::focus], figment.rs:416-435.  The filtered iteration is collected into a new
    map. *)
Fixpoint focus_entries (key : ustr) (m : list (profile * dict)) : list (profile * dict) :=
  match m with
  | [] => []
  | (k, v) :: r =>
      match option_bind (vfind key (VDict tag_default v)) as_dict with
      | Some d => (k, d) :: focus_entries key r
      | None => focus_entries key r
      end
  end.
Definition try_focus (self : figment) (key : ustr) : res error (bmap profile dict) :=
  match f_value self with
  | Err e => Err (resolved e self)
  | Ok m => Ok (collect (focus_entries key m))
  end.
Definition focus (self : figment) (key : ustr) : figment :=
  mkFigment (f_profile self) (f_metadata self) (try_focus self key).

(** [Figment::metadata], figment.rs:635-637. *)
Definition fig_metadata (self : figment) : list metadata := values (f_metadata self).

(** [Figment::profiles], figment.rs:687-693. *)
Definition fig_profiles (self : figment) : list profile :=
  match f_value self with Ok m => keys m | Err _ => [] end.

(** [Figment::find_value], figment.rs:741-745. *)
Definition find_value (self : figment) (path : ustr) : res error value :=
  match merged self with
  | Err e => Err e
  | Ok v => match vfind path v with
            | Some x => Ok x
            | None => Err (err_of_kind (KMissingField path))
            end
  end.

(** [Figment::contains], figment.rs:786-788. *)
Definition fig_contains (self : figment) (path : ustr) : bool :=
  match merged self with
  | Err _ => false
  | Ok v => match vfind_ref path v with Some _ => true | None => false end
  end.

(** [Figment::get_metadata], figment.rs:851-853. *)
Definition get_metadata (self : figment) (t : tag) : option metadata := get t (f_metadata self).

(** [Figment::find_metadata], figment.rs:818-820. *)
Definition find_metadata (self : figment) (key : ustr) : option metadata :=
  match find_value self key with
  | Ok v => get (vtag v) (f_metadata self)
  | Err _ => None
  end.

(** [Provider for Figment], figment.rs:856-868. *)
Definition figment_provider (f : figment) : provider :=
  mkProvider md_default (f_value f) (Some (f_profile f)) (Some (f_metadata f)).

Global Arguments provide : simpl never.
Global Arguments merged : simpl never.
