(** Specification of "which provider wins" for a history of operations. *)
From Coq Require Import NArith Bool List.
From Verif Require Import Res BMap Str Profile Tag Num Value Metadata Err Coalesce Figment
  SpecValue SpecFigment.
Import ListNotations.
Local Open Scope N_scope.

(** A provided provider with the identifier it drew. *)
Record entry := mkEntry { en_id : N; en_loc : location; en_provider : provider }.

(** Providers in order of priority, highest first: merging puts a provider in front of
    everything before it, joining behind. *)
Fixpoint priority (l : list op) (c : N) (acc : list entry) : list entry :=
  match l with
  | [] => acc
  | OpProvide loc o p :: r =>
      let e := mkEntry c loc p in
      priority r (c + 1) (if keeps_existing o then acc ++ [e] else e :: acc)
  | OpSelect _ :: r => priority r c acc
  end.

(** What a provider has at [path] in profile [q]. *)
Definition supplies (q : profile) (path : list ustr) (p : provider) : option value :=
  match pv_data p with
  | Ok m => match get q m with
            | Some d => at_path path (VDict tag_default d)
            | None => None
            end
  | Err _ => None
  end.

(** Candidates: every provider in the global profile, then in the selected profile if it is a
    custom one, then in the default profile. *)
Definition candidates (prof : profile) (l : list entry) : list (profile * entry) :=
  map (pair p_global) l ++
  (if is_custom prof then map (pair prof) l else []) ++
  map (pair p_default) l.

(** The first candidate that has something at [path]. *)
Fixpoint winner (path : list ustr) (l : list (profile * entry)) : option (profile * entry * value) :=
  match l with
  | [] => None
  | (q, e) :: r => match supplies q path (en_provider e) with
                   | Some y => Some (q, e, y)
                   | None => winner path r
                   end
  end.

Definition provided_in (l : list op) (p : provider) : Prop :=
  exists loc o, In (OpProvide loc o p) l.

(** No path is a dictionary in one place and something else in another. *)
Definition shape_compatible (l : list op) : Prop :=
  forall p1 p2 m1 m2 q1 q2 d1 d2,
    provided_in l p1 -> provided_in l p2 ->
    pv_data p1 = Ok m1 -> pv_data p2 = Ok m2 ->
    get q1 m1 = Some d1 -> get q2 m2 = Some d2 ->
    compatible (VDict tag_default d1) (VDict tag_default d2).

Definition uses_concatenation (l : list op) : bool :=
  existsb (fun x => match x with OpProvide _ o _ => concatenates o | OpSelect _ => false end) l.

(** Values the priority order decides: scalars, and arrays unless some operation
    concatenates arrays. *)
Definition decided (l : list op) (x : value) : Prop :=
  is_dict x = false /\ (uses_concatenation l = true -> is_array x = false).

(** A value without its tags. *)
Fixpoint strip (v : value) : value :=
  match v with
  | VString _ x => VString tag_default x
  | VChar _ x => VChar tag_default x
  | VBool _ x => VBool tag_default x
  | VNum _ x => VNum tag_default x
  | VEmpty _ x => VEmpty tag_default x
  | VDict _ d => VDict tag_default (map (fun kv => (fst kv, strip (snd kv))) d)
  | VArray _ l => VArray tag_default (map strip l)
  end.

(** [x] is what [e] supplied as [y] in profile [q]: the same data, every tag naming [e]. *)
Definition supplied_by (q : profile) (e : entry) (y x : value) : Prop :=
  strip x = strip y /\
  all_tags (fun t => metadata_id t = en_id e /\ tag_profile_tag t = tag_of_profile q) x.
