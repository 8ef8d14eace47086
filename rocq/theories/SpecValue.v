(** Specification vocabulary for values: paths, leaves, and the documented
    conflict-resolution table (/repo/src/figment.rs:41-60, 173-334).  Nothing here is used by
    the model of the code. *)
From Coq Require Import NArith Bool List.
From Verif Require Import BMap Str Profile Tag Num Value Coalesce.
Import ListNotations.

Definition is_dict (v : value) : bool := match v with VDict _ _ => true | _ => false end.
Definition is_array (v : value) : bool := match v with VArray _ _ => true | _ => false end.

(** The value reached from [v] by looking up the keys of [p] one after the other. *)
Fixpoint at_path (p : list ustr) (v : value) : option value :=
  match p with
  | [] => Some v
  | k :: r =>
      match v with
      | VDict _ d => match get k d with Some x => at_path r x | None => None end
      | _ => None
      end
  end.

(** A scalar or array at path [p]. *)
Definition leaf_at (p : list ustr) (v x : value) : Prop :=
  at_path p v = Some x /\ is_dict x = false.

(** [q] is a prefix of [p]. *)
Definition prefix_of {A} (q p : list A) : Prop := exists r, p = q ++ r.

(** "join, adjoin: the existing value wins"; "adjoin, admerge: arrays are concatenated". *)
Definition keeps_existing (o : order) : bool :=
  match o with Join | Adjoin => true | Merge | Admerge => false end.
Definition concatenates (o : order) : bool :=
  match o with Adjoin | Admerge => true | Join | Merge => false end.

(** Two values that are neither kept nor replaced but combined. *)
Definition combinable (o : order) (a b : value) : bool :=
  (is_dict a && is_dict b) || (concatenates o && is_array a && is_array b).

(** [combined o a b c]: [c] is the documented result of bringing [b] into [a]. *)
Inductive combined (o : order) : value -> value -> value -> Prop :=
| CB_dict ta a tb b c :
    sorted c ->
    (forall k, get k a = None -> get k b = None -> get k c = None) ->
    (forall k x, get k a = Some x -> get k b = None -> get k c = Some x) ->
    (forall k y, get k a = None -> get k b = Some y -> get k c = Some y) ->
    (forall k x y, get k a = Some x -> get k b = Some y ->
                   exists z, get k c = Some z /\ combined o x y z) ->
    combined o (VDict ta a) (VDict tb b) (VDict (if keeps_existing o then ta else tb) c)
| CB_array ta a tb b :
    concatenates o = true ->
    combined o (VArray ta a) (VArray tb b) (VArray ta (a ++ b))
| CB_keep a b : keeps_existing o = true -> combinable o a b = false -> combined o a b a
| CB_replace a b : keeps_existing o = false -> combinable o a b = false -> combined o a b b.

(** The same for dictionaries and for the per-profile maps of dictionaries. *)
Definition dict_combined (o : order) (a b c : dict) : Prop :=
  combined o (VDict tag_default a) (VDict tag_default b) (VDict tag_default c).

Definition profiles_combined (o : order) (a b c : bmap profile dict) : Prop :=
  sorted c /\
  (forall p, get p a = None -> get p b = None -> get p c = None) /\
  (forall p x, get p a = Some x -> get p b = None -> get p c = Some x) /\
  (forall p y, get p a = None -> get p b = Some y -> get p c = Some y) /\
  (forall p x y, get p a = Some x -> get p b = Some y ->
                 exists z, get p c = Some z /\ dict_combined o x y z).

(** Well-formed per-profile data: [BTreeMap]s of [BTreeMap]s. *)
Definition wf_profiles (m : bmap profile dict) : Prop :=
  sorted m /\ Forall (fun pd => wf_dict (snd pd)) m.

(** [b] has no value at [p] and no scalar or array above it: [p] is free in [b]. *)
Definition open_at (p : list ustr) (b : value) : Prop :=
  at_path p b = None /\
  forall q y, prefix_of q p -> at_path q b = Some y -> is_dict y = true.

(** No path at which [a] and [c] would be combined but [b] stands in between. *)
Definition no_clash (o : order) (a b c : value) : Prop :=
  forall p x y z, at_path p a = Some x -> at_path p b = Some y -> at_path p c = Some z ->
  combinable o x z = true -> combinable o x y = true.

(** No path is a dictionary in one value and something else in the other. *)
Definition compatible (a b : value) : Prop :=
  forall p x y, at_path p a = Some x -> at_path p b = Some y -> is_dict x = is_dict y.

(** Steps into a value: a key of a dictionary, or some element of an array. *)
Inductive step := SKey (k : ustr) | SElem.
Inductive reach : list step -> value -> value -> Prop :=
| R_here v : reach [] v v
| R_key k r t d x y : get k d = Some x -> reach r x y -> reach (SKey k :: r) (VDict t d) y
| R_elem r t l x y : In x l -> reach r x y -> reach (SElem :: r) (VArray t l) y.

(** The same scalar, or both dictionaries, or both arrays (tags aside). *)
Definition same_head (x y : value) : Prop :=
  match x, y with
  | VDict _ _, VDict _ _ => True
  | VArray _ _, VArray _ _ => True
  | _, _ => set_tag tag_default x = set_tag tag_default y
  end.

(** Every tag in the value, at any depth, satisfies [P]. *)
Definition all_tags (P : tag -> Prop) (v : value) : Prop :=
  forall p x, reach p v x -> P (vtag x).
