(** Conflict resolution: /repo/src/coalesce.rs. *)
From Coq Require Import List.
From Verif Require Import Res BMap Str Profile Tag Num Value.
Import ListNotations.

(** [enum Order], coalesce.rs:4-10. *)
Inductive order := Merge | Join | Adjoin | Admerge.

(** [Coalescible for Profile], coalesce.rs:17-24. *)
Definition profile_coalesce (self other : profile) (o : order) : profile :=
  match o with
  | Join | Adjoin => self
  | Merge | Admerge => other
  end.

(** [Coalescible for Map<K, V>], coalesce.rs:37-51.  [joined] and [other] are the loop's
    mutable state; [f] is [V::coalesce] at the given order. *)
Section MapCoalesce.
  Context {K V : Type} `{Cmp K} (f : V -> V -> V).

  Fixpoint mc_loop (self joined other : bmap K V) : bmap K V :=
    match self with
    | [] => extend joined other
    | (a_key, a_val) :: r =>
        match take a_key other with
        | Some (b_val, other') => mc_loop r (insert a_key (f a_val b_val) joined) other'
        | None => mc_loop r (insert a_key a_val joined) other
        end
    end.

  Definition map_coalesce (self other : bmap K V) : bmap K V := mc_loop self [] other.
End MapCoalesce.

(** [Coalescible for Value], coalesce.rs:26-35. *)
Fixpoint vcoalesce (o : order) (self other : value) {struct self} : value :=
  match self, other, o with
  | VDict t a, VDict _ b, (Join | Adjoin) => VDict t (map_coalesce (vcoalesce o) a b)
  | VDict _ a, VDict t b, (Merge | Admerge) => VDict t (map_coalesce (vcoalesce o) a b)
  | VArray t a, VArray _ b, (Adjoin | Admerge) => VArray t (a ++ b)
  | v, _, (Join | Adjoin) => v
  | _, v, (Merge | Admerge) => v
  end.

(** The [Map] instance at [Dict] and at [Map<Profile, Dict>]. *)
Definition dcoalesce (o : order) (a b : dict) : dict := map_coalesce (vcoalesce o) a b.
Definition pcoalesce (o : order) (a b : bmap profile dict) : bmap profile dict :=
  map_coalesce (dcoalesce o) a b.

(** [Coalescible::merge], coalesce.rs:14, at [Dict]. *)
Definition dmerge (a b : dict) : dict := dcoalesce Merge a b.
