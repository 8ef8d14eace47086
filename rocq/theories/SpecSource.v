(** Specification of whose word counts at a path, when providers are merged. *)
From Coq Require Import List Bool.
From Verif Require Import Res BMap Str Profile Tag Num Value Metadata Err Coalesce Figment.
From Verif Require Import SpecValue SpecFigment SpecRt SpecView.
Import ListNotations.

(** The profiles that are looked at when [prof] is selected, later ones over earlier ones. *)
Definition looked_at (prof : profile) : list profile :=
  p_default :: (if is_custom prof then [prof] else []) ++ [p_global].

(** [decides prof l p q loc pr x]: after the history [l], the value at [p] is [x], and the provider
    [pr], merged at [loc], is the one who says so, in the profile [q]: no provider merged after it has
    anything to say about [p] in [q], and nothing is said about it in a profile that goes over [q]. *)
Definition decides (prof : profile) (l : list op) (p : list ustr) (q : profile) (loc : location) (pr : provider) (x : value) : Prop :=
  (exists below above, looked_at prof = below ++ q :: above /\
     forall q', In q' above -> free (layer q' l blank) p) /\
  exists before after, l = before ++ OpProvide loc Merge pr :: after /\
    said q pr p (Leaf x) /\
    forall loc' o' pr', In (OpProvide loc' o' pr') after -> free (said q pr') p.
