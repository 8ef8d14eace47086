(** Specification of what a Figment holds at every path, for every history of operations:
    described path by path, as an overlay of what the providers say. *)
From Coq Require Import NArith Bool List.
From Verif Require Import Res BMap Str Profile Tag Num Value Metadata Err Coalesce Figment
  SpecValue SpecFigment SpecRt.
Import ListNotations.

(** What can be seen at a path: a table (whatever is in it), or a value that is no table. *)
Inductive node := Table | Leaf (v : value).

(** What can be seen where. *)
Definition view := list ustr -> node -> Prop.

(** What can be seen in a value. *)
Definition view_of (v : value) : view := fun p n =>
  match n with
  | Table => exists t d, at_path p v = Some (VDict t d)
  | Leaf x => leaf_at p v x
  end.

(** A table with nothing in it. *)
Definition blank : view := fun p n => p = [] /\ n = Table.

(** Nothing at the path, and nothing but tables above it. *)
Definition free (V : view) (p : list ustr) : Prop :=
  (forall n, ~ V p n) /\ forall q n, prefix_of q p -> V q n -> n = Table.

(** [B] laid over [A]: [A] shows through where [B] is free. *)
Definition over (A B : view) : view := fun p n => B p n \/ (free B p /\ A p n).

(** [B] brought into [A]: laid over or put under it, but for arrays that are concatenated. *)
Definition appended (o : order) (A B : view) (p : list ustr) (n : node) : Prop :=
  concatenates o = true /\
  exists ta x tb y, A p (Leaf (VArray ta x)) /\ B p (Leaf (VArray tb y)) /\
                    n = Leaf (VArray ta (x ++ y)).
Definition brought (o : order) (A B : view) : view := fun p n =>
  appended o A B p n \/
  ((forall n', ~ appended o A B p n') /\ (if keeps_existing o then over B A else over A B) p n).

(** What a provider says in a profile, sources aside. *)
Definition said (q : profile) (p : provider) : view :=
  match pv_data p with
  | Ok m => view_of (untag (VDict tag_default (data_of m q)))
  | Err _ => blank
  end.

(** What a history says in a profile. *)
Fixpoint layer (q : profile) (l : list op) (A : view) : view :=
  match l with
  | [] => A
  | OpProvide _ o p :: r => layer q r (brought o A (said q p))
  | OpSelect _ :: r => layer q r A
  end.

Definition held (prof : profile) (l : list op) : view :=
  over (if is_custom prof
        then over (layer p_default l blank) (layer prof l blank)
        else layer p_default l blank)
       (layer p_global l blank).

(** Every provider's data is what Rust's maps can hold. *)
Definition sound_ops (l : list op) : Prop :=
  forall loc o p m, In (OpProvide loc o p) l -> pv_data p = Ok m -> wf_profiles m.

(** Operations that merge, or select a profile. *)
Definition merge_only (l : list op) : Prop :=
  forall loc o p, In (OpProvide loc o p) l -> o = Merge.
