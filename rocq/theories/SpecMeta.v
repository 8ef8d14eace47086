(** What metadata and profiles are to say: calls as data, names up to case. *)
From Coq Require Import Ascii String NArith Bool List.
From Verif Require Import Res BMap Str Profile Metadata SpecText.
Import ListNotations.

(** The calls after [Metadata::named]. *)
Inductive md_call :=
| CallSource (s : source)
| CallInterpolater (f : profile -> list ustr -> ustr).
Definition md_apply (m : metadata) (c : md_call) : metadata :=
  match c with CallSource s => md_with_source m s | CallInterpolater f => md_with_interpolater m f end.
Definition md_built (name : ustr) (calls : list md_call) : metadata := fold_left md_apply calls (md_named name).

(** The last source, the last interpolater among the calls. *)
Definition last_source (calls : list md_call) (s : source) : Prop :=
  exists before after, calls = before ++ CallSource s :: after /\ forall s', ~ In (CallSource s') after.
Definition last_interpolater (calls : list md_call) (f : profile -> list ustr -> ustr) : Prop :=
  exists before after, calls = before ++ CallInterpolater f :: after /\ forall f', ~ In (CallInterpolater f') after.

(** A name begins with another, capitals or not. *)
Definition begins_like (name prefix : ustr) : Prop := exists a b, name = a ++ b /\ alike a prefix.
